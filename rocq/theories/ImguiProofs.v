(** C80: proofs. *)
From Coq Require Import List Arith Bool Lia.
From Verif Require Import TodoModel ImguiModel ImguiSpec.
Import ListNotations.

Lemma none_drawn : forall f n k, (forall i, k <= i < k + n -> clicked f i = false) -> flat_map (draw_item f) (seq k n) = [].
Proof.
  induction n as [|n IH]; intros k H; [reflexivity|]. cbn [seq flat_map]. rewrite IH by (intros i L; apply H; lia).
  pose proof (H k ltac:(lia)) as C. unfold clicked in C. apply orb_false_iff in C. destruct C as [C D].
  unfold draw_item. rewrite C, D. reflexivity.
Qed.
Lemma none_kept : forall f m k, (forall i, k <= i < k + length m -> clicked f i = false) -> kept f k m = m.
Proof.
  intros f. induction m as [|x m IH]; intros k H; [reflexivity|]. cbn [kept length] in *. rewrite IH by (intros i L; apply H; lia).
  pose proof (H k ltac:(lia)) as C. unfold clicked in C. apply orb_false_iff in C. destruct C as [C D]. rewrite C, D. reflexivity.
Qed.
Lemma firstn_pre : forall (pre r : model), firstn (length pre) (pre ++ r) = pre.
Proof. induction pre as [|x pre IH]; intros r; [reflexivity|]. cbn [length Datatypes.app firstn]. rewrite IH. reflexivity. Qed.
Lemma skipn_pre : forall (pre r : model), skipn (length pre) (pre ++ r) = r.
Proof. induction pre as [|x pre IH]; intros r; [reflexivity|]. cbn [length Datatypes.app skipn]. apply IH. Qed.
Lemma skipn_past : forall (pre : model) x r, skipn (S (length pre)) (pre ++ x :: r) = r.
Proof. induction pre as [|y pre IH]; intros x r; [reflexivity|]. exact (IH x r). Qed.
Lemma at_toggle : forall pre x r, update (pre ++ x :: r) (At (length pre) Toggle) = pre ++ Item (negb (done x)) (what x) :: r.
Proof.
  intros pre x r. cbn [update]. rewrite app_length. cbn [length]. destruct (Nat.leb_spec (length pre + S (length r)) (length pre)); [lia|].
  unfold update_at. rewrite firstn_pre, skipn_pre, skipn_past. reflexivity.
Qed.
Lemma at_remove : forall pre x r, update (pre ++ x :: r) (At (length pre) Remove) = pre ++ r.
Proof.
  intros pre x r. cbn [update]. rewrite app_length. cbn [length]. destruct (Nat.leb_spec (length pre + S (length r)) (length pre)); [lia|].
  unfold erase. rewrite firstn_pre, skipn_past. reflexivity.
Qed.
Lemma drawn : forall f r pre,
  (forall i j, length pre <= i -> i < j < length pre + length r -> deleted f i = true -> clicked f j = false) ->
  fold_left update (flat_map (draw_item f) (seq (length pre) (length r))) (pre ++ r) = pre ++ kept f (length pre) r.
Proof.
  intros f. induction r as [|x r IH]; intros pre H; [reflexivity|]. cbn [length seq flat_map kept]. rewrite fold_left_app.
  set (x' := if checked f (length pre) then Item (negb (done x)) (what x) else x).
  assert (fold_left update (draw_item f (length pre)) (pre ++ x :: r) =
          pre ++ (if deleted f (length pre) then [] else [x']) ++ r) as ->.
  { unfold draw_item, x'. rewrite fold_left_app. destruct (checked f (length pre)); cbn [fold_left]; rewrite ?at_toggle;
      destruct (deleted f (length pre)); cbn [fold_left]; rewrite ?at_remove; reflexivity. }
  destruct (deleted f (length pre)) eqn:D; cbn [Datatypes.app].
  - assert (forall j, S (length pre) <= j < S (length pre) + length r -> clicked f j = false) as Z.
    { intros j L. apply (H (length pre) j); [lia|cbn [length]; lia|exact D]. }
    rewrite none_drawn, none_kept by exact Z. reflexivity.
  - specialize (IH (pre ++ [x'])). rewrite app_length in IH. cbn [length] in IH. rewrite Nat.add_1_r, <- !app_assoc in IH.
    apply IH. intros i j L1 L2. apply H; cbn [length]; lia.
Qed.
Lemma means : forall f m, one_by_one f m -> next m f = meant m f.
Proof.
  intros f m [E H]. unfold next, draw, meant. rewrite fold_left_app.
  assert (fold_left update (flat_map (draw_item f) (seq 0 (length m))) m = kept f 0 m) as K.
  { apply (drawn f m []). intros i j _ L. apply H. exact L. }
  destruct (entered f) as [[|c t]|]; cbn [fold_left update]; try exact K.
  rewrite none_drawn, none_kept by (intros i L; apply E; lia). reflexivity.
Qed.
Lemma means_all : forall fs m, (forall l1 f l2, fs = l1 ++ f :: l2 -> one_by_one f (fold_left meant l1 m)) ->
  fold_left next fs m = fold_left meant fs m.
Proof.
  induction fs as [|f fs IH]; intros m H; [reflexivity|]. cbn [fold_left].
  rewrite (means f m (H [] f fs eq_refl)). apply IH. intros l1 g l2 E. apply (H (f :: l1) g l2). rewrite E. reflexivity.
Qed.
