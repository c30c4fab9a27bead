(** Keys of the page: proofs. *)
From Coq Require Import List Bool Arith NArith ZArith Ascii String Lia.
From Verif Require Import StoreModel DebuggerModel ServerModel GuiModel GuiSpec GuiBasics GuiShown.
Import ListNotations.
Local Open Scope list_scope.

Section Keys.
Context {M A : Type}.
Notation matches := (matches_combo (M := M) (A := A)).
Notation keyboard := (keyboard (M := M) (A := A)).
Notation fires := (fires (M := M) (A := A)).
Notation chord := (chord (M := M) (A := A)).

Lemma pressed_iff : forall c l, is_pressed c l = true <-> In c l.
Proof.
  intros c l. unfold is_pressed. rewrite existsb_exists. split.
  - intros (x & I & E). apply Nat.eqb_eq in E. subst. exact I.
  - intros I. exists c. split; [exact I|apply Nat.eqb_refl].
Qed.
Lemma keyboard_snoc : forall ks k, keyboard (ks ++ [k]) = fst (keys_update k (keyboard ks)).
Proof. intros. unfold GuiSpec.keyboard. rewrite fold_left_app. reflexivity. Qed.
Lemma keyboard_active : forall ks, k_active (keyboard ks) = matches (k_keys (keyboard ks)).
Proof.
  intros ks. destruct ks as [|k ks] using rev_ind; [reflexivity|]. rewrite keyboard_snoc. reflexivity.
Qed.
Lemma held_snoc : forall ks k c, held (ks ++ [k]) c <-> k = KDown c \/ (held ks c /\ k <> KUp c).
Proof.
  intros ks k c. split.
  - intros (l1 & l2 & E & N). destruct l2 as [|x l2] using rev_ind.
    + apply app_inj_tail in E. left. tauto.
    + clear IHl2. rewrite app_comm_cons, app_assoc in E. apply app_inj_tail in E. destruct E as [-> ->].
      right. split.
      * exists l1, l2. split; [reflexivity|]. intros I. apply N, in_app_iff. auto.
      * intros ->. apply N, in_app_iff. right. left. reflexivity.
  - intros [->|[(l1 & l2 & -> & N) Nk]].
    + exists ks, []. split; [reflexivity|intros []].
    + exists l1, (l2 ++ [k]). split; [rewrite <- app_assoc; reflexivity|].
      intros I. apply in_app_iff in I. destruct I as [I|[I|[]]]; auto.
Qed.
Lemma remove_in : forall c x l, In x (remove c l) <-> In x l /\ x <> c.
Proof.
  intros c x l. unfold remove. rewrite filter_In, negb_true_iff, Nat.eqb_neq.
  split; intros [H1 H2]; split; auto.
Qed.
Lemma keyboard_held : forall ks c, In c (k_keys (keyboard ks)) <-> held ks c.
Proof.
  induction ks as [|k ks IH] using rev_ind; intros c.
  - cbn. split; [intros []|]. intros (l1 & l2 & E & _). destruct l1; discriminate E.
  - rewrite keyboard_snoc, held_snoc, <- IH. unfold keys_update. cbn [fst k_keys].
    destruct k as [d|d]; cbn [key_update].
    + unfold insert. cbn [In]. rewrite remove_in. split.
      * intros [->|[H N]]; [auto|]. right. split; [exact H|discriminate].
      * intros [E|[H _]]; [injection E as ->; auto|]. destruct (Nat.eq_dec d c); auto.
    + rewrite remove_in. split.
      * intros [H N]. right. split; [exact H|]. congruence.
      * intros [E|[H N]]; [discriminate E|]. split; [exact H|]. congruence.
Qed.

(** ** Chords *)
Lemma chord_iff : forall (h : nat -> Prop) l, (forall c, h c <-> In c l) ->
  forall m, chord h m <-> option_map snd (matches l) = Some m.
Proof.
  intros h l H m. unfold matches_combo. cbn [find keys fst forallb].
  assert (forall c, h c <-> is_pressed c l = true) as K by (intros c; rewrite H, pressed_iff; reflexivity).
  assert (K17 := K 17). assert (K90 := K 90). assert (K89 := K 89). assert (K16 := K 16).
  assert (K38 := K 38). assert (K40 := K 40). assert (K32 := K 32). clear K H.
  unfold control, key_z, key_y, shift, up, down, space.
  destruct (is_pressed 17 l), (is_pressed 90 l), (is_pressed 89 l), (is_pressed 16 l), (is_pressed 38 l),
    (is_pressed 40 l), (is_pressed 32 l); cbn;
  (split;
   [intros C; destruct C; try reflexivity; exfalso; intuition discriminate
   |intros E; try discriminate E; injection E as <-; constructor; intuition discriminate]).
Qed.
Lemma combo_eqb_iff : forall l1 l2, combo_eqb (matches l1) (matches l2) = true <->
  option_map snd (matches l1) = option_map snd (matches l2).
Proof.
  intros l1 l2.
  assert (forall l, matches l = None \/ In (matches l) (map Some (keys (M := M) (A := A)))) as K.
  { intros l. destruct (matches l) as [c|] eqn:E; [|auto]. right. apply in_map. unfold matches_combo in E.
    apply find_some in E. tauto. }
  assert (forall a b, a = None \/ In a (map Some (keys (M := M) (A := A))) -> b = None \/ In b (map Some (keys (M := M) (A := A))) ->
    combo_eqb a b = true <-> option_map snd a = option_map snd b) as Q; [|exact (Q _ _ (K l1) (K l2))].
  clear. intros a b Ha Hb. cbn in Ha, Hb.
  destruct Ha as [->|[<-|[<-|[<-|[<-|[<-|[<-|[<-|[]]]]]]]]];
  destruct Hb as [->|[<-|[<-|[<-|[<-|[<-|[<-|[<-|[]]]]]]]]]; cbn; split; intros; (reflexivity || discriminate).
Qed.
Theorem fires_iff : forall ks k m, fires ks k = [PerformMsg m] <-> chord (held (ks ++ [k])) m /\ ~ chord (held ks) m.
Proof.
  intros ks k m.
  rewrite (chord_iff (held (ks ++ [k])) (k_keys (keyboard (ks ++ [k])))) by (intros c; symmetry; apply keyboard_held).
  rewrite (chord_iff (held ks) (k_keys (keyboard ks))) by (intros c; symmetry; apply keyboard_held).
  unfold GuiSpec.fires, keys_update. cbn [snd]. rewrite keyboard_active.
  assert (key_update k (k_keys (keyboard ks)) = k_keys (keyboard (ks ++ [k]))) as -> by (rewrite keyboard_snoc; reflexivity).
  assert (C := combo_eqb_iff (k_keys (keyboard (ks ++ [k]))) (k_keys (keyboard ks))).
  destruct (combo_eqb _ _).
  - destruct C as [C _]. rewrite (C eq_refl). split; [discriminate|tauto].
  - destruct (matches (k_keys (keyboard (ks ++ [k])))) as [c|]; cbn in *.
    + split.
      * intros E. injection E as <-. split; [reflexivity|]. intros E. destruct C as [_ C].
        discriminate C. symmetry. exact E.
      * intros [E _]. injection E as ->. reflexivity.
    + split; [discriminate|]. intros [E _]. discriminate E.
Qed.
Theorem fires_one : forall ks k, fires ks k = [] \/ exists m, fires ks k = [PerformMsg m].
Proof.
  intros. unfold GuiSpec.fires, keys_update. cbn [snd]. destruct (combo_eqb _ _); [auto|].
  destruct (matches_combo _); eauto.
Qed.
Theorem repeats : forall ks c, held ks c -> fires ks (KDown c) = [].
Proof.
  intros ks c H. destruct (fires_one ks (KDown c)) as [E|(m & E)]; [exact E|]. exfalso.
  assert (E' := E). apply fires_iff in E'. destruct E' as [C N]. apply N. revert C.
  rewrite (chord_iff (held (ks ++ [KDown c])) (k_keys (keyboard ks))).
  - rewrite (chord_iff (held ks) (k_keys (keyboard ks))) by (intros d; symmetry; apply keyboard_held). tauto.
  - intros d. rewrite keyboard_held, held_snoc. split.
    + intros [E0|[K _]]; [injection E0 as ->; exact H|exact K].
    + intros K. right. split; [exact K|discriminate].
Qed.

(** ** In a run *)
Context {W : Type}.
Variable encode_action : A -> str.
Variable encode_model : M -> str.
Variable reducer : M -> A -> option (M * option (prog M A W)).
Variables pause_eff resume_eff : prog (dmodel M A) (daction A) W.
Variable bits : N.
Notation happens := (happens encode_action encode_model reducer pause_eff resume_eff bits).
Notation after := (after encode_action encode_model reducer pause_eff resume_eff bits).
Lemma update_keys : forall (p : gmodel M A) m, (forall k, m <> ComboMsg k) -> pg_keys (fst (gui_update m p)) = pg_keys p.
Proof.
  intros p m N.
  assert (forall (q : gmodel M A) i, pg_keys (fst (select_step q i)) = pg_keys q) as K.
  { intros q i. destruct (select_cases q i) as [[-> _]|(_ & d & -> & _)]; reflexivity. }
  assert (forall i, pg_keys (fst (select_goto_step p i)) = pg_keys p) as K2.
  { intros i. unfold select_goto_step. apply K. }
  destruct m as [[st|]|[dt|]|r|i|i| | | | | | | | | | |k]; cbn [gui_update]; auto.
  - destruct (_ || _); [rewrite K|]; reflexivity.
  - destruct (_ =? _)%Z; reflexivity.
  - exfalso. exact (N k eq_refl).
Qed.
Lemma hear_keys : forall (s : sys M A) m, (forall k, m <> ComboMsg k) -> pg_keys (page (hear m s)) = pg_keys (page s).
Proof. intros s m N. destruct (hear_is m s) as (t & ->). apply update_keys; exact N. Qed.
Theorem run_keys : forall origin sv es, pg_keys (page (after (opened origin sv) es)) = keyboard (presses es).
Proof.
  intros origin sv. induction es as [|e es IH] using rev_ind; [reflexivity|].
  rewrite after_snoc. unfold presses. rewrite flat_map_app. fold (presses es).
  assert (V := inv_run encode_action encode_model reducer pause_eff resume_eff bits origin sv es (fun _ => True) (fun _ _ => I)).
  destruct e as [n|k| | |n|n|n|a| |]; cbn [GuiModel.happens flat_map]; rewrite ?app_nil_r.
  - destruct (nth_error _ n) as [[o m]|] eqn:E; [|exact IH]. rewrite hear_keys; [exact IH|]. intros k ->.
    apply nth_error_In, handlers_in in E. destruct E as [E|[E|[[E _]|[[E _]|(j & H & [E|E])]]]]; discriminate E.
  - rewrite keyboard_snoc, <- IH. destruct (hear_is (ComboMsg k) (after (opened origin sv) es)) as (t & ->). reflexivity.
  - rewrite hear_keys; [exact IH|discriminate].
  - destruct (self _) as [|m l] eqn:E; [exact IH|].
    assert (key_ok m) as Km.
    { assert (H := i_self _ _ _ _ _ _ V). rewrite E in H. inversion H; assumption. }
    rewrite hear_keys; [exact IH|]. intros k ->. destruct Km.
  - destruct (nth_error _ n) as [[q x]|]; exact IH.
  - destruct (nth_error _ n) as [[q x]|]; exact IH.
  - destruct (nth_error _ n) as [m|] eqn:E; [|exact IH]. rewrite hear_keys; [exact IH|]. intros k ->.
    assert (H := i_back _ _ _ _ _ _ V). rewrite Forall_forall in H. apply nth_error_In in E. exact (H _ E).
  - exact IH.
  - destruct (todo _); exact IH.
  - exact IH.
Qed.
Theorem run_fires : forall origin sv es k, let s := after (opened origin sv) es in
  self (after (opened origin sv) (es ++ [Presses k])) =
  self s ++ flat_map (fun c => match c with PerformMsg m => [m] | _ => [] end) (fires (presses es) k).
Proof.
  intros origin sv es k s. rewrite after_snoc. cbn [GuiModel.happens]. fold s.
  destruct (hear_is (ComboMsg k) s) as (t & ->). cbn [self gui_update snd].
  unfold s at 2. rewrite run_keys. reflexivity.
Qed.
End Keys.
