(** Structural lemmas about the node graph. *)
From Coq Require Import List Arith Bool Lia.
From Verif Require Import NodesModel.
Import ListNotations.

Section Base.
Context {V W : Type}.
Variable changed : V -> V -> bool.
Variable ordV : graph V W -> nat -> list (nat * V) -> list (nat * V).
Variable ordN : graph V W -> nat -> list nat -> list nat.

Set Default Proof Using "Type".
Implicit Types g : graph V W.

Lemma nd_upd_same : forall g n h, nd (upd g n h) n = h (nd g n).
Proof. intros; simpl. now rewrite Nat.eqb_refl. Qed.
Lemma nd_upd_other : forall g n h m, m <> n -> nd (upd g n h) m = nd g m.
Proof. intros; simpl. now rewrite (proj2 (Nat.eqb_neq m n)). Qed.

(** ** Equal structure: everything but values and propagation flags *)
Record same_struct (g g' : graph V W) : Prop := {
  ss_cnt : cnt g' = cnt g;
  ss_nexts : nexts g' = nexts g;
  ss_pins : pins g' = pins g;
  ss_world : world g' = world g;
  ss_kind : forall n, kind_of g' n = kind_of g n;
  ss_parents : forall n, parents g' n = parents g n;
  ss_children : forall n, children g' n = children g n;
  ss_ntf : forall n, ntf g' n = ntf g n;
  ss_held : forall n, n_held (nd g' n) = n_held (nd g n);
  ss_slots : forall n, slots g' n = slots g n
}.

Lemma ss_refl : forall g, same_struct g g.
Proof. intros; split; auto. Qed.
Lemma ss_trans : forall a b c, same_struct a b -> same_struct b c -> same_struct a c.
Proof. intros a b c [] []; split; intros; congruence. Qed.
Lemma ss_sym : forall a b, same_struct a b -> same_struct b a.
Proof. intros a b []; split; intros; congruence. Qed.

Lemma ss_upd : forall g n h,
  (forall a, n_kind (h a) = n_kind a /\ n_parents (h a) = n_parents a /\
     n_children (h a) = n_children a /\ n_ntf (h a) = n_ntf a /\
     n_held (h a) = n_held a /\ n_slots (h a) = n_slots a) ->
  same_struct g (upd g n h).
Proof.
  intros g n h H. split; auto; intros m;
    unfold kind_of, parents, children, ntf, slots; simpl;
    destruct (Nat.eqb_spec m n); auto; subst; apply (H (nd g n)).
Qed.

Lemma ancb_ext : forall fuel g g' n m,
  (forall k, parents g' k = parents g k) -> ancb fuel g' n m = ancb fuel g n m.
Proof.
  induction fuel as [|f IH]; intros g g' n m H; simpl; auto.
  rewrite H. f_equal. induction (parents g m) as [|p l IHl]; simpl; auto.
  now rewrite IHl, (IH g g').
Qed.

Lemma existsb_ext_in : forall A (f h : A -> bool) l,
  (forall x, In x l -> f x = h x) -> existsb f l = existsb h l.
Proof.
  induction l as [|x l IH]; intros H; simpl; auto.
  rewrite (H x (or_introl eq_refl)). f_equal. apply IH.
  intros y Hy. apply H. now right.
Qed.

Lemma handle_struct : forall g g' n, same_struct g g' -> handle g' n = handle g n.
Proof.
  intros g g' n S. unfold handle.
  now rewrite (ss_cnt _ _ S), (ss_held _ _ S), (ss_slots _ _ S).
Qed.
Lemma alive_struct : forall g g' n, same_struct g g' -> alive g' n = alive g n.
Proof.
  intros g g' n S. unfold alive. rewrite (ss_cnt _ _ S), (ss_pins _ _ S).
  apply existsb_ext_in. intros m _.
  rewrite (handle_struct _ _ _ S).
  now rewrite (ancb_ext _ g g' n m (ss_parents _ _ S)).
Qed.

(** ** Recomputing one node touches only its current value *)
Record frame_cur (n : nat) (g g' : graph V W) : Prop := {
  fc_ss : same_struct g g';
  fc_last : forall m, last g' m = last g m;
  fc_nn : forall m, nn g' m = nn g m;
  fc_cur : forall m, m <> n -> cur g' m = cur g m;
  fc_nsd : forall m, m <> n -> nsd g' m = nsd g m;
  fc_up : nsd g n = true -> nsd g' n = true;
  fc_unch : nsd g' n = false -> cur g' n = cur g n
}.

Lemma fc_refl : forall n g, frame_cur n g g.
Proof. intros; split; auto using ss_refl. Qed.
Lemma fc_trans : forall n a b c, frame_cur n a b -> frame_cur n b c -> frame_cur n a c.
Proof.
  intros n a b c A B. destruct A as [A1 A2 A3 A4 A5 A6 A7], B as [B1 B2 B3 B4 B5 B6 B7].
  split; intros.
  - eapply ss_trans; eauto.
  - rewrite B2; auto.
  - rewrite B3; auto.
  - rewrite B4; auto.
  - rewrite B5; auto.
  - auto.
  - rewrite B7 by auto. apply A7. destruct (nsd b n) eqn:E; auto.
    now rewrite (B6 eq_refl) in H.
Qed.

Lemma fc_upd_quiet : forall g n h,
  (forall a, n_kind (h a) = n_kind a /\ n_parents (h a) = n_parents a /\
     n_children (h a) = n_children a /\ n_ntf (h a) = n_ntf a /\
     n_held (h a) = n_held a /\ n_slots (h a) = n_slots a /\
     n_cur (h a) = n_cur a /\ n_last (h a) = n_last a /\
     n_nsd (h a) = n_nsd a /\ n_nn (h a) = n_nn a) ->
  frame_cur n g (upd g n h).
Proof.
  intros g n h H. split.
  - apply ss_upd. intros a. repeat split; apply H.
  - intros m. unfold last; simpl. destruct (m =? n); auto. apply H.
  - intros m. unfold nn; simpl. destruct (m =? n); auto. apply H.
  - intros m N. unfold cur. now rewrite nd_upd_other.
  - intros m N. unfold nsd. now rewrite nd_upd_other.
  - unfold nsd. rewrite nd_upd_same. intros E.
    destruct (H (nd g n)) as (_&_&_&_&_&_&_&_&Q&_). now rewrite Q.
  - unfold cur, nsd. rewrite !nd_upd_same. intros _.
    now destruct (H (nd g n)) as (_&_&_&_&_&_&Q&_).
Qed.

Lemma fc_push_down : forall n v g, frame_cur n g (push_down changed n v g).
Proof.
  intros n v g. unfold push_down. destruct (changed v (cur g n)) eqn:E; [|apply fc_refl].
  split.
  - apply ss_upd. intros []; simpl; auto 10.
  - intros m. unfold last; simpl. destruct (m =? n); auto.
  - intros m. unfold nn; simpl. destruct (m =? n); auto.
  - intros m N. unfold cur. now rewrite nd_upd_other.
  - intros m N. unfold nsd. now rewrite nd_upd_other.
  - intros _. unfold nsd. now rewrite nd_upd_same.
  - unfold nsd. rewrite nd_upd_same. discriminate.
Qed.
Lemma fc_push_all : forall n vs g, frame_cur n g (push_all changed n vs g).
Proof.
  unfold push_all. induction vs as [|v vs IH]; intros g; simpl; [apply fc_refl|].
  eapply fc_trans; [apply fc_push_down|apply IH].
Qed.

Lemma push_down_cur : (forall a b, changed a b = false -> a = b) ->
  forall n v g, cur (push_down changed n v g) n = v.
Proof.
  intros Hc n v g. unfold push_down. destruct (changed v (cur g n)) eqn:E.
  - unfold cur. now rewrite nd_upd_same.
  - symmetry. now apply Hc.
Qed.

Lemma fc_recompute : forall n g, frame_cur n g (recompute changed n g).
Proof.
  intros n g. unfold recompute. destruct (kind_of g n); try apply fc_refl.
  - apply fc_push_down.
  - destruct (down _); [apply fc_push_down|apply fc_refl].
  - eapply fc_trans; [|apply fc_push_all].
    apply fc_upd_quiet. intros []; simpl; auto 15.
  - destruct (n_rcp (nd g n)).
    + apply fc_upd_quiet. intros []; simpl; auto 15.
    + destruct (parents g n); [apply fc_refl|apply fc_push_down].
Qed.

(** ** refresh *)
Record frame_refresh (g g' : graph V W) : Prop := {
  fr_ss : same_struct g g';
  fr_last : forall m, last g' m = last g m;
  fr_nn : forall m, nn g' m = nn g m;
  fr_up : forall m, nsd g m = true -> nsd g' m = true;
  fr_unch : forall m, nsd g' m = false -> cur g' m = cur g m;
  fr_noninner : forall m,
      (match kind_of g m with KInner _ _ | KXform _ _ => False | _ => True end) ->
      cur g' m = cur g m /\ nsd g' m = nsd g m
}.
Lemma fr_refl : forall g, frame_refresh g g.
Proof. intros; split; auto using ss_refl. Qed.
Lemma fr_trans : forall a b c, frame_refresh a b -> frame_refresh b c -> frame_refresh a c.
Proof.
  intros a b c [A1 A2 A3 A4 A5 A6] [B1 B2 B3 B4 B5 B6].
  split; intros.
  - eapply ss_trans; eauto.
  - rewrite B2; auto.
  - rewrite B3; auto.
  - auto.
  - rewrite B5 by auto. apply A5. destruct (nsd b m) eqn:E; auto.
    now rewrite (B4 _ E) in H.
  - assert (H' : match kind_of b m with KInner _ _ | KXform _ _ => False | _ => True end)
      by (rewrite (ss_kind _ _ A1); exact H).
    destruct (B6 m H'), (A6 m H). split; congruence.
Qed.

Lemma fr_of_fc : forall n g g', frame_cur n g g' ->
  (match kind_of g n with KInner _ _ | KXform _ _ => True | _ => False end) ->
  frame_refresh g g'.
Proof.
  intros n g g' F K. destruct F as [F1 F2 F3 F4 F5 F6 F7]. split; auto.
  - intros m H. destruct (Nat.eq_dec m n) as [->|N]; auto. now rewrite F5.
  - intros m H. destruct (Nat.eq_dec m n) as [->|N]; auto.
  - intros m H. destruct (Nat.eq_dec m n) as [->|N]; auto.
    destruct (kind_of g n); contradiction || reflexivity.
Qed.

Lemma fr_refresh : forall fuel n g, frame_refresh g (refresh changed ordN fuel n g).
Proof.
  induction fuel as [|f IH]; intros n g; simpl; [apply fr_refl|].
  destruct (kind_of g n) eqn:K; try apply fr_refl.
  - assert (H : forall ps a, frame_refresh a
               (fold_left (fun g0 p => refresh changed ordN f p g0) ps a)).
    { induction ps as [|p ps IHp]; intros a; simpl; [apply fr_refl|].
      eapply fr_trans; [apply IH|apply IHp]. }
    specialize (H (ordN g n (parents g n)) g).
    eapply fr_trans; [exact H|]. apply fr_of_fc with n; [apply fc_recompute|].
    rewrite (ss_kind _ _ (fr_ss _ _ H)), K. exact I.
  - assert (H : forall ps a, frame_refresh a
               (fold_left (fun g0 p => refresh changed ordN f p g0) ps a)).
    { induction ps as [|p ps IHp]; intros a; simpl; [apply fr_refl|].
      eapply fr_trans; [apply IH|apply IHp]. }
    specialize (H (ordN g n (parents g n)) g).
    eapply fr_trans; [exact H|]. apply fr_of_fc with n; [apply fc_recompute|].
    rewrite (ss_kind _ _ (fr_ss _ _ H)), K. exact I.
Qed.

(** ** send_down *)
Lemma ss_set_sent : forall g n, same_struct g (upd g n set_sent).
Proof. intros. apply ss_upd. intros []; simpl; auto 10. Qed.

Record frame_send (g g' : graph V W) : Prop := {
  fs_ss : same_struct g g';
  fs_nn : forall m, nn g m = true -> nn g' m = true;
  fs_last : forall m, nn g' m = false -> last g' m = last g m;
  fs_noninner : forall m,
      (match kind_of g m with KState _ | KConst | KStore => True | _ => False end) ->
      cur g' m = cur g m
}.
Lemma fs_refl : forall g, frame_send g g.
Proof. intros; split; auto using ss_refl. Qed.
Lemma fs_trans : forall a b c, frame_send a b -> frame_send b c -> frame_send a c.
Proof.
  intros a b c [A1 A2 A3 A4] [B1 B2 B3 B4]. split; eauto using ss_trans.
  - intros m H. rewrite B3 by auto. apply A3.
    destruct (nn b m) eqn:E; auto. rewrite (B2 _ E) in H. discriminate.
  - intros m H. rewrite B4.
    + auto.
    + rewrite (ss_kind _ _ A1). exact H.
Qed.

Lemma recompute_noninner : forall n g,
  match kind_of g n with KState _ | KConst | KStore => True | _ => False end ->
  recompute changed n g = g.
Proof. intros n g H. unfold recompute. destruct (kind_of g n); contradiction || reflexivity. Qed.

Lemma fs_recompute : forall n g, frame_send g (recompute changed n g).
Proof.
  intros n g. pose proof (fc_recompute n g) as F. destruct F as [F1 F2 F3 F4 F5 F6 F7].
  split; auto.
  - intros m H. now rewrite F3.
  - intros m H. destruct (Nat.eq_dec m n) as [->|N]; auto.
    now rewrite recompute_noninner.
Qed.
Lemma fs_sent : forall n g, frame_send g (upd g n set_sent).
Proof.
  intros n g. split.
  - apply ss_set_sent.
  - intros m H. unfold nn in *; simpl. destruct (m =? n); simpl; auto.
  - intros m H. unfold nn, last in *; simpl in *. destruct (m =? n); simpl in *; auto.
    discriminate.
  - intros m _. unfold cur; simpl. destruct (m =? n); auto.
Qed.

Lemma fs_send_down : forall fuel n s,
  frame_send (gr s) (gr (send_down changed fuel n s)).
Proof.
  induction fuel as [|f IH]; intros n s; simpl; [apply fs_refl|].
  destruct (nsd (recompute changed n (gr s)) n) eqn:E; simpl.
  - set (g2 := upd (recompute changed n (gr s)) n set_sent).
    assert (H0 : frame_send (gr s) g2).
    { eapply fs_trans; [apply fs_recompute|apply fs_sent]. }
    clearbody g2.
    assert (H : forall cs (a : st V W), frame_send (gr a)
      (gr (fold_left (fun s c => if alive (gr s) c then send_down changed f c s else s) cs a))).
    { induction cs as [|c cs IHc]; intros a; simpl; [apply fs_refl|].
      eapply fs_trans; [|apply IHc].
      destruct (alive (gr a) c); [apply IH|apply fs_refl]. }
    eapply fs_trans; [exact H0|]. apply (H _ (St g2 _)).
  - apply fs_recompute.
Qed.

(** ** Ancestors and aliveness *)
Inductive anc (g : graph V W) : nat -> nat -> Prop :=
| anc_refl : forall n, anc g n n
| anc_step : forall n p m, anc g n p -> In p (parents g m) -> anc g n m.

Definition par_lt (g : graph V W) : Prop :=
  forall n p, In p (parents g n) -> p < n.

Lemma ancb_anc : forall fuel g n m, ancb fuel g n m = true -> anc g n m.
Proof.
  induction fuel as [|f IH]; intros g n m H; simpl in H; [discriminate|].
  apply orb_true_iff in H as [H|H].
  - apply Nat.eqb_eq in H as ->. constructor.
  - apply existsb_exists in H as (p & Hp & H). eapply anc_step; eauto.
Qed.
Lemma anc_ancb : forall g, par_lt g -> forall fuel n m, anc g n m -> m < fuel ->
  ancb fuel g n m = true.
Proof.
  intros g PL fuel n m H. revert fuel. induction H as [n|n p m H IH Hp]; intros fuel L;
    destruct fuel as [|f]; try lia; simpl.
  - now rewrite Nat.eqb_refl.
  - apply orb_true_iff. right. apply existsb_exists. exists p. split; auto.
    apply IH. specialize (PL _ _ Hp). lia.
Qed.
Lemma anc_trans : forall g a b c, anc g a b -> anc g b c -> anc g a c.
Proof.
  intros g a b c H1 H2. revert H1.
  induction H2 as [n|n p m H IH Hp]; intros H1; auto. apply anc_step with p; auto.
Qed.
Lemma anc_parent : forall g p m, In p (parents g m) -> anc g p m.
Proof. intros. eapply anc_step; [constructor|auto]. Qed.
Lemma anc_le : forall g, par_lt g -> forall n m, anc g n m -> n <= m.
Proof.
  intros g PL n m H. induction H; auto. specialize (PL _ _ H0). lia.
Qed.

Lemma mem_In : forall n l, mem n l = true <-> In n l.
Proof.
  intros n l. unfold mem. rewrite existsb_exists. split.
  - intros (x & Hx & E). apply Nat.eqb_eq in E as ->. auto.
  - intros H. exists n. split; auto. apply Nat.eqb_refl.
Qed.

Lemma alive_iff : forall g, par_lt g -> forall n,
  alive g n = true <->
  exists m, m < cnt g /\ (handle g m = true \/ In m (pins g)) /\ anc g n m.
Proof.
  intros g PL n. unfold alive. rewrite existsb_exists. split.
  - intros (m & Hm & H). apply in_seq in Hm. apply andb_true_iff in H as [H1 H2].
    exists m. split; [lia|]. split.
    + apply orb_true_iff in H1 as [H1|H1]; auto. right. now apply mem_In.
    + eapply ancb_anc; eauto.
  - intros (m & Hm & H1 & H2). exists m. split; [apply in_seq; lia|].
    apply andb_true_iff. split.
    + apply orb_true_iff. destruct H1; auto. right. now apply mem_In.
    + apply anc_ancb; auto.
Qed.

Lemma alive_anc : forall g, par_lt g -> forall a n,
  anc g a n -> alive g n = true -> alive g a = true.
Proof.
  intros g PL a n H A. apply (alive_iff g PL) in A as (m & H1 & H2 & H3).
  apply (alive_iff g PL). exists m. repeat split; auto. eapply anc_trans; eauto.
Qed.
Lemma alive_parent : forall g, par_lt g -> forall p n,
  In p (parents g n) -> alive g n = true -> alive g p = true.
Proof. intros. eapply alive_anc; eauto. now apply anc_parent. Qed.
Lemma alive_handle : forall g n, handle g n = true -> alive g n = true.
Proof.
  intros g n H. unfold alive. apply existsb_exists. exists n. split.
  - apply in_seq. unfold handle in H. apply andb_true_iff in H as [H _].
    apply Nat.ltb_lt in H. lia.
  - rewrite H. simpl. now rewrite Nat.eqb_refl.
Qed.
Lemma alive_cnt : forall g, par_lt g -> forall n, alive g n = true -> n < cnt g.
Proof.
  intros g PL n H. apply (alive_iff g PL) in H as (m & H1 & _ & H3).
  apply (anc_le g PL) in H3. lia.
Qed.

Lemma anc_ext : forall g g' a n, (forall k, parents g' k = parents g k) ->
  anc g a n -> anc g' a n.
Proof.
  intros g g' a n H A. induction A; [constructor|]. eapply anc_step; eauto.
  now rewrite H.
Qed.
Lemma anc_struct : forall g g' a n, same_struct g g' -> (anc g' a n <-> anc g a n).
Proof.
  intros g g' a n S. split; apply anc_ext; intros k; [symmetry|]; apply (ss_parents _ _ S).
Qed.

(** ** Pure nodes: roots and stateless nodes built on pure nodes *)
Inductive good (g : graph V W) : nat -> Prop :=
| good_root : forall n, is_root (kind_of g n) = true -> good g n
| good_inner : forall n down up, kind_of g n = KInner down up ->
    (forall p, In p (parents g n) -> good g p) -> good g n.

Lemma good_ext : forall g g' n, (forall k, kind_of g' k = kind_of g k) ->
  (forall k, parents g' k = parents g k) -> good g n -> good g' n.
Proof.
  intros g g' n HK HP G. induction G as [n R|n down up K P IH].
  - apply good_root. now rewrite HK.
  - eapply good_inner; [rewrite HK; eauto|]. intros p Hp. apply IH.
    now rewrite HP in Hp.
Qed.
Lemma good_struct : forall g g' n, same_struct g g' -> (good g' n <-> good g n).
Proof.
  intros g g' n S. split; apply good_ext; intros k.
  - symmetry; apply (ss_kind _ _ S).
  - symmetry; apply (ss_parents _ _ S).
  - apply (ss_kind _ _ S).
  - apply (ss_parents _ _ S).
Qed.
Lemma good_parent : forall g n p, good g n -> is_root (kind_of g n) = false ->
  In p (parents g n) -> good g p.
Proof. intros g n p G R Hp. destruct G; [congruence|auto]. Qed.
Lemma good_parent_inner : forall g n p down up, good g n ->
  kind_of g n = KInner down up -> In p (parents g n) -> good g p.
Proof. intros g n p d u G K Hp. eapply good_parent; eauto. now rewrite K. Qed.

(** ** Well-formed graphs *)
Fixpoint sorted_from (k : nat) (l : list nat) : Prop :=
  match l with [] => True | x :: r => k <= x /\ sorted_from (S x) r end.

Record wf (g : graph V W) : Prop := {
  wf_par : par_lt g;
  wf_arity : forall n, arity_ok (kind_of g n) (parents g n) = true;
  wf_kids : forall n c, In c (children g n) -> c < cnt g /\ In n (parents g c);
  wf_link : forall c p, In p (parents g c) -> alive g c = true -> In c (children g p);
  wf_sorted : forall n, sorted_from 0 (map fst (slots g n));
  wf_sids : forall n sl, In sl (slots g n) -> fst sl < nexts g;
  wf_out : forall n, cnt g <= n ->
      kind_of g n = KConst /\ parents g n = [] /\ children g n = [] /\
      slots g n = [] /\ nsd g n = false /\ nn g n = false /\ n_held (nd g n) = 0 /\
      last g n = cur g n
}.

Lemma is_root_parents : forall g n, wf g -> is_root (kind_of g n) = true -> parents g n = [].
Proof.
  intros g n Hw R. pose proof (wf_arity _ Hw n) as A.
  destruct (kind_of g n); try discriminate R; destruct (parents g n); auto; discriminate A.
Qed.

End Base.
