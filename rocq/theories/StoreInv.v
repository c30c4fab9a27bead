(** Invariants of the store, step by step. *)
From Coq Require Import List Arith Bool Lia Permutation.
From Verif Require Import StoreModel StoreSpec StoreSteps.
Import ListNotations.

Section Inv.
Variables M A W : Type.
Notation prog := (prog M A W).
Notation event := (event M A W).
Notation job := (job M A W).
Notation cell := (cell M A W).
Notation st := (st M A W).
Notation res := (res M A W).
Variable reducer : M -> A -> option (M * option prog).
Variable eqb : M -> M -> bool.
Variables trans futures manual : bool.
Variable ext : nat -> list A.
Notation exec := (exec reducer eqb trans futures manual ext).
Notation cstep := (cstep trans futures).
Notation jstep := (jstep reducer eqb trans).
Notation steps := (steps reducer eqb trans futures).
Notation csteps := (csteps trans futures).
Notation JInv := (JInv trans).
Notation justified := (justified trans).
Notation arrive1 := (arrive1 futures).

Hint Rewrite send_down_log send_down_heap send_down_q send_down_slots send_down_cur send_down_busy
  push_down_log push_down_heap push_down_q push_down_slots push_down_last push_down_busy push_down_nn : sd.
Lemma send_down_ndisp : forall s : st, ndisp (send_down s) = ndisp s.
Proof. intros s. unfold send_down. now destruct (nsd s). Qed.
Lemma push_down_ndisp : forall m (s : st), ndisp (push_down eqb m s) = ndisp s.
Proof. intros. unfold push_down. now destruct (eqb m (cur s)). Qed.
Hint Rewrite send_down_ndisp push_down_ndisp : sd.

(** Unfold one step. *)
Ltac cs H := destruct H; [..|]; unfold StoreModel.arrive1, new_dispatch; try (destruct futures); simpl in *;
  autorewrite with sd; simpl in *.
Ltac js H := destruct H; simpl in *; try (destruct trans); autorewrite with sd; simpl in *.

(** ** C20: the model *)
Fixpoint pend_red (l : list job) : list nat :=
  match l with [] => [] | JReduce id _ _ :: r => id :: pend_red r | _ :: r => pend_red r end.
Lemma pend_red_app : forall a b, pend_red (a ++ b) = pend_red a ++ pend_red b.
Proof. induction a as [|[] a IH]; intros; simpl; auto. now rewrite IH. Qed.
Definition not_red (j : job) : Prop := match j with JReduce _ _ _ => False | _ => True end.
Lemma pend_red_snoc : forall a j, not_red j -> pend_red (a ++ [j]) = pend_red a.
Proof. intros a [] H; rewrite pend_red_app; simpl in *; rewrite ?app_nil_r; tauto. Qed.

Record I20 (s : st) : Prop := {
  i_seq : reduced (log s) ++ pend_red (q s) = seq 0 (ndisp s);
  i_len : length (actions (log s)) = ndisp s;
  i_act : forall id p a, In (JReduce id p a) (q s) -> nth_error (actions (log s)) id = Some a }.

(** Callbacks stored in cells are callbacks. *)
Lemma cell_cb : forall (s : st) n k d l j, JInv s -> nth_error (heap s) n = Some (Cell k d l (Some j)) ->
  exists c m, j = JCb n c m /\ cbok (log s) n c m.
Proof. intros s n k d l j [_ H] E. apply H in E. exact (co_cb _ _ _ _ _ _ E j eq_refl). Qed.

Lemma I20_same : forall s s' : st, I20 s -> reduced (log s') = reduced (log s) ->
  actions (log s') = actions (log s) -> ndisp s' = ndisp s -> pend_red (q s') = pend_red (q s) ->
  (forall id p a, In (JReduce id p a) (q s') -> In (JReduce id p a) (q s)) -> I20 s'.
Proof.
  intros s s' [H1 H2 H3] E1 E2 E3 E4 E5. split; rewrite ?E1, ?E2, ?E3, ?E4; eauto.
Qed.
Lemma in_snoc_nr : forall (l : list job) j id p a, not_red j ->
  In (JReduce id p a) (l ++ [j]) -> In (JReduce id p a) l.
Proof. intros l j id p a N H. apply in_app_iff in H as [H|[->|[]]]; auto. destruct N. Qed.

Lemma disp_I20 : forall s a, I20 s -> I20 (arrive1 s a).
Proof.
  intros s a [H1 H2 H3]. unfold StoreModel.arrive1, new_dispatch.
  split.
  - assert (E : reduced (log s) ++ pend_red (q s ++ [JReduce (ndisp s) (if futures then Some (length (heap s)) else None) a])
                = seq 0 (S (ndisp s))).
    { rewrite pend_red_app, app_assoc, H1. simpl pend_red. now rewrite seq_S. }
    destruct futures; exact E.
  - assert (E : length (actions (log s) ++ [a]) = S (ndisp s)) by (rewrite app_length; simpl; lia).
    destruct futures; exact E.
  - assert (E : forall id p b,
       In (JReduce id p b) (q s ++ [JReduce (ndisp s) (if futures then Some (length (heap s)) else None) a]) ->
       nth_error (actions (log s) ++ [a]) id = Some b).
    { intros id p b H. apply in_app_iff in H as [H|[H|[]]].
      - specialize (H3 _ _ _ H). rewrite nth_error_app1; auto. apply nth_error_Some. congruence.
      - injection H as <- <- <-. rewrite <- H2. rewrite nth_error_app2; auto. now rewrite Nat.sub_diag. }
    destruct futures; exact E.
Qed.

Lemma cstep_I20 : forall s s', cstep s s' -> JInv s -> I20 s -> I20 s'.
Proof.
  intros s s' H J I. destruct H; try (apply (I20_same s); auto; simpl; autorewrite with sd; reflexivity).
  - now apply disp_I20.
  - apply (I20_same s); auto; simpl.
    + now apply pend_red_snoc.
    + intros id p0 a. now apply in_snoc_nr.
  - destruct (cell_cb _ _ _ _ _ _ J H) as (c & m & -> & _).
    apply (I20_same s); auto; simpl.
    + now apply pend_red_snoc.
    + intros id p0 a. now apply in_snoc_nr.
  - apply (I20_same s); auto; simpl; now destruct c.
  - apply (I20_same s); auto; simpl; try (now destruct c).
    + now apply pend_red_snoc.
    + intros id p0 a. now apply in_snoc_nr.
  - apply (I20_same s); auto; simpl; autorewrite with sd; auto.
Qed.

Lemma pop_same : forall (s s' : st) j, q s = j :: q s' -> not_red j ->
  pend_red (q s') = pend_red (q s) /\
  forall id p a, In (JReduce id p a) (q s') -> In (JReduce id p a) (q s).
Proof. intros s s' j E N. rewrite E. split; [now destruct j|]. intros. now right. Qed.

Lemma red_I20 : forall s s' id p a r, q s = JReduce id p a :: r -> I20 s ->
  reduced (log s') = reduced (log s) ++ [id] -> actions (log s') = actions (log s) ->
  ndisp s' = ndisp s -> pend_red (q s') = pend_red r ->
  (forall id p a, In (JReduce id p a) (q s') -> In (JReduce id p a) r) -> I20 s'.
Proof.
  intros s s' id p a r E [H1 H2 H3] E1 E2 E3 E4 E5. rewrite E in *. simpl in *. split.
  - rewrite E1, E3, E4, <- H1, <- app_assoc. reflexivity.
  - congruence.
  - intros id' p' a' H. rewrite E2. eapply H3. right. eauto.
Qed.

Lemma jstep_I20 : forall s s', jstep s s' -> I20 s -> I20 s'.
Proof.
  intros s s' H I.
  destruct H; try (match goal with H : q _ = JReduce _ _ _ :: _ |- _ =>
      eapply (red_I20 s); [exact H|..]; eauto; simpl; autorewrite with sd; simpl; auto;
        [now apply pend_red_snoc|intros ? ? ?; now apply in_snoc_nr] end).
  - eapply (red_I20 s); eauto.
  - eapply (red_I20 s); [exact H|..]; eauto; simpl; autorewrite with sd; simpl; auto.
  - assert (P : forall s', q s' = r -> pend_red (q s') = pend_red (q s) /\
      forall id p a, In (JReduce id p a) (q s') -> In (JReduce id p a) (q s)).
    { intros s' E. apply (pop_same s s' (JEffect id p e)); simpl; auto. now rewrite E. }
    destruct trans; (eapply (I20_same s); [exact I|..]; simpl; autorewrite with sd; simpl; auto;
      apply (P (set_q r s)); auto).
  - destruct (pop_same s (set_q r s) (JNotify id p) H Logic.I) as [P1 P2].
    apply (I20_same s); simpl; autorewrite with sd; simpl; auto.
  - destruct (pop_same s (set_q r s) (JUser p) H Logic.I) as [P1 P2].
    apply (I20_same s); simpl; autorewrite with sd; simpl; auto.
  - destruct (pop_same s (set_q r s) (JCb f (CBUser c) n) H Logic.I) as [P1 P2].
    apply (I20_same s); simpl; autorewrite with sd; simpl; auto.
  - destruct (pop_same s (set_q r s) (JCb f (CBFulfil m) n) H Logic.I) as [P1 P2].
    apply (I20_same s); simpl; autorewrite with sd; simpl; auto.
  - apply (I20_same s); auto.
  - apply (I20_same s); auto.
  - apply (I20_same s); auto.
  - apply (I20_same s); auto.
  - apply (I20_same s); auto.
  - apply (I20_same s); auto.
Qed.

(** A predicate kept by all steps holds at the end. *)
Lemma steps_inv : forall (P : st -> Prop),
  (forall s s', cstep s s' -> JInv s -> P s -> P s') ->
  (forall s s', jstep s s' -> JInv s -> P s -> P s') ->
  forall s s', steps s s' -> JInv s -> P s -> P s'.
Proof.
  intros P H1 H2 s s' H J HP. induction H as [s|s s1 s2 H IH H0|s s1 s2 H IH H0]; auto.
  - eapply H1; eauto. eapply steps_JInv; eauto.
  - eapply H2; eauto. eapply steps_JInv; eauto.
Qed.

Section Model.
Variable m0 : M.
Variable eqv : M -> M -> Prop.
Hypothesis eqv_refl : forall a, eqv a a.
Hypothesis eqv_sym : forall a b, eqv a b -> eqv b a.
Hypothesis eqv_trans : forall a b c, eqv a b -> eqv b c -> eqv a c.
Hypothesis eqb_sound : forall a b, eqb a b = true -> eqv a b.
Hypothesis respects : forall a b x, eqv a b -> eqv (reduce1 reducer a x) (reduce1 reducer b x).

Definition folded (s : st) : M :=
  fold reducer m0 (firstn (length (reduced (log s))) (actions (log s))).
Definition ICur (s : st) : Prop := I20 s /\ eqv (cur s) (folded s).

Lemma push_down_cur : forall m (s : st), eqv (cur (push_down eqb m s)) m.
Proof.
  intros m s. unfold push_down. destruct (eqb m (cur s)) eqn:E; simpl; auto.
Qed.
Lemma firstn_snoc : forall X (l : list X) n x, nth_error l n = Some x -> firstn (S n) l = firstn n l ++ [x].
Proof.
  induction l as [|y l IH]; intros [|n] x; simpl; try discriminate.
  - intros E. now injection E as <-.
  - intros E. change (y :: firstn (S n) l = y :: (firstn n l ++ [x])). f_equal. auto.
Qed.
Lemma red_folded : forall s s' id p a r, q s = JReduce id p a :: r -> I20 s ->
  reduced (log s') = reduced (log s) ++ [id] -> actions (log s') = actions (log s) ->
  folded s' = reduce1 reducer (folded s) a.
Proof.
  intros s s' id p a r E [H1 H2 H3] E1 E2. unfold folded, fold.
  assert (L : id = length (reduced (log s))).
  { rewrite E in H1. simpl in H1.
    assert (N : nth_error (seq 0 (ndisp s)) (length (reduced (log s))) = Some id).
    { rewrite <- H1, nth_error_app2, Nat.sub_diag; auto. }
    assert (B : length (reduced (log s)) < ndisp s).
    { rewrite <- (seq_length (ndisp s) 0), <- H1, app_length. simpl. lia. }
    apply nth_error_nth with (d := 0) in N. rewrite seq_nth in N; auto. }
  assert (N : nth_error (actions (log s)) id = Some a) by (apply (H3 id p); rewrite E; now left).
  rewrite E1, E2, app_length, Nat.add_1_r. subst id. erewrite firstn_snoc; eauto.
  now rewrite fold_left_app.
Qed.

Lemma folded_app : forall (s s' : st) a, I20 s -> reduced (log s') = reduced (log s) ->
  actions (log s') = actions (log s) ++ a -> folded s' = folded s.
Proof.
  intros s s' a [H1 H2 H3] E1 E2. unfold folded. rewrite E1, E2. f_equal.
  rewrite firstn_app.
  assert (B : length (reduced (log s)) <= ndisp s).
  { rewrite <- (seq_length (ndisp s) 0), <- H1, app_length. simpl. lia. }
  replace (length (reduced (log s)) - length (actions (log s))) with 0 by lia.
  simpl. now rewrite app_nil_r.
Qed.
Lemma cstep_acts : forall s s' : st, cstep s s' -> reduced (log s') = reduced (log s) /\
  exists a, actions (log s') = actions (log s) ++ a.
Proof.
  intros s s' H. destruct H; try (simpl; autorewrite with sd; simpl; split; auto; exists []; now rewrite app_nil_r).
  - unfold StoreModel.arrive1, new_dispatch. split; [now destruct futures|].
    exists [a]. now destruct futures.
  - destruct c; simpl; split; auto; exists []; now rewrite app_nil_r.
  - destruct c; simpl; split; auto; exists []; now rewrite app_nil_r.
Qed.
Lemma cstep_ICur : forall s s', cstep s s' -> JInv s -> ICur s -> ICur s'.
Proof.
  intros s s' H J [I E]. split; [eapply cstep_I20; eauto|].
  rewrite (cstep_cur _ _ _ _ _ _ _ H). destruct (cstep_acts _ _ H) as (E1 & a & E2).
  erewrite folded_app; eauto.
Qed.
Lemma jstep_ICur : forall s s', jstep s s' -> JInv s -> ICur s -> ICur s'.
Proof.
  intros s s' H _ [I E]. split; [eapply jstep_I20; eauto|].
  assert (RED : forall id p a r s1 m, q s = JReduce id p a :: r -> reduce1 reducer (cur s) a = m ->
    reduced (log s1) = reduced (log s) ++ [id] -> actions (log s1) = actions (log s) ->
    eqv (cur s1) m -> eqv (cur s1) (folded s1)).
  { intros id p a r s1 m Q X X1 X2 X3. erewrite red_folded; eauto. eapply eqv_trans; [exact X3|].
    rewrite <- X. now apply respects. }
  assert (SAME : forall s1, cur s1 = cur s -> reduced (log s1) = reduced (log s) ->
    actions (log s1) = actions (log s) -> eqv (cur s1) (folded s1)).
  { intros s1 X X1 X2. rewrite X. erewrite (folded_app s s1 []); eauto. now rewrite app_nil_r. }
  destruct H; try (apply SAME; simpl; autorewrite with sd; reflexivity).
  - eapply RED; eauto; simpl; auto. unfold reduce1. now rewrite H0.
  - apply (RED id p a r _ m); simpl; autorewrite with sd; auto; [unfold reduce1; now rewrite H0|apply push_down_cur].
  - apply (RED id p a r _ m); simpl; autorewrite with sd; auto; [unfold reduce1; now rewrite H0|apply push_down_cur].
  - apply (RED id p a r _ m); simpl; autorewrite with sd; auto; [unfold reduce1; now rewrite H0|apply push_down_cur].
  - apply SAME; destruct trans; simpl; autorewrite with sd; reflexivity.
Qed.
End Model.

(** ** What get() returns *)
Definition pend_send (j : job) : Prop :=
  match j with JEffect _ _ _ | JNotify _ _ => True | _ => False end.
Record ILast (s : st) : Prop := {
  l_eq : nsd s = false -> last s = cur s;
  l_pend : trans = false -> nsd s = true -> exists j, In j (q s) /\ pend_send j }.
Lemma send_down_last : forall s : st, (nsd s = false -> last s = cur s) -> last (send_down s) = cur s.
Proof. intros s H. unfold send_down. destruct (nsd s); auto. Qed.
Lemma ILast_sent : forall s : st, ILast s -> ILast (send_down s).
Proof.
  intros s [H1 H2]. split; intros; rewrite ?send_down_nsd in *; try discriminate.
  rewrite send_down_last, send_down_cur; auto.
Qed.
Lemma ILast_sent' : forall s : st, (nsd s = false -> last s = cur s) -> ILast (send_down s).
Proof.
  intros s H1. split; intros; rewrite ?send_down_nsd in *; try discriminate.
  rewrite send_down_last, send_down_cur; auto.
Qed.
Lemma ILast_same : forall s s' : st, ILast s -> last s' = last s -> cur s' = cur s -> nsd s' = nsd s ->
  (forall j, In j (q s) -> pend_send j -> In j (q s')) -> ILast s'.
Proof.
  intros s s' [H1 H2] E1 E2 E3 H. split; rewrite ?E1, ?E2, ?E3; auto.
  intros T N. destruct (H2 T N) as (j & K1 & K2). eauto.
Qed.
Lemma cstep_ILast : forall s s', cstep s s' -> JInv s -> ILast s -> ILast s'.
Proof.
  intros s s' H _ I.
  destruct H; try (apply (ILast_same s); auto; simpl; intros; apply in_app_iff; auto; fail).
  - unfold StoreModel.arrive1, new_dispatch. apply (ILast_same s); auto; destruct futures; simpl; auto;
      intros; apply in_app_iff; auto.
  - apply ILast_sent. apply (ILast_same s); auto.
Qed.
Lemma ILast_push : forall m (s : st), (nsd s = false -> last s = cur s) ->
  (trans = false -> exists j, In j (q s) /\ pend_send j) -> ILast (push_down eqb m s).
Proof.
  intros m s H H0. unfold push_down. destruct (eqb m (cur s)); split; simpl; auto; discriminate.
Qed.
Lemma jstep_ILast : forall s s', jstep s s' -> JInv s -> ILast s -> ILast s'.
Proof.
  intros s s' H J I.
  assert (Q : forall j r, q s = j :: r -> ~ pend_send j -> forall j', In j' (q s) -> pend_send j' -> In j' r).
  { intros j r E N j' Hj P. rewrite E in Hj. destruct Hj as [<-|]; tauto. }
  destruct H.
  - apply (ILast_same s); auto; simpl. eapply Q; eauto.
  - apply ILast_push; simpl; [apply I|]. intros _. eexists. split; [apply in_app_iff; right; now left|exact Logic.I].
  - apply ILast_push; simpl; [apply I|]. intros _. eexists. split; [apply in_app_iff; right; now left|exact Logic.I].
  - apply ILast_push; simpl; [apply I|]. congruence.
  - destruct (bool_dec trans true) as [T|T].
    + rewrite T. split; simpl; [apply I|congruence].
    + apply not_true_is_false in T. rewrite T. apply ILast_sent'. apply I.
  - apply ILast_sent'. apply I.
  - apply (ILast_same s); auto; simpl. eapply Q; eauto.
  - apply (ILast_same s); auto; simpl. eapply Q; eauto.
  - apply (ILast_same s); auto; simpl. eapply Q; eauto.
  - apply (ILast_same s); auto.
  - apply (ILast_same s); auto.
  - apply (ILast_same s); auto.
  - apply (ILast_same s); auto.
  - apply (ILast_same s); auto.
  - apply (ILast_same s); auto.
Qed.

(** ** What precedes what in the log *)
Fixpoint at_each (P : event -> list event -> Prop) (l : list event) : Prop :=
  match l with [] => True | e :: r => P e r /\ at_each P r end.
Lemma at_each_app : forall P l1 e l2, at_each P (l1 ++ e :: l2) -> P e l2.
Proof. induction l1 as [|x l1 IH]; simpl; intros e l2 [H H0]; auto. Qed.
Lemma at_each_in : forall P e l, at_each P l -> In e l -> exists l1 l2, l = l1 ++ e :: l2 /\ P e l2.
Proof.
  intros P e l H HI. apply in_split in HI as (l1 & l2 & ->). exists l1, l2. split; auto.
  eapply at_each_app; eauto.
Qed.

Definition before (e : event) (r : list event) : Prop :=
  match e with
  | EBegin id _ => (exists a p, In (EDisp id a p) r) /\ exists m, In (ERed id m true) r
  | EEff id _ e => In (EBegin id e) r
  | EEffEnd id _ => exists m e, In (EEff id m e) r
  | ETold id => (exists m, In (ERed id m false) r) /\ trans = false
  | EDone n => justified r n
  | ECb n c => exists f, In (EThen f n c) r /\ In (EDone f) r
  | ECbEnd n f => exists f0 c, In (ECb n c) r /\ In (EThen f0 n c) r /\ In (EDone f0) r /\ (forall g, c = PRet g -> f = g)
  | ELink f m n => ret r m (Some f)
  | ERed id _ _ | ERedFail id => exists a p, In (EDisp id a p) r
  | _ => True
  end.
Lemma cstep_before : forall s s', cstep s s' -> JInv s -> at_each before (log s) -> at_each before (log s').
Proof.
  intros s s' H J B. destruct H; simpl; autorewrite with sd; simpl; auto.
  - unfold StoreModel.arrive1, new_dispatch. destruct futures; simpl; auto.
  - destruct c; simpl in *; auto.
  - destruct c; simpl in *; auto.
Qed.
Lemma jstep_before : forall s s', jstep s s' -> JInv s -> at_each before (log s) -> at_each before (log s').
Proof.
  intros s s' H [J _] B.
  assert (Q : forall j r, q s = j :: r -> jok trans (log s) j) by (intros j r E; rewrite E in J; now inversion J).
  destruct H; try (specialize (Q _ _ H)); simpl in *; autorewrite with sd; simpl; auto.
  - split; eauto.
  - split; eauto.
  - split; eauto.
  - split; eauto.
  - destruct Q as [(a & Q1) Q2]. destruct trans; autorewrite with sd; simpl; split; eauto.
  - destruct Q as [Q1 [Q2 _]]. split; eauto.
Qed.

(** ** Effects *)
Fixpoint begun (l : list event) : list nat :=
  match l with [] => [] | EBegin id _ :: r => begun r ++ [id] | _ :: r => begun r end.
Fixpoint pend_eff (l : list job) : list nat :=
  match l with [] => [] | JEffect id _ _ :: r => id :: pend_eff r | _ :: r => pend_eff r end.
Lemma pend_eff_app : forall a b, pend_eff (a ++ b) = pend_eff a ++ pend_eff b.
Proof. induction a as [|[] a IH]; intros; simpl; auto. now rewrite IH. Qed.
Definition I21 (s : st) : Prop := with_effect (log s) = begun (log s) ++ pend_eff (q s).
Lemma cstep_I21 : forall s s', cstep s s' -> JInv s -> I21 s -> I21 s'.
Proof.
  intros s s' H J B. unfold I21 in *.
  destruct H; simpl; autorewrite with sd; simpl; rewrite ?pend_eff_app; simpl; rewrite ?app_nil_r; auto.
  - unfold StoreModel.arrive1, new_dispatch. destruct futures; simpl; rewrite ?pend_eff_app; simpl;
      rewrite ?app_nil_r; auto.
  - destruct (cell_cb _ _ _ _ _ _ J H) as (c & m & -> & _). simpl. now rewrite app_nil_r.
  - now destruct c.
  - now destruct c.
Qed.
Lemma jstep_I21 : forall s s', jstep s s' -> JInv s -> I21 s -> I21 s'.
Proof.
  intros s s' H _ B. unfold I21 in *.
  destruct H; simpl; try rewrite H in B; simpl in B; autorewrite with sd; simpl; rewrite ?pend_eff_app; simpl;
    rewrite ?app_nil_r; auto.
  - rewrite B. now rewrite app_assoc.
  - destruct trans; autorewrite with sd; simpl; rewrite <- app_assoc; exact B.
Qed.

(** The model an effect sees. *)
Section EffModel.
Variable m0 : M.
Variable eqv : M -> M -> Prop.
Hypothesis eqv_refl : forall a, eqv a a.
Hypothesis eqv_sym : forall a b, eqv a b -> eqv b a.
Hypothesis eqv_trans : forall a b c, eqv a b -> eqv b c -> eqv a c.
Hypothesis eqb_sound : forall a b, eqb a b = true -> eqv a b.
Hypothesis respects : forall a b x, eqv a b -> eqv (reduce1 reducer a x) (reduce1 reducer b x).
Definition eff_model (e : event) (r : list event) : Prop :=
  match e with
  | EEff id m _ => trans = false -> eqv m (fold reducer m0 (firstn (length (reduced r)) (actions r)))
  | _ => True
  end.
Definition IEff (s : st) : Prop := ICur m0 eqv s /\ ILast s /\ at_each eff_model (log s).
Lemma cstep_IEff : forall s s', cstep s s' -> JInv s -> IEff s -> IEff s'.
Proof.
  intros s s' H J (I1 & I2 & I3).
  split; [eapply cstep_ICur; eauto|]. split; [eapply cstep_ILast; eauto|].
  destruct H; simpl; autorewrite with sd; simpl; auto.
  - unfold StoreModel.arrive1, new_dispatch. destruct futures; simpl; auto.
  - destruct c; simpl in *; auto.
  - destruct c; simpl in *; auto.
Qed.
Lemma jstep_IEff : forall s s', jstep s s' -> JInv s -> IEff s -> IEff s'.
Proof.
  intros s s' H J (I1 & I2 & I3).
  split; [eapply jstep_ICur; eauto|]. split; [eapply jstep_ILast; eauto|].
  destruct H; simpl; autorewrite with sd; simpl; auto.
  - destruct trans; autorewrite with sd; simpl; auto.
  - split; auto. intros T. destruct I2 as [I2 _]. rewrite I2; auto. apply I1.
Qed.
End EffModel.

(** ** Cells *)
Fixpoint allocs (l : list event) : list nat :=
  match l with
  | [] => []
  | EProm n :: r | EDisp _ _ (Some n) :: r | EThen _ n _ :: r | ELink _ _ n :: r => allocs r ++ [n]
  | _ :: r => allocs r
  end.
Definition IAlloc (s : st) : Prop := allocs (log s) = seq 0 (length (heap s)).
Lemma cstep_IAlloc : forall s s', cstep s s' -> JInv s -> IAlloc s -> IAlloc s'.
Proof.
  intros s s' H _ I. unfold IAlloc in *.
  assert (X : forall k : ckind, allocs (log s) ++ [length (heap s)] =
     seq 0 (length (heap s ++ [@Cell M A W k false false None]))).
  { intros k. rewrite app_length. simpl. rewrite Nat.add_1_r, seq_S, I. reflexivity. }
  destruct H; simpl; autorewrite with sd; simpl; rewrite ?set_nth_length; auto.
  - unfold StoreModel.arrive1, new_dispatch. destruct futures; simpl; auto.
  - destruct c; simpl; auto.
  - destruct c; simpl; auto.
Qed.
Lemma jstep_IAlloc : forall s s', jstep s s' -> JInv s -> IAlloc s -> IAlloc s'.
Proof.
  intros s s' H _ I. unfold IAlloc in *.
  destruct H; simpl; autorewrite with sd; simpl; auto.
  destruct trans; autorewrite with sd; simpl; auto.
Qed.

(** Who allocated a cell. *)
Definition makes (n : nat) (e : event) : Prop :=
  match e with
  | EProm m | EDisp _ _ (Some m) | EThen _ m _ | ELink _ _ m => m = n
  | _ => False
  end.
Lemma makes_in : forall n e l, In e l -> makes n e -> In n (allocs l).
Proof.
  induction l as [|x l IH]; simpl; [tauto|]. intros [->|H] K.
  - destruct e; simpl in K; try contradiction; subst; try (apply in_app_iff; right; now left).
    destruct p; [|contradiction]. subst. apply in_app_iff. right. now left.
  - specialize (IH H K). destruct x; try exact IH; try (apply in_app_iff; now left).
    destruct p; try exact IH. apply in_app_iff. now left.
Qed.
Lemma makes_cons : forall n x l, makes n x -> allocs (x :: l) = allocs l ++ [n].
Proof. intros n [] l; simpl; try contradiction; try (intros ->; reflexivity). destruct p; [intros ->|contradiction]; auto. Qed.
Lemma allocs_cons : forall x l, exists y, allocs (x :: l) = allocs l ++ y.
Proof. intros [] l; simpl; try (exists []; now rewrite app_nil_r); try (eexists; reflexivity).
  destruct p; [eexists; reflexivity|exists []; now rewrite app_nil_r]. Qed.
Lemma NoDup_app_l : forall X (a b : list X), NoDup (a ++ b) -> NoDup a.
Proof.
  induction a as [|x a IH]; simpl; intros b H; constructor; inversion H; subst; eauto.
  intros K. apply H2. apply in_app_iff. now left.
Qed.
Lemma makes_unique : forall n l, NoDup (allocs l) -> forall e1 e2, In e1 l -> In e2 l ->
  makes n e1 -> makes n e2 -> e1 = e2.
Proof.
  intros n l. induction l as [|x l IH]; intros D e1 e2 H1 H2 K1 K2; [destruct H1|].
  destruct (allocs_cons x l) as (y & E).
  assert (D' : NoDup (allocs l)) by (rewrite E in D; now apply NoDup_app_l in D).
  assert (X : forall e, In e l -> makes n x -> makes n e -> False).
  { intros e He Kx Ke. rewrite (makes_cons n) in D by auto.
    apply NoDup_remove_2 in D. rewrite app_nil_r in D. apply D. eapply makes_in; eauto. }
  destruct H1 as [<-|H1], H2 as [<-|H2]; auto; exfalso; eauto.
Qed.

(** ** Completed means done *)
Definition IDone (s : st) : Prop := no_failure (log s) -> forall n, In (EDone n) (log s) ->
  exists c, nth_error (heap s) n = Some c /\ (done c = true \/ locked c = true).
Lemma nth_upd : forall (s : st) n c m x, nth_error (heap s) n = Some x ->
  nth_error (heap (upd_cell n c s)) m = if m =? n then Some c else nth_error (heap s) m.
Proof.
  intros s n c m x H. unfold upd_cell. simpl. rewrite nth_set_nth.
  assert (L : n < length (heap s)) by (apply nth_error_Some; congruence).
  apply Nat.ltb_lt in L. now rewrite L, andb_true_r.
Qed.
Lemma IDone_upd : forall (s s' : st) n c x, IDone s -> nth_error (heap s) n = Some x ->
  heap s' = heap (upd_cell n c s) -> (no_failure (log s') -> no_failure (log s)) ->
  (forall m, In (EDone m) (log s') -> In (EDone m) (log s) \/ m = n) ->
  (no_failure (log s') -> done c = true \/ locked c = true \/ (done x = false /\ locked x = false /\ ~ In (EDone n) (log s'))) ->
  IDone s'.
Proof.
  intros s s' n c x I Hn E HF HD HC F m Hm. rewrite E.
  destruct (Nat.eq_dec m n) as [->|N].
  - rewrite (nth_upd _ _ _ _ _ Hn), Nat.eqb_refl. exists c. split; auto.
    destruct (HC F) as [H|[H|(_ & _ & H)]]; tauto.
  - rewrite (nth_upd _ _ _ _ _ Hn). apply Nat.eqb_neq in N as N'. rewrite N'.
    destruct (HD m Hm); [|contradiction]. apply I; auto.
Qed.
Lemma nf_cons : forall e (l : list event), no_failure (e :: l) -> no_failure l.
Proof. intros e l H H0. apply H. now right. Qed.
Lemma IDone_same : forall (s s' : st), IDone s -> (exists y, heap s' = heap s ++ y) ->
  (no_failure (log s') -> no_failure (log s)) ->
  (forall m, In (EDone m) (log s') -> In (EDone m) (log s)) -> IDone s'.
Proof.
  intros s s' I (y & E) HF HD F m Hm. destruct (I (HF F) m (HD m Hm)) as (c & H1 & H2).
  exists c. split; auto. rewrite E, nth_error_app1; auto. apply nth_error_Some. congruence.
Qed.
Ltac idone_same s := apply (IDone_same s);
  [assumption
  |simpl; autorewrite with sd; simpl; first [exists []; now rewrite app_nil_r|eexists; reflexivity]
  |simpl; autorewrite with sd; simpl; first [exact (fun H => H)|apply nf_cons]
  |simpl; autorewrite with sd; simpl; intuition discriminate].
Lemma cstep_IDone : forall s s', cstep s s' -> JInv s -> IDone s -> IDone s'.
Proof.
  intros s s' H J I. destruct H; try (idone_same s; fail).
  - unfold StoreModel.arrive1, new_dispatch. destruct futures; idone_same s.
  - eapply (IDone_upd s); eauto; simpl; auto.
    + apply nf_cons.
    + intros m [E|E]; auto. right. congruence.
  - eapply (IDone_upd s); eauto; simpl; auto.
  - eapply (IDone_upd s); eauto; simpl; auto.
    + apply nf_cons.
    + intros m [E|E]; auto. right. congruence.
  - eapply (IDone_upd s); eauto; simpl; auto. intros F. destruct H1 as [H1|H1]; [now left|now destruct F].
  - assert (I1 : IDone (emit (cev f c (length (heap s))) (new_cell (ckind_of c) s))).
    { destruct c; idone_same s. }
    assert (N : nth_error (heap (emit (cev f c (length (heap s))) (new_cell (ckind_of c) s))) f =
                Some (Cell k false false None)).
    { simpl. rewrite nth_error_app1; auto. apply nth_error_Some. congruence. }
    eapply IDone_upd; [exact I1|exact N|reflexivity|auto|auto|].
    intros F. right. right. split; auto. split; auto. intros D. specialize (I1 F f D).
    destruct I1 as (x & X1 & [X2|X2]); rewrite N in X1; injection X1 as <-; discriminate.
  - assert (I1 : IDone (emit (cev f c (length (heap s))) (new_cell (ckind_of c) s))).
    { destruct c; idone_same s. }
    assert (N : nth_error (heap (emit (cev f c (length (heap s))) (new_cell (ckind_of c) s))) f =
                Some (Cell k true false None)).
    { simpl. rewrite nth_error_app1; auto. apply nth_error_Some. congruence. }
    eapply IDone_upd; [exact I1|exact N|reflexivity|auto|auto|]. auto.
Qed.
Lemma jstep_IDone : forall s s', jstep s s' -> JInv s -> IDone s -> IDone s'.
Proof.
  intros s s' H J I. destruct H; try (idone_same s; fail).
  destruct trans; idone_same s.
Qed.
(** Hence nothing completes twice. *)
Definition once_done (e : event) (r : list event) : Prop :=
  match e with EDone n => no_failure r -> ~ In (EDone n) r | _ => True end.
Definition IOnce (s : st) : Prop := IDone s /\ at_each once_done (log s).
Lemma cstep_IOnce : forall s s', cstep s s' -> JInv s -> IOnce s -> IOnce s'.
Proof.
  intros s s' H J [I1 I2]. split; [eapply cstep_IDone; eauto|].
  destruct H; simpl; autorewrite with sd; simpl; auto.
  - unfold StoreModel.arrive1, new_dispatch. destruct futures; simpl; auto.
  - split; auto. intros F D. destruct (I1 F n D) as (x & X1 & X2).
    rewrite H in X1; injection X1 as <-. destruct X2; discriminate.
  - split; auto. intros F D. destruct (I1 F n D) as (x & X1 & X2).
    rewrite H in X1; injection X1 as <-. destruct X2; discriminate.
  - destruct c; simpl in *; auto.
  - destruct c; simpl in *; auto.
Qed.
Lemma jstep_IOnce : forall s s', jstep s s' -> JInv s -> IOnce s -> IOnce s'.
Proof.
  intros s s' H J [I1 I2]. split; [eapply jstep_IDone; eauto|].
  destruct H; simpl; autorewrite with sd; simpl; auto.
  destruct trans; autorewrite with sd; simpl; auto.
Qed.

(** ** Callbacks *)
Fixpoint attached (l : list event) : list nat :=
  match l with [] => [] | EThen _ n _ :: r => attached r ++ [n] | _ :: r => attached r end.
Definition jcb (j : job) : list nat := match j with JCb _ (CBUser _) n => [n] | _ => [] end.
Definition ccb (c : cell) : list nat := match cb c with Some j => jcb j | None => [] end.
Definition ICb (s : st) : Prop :=
  Permutation (attached (log s)) (callbacks_run (log s) ++ flat_map jcb (q s) ++ flat_map ccb (heap s)).
Lemma stored_upd : forall h n c0 c, nth_error h n = Some c0 ->
  Permutation (ccb c0 ++ flat_map ccb (set_nth n c h)) (ccb c ++ flat_map ccb h).
Proof.
  induction h as [|x h IH]; intros [|n] c0 c H; simpl in *; try discriminate.
  - injection H as ->. apply Permutation_app_swap_app.
  - specialize (IH n c0 c H). rewrite Permutation_app_swap_app, IH. apply Permutation_app_swap_app.
Qed.
Lemma jcb_app : forall a b, flat_map jcb (a ++ b) = flat_map jcb a ++ flat_map jcb b.
Proof. intros. apply flat_map_app. Qed.
Lemma ICb_upd0 : forall (s s' : st) n c c0, ICb s -> nth_error (heap s) n = Some c0 -> ccb c = [] -> ccb c0 = [] ->
  heap s' = heap (upd_cell n c s) -> flat_map jcb (q s') = flat_map jcb (q s) ->
  attached (log s') = attached (log s) -> callbacks_run (log s') = callbacks_run (log s) -> ICb s'.
Proof.
  intros s s' n c c0 I H E1 E2 E3 E4 E5 E6. unfold ICb. rewrite E3, E4, E5, E6.
  unfold upd_cell. simpl. pose proof (stored_upd _ _ _ c H) as P. rewrite E1, E2 in P. simpl in P.
  rewrite P. exact I.
Qed.
Lemma stored_new : forall h k, flat_map ccb (h ++ [Cell k false false None]) = flat_map ccb h.
Proof. intros. rewrite flat_map_app. simpl. now rewrite app_nil_r. Qed.
Lemma cstep_ICb : forall s s', cstep s s' -> JInv s -> ICb s -> ICb s'.
Proof.
  intros s s' H J I.
  assert (DONE : forall n c, nth_error (heap s) n = Some c -> done c = true -> ccb c = []).
  { intros n c Hn Hd. destruct J as [_ J]. apply J in Hn. destruct Hn as [_ Hn _ _]. apply Hn in Hd.
    unfold ccb. destruct Hd as [_ Hd]. now rewrite Hd. }
  destruct H; try (unfold ICb in *; simpl; autorewrite with sd; simpl; rewrite ?jcb_app, ?stored_new; simpl;
    rewrite ?app_nil_r; exact I).
  - unfold StoreModel.arrive1, new_dispatch, ICb in *. destruct futures; simpl; rewrite ?jcb_app, ?stored_new; simpl;
      rewrite ?app_nil_r; exact I.
  - eapply (ICb_upd0 s); [exact I|exact H| | |reflexivity|reflexivity|reflexivity|reflexivity]; eauto.
  - eapply (ICb_upd0 s); [exact I|exact H| | |reflexivity|reflexivity|reflexivity|reflexivity]; eauto.
  - (* the callback moves from the cell to the queue *)
    unfold ICb in *. simpl. rewrite jcb_app. simpl. rewrite app_nil_r.
    pose proof (stored_upd _ _ _ (Cell k false true None) H) as P. simpl in P. unfold ccb at 1 in P. simpl in P.
    rewrite I. apply Permutation_app_head. rewrite <- app_assoc. apply Permutation_app_head. now rewrite P.
  - eapply (ICb_upd0 s); [exact I|exact H| | |reflexivity|reflexivity|reflexivity|reflexivity]; eauto.
  - (* stored *)
    assert (P := stored_upd (heap s ++ [Cell (ckind_of c) false false None]) f (Cell k false false None)
                  (Cell k false false (Some (JCb f c (length (heap s)))))).
    rewrite nth_error_app1 in P by (apply nth_error_Some; congruence). specialize (P H).
    simpl in P. rewrite stored_new in P. unfold ccb at 2 in P. simpl in P.
    unfold ICb in *. simpl.
    destruct c as [p|m]; simpl in *; rewrite P.
    + rewrite <- Permutation_cons_append, I. rewrite !app_assoc. simpl.
      rewrite <- !app_assoc. rewrite !app_assoc. apply Permutation_middle.
    + exact I.
  - (* posted at once *)
    assert (P := stored_upd (heap s ++ [Cell (ckind_of c) false false None]) f (Cell k true false None)
                  (Cell k true true None)).
    rewrite nth_error_app1 in P by (apply nth_error_Some; congruence). specialize (P H).
    simpl in P. rewrite stored_new in P.
    unfold ICb in *. simpl. rewrite jcb_app. simpl.
    destruct c as [p|m]; simpl in *; rewrite P; rewrite ?app_nil_r.
    + rewrite <- Permutation_cons_append, I. rewrite <- app_assoc. simpl.
      rewrite !app_assoc. apply Permutation_middle.
    + exact I.
Qed.
Lemma jstep_ICb : forall s s', jstep s s' -> JInv s -> ICb s -> ICb s'.
Proof.
  intros s s' H _ I. unfold ICb in *.
  destruct H; simpl; try rewrite H in I; simpl in I; autorewrite with sd; simpl; rewrite ?jcb_app; simpl;
    rewrite ?app_nil_r; auto.
  - destruct trans; autorewrite with sd; simpl; exact I.
  - rewrite <- app_assoc. exact I.
Qed.
Lemma attached_in : forall f n c l, In (EThen f n c) l -> In n (attached l).
Proof.
  induction l as [|x l IH]; simpl; [tauto|]. intros [->|H].
  - apply in_app_iff. right. now left.
  - specialize (IH H). destruct x; try exact IH. apply in_app_iff. now left.
Qed.
Lemma attached_out : forall n l, In n (attached l) -> exists f c, In (EThen f n c) l.
Proof.
  induction l as [|x l IH]; simpl; [tauto|]. intros H.
  assert (X : In n (attached l) -> exists f c, x = EThen f n c \/ In (EThen f n c) l).
  { intros K. destruct (IH K) as (f & c & E). exists f, c. now right. }
  destruct x; try (now apply X). apply in_app_iff in H as [H|[<-|[]]]; [now apply X|].
  exists f, c. now left.
Qed.
Lemma attached_nodup : forall l, NoDup (allocs l) -> NoDup (attached l).
Proof.
  induction l as [|x l IH]; simpl; intros D; [constructor|].
  assert (D' : NoDup (allocs l)).
  { destruct (allocs_cons x l) as (y & E). simpl in E. rewrite E in D. now apply NoDup_app_l in D. }
  destruct x; auto.
  apply NoDup_Add with (a := n) (l := attached l).
  - rewrite <- (app_nil_r (attached l)) at 1. apply Add_app.
  - split; auto. intros H. apply NoDup_remove_2 in D. rewrite app_nil_r in D. apply D.
    apply attached_out in H as (f' & c' & H). eapply makes_in; eauto. reflexivity.
Qed.

End Inv.

Arguments at_each {M A W}. Arguments before {M A W}. Arguments begun {M A W}. Arguments pend_red {M A W}.
Arguments pend_eff {M A W}. Arguments allocs {M A W}. Arguments makes {M A W}. Arguments attached {M A W}.
Arguments jcb {M A W}. Arguments ccb {M A W}. Arguments once_done {M A W}.
