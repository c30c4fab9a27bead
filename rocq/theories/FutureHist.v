(** Histories of a promise. *)
From Coq Require Import List Arith Bool Lia.
From Verif Require Import FutureModel FutureSpec FutureProofs.
Import ListNotations.

Section H.
Variable role : nat -> call.
Variable debug : bool.
Notation step := (step role debug).
Notation reach := (reach role debug).
Notation reach_Inv := (reach_Inv role debug).

Lemma step_log : forall i s s', step i s s' -> log s' = log s \/ exists e, log s' = e :: log s.
Proof.
  intros i s s' H. destruct H; simpl; auto; try (right; eexists; reflexivity).
  - unfold drop. destruct (callback s); simpl; eauto.
  - unfold drop. destruct (callback s); simpl; eauto.
Qed.
Lemma at_event : forall s, reach s -> forall l1 e l2, log s = l1 ++ e :: l2 ->
  exists i s0 s1, reach s0 /\ step i s0 s1 /\ log s0 = l2 /\ log s1 = e :: l2.
Proof.
  intros s H. induction H as [|i s s' H IH HS]; intros l1 e l2 E.
  - destruct l1; discriminate.
  - destruct (step_log _ _ _ HS) as [L|[e' L]]; rewrite L in E.
    + eauto.
    + destruct l1 as [|x l1]; simpl in E; injection E as -> E.
      * exists i, s, s'. rewrite L, E. auto.
      * eauto.
Qed.
Lemma not_self : forall (e : event) l, l <> e :: l.
Proof. intros e l E. apply (f_equal (@length event)) in E. simpl in E. lia. Qed.
(** The step that posts. *)
Lemma at_post : forall s, reach s -> forall l1 i c l2, log s = l1 ++ EPost i c :: l2 ->
  exists s0, reach s0 /\ log s0 = l2 /\ pc s0 i = Crit /\
    (role i = Fulfil /\ done s0 = false /\ callback s0 = Some c \/ role i = Attach /\ done s0 = true /\ c = i).
Proof.
  intros s H l1 i c l2 E. destruct (at_event s H _ _ _ E) as (j & s0 & s1 & H0 & HS & L0 & L1).
  exists s0. split; auto. split; auto.
  destruct HS; simpl in L1; try (exfalso; rewrite L0 in L1; now apply not_self in L1);
    try (unfold drop in L1; destruct (callback s0); simpl in L1; [discriminate|exfalso; rewrite L0 in L1; now apply not_self in L1]);
    try discriminate; injection L1; intros; subst; auto 10.
Qed.
Lemma in_log_pc : forall s, reach s -> forall i, In (EUnlock i) (log s) <-> pc s i = Ret.
Proof. intros s H i. symmetry. now apply (i_unl role s (reach_Inv s H)). Qed.

Lemma once : forall s, reach s -> NoDup (posts (log s)).
Proof. intros s H. now apply (i_nodup role), reach_Inv. Qed.
(** Whoever posts, the other one was there before. *)
Lemma after_both : forall s, reach s -> forall l1 i c l2, log s = l1 ++ EPost i c :: l2 ->
  role c = Attach /\ In (EStart c) l2 /\
  (role i = Fulfil -> In (EStart i) l2 /\ In (EUnlock c) l2) /\
  (role i = Attach -> c = i /\ exists f, role f = Fulfil /\ In (EStart f) l2 /\ In (EUnlock f) l2).
Proof.
  intros s H l1 i c l2 E. destruct (at_post s H _ _ _ _ E) as (s0 & H0 & <- & HC & X).
  pose proof (reach_Inv s0 H0) as I.
  assert (HI : inside (pc s0 i) = true) by (now rewrite HC).
  assert (St : forall k, pc s0 k <> New -> In (EStart k) (log s0)).
  { intros k N. destruct (i_start role s0 I k); tauto. }
  assert (Q : forall k, k <> i -> marked (pc s0 k) = true \/ settled (pc s0 k) = true -> pc s0 k = Ret).
  { intros k N M. assert (~ inside (pc s0 k) = true).
    { intros K. apply (i_hold role s0 I) in K. apply (i_hold role s0 I) in HI. congruence. }
    destruct (pc s0 k); simpl in *; intuition congruence. }
  destruct X as [(R & D & C)|(R & D & ->)].
  - destruct (i_cb role s0 I c C) as [RC SC].
    assert (N : c <> i) by congruence.
    assert (PC : pc s0 c = Ret) by (apply Q; auto).
    split; auto. split; [apply St; congruence|]. split; [|congruence].
    intros _. split; [apply St; congruence|]. now apply (i_unl role s0 I).
  - destruct (i_done role s0 I D) as (_ & f & RF & MF).
    assert (N : f <> i) by congruence.
    assert (PF : pc s0 f = Ret) by (apply Q; auto).
    split; auto. split; [apply St; congruence|]. split; [congruence|].
    intros _. split; auto. exists f. split; auto. split; [apply St; congruence|]. now apply (i_unl role s0 I).
Qed.
(** Once a fulfilment returned, no other one posts. *)
Lemma second_silent : forall s, reach s -> forall l1 i c l2 f, log s = l1 ++ EPost i c :: l2 ->
  role i = Fulfil -> role f = Fulfil -> ~ In (EUnlock f) l2.
Proof.
  intros s H l1 i c l2 f E R RF HU. destruct (at_post s H _ _ _ _ E) as (s0 & H0 & <- & HC & X).
  pose proof (reach_Inv s0 H0) as I. apply (i_unl role s0 I) in HU.
  assert (D : done s0 = true) by (apply (i_ful role s0 I f); auto; now rewrite HU).
  destruct X as [(_ & D' & _)|(R' & _)]; congruence.
Qed.
(** Both are over: posted, or dropped by another attachment. *)
Lemma posted_or_dropped : forall s, reach s -> forall f c, role f = Fulfil -> role c = Attach ->
  pc s f = Ret -> pc s c = Ret -> In c (posts (log s)) \/ In (EDrop c) (log s).
Proof.
  intros s H f c RF RC PF PC. pose proof (reach_Inv s H) as I.
  assert (D : done s = true) by (apply (i_ful role s I f); auto; now rewrite PF).
  destruct (i_att role s I c RC) as [X|[X|X]]; auto; [now rewrite PC|].
  destruct (i_done role s I D). congruence.
Qed.
Lemma single_posted : forall c, single role c -> forall s, reach s -> forall f, role f = Fulfil ->
  In (EUnlock f) (log s) -> In (EUnlock c) (log s) -> count_occ Nat.eq_dec (posts (log s)) c = 1.
Proof.
  intros c [RC S] s H f RF UF UC. apply (in_log_pc s H) in UF, UC.
  destruct (posted_or_dropped s H f c RF RC UF UC) as [X|X].
  - pose proof (once s H) as N. rewrite (NoDup_count_occ Nat.eq_dec) in N. specialize (N c).
    apply (count_occ_In Nat.eq_dec) in X. lia.
  - apply (i_drop role s (reach_Inv s H)) in X. destruct X as (_ & c' & N & R). now apply S in R.
Qed.
Lemma drop_second : forall s, reach s -> forall c, In (EDrop c) (log s) -> role c = Attach /\ exists c', c' <> c /\ role c' = Attach.
Proof. intros s H. apply (i_drop role), reach_Inv. auto. Qed.
Lemma mutex : forall s, reach s -> forall i j, inside (pc s i) = true -> inside (pc s j) = true -> i = j.
Proof.
  intros s H i j A B. pose proof (reach_Inv s H) as I.
  apply (i_hold role s I) in A. apply (i_hold role s I) in B. congruence.
Qed.
Lemma no_race : debug = false -> forall s, reach s -> forall i j, touches (pc s i) -> touches (pc s j) -> i = j.
Proof.
  intros D s H i j A B. assert (P : forall k, pc s k <> Peek).
  { clear A B. induction H as [|k0 s s' H IH HS]; intros k; [discriminate|].
    assert (DR : pc (drop s) = pc s) by (unfold drop; destruct (callback s); auto).
    destruct HS as [h|h|h|h|h|h|h|h|h|h|h|h|h]; simpl; rewrite ?DR; unfold upd;
      (destruct (Nat.eqb_spec k h); [|apply IH]); try discriminate.
    - unfold entry. rewrite D. destruct (role h); discriminate.
    - destruct (role h); discriminate. }
  apply (mutex s H); [specialize (P i); clear B|specialize (P j); clear A]; unfold touches in *.
  - destruct (pc s i); simpl; intuition discriminate.
  - destruct (pc s j); simpl; intuition discriminate.
Qed.
(** Progress if post never runs a call inside. *)
Lemma progress : forall s, reach s -> (forall k, parent s k = None) -> forall i, active (pc s i) ->
  exists j s', active (pc s j) /\ step j s s'.
Proof.
  intros s H NP i A. pose proof (reach_Inv s H) as I.
  assert (act : forall k x, pc s k = x -> x <> New -> ~ over x -> active (pc s k)) by (intros k x ->; split; auto).
  destruct (holder s) as [h|] eqn:EH.
  - exists h. assert (HI : inside (pc s h) = true) by (now apply (i_hold role s I)).
    assert (NC : no_children_left s h) by (intros k E; rewrite NP in E; discriminate).
    destruct (pc s h) eqn:E; try discriminate; rewrite <- E.
    + destruct (role h) eqn:R, (done s) eqn:D.
      * eexists. split; [eapply act; eauto; [discriminate|intros [X|[X|X]]; discriminate]|]. apply s_fulfil_skip; auto.
      * destruct (callback s) as [c|] eqn:C; eexists;
          (split; [eapply act; eauto; [discriminate|intros [X|[X|X]]; discriminate]|]).
        -- apply s_fulfil_post with (c := c); auto.
        -- apply s_fulfil_skip; auto.
      * eexists. split; [eapply act; eauto; [discriminate|intros [X|[X|X]]; discriminate]|]. apply s_attach_post; auto.
      * eexists. split; [eapply act; eauto; [discriminate|intros [X|[X|X]]; discriminate]|]. apply s_attach_keep; auto.
    + eexists. split; [eapply act; eauto; [discriminate|intros [X|[X|X]]; discriminate]|]. eapply s_posted; eauto.
    + eexists. split; [eapply act; eauto; [discriminate|intros [X|[X|X]]; discriminate]|]. apply s_mark; auto.
    + eexists. split; [eapply act; eauto; [discriminate|intros [X|[X|X]]; discriminate]|]. apply s_clear; auto.
    + eexists. split; [eapply act; eauto; [discriminate|intros [X|[X|X]]; discriminate]|]. apply s_unlock; auto.
  - exists i. pose proof A as [A1 A2]. destruct (pc s i) eqn:E; try congruence;
      try (assert (X : holder s = Some i) by (apply (i_hold role s I); now rewrite E); congruence);
      try (exfalso; apply A2; unfold over; tauto).
    + destruct (callback s) eqn:C; eexists; (split; [rewrite <- E in A; now rewrite E in A|]).
      * eapply s_abort; eauto.
      * eapply s_assert; eauto.
    + eexists. split; auto. apply s_lock; auto.
Qed.
(** With one attachment the assertion never fails. *)
Lemma no_abort : forall c, single role c -> forall s, reach s -> forall i, pc s i <> Abort.
Proof.
  intros c [RC S] s H. induction H as [|k0 s s' H IH HS]; intros i; [discriminate|].
  assert (DR : pc (drop s) = pc s) by (unfold drop; destruct (callback s); auto).
  destruct HS as [j|j|j s c' H1 H2|j|j|j|j|j|j|j|j|j|j]; simpl; rewrite ?DR; unfold upd;
    (destruct (Nat.eqb_spec i j); [|apply IH]); try discriminate.
  - unfold entry. destruct (role j), debug; discriminate.
  - pose proof (reach_Inv s H) as I. apply (i_cb role s I) in H2. destruct H2 as [R X].
    apply S in R. apply (i_peek role s I) in H1 as Y. apply S in Y.
    assert (E : c' = j) by congruence. rewrite E, H1 in X. discriminate.
  - destruct (role j); discriminate.
Qed.
End H.
