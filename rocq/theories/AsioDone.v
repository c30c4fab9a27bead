(** More proofs about the Boost.Asio event loop: run() returns when all is done. *)
From Coq Require Import List Arith Bool Lia Permutation.
From Verif Require Import AsioModel AsioSpec AsioProofs AsioThreads.
Import ListNotations.

(** While a thread is in run() of a context that is not stopped, there is work. *)
Definition working (s : st) : Prop := stopped s = false -> sum here s <> 0 -> load s <> 0.

Lemma working_settle s : working (settle s).
Proof.
  unfold working, settle; destruct (load s =? 0) eqn:E; cbn; [discriminate|].
  intros _ _; apply Nat.eqb_neq; exact E.
Qed.

Lemma working_step c l s s' : reach c s -> working s -> step c l s = Some s' -> working s'.
Proof.
  intros R W H.
  unfold step, go, do_use, do_post, do_async, do_finish, enqueue, robbed, on_exit, set_worker in H.
  case_step H; subst; try apply working_settle; split_ws; unfold working, sum, load in *;
    cbn [que ready waiting locked sched ws fns other stopped alive vars next fated log
       set_queues set_ws set_fns set_other set_stopped set_alive set_vars bump set_fate note] in *; auto;
    intros S1 N.
  all: try discriminate.
  all: try (rewrite ?app_length, ?map_length in *; cbn [length] in *; lia).
  all: try (repeat match goal with
       | H : context [list_sum (map _ (_ ++ _ :: _))] |- _ => rewrite sum_mid in H
       | |- context [list_sum (map _ (_ ++ _ :: _))] => rewrite sum_mid
       end; cbn [busy here plus length] in *; try congruence; lia).
  all: try (destruct N; clear - Heqb; induction (ws s) as [|[w|] r IH]; [reflexivity|discriminate Heqb|cbn in *; auto]).
  rewrite map_length; auto.
Qed.

Theorem working_reach c s : reach c s -> working s.
Proof.
  apply (reach_ind c working); [intros _ N; destruct N; reflexivity | intros; eapply working_step; eauto].
Qed.

Lemma works_app l1 l2 : works (l1 ++ l2) = works l1 + works l2.
Proof. induction l1 as [|[] r IH]; cbn; auto. Qed.
Lemma works_done_app l1 l2 : works_done (l1 ++ l2) = works_done l1 + works_done l2.
Proof. induction l1 as [|[] r IH]; cbn; auto. Qed.

Lemma other_works c ls s : steps c ls init = Some s -> other s + works_done ls = works ls.
Proof.
  revert s; induction ls as [|l r IH] using rev_ind; intros s E; [injection E as <-; reflexivity|].
  apply steps_app in E as (m & E1 & E2); cbn in E2.
  destruct (step c l m) as [x|] eqn:F; [|discriminate E2]; injection E2 as <-.
  apply IH in E1; clear IH; rewrite works_app, works_done_app.
  assert (SO : forall y, other (settle y) = other y) by (intro y; apply settle_same).
  unfold step, go, do_use, do_post, do_async, do_finish, enqueue, robbed, on_exit, set_worker in F.
  case_step F; subst; rewrite ?SO; cbn [works works_done] in *; cbn in *; lia.
Qed.

Lemma others_done c ls s : steps c ls init = Some s -> fated s = Going ->
  ((exists s', step c LWorkDone s = Some s') <-> works_done ls < works ls).
Proof.
  intros E G; apply other_works in E; unfold step; rewrite G; cbn.
  destruct (other s) as [|n]; split; intro H; try lia; try (eexists; reflexivity).
  destruct H; discriminate.
Qed.

Definition unsettled (s s' : st) : Prop :=
  (exists new, log s' = new ++ log s /\ ~ In ERanOut new) \/ other s' = 0.
Lemma unsettled_settle s y : (exists new, log y = new ++ log s /\ ~ In ERanOut new) -> unsettled s (settle y).
Proof.
  intro H; unfold unsettled, settle; destruct (load y =? 0) eqn:E; cbn; [|auto].
  right; apply Nat.eqb_eq in E; unfold load in E; lia.
Qed.
Lemma unsettled_step c l s s' : step c l s = Some s' -> unsettled s s'.
Proof.
  intro H.
  unfold step, go, do_use, do_post, do_async, do_finish, enqueue, robbed, on_exit, set_worker in H.
  assert (N0 : exists new : list event, log s = new ++ log s /\ ~ In ERanOut new) by (exists []; auto).
  assert (N1 : forall e, e <> ERanOut -> exists new, e :: log s = new ++ log s /\ ~ In ERanOut new)
    by (intros e X; exists [e]; split; [reflexivity | intros [Y | []]; auto]).
  assert (N2 : forall e f, e <> ERanOut -> f <> ERanOut ->
            exists new, e :: f :: log s = new ++ log s /\ ~ In ERanOut new)
    by (intros e f X Y; exists [e; f]; split; [reflexivity | intros [Z | [Z | []]]; auto]).
  case_step H; subst; try apply unsettled_settle; try (left; cbn; auto; fail); cbn;
    try (first [apply N0 | apply N1 | apply N2]; discriminate);
    left; cbn; first [apply N0 | apply N1 | apply N2]; discriminate.
Qed.

(** As long as others have work for it the context does not run out of work. *)
Theorem others_keep c ls l s s' new : steps c ls init = Some s -> step c l s = Some s' ->
  log s' = new ++ log s -> In ERanOut new -> works (ls ++ [l]) = works_done (ls ++ [l]).
Proof.
  intros E F L I.
  assert (X : other s' + works_done (ls ++ [l]) = works (ls ++ [l])).
  { apply (other_works c); apply steps_app; exists s; split; [exact E|]; cbn; rewrite F; reflexivity. }
  destruct (unsettled_step _ _ _ _ F) as [(n & L2 & N) | O]; [|lia].
  rewrite L in L2; apply app_inv_tail in L2; subst; destruct (N I).
Qed.

Lemma some_busy l : list_sum (map busy l) <> 0 -> exists u w, nth_error l u = Some (Some w) /\ busy (Some w) <> 0.
Proof.
  induction l as [|w l IH]; intro N; [destruct N; reflexivity|].
  change (busy w + list_sum (map busy l) <> 0) in N.
  destruct (Nat.eq_dec (busy w) 0) as [Z | Z].
  - destruct IH as (u & x & E & B); [lia|]; exists (S u), x; auto.
  - destruct w as [w|]; [|destruct Z; reflexivity]; exists 0, w; auto.
Qed.

(** A scheduled invoker has something to call. *)
Definition scheduled (s : st) : Prop := sched s = true -> ready s <> [].
Lemma scheduled_step c l s s' : reach c s -> scheduled s -> step c l s = Some s' -> scheduled s'.
Proof.
  intros R W H; pose proof (ok_reach _ _ R) as [[_ Q2] K L _ _]; unfold sum in L.
  unfold step, go, do_use, do_post, do_async, do_finish, enqueue, robbed, on_exit, set_worker in H.
  case_step H; subst; split_ws; unfold scheduled in *; proj; auto; intros S1.
  all: try discriminate.
  all: try (destruct (ready s); discriminate).
  all: repeat match goal with
       | H : context [list_sum (map _ (_ ++ _ :: _))] |- _ => rewrite sum_mid in H
       end; cbn [invs plus] in *.
  all: try (rewrite S1 in L; destruct (locked s); cbn in L; lia).
Qed.
Theorem scheduled_reach c s : reach c s -> scheduled s.
Proof.
  apply (reach_ind c scheduled); [discriminate | intros; eapply scheduled_step; eauto].
Qed.

Theorem all_done c ls s t : steps c ls init = Some s -> works ls = works_done ls -> fated s = Going ->
  worker_of t s = Some Idle ->
  (forall i, In i (posted (log s)) -> In i (ended (log s))) ->
  (forall a, In a (given (log s)) -> In a (back (log s))) ->
  (exists s', step c (LLeave t) s = Some s') \/ (exists u s', step c (LExit u) s = Some s').
Proof.
  intros E NW G W P A; assert (R : reach c s) by (exists ls; exact E).
  destruct (stopped s) eqn:St.
  { left; unfold step; rewrite G; cbn; rewrite W, St; eauto. }
  right; assert (O : other s = 0) by (pose proof (other_works _ _ _ E); lia).
  assert (H : load s <> 0).
  { apply (working_reach _ _ R); auto; unfold sum; apply worker_in in W.
    destruct (upd_split _ _ _ W) as (l1 & l2 & -> & _); rewrite sum_mid; cbn; discriminate. }
  destruct (ok_reach _ _ R) as [[Q1 Q2] K L C _].
  destruct (threads_reach _ _ R) as [T1 _].
  destruct (numbered_reach _ _ R) as (N1 & N2 & _).
  assert (Begun : forall i, In i (begun (log s)) -> In i (posted (log s)))
    by (intros i I; rewrite Q1; apply in_app_iff; auto).
  assert (NC : NoDup (ended (log s) ++ flat_map cur (ws s)))
    by (apply (Permutation_NoDup C); apply (once _ _ R)).
  assert (Disj : forall i, In i (ended (log s)) -> In i (flat_map cur (ws s)) -> False).
  { intros i I J; clear - NC I J; induction (ended (log s)) as [|x r IH]; [destruct I|].
    cbn in NC; inversion NC as [|y z X Y]; subst; destruct I as [-> | I]; [apply X, in_app_iff; auto|auto]. }
  assert (Zc : flat_map cur (ws s) = []).
  { destruct (flat_map cur (ws s)) as [|i r] eqn:F; [reflexivity|exfalso].
    apply (Disj i); [apply P, Begun|left; reflexivity].
    apply (Permutation_in _ (Permutation_sym C)), in_app_iff; right; left; reflexivity. }
  assert (Zp : pend c s = []).
  { destruct (pend c s) as [|h r] eqn:F; [reflexivity|exfalso].
    assert (I : In (num h) (posted (log s))) by (rewrite Q1; apply in_app_iff; right; left; reflexivity).
    apply P in I; assert (J : In (num h) (begun (log s)))
      by (apply (Permutation_in _ (Permutation_sym C)), in_app_iff; auto).
    rewrite Q1 in N1; clear - N1 J; induction (begun (log s)) as [|x l IH]; [destruct J|].
    cbn in N1; inversion N1 as [|y z X Y]; subst; destruct J as [-> | J]; [apply X, in_app_iff; right; left; reflexivity|auto]. }
  assert (Zf : fns s = []).
  { destruct (fns s) as [|f r] eqn:F; [reflexivity|exfalso].
    pose proof (Permutation_NoDup T1 N2) as N3.
    assert (I : In (num (fst f)) (back (log s)))
      by (apply A, (Permutation_in _ (Permutation_sym T1)), in_app_iff; right; left; reflexivity).
    clear - N3 I; induction (back (log s)) as [|x l IH]; [destruct I|].
    cbn in N3; inversion N3 as [|y z X Y]; subst; destruct I as [-> | I]; [apply X, in_app_iff; right; left; reflexivity|auto]. }
  unfold load in H; rewrite Zf, O in H; cbn [length] in H.
  assert (X : list_sum (map busy (ws s)) <> 0 \/ (strand c = true /\ sched s = true)).
  { unfold pend in Zp; destruct (strand c).
    - destruct Q2 as [Q2 _]; rewrite Q2 in H; cbn [length] in H.
      destruct (sched s); [right; auto|left; lia].
    - rewrite Zp in H; destruct Q2 as (_ & _ & Q2 & _); rewrite Q2 in H; cbn in H; left; lia. }
  destruct X as [X | [X1 X2]].
  - apply some_busy in X as (u & w & U & Bw); exists u.
    assert (Iw : In (Some w) (ws s)) by (apply nth_error_In with u; exact U).
    assert (Cw : cur (Some w) = []).
    { destruct (cur (Some w)) as [|i r] eqn:F; [reflexivity|exfalso].
      assert (J : In i (flat_map cur (ws s))) by (apply in_flat_map; exists (Some w); split; [exact Iw|rewrite F; left; reflexivity]).
      rewrite Zc in J; destruct J. }
    destruct w as [| |[h|]]; try discriminate Cw; [destruct Bw; reflexivity|].
    rewrite Forall_forall in K; pose proof (K _ Iw) as Kw; cbn in Kw.
    unfold pend in Zp; rewrite Kw in Zp; apply app_eq_nil in Zp as [Zp _].
    unfold step; rewrite G; cbn; unfold worker_of; rewrite U, Zp; eauto.
  - (* a scheduled invoker has something to do *)
    exfalso; pose proof (scheduled_reach _ _ R X2) as NE.
    unfold pend in Zp; rewrite X1 in Zp; apply app_eq_nil in Zp as [Zp _]; congruence.
Qed.
