(** C64: threads in run(). *)
From Coq Require Import List Arith Bool Lia.
From Verif Require Import AsioModel AsioSpec AsioProofs AsioThreads AsioUse.
Import ListNotations.

Definition is_there (w : option worker) : bool := match w with Some _ => true | None => false end.
Lemma in_run_settle : forall t s, in_run t (log (settle s)) = in_run t (log s).
Proof. intros t s. unfold settle. destruct (load s =? 0); reflexivity. Qed.
Definition located (s : st) : Prop :=
  (forall t, in_run t (log s) = is_there (worker_of t s)) /\ forall t, In (EEnter t) (log s) -> t < length (ws s).
Lemma upd_length : forall A t (x : A) l, length (upd t x l) = length l.
Proof. intros A t x l. revert t. induction l as [|y l IH]; intros [|t]; cbn; auto. Qed.
Lemma entered_settle : forall t s, In (EEnter t) (log (settle s)) -> In (EEnter t) (log s).
Proof. intros t s. unfold settle. destruct (load s =? 0); [|auto]. intros [E | I]; [discriminate E|exact I]. Qed.
Lemma located_step : forall c l s s', located s -> step c l s = Some s' -> located s'.
Proof.
  intros c l s s' [I J] H. split.
  - intros u. specialize (I u). unfold worker_of in *.
    unfold step, go, do_use, do_post, do_async, do_finish, enqueue, robbed, on_exit, set_worker in H.
    case_step H; subst; rewrite ?in_run_settle, ?settle_ws;
      cbn [que ready waiting locked sched ws fns other stopped alive vars next fated log
           set_queues set_ws set_fns set_other set_stopped set_alive set_vars bump set_fate note in_run]; try exact I;
      try (match goal with E : worker_of ?t s = Some _ |- _ => apply worker_in in E;
             rewrite (worker_set _ u _ _ _ E); destruct (Nat.eqb_spec t u) as [<- | N]; [rewrite E in I|]; try exact I; try reflexivity end).
    + apply Nat.eqb_eq in Heqb. subst t. rewrite I. destruct (Nat.eqb_spec (length (ws s)) u) as [<- | N].
      * rewrite nth_error_app2, Nat.sub_diag by lia. reflexivity.
      * destruct (Nat.lt_ge_cases u (length (ws s))) as [L | L]; [rewrite nth_error_app1 by exact L; reflexivity|].
        assert (nth_error (ws s) u = None) as -> by (apply nth_error_None; lia).
        assert (nth_error (ws s ++ [Some Idle]) u = None) as -> by (apply nth_error_None; rewrite app_length; cbn; lia). reflexivity.
    + rewrite (worker_set _ u _ _ _ Heqo). destruct (Nat.eqb_spec t u) as [<- | N]; [reflexivity|exact I].
  - intros u. specialize (J u).
    unfold step, go, do_use, do_post, do_async, do_finish, enqueue, robbed, on_exit, set_worker in H.
    case_step H; subst; rewrite ?settle_ws; intros K; try apply entered_settle in K;
      cbn [que ready waiting locked sched ws fns other stopped alive vars next fated log
           set_queues set_ws set_fns set_other set_stopped set_alive set_vars bump set_fate note In] in *;
      rewrite ?upd_length; repeat (destruct K as [K | K]; [try discriminate K|]); auto.
    + apply Nat.eqb_eq in Heqb. injection K as <-. subst t. rewrite app_length. cbn. lia.
    + rewrite app_length. specialize (J K). lia.
    + injection K as <-. apply nth_error_Some. rewrite Heqo. discriminate.
Qed.
Lemma located_reach : forall c s, reach c s -> located s.
Proof.
  intros c. apply reach_ind; [|intros; eapply located_step; eauto].
  split; [|intros t []]. intros t. unfold worker_of. cbn. destruct t; reflexivity.
Qed.
Theorem nested_reach : forall c s, reach c s -> at_events nested (log s).
Proof.
  intros c. apply (reach_ind c (fun s => at_events nested (log s))).
  - intros [|x l1] e l2 E; discriminate E.
  - intros l s s' R A H. destruct (located_reach _ _ R) as [L _]. pose proof (runs_reach _ _ R) as U. unfold runs in U.
    unfold step, go, do_use, do_post, do_async, do_finish, enqueue, robbed, on_exit, set_worker in H.
    case_step H; subst; try (apply at_settle; [|intros _; exact Logic.I]); cbn [log note set_queues set_ws
      set_fns set_other set_stopped set_alive set_vars bump set_fate]; auto;
      repeat (apply at_cons; [|cbn [nested in_run on]; try exact Logic.I]); auto;
      rewrite ?L, ?U; try (match goal with E : worker_of _ s = _ |- _ => rewrite E end); cbn [is_there busy_with];
      try (split; [reflexivity|]; try reflexivity; eexists; eexists; reflexivity).
    + apply Nat.eqb_eq in Heqb. subst t. unfold worker_of.
      assert (nth_error (ws s) (length (ws s)) = None) as -> by (apply nth_error_None; lia). reflexivity.
    + unfold worker_of. rewrite Heqo. reflexivity.
Qed.
Theorem inside_run : forall c s l1 e l2, reach c s -> log s = l1 ++ e :: l2 -> nested e l2.
Proof. intros c s l1 e l2 R. exact (nested_reach c s R l1 e l2). Qed.
(** A thread that left run() can call it again. *)
Theorem enters : forall c s t, reach c s -> fated s = Going -> In (EEnter t) (log s) -> in_run t (log s) = false ->
  exists s', step c (LEnter t) s = Some s' /\ in_run t (log s') = true.
Proof.
  intros c s t R G I O. destruct (located_reach _ _ R) as [L J]. specialize (J t I). rewrite L in O. unfold worker_of in O.
  destruct (nth_error (ws s) t) as [[w|]|] eqn:E; [discriminate O| |apply nth_error_None in E; lia].
  unfold step, go. rewrite G, E. destruct (Nat.eqb_spec t (length (ws s))); [lia|]. eexists. split; [reflexivity|].
  rewrite in_run_settle. cbn. rewrite Nat.eqb_refl. reflexivity.
Qed.
