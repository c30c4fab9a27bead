(** C65: the Qt event loop. *)
From Coq Require Import List Arith Bool Lia.
From Verif Require Import QtLoopModel QtLoopSpec QtLoopProofs QtLoopUse.
Import ListNotations.

(** Posted functions are called in the order in which they were posted, each once; ... *)
Theorem C65_order : forall n s, reach n s ->
  NoDup (posted (log s)) /\ exists r, posted (log s) = begun (log s) ++ r.
Proof. exact order. Qed.
Print Assumptions C65_order.

(** ... as long as the object exists, whenever an event loop of the main thread is in
    control; ... *)
Theorem C65_delivers : forall n s, reach n s -> fated s = Going -> obj s = true -> looping s = true ->
  posted (log s) <> begun (log s) ->
  exists s', step n LDeliver s = Some s' /\ begun (log s') <> begun (log s).
Proof. exact delivers. Qed.
Print Assumptions C65_delivers.

(** ... and never after its end. *)
Theorem C65_gone : forall n s, reach n s ->
  forall l1 i l2, log s = l1 ++ EBegin i :: l2 -> ~ In EObjGone l2.
Proof. exact in_begun_obj. Qed.
Print Assumptions C65_gone.

(** One at a time, if posted functions do not run event loops. *)
Theorem C65_serial : forall n s, reach n s -> flat (log s) -> serial (log s).
Proof. exact serial_flat. Qed.
Print Assumptions C65_serial.

(** Functions given to [async] are called in the order in which they were given, each
    once, ... *)
Theorem C65_async : forall n s, reach n s ->
  NoDup (given (log s)) /\ exists r, given (log s) = started (log s) ++ r.
Proof. exact async_order. Qed.
Print Assumptions C65_async.

(** ... at most as many at a time as the pool has threads, ... *)
Theorem C65_most : forall n s, reach n s -> length (started (log s)) <= length (back (log s)) + n.
Proof. exact at_most. Qed.
Print Assumptions C65_most.

(** ... and whenever a thread is free. *)
Theorem C65_starts : forall n s, reach n s -> fated s = Going ->
  given (log s) <> started (log s) -> length (started (log s)) < length (back (log s)) + n ->
  exists s', step n LStart s = Some s' /\ started (log s') <> started (log s).
Proof. exact starts. Qed.
Print Assumptions C65_starts.

(** The destructor returns only when every function that was given to the pool is back,
    through whichever loop object, also those of others, ... *)
Theorem C65_destructor : forall n s l1 k l2, reach n s -> log s = l1 ++ EDead k :: l2 ->
  forall a, In a (given l2) -> In a (back l2).
Proof. exact destroyed. Qed.
Print Assumptions C65_destructor.

(** ... and then it can. *)
Theorem C65_destructor_returns : forall n s w k, reach n s -> fated s = Going ->
  In (EDie w k) (log s) -> ~ In (EDead k) (log s) ->
  (forall a, In a (given (log s)) -> In a (back (log s))) ->
  exists s', step n (LDead k) s = Some s' /\ In (EDead k) (log s').
Proof. exact returns. Qed.
Print Assumptions C65_destructor_returns.

(** So a function never uses the loop object that it was given through after its end. *)
Theorem C65_uses : forall n s s' w k a u, reach n s -> In (EAsync w k a) (log s) -> obj s = true ->
  step n (LUse (Task a) k u) s = Some s' -> fated s' = Going.
Proof. exact uses. Qed.
Print Assumptions C65_uses.

(** A destructor that is called by a function of the pool waits for that function: it
    never returns, ... *)
Theorem C65_deadlock : forall n s a k, reach n s ->
  In (EDie (Task a) k) (log s) -> ~ In (EDead k) (log s).
Proof. exact never. Qed.
Print Assumptions C65_deadlock.

(** ... and no destructor of any loop object returns after that. *)
Theorem C65_deadlock_all : forall n s l1 k l2, reach n s -> log s = l1 ++ EDead k :: l2 ->
  forall a j, ~ In (EDie (Task a) j) l2.
Proof. exact deadlock. Qed.
Print Assumptions C65_deadlock_all.

(** [finish]: every event loop that was running returns when it is in control. *)
Theorem C65_finish : forall n s, reach n s -> fated s = Going -> finished (log s) = true ->
  looping s = true -> exists s', step n LExecRet s = Some s' /\ log s' = EExecRet :: log s.
Proof. exact finishes. Qed.
Print Assumptions C65_finish.

(** Event loops that such a one ran in return as well, and so do those that are started
    inside of them meanwhile. *)
Theorem C65_finish_nested : forall n s, reach n s -> fated s = Going -> told (log s) = true ->
  looping s = true -> exists s', step n LExecRet s = Some s' /\ log s' = EExecRet :: log s.
Proof. exact finishes_nested. Qed.
Print Assumptions C65_finish_nested.

(** No event loop returns without it. *)
Theorem C65_returns : forall n s, reach n s -> forall l1 l2, log s = l1 ++ EExecRet :: l2 -> told l2 = true.
Proof. exact returned. Qed.
Print Assumptions C65_returns.

(** Using a loop object is undefined exactly after its end, and for posting after the
    end of the object; ... *)
Theorem C65_undefined : forall n s s' w k u, reach n s -> step n (LUse w k u) s = Some s' ->
  (fated s' = Undefined <-> ~ alive k (log s) \/ (u = UPost /\ In EObjGone (log s))).
Proof. exact undefined_use. Qed.
Print Assumptions C65_undefined.
(** ... copying it, exactly after its end. *)
Theorem C65_undefined_copy : forall n s s' w k, reach n s -> step n (LCopy w k) s = Some s' ->
  (fated s' = Undefined <-> ~ alive k (log s)).
Proof. exact undefined_copy. Qed.
Print Assumptions C65_undefined_copy.
(** Nothing prevents such uses. *)
Theorem C65_unprotected : forall n s t k, reach n s -> fated s = Going -> free (Other t) (log s) ->
  (forall u, exists s', step n (LUse (Other t) k u) s = Some s') /\ exists s', step n (LCopy (Other t) k) s = Some s'.
Proof. exact can_use. Qed.
Print Assumptions C65_unprotected.
(** While a destructor waits, the thread that called it does nothing else; so no posted
    function is called and no event loop returns while the main thread waits in one. *)
Theorem C65_blocks : forall n s, reach n s ->
  forall l1 e l2 w, log s = l1 ++ e :: l2 -> by_whom e = Some w -> free w l2.
Proof. exact patient_reach. Qed.
Print Assumptions C65_blocks.
(** A posted function can return when it is the innermost and no destructor waits, ... *)
Theorem C65_back : forall n s i r, reach n s -> fated s = Going -> frames (log s) = Some i :: r -> free Main (log s) ->
  exists s', step n LRet s = Some s' /\ log s' = EEnd i :: log s.
Proof. exact can_return. Qed.
Print Assumptions C65_back.
(** ... and only if it is the innermost. *)
Theorem C65_inner : forall n s, reach n s -> forall l1 i l2, log s = l1 ++ EEnd i :: l2 -> exists r, frames l2 = Some i :: r.
Proof. exact returns_inner. Qed.
Print Assumptions C65_inner.

(** ** What is not so *)

Lemma witness n ls s : steps n ls init = Some s -> reach n s.
Proof. intro E; exists ls; exact E. Qed.
(** The state after some steps. *)
Definition after (n : nat) (ls : list label) : st :=
  match steps n ls init with Some s => s | None => init end.
Ltac reached ls := refine (witness _ ls _ _); vm_compute; reflexivity.

Definition post := LUse (Other 0) 0 UPost.
Definition async := LUse (Other 0) 0 UAsync.

(** A posted function that runs an event loop (a modal dialog, say) lets others be
    called before it is back. *)
Definition dialog := [post; post; LExec; LDeliver; LExec; LDeliver].
Theorem C65_serial_refuted : exists n s, reach n s /\ ~ serial (log s).
Proof.
  exists 1, (after 1 dialog); split; [reached dialog|].
  intros [H | [i H]]; vm_compute in H; discriminate H.
Qed.
Print Assumptions C65_serial_refuted.

(** Functions still waiting when the object is destroyed are never called. *)
Definition dropped := [post; LObjGone].
Theorem C65_dropped_refuted : exists n s i, reach n s /\ In i (posted (log s)) /\
  forall ls s', steps n ls s = Some s' -> ~ In i (begun (log s')).
Proof.
  exists 1, (after 1 dropped), 1.
  assert (R : reach 1 (after 1 dropped)) by reached dropped.
  split; [exact R|]; split; [vm_compute; auto|].
  intros ls s' H I.
  assert (R' : reach 1 s').
  { destruct R as [l0 E]; exists (l0 ++ ls); apply steps_app; eauto. }
  assert (L : exists es, log s' = es ++ log (after 1 dropped)).
  { clear - H; revert H; generalize (after 1 dropped); revert s'.
    induction ls as [|l r IH]; intros s' s H; cbn in H; [injection H as <-; exists []; reflexivity|].
    destruct (step 1 l s) as [m|] eqn:E; [|discriminate H].
    destruct (IH _ _ H) as [es F].
    assert (G : exists e, log m = e ++ log s).
    { clear - E; unfold step, go, do_use in E.
      case_step E; subst; cbn;
        first [exists []; reflexivity | eexists [_]; reflexivity | eexists [_; _]; reflexivity]. }
    destruct G as [e G]; exists (es ++ e); rewrite F, G, app_assoc; reflexivity. }
  destruct L as [es L].
  assert (B : forall l, In 1 (begun l) -> exists l1 l2, l = l1 ++ EBegin 1 :: l2).
  { clear; induction l as [|e r IH]; cbn; intro I; [destruct I|].
    assert (A : In 1 (begun r) \/ e = EBegin 1)
      by (destruct e; auto; apply in_app_iff in I as [I | [<- | []]]; auto).
    destruct A as [A | ->]; [destruct (IH A) as (l1 & l2 & ->); exists (e :: l1), l2; reflexivity|].
    exists [], r; reflexivity. }
  destruct (B _ I) as (l1 & l2 & E).
  pose proof (C65_gone _ _ R' _ _ _ E) as N.
  rewrite L in E; clear - E N; revert l1 E; induction es as [|e es IH]; intros l1 E.
  - vm_compute in E; destruct l1 as [|? [|? [|? [|]]]]; discriminate E.
  - destruct l1 as [|x l1]; cbn in E; injection E as E1 E2; [|exact (IH _ E2)].
    apply N; rewrite <- E2; apply in_app_iff; right; vm_compute; auto.
Qed.
Print Assumptions C65_dropped_refuted.

(** Every copy that goes out of scope waits, also the one that was given to make_store:
    here the destructor of a copy of an unused loop object cannot return before a
    function of somebody else does. *)
Definition copied := [LTask; LStart; LCopy Main 0; LDie Main 2].
Theorem C65_copy_refuted : exists n s, reach n s /\ fated s = Going /\
  (forall w k a, ~ In (EAsync w k a) (log s)) /\ In (EDie Main 2) (log s) /\ step n (LDead 2) s = None.
Proof.
  exists 1, (after 1 copied); split; [reached copied|].
  split; [vm_compute; reflexivity|]; split; [vm_compute; intuition discriminate|].
  split; vm_compute; auto.
Qed.
Print Assumptions C65_copy_refuted.

(** [finish] before the event loop is started has no effect. *)
Definition too_early := [LUse Main 0 UFinish; LExec].
Theorem C65_finish_refuted : exists n s w l1 l2, reach n s /\ log s = l1 ++ EFinish w :: l2 /\
  looping s = true /\ step n LExecRet s = None.
Proof.
  exists 1, (after 1 too_early), Main, [EExec], [ECopy 0]; split; [reached too_early|].
  vm_compute; auto.
Qed.
Print Assumptions C65_finish_refuted.

(** What a function of the pool posts while the destructor waits is called after the
    end of the loop object (and of the store, to which it has a pointer). *)
Definition orphaned :=
  [async; LStart; LDie Main 0; LUse (Task 1) 0 UPost; LDone 1; LDead 0; LExec; LDeliver].
Theorem C65_lifetime_refuted : exists n s l1 i l2 w, reach n s /\
  log s = l1 ++ EBegin i :: l2 /\ In (EPost w 0 i) l2 /\ In (EDead 0) l2.
Proof.
  exists 1, (after 1 orphaned), [], 2,
    [EExec; EDead 0; EDone 1; EPost (Task 1) 0 2; EDie Main 0; EStart 1; EAsync (Other 0) 0 1; ECopy 0],
    (Task 1).
  split; [reached orphaned|]; split; [vm_compute; reflexivity|]; split; cbn; auto 10.
Qed.
Print Assumptions C65_lifetime_refuted.

(** ** Examples *)

(** A store with asynchronous work: two functions of the pool, one thread; what they
    post is called by the event loop. *)
Definition working :=
  [LExec; post; LDeliver; LUse Main 0 UAsync; LUse Main 0 UAsync; LRet; LStart;
   LUse (Task 2) 0 UPost; LDone 2; LDeliver; LStart; LRet; LDone 3].
Example C65_demo :
  reach 1 (after 1 working) /\ fated (after 1 working) = Going /\
  posted (log (after 1 working)) = [1; 4] /\ begun (log (after 1 working)) = [1; 4] /\
  ended (log (after 1 working)) = [1; 4] /\ given (log (after 1 working)) = [2; 3] /\
  started (log (after 1 working)) = [2; 3] /\ back (log (after 1 working)) = [2; 3].
Proof. split; [reached working|]; vm_compute; repeat split. Qed.

(** The same is flat. *)
Example C65_flat_demo : flat (log (after 1 working)).
Proof.
  assert (L : log (after 1 working) =
    [EDone 3; EEnd 4; EStart 3; EBegin 4; EDone 2; EPost (Task 2) 0 4; EStart 2; EEnd 1;
     EAsync Main 0 3; EAsync Main 0 2; EBegin 1; EPost (Other 0) 0 1; EExec; ECopy 0])
    by (vm_compute; reflexivity).
  rewrite L; intros l1 l2 E.
  repeat (destruct l1 as [|? l1]; cbn in E; [try discriminate E; injection E as <-; reflexivity|
                                             injection E as _ E]).
  destruct l1; discriminate E.
Qed.

(** The destructor waits for both. *)
Definition waiting := [async; async; LStart; LDie Main 0].
Example C65_destructor_demo :
  reach 1 (after 1 waiting) /\ fated (after 1 waiting) = Going /\
  step 1 (LDead 0) (after 1 waiting) = None /\
  option_map (fun s => log s) (steps 1 [LDone 1; LStart; LUse (Task 2) 0 UPost; LDone 2; LDead 0]
                                 (after 1 waiting)) =
    Some ([EDead 0; EDone 2; EPost (Task 2) 0 3; EStart 2; EDone 1] ++ log (after 1 waiting)).
Proof. split; [reached waiting|]; vm_compute; repeat split. Qed.

(** A function of the pool that destroys a loop object. *)
Definition stuck := [LCopy (Other 0) 0; async; LStart; LDie (Task 2) 1; LDie Main 0].
Example C65_deadlock_demo :
  reach 1 (after 1 stuck) /\ In (EDie (Task 2) 1) (log (after 1 stuck)) /\
  step 1 (LDone 2) (after 1 stuck) = None /\ step 1 (LDead 1) (after 1 stuck) = None /\
  step 1 (LDead 0) (after 1 stuck) = None.
Proof. split; [reached stuck|]; split; [vm_compute; auto|]; vm_compute; repeat split. Qed.

(** [finish] by a posted function, two event loops deep. *)
Definition quit := [post; post; LExec; LDeliver; LExec; LDeliver; LUse Main 0 UFinish; LRet].
Example C65_finish_demo :
  reach 1 (after 1 quit) /\ finished (log (after 1 quit)) = true /\ looping (after 1 quit) = true /\
  option_map (fun s => stack s) (steps 1 [LExecRet; LRet; LExecRet] (after 1 quit)) = Some [].
Proof. split; [reached quit|]; vm_compute; repeat split. Qed.
(** A loop that is started while that one unwinds returns at once. *)
Example C65_nested_demo :
  option_map (fun s => (firstn 3 (log s), told (log s), finished (log s), looping s))
    (steps 1 [LExecRet; LExec; LRet] (after 1 quit)) =
  Some ([EEnd 1; EExecRet; EExec], true, false, true).
Proof. vm_compute; reflexivity. Qed.
(** The destructor is called inside of a posted function, then the loop object is used. *)
Definition inside := [post; LExec; LDeliver; LCopy Main 0; LDie Main 0; LDead 0].
Example C65_back_demo :
  reach 1 (after 1 inside) /\ fated (after 1 inside) = Going /\ frames (log (after 1 inside)) = [Some 1; None] /\
  free Main (log (after 1 inside)) /\ alive 2 (log (after 1 inside)) /\ ~ alive 0 (log (after 1 inside)) /\
  option_map fated (step 1 (LUse Main 0 UAsync) (after 1 inside)) = Some Undefined /\
  option_map fated (step 1 (LUse Main 2 UAsync) (after 1 inside)) = Some Going.
Proof.
  split; [reached inside|]. split; [reflexivity|]. split; [reflexivity|].
  assert (L : log (after 1 inside) = [EDead 0; EDie Main 0; ECopy 2; EBegin 1; EExec; EPost (Other 0) 0 1; ECopy 0])
    by (vm_compute; reflexivity).
  rewrite L. split; [|split; [|split; [|split; vm_compute; reflexivity]]].
  - intros k I. cbn in I. repeat destruct I as [I | I]; try discriminate I; [|destruct I]. injection I as <-. left. reflexivity.
  - split; [cbn; auto|]. cbn. intuition discriminate.
  - intros [_ A]. apply A. left. reflexivity.
Qed.
