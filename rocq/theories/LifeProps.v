(** The lifetime of a store: the theorems (C73). *)
From Coq Require Import List Arith Bool.
Import ListNotations.
From Verif Require Import LifeModel LifeSpec LifeProofs.

Section Props.
Context {M A W : Type}.
Variable reducer : M -> A -> option (M * option (prog M A W)).
Variable eqb : M -> M -> bool.
Variables trans futures manual : bool.
Notation run := (run reducer eqb trans futures manual).
Notation exec := (exec reducer eqb trans futures manual).

Lemma owned fuel m w p r s : run fuel m w p = Freed r s -> gone (log s).
Proof.
  intros E; pose proof (run_post reducer eqb trans futures manual fuel m w p) as H; rewrite E in H.
  destruct H as (((X & _) & _) & D & _); destruct X as [[L _]|[_ (_ & l1 & i & n & l2 & E' & _)]]; [congruence|].
  exists i, n; rewrite E'; apply in_or_app; right; left; auto.
Qed.
Lemma by_loop fuel m w p s : run fuel m w p = Freed RLoop s ->
  if manual then gone_inside (log s) else gone_waiting (log s).
Proof.
  intros E; pose proof (run_post reducer eqb trans futures manual fuel m w p) as H; rewrite E in H.
  apply H.
Qed.
Lemma by_future fuel m w p s : run fuel m w p = Freed RFuture s ->
  futures = true \/ In (EPromise true) (log s).
Proof.
  intros E; pose proof (run_post reducer eqb trans futures manual fuel m w p) as H; rewrite E in H.
  apply H.
Qed.
Lemma ended_ok fuel m w p s : ended (run fuel m w p) s -> ok futures manual s.
Proof.
  pose proof (run_post reducer eqb trans futures manual fuel m w p) as H.
  intros [[f E]|[E|[r E]]]; rewrite E in H; apply H.
Qed.
Lemma silent fuel m w p s : ended (run fuel m w p) s -> dead_after (log s).
Proof. intros H; eapply ok_dead_after, ended_ok, H. Qed.
Lemma pinned fuel0 m w p s fuel r s' : ended (run fuel0 m w p) s ->
  exec fuel (TProg (PCommit (PRet None))) s <> Freed r s'.
Proof.
  intros H; apply ended_ok in H. destruct fuel as [|fuel]; [discriminate|]. cbn [LifeModel.exec].
  destruct (some_object s) eqn:S; [|discriminate].
  assert (L : alive s = true) by (eapply ok_object; eauto).
  set (s0 := send_down s).
  assert (A0 : after futures manual s s0) by (apply send_down_after; auto).
  assert (L0 : alive s0 = true) by (unfold s0, send_down; destruct nsd; auto).
  set (s1 := set_pins (Datatypes.S (pins s)) s0).
  assert (O1 : ok futures manual s1) by (destruct A0 as (A0 & _); apply A0).
  assert (Q : post futures manual s1 (exec fuel TNotify s1)) by (apply exec_post; auto).
  destruct (exec fuel TNotify s1) as [f s2|s2|w' s2| | |]; cbn; try discriminate.
  - destruct fuel; cbn; discriminate.
  - exfalso; destruct Q as ((_ & _ & _ & _ & Q) & D & _).
    rewrite Q in D; [discriminate|left; cbn; apply Nat.lt_0_succ|exact L0].
Qed.
Lemma watched fuel0 m w p s fuel r s' : ended (run fuel0 m w p) s -> alive s = true ->
  exec fuel TNotify s <> Freed r s'.
Proof.
  intros H L; apply ended_ok in H. destruct fuel as [|fuel]; [discriminate|]. cbn [LifeModel.exec].
  destruct (nn s && negb (nsd s)); [|discriminate].
  pose proof (proj2 (exec_both reducer eqb trans futures manual fuel) 0 (set_nn false s)) as Q.
  assert (Q' : ends_alive (exec fuel (TSlots 0) (set_nn false s))) by (apply Q; [apply set_nn_after, H|exact L]).
  destruct exec; cbn in Q' |- *; try discriminate; try tauto; unfold touch; rewrite Q'; discriminate.
Qed.
End Props.
Lemma safe {M A W : Type} (reducer : M -> A -> option (M * option (prog M A W))) eqb trans fuel m w p r s :
  run reducer eqb trans false false fuel m w p = Freed r s ->
  ~ gone_waiting (log s) -> ~ In (EPromise true) (log s) -> r = RContext.
Proof.
  intros E N N'; destruct r; auto; exfalso.
  - apply by_loop in E; auto.
  - apply by_future in E as [E|E]; [discriminate|auto].
Qed.

(** The node of a store is used when it does not exist any more only if all its owners
    were destroyed: a reader made from the store keeps it, and everything works without
    the store object. *)
Theorem C73_owned : forall (M A W : Type) (reducer : M -> A -> option (M * option (prog M A W)))
    eqb trans futures manual fuel m w p r s,
  run reducer eqb trans futures manual fuel m w p = Freed r s -> gone (log s).
Proof. exact (fun M A W => @owned M A W). Qed.
Print Assumptions C73_owned.

(** The functions that the store posts and the loop use it then only if it was destroyed
    while the manual loop, which is a part of it, was running, or while functions posted by
    it were waiting in a queue outside.  What waits in the manual loop is destroyed with
    it. *)
Theorem C73_loop_partial : forall (M A W : Type) (reducer : M -> A -> option (M * option (prog M A W)))
    eqb trans futures manual fuel m w p s,
  run reducer eqb trans futures manual fuel m w p = Freed RLoop s ->
  if manual then gone_inside (log s) else gone_waiting (log s).
Proof. exact (fun M A W => @by_loop M A W). Qed.
Print Assumptions C73_loop_partial.

(** Promises and futures use it only if the store has futures, or the client made a promise
    with its loop. *)
Theorem C73_future_partial : forall (M A W : Type) (reducer : M -> A -> option (M * option (prog M A W)))
    eqb trans futures manual fuel m w p s,
  run reducer eqb trans futures manual fuel m w p = Freed RFuture s ->
  futures = true \/ In (EPromise true) (log s).
Proof. exact (fun M A W => @by_future M A W). Qed.
Print Assumptions C73_future_partial.

(** So a store without futures, with nothing waiting in the queue outside when it is
    destroyed, is not used any more, unless by the client through a context. *)
Theorem C73_safe : forall (M A W : Type) (reducer : M -> A -> option (M * option (prog M A W)))
    eqb trans fuel m w p r s,
  run reducer eqb trans false false fuel m w p = Freed r s ->
  ~ gone_waiting (log s) -> ~ In (EPromise true) (log s) -> r = RContext.
Proof. exact (fun M A W => @safe M A W). Qed.
Print Assumptions C73_safe.

(** It is destroyed once, and then its reducer, effects and watchers are not called. *)
Theorem C73_silent : forall (M A W : Type) (reducer : M -> A -> option (M * option (prog M A W)))
    eqb trans futures manual fuel m w p s,
  ended (run reducer eqb trans futures manual fuel m w p) s -> dead_after (log s).
Proof. exact (fun M A W => @silent M A W). Qed.
Print Assumptions C73_silent.

(** Watchers may destroy the store and all readers but the one that they are called
    through: when the store calls them, ... *)
Theorem C73_watchers : forall (M A W : Type) (reducer : M -> A -> option (M * option (prog M A W)))
    eqb trans futures manual fuel0 m w p s fuel r s',
  ended (run reducer eqb trans futures manual fuel0 m w p) s -> alive s = true ->
  exec reducer eqb trans futures manual fuel TNotify s <> Freed r s'.
Proof. exact (fun M A W => @watched M A W). Qed.
Print Assumptions C73_watchers.

(** ... and in commit. *)
Theorem C73_commit : forall (M A W : Type) (reducer : M -> A -> option (M * option (prog M A W)))
    eqb trans futures manual fuel0 m w p s fuel r s',
  ended (run reducer eqb trans futures manual fuel0 m w p) s ->
  exec reducer eqb trans futures manual fuel (TProg (PCommit (PRet None))) s <> Freed r s'.
Proof. exact (fun M A W => @pinned M A W). Qed.
Print Assumptions C73_commit.

(** * Examples

    A counter; action 0 has the effect [eff]. *)
Definition add (eff : prog nat nat nat) (m a : nat) : option (nat * option (prog nat nat nat)) :=
  match a with 0 => Some (m, Some eff) | _ => Some (m + a, None) end.
Definition stop : prog nat nat nat := PRet None.
Definition counter (eff : prog nat nat nat) (trans futures manual : bool) (p : prog nat nat nat) :=
  run (add eff) Nat.eqb trans futures manual 40 5 0 p.
Definition how (r : res nat nat nat) : option (option why * list (event nat nat)) :=
  match r with
  | Done _ s | Thrown s => Some (None, log s)
  | Freed w s => Some (Some w, log s)
  | _ => None
  end.

(** A reader keeps the store working; ... *)
Example C73_owned_demo :
  how (counter stop false false false
         (PHold (PDispatch 3 (fun _ => PDrop (PStep (PGet (fun m => PDispatch m (fun _ => PStep (PDrop stop)))))))))
  = Some (None, [EFree false 0; EReduce 8; EReduce 3]).
Proof. reflexivity. Qed.
(** ... so does the reader of a watcher, which destroys the store; then the reader is
    destroyed by a function that is not of the store. *)
Example C73_watchers_demo :
  how (counter stop false false false
         (PWatch (fun _ => PDrop stop) (fun i => PDispatch 3 (fun _ => PStep (PQueue (PUnwatch i stop)
            (PStep stop))))))
  = Some (None, [EFree false 0; ESee 0 8; EReduce 3]).
Proof. reflexivity. Qed.
Example C73_commit_demo :
  how (counter stop true false false
         (PWatch (fun _ => PDrop stop) (fun _ => PDispatch 3 (fun _ => PStep (PCommit (PUnwatch 0 stop))))))
  = Some (None, [EFree false 0; ESee 0 8; EReduce 3]).
Proof. reflexivity. Qed.
(** An effect destroys the store of a queue outside, and nothing happens; ... *)
Example C73_effect_demo :
  how (counter (PDrop stop) false false false (PDispatch 0 (fun _ => PStep stop)))
  = Some (None, [EFree false 0; EEffect; EReduce 0]).
Proof. reflexivity. Qed.
(** ... what waits in the manual loop after an exception is destroyed with it. *)
Example C73_silent_demo :
  how (counter (PDispatch 3 (fun _ => PThrow)) false false true
         (PTry (PDispatch 0 (fun _ => stop)) (fun _ => PDrop stop)))
  = Some (None, [EFree false 1; EEffect; EReduce 0]).
Proof. reflexivity. Qed.

(** What was dispatched before the store was destroyed is called after it; ... *)
Theorem C73_waiting_refuted : exists l,
  how (counter stop false false false (PDispatch 3 (fun _ => PDrop (PStep stop)))) = Some (Some RLoop, l).
Proof. exists [EFree false 1]; reflexivity. Qed.
Print Assumptions C73_waiting_refuted.
(** ... an effect destroys the store of the manual loop that runs it; ... *)
Theorem C73_effect_refuted : exists l,
  how (counter (PDrop stop) false false true (PDispatch 0 (fun _ => stop))) = Some (Some RLoop, l).
Proof. exists [EFree true 0; EEffect; EReduce 0]; reflexivity. Qed.
Print Assumptions C73_effect_refuted.
(** ... a callback is added to the future of an action that was done before the store was
    destroyed; ... *)
Theorem C73_future_refuted : exists l,
  how (counter stop false true false
         (PDispatch 3 (fun f => PStep (PDrop (PThen f stop (fun _ => stop)))))) = Some (Some RFuture, l).
Proof. exists [EFree false 0; EReduce 3]; reflexivity. Qed.
Print Assumptions C73_future_refuted.
(** ... an effect waits for a promise of the queue outside, which is kept after the store
    and all its functions are gone: the callback of the action still wants to be posted
    through the store. *)
Theorem C73_promise_refuted : exists l,
  how (counter (PRet (Some 0)) false true false
         (PPromise false (fun n => PDispatch 0 (fun f => PThen f stop (fun _ =>
            PStep (PDrop (PFulfil n (PStep stop)))))))) = Some (Some RFuture, l).
Proof. exists [EFree false 0; EEffect; EReduce 0; EPromise false]; reflexivity. Qed.
Print Assumptions C73_promise_refuted.
(** A context used after the store is gone, which its documentation forbids *)
Example C73_context_demo :
  how (counter stop false false false (PDrop (PDispatch 3 (fun _ => stop)))) = Some (Some RContext, [EFree false 0]).
Proof. reflexivity. Qed.
