(** C64: the Boost.Asio event loop. *)
From Coq Require Import List Arith Bool Lia.
From Verif Require Import AsioModel AsioSpec AsioProofs AsioThreads AsioDone AsioUse AsioInside.
Import ListNotations.

(** Posted functions are called in the order in which they were posted, each once,
    whatever the executor and however many threads. *)
Theorem C64_order : forall c s, reach c s ->
  NoDup (posted (log s)) /\ NoDup (begun (log s)) /\
  exists r, posted (log s) = begun (log s) ++ r.
Proof. exact (fun c s R => conj (proj1 (once c s R)) (conj (proj2 (once c s R)) (in_order c s R))). Qed.
Print Assumptions C64_order.

(** On a strand one at a time, however many threads are in run(). *)
Theorem C64_serial : forall c s, strand c = true -> reach c s -> serial (log s).
Proof. exact serial_strand. Qed.
Print Assumptions C64_serial.

(** Also without a strand, if never two threads were in run(). *)
Theorem C64_alone : forall c s, reach c s -> alone (log s) -> serial (log s).
Proof. exact serial_alone. Qed.
Print Assumptions C64_alone.

(** A function given to [async] is called at most once, and only if given; ... *)
Theorem C64_async : forall c s, reach c s ->
  NoDup (given (log s)) /\ NoDup (called (log s)) /\
  (forall a, In a (called (log s)) -> In a (given (log s))).
Proof. exact async_once. Qed.
Print Assumptions C64_async.

(** ... and until it was called nothing keeps its thread from calling it, whatever the
    loop and the context do. *)
Theorem C64_async_starts : forall c s a, reach c s -> fated s = Going ->
  In a (given (log s)) -> ~ In a (called (log s)) ->
  exists s', step c (LFnBegin a) s = Some s' /\ In a (called (log s')).
Proof. exact async_starts. Qed.
Print Assumptions C64_async_starts.

(** run() only returns when the context was stopped or ran out of work ... *)
Theorem C64_returns : forall c s t l1 l2, reach c s ->
  log s = l1 ++ EReturn t :: l2 -> halted l2 = true.
Proof. exact returns. Qed.
Print Assumptions C64_returns.

(** ... and it runs out of work only when every function posted so far was called and
    is back, and so is every function given to [async]: nothing that those post is
    lost. *)
Theorem C64_ran_out : forall c s l1 l2, reach c s -> log s = l1 ++ ERanOut :: l2 ->
  begun l2 = posted l2 /\ (forall i, In i (posted l2) -> In i (ended l2)) /\
  (forall a, In a (given l2) -> In a (back l2)).
Proof. exact ran_out. Qed.
Print Assumptions C64_ran_out.

(** A thread in run() only waits if nothing is to be called, or the strand is run by
    another thread. *)
Theorem C64_waits : forall c s t, reach c s -> fated s = Going -> worker_of t s = Some Idle ->
  step c (LBegin t) s = None -> step c (LLeave t) s = None ->
  posted (log s) = begun (log s) \/ (strand c = true /\ exists u h, worker_of u s = Some (Inv h)).
Proof. exact waits. Qed.
Print Assumptions C64_waits.

(** It does not run out of work while others have work for it, ... *)
Theorem C64_work : forall c ls l s s' new,
  steps c ls init = Some s -> step c l s = Some s' ->
  log s' = new ++ log s -> In ERanOut new -> works (ls ++ [l]) = works_done (ls ++ [l]).
Proof. exact others_keep. Qed.
Print Assumptions C64_work.

(** ... which they may end at any time. *)
Theorem C64_work_ends : forall c ls s, steps c ls init = Some s -> fated s = Going ->
  ((exists s', step c LWorkDone s = Some s') <-> works_done ls < works ls).
Proof. exact others_done. Qed.
Print Assumptions C64_work_ends.

(** If others have no work for it then, once every function posted is back and so
    is every function given to [async], run() returns, perhaps after the invoker of the
    strand has ended. *)
Theorem C64_done : forall c ls s t, steps c ls init = Some s -> works ls = works_done ls ->
  fated s = Going ->
  worker_of t s = Some Idle ->
  (forall i, In i (posted (log s)) -> In i (ended (log s))) ->
  (forall a, In a (given (log s)) -> In a (back (log s))) ->
  (exists s', step c (LLeave t) s = Some s') \/ (exists u s', step c (LExit u) s = Some s').
Proof. exact all_done. Qed.
Print Assumptions C64_done.

(** [finish], if the loop was made with a function that stops the context: ... *)
Theorem C64_finish : forall c s w l1 l2, stops c = true -> reach c s ->
  log s = l1 ++ EFinish w :: l2 -> halted l2 = true.
Proof. exact finishes. Qed.
Print Assumptions C64_finish.

(** ... once the context is stopped no function is called any more until it is
    restarted, ... *)
Theorem C64_stopped : forall c s l1 l2, strand c = false -> reach c s ->
  log s = l1 ++ l2 -> halted l2 = true -> no_restart l1 -> begun (log s) = begun l2.
Proof. exact stopped_plain. Qed.
Print Assumptions C64_stopped.

(** ... or, on a strand, none that was posted after that. *)
Theorem C64_stopped_strand : forall c s l1 l2, reach c s ->
  log s = l1 ++ l2 -> halted l2 = true -> no_restart l1 ->
  forall i, In i (begun (log s)) -> In i (posted l2).
Proof. exact stopped_strand. Qed.
Print Assumptions C64_stopped_strand.

(** Function objects that the caller keeps in a variable stay as they are, unless
    they are given to [async]. *)
Theorem C64_kept : forall c l s s' v b, step c l s = Some s' -> nth_error (vars s) v = Some b ->
  (forall w, l <> LUse w (UAsync (Var v))) -> nth_error (vars s') v = Some b.
Proof. exact vars_kept. Qed.
Print Assumptions C64_kept.

(** Who uses the loop is in a function that was called and is not back, or is none of these; ... *)
Theorem C64_users : forall c s l1 e l2 w, reach c s -> log s = l1 ++ e :: l2 ->
  (exists i, e = EPost w i \/ e = EAsync w i) \/ e = EFinish w -> acts w l2.
Proof. exact users. Qed.
Print Assumptions C64_users.
(** ... all of these can use it at any time, ... *)
Theorem C64_unprotected : forall c s w u, reach c s -> fated s = Going -> acts w (log s) -> temporary u ->
  exists s', step c (LUse w u) s = Some s'.
Proof. exact can_use. Qed.
Print Assumptions C64_unprotected.
(** ... which is undefined exactly after its end. *)
Theorem C64_undefined : forall c s s' w u, reach c s -> step c (LUse w u) s = Some s' ->
  (fated s' = Undefined <-> In EDestroy (log s)).
Proof. exact undefined_use. Qed.
Print Assumptions C64_undefined.
(** A posted function can return, if functions are not posted from variables (from which
    they may have been moved), ... *)
Theorem C64_back : forall c ls s t i, temporaries ls -> steps c ls init = Some s -> fated s = Going ->
  on t (log s) = Some i ->
  exists s', step c (LRet t) s = Some s' /\ on t (log s') = None /\ In (EEnd t i) (log s').
Proof. exact can_return. Qed.
Print Assumptions C64_back.
(** ... so can one that was given to [async], ... *)
Theorem C64_async_back : forall c ls s a, temporaries ls -> steps c ls init = Some s -> fated s = Going ->
  acts (InFn a) (log s) -> exists s', step c (LFnRet a) s = Some s' /\ In a (back (log s')).
Proof. exact can_come_back. Qed.
Print Assumptions C64_async_back.
(** ... and what a posted function throws leaves run(). *)
Theorem C64_throws : forall c s t i, reach c s -> fated s = Going -> on t (log s) = Some i ->
  exists s', step c (LThrow t) s = Some s' /\ on t (log s') = None /\ In (EEnd t i) (log s') /\ In (ELeave t) (log s').
Proof. exact can_throw. Qed.
Print Assumptions C64_throws.

(** Threads call posted functions inside of run() only and one at a time, what is back is
    what was called, and run() is left between them or by an exception; ... *)
Theorem C64_inside : forall c s l1 e l2, reach c s -> log s = l1 ++ e :: l2 -> nested e l2.
Proof. exact inside_run. Qed.
Print Assumptions C64_inside.
(** ... a thread that left it can call it again. *)
Theorem C64_enters : forall c s t, reach c s -> fated s = Going -> In (EEnter t) (log s) -> in_run t (log s) = false ->
  exists s', step c (LEnter t) s = Some s' /\ in_run t (log s') = true.
Proof. exact enters. Qed.
Print Assumptions C64_enters.

(** ** What is not so *)

Definition post := LUse Outside (UPost Temp).

Lemma witness c ls s : steps c ls init = Some s -> reach c s.
Proof. intro E; exists ls; exact E. Qed.
(** The state after some steps. *)
Definition after (c : cfg) (ls : list label) : st :=
  match steps c ls init with Some s => s | None => init end.
Ltac reached ls := refine (witness _ ls _ _); vm_compute; reflexivity.

(** Two threads and no strand: the second function is called before the first is back. *)
Definition crowded := [post; post; LEnter 0; LEnter 1; LBegin 0; LBegin 1].
Theorem C64_serial_refuted : exists c s, reach c s /\ ~ serial (log s).
Proof.
  exists (Cfg false false), (after (Cfg false false) crowded); split; [reached crowded|].
  intros [H | [i H]]; vm_compute in H; discriminate H.
Qed.
Print Assumptions C64_serial_refuted.

(** [finish] of a loop made by the first constructor does nothing: a function posted
    after it is called. *)
Definition unfinished := [LUse Outside UFinish; post; LEnter 0; LBegin 0; LNext 0].
Theorem C64_finish_refuted : exists c s w l1 l2 t i, reach c s /\
  log s = l1 ++ EFinish w :: l2 /\ no_restart l1 /\ ~ In i (posted l2) /\ In (EBegin t i) l1.
Proof.
  exists (Cfg true false), (after (Cfg true false) unfinished), Outside,
    [EBegin 0 0; EEnter 0; EPost Outside 0], [], 0, 0.
  split; [reached unfinished|]; split; [vm_compute; reflexivity|].
  split; [|split; [intros [] | left; reflexivity]].
  unfold no_restart; cbn; intuition discriminate.
Qed.
Print Assumptions C64_finish_refuted.

(** On a strand a stopped loop still calls functions that were ready. *)
Definition trailing :=
  [post; LEnter 0; LBegin 0; LNext 0; post; post; LRet 0; LExit 0; LBegin 0; LNext 0;
   LUse (InHandler 0) UFinish; LRet 0; LNext 0].
Theorem C64_stopped_refuted : exists c s l1 l2, stops c = true /\ reach c s /\
  log s = l1 ++ l2 /\ halted l2 = true /\ no_restart l1 /\ begun (log s) <> begun l2.
Proof.
  exists (Cfg true true), (after (Cfg true true) trailing),
    [EBegin 0 2; EEnd 0 1; EFinish (InHandler 0)],
    [EStop; EBegin 0 1; EEnd 0 0; EPost Outside 2; EPost Outside 1; EBegin 0 0; EEnter 0; EPost Outside 0].
  split; [reflexivity|]; split; [reached trailing|].
  split; [vm_compute; reflexivity|]; split; [reflexivity|]; split; [|vm_compute; discriminate].
  unfold no_restart; cbn; intuition discriminate.
Qed.
Print Assumptions C64_stopped_refuted.

(** [pause] does nothing. *)
Definition unpaused := [LUse Outside UPause; post; LEnter 0; LBegin 0; LNext 0].
Theorem C64_pause_refuted : exists c s l1 l2 t i, reach c s /\
  log s = l1 ++ EPause :: l2 /\ ~ In EResume l1 /\ ~ In i (posted l2) /\ In (EBegin t i) l1.
Proof.
  exists (Cfg true true), (after (Cfg true true) unpaused),
    [EBegin 0 0; EEnter 0; EPost Outside 0], [], 0, 0.
  split; [reached unpaused|]; split; [vm_compute; reflexivity|].
  split; [cbn; intuition discriminate|]; split; [intros [] | left; reflexivity].
Qed.
Print Assumptions C64_pause_refuted.

(** [async] takes a function out of the variable of its caller: given a second time,
    its thread can only end the program. *)
Definition twice :=
  [LVar; LUse Outside (UAsync (Var 0)); LUse Outside (UAsync (Var 0)); LFnBegin 1].
Theorem C64_kept_refuted : exists c s, reach c s /\ fated s = Going /\
  log s = [EFnBegin 1; EAsync Outside 1; EAsync Outside 0] /\
  step c (LFnRet 1) s = None /\ option_map fated (step c (LFnThrow 1) s) = Some Terminated.
Proof.
  exists (Cfg true true), (after (Cfg true true) twice); split; [reached twice|].
  vm_compute; repeat split.
Qed.
Print Assumptions C64_kept_refuted.

(** Nothing keeps the loop alive: a function given to [async] may use it after its
    end, and functions that were posted through it (by a store: with a pointer to the
    store) are called after its end. *)
Definition left_alone := [LUse Outside (UAsync Temp); LFnBegin 0; LDestroy].
Definition orphaned := [post; LDestroy; LEnter 0; LBegin 0; LNext 0].
Theorem C64_lifetime_refuted :
  (exists c s, reach c s /\
     option_map fated (step c (LUse (InFn 0) (UPost Temp)) s) = Some Undefined) /\
  (exists c s l1 l2 t i, reach c s /\ log s = l1 ++ EBegin t i :: l2 /\ In EDestroy l2).
Proof.
  split; exists (Cfg true true).
  - exists (after (Cfg true true) left_alone); split; [reached left_alone | vm_compute; reflexivity].
  - exists (after (Cfg true true) orphaned), [], [EEnter 0; EDestroy; EPost Outside 0], 0, 0.
    split; [reached orphaned|]; split; [vm_compute; reflexivity | cbn; auto].
Qed.
Print Assumptions C64_lifetime_refuted.

(** ** Examples *)

(** Two threads on a strand; a function given to [async] posts; the context goes on
    until all is done. *)
Definition together : list label :=
  [post; LEnter 0; LEnter 1; LBegin 1; LNext 1; LUse (InHandler 1) (UAsync Temp);
   LRet 1; LExit 1; LFnBegin 1; LUse (InFn 1) (UPost Temp); LBegin 0; LFnRet 1; LNext 0; LRet 0;
   LExit 0; LLeave 1; LLeave 0].
Definition both := Cfg true true.

Example C64_demo :
  reach both (after both together) /\
  rev (log (after both together)) =
    [EPost Outside 0; EEnter 0; EEnter 1; EBegin 1 0; EAsync (InHandler 1) 1; EEnd 1 0;
     EFnBegin 1; EPost (InFn 1) 2; EFnEnd 1; EBegin 0 2; EEnd 0 2; ERanOut;
     EReturn 1; EReturn 0] /\
  posted (log (after both together)) = [0; 2] /\ begun (log (after both together)) = [0; 2] /\
  given (log (after both together)) = [1] /\ halted (log (after both together)) = true.
Proof. split; [reached together|]; vm_compute; repeat split. Qed.

(** All is done, but the invoker still runs; without anything run() returns at once. *)
Example C64_done_demo :
  let s := after both (firstn 14 together) in
  reach both s /\ worker_of 1 s = Some Idle /\ ended (log s) = [0; 2] /\ back (log s) = [1] /\
  step both (LLeave 1) s = None /\ (exists s', step both (LExit 0) s = Some s') /\
  (exists s', step both (LLeave 0) (after both [LEnter 0]) = Some s').
Proof.
  intro s; split; [reached (firstn 14 together)|]; vm_compute; repeat split; eauto.
Qed.

(** Others have work for the context: run() waits for it. *)
Example C64_work_demo :
  let s := after both [LWork; LEnter 0] in
  step both (LLeave 0) s = None /\ step both (LLeave 0) (after both [LEnter 0]) <> None /\
  (exists s', step both LWorkDone s = Some s' /\ log s' = [ERanOut] ++ log s /\
              step both (LLeave 0) s' <> None) /\
  works ([LWork; LEnter 0] ++ [LWorkDone]) = 1 /\
  steps both [LWork; LEnter 0] init = Some s.
Proof.
  vm_compute; repeat split; try discriminate.
  eexists; split; [reflexivity|]; split; [reflexivity|discriminate].
Qed.

(** While the function given to [async] is not back, run() waits. *)
Example C64_guard_demo :
  reach both (after both (firstn 8 together)) /\
  worker_of 0 (after both (firstn 8 together)) = Some Idle /\
  step both (LLeave 0) (after both (firstn 8 together)) = None /\
  step both (LBegin 0) (after both (firstn 8 together)) = None /\
  given (log (after both (firstn 8 together))) = [1] /\ called (log (after both (firstn 8 together))) = [].
Proof. split; [reached (firstn 8 together)|]; vm_compute; repeat split. Qed.

(** One thread without a strand; a function calls [finish]: what waits is not called. *)
Definition single := Cfg false true.
Definition finishing :=
  [post; post; post; LEnter 0; LBegin 0; LRet 0; LBegin 0; LUse (InHandler 0) UFinish; LRet 0; LLeave 0].
Example C64_alone_demo :
  reach single (after single finishing) /\ alone (log (after single finishing)) /\
  begun (log (after single finishing)) = [0; 1] /\ posted (log (after single finishing)) = [0; 1; 2].
Proof.
  split; [reached finishing|]; split; [|vm_compute; repeat split].
  assert (L : log (after single finishing) =
    [EReturn 0; EEnd 0 1; EFinish (InHandler 0); EStop; EBegin 0 1; EEnd 0 0; EBegin 0 0; EEnter 0;
     EPost Outside 2; EPost Outside 1; EPost Outside 0]) by (vm_compute; reflexivity).
  rewrite L; intros l1 l2 E.
  repeat (destruct l1 as [|? l1]; [cbn in E; subst l2; cbn; lia | cbn in E; injection E as _ E]).
  destruct l1; [cbn in E; subst l2; cbn; lia | discriminate E].
Qed.
Example C64_finish_demo : exists l1 l2,
  log (after single finishing) = l1 ++ EFinish (InHandler 0) :: l2 /\ halted l2 = true /\
  no_restart l1 /\ begun l2 = [0; 1].
Proof.
  exists [EReturn 0; EEnd 0 1],
    [EStop; EBegin 0 1; EEnd 0 0; EBegin 0 0; EEnter 0; EPost Outside 2; EPost Outside 1; EPost Outside 0].
  split; [vm_compute; reflexivity|]; split; [reflexivity|]; split; [|reflexivity].
  unfold no_restart; cbn; intuition discriminate.
Qed.

(** Posting from a variable leaves it as it is. *)
Definition reused := [LVar; LUse Outside (UPost (Var 0)); LUse Outside (UPost (Var 0))].
Example C64_kept_demo :
  reach both (after both reused) /\ vars (after both reused) = [true] /\
  posted (log (after both reused)) = [0; 1].
Proof. split; [reached reused|]; vm_compute; repeat split. Qed.

(** In the middle of [together]: a posted function runs, one given to [async] is not called yet. *)
Example C64_use_demo :
  let ls := firstn 6 together in
  let s := after both ls in
  temporaries ls /\ steps both ls init = Some s /\ fated s = Going /\ on 1 (log s) = Some 0 /\ on 0 (log s) = None /\
  acts (InHandler 1) (log s) /\ ~ acts (InFn 1) (log s) /\
  acts (InFn 1) (log (after both (firstn 9 together))) /\
  option_map fated (steps both [LDestroy; LUse (InHandler 1) UFinish] s) = Some Undefined.
Proof.
  intros ls s. split.
  - intros w u I. cbn in I. repeat destruct I as [I | I]; try discriminate I; try (injection I as <- <-; exact eq_refl). destruct I.
  - repeat (split; [vm_compute; reflexivity|]). split; [vm_compute; discriminate|]. split; [intros [[] _]|].
    split; [|vm_compute; reflexivity]. split; [left; reflexivity|intros []].
Qed.
(** After [together] both threads are out of run(). *)
Example C64_enters_demo :
  let s := after both together in
  In (EEnter 0) (log s) /\ in_run 0 (log s) = false /\ fated s = Going /\ in_run 1 (tl (tl (log s))) = true /\
  step both (LEnter 0) s <> None.
Proof. intros s. split; [vm_compute; intuition discriminate|]. repeat (split; [vm_compute; reflexivity|]). vm_compute. discriminate. Qed.
