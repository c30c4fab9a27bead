(** Properties C28-C30: event loops. *)
From Coq Require Import List Arith Bool Lia Permutation.
From Verif Require Import LoopModel LoopSpec LoopProofs LoopEnds LoopSafe.
Import ListNotations.

(** * C28: the manual loop

    A log is read newest first; every suffix of it is the log at some earlier
    moment.  So at every moment the functions started so far are the first ones
    posted, in post order, none twice, and no function starts while another runs. *)
Theorem C28_manual_order : forall (J W : Type) (code : J -> prog J W) fuel w p,
  run code true fuel w p <> Moved /\
  forall s, finished (run code true fuel w p) s ->
    posted (log s) = seq 0 (next s) /\
    ran (log s) ++ map fst (q s) = posted (log s) /\
    (forall later earlier, log s = later ++ earlier ->
       running earlier <> None /\ exists rest, ran earlier ++ rest = posted earlier) /\
    running (log s) = Some None.
Proof. exact (fun J W code => run_order J W code true I). Qed.
Print Assumptions C28_manual_order.

(** A post from outside: when it returns everything has run and no exception was
    dropped; when it throws, exactly one function was left by an exception, it is
    the last thing that happened, and what was not run is kept (see above: in order). *)
Theorem C28_manual_drains : forall (J W : Type) (code : J -> prog J W) fuel0 w p s fuel j,
  finished (run code true fuel0 w p) s ->
  match exec code true fuel (TPost j) s with
  | Done s' => q s' = [] /\ ran (log s') = posted (log s') /\ failed (log s') = failed (log s)
  | Thrown s' => (exists id l, log s' = EFail id :: l /\ failed l = failed (log s)) /\
                 ran (log s') ++ map fst (q s') = posted (log s') /\ idx s' = 0
  | Moved => False
  | _ => True
  end.
Proof. exact post_drains. Qed.
Print Assumptions C28_manual_drains.

(** It comes to an end if no function posts endlessly: functions have ranks, and post
    functions of smaller ranks.  ([NoSuch] is a client that calls step().) *)
Theorem C28_manual_ends : forall (J W : Type) (code : J -> prog J W) rank,
  (forall j, posts_below rank (rank j) (code j)) -> forall w p,
  exists fuel r, r <> OutOfFuel /\ forall f, fuel <= f -> run code true f w p = r.
Proof.
  exact (fun J W code rank H => run_ends code true rank H (fun E => match Bool.diff_true_false E with end)).
Qed.
Print Assumptions C28_manual_ends.
Definition countdown (j : nat) : prog nat nat := match j with 0 => PRet | S i => PPost i (PPost i PRet) end.
Example countdown_below : forall j, posts_below (fun j => j) j (countdown j).
Proof. destruct j; repeat constructor. Qed.
Example countdown_ends :
  match run countdown true 40 0 (PPost 3 PRet) with
  | Done s => ran (log s) = seq 0 15
  | _ => False
  end.
Proof. vm_compute. reflexivity. Qed.
(** Otherwise it may not: a function that posts itself. *)
Theorem C28_endless : exists (code : nat -> prog nat nat) p, forall fuel w, run code true fuel w p = OutOfFuel.
Proof. exists (fun j => PPost j PRet), (PPost 0 PRet). exact endless. Qed.
Print Assumptions C28_endless.

(** * C29: the queue loop; functions that call step() are excluded, see below *)
Theorem C29_queue_order : forall (J W : Type) (code : J -> prog J W),
  (forall j, no_step (code j)) -> forall fuel w p,
  run code false fuel w p <> Moved /\
  forall s, finished (run code false fuel w p) s ->
    posted (log s) = seq 0 (next s) /\
    ran (log s) ++ map fst (q s) = posted (log s) /\
    (forall later earlier, log s = later ++ earlier ->
       running earlier <> None /\ exists rest, ran earlier ++ rest = posted earlier) /\
    running (log s) = Some None.
Proof. exact (fun J W code => run_order J W code false). Qed.
Print Assumptions C29_queue_order.

(** Posting never runs anything; step() runs everything, or throws, in which case
    the rest is kept. *)
Theorem C29_queue_step : forall (J W : Type) (code : J -> prog J W),
  (forall j, no_step (code j)) -> forall fuel0 w p s fuel,
  finished (run code false fuel0 w p) s ->
  match exec code false fuel (TProg (PStep PRet)) s with
  | Done s' => q s' = [] /\ ran (log s') = posted (log s') /\ failed (log s') = failed (log s)
  | Thrown s' => (exists id l, log s' = EFail id :: l /\ failed l = failed (log s)) /\
                 ran (log s') ++ map fst (q s') = posted (log s')
  | Moved => False
  | _ => True
  end.
Proof. exact step_drains_all. Qed.
Print Assumptions C29_queue_step.

Theorem C29_queue_post_only : forall (J W : Type) (code : J -> prog J W) fuel j s s',
  exec code false fuel (TPost j) s = Done s' -> ran (log s') = ran (log s) /\ world s' = world s.
Proof. exact post_only. Qed.
Print Assumptions C29_queue_post_only.

(** step() comes to an end if no function posts endlessly. *)
Theorem C29_queue_ends : forall (J W : Type) (code : J -> prog J W) rank,
  (forall j, posts_below rank (rank j) (code j)) -> (forall j, no_step (code j)) -> forall w p,
  exists fuel r, r <> OutOfFuel /\ forall f, fuel <= f -> run code false f w p = r.
Proof. exact (fun J W code rank H N => run_ends code false rank H (fun _ => N)). Qed.
Print Assumptions C29_queue_ends.
Example countdown_steps : (forall j, no_step (countdown j)) /\
  match run countdown false 40 0 (PPost 3 (PPost 1 (PStep PRet))) with
  | Done s => ran (log s) = seq 0 18
  | _ => False
  end.
Proof. split; [destruct j; repeat constructor|vm_compute; reflexivity]. Qed.

(** Without the exclusion the claim fails: a posted function that calls step()
    makes the loop call functions that were already moved out of the queue. *)
Definition nested_code (j : nat) : prog nat nat :=
  match j with 0 => PStep PRet | _ => PRet end.
Theorem C29_nested_step_refuted : exists (code : nat -> prog nat nat) fuel w p,
  run code false fuel w p = Moved.
Proof. exists nested_code, 10, 0, (PPost 0 (PStep PRet)). reflexivity. Qed.
Print Assumptions C29_nested_step_refuted.

(** * C30: the thread-safe queue *)

(** Any number of threads, any interleaving, also with adopt(). *)
Theorem C30_once : forall (J : Type) t0 (s : sst J), ssteps (sinit t0) s ->
  NoDup (sran (slog s)) /\ incl (sran (slog s)) (sall (slog s)) /\
  (local s = [] -> shared s = [] -> Permutation (sran (slog s)) (sall (slog s))).
Proof. exact once. Qed.
Print Assumptions C30_once.

(** Nothing is lost, also when exceptions were thrown: what did not run is in a queue. *)
Theorem C30_nothing_lost : forall (J : Type) t0 (s : sst J), ssteps (sinit t0) s ->
  Permutation (sran (slog s) ++ waiting (local s) ++ waiting (shared s)) (sall (slog s)) /\
  NoDup (sall (slog s)).
Proof. exact nothing_lost. Qed.
Print Assumptions C30_nothing_lost.

Theorem C30_step_runs_all : forall (J : Type) t0 (s0 s : sst J),
  ssteps (sinit t0) s0 -> during_step s0 s -> ctrl s = Idle ->
  sfails (slog s) = sfails (slog s0) -> incl (sall (slog s0)) (sran (slog s)).
Proof. exact step_runs_all. Qed.
Print Assumptions C30_step_runs_all.

(** As long as no other thread adopts the loop. *)
Theorem C30_order_per_thread : forall (J : Type) owner0 (s : sst J) t, fixed_owner (sinit owner0) s ->
  (exists rest, sran_of t (slog s) ++ rest = sposted t (slog s)) /\
  (local s = [] -> shared s = [] -> sran_of t (slog s) = sposted t (slog s)) /\
  (forall t' id, In (SRun t' id) (slog s) -> t' = owner0).
Proof. exact order_per_thread. Qed.
Print Assumptions C30_order_per_thread.

(** The assertion at safe_queue.hpp:70 holds; the function to be called is there;
    no function runs while the mutex is held by the loop. *)
Theorem C30_internal : forall (J : Type) t0 (s : sst J), ssteps (sinit t0) s ->
  (ctrl s = Swap \/ ctrl s = Swapping -> local s = []) /\
  (forall b i, ctrl s = Loop b i -> i < length (local s) ->
     exists id j, nth_error (local s) i = Some (id, Some j)) /\
  (forall b i id, ctrl s = Body b i id -> lock s <> Owner).
Proof. exact internal. Qed.
Print Assumptions C30_internal.

(** ** Concrete cases *)

(** Function 0 posts 1 and 2, function 1 posts 3 and throws. *)
Definition ex_code (j : nat) : prog nat (list nat) :=
  PGet (fun w => PPut (w ++ [j])
    match j with
    | 0 => PPost 1 (PPost 2 PRet)
    | 1 => PPost 3 PThrow
    | _ => PRet
    end).
Definition ex_view (r : res nat (list nat)) :=
  match r with
  | Done s => Some (true, world s, map fst (q s), failed (log s))
  | Thrown s => Some (false, world s, map fst (q s), failed (log s))
  | _ => None
  end.
Example C28_ex_throw : ex_view (run ex_code true 50 [] (PPost 0 PRet)) = Some (false, [0; 1], [2; 3], [1]).
Proof. reflexivity. Qed.
Example C28_ex_resume : ex_view (run ex_code true 50 [] (PTry (PPost 0 PRet) (fun _ => PPost 9 PRet)))
  = Some (true, [0; 1; 2; 3; 9], [], [1]).
Proof. reflexivity. Qed.
Example C29_ex_no_step : forall j, no_step (ex_code j).
Proof. intros [|[|j]]; repeat constructor. Qed.
Example C29_ex : ex_view (run ex_code false 50 [] (PPost 0 (PPost 9 (PTry (PStep PRet) (fun _ => PStep PRet)))))
  = Some (true, [0; 9; 1; 2; 3], [], [2]).
Proof. reflexivity. Qed.

(** The owner (0) posts 1, thread 1 posts 0 and 2; the first function run posts 3
    and is left by an exception while thread 2 is posting 4; a second step() runs the rest. *)
Definition ex_run : list (slabel nat) :=
  [LLock 1 10; LPush; LLocal 11; LLock 1 12; LPush;
   LStep; LTake; LLocal 13; LLock 2 14; LThrow; LPush;
   LStep; LTake; LEnd; LClear; LSwapLock; LSwap; LTake; LEnd; LTake; LLock 1 15; LEnd; LTake; LEnd;
   LPush; LClear].
Definition ex_end : sst nat := from (sinit 0) (sdos ex_run (sinit 0)).
Example C30_ex : fixed_owner (sinit 0) ex_end /\ ctrl ex_end = Idle /\
  sran (slog ex_end) = [1; 3; 0; 2; 4] /\ waiting (shared ex_end) = [5] /\
  sran_of 1 (slog ex_end) = [0; 2] /\ sposted 1 (slog ex_end) = [0; 2; 5] /\ sfails (slog ex_end) = 1.
Proof. split; [apply final_fixed; vm_compute; reflexivity|]. vm_compute. repeat split. Qed.
(** A step() as in [C30_step_runs_all]. *)
Definition ex_before : sst nat := from (sinit 0) (sdos [LLock 1 10; LPush; LLocal 11] (sinit 0)).
Definition ex_call := [LTake; LEnd; @LClear nat; LSwapLock; LSwap; LTake; LEnd; LClear].
Definition ex_after : sst nat := from ex_before (do_call ex_call ex_before).
Example C30_ex_step : ssteps (sinit 0) ex_before /\ during_step ex_before ex_after /\ ctrl ex_after = Idle /\
  sfails (slog ex_after) = sfails (slog ex_before) /\ sall (slog ex_before) = [0; 1].
Proof.
  split; [apply final_steps; vm_compute; reflexivity|].
  split; [apply final_during; vm_compute; reflexivity|]. vm_compute. repeat split.
Qed.

(** With adopt() the order per posting thread is lost: thread 1 posts, becomes the
    owner and posts again; the second function runs first. *)
Definition ex_adopt := [LLock 1 10; LPush; LAdopt 1; LLocal 11; LStep; LTake; LEnd; LClear;
    LSwapLock; LSwap; LTake; LEnd; LClear].
Theorem C30_adopt_order_refuted : exists s : sst nat, ssteps (sinit 0) s /\
  sposted 1 (slog s) = [0; 1] /\ sran_of 1 (slog s) = [1; 0].
Proof.
  exists (from (sinit 0) (sdos ex_adopt (sinit 0))).
  split; [apply final_steps; vm_compute; reflexivity|]. vm_compute. split; reflexivity.
Qed.
Print Assumptions C30_adopt_order_refuted.
