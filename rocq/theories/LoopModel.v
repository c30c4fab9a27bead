(** Model of the event loops
      /repo/lager/event_loop/manual.hpp      (with_manual_event_loop)
      /repo/lager/event_loop/queue.hpp       (queue_event_loop)
      /repo/lager/event_loop/safe_queue.hpp  (safe_queue_event_loop)

    Posted functions are identified by a code of an arbitrary type [J]; what a
    function does when called is an arbitrary program: it may post further
    functions, read and write the world, throw and catch.

    Not modelled: async(), finish(), pause(), resume() (they throw or do
    nothing on these loops), allocation failure. *)
From Coq Require Import List Arith Bool.
Import ListNotations.

(** * The queue of functions

    A [std::vector] of [std::function]; an element whose function was moved out
    is [None].  The number is ghost state: the position in the order of posts. *)
Section Queue.
Variable J : Type.
Definition queue := list (nat * option J).

(** [queue_.push_back(fn)]: manual.hpp:36, queue.hpp:28, safe_queue.hpp:34,37 *)
Definition push (id : nat) (j : J) (q : queue) : queue := q ++ [(id, Some j)].
(** [std::move(queue_[i])]: manual.hpp:41, queue.hpp:44, safe_queue.hpp:79 *)
Fixpoint move_out (i : nat) (q : queue) : queue :=
  match q, i with
  | [], _ => []
  | (id, _) :: r, 0 => (id, None) :: r
  | e :: r, S i' => e :: move_out i' r
  end.
(** [queue_.erase(begin, begin + i)]: manual.hpp:45, queue.hpp:47 *)
Definition erase (i : nat) (q : queue) : queue := skipn i q.
End Queue.
Arguments push {J}. Arguments move_out {J}. Arguments erase {J}.

(** * Manual and queue loop *)
Section Loop.

Variable J : Type.
Variable W : Type.

Inductive prog :=
| PRet
| PThrow
| PPost (j : J) (k : prog)                (* loop.post(j) *)
| PStep (k : prog)                        (* loop.step(), queue loop only *)
| PGet (k : W -> prog)
| PPut (w : W) (k : prog)
| PTry (p : prog) (k : bool -> prog).     (* try { p } catch (...) {}; [true]: no exception *)

Variable code : J -> prog.

(** [true]: with_manual_event_loop; [false]: queue_event_loop. *)
Variable manual : bool.

(** What happened; newest first. *)
Inductive event :=
| EPost (id : nat)                        (* function posted *)
| ERun (id : nat)                         (* function starts *)
| EEnd (id : nat)                         (* function returned *)
| EFail (id : nat).                       (* function left by an exception *)

Record st := St {
  q : queue J;                            (* queue_ *)
  idx : nat;                              (* i_, manual loop *)
  next : nat;                             (* number of posts so far *)
  world : W;
  log : list event }.

Inductive res :=
| Done (s : st)
| Thrown (s : st)
| Moved                                   (* an already moved-out function is called *)
| NoSuch                                  (* step() on a manual loop: does not compile *)
| OutOfFuel.

Inductive task :=
| TProg (p : prog)
| TPost (j : J)
| TLoop                                   (* manual.hpp:40-43 *)
| TStep (i : nat).                        (* queue.hpp:42-50, local variable [i] *)

Definition emit (e : event) (s : st) : st :=
  St (q s) (idx s) (next s) (world s) (e :: log s).
Definition andthen (r : res) (k : st -> res) : res :=
  match r with Done s => k s | r => r end.

Definition do_push (j : J) (s : st) : st :=
  St (push (next s) j (q s)) (idx s) (S (next s)) (world s) (EPost (next s) :: log s).

Fixpoint exec (fuel : nat) (t : task) (s : st) : res :=
  match fuel with
  | 0 => OutOfFuel
  | S f =>
    match t with
    | TProg PRet => Done s
    | TProg PThrow => Thrown s
    | TProg (PPost j k) => andthen (exec f (TPost j) s) (fun s' => exec f (TProg k) s')
    | TProg (PGet k) => exec f (TProg (k (world s))) s
    | TProg (PPut w k) => exec f (TProg k) (St (q s) (idx s) (next s) w (log s))
    | TProg (PTry p k) =>
        match exec f (TProg p) s with
        | Done s' => exec f (TProg (k true)) s'
        | Thrown s' => exec f (TProg (k false)) s'
        | r => r
        end
    (* queue.hpp:40-52 *)
    | TProg (PStep k) =>
        if manual then NoSuch
        else andthen (exec f (TStep 0) s) (fun s' =>
               exec f (TProg k) (St [] (idx s') (next s') (world s') (log s')))
    | TPost j =>
        if manual then
          (* manual.hpp:36-51 *)
          let s1 := do_push j s in
          if idx s1 =? 0 then
            match exec f TLoop s1 with
            | Done s2 => Done (St [] 0 (next s2) (world s2) (log s2))
            | Thrown s2 => Thrown (St (erase (idx s2) (q s2)) 0 (next s2) (world s2) (log s2))
            | r => r
            end
          else Done s1
        else Done (do_push j s)           (* queue.hpp:28 *)
    | TLoop =>
        if idx s <? length (q s) then
          match nth_error (q s) (idx s) with
          | Some (id, Some j) =>
              let s1 := St (move_out (idx s) (q s)) (S (idx s)) (next s) (world s)
                           (ERun id :: log s) in
              match exec f (TProg (code j)) s1 with
              | Done s2 => exec f TLoop (emit (EEnd id) s2)
              | Thrown s2 => Thrown (emit (EFail id) s2)
              | r => r
              end
          | _ => Moved
          end
        else Done s
    | TStep i =>
        if i <? length (q s) then
          match nth_error (q s) i with
          | Some (id, Some j) =>
              let s1 := St (move_out i (q s)) (idx s) (next s) (world s)
                           (ERun id :: log s) in
              match exec f (TProg (code j)) s1 with
              | Done s2 => exec f (TStep (S i)) (emit (EEnd id) s2)
              | Thrown s2 =>
                  let s3 := emit (EFail id) s2 in
                  Thrown (St (erase (S i) (q s3)) (idx s3) (next s3) (world s3) (log s3))
              | r => r
              end
          | _ => Moved
          end
        else Done s
    end
  end.

Definition init (w : W) : st := St [] 0 0 w [].
(** A whole client program using a new loop. *)
Definition run (fuel : nat) (w : W) (p : prog) : res := exec fuel (TProg p) (init w).

End Loop.

Arguments PRet {J W}. Arguments PThrow {J W}. Arguments PPost {J W}. Arguments PStep {J W}.
Arguments PGet {J W}. Arguments PPut {J W}. Arguments PTry {J W}.
Arguments St {J W}. Arguments q {J W}. Arguments idx {J W}. Arguments next {J W}.
Arguments world {J W}. Arguments log {J W}.
Arguments Done {J W}. Arguments Thrown {J W}. Arguments Moved {J W}. Arguments NoSuch {J W}.
Arguments OutOfFuel {J W}.
Arguments TProg {J W}. Arguments TPost {J W}. Arguments TLoop {J W}. Arguments TStep {J W}.
Arguments emit {J W}. Arguments andthen {J W}. Arguments do_push {J W}.
Arguments exec {J W}. Arguments init {J W}. Arguments run {J W}.

(** * The thread-safe queue

    safe_queue.hpp as a transition system: every read or write of shared data is
    one step and steps of different threads interleave arbitrarily.  What posted
    functions do is left open: while one runs the owner thread may post anything,
    and it may end or throw at any time.  A function calling [step()] or
    [adopt()] is not modelled (the former would call moved-out functions). *)
Section Safe.

Variable J : Type.

Inductive sevent :=
| SPost (t : nat) (id : nat)              (* thread [t] posted function [id] *)
| SRun (t : nat) (id : nat)               (* thread [t] called function [id] *)
| SEnd (id : nat)
| SFail (id : nat).                       (* exception out of [id] and of step() *)

(** Where the owner thread is. *)
Inductive ctl :=
| Idle                                    (* not in step() *)
| Loop (second : bool) (i : nat)          (* run_local_queue_ (first or second call), l. 77 *)
| Body (second : bool) (i : nat) (id : nat) (* in a function, l. 80 *)
| Swap                                    (* before the lock in swap_queues_, l. 71 *)
| Swapping.                               (* holding it, l. 72 *)

(** Who holds [mutex_]. *)
Inductive holder :=
| Free
| Foreign (t : nat) (j : J)               (* in post(), l. 37 *)
| Owner.                                  (* in swap_queues_, l. 72 *)

Record sst := SSt {
  local : queue J;                        (* local_queue_ *)
  shared : queue J;                       (* shared_queue_ *)
  owner : nat;                            (* thread_id_ *)
  ctrl : ctl;
  lock : holder;
  nposts : nat;
  slog : list sevent }.

Definition sinit (t : nat) : sst := SSt [] [] t Idle Free 0 [].

Inductive sstep : sst -> sst -> Prop :=
(* post() by another thread, l. 36-37 *)
| s_lock t j s : t <> owner s -> lock s = Free ->
    sstep s (SSt (local s) (shared s) (owner s) (ctrl s) (Foreign t j) (nposts s) (slog s))
| s_push t j s : lock s = Foreign t j ->
    sstep s (SSt (local s) (push (nposts s) j (shared s)) (owner s) (ctrl s) Free
                 (S (nposts s)) (SPost t (nposts s) :: slog s))
(* post() by the owner, outside step() or from a function, l. 34 *)
| s_local j s : (ctrl s = Idle \/ exists b i id, ctrl s = Body b i id) ->
    sstep s (SSt (push (nposts s) j (local s)) (shared s) (owner s) (ctrl s) (lock s)
                 (S (nposts s)) (SPost (owner s) (nposts s) :: slog s))
(* step(), l. 52-58 *)
| s_step s : ctrl s = Idle ->
    sstep s (SSt (local s) (shared s) (owner s) (Loop false 0) (lock s) (nposts s) (slog s))
(* run_local_queue_, l. 77-80 *)
| s_take b i id j s : ctrl s = Loop b i -> nth_error (local s) i = Some (id, Some j) ->
    sstep s (SSt (move_out i (local s)) (shared s) (owner s) (Body b (S i) id) (lock s)
                 (nposts s) (SRun (owner s) id :: slog s))
| s_end b i id s : ctrl s = Body b i id ->
    sstep s (SSt (local s) (shared s) (owner s) (Loop b i) (lock s) (nposts s)
                 (SEnd id :: slog s))
(* l. 81-85 *)
| s_throw b i id s : ctrl s = Body b i id ->
    sstep s (SSt (erase i (local s)) (shared s) (owner s) Idle (lock s) (nposts s)
                 (SFail id :: slog s))
(* l. 87; after the first call swap_queues_ follows, after the second one step() returns *)
| s_clear b i s : ctrl s = Loop b i -> length (local s) <= i ->
    sstep s (SSt [] (shared s) (owner s) (if b then Idle else Swap) (lock s) (nposts s) (slog s))
(* swap_queues_, l. 71-72 *)
| s_swap_lock s : ctrl s = Swap -> lock s = Free ->
    sstep s (SSt (local s) (shared s) (owner s) Swapping Owner (nposts s) (slog s))
| s_swap s : ctrl s = Swapping ->
    sstep s (SSt (shared s) (local s) (owner s) (Loop true 0) Free (nposts s) (slog s))
(* adopt(), l. 60-64: requires an empty local queue; the client must synchronise *)
| s_adopt t s : ctrl s = Idle -> local s = [] ->
    (forall j, lock s <> Foreign t j) ->
    sstep s (SSt (local s) (shared s) t (ctrl s) (lock s) (nposts s) (slog s)).

(** Executions, and those without [adopt()]. *)
Inductive ssteps : sst -> sst -> Prop :=
| ss_none s : ssteps s s
| ss_more s s1 s2 : ssteps s s1 -> sstep s1 s2 -> ssteps s s2.

End Safe.

Arguments Free {J}. Arguments Foreign {J}. Arguments Owner {J}.
Arguments SSt {J}. Arguments local {J}. Arguments shared {J}. Arguments owner {J}.
Arguments ctrl {J}. Arguments lock {J}. Arguments nposts {J}. Arguments slog {J}.
Arguments sinit {J}. Arguments sstep {J}. Arguments ssteps {J}.
