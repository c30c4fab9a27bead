(** Model of one promise_state shared by any number of threads
      /repo/lager/future.hpp:28-38    promise_state
      /repo/lager/future.hpp:156-180  promise::operator()
      /repo/lager/future.hpp:190-227  future::then (valid future)

    Every call of promise::operator() or of future::then on some copy of the promise
    or of the future is a process of its own, numbered [i]; [role i] says which
    function it calls.  Calls made by the same thread one after the other are covered:
    that only restricts the order of steps.  The steps of all processes interleave
    freely.  The callback a call of then() attaches has the number of that call.

    Simplified: calls through an empty promise or future (l. 158-159 and 193-199; see
    StoreModel.v for the latter) do not get as far as the shared state and are left
    out.  The function [post] is only known to return or throw after any delay; it may
    run other calls inside (the manual loop runs the posted function before returning),
    which are processes with [parent].  How the posted function is run later is the
    matter of the loops, LoopModel.v, and how futures are chained, of StoreModel.v.
    Accesses are sequentially consistent. *)
From Coq Require Import List Arith Bool.
Import ListNotations.

Inductive call := Fulfil | Attach.

(** Where a call is. *)
Inductive place :=
| New                        (* not yet called *)
| Peek                       (* then(): before the assert on callback, l. 203 *)
| Want                       (* before the lock, l. 164, 215 *)
| Crit                       (* before the test of done, l. 165, 216 *)
| Posting (c : nat)          (* in post(callback c), l. 172, 219 *)
| Mark                       (* before done = true, l. 176 *)
| Clear                      (* before callback = nullptr, l. 177 *)
| Leave                      (* before the unlock, l. 178, 223 *)
| Ret                        (* returned *)
| Exc                        (* left by an exception of post *)
| Abort.                     (* assertion failed *)

(** What happened; newest first. *)
Inductive event :=
| EStart (i : nat)           (* call [i] begins *)
| EPost (i c : nat)          (* call [i] calls post with the callback of [c] *)
| EDrop (c : nat)            (* the callback of [c] is destroyed uncalled *)
| EUnlock (i : nat).         (* call [i] leaves its critical section, without exception *)

Record st := St {
  done : bool;
  callback : option nat;
  holder : option nat;       (* who holds mutex *)
  pc : nat -> place;
  parent : nat -> option nat;
  log : list event }.

Definition init : st := St false None None (fun _ => New) (fun _ => None) [].

Definition upd {X} (f : nat -> X) (i : nat) (x : X) : nat -> X :=
  fun k => if k =? i then x else f k.
Definition goto (i : nat) (x : place) (s : st) : st :=
  St (done s) (callback s) (holder s) (upd (pc s) i x) (parent s) (log s).
Definition set_done (s : st) : st :=
  St true (callback s) (holder s) (pc s) (parent s) (log s).
Definition set_callback (c : option nat) (s : st) : st :=
  St (done s) c (holder s) (pc s) (parent s) (log s).
Definition set_holder (h : option nat) (s : st) : st :=
  St (done s) (callback s) h (pc s) (parent s) (log s).
Definition set_parent (i : nat) (p : option nat) (s : st) : st :=
  St (done s) (callback s) (holder s) (pc s) (upd (parent s) i p) (log s).
Definition emit (e : event) (s : st) : st :=
  St (done s) (callback s) (holder s) (pc s) (parent s) (e :: log s).
(** The old value of the std::function is destroyed by an assignment. *)
Definition drop (s : st) : st :=
  match callback s with Some c => emit (EDrop c) s | None => s end.

Section Machine.
Variable role : nat -> call.
(** The asserts are compiled in. *)
Variable debug : bool.

Definition over (x : place) : Prop := x = Ret \/ x = Exc \/ x = Abort.
Definition no_children_left (s : st) (i : nat) : Prop :=
  forall k, parent s k = Some i -> over (pc s k).
(** The place after l. 203. *)
Definition entry (i : nat) : place :=
  match role i with Attach => if debug then Peek else Want | Fulfil => Want end.

(** One step of call [i]. *)
Inductive step : nat -> st -> st -> Prop :=
| s_start i p s : pc s i = New ->
    (forall k, p = Some k -> exists c, pc s k = Posting c) ->
    step i s (goto i (entry i) (set_parent i p (emit (EStart i) s)))
(* l. 203, not locked *)
| s_assert i s : pc s i = Peek -> callback s = None -> step i s (goto i Want s)
| s_abort i s c : pc s i = Peek -> callback s = Some c -> step i s (goto i Abort s)
(* l. 164, 215 *)
| s_lock i s : pc s i = Want -> holder s = None ->
    step i s (goto i Crit (set_holder (Some i) s))
(* l. 165-172: the callback is moved out *)
| s_fulfil_post i s c : pc s i = Crit -> role i = Fulfil -> done s = false -> callback s = Some c ->
    step i s (goto i (Posting c) (set_callback None (emit (EPost i c) s)))
| s_fulfil_skip i s : pc s i = Crit -> role i = Fulfil -> done s = true \/ callback s = None ->
    step i s (goto i Mark s)
(* l. 216-222 *)
| s_attach_post i s : pc s i = Crit -> role i = Attach -> done s = true ->
    step i s (goto i (Posting i) (emit (EPost i i) s))
| s_attach_keep i s : pc s i = Crit -> role i = Attach -> done s = false ->
    step i s (goto i Leave (set_callback (Some i) (drop s)))
(* post returns or throws *)
| s_posted i s c : pc s i = Posting c -> no_children_left s i ->
    step i s (goto i (match role i with Fulfil => Mark | Attach => Leave end) s)
| s_throw i s c : pc s i = Posting c -> no_children_left s i ->
    step i s (goto i Exc (set_holder None s))
(* l. 176-177 *)
| s_mark i s : pc s i = Mark -> step i s (goto i Clear (set_done s))
| s_clear i s : pc s i = Clear -> step i s (goto i Leave (set_callback None (drop s)))
(* l. 178, 223 *)
| s_unlock i s : pc s i = Leave ->
    step i s (goto i Ret (set_holder None (emit (EUnlock i) s))).

Inductive reach : st -> Prop :=
| r_init : reach init
| r_step i s s' : reach s -> step i s s' -> reach s'.
End Machine.
