(** Vocabulary for the properties of the SDL event loop: what the log says. *)
From Coq Require Import List Arith Bool ZArith QArith Qround.
From Verif Require Import SdlModel.
Import ListNotations.
Local Open Scope nat_scope.

(** Oldest first: entries that got into the SDL queue, ... *)
Fixpoint entered (l : list event) : list entry :=
  match l with
  | [] => []
  | EPost id :: r => entered r ++ [Fn id]
  | EArrive id :: r => entered r ++ [Ev id]
  | _ :: r => entered r
  end.
(** ... were taken out of it, ... *)
Fixpoint taken (l : list event) : list entry :=
  match l with [] => [] | ETake x :: r => taken r ++ [x] | _ :: r => taken r end.
(** ... were dealt with: functions called, events passed to the handler or
    dropped because of a pause. *)
Fixpoint dealt (l : list event) : list entry :=
  match l with
  | [] => []
  | ERun id :: r => dealt r ++ [Fn id]
  | EHandle _ id :: r => dealt r ++ [Ev id]
  | ESwallow id :: r => dealt r ++ [Ev id]
  | _ :: r => dealt r
  end.
(** Function objects deleted, newest first. *)
Fixpoint freed (l : list event) : list nat :=
  match l with [] => [] | EFree id :: r => id :: freed r | _ :: r => freed r end.
(** How often a tick was called, and how often a tick or, by [run(handler, tick)],
    the handler. *)
Fixpoint ticked (l : list event) : nat :=
  match l with [] => 0 | ETick :: r => S (ticked r) | _ :: r => ticked r end.
Fixpoint called (l : list event) : nat :=
  match l with
  | [] => 0
  | ETick :: r | EHandle Ticking _ :: r => S (called r)
  | _ :: r => called r
  end.

(** The function some call of [run] is in. *)
Definition runs (f : frame) (id : nat) : Prop := f = BodyP id \/ f = BodyT id.
(** Calls of [run(handler)]. *)
Definition plain (f : frame) : bool :=
  match f with Top Plain _ | WaitP | BodyP _ | HandP _ => true | _ => false end.
(** Calls of [run(handler, tick)] in the inner loop with continue_ true, and not
    about to call or calling the handler. *)
Definition looping (f : frame) : bool :=
  match f with Inner true | Poll | Again | WaitT | BodyT _ | Got _ => true | _ => false end.
(** Steps of the loop thread, and entries put into the queue. *)
Fixpoint owns (ls : list label) : nat :=
  match ls with [] => 0 | LGo :: r | LRet _ :: r => S (owns r) | _ :: r => owns r end.
Fixpoint pushes (ls : list label) : nat :=
  match ls with [] => 0 | LPost :: r | LArrive :: r => S (pushes r) | _ :: r => pushes r end.

(** No exception, no pause, no call of run, no failing wait. *)
Definition calm (l : label) : Prop :=
  match l with LRun _ | LThrow | LErr | LPause => False | _ => True end.
(** No exception, no failing wait, no resume. *)
Definition undisturbed (l : label) : Prop :=
  match l with LResume | LErr | LThrow => False | _ => True end.

(** In handler or tick. *)
Definition asked (f : frame) : bool :=
  match f with HandP _ | HandT _ | Tick => true | _ => false end.
(** During the steps [ls], handler or tick of the call of [run] that has [d] others
    below it returned false. *)
Fixpoint told (d : nat) (s : st) (ls : list label) : bool :=
  match ls with
  | [] => false
  | l :: r =>
      (match l, stack s with LRet false, f :: q => (length q =? d) && asked f | _, _ => false end) ||
      match act l s with Some s1 => told d s1 r | None => false end
  end.
(** The functions that threw during the steps [ls] while [run(handler)] called them. *)
Fixpoint threw_plain (s : st) (ls : list label) : list nat :=
  match ls with
  | [] => []
  | l :: r =>
      (match l, stack s with LThrow, BodyP id :: _ => [id] | _, _ => [] end) ++
      match act l s with Some s1 => threw_plain s1 r | None => [] end
  end.
(** Steps of the loop itself. *)
Fixpoint goes (ls : list label) : nat :=
  match ls with [] => 0 | LGo :: r => S (goes r) | _ :: r => goes r end.

(** * constant_fps_step: a run of calls

    One call: the time when it starts, when it reads the time again, when it
    returns; how long it delays, the result. *)
Record call := Call { c_now : Z; c_later : Z; c_end : Z; c_delay : option Z; c_dt : Q }.

(** Consecutive calls, the first one not before [t0]: time does not go back, and
    SDL_Delay takes as long as told, or longer. *)
Fixpoint calls (t0 : Z) (f : fps) (cs : list call) : Prop :=
  match cs with
  | [] => True
  | c :: r =>
      (t0 <= c_now c <= c_later c /\ c_later c <= c_end c)%Z /\
      match fps_step (c_now c mod two32) (c_later c mod two32) f with
      | (d, dt, f') =>
          c_delay c = d /\ c_dt c = dt /\
          match d with Some n => (c_now c + n <= c_end c)%Z | None => True end /\
          calls (c_end c) f' r
      end
  end.

(** Every call returns the time since the one before, but [m] at most; the time is
    known modulo 2^32. *)
Fixpoint deltas (m : Q) (prev : Z) (cs : list call) : Prop :=
  match cs with
  | [] => True
  | c :: r =>
      ((c_now c - prev < two32)%Z ->
       c_dt c == inject_Z (c_now c - prev) /\ c_dt c <= m \/
       c_dt c == m /\ m < inject_Z (c_now c - prev))%Q /\
      deltas m (c_now c) r
  end.
