(** Vocabulary for the properties of the Boost.Asio event loop: what the log says. *)
From Coq Require Import List Arith Bool.
From Verif Require Import AsioModel.
Import ListNotations.

Definition reach (c : cfg) (s : st) : Prop := exists ls, steps c ls init = Some s.

(** Oldest first: functions posted, called, back from their call. *)
Fixpoint posted (l : list event) : list nat :=
  match l with [] => [] | EPost _ i :: r => posted r ++ [i] | _ :: r => posted r end.
Fixpoint begun (l : list event) : list nat :=
  match l with [] => [] | EBegin _ i :: r => begun r ++ [i] | _ :: r => begun r end.
Fixpoint ended (l : list event) : list nat :=
  match l with [] => [] | EEnd _ i :: r => ended r ++ [i] | _ :: r => ended r end.
(** The same for functions given to [async]. *)
Fixpoint given (l : list event) : list nat :=
  match l with [] => [] | EAsync _ i :: r => given r ++ [i] | _ :: r => given r end.
Fixpoint called (l : list event) : list nat :=
  match l with [] => [] | EFnBegin i :: r => called r ++ [i] | _ :: r => called r end.
Fixpoint back (l : list event) : list nat :=
  match l with [] => [] | EFnEnd i :: r => back r ++ [i] | _ :: r => back r end.

(** One at a time: all that were called are back, but perhaps the last one. *)
Definition serial (l : list event) : Prop :=
  begun l = ended l \/ exists i, begun l = ended l ++ [i].

(** Calls of run() minus returns from it. *)
Fixpoint inside (l : list event) : nat :=
  match l with
  | [] => 0
  | EEnter _ :: r => S (inside r)
  | EReturn _ :: r | ELeave _ :: r => pred (inside r)
  | _ :: r => inside r
  end.
(** Never were two threads in run(). *)
Definition alone (l : list event) : Prop := forall l1 l2, l = l1 ++ l2 -> inside l2 <= 1.

(** The context is stopped by a stop() or because it ran out of work. *)
Fixpoint halted (l : list event) : bool :=
  match l with
  | [] => false
  | ERanOut :: _ | EStop :: _ => true
  | ERestart :: _ => false
  | _ :: r => halted r
  end.
(** Not restarted. *)
Definition no_restart (l : list event) : Prop := ~ In ERestart l.

(** Pieces of work that others gave to the context, and those that are done. *)
Fixpoint works (ls : list label) : nat :=
  match ls with [] => 0 | LWork :: r => S (works r) | _ :: r => works r end.
Fixpoint works_done (ls : list label) : nat :=
  match ls with [] => 0 | LWorkDone :: r => S (works_done r) | _ :: r => works_done r end.

(** The posted function that thread [t] is in. *)
Fixpoint on (t : nat) (l : list event) : option nat :=
  match l with
  | [] => None
  | EBegin u i :: r => if u =? t then Some i else on t r
  | EEnd u _ :: r => if u =? t then None else on t r
  | _ :: r => on t r
  end.
(** [w] is in a function: posted, or given to [async]. *)
Definition acts (w : who) (l : list event) : Prop :=
  match w with
  | Outside => True
  | InHandler t => on t l <> None
  | InFn a => In a (called l) /\ ~ In a (back l)
  end.
(** Uses with a function object that is not kept in a variable. *)
Definition temporary (u : use) : Prop :=
  match u with UPost a | UAsync a => a = Temp | _ => True end.
Definition temporaries (ls : list label) : Prop := forall w u, In (LUse w u) ls -> temporary u.

(** Thread [t] is in run(). *)
Fixpoint in_run (t : nat) (l : list event) : bool :=
  match l with
  | [] => false
  | EEnter u :: r => if u =? t then true else in_run t r
  | EReturn u :: r | ELeave u :: r => if u =? t then false else in_run t r
  | _ :: r => in_run t r
  end.
(** Threads call functions inside of run() only, one at a time; run() is left between them. *)
Definition nested (e : event) (l : list event) : Prop :=
  match e with
  | EEnter t => in_run t l = false
  | EBegin t _ | EReturn t => in_run t l = true /\ on t l = None
  | EEnd t i => in_run t l = true /\ on t l = Some i
  | ELeave t => in_run t l = true /\ exists i r, l = EEnd t i :: r
  | _ => True
  end.
