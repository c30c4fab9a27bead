(** Vocabulary for the properties of the Qt event loop: what the log says. *)
From Coq Require Import List Arith Bool.
From Verif Require Import QtLoopModel.
Import ListNotations.

Definition reach (most : nat) (s : st) : Prop := exists ls, steps most ls init = Some s.

(** Oldest first: functions posted, called, back from their call. *)
Fixpoint posted (l : list event) : list nat :=
  match l with [] => [] | EPost _ _ i :: r => posted r ++ [i] | _ :: r => posted r end.
Fixpoint begun (l : list event) : list nat :=
  match l with [] => [] | EBegin i :: r => begun r ++ [i] | _ :: r => begun r end.
Fixpoint ended (l : list event) : list nat :=
  match l with [] => [] | EEnd i :: r => ended r ++ [i] | _ :: r => ended r end.
(** The same for functions given to the pool, by [async] or by others. *)
Fixpoint given (l : list event) : list nat :=
  match l with
  | [] => []
  | EAsync _ _ i :: r | EOther i :: r => given r ++ [i]
  | _ :: r => given r
  end.
Fixpoint started (l : list event) : list nat :=
  match l with [] => [] | EStart i :: r => started r ++ [i] | _ :: r => started r end.
Fixpoint back (l : list event) : list nat :=
  match l with [] => [] | EDone i :: r => back r ++ [i] | _ :: r => back r end.

(** One at a time: all that were called are back, but perhaps the last one. *)
Definition serial (l : list event) : Prop :=
  begun l = ended l \/ exists i, begun l = ended l ++ [i].
(** No posted function started an event loop. *)
Definition flat (l : list event) : Prop :=
  forall l1 l2, l = l1 ++ EExec :: l2 -> begun l2 = ended l2.
(** finish() was called, and no event loop was started since. *)
Fixpoint finished (l : list event) : bool :=
  match l with
  | [] => false
  | EFinish _ :: _ => true
  | EExec :: _ => false
  | _ :: r => finished r
  end.
(** Event loops that run. *)
Fixpoint depth (l : list event) : nat :=
  match l with
  | [] => 0
  | EExec :: r => S (depth r)
  | EExecRet :: r => pred (depth r)
  | _ :: r => depth r
  end.
(** finish() was called, and no outermost event loop was started since. *)
Fixpoint told (l : list event) : bool :=
  match l with
  | [] => false
  | EFinish _ :: _ => true
  | EExec :: r => match depth r with 0 => false | _ => told r end
  | _ :: r => told r
  end.

(** Loop objects that were made and are not destroyed. *)
Definition alive (k : nat) (l : list event) : Prop := In (ECopy k) l /\ ~ In (EDead k) l.
(** What the main thread is in, innermost first: posted functions, event loops. *)
Fixpoint frames (l : list event) : list (option nat) :=
  match l with
  | [] => []
  | EBegin i :: r => Some i :: frames r
  | EExec :: r => None :: frames r
  | EEnd _ :: r | EExecRet :: r => tl (frames r)
  | _ :: r => frames r
  end.
(** Who does it. *)
Definition by_whom (e : event) : option who :=
  match e with
  | EPost w _ _ | EAsync w _ _ | EDie w _ | EFinish w => Some w
  | EDone a => Some (Task a)
  | EBegin _ | EEnd _ | EExec | EExecRet | EObjGone => Some Main
  | EOther _ | ECopy _ | EDead _ | EStart _ => None
  end.
(** No destructor that [w] called is waiting. *)
Definition free (w : who) (l : list event) : Prop := forall k, In (EDie w k) l -> In (EDead k) l.
