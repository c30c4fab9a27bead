(** Vocabulary for the properties of futures (C25). *)
From Coq Require Import List Arith Bool.
From Verif Require Import FutureModel.
Import ListNotations.

(** The callbacks given to post, newest first. *)
Fixpoint posts (l : list event) : list nat :=
  match l with
  | [] => []
  | EPost _ c :: l => c :: posts l
  | _ :: l => posts l
  end.
(** A call between its beginning and its end. *)
Definition active (x : place) : Prop := x <> New /\ ~ over x.
(** A call whose next step reads or writes [done] or [callback]. *)
Definition touches (x : place) : Prop := x = Peek \/ x = Crit \/ x = Mark \/ x = Clear.
(** Only call [c] ever attaches a callback. *)
Definition single (role : nat -> call) (c : nat) : Prop :=
  role c = Attach /\ forall k, role k = Attach -> k = c.
