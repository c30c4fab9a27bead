(** Ownership as it should be, said with paths instead of counting pointers. *)
From Coq Require Import List Arith Bool.
Import ListNotations.
From Verif Require Import OwnModel.

(** [o] has a shared pointer to [x]. *)
Definition owns (h : heap) (o x : nat) : Prop :=
  exists ms, nth_error (objs h) o = Some (Obj true ms) /\ In x ms.

(** ... over any number of objects, at least one *)
Inductive leads (h : heap) : nat -> nat -> Prop :=
| leads_one o x : owns h o x -> leads h o x
| leads_more o m x : owns h o m -> leads h m x -> leads h o x.

(** The program can get to the object. *)
Inductive reached (h : heap) : nat -> Prop :=
| reached_held x : In x (held h) -> reached h x
| reached_owned o x : reached h o -> owns h o x -> reached h x.

Definition present (h : heap) (x : nat) : Prop :=
  exists ms, nth_error (objs h) x = Some (Obj true ms).

(** No object owns itself, however far around *)
Definition acyclic (h : heap) : Prop := forall x, ~ leads h x x.

(** A program that gives members only to objects that are younger: the objects are put
    together when they are made, as the library does it with the parents of its nodes. *)
Definition by_age (p : op) : Prop :=
  match p with Assign o x => x < o | _ => True end.
