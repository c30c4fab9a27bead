(** What is said of exceptions in the graph. *)
From Coq Require Import List Bool Arith Permutation.
From Verif Require Import ThrowModel.
Import ListNotations.

Section Graph.
Context {V : Type}.
Variable changed : V -> V -> bool.
Variable g : graph V.

(** A graph as it can be built: from existing nodes; every node is linked to its parents. *)
Record built : Prop := {
  older : forall n p, In p (parents g n) -> p < n;
  linked : forall n p, In n (children g p) <-> In p (parents g n);
  there : forall n p, In n (children g p) -> n < size g;
  rooted : forall n p, In p (parents g n) -> exists b, kind_of g n = Inner b }.

(** The first values are those computed from the parents; equal values are not changed. *)
Definition starts (iv : nat -> V) : Prop :=
  forall n b v, kind_of g n = Inner b -> fn g n (map iv (parents g n)) = Some v ->
  changed v (iv n) = false.
(** Parents are refreshed and written to in some order, each once. *)
Definition fair (w : world V) : Prop :=
  (forall k l, Permutation (refreshed w k l) l) /\ (forall k l, Permutation (written w k l) l).
Definition reflexive : Prop := forall v, changed v v = false.
Definition valid (o : op V) : Prop :=
  match o with Set_ n _ => n < size g | Commit rs => Forall (fun r => r < size g) rs end.

Definition reach (w : world V) (s : st V) : Prop :=
  exists iv ops, starts iv /\ Forall valid ops /\ run changed g w ops (init iv) = Some s.

(** What the reader of node [n] shows is what is to be computed from what those of its
    parents show, unless that is rejected. *)
Definition agrees (n : nat) (s : st V) : Prop :=
  forall v, fn g n (map (last s) (parents g n)) = Some v -> changed v (last s n) = false.
Definition inner (n : nat) : Prop := exists b, kind_of g n = Inner b.

(** [m] is [n], or a parent of it, or a parent of one of these, ... *)
Inductive above (m : nat) : nat -> Prop :=
| Self : above m m
| Up n p : In p (parents g n) -> above m p -> above m n.

(** [m] has a value that was never committed. *)
Definition uncommitted (m : nat) (l : list event) : Prop :=
  exists l1 l2, l = l1 ++ EPush m :: l2 /\ ~ In (ESent m) l1.
(** A parent of [m] sent a value down, then something threw, and [m] was not reached since. *)
Definition passed_over (m : nat) (l : list event) : Prop :=
  exists p l1 l2, In p (parents g m) /\ l = l1 ++ ESent p :: l2 /\ ~ In (EDown m) l1 /\
    exists x, In (EFail x) l1.

Definition calls (l : list event) : list nat :=
  flat_map (fun e => match e with ECall n => [n] | _ => [] end) l.
Definition end_of (o : outcome V) : option (st V) :=
  match o with Done s | Threw s => Some s | OutOfFuel => None end.
End Graph.
