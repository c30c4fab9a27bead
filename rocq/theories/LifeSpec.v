(** What the lifetime of a store should be: nothing of it is used when it is gone.
    Said of what happened, newest first. *)
From Coq Require Import List Arith Bool.
Import ListNotations.
From Verif Require Import LifeModel.

Section Spec.
Context {M A W : Type}.
Implicit Types (l : list (event M A)) (r : res M A W).

(** The store was destroyed ... *)
Definition gone l := exists i n, In (EFree i n) l.
(** ... while its own loop was running; ... *)
Definition gone_inside l := exists n, In (EFree true n) l.
(** ... while functions that it had posted to the queue were waiting. *)
Definition gone_waiting l := exists i n, In (EFree i (S n)) l.

(** Code of the store is run: the reducer, an effect or a watcher is called. *)
Definition of_store (e : event M A) : Prop :=
  match e with EReduce _ | EEffect | ESee _ _ => True | _ => False end.

(** The store is destroyed once and then nothing of it is run any more. *)
Definition dead_after l :=
  forall l1 i n l2, l = l1 ++ EFree i n :: l2 ->
    (forall e, In e l1 -> ~ of_store e) /\ ~ gone l1 /\ ~ gone l2.

(** Where an execution ended, in whatever way *)
Definition ended r (s : st M A W) : Prop :=
  (exists f, r = Done f s) \/ r = Thrown s \/ exists w, r = Freed w s.
End Spec.
