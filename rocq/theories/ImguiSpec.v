(** C80: what the user means. *)
From Coq Require Import List Arith Bool.
From Verif Require Import TodoModel ImguiModel.
Import ListNotations.

(** The items drawn, from number [i] on: without those deleted, with those checked changed. *)
Fixpoint kept (f : frame) (i : nat) (m : model) : model :=
  match m with
  | [] => []
  | x :: r =>
      (if deleted f i then [] else [if checked f i then Item (negb (done x)) (what x) else x]) ++ kept f (S i) r
  end.
(** What was entered is put in front. *)
Definition meant (m : model) (f : frame) : model :=
  match entered f with Some (c :: t) => Item false (c :: t) :: kept f 0 m | _ => kept f 0 m end.

Definition clicked (f : frame) (i : nat) : bool := checked f i || deleted f i.
(** Nothing is clicked together with a text that is entered, and nothing below an item that is deleted. *)
Definition one_by_one (f : frame) (m : model) : Prop :=
  (match entered f with Some (_ :: _) => forall i, i < length m -> clicked f i = false | _ => True end) /\
  (forall i j, i < j < length m -> deleted f i = true -> clicked f j = false).
