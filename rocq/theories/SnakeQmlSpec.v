(** C82: vocabulary. *)
From Coq Require Import List.
From Verif Require Import SnakeModel SnakeQmlModel.
Import ListNotations.

(** What is asked of the game by all that happened. *)
Definition asks (l : label) : list action :=
  match l with
  | LTimer => [Tick]
  | LKey KLeft => [GoLeft] | LKey KRight => [GoRight] | LKey KUp => [GoUp] | LKey KDown => [GoDown]
  | LAccept => [Reset_]
  | LKey KOther | LReject | LTake => []
  end.
Definition asked (ls : list label) : list action := flat_map asks ls.
