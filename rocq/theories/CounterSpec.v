(** C79: what the counter should print. *)
From Coq Require Import List Ascii ZArith.
Import ListNotations.
Local Open Scope Z_scope.

(** The number after a character. *)
Definition after (v : Z) (c : ascii) : Z :=
  if Ascii.eqb c "+" then v + 1 else if Ascii.eqb c "-" then v - 1 else if Ascii.eqb c "." then 0 else v.
(** The numbers after every character of the input, starting with [v]. *)
Fixpoint numbers (v : Z) (l : list ascii) : list Z :=
  match l with [] => [] | c :: r => after v c :: numbers (after v c) r end.
(** A list without the elements that are equal to the one before, the first one's being [v]. *)
Fixpoint changes (v : Z) (l : list Z) : list Z :=
  match l with
  | [] => []
  | x :: r => if Z.eqb x v then changes x r else x :: changes x r
  end.
