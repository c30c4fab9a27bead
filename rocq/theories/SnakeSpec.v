(** Vocabulary for the properties of the game of snake. *)
From Coq Require Import List ZArith Bool.
From Verif Require Import SnakeModel.
Import ListNotations.
Local Open Scope Z_scope.

Definition on_board (p : point) : Prop := 0 <= fst p < 25 /\ 0 <= snd p < 25.
Definition next_to (p q : point) : Prop := Z.abs (fst p - fst q) + Z.abs (snd p - snd q) = 1.
Fixpoint chain (l : list point) : Prop :=
  match l with p :: (q :: _) as r => next_to p q /\ chain r | _ => True end.
Definition head (g : game) : option point := hd_error (body g).

(** One step in a direction; x grows to the right, y downwards. *)
Definition ahead (d : direction) (p : point) : point :=
  match d, p with
  | DLeft, (x, y) => (x - 1, y) | DRight, (x, y) => (x + 1, y)
  | DUp, (x, y) => (x, y - 1) | DDown, (x, y) => (x, y + 1)
  end.
Definition opposite (d : direction) : direction :=
  match d with DLeft => DRight | DRight => DLeft | DUp => DDown | DDown => DUp end.
Definition wanted (a : action) : option direction :=
  match a with
  | GoLeft => Some DLeft | GoRight => Some DRight | GoUp => Some DUp | GoDown => Some DDown
  | _ => None
  end.

(** The snake without the end of its tail, which will have moved away *)
Definition stays (g : game) (p : point) : Prop := exists l z, body g = l ++ [z] /\ In p l.
(** The next step leads off the board or into the snake. *)
Definition blocked (g : game) : Prop :=
  exists h, head g = Some h /\ (~ on_board (ahead (dir g) h) \/ stays g (ahead (dir g) h)).
(** The end of the tail is on the apple. *)
Definition on_apple (g : game) : Prop := exists l, body g = l ++ [apple g].

Section Run.
Variable rnd : nat -> Z.
(** The state after the actions [l] *)
Definition after (l : list action) : option app := updates rnd (make_initial rnd) l.

(** Where the head was since the game began, newest first, told from the actions and from
    where it was seen after each of them; [t]: so far. *)
Fixpoint trail (t : list point) (m : app) (l : list action) : list point :=
  match l with
  | [] => t
  | a :: r =>
      match update rnd m a with
      | Some m' =>
          let t' :=
            match a, head (the m) , head (the m') with
            | Reset_, _, _ => [(12, 12); (11, 12); (10, 12)]
            | _, Some h, Some h' => if same h h' then t else h' :: t
            | _, _, _ => t
            end in
          trail t' m' r
      | None => t
      end
  end.
End Run.

(** What a user interface shows that is told of every state, from the beginning. *)
Fixpoint shown (v : view) (gs : list game) : view * list signal :=
  match gs with
  | [] => (v, [])
  | g :: r => let (v1, e1) := show v g in let (v2, e2) := shown v1 r in (v2, e1 ++ e2)
  end.
