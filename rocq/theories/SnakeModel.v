(** Model of the example program "snake"
      /repo/example/snake/model.hpp, model.cpp      (the game)
      /repo/example/snake/qml/qmodel.cpp            (what the user interface shows)

    Simplifications: numbers do not overflow (positions stay on the board and next to
    it); the random number generator [m.gen] with the distribution [m.dist] is any
    sequence of numbers, of which the state keeps how many were drawn.  Not modelled:
    [wrap] (model.cpp:15-23, not used), rowCount and data of SnakeBody (they only read). *)
From Coq Require Import List ZArith Bool.
Import ListNotations.
Local Open Scope Z_scope.

(** model.hpp:23-36 *)
Inductive action := GoLeft | GoRight | GoUp | GoDown | Reset_ | Tick.
(** model.hpp:38-42; std::pair compares both components *)
Definition point := (Z * Z)%type.
Definition same (p q : point) : bool := (fst p =? fst q) && (snd p =? snd q).
(** model.hpp:44-50 *)
Inductive direction := DLeft | DUp | DRight | DDown.

(** model.hpp:52-67 *)
Record game := Game { body : list point; dir : direction; apple : point; over : bool }.
Definition width : Z := 25.
Definition height : Z := 25.
(** model.hpp:69-75; [drawn]: how many random numbers were drawn *)
Record app := App { drawn : nat; the : game }.

Section Rnd.
(** The numbers that the generator will give. *)
Variable rnd : nat -> Z.

(** model.cpp:25-51 *)
Definition left (d : direction) : direction :=
  match d with DUp | DDown => DLeft | _ => d end.
Definition right (d : direction) : direction :=
  match d with DUp | DDown => DRight | _ => d end.
Definition up (d : direction) : direction :=
  match d with DLeft | DRight => DUp | _ => d end.
Definition down (d : direction) : direction :=
  match d with DLeft | DRight => DDown | _ => d end.

(** model.cpp:53-67 *)
Definition forward (p : point) (d : direction) : point :=
  match d with
  | DLeft => (fst p - 1, snd p)
  | DUp => (fst p, snd p - 1)
  | DRight => (fst p + 1, snd p)
  | DDown => (fst p, snd p + 1)
  end.

(** std::rotate(begin, end - 1, end), the last element [z] comes first *)
Definition rotate (l : list point) (z : point) : list point := z :: removelast l.
(** body[0] = head *)
Definition set_first (p : point) (l : list point) : list point :=
  match l with [] => [] | _ :: r => p :: r end.
(** model.cpp:69-75; [None]: front() of an empty vector *)
Definition move_body (l : list point) (d : direction) : option (list point) :=
  match l with
  | [] => None
  | h :: _ => Some (set_first (forward h d) (rotate l (last l h)))
  end.

(** model.cpp:77-81 *)
Definition in_bounds (p : point) : bool :=
  (0 <=? fst p) && (fst p <? width) && (0 <=? snd p) && (snd p <? height).

(** model.cpp:83-94, with random_apple_pos (model.hpp:77-81): elements of a braced list
    are evaluated in order *)
Definition apple_at (n : nat) : point := (rnd n, rnd (S n)).
Definition make_game (n : nat) : game :=
  let h := (width / 2, height / 2) in
  Game [h; (fst h - 1, snd h); (fst h - 2, snd h)] DRight (apple_at n) false.
(** model.cpp:98-104 *)
Definition make_initial : app := App 2 (make_game 0).

Definition set_dir (d : direction) (m : app) : app :=
  App (drawn m) (Game (body (the m)) d (apple (the m)) (over (the m))).

(** model.cpp:106-151; [None]: back() or front() of an empty vector *)
Definition update (m : app) (a : action) : option app :=
  let g := the m in
  match a with
  | GoLeft => Some (set_dir (left (dir g)) m)
  | GoRight => Some (set_dir (right (dir g)) m)
  | GoUp => Some (set_dir (up (dir g)) m)
  | GoDown => Some (set_dir (down (dir g)) m)
  | Tick =>
      match body g, move_body (body g) (dir g) with
      | z :: _, Some (h :: r) =>
          let prev_back := last (body g) z in
          if existsb (same h) r || negb (in_bounds h)
          then Some (App (drawn m) (Game (body g) (dir g) (apple g) true))
          else if same prev_back (apple g)
          then Some (App (2 + drawn m) (Game ((h :: r) ++ [prev_back]) (dir g) (apple_at (drawn m)) (over g)))
          else Some (App (drawn m) (Game (h :: r) (dir g) (apple g) (over g)))
      | _, _ => None
      end
  | Reset_ => Some (App (2 + drawn m) (make_game (drawn m)))
  end.
Fixpoint updates (m : app) (l : list action) : option app :=
  match l with
  | [] => Some m
  | a :: r => match update m a with Some m' => updates m' r | None => None end
  end.
End Rnd.

(** * What is shown, qmodel.cpp *)
Record view := View { v_body : list point; v_apple : point; v_over : bool }.
(** A list model that is reset, applePositionChanged, overChanged *)
Inductive signal := BodyReset | AppleChanged (p : point) | OverChanged.
(** qmodel.hpp:39, 81-82: a QPoint is (0, 0) at first *)
Definition blank : view := View [] (0, 0) false.
Fixpoint same_body (l k : list point) : bool :=
  match l, k with
  | [], [] => true
  | p :: l', q :: k' => same p q && same_body l' k'
  | _, _ => false
  end.
(** qmodel.cpp:30-37, 54-68 *)
Definition show (v : view) (g : game) : view * list signal :=
  let (b, e1) := if same_body (v_body v) (body g) then (v_body v, []) else (body g, [BodyReset]) in
  let (a, e2) := if same (v_apple v) (apple g) then (v_apple v, []) else (apple g, [AppleChanged (apple g)]) in
  let (o, e3) := if Bool.eqb (v_over v) (over g) then (v_over v, []) else (over g, [OverChanged]) in
  (View b a o, e1 ++ e2 ++ e3).
