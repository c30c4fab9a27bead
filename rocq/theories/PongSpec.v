(** What is said of the game: distances between points of segments, and what the player
    sees. *)
From Coq Require Import List QArith.
From Verif Require Import PongModel.
Import ListNotations.
Open Scope Q_scope.

(** ** Segments *)
Definition along (a b : point) (t : Q) : point := P (x a + t * (x b - x a)) (y a + t * (y b - y a)).
Definition dist2 (p q : point) : Q := (x p - x q) * (x p - x q) + (y p - y q) * (y p - y q).
Definition within (t : Q) : Prop := 0 <= t /\ t <= 1.
(** [d] is the square of a distance between points of the segments from [a] to [b] and
    from [c] to [e]; of the least one. *)
Definition a_distance (d : Q) (a b c e : point) : Prop :=
  exists s t, within s /\ within t /\ d == dist2 (along a b s) (along c e t).
Definition least_distance (d : Q) (a b c e : point) : Prop :=
  a_distance d a b c e /\
  forall s t, within s -> within t -> d <= dist2 (along a b s) (along c e t).
(** Coordinates are multiples of 1/k *)
Definition on_grid (k : positive) (p : point) : Prop :=
  exists i j : Z, x p == i # k /\ y p == j # k.

(** ** The game *)
Definition states (l : list action) : list model :=
  map (fun n => play (firstn n l)) (seq 0 (S (length l))).
(** The ends of the paddle, as the ball sees it: half a ball is added on both sides. *)
Definition left_end (g : model) : point := P (paddle_x g - 4) 550.
Definition right_end (g : model) : point := P (paddle_x g + 104) 550.
(** Where the ball would be after [delta] if there was nothing in its way *)
Definition ahead (g : model) (delta : Q) : point :=
  P (x (ball g) + x (ball_v g) * delta) (y (ball g) + y (ball_v g) * delta).

(** The scores that were lost, each when a lower one followed *)
Fixpoint lost (l : list nat) : list nat :=
  match l with
  | a :: ((b :: _) as r) => if Nat.ltb b a then a :: lost r else lost r
  | _ => []
  end.

(** Time does not run backwards, random numbers are from 0 to 1, and no tick takes the
    ball further than [m] in either direction. *)
Definition tick_ok (m : Q) (g : model) (a : action) : Prop :=
  match a with
  | Paddle_move _ => True
  | Tick delta rnd => 0 <= delta /\ within rnd /\
      x (ball_v g) * delta <= m /\ - m <= x (ball_v g) * delta /\
      y (ball_v g) * delta <= m /\ - m <= y (ball_v g) * delta
  end.
Definition smooth (m : Q) (l : list action) : Prop :=
  forall p a r, l = p ++ a :: r -> tick_ok m (play p) a.

(** The speed in each direction at a score *)
Fixpoint speed (n : nat) : Q := match n with O => 1 # 5 | S m => (11 # 10) * speed m end.
Definition plus_or_minus (v k : Q) : Prop := v == k \/ v == - k.

(** On the way of a tick the ball stays away from the paddle. *)
Definition far (g : model) (delta : Q) : Prop :=
  forall s t, within s -> within t ->
    16 <= dist2 (along (ball g) (ahead g delta) s) (along (left_end g) (right_end g) t).
Definition between_walls (b : point) : Prop := 24 < x b /\ x b < 776 /\ 24 < y b.

(** Time does not run backwards. *)
Definition forwards (a : action) : Prop := match a with Tick delta _ => 0 <= delta | _ => True end.
Fixpoint elapsed (l : list action) : Q :=
  match l with
  | [] => 0
  | Tick delta _ :: r => delta + elapsed r
  | Paddle_move _ :: r => 0 + elapsed r
  end.
(** A light was at [d0]; [t] later it is at [d], with [k] lost in every millisecond. *)
Definition fades (k d0 t d : Q) : Prop :=
  (d == d0 - t * k /\ 0 <= d) \/ (d == 0 /\ d0 <= t * k).
(** It was switched on after [p], within [l]. *)
Definition relit (f : model -> Q) (p l : list action) : Prop :=
  exists l1 a l2, l = l1 ++ a :: l2 /\ f (play (p ++ l1 ++ [a])) = 1.

(** [q] is the place for the paddle nearest to [t] *)
Definition nearest (t q : Q) : Prop :=
  (0 <= q /\ q <= 700) /\
  forall r, 0 <= r -> r <= 700 -> (q - t) * (q - t) <= (r - t) * (r - t).
