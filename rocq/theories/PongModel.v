(** Model of the example game autopong
      /repo/example/autopong/autopong.hpp
      /repo/example/autopong/autopong.cpp

    Simplifications:
    - Numbers are rational and exact instead of floating point.
    - std::rand() / RAND_MAX is any number from 0 to 1, given with the tick.
    - The drawing and the event loop (sdl2/main.cpp) are not modelled. *)
From Coq Require Import List QArith.
Import ListNotations.
Open Scope Q_scope.

Definition ltb (a b : Q) : bool := negb (Qle_bool b a).
Definition qabs (a : Q) : Q := if ltb a 0 then - a else a.
Definition qmax (a b : Q) : Q := if ltb a b then b else a.        (* std::max *)
Definition qmin (a b : Q) : Q := if ltb b a then b else a.        (* std::min *)

(** std::complex, autopong.hpp:21-27 *)
Record point := P { x : Q; y : Q }.
Definition plus (a b : point) : point := P (x a + x b) (y a + y b).
Definition minus (a b : point) : point := P (x a - x b) (y a - y b).
Definition times (a : point) (k : Q) : point := P (x a * k) (y a * k).
Definition dot (a b : point) : Q := x a * x b + y a * y b.
Definition norm (a : point) : Q := x a * x a + y a * y a.

(** autopong.cpp:21 *)
Definition epsilon : Q := 1 # 100000000.

(** autopong.cpp:27-47: numerators and denominators *)
Definition stage1 (a b c d e : Q) : Q * Q * (Q * Q) :=
  let D := a * c - b * b in
  if ltb D epsilon then (0, 1, (e, c))
  else
    let sN := b * e - c * d in
    let tN := a * e - b * d in
    if ltb sN 0 then (0, D, (e, c))
    else if ltb D sN then (D, D, (e + b, c))
    else (sN, D, (tN, D)).
(** autopong.cpp:48-68 *)
Definition stage2 (a b d : Q) (n : Q * Q * (Q * Q)) : Q * Q * (Q * Q) :=
  let '(sN, sD, (tN, tD)) := n in
  if ltb tN 0 then
    (if ltb (- d) 0 then (0, sD, (0, tD))
     else if ltb a (- d) then (sD, sD, (0, tD))
     else (- d, a, (0, tD)))
  else if ltb tD tN then
    (if ltb (- d + b) 0 then (0, sD, (tD, tD))
     else if ltb a (- d + b) then (sD, sD, (tD, tD))
     else (- d + b, a, (tD, tD)))
  else n.
(** autopong.cpp:69-70 *)
Definition quotient (n d : Q) : Q := if ltb (qabs n) epsilon then 0 else n / d.
(** autopong.cpp:19-73 *)
Definition segment_squared_distance (l1p1 l1p2 l2p1 l2p2 : point) : Q :=
  let u := minus l1p2 l1p1 in
  let v := minus l2p2 l2p1 in
  let w := minus l1p1 l2p1 in
  let '(sN, sD, (tN, tD)) :=
    stage2 (dot u u) (dot u v) (dot u w) (stage1 (dot u u) (dot u v) (dot v v) (dot u w) (dot v w)) in
  norm (minus (plus w (times u (quotient sN sD))) (times v (quotient tN tD))).

(** autopong.hpp:29-42 *)
Definition window_width : Q := 800.
Definition window_height : Q := 600.
Definition padding : Q := 20.
Definition ball_r : Q := 4.
Definition ball_init_v : point := P (1 # 5) (1 # 5).
Definition ball_a : Q := 11 # 10.
Definition paddle_width : Q := 100.
Definition paddle_height : Q := 10.
Definition paddle_y : Q := window_height - 2 * padding - paddle_height.
Definition paddle_sens : Q := 1 # 2.
Definition bounce_anim_speed : Q := 2 # 1000.
Definition death_anim_speed : Q := 1 # 1000.

(** autopong.hpp:44-53 *)
Record model := M {
  score : nat;
  max_score : nat;
  ball : point;
  ball_v : point;
  paddle_x : Q;
  death_anim : Q;
  bounce_anim : Q }.
Definition start : model :=
  M 0 0 (P (window_width / 2) (padding * 2)) ball_init_v (window_width / 2 - paddle_width / 2) 0 0.

(** autopong.hpp:55-65; [rnd]: the random number, should it be needed *)
Inductive action :=
| Paddle_move (delta : Q)
| Tick (delta rnd : Q).

(** autopong.cpp:81-87 *)
Definition move (g : model) (delta : Q) : model :=
  M (score g) (max_score g) (ball g) (ball_v g)
    (qmax 0 (qmin (window_width - paddle_width) (paddle_x g + delta * paddle_sens)))
    (death_anim g) (bounce_anim g).
(** autopong.cpp:88-125.  The velocity after the walls, 94-99 *)
Definition walls (v b : point) : point :=
  let v1 :=
    if orb (andb (ltb (x v) 0) (Qle_bool (x b - ball_r) padding))
           (andb (ltb 0 (x v)) (Qle_bool (window_width - padding) (x b + ball_r)))
    then P (- x v) (y v) else v in
  if andb (ltb (y v1) 0) (Qle_bool (y b - ball_r) padding)
  then P (x v1) (- y v1) else v1.
(** 100-107: does the ball hit the paddle on its way to [b]? *)
Definition hits (g : model) (v b : point) : bool :=
  andb (ltb 0 (y v))
       (ltb (segment_squared_distance (ball g) b
               (P (paddle_x g - ball_r) paddle_y)
               (P (paddle_x g + paddle_width + ball_r) paddle_y))
            (ball_r * ball_r)).
Definition tick (g : model) (delta rnd : Q) : model :=
  let b := plus (ball g) (times (ball_v g) delta) in
  let da := qmax 0 (death_anim g - delta * death_anim_speed) in
  let ba := qmax 0 (bounce_anim g - delta * bounce_anim_speed) in
  let v := walls (ball_v g) b in
  if hits g v b then
    M (S (score g)) (max_score g) (ball g) (times (P (x v) (- y v)) ball_a) (paddle_x g) da 1
  else if andb (ltb 0 (y v)) (Qle_bool (window_height - padding) (y b - ball_r)) then
    M 0 (Nat.max (max_score g) (score g))
      (P (padding + rnd * (window_width - padding * 4)) (padding * 2)) ball_init_v (paddle_x g) 1 ba
  else
    M (score g) (max_score g) b v (paddle_x g) da ba.
Definition update (g : model) (a : action) : model :=
  match a with
  | Paddle_move delta => move g delta
  | Tick delta rnd => tick g delta rnd
  end.
Definition play (l : list action) : model := fold_left update l start.
