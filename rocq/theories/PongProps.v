(** C62: the example game autopong. *)
From Coq Require Import List QArith Lqa Lia Arith Bool.
From Verif Require Import PongModel PongSpec PongSegments PongProofs PongCross PongWalls.
Import ListNotations.
Open Scope Q_scope.

(** ** The distance of two segments
    The number that is computed is the square of the distance of a point of the first
    and a point of the second. *)
Theorem C62_distance : forall p1 p2 q1 q2, 0 < dist2 q1 q2 ->
  a_distance (segment_squared_distance p1 p2 q1 q2) p1 p2 q1 q2.
Proof. exact distance_sound. Qed.
Print Assumptions C62_distance.

(** Of the points nearest to each other, when coordinates are whole hundredths or coarser *)
Theorem C62_distance_least : forall k p1 p2 q1 q2, (k <= 100)%positive ->
  on_grid k p1 -> on_grid k p2 -> on_grid k q1 -> on_grid k q2 -> 0 < dist2 q1 q2 ->
  least_distance (segment_squared_distance p1 p2 q1 q2) p1 p2 q1 q2.
Proof. exact distance_exact. Qed.
Print Assumptions C62_distance_least.

Example C62_ex_distance :
  segment_squared_distance (P 0 0) (P 4 4) (P 5 0) (P 9 (1 # 2)) == 25 # 2.
Proof. reflexivity. Qed.
Example C62_ex_distance_cross : segment_squared_distance (P 0 0) (P 4 4) (P 0 4) (P 4 0) == 0.
Proof. reflexivity. Qed.
Example C62_ex_distance_parallel : segment_squared_distance (P 0 0) (P 4 0) (P 6 3) (P 9 3) == 13.
Proof. reflexivity. Qed.

(** Of tiny segments it is not the least: these cross and are taken to be 54 apart. *)
Theorem C62_distance_refuted : exists p1 p2 q1 q2, 0 < dist2 q1 q2 /\
  segment_squared_distance p1 p2 q1 q2 == 54 * 54 /\
  a_distance 0 p1 p2 q1 q2 /\ ~ least_distance (segment_squared_distance p1 p2 q1 q2) p1 p2 q1 q2.
Proof.
  exists (P 0 0), (P (1 # 1000000) (1 # 1000000)), (P (-54) 0), (P 54 0).
  split; [reflexivity|]. split; [reflexivity|].
  assert (A : dist2 (along (P 0 0) (P (1 # 1000000) (1 # 1000000)) 0) (along (P (-54) 0) (P 54 0) (1 # 2)) == 0) by reflexivity.
  split.
  - exists 0, (1 # 2). split; [split; lra|]. split; [split; lra|]. symmetry. exact A.
  - intros [_ L]. specialize (L 0 (1 # 2)). rewrite A in L.
    assert (L' : 54 * 54 <= 0) by (apply L; split; lra). revert L'. apply Qlt_not_le. reflexivity.
Qed.
Print Assumptions C62_distance_refuted.

(** ** The paddle
    stays between the sides of the window and goes, with the mouse, to the place nearest
    to where it is taken.  Nothing else moves it, and it moves nothing else. *)
Theorem C62_paddle : forall l, 0 <= paddle_x (play l) /\ paddle_x (play l) <= 700.
Proof. exact paddle. Qed.
Print Assumptions C62_paddle.
Theorem C62_mouse : forall g delta, let g' := update g (Paddle_move delta) in
  nearest (paddle_x g + delta / 2) (paddle_x g') /\
  ball g' = ball g /\ ball_v g' = ball_v g /\ score g' = score g /\ max_score g' = max_score g.
Proof. exact mouse. Qed.
Print Assumptions C62_mouse.
Theorem C62_mouse_only : forall g delta rnd, paddle_x (update g (Tick delta rnd)) = paddle_x g.
Proof. exact still. Qed.
Print Assumptions C62_mouse_only.

Example C62_ex_paddle : map (fun d => paddle_x (play [Paddle_move d])) [100; -2000; 2000]
  = [paddle_x (play [Paddle_move 100]); 0; 700] /\ paddle_x (play [Paddle_move 100]) == 400.
Proof. split; reflexivity. Qed.

(** ** The ball
    In both directions it moves at the same speed, a tenth faster for every point. *)
Theorem C62_speed : forall l, plus_or_minus (x (ball_v (play l))) (speed (score (play l))) /\
  plus_or_minus (y (ball_v (play l))) (speed (score (play l))).
Proof. exact speeds. Qed.
Print Assumptions C62_speed.

(** Away from the paddle and above the ground it moves straight ahead. *)
Theorem C62_flies : forall l delta rnd, let g := play l in
  far g delta -> y (ball_v g) < 0 /\ 24 < y (ahead g delta) \/ y (ahead g delta) < 584 ->
  let g' := update g (Tick delta rnd) in
  ball g' = ahead g delta /\ score g' = score g /\ max_score g' = max_score g /\
  (between_walls (ahead g delta) -> x (ball_v g') = x (ball_v g) /\ y (ball_v g') = y (ball_v g)).
Proof. exact flies. Qed.
Print Assumptions C62_flies.

(** A point is won when, on the way, the ball came near the paddle; it is where it was,
    and goes up. *)
Theorem C62_bounces : forall g delta rnd, score (update g (Tick delta rnd)) = S (score g) ->
  let g' := update g (Tick delta rnd) in
  ball g' = ball g /\ y (ball_v g') < 0 /\ bounce_anim g' = 1 /\
  (24 < x (ahead g delta) -> x (ahead g delta) < 776 -> x (ball_v g') == (11 # 10) * x (ball_v g)) /\
  exists s t, within s /\ within t /\
    dist2 (along (ball g) (ahead g delta) s) (along (left_end g) (right_end g) t) < 16.
Proof. exact bounces. Qed.
Print Assumptions C62_bounces.

(** No ball passes through the paddle, however fast it is.  A tick takes at least a
    thousandth of a millisecond. *)
Theorem C62_crossing : forall l delta rnd s,
  let g := play l in let p := along (ball g) (ahead g delta) s in
  0 < y (ball_v g) -> 1 # 1000 <= delta -> within s ->
  y p == 550 -> paddle_x g - 4 <= x p -> x p <= paddle_x g + 104 ->
  score (update g (Tick delta rnd)) = S (score g).
Proof. exact crossing. Qed.
Print Assumptions C62_crossing.

(** A ball that gets to the ground is lost. *)
Theorem C62_falls : forall g delta rnd, far g delta -> within rnd -> 0 < y (ball_v g) -> 584 <= y (ahead g delta) ->
  let g' := update g (Tick delta rnd) in
  score g' = 0%nat /\ 20 <= x (ball g') /\ x (ball g') <= 740 /\ y (ball g') == 40 /\
  ball_v g' = P (1 # 5) (1 # 5) /\ death_anim g' = 1 /\
  (score g <= max_score g')%nat /\ (max_score g <= max_score g')%nat.
Proof. exact falls. Qed.
Print Assumptions C62_falls.

(** The best score is the greatest that was lost. *)
Theorem C62_best : forall l, max_score (play l) = list_max (lost (scores l)).
Proof. exact best. Qed.
Print Assumptions C62_best.

(** While no tick takes the ball further than [m], it is never further than [m] beyond the
    walls, and beyond them it comes back. *)
Theorem C62_walls : forall m l, 4 <= m -> m <= 500 -> smooth m l ->
  let b := ball (play l) in
  24 - m <= x b /\ x b <= 776 + m /\ 24 - m <= y b /\ y b < 584.
Proof. exact in_walls. Qed.
Print Assumptions C62_walls.
Theorem C62_comes_back : forall m l, 4 <= m -> m <= 500 -> smooth m l ->
  let g := play l in
  (x (ball g) <= 24 -> 0 < x (ball_v g)) /\ (776 <= x (ball g) -> x (ball_v g) < 0) /\
  (y (ball g) <= 24 -> 0 < y (ball_v g)).
Proof. exact comes_back. Qed.
Print Assumptions C62_comes_back.

(** The lights are between off and on, and fade in a second and in half a second. *)
Theorem C62_lights : forall l, Forall forwards l ->
  within (death_anim (play l)) /\ within (bounce_anim (play l)).
Proof. exact lights. Qed.
Print Assumptions C62_lights.
Theorem C62_fading : forall p l, Forall forwards (p ++ l) ->
  (relit death_anim p l \/ fades (1 # 1000) (death_anim (play p)) (elapsed l) (death_anim (play (p ++ l)))) /\
  (relit bounce_anim p l \/ fades (2 # 1000) (bounce_anim (play p)) (elapsed l) (bounce_anim (play (p ++ l)))).
Proof. exact fading. Qed.
Print Assumptions C62_fading.
(** They are only on after a point, or after a ball got to the ground; how bright they are
    says how long ago. *)
Theorem C62_lit : forall l, Forall forwards l ->
  (0 < bounce_anim (play l) -> exists l1 a l2, l = l1 ++ a :: l2 /\
     score (play (l1 ++ [a])) = S (score (play l1)) /\ bounce_anim (play l) == 1 - elapsed l2 * (2 # 1000)) /\
  (0 < death_anim (play l) -> exists l1 delta rnd l2, l = l1 ++ Tick delta rnd :: l2 /\
     0 < y (ball_v (play l1)) /\ 584 <= y (ahead (play l1) delta) /\
     death_anim (play l) == 1 - elapsed l2 * (1 # 1000)).
Proof. exact lit_by. Qed.
Print Assumptions C62_lit.

Local Ltac calc := cbv zeta; unfold within; repeat match goal with |- _ /\ _ => split end;
  vm_compute; first [reflexivity | discriminate].

(** A game: to the wall, down to the paddle, which waits for the ball, up to the top, down
    past it *)
Definition game : list action :=
  [Paddle_move 500; Tick 1880 0; Tick 700 0;   (* a point *)
   Tick 1800 0; Tick 2200 0; Tick 400 (1 # 2)].
Definition num (n : nat) : Q := inject_Z (Z.of_nat n).
Definition seen (l : list action) : list (Q * Q * Q * Q) :=
  map (fun g => (num (score g), num (max_score g), Qred (x (ball g)), Qred (y (ball g)))) (states l).
Example C62_ex_game : seen game =
  [(0, 0, 400, 40); (0, 0, 400, 40); (0, 0, 776, 416); (1, 0, 776, 416); (1, 0, 380, 20);
   (1, 0, -104, 504); (0, 1, 380, 40)].
Proof. vm_compute. reflexivity. Qed.
Lemma ex_smooth_game : smooth 500 game.
Proof.
  intros p a r E. unfold game in E.
  repeat (destruct p as [|? p]; [injection E as <- E; vm_compute; repeat split; discriminate|
    injection E as <- E]). destruct p; discriminate.
Qed.
(** Crossing the paddle, which is at 600, 642 from the left *)
Example C62_ex_crossing : let g := play (firstn 2 game) in let s := 134 # 140 in
  0 < y (ball_v g) /\ y (along (ball g) (ahead g 700) s) == 550 /\
  x (along (ball g) (ahead g 700) s) == 642 /\ paddle_x g == 600 /\
  score (update g (Tick 700 0)) = S (score g).
Proof. calc. Qed.
Example C62_ex_speed : x (ball_v (play (firstn 3 game))) == - (22 # 100) /\ y (ball_v (play (firstn 3 game))) == - (22 # 100).
Proof. calc. Qed.
Example C62_ex_far : far start 100.
Proof.
  intros s t [S0 S1] [T0 T1]. unfold dist2, along, ahead, left_end, right_end, start, ball_init_v, padding, window_width. cbn [x y ball ball_v paddle_x].
  match goal with |- 16 <= ?a * ?a + ?b * ?b => assert (A : 0 <= a * a) by apply square_nonneg; assert (B : b <= -5) by lra end.
  match goal with |- 16 <= ?a * ?a + ?b * ?b => assert (25 <= b * b) by nra end. lra.
Qed.
Example C62_ex_falls : let g := play (firstn 5 game) in
  0 < y (ball_v g) /\ 584 <= y (ahead g 400) /\ score g = 1%nat /\ max_score (update g (Tick 400 (1 # 2))) = 1%nat.
Proof. calc. Qed.
Example C62_ex_lights : bounce_anim (play (firstn 3 game)) = 1 /\ bounce_anim (play (firstn 4 game)) == 0 /\
  bounce_anim (play (firstn 3 game ++ [Tick 100 0])) == 4 # 5 /\ death_anim (play game) = 1.
Proof. calc. Qed.

(** ** What is not so
    With ticks of nearly three seconds the ball is shown outside of the window. *)
Theorem C62_walls_refuted : exists l, Forall (fun a => match a with Tick d r => 0 <= d /\ d <= 3000 /\ within r | _ => True end) l /\
  850 < x (ball (play l)).
Proof.
  exists [Tick 2700 0]. split; [|reflexivity]. repeat constructor; discriminate.
Qed.
Print Assumptions C62_walls_refuted.
(** A tick that is short enough takes the ball through the paddle: it crosses the middle
    of it and wins no point. *)
Theorem C62_crossing_refuted : exists l delta rnd s,
  let g := play l in let p := along (ball g) (ahead g delta) s in
  0 < y (ball_v g) /\ 0 < delta /\ within s /\ y p == 550 /\ x p == paddle_x g + 50 /\
  score (update g (Tick delta rnd)) = score g /\ 550 < y (ball (update g (Tick delta rnd))).
Proof.
  exists [Tick 1800 0; Tick 100 0; Tick 650 0; Paddle_move 500], (1 # 200000), 0, 0.
  calc.
Qed.
Print Assumptions C62_crossing_refuted.
