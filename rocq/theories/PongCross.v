From Coq Require Import List QArith Lqa Lia Arith Bool.
From Verif Require Import PongModel PongSpec PongSegments PongProofs.
Import ListNotations.
Open Scope Q_scope.

(** ** Segments that cross *)
Lemma stage1_proper : forall a b c d e D, D == a * c - b * b -> epsilon <= D ->
  0 <= b * e - c * d -> b * e - c * d <= D ->
  stage1 a b c d e = (b * e - c * d, a * c - b * b, (a * e - b * d, a * c - b * b)).
Proof.
  intros a b c d e D E H1 H2 H3. unfold stage1.
  replace (ltb (a * c - b * b) epsilon) with false by (symmetry; apply ltb_false; lra).
  replace (ltb (b * e - c * d) 0) with false by (symmetry; apply ltb_false; lra).
  replace (ltb (a * c - b * b) (b * e - c * d)) with false by (symmetry; apply ltb_false; lra). reflexivity.
Qed.
Lemma quotient_near : forall n m q, 0 < m -> n == m * q -> 0 <= q ->
  exists r, quotient n m == q - r /\ 0 <= r /\ m * r <= epsilon.
Proof.
  intros n m q M E Q0. unfold quotient. cmp (qabs n) epsilon.
  - exists q. split; [lra|]. split; auto. unfold qabs in H. cmp n 0; rewrite ?E1 in H; lra.
  - exists 0. split; [|pose proof eps_pos; lra]. rewrite E. field. lra.
Qed.
Lemma crossing_form : forall u1 u2 v1 v2 w1 w2 s t,
  let a := u1 * u1 + u2 * u2 in let b := u1 * v1 + u2 * v2 in let c := v1 * v1 + v2 * v2 in
  let d := u1 * w1 + u2 * w2 in let e := v1 * w1 + v2 * w2 in let D := a * c - b * b in
  within s -> within t -> w1 + s * u1 == t * v1 -> w2 + s * u2 == t * v2 -> epsilon <= D ->
  exists sM sE tM tE al be,
    stage2 a b d (stage1 a b c d e) = (sM, sE, (tM, tE)) /\
    0 <= al /\ D * al <= epsilon /\ 0 <= be /\ D * be <= epsilon /\
    quotient sM sE == s - al /\ quotient tM tE == t - be.
Proof.
  intros u1 u2 v1 v2 w1 w2 s t a b c d e D [S0 S1] [T0 T1] W1 W2 De.
  pose proof eps_pos as Ep.
  assert (Sn : b * e - c * d == D * s).
  { unfold a, b, c, d, e, D. setoid_replace w1 with (t * v1 - s * u1) by lra. setoid_replace w2 with (t * v2 - s * u2) by lra.
    unfold a, b, c. ring. }
  assert (Tn : a * e - b * d == D * t).
  { unfold a, b, c, d, e, D. setoid_replace w1 with (t * v1 - s * u1) by lra. setoid_replace w2 with (t * v2 - s * u2) by lra.
    unfold a, b, c. ring. }
  assert (D0 : 0 < D) by lra.
  assert (B1 : 0 <= D * s) by (apply Qmult_le_0_compat; lra). assert (B2 : D * s <= D) by nra.
  assert (B3 : 0 <= D * t) by (apply Qmult_le_0_compat; lra). assert (B4 : D * t <= D) by nra.
  rewrite (stage1_proper a b c d e D); [|reflexivity|auto|lra|lra]. fold D.
  destruct (quotient_near _ D s D0 Sn S0) as (al & Q1 & A1 & A2).
  destruct (quotient_near _ D t D0 Tn T0) as (be & Q2 & A3 & A4).
  exists (b * e - c * d), D, (a * e - b * d), D, al, be. split; [|tauto].
  unfold stage2.
  replace (ltb (a * e - b * d) 0) with false by (symmetry; apply ltb_false; lra).
  replace (ltb D (a * e - b * d)) with false by (symmetry; apply ltb_false; lra). reflexivity.
Qed.

Theorem crossing : forall l delta rnd s,
  let g := play l in let p := along (ball g) (ahead g delta) s in
  0 < y (ball_v g) -> 1 # 1000 <= delta -> within s ->
  y p == 550 -> paddle_x g - 4 <= x p -> x p <= paddle_x g + 104 ->
  score (update g (Tick delta rnd)) = S (score g).
Proof.
  intros l delta rnd s g p Vy De Ws Py Pl Pr.
  destruct (speeds l) as [Sx Sy]. fold g in Sx, Sy. pose proof (speed_pos (score g)) as Sp.
  assert (Ey : y (ball_v g) == speed (score g)) by (destruct Sy; lra).
  set (k := speed (score g)) in *.
  cbn [update]. unfold tick. rewrite ahead_tick.
  assert (Wy : y (walls (ball_v g) (ahead g delta)) = y (ball_v g)).
  { unfold walls. destruct (_ || _); cbn [x y];
      (replace (ltb (y (ball_v g)) 0) with false by (symmetry; apply ltb_false; lra); reflexivity). }
  assert (H : hits g (walls (ball_v g) (ahead g delta)) (ahead g delta) = true); [|now rewrite H].
  unfold hits. rewrite Wy. apply andb_true_intro. split; [now apply ltb_true|]. apply ltb_true.
  set (q1 := P (paddle_x g - ball_r) paddle_y). set (q2 := P (paddle_x g + paddle_width + ball_r) paddle_y).
  set (h := k * delta). assert (Hh : 1 # 5000 <= h) by (unfold h; nra).
  (* the paddle has length 108 *)
  set (t := (x p - (paddle_x g - 4)) / 108).
  assert (T108 : t * 108 == x p - (paddle_x g - 4)) by (unfold t; field).
  assert (Wt : within t) by (split; lra).
  set (u1 := x (ahead g delta) - x (ball g)). set (u2 := y (ahead g delta) - y (ball g)).
  assert (U2 : u2 == h) by (unfold u2, ahead, h; cbn [x y]; rewrite <- Ey; ring).
  assert (U1 : u1 == h \/ u1 == - h) by (unfold u1, ahead, h; cbn [x y]; destruct Sx as [Sx|Sx]; [left|right]; rewrite Sx; ring).
  assert (U11 : u1 * u1 == h * h) by (destruct U1 as [U|U]; rewrite U; ring).
  assert (V1 : x q2 - x q1 == 108) by (unfold q1, q2, paddle_width, ball_r; cbn [x y]; ring).
  assert (V2 : y q2 - y q1 == 0) by (unfold q1, q2; cbn [x y]; ring).
  destruct (crossing_form u1 u2 (x q2 - x q1) (y q2 - y q1) (x (ball g) - x q1) (y (ball g) - y q1) s t Ws Wt)
    as (sM & sE & tM & tE & al & be & Est & A0 & A1 & B0 & B1 & Q1 & Q2).
  { rewrite V1. unfold u1. unfold q1, ball_r. cbn [x y]. unfold p, along in T108. cbn [x y] in T108. lra. }
  { rewrite V2. unfold u2. unfold q1, paddle_y, window_height, padding, paddle_height. cbn [x y]. unfold p, along in Py. cbn [x y] in Py. lra. }
  { rewrite V1, V2, U2, U11. unfold epsilon. nra. }
  (* D = 108^2 h^2 *)
  assert (DD : (u1 * u1 + u2 * u2) * ((x q2 - x q1) * (x q2 - x q1) + (y q2 - y q1) * (y q2 - y q1)) -
     (u1 * (x q2 - x q1) + u2 * (y q2 - y q1)) * (u1 * (x q2 - x q1) + u2 * (y q2 - y q1)) == 11664 * (h * h)).
  { rewrite V1, V2. setoid_replace ((u1 * u1 + u2 * u2) * (108 * 108 + 0 * 0) - (u1 * 108 + u2 * 0) * (u1 * 108 + u2 * 0))
      with (11664 * (u2 * u2)) by ring. rewrite U2. reflexivity. }
  rewrite DD in A1, B1. clear DD.
  unfold segment_squared_distance.
  change (stage2 (dot (minus (ahead g delta) (ball g)) (minus (ahead g delta) (ball g)))
    (dot (minus (ahead g delta) (ball g)) (minus q2 q1)) (dot (minus (ahead g delta) (ball g)) (minus (ball g) q1))
    (stage1 (dot (minus (ahead g delta) (ball g)) (minus (ahead g delta) (ball g)))
       (dot (minus (ahead g delta) (ball g)) (minus q2 q1)) (dot (minus q2 q1) (minus q2 q1))
       (dot (minus (ahead g delta) (ball g)) (minus (ball g) q1)) (dot (minus q2 q1) (minus (ball g) q1)))) with
   (stage2 (u1 * u1 + u2 * u2) (u1 * (x q2 - x q1) + u2 * (y q2 - y q1)) (u1 * (x (ball g) - x q1) + u2 * (y (ball g) - y q1))
      (stage1 (u1 * u1 + u2 * u2) (u1 * (x q2 - x q1) + u2 * (y q2 - y q1))
         ((x q2 - x q1) * (x q2 - x q1) + (y q2 - y q1) * (y q2 - y q1))
         (u1 * (x (ball g) - x q1) + u2 * (y (ball g) - y q1))
         ((x q2 - x q1) * (x (ball g) - x q1) + (y q2 - y q1) * (y (ball g) - y q1)))).
  rewrite Est, form_norm. unfold form. rewrite Q1, Q2. fold u1 u2.
  assert (F1 : x (ball g) - x q1 + u1 * (s - al) - (x q2 - x q1) * (t - be) == 108 * be - u1 * al).
  { rewrite V1. unfold q1, ball_r. cbn [x y]. unfold u1 in *. unfold p, along in T108. cbn [x y] in T108. lra. }
  assert (F2 : y (ball g) - y q1 + u2 * (s - al) - (y q2 - y q1) * (t - be) == - (u2 * al)).
  { rewrite V2. unfold q1, paddle_y, window_height, padding, paddle_height. cbn [x y]. unfold u2 in *. unfold p, along in Py. cbn [x y] in Py. lra. }
  rewrite F1, F2. unfold epsilon, ball_r in *. clear - U1 U2 Hh A0 A1 B0 B1.
  assert (Ha : h * al <= 1).
  { assert (0 <= h * al) by (apply Qmult_le_0_compat; lra). nra. }
  assert (Ha0 : 0 <= h * al) by (apply Qmult_le_0_compat; lra).
  assert (Hb : 108 * be <= 1).
  { assert (M : (1 # 25000000) * be <= (h * h) * be) by (apply Qmult_le_compat_r; auto; nra). nra. }
  assert (Z : - (1) <= u1 * al /\ u1 * al <= 1) by (destruct U1 as [U|U]; rewrite U; lra).
  rewrite U2. nra.
Qed.
