(** The distance of two segments *)
From Coq Require Import List QArith Lqa Lia.
From Verif Require Import PongModel PongSpec.
Import ListNotations.
Open Scope Q_scope.

Lemma ltb_true : forall a b, ltb a b = true <-> a < b.
Proof.
  intros a b. unfold ltb. destruct (Qle_bool b a) eqn:E; split; intros H; try discriminate; auto.
  - apply Qle_bool_iff in E. lra.
  - destruct (Qlt_le_dec a b); auto. apply Qle_bool_iff in q. congruence.
Qed.
Lemma ltb_false : forall a b, ltb a b = false <-> b <= a.
Proof.
  intros a b. unfold ltb. destruct (Qle_bool b a) eqn:E; split; intros H; try discriminate; auto.
  - now apply Qle_bool_iff.
  - apply Qle_bool_iff in H. congruence.
Qed.
Lemma ltb_spec : forall a b, (ltb a b = true /\ a < b) \/ (ltb a b = false /\ b <= a).
Proof.
  intros a b. destruct (ltb a b) eqn:E; [left; rewrite <- ltb_true|right; rewrite <- ltb_false]; auto.
Qed.
Ltac cmp a b := let E := fresh "E" in let H := fresh "H" in destruct (ltb_spec a b) as [[E H]|[E H]]; rewrite ?E.

Section Form.
(** the quadratic form |w + s u - t v|^2 *)
Variables (u1 u2 v1 v2 w1 w2 : Q).
Let a := u1 * u1 + u2 * u2.
Let b := u1 * v1 + u2 * v2.
Let c := v1 * v1 + v2 * v2.
Let d := u1 * w1 + u2 * w2.
Let e := v1 * w1 + v2 * w2.
Definition form (s t : Q) : Q :=
  (w1 + u1 * s - v1 * t) * (w1 + u1 * s - v1 * t) + (w2 + u2 * s - v2 * t) * (w2 + u2 * s - v2 * t).

Lemma form_diff : forall s t s' t', form s' t' - form s t ==
  2 * (a * s - b * t + d) * (s' - s) + 2 * (c * t - b * s - e) * (t' - t) +
  ((u1 * (s' - s) - v1 * (t' - t)) * (u1 * (s' - s) - v1 * (t' - t)) +
   (u2 * (s' - s) - v2 * (t' - t)) * (u2 * (s' - s) - v2 * (t' - t))).
Proof. intros. unfold form, a, b, c, d, e. ring. Qed.
Lemma square_nonneg : forall q : Q, 0 <= q * q.
Proof. intros. nra. Qed.

(** conditions for an optimum *)
Lemma optimum : forall s t s' t',
  0 <= (a * s - b * t + d) * (s' - s) -> 0 <= (c * t - b * s - e) * (t' - t) -> form s t <= form s' t'.
Proof.
  intros s t s' t' H1 H2. pose proof (form_diff s t s' t') as F.
  pose proof (square_nonneg (u1 * (s' - s) - v1 * (t' - t))). pose proof (square_nonneg (u2 * (s' - s) - v2 * (t' - t))).
  lra.
Qed.
Lemma convex : forall s t s' t' l, 0 <= l -> l <= 1 -> form s t <= form s' t' ->
  form (s + l * (s' - s)) (t + l * (t' - t)) <= form s' t'.
Proof.
  intros s t s' t' l L0 L1 F.
  assert (E : form (s + l * (s' - s)) (t + l * (t' - t)) == (1 - l) * form s t + l * form s' t' -
    l * (1 - l) * ((u1 * (s' - s) - v1 * (t' - t)) * (u1 * (s' - s) - v1 * (t' - t)) +
                   (u2 * (s' - s) - v2 * (t' - t)) * (u2 * (s' - s) - v2 * (t' - t)))) by (unfold form; ring).
  rewrite E.
  pose proof (square_nonneg (u1 * (s' - s) - v1 * (t' - t))) as S1.
  pose proof (square_nonneg (u2 * (s' - s) - v2 * (t' - t))) as S2.
  set (q1 := (u1 * (s' - s) - v1 * (t' - t)) * (u1 * (s' - s) - v1 * (t' - t))) in *.
  set (q2 := (u2 * (s' - s) - v2 * (t' - t)) * (u2 * (s' - s) - v2 * (t' - t))) in *.
  assert (0 <= l * (1 - l) * (q1 + q2)) by (apply Qmult_le_0_compat; [apply Qmult_le_0_compat|]; lra).
  assert (0 <= (1 - l) * (form s' t' - form s t)) by (apply Qmult_le_0_compat; lra).
  lra.
Qed.
(** if the best point of the strip is not above the edge, the best on the edge is best *)
Lemma edge : forall s1 t1 s2 t2, (forall s t, within s -> form s1 t1 <= form s t) -> within s1 ->
  (forall s, within s -> form s2 t2 <= form s t2) ->
  forall s' t', within s' -> (t1 <= t2 /\ t2 <= t' \/ t' <= t2 /\ t2 <= t1) -> form s2 t2 <= form s' t'.
Proof.
  intros s1 t1 s2 t2 B W1 E s' t' Ws' T.
  destruct (Qeq_dec t1 t') as [Eq|Ne].
  - assert (t2 == t') by (destruct T; lra).
    assert (X : form s' t2 == form s' t') by (unfold form; rewrite H; reflexivity). rewrite <- X. now apply E.
  - set (l := (t2 - t1) / (t' - t1)).
    assert (Ne' : ~ t' - t1 == 0) by (intros C; apply Ne; lra).
    assert (L : l * (t' - t1) == t2 - t1) by (unfold l; field; auto).
    assert (L01 : 0 <= l /\ l <= 1) by (destruct T as [[T1 T2]|[T1 T2]]; [assert (0 < t' - t1) by (destruct (Qlt_le_dec 0 (t' - t1)); [auto|exfalso; apply Ne; lra])|assert (t' - t1 < 0) by (destruct (Qlt_le_dec (t' - t1) 0); [auto|exfalso; apply Ne; lra])]; split; nra).
    destruct L01 as [L0 L1]. pose proof (convex s1 t1 s' t' l L0 L1 (B s' t' Ws')) as C.
    assert (X : form (s1 + l * (s' - s1)) (t1 + l * (t' - t1)) == form (s1 + l * (s' - s1)) t2).
    { assert (Y : t1 + l * (t' - t1) == t2) by lra. unfold form. rewrite Y. reflexivity. }
    rewrite X in C. assert (Z : form s2 t2 <= form (s1 + l * (s' - s1)) t2).
    { apply E. destruct W1, Ws'. split; nra. }
    lra.
Qed.

Lemma div_mul : forall n m : Q, 0 < m -> (n / m) * m == n.
Proof. intros n m H. field. intros C. lra. Qed.
Lemma div_within : forall n m, 0 < m -> 0 <= n -> n <= m -> within (n / m).
Proof.
  intros n m H0 H1 H2. pose proof (div_mul n m H0) as E. split; nra.
Qed.
Lemma cross : a * c - b * b == (u1 * v2 - u2 * v1) * (u1 * v2 - u2 * v1).
Proof. unfold a, b, c. ring. Qed.
Lemma parallel : a * c - b * b == 0 -> c * d == b * e.
Proof.
  intros H. rewrite cross in H. assert (Z : u1 * v2 - u2 * v1 == 0) by (destruct (Qmult_integral _ _ H); auto).
  assert (c * d - b * e == (u1 * v2 - u2 * v1) * (w1 * v2 - w2 * v1)) by (unfold b, c, d, e; ring).
  rewrite Z in H0. lra.
Qed.

Lemma stage1_ok : forall sN sD tN tD, 0 < c -> stage1 a b c d e = (sN, sD, (tN, tD)) ->
  (0 < sD /\ 0 <= sN /\ sN <= sD /\ 0 < tD) /\
  (a * c - b * b == 0 \/ epsilon <= a * c - b * b ->
   forall s t, within s -> form (sN / sD) (tN / tD) <= form s t).
Proof.
  intros sN sD tN tD C H. unfold stage1 in H. set (D := a * c - b * b) in *.
  assert (Ep : 0 < epsilon) by reflexivity.
  cmp D epsilon; rewrite E in H.
  { injection H as <- <- <- <-. split; [lra|]. intros [Z|Z] s t [Ws0 Ws1]; [|lra].
    pose proof (parallel Z) as Pa. pose proof (div_mul e c C) as T.
    assert (S0 : 0 / 1 == 0) by reflexivity.
    assert (X : form (0 / 1) (e / c) <= form s t).
    { apply optimum; rewrite S0.
      - assert (G : (a * 0 - b * (e / c) + d) * c == 0) by (rewrite <- T in Pa; nra).
        apply Qmult_integral in G as [G|G]; [|lra]. rewrite G. lra.
      - assert (G : c * (e / c) - b * 0 - e == 0) by lra. rewrite G. lra. }
    exact X. }
  assert (D0 : 0 < D) by lra.
  cmp (b * e - c * d) 0; rewrite E0 in H.
  { injection H as <- <- <- <-. split; [lra|]. intros _ s t [Ws0 Ws1].
    pose proof (div_mul e c C) as T. assert (S0 : 0 / D == 0) by (field; lra).
    apply optimum; rewrite S0.
    - assert (G : (a * 0 - b * (e / c) + d) * c == c * d - b * e) by (rewrite <- T at 2; ring).
      assert (0 <= a * 0 - b * (e / c) + d) by nra. apply Qmult_le_0_compat; lra.
    - assert (G : c * (e / c) - b * 0 - e == 0) by lra. rewrite G. lra. }
  cmp D (b * e - c * d); rewrite E1 in H.
  { injection H as <- <- <- <-. split; [lra|]. intros _ s t [Ws0 Ws1].
    pose proof (div_mul (e + b) c C) as T. assert (S0 : D / D == 1) by (field; lra).
    apply optimum; rewrite S0.
    - assert (G : (a * 1 - b * ((e + b) / c) + d) * c == D - (b * e - c * d)).
      { unfold D. setoid_replace ((a * 1 - b * ((e + b) / c) + d) * c) with (a * c - b * ((e + b) / c * c) + d * c) by ring.
        rewrite T. ring. }
      assert (a * 1 - b * ((e + b) / c) + d <= 0) by nra. nra.
    - assert (G : c * ((e + b) / c) - b * 1 - e == 0) by lra. rewrite G. lra. }
  injection H as <- <- <- <-. split; [lra|]. intros _ s t [Ws0 Ws1].
  apply optimum.
  - assert (G : a * ((b * e - c * d) / D) - b * ((a * e - b * d) / D) + d == 0) by (unfold D in *; field; lra).
    rewrite G. lra.
  - assert (G : c * ((a * e - b * d) / D) - b * ((b * e - c * d) / D) - e == 0) by (unfold D in *; field; lra).
    rewrite G. lra.
Qed.

Lemma a_nonneg : 0 <= a.
Proof. unfold a. nra. Qed.
Lemma a_zero : a == 0 -> forall q, u1 * q == 0 /\ u2 * q == 0.
Proof.
  intros H q. unfold a in H. assert (u1 == 0) by nra. assert (u2 == 0) by nra. rewrite H0, H1. split; ring.
Qed.
(** the best point of an edge *)
Lemma edge_zero : forall sD k t, 0 < sD -> (k == b * t - d) ->
  let '(sM, sE) := if ltb k 0 then (0, sD) else if ltb a k then (sD, sD) else (k, a) in
  (0 <= sM /\ sM <= sE /\ (0 < sE \/ sM == 0)) /\ (forall s, within s -> form (sM / sE) t <= form s t).
Proof.
  intros sD k t SD K. pose proof a_nonneg as A.
  cmp k 0.
  { split; [lra|]. intros s [W0 W1]. assert (S0 : 0 / sD == 0) by (field; lra).
    apply optimum; rewrite S0; [|lra]. assert (0 <= a * 0 - b * t + d) by lra. apply Qmult_le_0_compat; lra. }
  cmp a k.
  { split; [lra|]. intros s [W0 W1]. assert (S0 : sD / sD == 1) by (field; lra).
    apply optimum; rewrite S0; [|lra]. assert (a * 1 - b * t + d <= 0) by lra. nra. }
  destruct (Qlt_le_dec 0 a) as [Pa|Za].
  - split; [lra|]. intros s [W0 W1]. pose proof (div_mul k a Pa) as T. apply optimum; [|lra].
    assert (G : a * (k / a) - b * t + d == 0) by lra. rewrite G. lra.
  - assert (Z : a == 0) by lra. split; [lra|]. intros s [W0 W1]. apply optimum; [|lra].
    assert (G : a * (k / a) - b * t + d == 0) by (rewrite Z; lra). rewrite G. lra.
Qed.

Lemma stage2_ok : forall sN sD tN tD sM sE tM tE,
  0 < sD -> 0 <= sN -> sN <= sD -> 0 < tD ->
  stage2 a b d (sN, sD, (tN, tD)) = (sM, sE, (tM, tE)) ->
  (0 <= sM /\ sM <= sE /\ (0 < sE \/ sM == 0) /\ 0 <= tM /\ tM <= tE /\ 0 < tE) /\
  ((forall s t, within s -> form (sN / sD) (tN / tD) <= form s t) ->
   forall s t, within s -> within t -> form (sM / sE) (tM / tE) <= form s t).
Proof.
  intros sN sD tN tD sM sE tM tE SD S0 S1 TD H. unfold stage2 in H.
  pose proof (div_mul tN tD TD) as T. pose proof (div_within _ _ SD S0 S1) as Ws.
  cmp tN 0; rewrite E in H.
  { pose proof (edge_zero sD (- d) 0 SD) as Ed. assert (K : - d == b * 0 - d) by ring. specialize (Ed K).
    assert (N : tN / tD <= 0) by nra. assert (Z : 0 / tD == 0) by (field; lra).
    assert (Fz : forall s, form s (0 / tD) == form s 0) by (intros; unfold form; rewrite Z; reflexivity).
    cmp (- d) 0; [|cmp a (- d)]; rewrite ?E0, ?E1 in *; injection H as <- <- <- <-; destruct Ed as [Bd Op];
      (split; [lra|]; intros B s t Wss Wt; rewrite Fz; eapply edge; eauto; left; destruct Wt; lra). }
  cmp tD tN; rewrite E0 in H.
  { pose proof (edge_zero sD (- d + b) 1 SD) as Ed. assert (K : - d + b == b * 1 - d) by ring. specialize (Ed K).
    assert (N : 1 <= tN / tD) by nra. assert (Z : tD / tD == 1) by (field; lra).
    assert (Fz : forall s, form s (tD / tD) == form s 1) by (intros; unfold form; rewrite Z; reflexivity).
    cmp (- d + b) 0; [|cmp a (- d + b)]; rewrite ?E1, ?E2 in *; injection H as <- <- <- <-; destruct Ed as [Bd Op];
      (split; [lra|]; intros B s t Wss Wt; rewrite Fz; eapply edge; eauto; right; destruct Wt; lra). }
  injection H as <- <- <- <-. split; [lra|]. intros B s t Wss Wt. now apply B.
Qed.
End Form.

(** ** The quotients *)
Definition solid (q : Q) : Prop := q == 0 \/ epsilon <= q \/ q <= - epsilon.
Lemma eps_pos : 0 < epsilon.
Proof. reflexivity. Qed.
Lemma quotient_within : forall n m, 0 <= n -> n <= m -> (0 < m \/ n == 0) -> within (quotient n m).
Proof.
  intros n m H0 H1 H2. unfold quotient. cmp (qabs n) epsilon; [split; lra|].
  assert (0 < m).
  { destruct H2 as [H2|H2]; auto. unfold qabs in H. pose proof eps_pos. destruct (ltb n 0); lra. }
  now apply div_within.
Qed.
Lemma quotient_exact : forall n m, solid n -> quotient n m == n / m.
Proof.
  intros n m S. unfold quotient. pose proof eps_pos. cmp (qabs n) epsilon; [|reflexivity].
  unfold qabs in H0. assert (n == 0) by (destruct S as [S|[S|S]]; auto; cmp n 0; rewrite ?E0 in H0; lra).
  rewrite H1. unfold Qdiv. ring.
Qed.
Lemma solid_stage1 : forall a b c d e sN sD tN tD, stage1 a b c d e = (sN, sD, (tN, tD)) ->
  solid (a * c - b * b) -> solid c -> solid e -> solid (e + b) -> solid (b * e - c * d) -> solid (a * e - b * d) ->
  solid sN /\ solid sD /\ solid tN /\ solid tD.
Proof.
  intros a b c d e sN sD tN tD H S1 S2 S3 S4 S5 S6. unfold stage1 in H. pose proof eps_pos.
  assert (Z : solid 0) by (left; reflexivity). assert (O : solid 1) by (right; left; unfold epsilon; lra).
  destruct (ltb _ epsilon); [injection H as <- <- <- <-; auto|].
  destruct (ltb _ 0); [injection H as <- <- <- <-; auto|].
  destruct (ltb _ _); injection H as <- <- <- <-; auto.
Qed.
Lemma solid_stage2 : forall a b d sN sD tN tD sM sE tM tE, stage2 a b d (sN, sD, (tN, tD)) = (sM, sE, (tM, tE)) ->
  solid sN -> solid sD -> solid tN -> solid tD -> solid (- d) -> solid (- d + b) -> solid sM /\ solid tM.
Proof.
  intros a b d sN sD tN tD sM sE tM tE H S1 S2 S3 S4 S5 S6. unfold stage2 in H.
  assert (Z : solid 0) by (left; reflexivity).
  destruct (ltb tN 0).
  - destruct (ltb (- d) 0); [injection H as <- <- <- <-; auto|]. destruct (ltb a (- d)); injection H as <- <- <- <-; auto.
  - destruct (ltb tD tN); [|injection H as <- <- <- <-; auto].
    destruct (ltb (- d + b) 0); [injection H as <- <- <- <-; auto|]. destruct (ltb a (- d + b)); injection H as <- <- <- <-; auto.
Qed.

(** ** Points *)
Lemma form_dist : forall p1 p2 q1 q2 s t,
  norm (minus (plus (minus p1 q1) (times (minus p2 p1) s)) (times (minus q2 q1) t)) ==
  dist2 (along p1 p2 s) (along q1 q2 t).
Proof. intros. unfold norm, minus, plus, times, dist2, along. cbn [x y]. ring. Qed.
Lemma form_norm : forall p1 p2 q1 q2 s t,
  norm (minus (plus (minus p1 q1) (times (minus p2 p1) s)) (times (minus q2 q1) t)) ==
  form (x p2 - x p1) (y p2 - y p1) (x q2 - x q1) (y q2 - y q1) (x p1 - x q1) (y p1 - y q1) s t.
Proof. intros. unfold norm, minus, plus, times, form. cbn [x y]. ring. Qed.
Lemma form_along : forall p1 p2 q1 q2 s t,
  form (x p2 - x p1) (y p2 - y p1) (x q2 - x q1) (y q2 - y q1) (x p1 - x q1) (y p1 - y q1) s t ==
  dist2 (along p1 p2 s) (along q1 q2 t).
Proof. intros. rewrite <- form_norm. apply form_dist. Qed.

Theorem distance_sound : forall p1 p2 q1 q2, 0 < dist2 q1 q2 ->
  a_distance (segment_squared_distance p1 p2 q1 q2) p1 p2 q1 q2.
Proof.
  intros p1 p2 q1 q2 C. unfold segment_squared_distance.
  set (u := minus p2 p1). set (v := minus q2 q1). set (w := minus p1 q1).
  assert (C' : 0 < dot v v).
  { unfold dot, v, minus. cbn [x y]. unfold dist2 in C. nra. }
  destruct (stage1 (dot u u) (dot u v) (dot v v) (dot u w) (dot v w)) as [[sN sD] [tN tD]] eqn:E1.
  destruct (stage2 (dot u u) (dot u v) (dot u w) (sN, sD, (tN, tD))) as [[sM sE] [tM tE]] eqn:E2.
  destruct (stage1_ok (x u) (y u) (x v) (y v) (x w) (y w) _ _ _ _ C' E1) as [(A1 & A2 & A3 & A4) _].
  destruct (stage2_ok (x u) (y u) (x v) (y v) (x w) (y w) _ _ _ _ _ _ _ _ A1 A2 A3 A4 E2) as [(B1 & B2 & B3 & B4 & B5 & B6) _].
  exists (quotient sM sE), (quotient tM tE). split; [now apply quotient_within|]. split; [apply quotient_within; auto|].
  unfold u, v, w. apply form_dist.
Qed.

(** ** Coordinates that are multiples of 1/k *)
Definition multiple (n : positive) (q : Q) : Prop := exists i : Z, q == i # n.
Lemma mul_multiple : forall n m p q, multiple n p -> multiple m q -> multiple (n * m) (p * q).
Proof. intros n m p q [i E] [j F]. exists (i * j)%Z. rewrite E, F. reflexivity. Qed.
Lemma add_multiple : forall n p q, multiple n p -> multiple n q -> multiple n (p + q).
Proof.
  intros n p q [i E] [j F]. exists (i + j)%Z. rewrite E, F. unfold Qeq, Qplus. cbn. rewrite Pos2Z.inj_mul. ring.
Qed.
Lemma opp_multiple : forall n p, multiple n p -> multiple n (- p).
Proof. intros n p [i E]. exists (- i)%Z. rewrite E. reflexivity. Qed.
Lemma sub_multiple : forall n p q, multiple n p -> multiple n q -> multiple n (p - q).
Proof. intros. apply add_multiple; auto. now apply opp_multiple. Qed.
Lemma up_multiple : forall n m p, multiple n p -> multiple (n * m) p.
Proof.
  intros n m p [i E]. exists (i * Zpos m)%Z. rewrite E. unfold Qeq. cbn. rewrite Pos2Z.inj_mul. ring.
Qed.
Lemma multiple_solid : forall n q, (Zpos n <= 100000000)%Z -> multiple n q -> solid q.
Proof.
  intros n q L [i E]. unfold solid. rewrite E.
  destruct (Z.lt_trichotomy i 0) as [Hi|[Hi|Hi]].
  - right. right. unfold epsilon, Qle, Qopp. cbn [Qnum Qden]. nia.
  - left. subst. unfold Qeq. cbn [Qnum Qden]. lia.
  - right. left. unfold epsilon, Qle. cbn [Qnum Qden]. nia.
Qed.

Theorem distance_exact : forall k p1 p2 q1 q2, (Zpos k <= 100)%Z ->
  on_grid k p1 -> on_grid k p2 -> on_grid k q1 -> on_grid k q2 -> 0 < dist2 q1 q2 ->
  least_distance (segment_squared_distance p1 p2 q1 q2) p1 p2 q1 q2.
Proof.
  intros k p1 p2 q1 q2 K G1 G2 G3 G4 C. split; [now apply distance_sound|].
  assert (Mx : forall p, on_grid k p -> multiple k (x p) /\ multiple k (y p)).
  { intros p (i & j & X & Y). split; [exists i|exists j]; auto. }
  destruct (Mx _ G1) as [X1 Y1], (Mx _ G2) as [X2 Y2], (Mx _ G3) as [X3 Y3], (Mx _ G4) as [X4 Y4].
  intros s t Ws Wt. unfold segment_squared_distance.
  set (u := minus p2 p1). set (v := minus q2 q1). set (w := minus p1 q1).
  assert (Md : forall a b c e, multiple k (x a) -> multiple k (y a) -> multiple k (x b) -> multiple k (y b) ->
    multiple k (x c) -> multiple k (y c) -> multiple k (x e) -> multiple k (y e) -> multiple (k * k) (dot (minus a b) (minus c e))).
  { intros. unfold dot, minus. cbn [x y]. apply add_multiple; apply mul_multiple; apply sub_multiple; auto. }
  assert (Ma : multiple (k * k) (dot u u)) by (apply Md; auto).
  assert (Mb : multiple (k * k) (dot u v)) by (apply Md; auto).
  assert (Mc : multiple (k * k) (dot v v)) by (apply Md; auto).
  assert (Mdd : multiple (k * k) (dot u w)) by (apply Md; auto).
  assert (Me : multiple (k * k) (dot v w)) by (apply Md; auto).
  assert (K2 : (Zpos (k * k) <= 10000)%Z) by (rewrite Pos2Z.inj_mul; nia).
  assert (L2 : (Zpos (k * k) <= 100000000)%Z) by lia.
  assert (L4 : (Zpos (k * k * (k * k)) <= 100000000)%Z) by (rewrite (Pos2Z.inj_mul (k * k)); nia).
  assert (C' : 0 < dot v v) by (unfold dot, v, minus; cbn [x y]; unfold dist2 in C; nra).
  destruct (stage1 (dot u u) (dot u v) (dot v v) (dot u w) (dot v w)) as [[sN sD] [tN tD]] eqn:E1.
  destruct (stage2 (dot u u) (dot u v) (dot u w) (sN, sD, (tN, tD))) as [[sM sE] [tM tE]] eqn:E2.
  destruct (stage1_ok (x u) (y u) (x v) (y v) (x w) (y w) _ _ _ _ C' E1) as [(A1 & A2 & A3 & A4) A5].
  destruct (stage2_ok (x u) (y u) (x v) (y v) (x w) (y w) _ _ _ _ _ _ _ _ A1 A2 A3 A4 E2) as [_ B7].
  assert (SD : solid (dot u u * dot v v - dot u v * dot u v)).
  { apply (multiple_solid _ _ L4). apply sub_multiple; apply mul_multiple; auto. }
  destruct (solid_stage1 _ _ _ _ _ _ _ _ _ E1) as (S1 & S2 & S3 & S4); auto.
  { now apply (multiple_solid _ _ L2). } { now apply (multiple_solid _ _ L2). }
  { apply (multiple_solid _ _ L2). now apply add_multiple. }
  { apply (multiple_solid _ _ L4). apply sub_multiple; apply mul_multiple; auto. }
  { apply (multiple_solid _ _ L4). apply sub_multiple; apply mul_multiple; auto. }
  destruct (solid_stage2 _ _ _ _ _ _ _ _ _ _ _ E2) as (S5 & S6); auto.
  { apply (multiple_solid _ _ L2). now apply opp_multiple. }
  { apply (multiple_solid _ _ L2). apply add_multiple; auto. now apply opp_multiple. }
  assert (Hd : dot u u * dot v v - dot u v * dot u v == 0 \/ epsilon <= dot u u * dot v v - dot u v * dot u v).
  { destruct SD as [SD|[SD|SD]]; auto. exfalso.
    assert (0 <= dot u u * dot v v - dot u v * dot u v).
    { pose proof (cross (x u) (y u) (x v) (y v)) as X. unfold dot. rewrite X. apply square_nonneg. }
    pose proof eps_pos. lra. }
  specialize (A5 Hd). pose proof (B7 A5 s t Ws Wt) as F.
  assert (Q1 : quotient sM sE == sM / sE) by now apply quotient_exact.
  assert (Q2 : quotient tM tE == tM / tE) by now apply quotient_exact.
  unfold u, v, w in *. rewrite form_norm. rewrite <- form_along.
  assert (X : form (x p2 - x p1) (y p2 - y p1) (x q2 - x q1) (y q2 - y q1) (x p1 - x q1) (y p1 - y q1) (quotient sM sE) (quotient tM tE)
    == form (x p2 - x p1) (y p2 - y p1) (x q2 - x q1) (y q2 - y q1) (x p1 - x q1) (y p1 - y q1) (sM / sE) (tM / tE)).
  { unfold form. rewrite Q1, Q2. reflexivity. }
  rewrite X. exact F.
Qed.
