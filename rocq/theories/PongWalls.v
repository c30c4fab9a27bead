From Coq Require Import List QArith Lqa Lia Arith Bool.
From Verif Require Import PongModel PongSpec PongSegments PongProofs.
Import ListNotations.
Open Scope Q_scope.

(** ** The walls *)
Lemma walls_cases : forall v b, exists v1,
  (((x v < 0 /\ x b <= 24) \/ (0 < x v /\ 776 <= x b)) /\ x v1 = - x v \/
   ~ ((x v < 0 /\ x b <= 24) \/ (0 < x v /\ 776 <= x b)) /\ x v1 = x v) /\
  ((y v < 0 /\ y b <= 24) /\ y v1 = - y v \/ ~ (y v < 0 /\ y b <= 24) /\ y v1 = y v) /\
  walls v b = v1.
Proof.
  intros v b. exists (walls v b). unfold walls, padding, ball_r, window_width. 
  assert (X : (ltb (x v) 0 && Qle_bool (x b - 4) 20) || (ltb 0 (x v) && Qle_bool (800 - 20) (x b + 4)) = true <->
    ((x v < 0 /\ x b <= 24) \/ (0 < x v /\ 776 <= x b))).
  { rewrite orb_true_iff, !andb_true_iff, !ltb_true, !le_true. 
    split; (intros [[A B]|[A B]]; [left|right]; split; lra). }
  assert (Y : ltb (y v) 0 && Qle_bool (y b - 4) 20 = true <-> (y v < 0 /\ y b <= 24)).
  { rewrite andb_true_iff, ltb_true, le_true. split; intros [A B]; split; lra. }
  destruct (_ || _); cbn [x y]; (destruct (ltb (y v) 0 && _); cbn [x y]);
    (split; [|split]); auto; try (left; split; [tauto|reflexivity]); try (right; split; [|reflexivity]; rewrite <- ?X, <- ?Y; discriminate).
Qed.

Definition inward (g : model) : Prop :=
  (x (ball g) <= 24 -> 0 < x (ball_v g)) /\ (776 <= x (ball g) -> x (ball_v g) < 0) /\
  (y (ball g) <= 24 -> 0 < y (ball_v g)).
Definition inside (m : Q) (g : model) : Prop :=
  24 - m <= x (ball g) /\ x (ball g) <= 776 + m /\ 24 - m <= y (ball g) /\ y (ball g) < 584.

Lemma hits_far : forall g delta m v, hits g v (ahead g delta) = true ->
  y (ball_v g) * delta <= m -> m <= 500 -> 24 < y (ball g).
Proof.
  intros g delta m v H L M. destruct (hits_near _ _ _ H) as [_ (s & t & [S0 S1] & _ & D)].
  unfold dist2, along, ahead, left_end, right_end in D. cbn [x y] in D.
  set (dx := x (ball g) + s * _ - _) in D. set (h := y (ball_v g) * delta) in *.
  assert (N : (y (ball g) + s * h - 550) * (y (ball g) + s * h - 550) < 16).
  { assert (E : (y (ball g) + s * h - 550) == (y (ball g) + s * (y (ball g) + h - y (ball g)) - (550 + t * (550 - 550)))) by ring.
    rewrite E. assert (0 <= dx * dx) by nra. lra. }
  assert (B : 546 < y (ball g) + s * h) by nra.
  destruct (Qlt_le_dec h 0) as [C|C]; nra.
Qed.

Lemma step_ok : forall m g a, 4 <= m -> m <= 500 -> tick_ok m g a ->
  ~ x (ball_v g) == 0 -> ~ y (ball_v g) == 0 -> inward g -> inside m g ->
  inward (update g a) /\ inside m (update g a).
Proof.
  intros m g [d|delta rnd] M0 M1 T Nx Ny (I1 & I2 & I3) (J1 & J2 & J3 & J4).
  - split; unfold inward, inside; cbn; auto.
  - destruct T as (Hd & [R0 R1] & X1 & X2 & Y1 & Y2).
    cbn [update]. unfold tick. rewrite ahead_tick.
    destruct (walls_cases (ball_v g) (ahead g delta)) as (v1 & Wx & Wy & ->).
    assert (Ax : x (ahead g delta) = x (ball g) + x (ball_v g) * delta) by reflexivity.
    assert (Ay : y (ahead g delta) = y (ball g) + y (ball_v g) * delta) by reflexivity.
    assert (Sx : (0 < x (ball_v g) /\ 0 <= x (ball_v g) * delta) \/ (x (ball_v g) < 0 /\ x (ball_v g) * delta <= 0)).
    { destruct (Q_dec (x (ball_v g)) 0) as [[C|C]|C]; [right|left|contradiction]; split; auto; nra. }
    assert (Sy : (0 < y (ball_v g) /\ 0 <= y (ball_v g) * delta) \/ (y (ball_v g) < 0 /\ y (ball_v g) * delta <= 0)).
    { destruct (Q_dec (y (ball_v g)) 0) as [[C|C]|C]; [right|left|contradiction]; split; auto; nra. }
    rewrite Ax in Wx. rewrite Ay in Wy.
    destruct (hits g v1 (ahead g delta)) eqn:H.
    + pose proof (hits_far _ _ m _ H Y1 M1) as F.
      split; unfold inward, inside; cbn [ball ball_v x y times]; [|repeat split; auto].
      unfold ball_a. split; [|split].
      * intros L. specialize (I1 L). destruct Wx as [[W ->]|[W ->]]; [exfalso|]; lra.
      * intros L. specialize (I2 L). destruct Wx as [[W ->]|[W ->]]; [exfalso|]; lra.
      * intros L. lra.
    + destruct (ltb 0 (y v1) && _) eqn:E.
      * split; unfold inward, inside; cbn [ball ball_v x y ball_init_v]; unfold padding, window_width.
        -- repeat split; lra.
        -- repeat split; nra.
      * assert (E' : y v1 < 0 \/ y (ahead g delta) < 584).
        { apply andb_false_iff in E as [E|E].
          - left. apply ltb_false in E. destruct Wy as [[W Ey]|[W Ey]]; rewrite Ey in *; lra.
          - right. apply le_false in E. unfold window_height, padding, ball_r in E. lra. }
        split; unfold inward, inside; cbn [ball ball_v]; rewrite Ax, Ay in *.
        -- split; [|split]; intros L.
           ++ destruct Wx as [[W ->]|[W ->]]; [lra|]. destruct Sx; [tauto|]. exfalso. apply W. left. lra.
           ++ destruct Wx as [[W ->]|[W ->]]; [lra|]. destruct Sx; [|tauto]. exfalso. apply W. right. lra.
           ++ destruct Wy as [[W ->]|[W ->]]; [lra|]. destruct Sy; [tauto|]. exfalso. apply W. lra.
        -- assert (D1 : x (ball_v g) < 0 -> 24 < x (ball g)) by (intros C; destruct (Qlt_le_dec 24 (x (ball g))); auto; specialize (I1 q); lra).
           assert (D2 : 0 < x (ball_v g) -> x (ball g) < 776) by (intros C; destruct (Qlt_le_dec (x (ball g)) 776); auto; specialize (I2 q); lra).
           assert (D3 : y (ball_v g) < 0 -> 24 < y (ball g)) by (intros C; destruct (Qlt_le_dec 24 (y (ball g))); auto; specialize (I3 q); lra).
           repeat split.
           ++ destruct Sx as [[C ?]|[C ?]]; [lra|]. specialize (D1 C). lra.
           ++ destruct Sx as [[C ?]|[C ?]]; [|lra]. specialize (D2 C). lra.
           ++ destruct Sy as [[C ?]|[C ?]]; [lra|]. specialize (D3 C). lra.
           ++ destruct E' as [E'|E']; [|lra]. destruct Wy as [[[W _] Ey]|[W Ey]]; rewrite Ey in E'; [lra|]. destruct Sy; lra.
Qed.
Lemma moving : forall l, ~ x (ball_v (play l)) == 0 /\ ~ y (ball_v (play l)) == 0.
Proof.
  intros l. destruct (speeds l) as [[A|A] [B|B]]; pose proof (speed_pos (score (play l))); split; lra.
Qed.
Lemma keeps_in : forall m l, 4 <= m -> m <= 500 -> smooth m l -> inward (play l) /\ inside m (play l).
Proof.
  intros m l M0 M1. induction l as [|a l IH] using rev_ind; intros Sm.
  - change (play []) with start. unfold inward, inside, start. cbn [ball ball_v x y ball_init_v].
    assert (E1 : window_width / 2 == 400) by reflexivity. assert (E2 : padding * 2 == 40) by reflexivity.
    rewrite E1, E2. split; repeat split; intros; lra.
  - destruct IH as [A B].
    { intros p b r E. apply (Sm p b (r ++ [a])). rewrite E, <- app_assoc. reflexivity. }
    rewrite play_snoc. destruct (moving l). apply step_ok; auto. apply (Sm l a []). reflexivity.
Qed.
Theorem in_walls : forall m l, 4 <= m -> m <= 500 -> smooth m l ->
  let b := ball (play l) in
  24 - m <= x b /\ x b <= 776 + m /\ 24 - m <= y b /\ y b < 584.
Proof. intros m l M0 M1 Sm. exact (proj2 (keeps_in m l M0 M1 Sm)). Qed.
(** Outside of the walls the ball comes back. *)
Theorem comes_back : forall m l, 4 <= m -> m <= 500 -> smooth m l ->
  let g := play l in
  (x (ball g) <= 24 -> 0 < x (ball_v g)) /\ (776 <= x (ball g) -> x (ball_v g) < 0) /\
  (y (ball g) <= 24 -> 0 < y (ball_v g)).
Proof. intros m l M0 M1 Sm. exact (proj1 (keeps_in m l M0 M1 Sm)). Qed.

(** ** Missing the paddle *)
Lemma far_misses : forall g delta v, far g delta -> hits g v (ahead g delta) = false.
Proof.
  intros g delta v F. destruct (hits g v (ahead g delta)) eqn:E; auto.
  destruct (hits_near _ _ _ E) as [_ (s & t & A & B & C)]. specialize (F s t A B). lra.
Qed.
Theorem falls : forall g delta rnd, far g delta -> within rnd -> 0 < y (ball_v g) -> 584 <= y (ahead g delta) ->
  let g' := update g (Tick delta rnd) in
  score g' = 0%nat /\ 20 <= x (ball g') /\ x (ball g') <= 740 /\ y (ball g') == 40 /\
  ball_v g' = P (1 # 5) (1 # 5) /\ death_anim g' = 1 /\
  (score g <= max_score g')%nat /\ (max_score g <= max_score g')%nat.
Proof.
  intros g delta rnd F [R0 R1] V Y g'. unfold g'. cbn [update]. unfold tick. rewrite ahead_tick, far_misses by auto.
  destruct (walls_cases (ball_v g) (ahead g delta)) as (v1 & Wx & Wy & ->).
  assert (E : y v1 = y (ball_v g)) by (destruct Wy as [[W _]|[_ W]]; [lra|auto]).
  rewrite E. replace (ltb 0 (y (ball_v g)) && _) with true.
  - cbn [score ball x y ball_v death_anim max_score]. unfold padding, window_width. repeat split; try lia; nra.
  - symmetry. apply andb_true_intro. split; [now apply ltb_true|]. apply le_true. unfold window_height, padding, ball_r. lra.
Qed.
Theorem flies : forall l delta rnd, let g := play l in
  far g delta -> y (ball_v g) < 0 /\ 24 < y (ahead g delta) \/ y (ahead g delta) < 584 ->
  let g' := update g (Tick delta rnd) in
  ball g' = ahead g delta /\ score g' = score g /\ max_score g' = max_score g /\
  (between_walls (ahead g delta) -> x (ball_v g') = x (ball_v g) /\ y (ball_v g') = y (ball_v g)).
Proof.
  intros l delta rnd g F V g'. unfold g'. cbn [update]. unfold tick. rewrite ahead_tick, far_misses by auto.
  destruct (walls_cases (ball_v g) (ahead g delta)) as (v1 & Wx & Wy & ->).
  replace (ltb 0 (y v1) && _) with false.
  { cbn [ball score max_score ball_v]. split; auto. split; auto. split; auto. intros (W1 & W2 & W3).
    split; [destruct Wx as [[[W|W] _]|[_ W]]|destruct Wy as [[W _]|[_ W]]]; auto; lra. }
  symmetry. apply andb_false_iff.
  destruct V as [[V1 V2]|V].
  - left. apply ltb_false. destruct Wy as [[W _]|[_ ->]]; lra.
  - right. apply le_false. unfold window_height, padding, ball_r. lra.
Qed.

(** ** What lights up *)
Theorem lights : forall l, Forall forwards l ->
  within (death_anim (play l)) /\ within (bounce_anim (play l)).
Proof.
  induction l as [|a l IH] using rev_ind; intros H.
  - split; split; cbn; lra.
  - apply Forall_app in H as [H1 H2]. inversion H2 as [|? ? A _]; subst. destruct (IH H1) as [[D0 D1] [B0 B1]].
    rewrite play_snoc. destruct a as [d|delta rnd]; cbn [update]; [split; split; auto|].
    cbn in A.
    assert (L : forall q k, within q -> 0 <= k -> within (qmax 0 (q - delta * k))).
    { intros q k [Q0 Q1] K. assert (0 <= delta * k) by (apply Qmult_le_0_compat; auto).
      destruct (qmax_spec 0 (q - delta * k)) as [[E C]|[E C]]; split; rewrite E; lra. }
    assert (O : within 1) by (split; lra).
    unfold tick. destruct (hits _ _ _); [|destruct (_ && _)]; cbn [death_anim bounce_anim];
      split; try exact O; (apply L; [split; auto|discriminate]).
Qed.

Lemma lit : forall p l, Forall forwards l -> 0 <= death_anim (play p) -> 0 <= bounce_anim (play p) ->
  (relit death_anim p l \/ fades (1 # 1000) (death_anim (play p)) (elapsed l) (death_anim (play (p ++ l)))) /\
  (relit bounce_anim p l \/ fades (2 # 1000) (bounce_anim (play p)) (elapsed l) (bounce_anim (play (p ++ l)))).
Proof.
  intros p l. induction l as [|a l IH] using rev_ind; intros H D0 B0.
  - rewrite app_nil_r. split; right; unfold fades; cbn [elapsed]; left; split; lra.
  - apply Forall_app in H as [H1 H2]. inversion H2 as [|? ? A _]; subst.
    assert (R : forall f, relit f p l -> relit f p (l ++ [a])).
    { intros f (l1 & b & l2 & -> & E). exists l1, b, (l2 ++ [a]). split; auto. now rewrite <- app_assoc. }
    assert (One : forall f, f (play (p ++ l ++ [a])) = 1 -> relit f p (l ++ [a])).
    { intros f E. exists l, a, []. split; auto. }
    assert (El : elapsed (l ++ [a]) == elapsed l + match a with Tick d _ => d | _ => 0 end).
    { clear. induction l as [|b l IH]; [destruct a; cbn [elapsed app]; ring|].
      destruct b; cbn [elapsed app]; rewrite IH; ring. }
    assert (Go : forall k d0 q d, 0 <= d -> 0 <= k -> fades k d0 (elapsed l) q ->
       fades k d0 (elapsed l + d) (qmax 0 (q - d * k))).
    { intros k d0 q d Hd Hk F. assert (0 <= d * k) by (apply Qmult_le_0_compat; auto).
      destruct (qmax_spec 0 (q - d * k)) as [[E C]|[E C]]; destruct F as [[F1 F2]|[F1 F2]]; unfold fades; rewrite E;
       try (left; split; lra); right; split; lra. }
    specialize (IH H1 D0 B0) as [I1 I2].
    assert (Same : forall k d0 q, fades k d0 (elapsed l) q -> fades k d0 (elapsed l + 0) q).
    { intros k d0 q [[F1 F2]|[F1 F2]]; [left|right]; split; lra. }
    assert (Pr : forall k d0 q, fades k d0 (elapsed l + match a with Tick d _ => d | _ => 0 end) q -> fades k d0 (elapsed (l ++ [a])) q).
    { intros k d0 q [[F1 F2]|[F1 F2]]; [left|right]; split; rewrite ?El; auto. }
    rewrite app_assoc in One. rewrite app_assoc, play_snoc in *.
    split.
    + destruct I1 as [I1|I1]; [left; auto|]. destruct a as [d|d rnd]; [right; apply Pr, Same, I1|].
      revert One Pr. cbn [update]. unfold tick. destruct (hits _ _ _); [|destruct (_ && _)]; cbn [death_anim]; intros One Pr.
      * right. apply Pr, Go; auto. discriminate.
      * left. apply One. reflexivity.
      * right. apply Pr, Go; auto. discriminate.
    + destruct I2 as [I2|I2]; [left; auto|]. destruct a as [d|d rnd]; [right; apply Pr, Same, I2|].
      revert One Pr. cbn [update]. unfold tick. destruct (hits _ _ _); [|destruct (_ && _)]; cbn [bounce_anim]; intros One Pr.
      * left. apply One. reflexivity.
      * right. apply Pr, Go; auto. discriminate.
      * right. apply Pr, Go; auto. discriminate.
Qed.
Theorem fading : forall p l, Forall forwards (p ++ l) ->
  (relit death_anim p l \/ fades (1 # 1000) (death_anim (play p)) (elapsed l) (death_anim (play (p ++ l)))) /\
  (relit bounce_anim p l \/ fades (2 # 1000) (bounce_anim (play p)) (elapsed l) (bounce_anim (play (p ++ l)))).
Proof.
  intros p l H. apply Forall_app in H as [H1 H2]. destruct (lights p H1) as [[D _] [B _]]. apply lit; auto.
Qed.

(** ** The mouse *)
Theorem mouse : forall g delta, let g' := update g (Paddle_move delta) in
  nearest (paddle_x g + delta / 2) (paddle_x g') /\
  ball g' = ball g /\ ball_v g' = ball_v g /\ score g' = score g /\ max_score g' = max_score g.
Proof.
  intros g delta g'. unfold g'. cbn [update move ball ball_v score max_score paddle_x]. split; auto.
  assert (E : delta / 2 == delta * paddle_sens) by (unfold paddle_sens; field).
  unfold nearest, window_width, paddle_width. set (t := paddle_x g + delta * paddle_sens).
  set (q := qmax 0 (qmin (800 - 100) t)).
  assert (Q : (t <= 0 /\ q == 0) \/ (700 <= t /\ q == 700) \/ (0 <= t /\ t <= 700 /\ q == t)).
  { unfold q. destruct (qmax_spec 0 (qmin (800 - 100) t)) as [[-> C]|[-> C]];
      destruct (qmin_spec (800 - 100) t) as [[E1 D]|[E1 D]]; rewrite E1 in *; lra. }
  assert (T : paddle_x g + delta / 2 == t) by (unfold t; rewrite E; reflexivity).
  clearbody q t. clear E g'. split; [destruct Q as [[A Q]|[[A Q]|(A & B & Q)]]; rewrite Q; split; lra|]. intros r R0 R1. rewrite T.
  assert (R2 : 0 <= (r - t) * (r - t)).
  { generalize (r - t). intros z. clear. nra. }
  destruct Q as [[A Q]|[[A Q]|(A & B & Q)]]; rewrite Q.
  - assert (0 <= r * (r - 2 * t)) by (apply Qmult_le_0_compat; lra). lra.
  - assert (0 <= (700 - r) * (2 * t - r - 700)) by (apply Qmult_le_0_compat; lra). lra.
  - lra.
Qed.
Theorem still : forall g delta rnd, paddle_x (update g (Tick delta rnd)) = paddle_x g.
Proof. intros. cbn [update]. unfold tick. destruct (hits _ _ _); [|destruct (_ && _)]; reflexivity. Qed.

(** ** Why the lights are on *)
Lemma elapsed_snoc l a : elapsed (l ++ [a]) == elapsed l + elapsed [a].
Proof. induction l as [|[d|d r] l IH]; cbn [elapsed app] in *; [lra| |]; rewrite IH; cbn [elapsed]; lra. Qed.
Theorem lit_by : forall l, Forall forwards l ->
  (0 < bounce_anim (play l) -> exists l1 a l2, l = l1 ++ a :: l2 /\
     score (play (l1 ++ [a])) = S (score (play l1)) /\ bounce_anim (play l) == 1 - elapsed l2 * (2 # 1000)) /\
  (0 < death_anim (play l) -> exists l1 delta rnd l2, l = l1 ++ Tick delta rnd :: l2 /\
     0 < y (ball_v (play l1)) /\ 584 <= y (ahead (play l1) delta) /\
     death_anim (play l) == 1 - elapsed l2 * (1 # 1000)).
Proof.
  induction l as [|a l IH] using rev_ind; intro H; [split; cbn; intro N; exfalso; lra|].
  apply Forall_app in H as [H1 H2]; inversion H2 as [|? ? A _]; subst; destruct (IH H1) as [IB ID].
  assert (F : forall k q, 0 <= k -> 0 < qmax 0 (q - elapsed [a] * k) -> 0 < q /\ qmax 0 (q - elapsed [a] * k) == q - elapsed [a] * k).
  { intros k q K N.
    assert (0 <= elapsed [a]) by (destruct a; cbn [elapsed forwards] in *; lra).
    assert (0 <= elapsed [a] * k) by (apply Qmult_le_0_compat; auto).
    destruct (qmax_spec 0 (q - elapsed [a] * k)) as [[E C]|[E C]]; rewrite E in N; split; try lra; rewrite E; lra. }
  assert (KB : forall b, 0 < b -> b == bounce_anim (play l) - elapsed [a] * (2 # 1000) ->
    0 < bounce_anim (play l) -> exists l1 c l2, l ++ [a] = l1 ++ c :: l2 /\
     score (play (l1 ++ [c])) = S (score (play l1)) /\ b == 1 - elapsed l2 * (2 # 1000)).
  { intros b B E Z; destruct (IB Z) as (l1 & c & l2 & E1 & E2 & E3); exists l1, c, (l2 ++ [a]).
    split; [rewrite E1, <- app_assoc; reflexivity|]; split; auto; rewrite elapsed_snoc; lra. }
  assert (KD : forall b, 0 < b -> b == death_anim (play l) - elapsed [a] * (1 # 1000) ->
    0 < death_anim (play l) -> exists l1 delta rnd l2, l ++ [a] = l1 ++ Tick delta rnd :: l2 /\
     0 < y (ball_v (play l1)) /\ 584 <= y (ahead (play l1) delta) /\ b == 1 - elapsed l2 * (1 # 1000)).
  { intros b B E Z; destruct (ID Z) as (l1 & c & r & l2 & E1 & E2 & E3 & E4); exists l1, c, r, (l2 ++ [a]).
    split; [rewrite E1, <- app_assoc; reflexivity|]; split; auto; split; auto; rewrite elapsed_snoc; lra. }
  rewrite play_snoc; destruct a as [d|delta rnd]; cbn [update].
  - split; intro N; [apply KB|apply KD]; auto; cbn [elapsed move bounce_anim death_anim] in *; lra.
  - assert (E0 : elapsed [Tick delta rnd] == delta) by (cbn [elapsed]; lra).
    cbn [elapsed] in F, KB, KD.
    assert (FB : 0 < qmax 0 (bounce_anim (play l) - delta * bounce_anim_speed) ->
       0 < bounce_anim (play l) /\ qmax 0 (bounce_anim (play l) - delta * bounce_anim_speed) == bounce_anim (play l) - (delta + 0) * (2 # 1000)).
    { intro N; unfold bounce_anim_speed in *.
      destruct (qmax_spec 0 (bounce_anim (play l) - delta * (2 # 1000))) as [[E C]|[E C]]; rewrite E in N; [lra|].
      cbn in A; split; [lra|rewrite E; lra]. }
    assert (FD : 0 < qmax 0 (death_anim (play l) - delta * death_anim_speed) ->
       0 < death_anim (play l) /\ qmax 0 (death_anim (play l) - delta * death_anim_speed) == death_anim (play l) - (delta + 0) * (1 # 1000)).
    { intro N; unfold death_anim_speed in *.
      destruct (qmax_spec 0 (death_anim (play l) - delta * (1 # 1000))) as [[E C]|[E C]]; rewrite E in N; [lra|].
      cbn in A; split; [lra|rewrite E; lra]. }
    pose proof (play_snoc l (Tick delta rnd)) as P1; cbn [update] in P1.
    unfold tick in *; cbv zeta in *.
    destruct (hits (play l) _ _) eqn:Eh; [|destruct (andb (ltb 0 _) _) eqn:Ef];
      cbn [bounce_anim death_anim]; split; intro N.
    + exists l, (Tick delta rnd), []; split; auto; split; [rewrite P1; reflexivity|cbn [elapsed]; lra].
    + destruct (FD N) as [X Y]; apply KD; auto.
    + destruct (FB N) as [X Y]; apply KB; auto.
    + exists l, delta, rnd, []; split; auto.
      apply andb_true_iff in Ef as [E1 E2]; apply Qle_bool_iff in E2.
      apply ltb_true in E1; rewrite ahead_tick in E1, E2.
      unfold window_height, padding, ball_r in E2.
      assert (Y : y (walls (ball_v (play l)) (ahead (play l) delta)) = y (ball_v (play l))).
      { unfold walls; cbv zeta; destruct (_ || _); cbn [x y];
          (replace (Qle_bool (y (ahead (play l) delta) - ball_r) padding) with false;
           [rewrite andb_false_r; reflexivity|symmetry; apply not_true_iff_false; intro Q;
            apply Qle_bool_iff in Q; unfold ball_r, padding in Q; lra]). }
      rewrite Y in E1; split; auto; split; [lra|cbn [elapsed]; lra].
    + destruct (FB N) as [X Y]; apply KB; auto.
    + destruct (FD N) as [X Y]; apply KD; auto.
Qed.
