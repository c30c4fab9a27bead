From Coq Require Import List QArith Lqa Lia Arith Bool.
From Verif Require Import PongModel PongSpec PongSegments.
Import ListNotations.
Open Scope Q_scope.

Lemma qmax_spec : forall a b, (qmax a b == a /\ b <= a) \/ (qmax a b == b /\ a < b).
Proof. intros. unfold qmax. cmp a b; [right|left]; split; auto; reflexivity. Qed.
Lemma qmin_spec : forall a b, (qmin a b == b /\ b < a) \/ (qmin a b == a /\ a <= b).
Proof. intros. unfold qmin. cmp b a; [left|right]; split; auto; reflexivity. Qed.
Lemma le_true : forall a b, Qle_bool a b = true <-> a <= b.
Proof. intros. apply Qle_bool_iff. Qed.
Lemma le_false : forall a b, Qle_bool a b = false <-> b < a.
Proof.
  intros a b. destruct (Qle_bool a b) eqn:E; split; intros H; try discriminate; auto.
  - apply le_true in E. lra.
  - destruct (Qlt_le_dec b a); auto. apply le_true in q. congruence.
Qed.

Lemma play_snoc : forall l a, play (l ++ [a]) = update (play l) a.
Proof. intros. unfold play. now rewrite fold_left_app. Qed.
Lemma play_ind : forall (R : list action -> model -> Prop), R [] start ->
  (forall l a, R l (play l) -> R (l ++ [a]) (update (play l) a)) -> forall l, R l (play l).
Proof. intros R H0 H1 l. induction l as [|a l IH] using rev_ind; [exact H0|]. rewrite play_snoc. auto. Qed.

(** ** The paddle *)
Theorem paddle : forall l, 0 <= paddle_x (play l) /\ paddle_x (play l) <= 700.
Proof.
  apply (play_ind (fun _ g => 0 <= paddle_x g /\ paddle_x g <= 700)).
  - cbn. unfold Qle. cbn. lia.
  - intros l [d|d r] H; cbn [update].
    + cbn [move paddle_x]. destruct (qmin_spec (window_width - paddle_width) (paddle_x (play l) + d * paddle_sens)) as [[Em Hm]|[Em Hm]];
        destruct (qmax_spec 0 (qmin (window_width - paddle_width) (paddle_x (play l) + d * paddle_sens))) as [[Ex Hx]|[Ex Hx]];
        rewrite Ex; rewrite ?Em in *; unfold window_width, paddle_width in *; lra.
    + unfold tick. destruct (hits _ _ _); [|destruct (_ && _)]; exact H.
Qed.

(** ** The speed *)
Lemma speed_pos : forall n, 1 # 5 <= speed n.
Proof. induction n as [|n IH]; cbn [speed]; lra. Qed.
Lemma walls_x : forall v b, x (walls v b) = x v \/ x (walls v b) = - x v.
Proof. intros. unfold walls. destruct (_ || _); cbn [x y]; destruct (_ && _); cbn; auto. Qed.
Lemma walls_y : forall v b, y (walls v b) = y v \/ y (walls v b) = - y v.
Proof. intros. unfold walls. destruct (_ || _); cbn [x y]; destruct (_ && _); cbn; auto. Qed.
Lemma pm_opp : forall v k, plus_or_minus v k -> plus_or_minus (- v) k.
Proof. intros v k [H|H]; [right|left]; rewrite H; ring. Qed.
Lemma pm_walls : forall v b k, plus_or_minus (x v) k -> plus_or_minus (y v) k ->
  plus_or_minus (x (walls v b)) k /\ plus_or_minus (y (walls v b)) k.
Proof.
  intros v b k Hx Hy. split; [destruct (walls_x v b) as [-> | ->]|destruct (walls_y v b) as [-> | ->]]; auto using pm_opp.
Qed.
Theorem speeds : forall l, plus_or_minus (x (ball_v (play l))) (speed (score (play l))) /\
  plus_or_minus (y (ball_v (play l))) (speed (score (play l))).
Proof.
  apply (play_ind (fun _ g => plus_or_minus (x (ball_v g)) (speed (score g)) /\ plus_or_minus (y (ball_v g)) (speed (score g)))).
  - split; left; reflexivity.
  - intros l [d|d r] [Hx Hy]; cbn [update]; [split; auto|].
    unfold tick. set (b := plus _ _). destruct (pm_walls _ b _ Hx Hy) as [Wx Wy].
    destruct (hits _ _ _); [|destruct (_ && _)]; cbn [ball_v score x y times speed]; auto.
    + unfold ball_a. split; [destruct Wx as [W|W]; [left|right]; rewrite W; ring|].
      destruct Wy as [W|W]; [right|left]; rewrite W; ring.
    + split; left; reflexivity.
Qed.

(** ** Scores *)
Definition scores (l : list action) : list nat := map score (states l).
Lemma states_snoc : forall l a, states (l ++ [a]) = states l ++ [play (l ++ [a])].
Proof.
  intros l a. unfold states. rewrite app_length, Nat.add_1_r.
  rewrite seq_S, map_app. f_equal.
  - apply map_ext_in. intros n Hn. apply in_seq in Hn. rewrite firstn_app. replace (n - length l)%nat with 0%nat by lia.
    cbn. now rewrite app_nil_r.
  - cbn [map plus Nat.add]. rewrite <- (Nat.add_1_r (length l)). f_equal. rewrite <- (firstn_all (l ++ [a])) at 2.
    rewrite app_length. reflexivity.
Qed.
Lemma states_last : forall l, exists r, states l = r ++ [play l].
Proof.
  intros l. destruct l as [|a l] using rev_ind; [exists []; reflexivity|]. rewrite states_snoc. eauto.
Qed.
Lemma lost_cons : forall c d r, lost (c :: d :: r) = if (d <? c)%nat then c :: lost (d :: r) else lost (d :: r).
Proof. reflexivity. Qed.
Lemma lost_snoc : forall l a b, lost (l ++ [a; b]) = lost (l ++ [a]) ++ if (b <? a)%nat then [a] else [].
Proof.
  induction l as [|c l IH]; intros a b; [cbn [app lost]; destruct (b <? a)%nat; reflexivity|].
  destruct l as [|d l].
  - cbn [app lost]. destruct (a <? c)%nat, (b <? a)%nat; reflexivity.
  - rewrite <- !app_comm_cons, !lost_cons, !app_comm_cons, IH. destruct (d <? c)%nat; reflexivity.
Qed.
Theorem best : forall l, max_score (play l) = list_max (lost (scores l)).
Proof.
  induction l as [|a l IH] using rev_ind; [reflexivity|].
  unfold scores in *. rewrite states_snoc. destruct (states_last l) as [r E]. rewrite E in *.
  rewrite <- app_assoc, map_app. cbn [app map]. rewrite lost_snoc. rewrite map_app in IH. cbn [map] in IH.
  rewrite list_max_app, <- IH, play_snoc. destruct a as [d|d rnd]; cbn [update].
  - cbn [move max_score score]. rewrite Nat.ltb_irrefl. cbn. lia.
  - unfold tick. destruct (hits _ _ _); [|destruct (_ && _)]; cbn [max_score score].
    + replace (S (score (play l)) <? score (play l))%nat with false by (symmetry; apply Nat.ltb_ge; lia). cbn. lia.
    + destruct (0 <? score (play l))%nat eqn:Z; cbn; [lia|]. apply Nat.ltb_ge in Z. lia.
    + rewrite Nat.ltb_irrefl. cbn. lia.
Qed.

(** ** Hitting the paddle *)
Lemma hits_near : forall g v b, hits g v b = true ->
  0 < y v /\ exists s t, within s /\ within t /\ dist2 (along (ball g) b s) (along (left_end g) (right_end g) t) < 16.
Proof.
  intros g v b H. unfold hits in H. apply andb_prop in H as [H1 H2]. apply ltb_true in H1. apply ltb_true in H2.
  split; auto.
  set (q1 := P (paddle_x g - ball_r) paddle_y) in *. set (q2 := P (paddle_x g + paddle_width + ball_r) paddle_y) in *.
  destruct (distance_sound (ball g) b q1 q2) as (s & t & Ws & Wt & E).
  { unfold dist2, q1, q2. cbn [x y]. unfold paddle_width, ball_r. nra. }
  exists s, t. split; auto. split; auto. rewrite E in H2.
  assert (X : dist2 (along (ball g) b s) (along (left_end g) (right_end g) t) == dist2 (along (ball g) b s) (along q1 q2 t)).
  { unfold dist2, along, left_end, right_end, q1, q2, paddle_width, ball_r, paddle_y, window_height, padding, paddle_height. cbn [x y]. ring. }
  rewrite X. unfold ball_r in H2. lra.
Qed.
Lemma ahead_tick : forall g d, plus (ball g) (times (ball_v g) d) = ahead g d.
Proof. reflexivity. Qed.
Theorem bounces : forall g delta rnd, score (update g (Tick delta rnd)) = S (score g) ->
  let g' := update g (Tick delta rnd) in
  ball g' = ball g /\ y (ball_v g') < 0 /\ bounce_anim g' = 1 /\
  (24 < x (ahead g delta) -> x (ahead g delta) < 776 -> x (ball_v g') == (11 # 10) * x (ball_v g)) /\
  exists s t, within s /\ within t /\
    dist2 (along (ball g) (ahead g delta) s) (along (left_end g) (right_end g) t) < 16.
Proof.
  intros g delta rnd H g'. unfold g' in *. cbn [update] in *. unfold tick in *. rewrite ahead_tick in *.
  destruct (hits g (walls (ball_v g) (ahead g delta)) (ahead g delta)) eqn:E.
  - cbn [ball ball_v y times]. destruct (hits_near _ _ _ E) as [Hy N]. split; auto.
    split; [unfold ball_a; lra|]. split; auto. split; auto. intros A B. cbn [x y times]. unfold ball_a.
    assert (W : x (walls (ball_v g) (ahead g delta)) = x (ball_v g)); [|rewrite W; lra].
    unfold walls, padding, window_width, ball_r.
    replace (Qle_bool (x (ahead g delta) - 4) 20) with false by (symmetry; apply le_false; lra).
    replace (Qle_bool (800 - 20) (x (ahead g delta) + 4)) with false by (symmetry; apply le_false; lra).
    rewrite !andb_false_r. cbn [orb]. destruct (ltb (y (ball_v g)) 0 && _); reflexivity.
  - destruct (_ && _); cbn [score] in H; [discriminate|]. lia.
Qed.
