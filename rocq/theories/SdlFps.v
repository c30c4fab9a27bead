(** Proofs for constant_fps_step. *)
From Coq Require Import List Arith Bool ZArith QArith Qround Lia Lqa.
From Verif Require Import SdlModel SdlSpec.
Import ListNotations.
Local Open Scope Z_scope.

Lemma small_mod x : 0 <= x < two31 -> x mod two32 = x.
Proof. intros H. apply Z.mod_small. unfold two31, two32 in *. lia. Qed.
Lemma small_int x : 0 <= x < two31 -> to_int x = x.
Proof.
  intros H. unfold to_int. rewrite Z.mod_small; unfold two31, two32 in *; lia.
Qed.
Lemma to_int_mod x : (to_int x) mod two32 = x mod two32.
Proof.
  unfold to_int. rewrite Zminus_mod, Zmod_mod, <- Zminus_mod. f_equal. lia.
Qed.
Lemma delta_eq now prev : 0 <= now - prev < two32 ->
  (now mod two32 - to_int (prev mod two32)) mod two32 = now - prev.
Proof.
  intros H. rewrite Zminus_mod, to_int_mod, !Zmod_mod, <- Zminus_mod. apply Z.mod_small. exact H.
Qed.

(** The time up to which the last call waited, at least. *)
Definition goal (f : fps) : Q :=
  (inject_Z (last f) + per_frame f * inject_Z (Z.of_nat (frames f) - 1))%Q.
Definition target (f : fps) : Q :=
  (inject_Z (last f) + per_frame f * inject_Z (Z.of_nat (frames f)))%Q.
Lemma target_goal f : (target f == goal f + per_frame f)%Q.
Proof.
  unfold target, goal, Z.sub. rewrite inject_Z_plus. change (inject_Z (- (1))) with (- (1))%Q. ring.
Qed.

Lemma step_spec now later f d dt f' : 0 <= now <= later -> later < two31 ->
  fps_step (now mod two32) (later mod two32) f = (d, dt, f') ->
  per_frame f' = per_frame f /\ max_frame f' = max_frame f /\
  (inject_Z now <= goal f')%Q /\ (target f <= goal f')%Q /\
  match d with
  | Some n => (inject_Z now <= target f /\ goal f' == target f)%Q /\ n = Qfloor (target f - inject_Z now)
  | None => (target f < inject_Z now)%Q /\ (goal f' == inject_Z later)%Q
  end.
Proof.
  intros H L E. unfold fps_step in E. rewrite (small_mod now), (small_mod later) in E by lia.
  change (inject_Z (last f) + per_frame f * inject_Z (Z.of_nat (frames f)))%Q with (target f) in E.
  destruct (Qle_bool (inject_Z now) (target f)) eqn:B; injection E as <- <- <-;
    simpl per_frame; simpl max_frame; split; auto; split; auto.
  - apply Qle_bool_iff in B.
    assert (G : (goal (Fps (per_frame f) (max_frame f) (to_int now) (S (frames f)) (last f)) == target f)%Q).
    { unfold goal, target. simpl last. simpl per_frame. simpl frames.
      replace (Z.of_nat (S (frames f)) - 1) with (Z.of_nat (frames f)) by lia. reflexivity. }
    split; [lra|split; [lra|split; [split; [exact B|exact G]|reflexivity]]].
  - assert (B' : ~ (inject_Z now <= target f)%Q) by (intros X; apply Qle_bool_iff in X; congruence).
    apply Qnot_le_lt in B'.
    assert (G : (goal (Fps (per_frame f) (max_frame f) (to_int now) 1 (to_int later)) == inject_Z later)%Q).
    { unfold goal. simpl last. simpl per_frame. simpl frames. rewrite (small_int later) by lia.
      change (Z.of_nat 1 - 1) with 0. ring. }
    assert (X : (inject_Z now <= inject_Z later)%Q) by (rewrite <- Zle_Qle; lia).
    split; [lra|split; [lra|split; [exact B'|exact G]]].
Qed.

Lemma floor_gt x : (x - 1 < inject_Z (Qfloor x))%Q.
Proof. pose proof (Qlt_floor x) as H. rewrite inject_Z_plus in H. change (inject_Z 1) with 1%Q in H. lra. Qed.

(** A call ends at most a millisecond before its goal. *)
Lemma step_end c f d dt f' : 0 <= c_now c <= c_later c -> c_later c <= c_end c -> c_end c < two31 ->
  fps_step (c_now c mod two32) (c_later c mod two32) f = (d, dt, f') ->
  match d with Some n => c_now c + n <= c_end c | None => True end ->
  (goal f' - 1 < inject_Z (c_end c))%Q.
Proof.
  intros H H2 L E D. destruct (step_spec _ _ _ _ _ _ H ltac:(lia) E) as (_ & _ & _ & _ & S).
  destruct d as [n|].
  - destruct S as [[S1 S2] S3]. rewrite S2.
    assert (X : (inject_Z (c_now c) + inject_Z n <= inject_Z (c_end c))%Q)
      by (rewrite <- inject_Z_plus, <- Zle_Qle; lia).
    pose proof (floor_gt (target f - inject_Z (c_now c))). rewrite <- S3 in H0. lra.
  - destruct S as [S1 S2]. rewrite S2.
    assert (X : (inject_Z (c_later c) <= inject_Z (c_end c))%Q) by (rewrite <- Zle_Qle; lia). lra.
Qed.

Notation before t cs := (Forall (fun c => c_end c < t) cs).

Lemma after_call cs : forall e f k c, 0 <= e -> calls e f cs -> before two31 cs ->
  (0 <= per_frame f)%Q -> nth_error cs k = Some c ->
  (goal f + per_frame f * inject_Z (Z.of_nat (S k)) - 1 < inject_Z (c_end c))%Q.
Proof.
  induction cs as [|c0 cs IH]; intros e f k c He C B P N; [destruct k; discriminate|].
  simpl in C. destruct C as ((T1 & T2) & C). inversion B; subst.
  destruct (fps_step (c_now c0 mod two32) (c_later c0 mod two32) f) as [[d dt] f'] eqn:E.
  destruct C as (_ & _ & D & C).
  destruct (step_spec _ _ _ _ _ _ ltac:(split; [|apply T1]; lia) ltac:(lia) E) as (P' & _ & _ & G & _).
  pose proof (step_end c0 f d dt f' ltac:(lia) T2 H1 E D) as En.
  rewrite target_goal in G.
  destruct k as [|k].
  - simpl in N. injection N as <-. change (inject_Z (Z.of_nat 1)) with 1%Q. lra.
  - simpl in N. specialize (IH (c_end c0) f' k c ltac:(lia) C H2 ltac:(rewrite P'; auto) N).
    rewrite P' in IH.
    assert (X : (inject_Z (Z.of_nat (S (S k))) == inject_Z (Z.of_nat (S k)) + 1)%Q).
    { rewrite Nat2Z.inj_succ. unfold Z.succ. rewrite inject_Z_plus. reflexivity. }
    rewrite X. lra.
Qed.

Lemma from_end cs e f k c : 0 <= e -> calls e f cs -> before two31 cs ->
  (0 <= per_frame f)%Q -> nth_error cs k = Some c ->
  (inject_Z e + per_frame f * inject_Z (Z.of_nat k) - 1 < inject_Z (c_end c))%Q.
Proof.
  destruct cs as [|c0 cs]; intros He C B P N; [destruct k; discriminate|].
  simpl in C. destruct C as ((T1 & T2) & C). inversion B; subst.
  destruct (fps_step (c_now c0 mod two32) (c_later c0 mod two32) f) as [[d dt] f'] eqn:E.
  destruct C as (_ & _ & D & C).
  destruct (step_spec _ _ _ _ _ _ ltac:(split; [|apply T1]; lia) ltac:(lia) E) as (P' & _ & G1 & _ & _).
  assert (X : (inject_Z e <= inject_Z (c_now c0))%Q) by (rewrite <- Zle_Qle; lia).
  destruct k as [|k].
  - simpl in N. injection N as <-.
    assert (Y : (inject_Z e <= inject_Z (c_end c0))%Q) by (rewrite <- Zle_Qle; lia).
    change (inject_Z (Z.of_nat 0)) with 0%Q. lra.
  - simpl in N. pose proof (after_call cs (c_end c0) f' k c ltac:(lia) C H2 ltac:(rewrite P'; auto) N) as A.
    rewrite P' in A. lra.
Qed.

Lemma calls_skip cs1 : forall e f cs2, 0 <= e -> calls e f (cs1 ++ cs2) -> before two31 (cs1 ++ cs2) ->
  exists e' f', 0 <= e' /\ per_frame f' = per_frame f /\ max_frame f' = max_frame f /\
    calls e' f' cs2 /\ before two31 cs2 /\
    match rev cs1 with c :: _ => e' = c_end c | [] => e' = e end.
Proof.
  induction cs1 as [|c cs IH]; intros e f cs2 He C B.
  - exists e, f. simpl. auto 10.
  - simpl in C. destruct C as ((T1 & T2) & C). inversion B; subst.
    destruct (fps_step (c_now c mod two32) (c_later c mod two32) f) as [[d dt] f'] eqn:E.
    destruct C as (_ & _ & D & C).
    assert (A : 0 <= c_end c) by lia.
    destruct (IH (c_end c) f' cs2 A C H2) as (e2 & f2 & Q1 & Q2 & Q3 & Q4 & Q5 & Q6).
    destruct (step_spec _ _ _ _ _ _ ltac:(split; [|apply T1]; lia) ltac:(lia) E) as (P' & M' & _).
    exists e2, f2. rewrite Q2, Q3. repeat (split; auto).
    simpl. destruct (rev cs); simpl; auto.
Qed.

(** Never faster than asked for. *)
Lemma rate_bound rate min_rate start cs i j ci cj : 0 <= start ->
  calls start (fps_new rate min_rate (start mod two32)) cs -> before two31 cs ->
  nth_error cs i = Some ci -> nth_error cs j = Some cj -> (i < j)%nat ->
  ((1000 # rate) * inject_Z (Z.of_nat (j - i - 1)) - 1 < inject_Z (c_end cj - c_end ci))%Q.
Proof.
  intros He C B Ni Nj L.
  destruct (nth_error_split cs i Ni) as (l1 & l2 & -> & Li).
  replace (l1 ++ ci :: l2) with ((l1 ++ [ci]) ++ l2) in * by (rewrite <- app_assoc; reflexivity).
  destruct (calls_skip _ _ _ _ He C B) as (e & f & He' & P & _ & C2 & B2 & Ee).
  rewrite rev_app_distr in Ee. simpl in Ee. subst e.
  rewrite nth_error_app2 in Nj by (rewrite app_length; simpl; lia).
  rewrite app_length in Nj. simpl in Nj.
  replace (j - (length l1 + 1))%nat with (j - i - 1)%nat in Nj by lia.
  assert (P0 : (0 <= per_frame f)%Q) by (rewrite P; simpl; unfold Qle; simpl; lia).
  pose proof (from_end l2 (c_end ci) f (j - i - 1) cj He' C2 B2 P0 Nj) as A.
  rewrite P in A. simpl per_frame in A.
  unfold Z.sub. rewrite inject_Z_plus, inject_Z_opp. lra.
Qed.

(** Never sleeps longer than a frame. *)
Lemma delay_bound_aux cs : forall e f c d, 0 <= e -> calls e f cs -> before two31 cs ->
  (0 <= per_frame f)%Q -> (target f <= inject_Z e + per_frame f + 1)%Q ->
  (target f < inject_Z e + per_frame f + 1)%Q ->
  In c cs -> c_delay c = Some d -> 0 <= d /\ (inject_Z d < per_frame f + 1)%Q.
Proof.
  induction cs as [|c0 cs IH]; intros e f c d He C B P T T' I D; [destruct I|].
  simpl in C. destruct C as ((T1 & T2) & C). inversion B; subst.
  destruct (fps_step (c_now c0 mod two32) (c_later c0 mod two32) f) as [[d0 dt] f'] eqn:E.
  destruct C as (D0 & _ & D1 & C).
  destruct (step_spec _ _ _ _ _ _ ltac:(split; [|apply T1]; lia) ltac:(lia) E) as (P' & _ & G1 & G2 & S).
  assert (X : (inject_Z e <= inject_Z (c_now c0))%Q) by (rewrite <- Zle_Qle; lia).
  destruct I as [<-|I].
  - rewrite D in D0. subst d0. destruct S as [[S1 S2] S3]. subst d.
    pose proof (Qfloor_le (target f - inject_Z (c_now c0))). split; [|lra].
    rewrite Zle_Qle. pose proof (Qfloor_resp_le 0 (target f - inject_Z (c_now c0)) ltac:(lra)) as Y.
    change (Qfloor 0) with 0 in Y. rewrite <- Zle_Qle. exact Y.
  - pose proof (step_end c0 f d0 dt f' ltac:(lia) T2 H1 E D1) as En.
    rewrite <- P'. apply (IH (c_end c0) f' c d ltac:(lia) C H2); auto; try (rewrite P'; auto; fail);
      rewrite target_goal; lra.
Qed.
Lemma delay_bound rate min_rate start cs c d : 0 <= start ->
  calls start (fps_new rate min_rate (start mod two32)) cs -> before two31 cs ->
  In c cs -> c_delay c = Some d -> 0 <= d /\ (inject_Z d < (1000 # rate) + 1)%Q.
Proof.
  intros He C B I D.
  assert (P0 : (0 <= 1000 # rate)%Q) by (unfold Qle; simpl; lia).
  assert (X : (0 <= inject_Z start)%Q) by (change 0%Q with (inject_Z 0); rewrite <- Zle_Qle; lia).
  assert (T : (target (fps_new rate min_rate (start mod two32)) == 0)%Q).
  { unfold target, fps_new. simpl last. simpl per_frame. simpl frames.
    change (inject_Z 0) with 0%Q. change (inject_Z (Z.of_nat 0)) with 0%Q. ring. }
  apply (delay_bound_aux cs start (fps_new rate min_rate (start mod two32)) c d He C B); auto; rewrite T;
    simpl per_frame; lra.
Qed.

(** The result: the time since the call before, cut off; at any time of day. *)
Lemma dt_exact cs : forall e f prev, ticks f = to_int (prev mod two32) -> prev <= e ->
  calls e f cs -> deltas (max_frame f) prev cs.
Proof.
  induction cs as [|c cs IH]; intros e f prev T L C; simpl; auto.
  simpl in C. destruct C as ((T1 & T2) & C).
  destruct (fps_step (c_now c mod two32) (c_later c mod two32) f) as [[d dt] f'] eqn:E.
  destruct C as (_ & D & D1 & C). split.
  - intros G. unfold fps_step in E. rewrite T, delta_eq in E by lia.
    assert (X : dt = qmin (inject_Z (c_now c - prev)) (max_frame f)).
    { destruct (Qle_bool _ _) in E; injection E as <- <- <-; auto. }
    rewrite D, X. unfold qmin. destruct (Qle_bool (inject_Z (c_now c - prev)) (max_frame f)) eqn:Q.
    + apply Qle_bool_iff in Q. left. split; [reflexivity|auto].
    + right. split; [reflexivity|]. apply Qnot_le_lt. intros Y. apply Qle_bool_iff in Y. congruence.
  - assert (M : max_frame f' = max_frame f /\ ticks f' = to_int (c_now c mod two32)).
    { unfold fps_step in E. destruct (Qle_bool _ _) in E; injection E as <- <- <-; auto. }
    destruct M as (M1 & M2). rewrite <- M1. apply (IH (c_end c) f' (c_now c)); auto. lia.
Qed.
Lemma dt_new rate min_rate start cs : 
  calls start (fps_new rate min_rate (start mod two32)) cs -> deltas (1000 # min_rate) start cs.
Proof.
  intros C. apply (dt_exact cs start (fps_new rate min_rate (start mod two32)) start); auto. lia.
Qed.
