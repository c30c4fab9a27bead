(** C16, part 1: the relation between the two executions, and downward
    propagation. *)
From Coq Require Import List Arith Bool Lia.
From Verif Require Import NodesModel NodesBase NodesDropSpec.
Import ListNotations.

Section Drop.
Context {V W : Type}.
Variable changed : V -> V -> bool.
Variable n : nat.

Set Default Proof Using "Type".
Implicit Types g : graph V W.
Implicit Types s : st V W.

Notation psame := (psame (W:=W) n).
Notation ksame := (ksame (V:=V) (W:=W) n).
Notation send_down := (send_down changed).
Notation trace := (trace (V:=V) (W:=W) n).

(** ** Skeleton: what aliveness depends on *)
Record skel g g' : Prop := {
  sk_cnt : cnt g' = cnt g;
  sk_nexts : nexts g' = nexts g;
  sk_pins : pins g' = pins g;
  sk_world : world g' = world g;
  sk_kind : forall m, kind_of g' m = kind_of g m;
  sk_par : forall m, parents g' m = parents g m;
  sk_held : forall m, n_held (nd g' m) = n_held (nd g m);
  sk_slots : forall m, slots g' m = slots g m
}.
Lemma skel_refl : forall g, skel g g.
Proof. intros; split; auto. Qed.
Lemma skel_trans : forall a b c, skel a b -> skel b c -> skel a c.
Proof. intros a b c [] []; split; intros; congruence. Qed.
Lemma skel_ss : forall g g', same_struct g g' -> skel g g'.
Proof. intros g g' []; split; auto. Qed.
Lemma skel_upd : forall g m h,
  (forall a, n_kind (h a) = n_kind a /\ n_parents (h a) = n_parents a /\
     n_held (h a) = n_held a /\ n_slots (h a) = n_slots a) ->
  skel g (upd g m h).
Proof.
  intros g m h H. split; auto; intros k;
    unfold kind_of, parents, slots; simpl;
    destruct (Nat.eqb_spec k m); auto; subst; apply (H (nd g m)).
Qed.
Lemma skel_handle : forall g g' m, skel g g' -> handle g' m = handle g m.
Proof. intros g g' m K. unfold handle. now rewrite (sk_cnt _ _ K), (sk_held _ _ K), (sk_slots _ _ K). Qed.
Lemma skel_alive : forall g g' m, skel g g' -> alive g' m = alive g m.
Proof.
  intros g g' m K. unfold alive. rewrite (sk_cnt _ _ K), (sk_pins _ _ K).
  apply existsb_ext_in. intros k _. rewrite (skel_handle _ _ _ K).
  now rewrite (ancb_ext _ g g' m k (sk_par _ _ K)).
Qed.

(** ** The relation *)
Definition slot_same (a b : slot V W) : Prop :=
  fst a = fst b /\
  forall v x x', obs_le n x x' -> psame x' (snd a v x) (snd b v x').

Definition vals (a b : node V W) : Prop :=
  n_cur a = n_cur b /\ n_last a = n_last b /\ n_nsd a = n_nsd b /\ n_nn a = n_nn b /\
  n_ntf a = n_ntf b /\ n_rcp a = n_rcp b /\ n_hist a = n_hist b.

Record R (gL gR : graph V W) : Prop := {
  r_cnt : cnt gL = cnt gR;
  r_nexts : nexts gL = nexts gR;
  r_pins : pins gL = pins gR;
  r_world : world gL = world gR;
  r_par : forall m, parents gL m = parents gR m;
  r_kind : forall m, ksame (kind_of gL m) (kind_of gR m);
  r_held : forall m, m <> n -> n_held (nd gL m) = n_held (nd gR m);
  r_heldn : n_held (nd gL n) <= n_held (nd gR n);
  r_slots : forall m, m <> n -> Forall2 slot_same (slots gL m) (slots gR m);
  r_slotsn : forall sid, In sid (map fst (slots gL n)) -> In sid (map fst (slots gR n));
  r_quietL : forall sl, In sl (slots gL n) -> quiet (snd sl);
  r_quietR : forall sl, In sl (slots gR n) -> quiet (snd sl);
  r_vals : forall m, alive gL m = true -> vals (nd gL m) (nd gR m);
  r_kids : forall m, alive gL m = true ->
    filter (alive gL) (children gL m) = filter (alive gL) (children gR m)
}.

Definition RS s s' : Prop := R (gr s) (gr s') /\ trace (log s) = trace (log s').

Lemma r_handle : forall gL gR m, R gL gR -> m <> n -> handle gL m = handle gR m.
Proof.
  intros gL gR m H N. unfold handle. rewrite (r_cnt _ _ H), (r_held _ _ H m N).
  pose proof (r_slots _ _ H m N) as F. destruct F; reflexivity.
Qed.
Lemma r_handle_le : forall gL gR m, R gL gR -> handle gL m = true -> handle gR m = true.
Proof.
  intros gL gR m H E. destruct (Nat.eq_dec m n) as [->|N].
  - unfold handle in *. apply andb_true_iff in E as [E1 E2].
    rewrite <- (r_cnt _ _ H), E1. simpl. apply orb_true_iff in E2 as [E2|E2]; apply orb_true_iff.
    + left. apply Nat.ltb_lt in E2. apply Nat.ltb_lt. pose proof (r_heldn _ _ H). lia.
    + right. pose proof (r_slotsn _ _ H) as I. destruct (slots gL n) as [|sl l]; [discriminate|].
      specialize (I (fst sl) (or_introl eq_refl)). destruct (slots gR n); [destruct I|reflexivity].
  - now rewrite <- (r_handle _ _ _ H).
Qed.
Lemma r_alive : forall gL gR m, R gL gR -> alive gL m = true -> alive gR m = true.
Proof.
  intros gL gR m H A. unfold alive in *. apply existsb_exists in A as (k & K1 & K2).
  apply existsb_exists. exists k. rewrite <- (r_cnt _ _ H), <- (r_pins _ _ H). split; auto.
  apply andb_true_iff in K2 as [K2 K3]. apply andb_true_iff. split.
  - apply orb_true_iff in K2 as [K2|K2]; apply orb_true_iff; auto.
    left. eapply r_handle_le; eauto.
  - rewrite <- K3. apply ancb_ext. intros; symmetry; apply (r_par _ _ H).
Qed.

Lemma vals_refl : forall a, vals a a.
Proof. intros; repeat split. Qed.

Lemma R_skel : forall gL gR gL' gR', R gL gR -> skel gL gL' -> skel gR gR' ->
  (forall m, alive gL m = true -> vals (nd gL' m) (nd gR' m)) ->
  (forall m, alive gL m = true ->
     filter (alive gL) (children gL' m) = filter (alive gL) (children gR' m)) ->
  R gL' gR'.
Proof.
  intros gL gR gL' gR' H KL KR HV HK.
  assert (AE : forall m, alive gL' m = alive gL m) by (intros; now apply skel_alive).
  destruct H as [H1 H2 H3 H4 H5 H6 H7 H8 H9 H10 H11 H12 H13 H14].
  destruct KL as [L1 L2 L3 L4 L5 L6 L7 L8], KR as [R1 R2 R3 R4 R5 R6 R7 R8].
  split; [congruence|congruence|congruence|congruence|..].
  - intros m. now rewrite L6, R6.
  - intros m. now rewrite L5, R5.
  - intros m N. rewrite L7, R7. auto.
  - now rewrite L7, R7.
  - intros m N. rewrite L8, R8. auto.
  - intros sid. rewrite L8, R8. auto.
  - intros sl. rewrite L8. auto.
  - intros sl. rewrite R8. auto.
  - intros m A. apply HV. now rewrite <- AE.
  - intros m A. rewrite AE in A. rewrite (filter_ext _ _ AE), (filter_ext _ _ AE). auto.
Qed.

(** Changes on the right to nodes which do not exist on the left. *)
Lemma R_right : forall gL gR gR', R gL gR -> skel gR gR' ->
  (forall m, alive gL m = true -> nd gR' m = nd gR m) -> R gL gR'.
Proof.
  intros gL gR gR' H K E. apply (R_skel gL gR); auto using skel_refl.
  - intros m A. rewrite E by auto. now apply (r_vals _ _ H).
  - intros m A. unfold children. rewrite E by auto. now apply (r_kids _ _ H).
Qed.

(** The same change on both sides. *)
Lemma R_upd : forall gL gR m h, R gL gR ->
  (forall a, n_kind (h a) = n_kind a /\ n_parents (h a) = n_parents a /\
     n_held (h a) = n_held a /\ n_slots (h a) = n_slots a /\ n_children (h a) = n_children a) ->
  (forall a b, vals a b -> vals (h a) (h b)) ->
  R (upd gL m h) (upd gR m h).
Proof.
  intros gL gR m h H K HV.
  assert (K' : forall a, n_kind (h a) = n_kind a /\ n_parents (h a) = n_parents a /\
     n_held (h a) = n_held a /\ n_slots (h a) = n_slots a).
  { intros a. destruct (K a) as (A1 & A2 & A3 & A4 & A5). auto. }
  apply (R_skel gL gR); auto using skel_upd.
  - intros k A. simpl. destruct (k =? m); [apply HV|]; now apply (r_vals _ _ H).
  - intros k A. unfold children. simpl.
    destruct (k =? m); [|now apply (r_kids _ _ H)].
    destruct (K (nd gL k)) as (_ & _ & _ & _ & ->), (K (nd gR k)) as (_ & _ & _ & _ & ->).
    now apply (r_kids _ _ H).
Qed.

Lemma vals_cur : forall gL gR m, R gL gR -> alive gL m = true -> cur gL m = cur gR m.
Proof. intros. now apply (r_vals _ _ H). Qed.
Lemma vals_last : forall gL gR m, R gL gR -> alive gL m = true -> last gL m = last gR m.
Proof. intros. now apply (r_vals _ _ H). Qed.
Lemma vals_nsd : forall gL gR m, R gL gR -> alive gL m = true -> nsd gL m = nsd gR m.
Proof. intros. now apply (r_vals _ _ H). Qed.
Lemma vals_nn : forall gL gR m, R gL gR -> alive gL m = true -> nn gL m = nn gR m.
Proof. intros. now apply (r_vals _ _ H). Qed.
Lemma vals_ntf : forall gL gR m, R gL gR -> alive gL m = true -> ntf gL m = ntf gR m.
Proof. intros. now apply (r_vals _ _ H). Qed.

Lemma push_down_R : forall gL gR m v, R gL gR -> alive gL m = true ->
  R (push_down changed m v gL) (push_down changed m v gR).
Proof.
  intros gL gR m v H A. unfold push_down. rewrite (vals_cur _ _ _ H A).
  destruct (changed v (cur gR m)); auto. apply R_upd; [auto|intros []; simpl; auto 10|].
  intros [] []; unfold vals; simpl. intros (_ & ? & _ & ? & ? & ? & ?). auto 10.
Qed.

Lemma push_all_R : forall vs gL gR m, R gL gR -> alive gL m = true ->
  R (push_all changed m vs gL) (push_all changed m vs gR).
Proof.
  unfold push_all. induction vs as [|v vs IH]; intros gL gR m H A; simpl; auto.
  apply IH; [now apply push_down_R|].
  now rewrite (alive_struct _ _ _ (fc_ss _ _ _ (fc_push_down changed m v gL))).
Qed.

Lemma current_from_R : forall gL gR ps, R gL gR ->
  (forall p, In p ps -> alive gL p = true) ->
  current_from gL ps = current_from gR ps.
Proof.
  intros gL gR ps H A. unfold current_from. apply map_ext_in. intros p Hp.
  now apply vals_cur; auto.
Qed.

Lemma recompute_R : forall gL gR m, R gL gR -> par_lt gL -> alive gL m = true ->
  R (recompute changed m gL) (recompute changed m gR).
Proof.
  intros gL gR m H PL A. unfold recompute.
  assert (AP : forall p, In p (parents gL m) -> alive gL p = true).
  { intros p Hp. eapply alive_parent; eauto. }
  assert (CF : current_from gL (parents gL m) = current_from gR (parents gR m)).
  { rewrite <- (r_par _ _ H). now apply current_from_R. }
  pose proof (r_vals _ _ H m A) as VV.
  pose proof (r_kind _ _ H m) as K. inversion K; auto.
  - rewrite (r_world _ _ H). now apply push_down_R.
  - rewrite CF. destruct (down _); auto. now apply push_down_R.
  - rewrite CF. destruct VV as (_ & _ & _ & _ & _ & _ & ->).
    apply push_all_R.
    + apply R_upd; [auto|intros []; simpl; auto 10|].
      intros [] []; unfold vals; simpl. tauto.
    + rewrite (skel_alive gL); auto. apply skel_upd. intros []; simpl; auto.
  - destruct VV as (_ & _ & _ & _ & _ & -> & _).
    destruct (n_rcp (nd gR m)).
    + apply R_upd; [auto|intros []; simpl; auto 10|].
      intros [] []; unfold vals; simpl. tauto.
    + rewrite <- (r_par _ _ H). destruct (parents gL m) as [|p ps] eqn:P; auto.
      rewrite (vals_cur _ _ p H) by (apply AP; now left). now apply push_down_R.
Qed.

Lemma par_lt_ss : forall g g', same_struct g g' -> par_lt g -> par_lt g'.
Proof. intros g g' K P m p. rewrite (ss_parents _ _ K). apply P. Qed.

(** ** send_down *)
Record ok g : Prop := {
  ok_par : par_lt g;
  ok_kids : forall m c, In c (children g m) -> In m (parents g c);
  ok_sensor : forall m f, kind_of g m = KSensor f -> parents g m = []
}.
Lemma ok_ss : forall g g', same_struct g g' -> ok g -> ok g'.
Proof.
  intros g g' K [O1 O2 O3]. split.
  - eapply par_lt_ss; eauto.
  - intros m c. rewrite (ss_children _ _ K), (ss_parents _ _ K). apply O2.
  - intros m f. rewrite (ss_kind _ _ K), (ss_parents _ _ K). apply O3.
Qed.
Lemma ok_wf : forall g, wf g -> ok g.
Proof.
  intros g Hw. split.
  - apply (wf_par _ Hw).
  - intros m c H. now apply (wf_kids _ Hw).
  - intros m f E. apply is_root_parents; auto. now rewrite E.
Qed.

Lemma fold_send_ss : forall f cs s, same_struct (gr s)
  (gr (fold_left (fun s c => if alive (gr s) c then send_down f c s else s) cs s)).
Proof.
  intros f. induction cs as [|c cs IH]; intros s; simpl; [apply ss_refl|].
  eapply ss_trans; [|apply IH]. destruct (alive (gr s) c); [|apply ss_refl].
  apply (fs_ss _ _ (fs_send_down changed f c s)).
Qed.
Lemma fold_send_filter : forall f cs s,
  fold_left (fun s c => if alive (gr s) c then send_down f c s else s) cs s =
  fold_left (fun s c => send_down f c s) (filter (alive (gr s)) cs) s.
Proof.
  intros f. induction cs as [|c cs IH]; intros s; simpl; auto.
  destruct (alive (gr s) c) eqn:A; simpl; auto. rewrite IH. f_equal.
  apply filter_ext. intros x.
  apply (alive_struct _ _ x (fs_ss _ _ (fs_send_down changed f c s))).
Qed.

Lemma nd_push_down : forall m v g k, k <> m -> nd (push_down changed m v g) k = nd g k.
Proof. intros. unfold push_down. destruct (changed _ _); auto. now apply nd_upd_other. Qed.
Lemma nd_push_all : forall m vs g k, k <> m -> nd (push_all changed m vs g) k = nd g k.
Proof.
  unfold push_all. induction vs as [|v vs IH]; intros g k N; simpl; auto.
  rewrite IH by auto. now apply nd_push_down.
Qed.
Lemma nd_recompute : forall m g k, k <> m -> nd (recompute changed m g) k = nd g k.
Proof.
  intros m g k N. unfold recompute. destruct (kind_of g m); auto.
  - now apply nd_push_down.
  - destruct (down _); auto. now apply nd_push_down.
  - rewrite nd_push_all by auto. now apply nd_upd_other.
  - destruct (n_rcp _); [now apply nd_upd_other|].
    destruct (parents g m); auto. now apply nd_push_down.
Qed.

(** A part of the graph closed under children, below the roots. *)
Lemma send_down_closed : forall (Q : nat -> Prop) f d s, ok (gr s) ->
  (forall m c, Q m -> In c (children (gr s) m) -> Q c) ->
  (forall m, Q m -> parents (gr s) m <> []) -> Q d ->
  (forall k, ~ Q k -> nd (gr (send_down f d s)) k = nd (gr s) k) /\
  trace (log (send_down f d s)) = trace (log s).
Proof.
  intros Q. induction f as [|f IH]; intros d s O C P Qd; simpl; auto.
  assert (SM : trace (sample d s) = trace (log s)).
  { unfold sample. destruct (kind_of (gr s) d) eqn:K; auto.
    exfalso. apply (P d Qd). eapply ok_sensor; eauto. }
  set (g1 := recompute changed d (gr s)).
  assert (S1 : same_struct (gr s) g1) by (apply (fc_ss _ _ _ (fc_recompute changed d (gr s)))).
  assert (N1 : forall k, ~ Q k -> nd g1 k = nd (gr s) k).
  { intros k NQ. apply nd_recompute. intros ->. auto. }
  destruct (nsd g1 d); [|split; [exact N1|exact SM]].
  set (g2 := upd g1 d set_sent).
  assert (S2 : same_struct (gr s) g2) by (eapply ss_trans; [exact S1|apply ss_set_sent]).
  assert (N2 : forall k, ~ Q k -> nd g2 k = nd (gr s) k).
  { intros k NQ. rewrite <- N1 by auto. apply nd_upd_other. intros ->. auto. }
  assert (F : forall cs a, same_struct (gr s) (gr a) -> (forall c, In c cs -> Q c) ->
    let a' := fold_left (fun s c => if alive (gr s) c then send_down f c s else s) cs a in
    (forall k, ~ Q k -> nd (gr a') k = nd (gr a) k) /\ trace (log a') = trace (log a)).
  { induction cs as [|c cs IHc]; intros a Sa Qc; simpl; auto.
    destruct (alive (gr a) c).
    - assert (Oa : ok (gr a)) by (eapply ok_ss; eauto).
      destruct (IH c a) as [A1 A2]; auto.
      + intros m x Qm. rewrite (ss_children _ _ Sa). eauto.
      + intros m Qm. rewrite (ss_parents _ _ Sa). auto.
      + apply Qc. now left.
      + destruct (IHc (send_down f c a)) as [B1 B2].
        * eapply ss_trans; [exact Sa|]. apply (fs_ss _ _ (fs_send_down changed f c a)).
        * intros x Hx. apply Qc. now right.
        * split; [|congruence]. intros k NQ. rewrite B1, A1; auto.
    - apply IHc; auto. intros x Hx. apply Qc. now right. }
  destruct (F (children g2 d) (St g2 (ESend d (last g2 d) :: sample d s))) as [F1 F2]; auto.
  { intros c. rewrite (ss_children _ _ S2). eauto. }
  split.
  - intros k NQ. rewrite F1; auto.
  - rewrite F2. simpl. exact SM.
Qed.

Lemma skel_send : forall f d s, skel (gr s) (gr (send_down f d s)).
Proof. intros. apply skel_ss. apply (fs_ss _ _ (fs_send_down changed f d s)). Qed.

Lemma right_send : forall f d sL sR, RS sL sR -> ok (gr sR) -> par_lt (gr sL) ->
  alive (gr sL) d = false -> parents (gr sR) d <> [] -> RS sL (send_down f d sR).
Proof.
  intros f d sL sR [H T] O PL A P.
  destruct (send_down_closed
    (fun k => alive (gr sL) k = false /\ parents (gr sR) k <> []) f d sR) as [N1 T1]; auto.
  - intros m c [Am Pm] Hc. pose proof (ok_kids _ O _ _ Hc) as Hp. split.
    + destruct (alive (gr sL) c) eqn:Ac; auto. rewrite <- (r_par _ _ H) in Hp.
      rewrite (alive_parent _ PL _ _ Hp Ac) in Am. discriminate.
    + destruct (parents (gr sR) c); [destruct Hp|discriminate].
  - intros m [_ Pm]. exact Pm.
  - split; [|congruence]. eapply R_right; eauto using skel_send.
    intros m Am. apply N1. intros [E _]. congruence.
Qed.

Lemma sample_R : forall m sL sR, RS sL sR -> trace (sample m sL) = trace (sample m sR).
Proof.
  intros m sL sR [H T]. unfold sample.
  pose proof (r_kind _ _ H m) as K. inversion K; auto.
  simpl. now rewrite T, (r_world _ _ H).
Qed.

Lemma send_down_R : forall f m sL sR, RS sL sR -> par_lt (gr sL) -> ok (gr sR) ->
  alive (gr sL) m = true -> RS (send_down f m sL) (send_down f m sR).
Proof.
  induction f as [|f IH]; intros m sL sR HR PL O A; simpl; auto.
  pose proof HR as [H T].
  pose proof (recompute_R _ _ m H PL A) as H1.
  pose proof (sample_R m sL sR HR) as TS.
  pose proof (fc_ss _ _ _ (fc_recompute changed m (gr sL))) as SL1.
  pose proof (fc_ss _ _ _ (fc_recompute changed m (gr sR))) as SR1.
  set (gL1 := recompute changed m (gr sL)) in *.
  set (gR1 := recompute changed m (gr sR)) in *.
  assert (A1 : alive gL1 m = true) by (now rewrite (alive_struct _ _ _ SL1)).
  rewrite (vals_nsd _ _ _ H1 A1).
  destruct (nsd gR1 m); [|split; [exact H1|exact TS]].
  assert (H2 : R (upd gL1 m set_sent) (upd gR1 m set_sent)).
  { apply R_upd; [auto|intros []; simpl; auto 10|].
    intros [] []; unfold vals; simpl. intros (? & _ & _ & _ & ? & ? & ?). auto 10. }
  set (gL2 := upd gL1 m set_sent) in *. set (gR2 := upd gR1 m set_sent) in *.
  assert (SL2 : same_struct (gr sL) gL2) by (eapply ss_trans; [exact SL1|apply ss_set_sent]).
  assert (SR2 : same_struct (gr sR) gR2) by (eapply ss_trans; [exact SR1|apply ss_set_sent]).
  assert (O2 : ok gR2) by (eapply ok_ss; eauto).
  assert (A2 : alive gL2 m = true) by (now rewrite (alive_struct _ _ _ SL2)).
  assert (F : forall cs' l aL aR, RS aL aR -> par_lt (gr aL) -> ok (gr aR) ->
     (forall c, In c cs' -> parents (gr aR) c <> []) ->
     l = filter (alive (gr aL)) cs' ->
     RS (fold_left (fun s c => send_down f c s) l aL)
        (fold_left (fun s c => if alive (gr s) c then send_down f c s else s) cs' aR)).
  { induction cs' as [|c cs' IHc]; intros l aL aR Ha PLa Oa Pc El; [subst; exact Ha|].
    simpl in El. simpl. pose proof Ha as [Ha1 _].
    destruct (alive (gr aL) c) eqn:Ac; subst l.
    - rewrite (r_alive _ _ _ Ha1 Ac). simpl.
      pose proof (fs_ss _ _ (fs_send_down changed f c aL)) as Xl.
      pose proof (fs_ss _ _ (fs_send_down changed f c aR)) as Xr.
      apply IHc.
      + now apply IH.
      + eapply par_lt_ss; eauto.
      + eapply ok_ss; eauto.
      + intros x Hx. rewrite (ss_parents _ _ Xr). apply Pc. now right.
      + apply filter_ext. intros x. symmetry. now apply alive_struct.
    - assert (Pc' : forall x, In x cs' -> parents (gr aR) x <> []) by (intros; apply Pc; now right).
      destruct (alive (gr aR) c).
      + pose proof (fs_ss _ _ (fs_send_down changed f c aR)) as Xr.
        apply IHc; auto.
        * apply right_send; auto. apply Pc. now left.
        * eapply ok_ss; eauto.
        * intros x Hx. rewrite (ss_parents _ _ Xr). auto.
      + apply IHc; auto. }
  rewrite fold_send_filter. apply F.
  - split; [exact H2|]. exact TS.
  - eapply par_lt_ss; eauto.
  - exact O2.
  - simpl. intros c Hc. pose proof (ok_kids _ O2 _ _ Hc) as Hp.
    destruct (parents gR2 c); [destruct Hp|discriminate].
  - simpl. apply (r_kids _ _ H2). exact A2.
Qed.

Lemma send_down_node_R : forall m sL sR, RS sL sR -> par_lt (gr sL) -> ok (gr sR) ->
  alive (gr sL) m = true ->
  RS (send_down_node changed m sL) (send_down_node changed m sR).
Proof.
  intros m sL sR HR PL O A. unfold send_down_node. rewrite (r_cnt _ _ (proj1 HR)).
  now apply send_down_R.
Qed.

Lemma send_roots_R : forall ms sL sR, RS sL sR -> par_lt (gr sL) -> ok (gr sR) ->
  (forall m, In m ms -> alive (gr sL) m = true) ->
  RS (send_roots changed ms sL) (send_roots changed ms sR).
Proof.
  intros ms sL sR HR PL O A. unfold send_roots.
  assert (F : forall ms aL aR, RS aL aR -> par_lt (gr aL) -> ok (gr aR) ->
    (forall m, In m ms -> alive (gr aL) m = true) ->
    RS (fold_left (fun s m => send_down_node changed m s) ms aL)
       (fold_left (fun s m => send_down_node changed m s) ms aR)).
  { clear sL sR HR PL O A ms. induction ms as [|m ms IH]; intros aL aR HR PL O A; simpl; auto.
    pose proof (fs_ss _ _ (fs_send_down changed (S (cnt (gr aL))) m aL)) as Xl.
    pose proof (fs_ss _ _ (fs_send_down changed (S (cnt (gr aR))) m aR)) as Xr.
    apply IH.
    - apply send_down_node_R; auto. apply A. now left.
    - eapply par_lt_ss; eauto.
    - eapply ok_ss; eauto.
    - intros x Hx. unfold send_down_node. rewrite (alive_struct _ _ _ Xl). apply A. now right. }
  destruct HR as [H T]. apply F; auto. split; auto. simpl.
  now rewrite (r_world _ _ H), T.
Qed.

(** ** refresh *)
Variable ordN : graph V W -> nat -> list nat -> list nat.
Hypothesis ordN_in : forall g m l x, In x (ordN g m l) -> In x l.
Hypothesis ordN_graph : forall g g' m l, ordN g m l = ordN g' m l.

Lemma fold_refresh_ss : forall f ps g, same_struct g
  (fold_left (fun g p => refresh changed ordN f p g) ps g).
Proof using Type.
  intros f. induction ps as [|p ps IH]; intros g; simpl; [apply ss_refl|].
  eapply ss_trans; [|apply IH]. apply (fr_ss _ _ (fr_refresh changed ordN f p g)).
Qed.

Lemma refresh_R : forall f m gL gR, R gL gR -> par_lt gL -> alive gL m = true ->
  R (refresh changed ordN f m gL) (refresh changed ordN f m gR).
Proof using ordN_in ordN_graph.
  induction f as [|f IH]; intros m gL gR H PL A; simpl; auto.
  assert (FR : forall ps gL gR, R gL gR -> par_lt gL -> (forall p, In p ps -> alive gL p = true) ->
    R (fold_left (fun g p => refresh changed ordN f p g) ps gL)
      (fold_left (fun g p => refresh changed ordN f p g) ps gR)).
  { induction ps as [|p ps IHp]; intros aL aR Ha Pa Aa; simpl; auto.
    pose proof (fr_ss _ _ (fr_refresh changed ordN f p aL)) as SS.
    apply IHp; [apply IH; auto; apply Aa; now left|eapply par_lt_ss; eauto|].
    intros q Hq. rewrite (alive_struct _ _ _ SS). apply Aa. now right. }
  assert (AP : forall p, In p (ordN gL m (parents gL m)) -> alive gL p = true).
  { intros p Hp. apply ordN_in in Hp. eapply alive_parent; eauto. }
  assert (E : R (recompute changed m
      (fold_left (fun g p => refresh changed ordN f p g) (ordN gL m (parents gL m)) gL))
     (recompute changed m
      (fold_left (fun g p => refresh changed ordN f p g) (ordN gR m (parents gR m)) gR))).
  { rewrite <- (r_par _ _ H), <- (ordN_graph gL gR). apply recompute_R.
    - now apply FR.
    - eapply par_lt_ss; [apply fold_refresh_ss|auto].
    - now rewrite (alive_struct _ _ _ (fold_refresh_ss f (ordN gL m (parents gL m)) gL)). }
  pose proof (r_kind _ _ H m) as K. inversion K; auto.
Qed.

End Drop.
