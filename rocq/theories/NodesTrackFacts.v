(** Filters, transducers and with_setter cursors: facts about executions. *)
From Coq Require Import List Arith Bool Lia.
From Verif Require Import NodesModel NodesSpec NodesTrackSpec NodesBase NodesInv NodesExec NodesEv
  NodesRoots NodesNotify NodesTold NodesFacts NodesWrite NodesApi NodesTrack.
Import ListNotations.

Section TrackFacts.
Context {V W : Type}.
Variable dv : V.
Variable changed : V -> V -> bool.
Hypothesis changed_sound : forall a b, changed a b = false -> a = b.
Variable ordV : graph V W -> nat -> list (nat * V) -> list (nat * V).
Variable ordN : graph V W -> nat -> list nat -> list nat.
Hypothesis ordN_in : forall g n l x, In x (ordN g n l) -> In x l.
Set Default Proof Using "Type changed_sound".
Implicit Types g : graph V W.
Implicit Types s : st V W.
Notation step := (step changed ordN).
Notation steps := (steps changed ordN).
Notation ev := (ev changed ordV ordN).
Notation exec := (exec changed ordV ordN).
Notation run := (run dv changed ordV ordN).
Notation reach := (reach dv changed ordN).
Notation Inv := (Inv changed).

(** ** What a stateless node shows *)
Section Allowed.
  Variables (n : nat) (down : list V -> option V) (up : upk V) (ps : list nat).
  Variable A : V -> Prop.
  Hypothesis HA : forall xs v, length xs = length ps -> down xs = Some v -> A v.
  Set Default Proof Using "Type changed_sound HA".

  Definition ok g : Prop :=
    kind_of g n = KInner down up /\ parents g n = ps /\ A (cur g n) /\ A (last g n).

  Lemma ok_ss : forall g g', same_struct g g' -> ok g -> A (cur g' n) -> A (last g' n) -> ok g'.
  Proof using Type.
    intros g g' S1 (K & P1 & _ & _) H1 H2. unfold ok. rewrite (ss_kind _ _ S1), (ss_parents _ _ S1). auto.
  Qed.
  Lemma ok_nd : forall g g', nd g' n = nd g n -> ok g -> ok g'.
  Proof using Type. intros g g' E H. unfold ok, kind_of, parents, cur, last in *. rewrite E. exact H. Qed.

  Lemma ok_recompute : forall m g, ok g -> ok (recompute changed m g).
  Proof.
    intros m g H. destruct (Nat.eq_dec n m) as [<-|N].
    - pose proof (fc_recompute changed n g) as F. eapply ok_ss; [apply (fc_ss _ _ _ F)|exact H| |].
      + destruct H as (K & P1 & H1 & H2). unfold recompute. rewrite K, P1.
        destruct (down (current_from g ps)) as [v|] eqn:E; auto.
        rewrite (push_down_cur changed changed_sound). eapply HA; [|exact E].
        unfold current_from. now rewrite map_length.
      + rewrite (fc_last _ _ _ F). apply H.
    - eapply ok_nd; [|exact H]. now apply nd_recompute_other.
  Qed.
  Lemma ok_refresh : forall f m g, ok g -> ok (refresh changed ordN f m g).
  Proof.
    induction f as [|f IH]; intros m g H; simpl; auto.
    assert (HF : forall qs a, ok a -> ok (fold_left (fun g0 p => refresh changed ordN f p g0) qs a)).
    { induction qs as [|q qs IHq]; intros a Ha; simpl; auto. }
    destruct (kind_of g m); auto; apply ok_recompute; auto.
  Qed.
  Lemma ok_send : forall f m s, ok (gr s) -> ok (gr (send_down changed f m s)).
  Proof.
    induction f as [|f IH]; intros m s H; simpl; auto.
    pose proof (ok_recompute m _ H) as H1. set (g1 := recompute changed m (gr s)) in *. clearbody g1.
    destruct (nsd g1 m); simpl; auto.
    assert (HF : forall cs (a : st V W), ok (gr a) ->
      ok (gr (fold_left (fun s0 c => if alive (gr s0) c then send_down changed f c s0 else s0) cs a))).
    { induction cs as [|c cs IHc]; intros a Ha; simpl; auto. apply IHc.
      destruct (alive (gr a) c); auto. }
    apply HF. simpl. eapply ok_ss; [apply ss_set_sent|exact H1| |].
    - destruct H1 as (_ & _ & H1 & _). unfold cur. simpl. destruct (n =? m); exact H1.
    - destruct H1 as (_ & _ & H1 & H2). unfold last. simpl.
      destruct (Nat.eqb_spec n m) as [<-|]; auto.
  Qed.
  Lemma ok_roots : forall ns s, ok (gr s) -> ok (gr (send_roots changed ns s)).
  Proof.
    intros ns s H. unfold send_roots.
    assert (HF : forall ns s, ok (gr s) -> ok (gr (fold_left (fun s n => send_down_node changed n s) ns s))).
    { induction ns0 as [|m ns0 IH]; intros s0 H0; simpl; auto. apply IH. now apply ok_send. }
    now apply (HF ns (emit (ECommit ns (world (gr s))) s)).
  Qed.

  Lemma ok_step : forall s s', step s s' -> Inv (gr s) -> n < cnt (gr s) -> ok (gr s) -> ok (gr s').
  Proof.
    intros s s' H HI L O. pose proof O as (K & _).
    assert (PD : forall m v, kind_of (gr s) m <> KInner down up -> ok (push_down changed m v (gr s))).
    { intros m v Hm. eapply ok_nd; [|exact O]. apply nd_push_other. congruence. }
    destruct H; auto;
      try (unfold ok, kind_of, parents, cur, last in *; simpl; destruct (n =? n0); exact O).
    - now apply ok_roots.
    - apply PD. destruct H; congruence.
    - apply ok_roots. apply PD. congruence.
    - apply PD. congruence.
    - apply ok_roots. assert (O' : ok (push_down changed n0 v (gr s))) by (apply PD; congruence).
      unfold ok, kind_of, parents, cur, last in *; simpl; destruct (n =? n0); exact O'.
    - assert (N : n <> cnt (gr s)) by lia.
      destruct (add_old_fields changed changed_sound (gr s) k ps0 v H H0 n N) as (E1 & E2 & E3 & E4 & _).
      unfold ok. unfold new_node. simpl. rewrite E1, E2, E3, E4. exact O.
    - now apply ok_refresh.
  Qed.
End Allowed.
Set Default Proof Using "Type changed_sound".

Definition output_of s n (down : list V -> option V) (v : V) : Prop :=
  made_with (log s) n = Some v \/
  exists xs, length xs = length (parents (gr s) n) /\ down xs = Some v.
Definition II s : Prop := forall n down up, n < cnt (gr s) -> kind_of (gr s) n = KInner down up ->
  output_of s n down (cur (gr s) n) /\ output_of s n down (last (gr s) n).

Lemma step_made : forall s s' n, step s s' -> n < cnt (gr s) -> made_with (log s') n = made_with (log s) n.
Proof using Type.
  intros s s' n H L. destruct H; auto.
  - destruct (send_roots_log changed ns s) as (l & -> & Hl).
    now destruct (since_sends l (ECommit ns (world (gr s)) :: log s) 0 n Hl) as (_ & -> & _).
  - destruct (send_roots_log changed [n0] (wr changed n0 v s)) as (l & -> & Hl).
    destruct (since_sends l (ECommit [n0] (world (gr (wr changed n0 v s))) :: log (wr changed n0 v s)) 0 n Hl)
      as (_ & -> & _). reflexivity.
  - match goal with |- context [send_roots changed [n0] ?x] => set (s1 := x) in * end.
    destruct (send_roots_log changed [n0] s1) as (l & -> & Hl).
    destruct (since_sends l (ECommit [n0] (world (gr s1)) :: log s1) 0 n Hl) as (_ & -> & _). reflexivity.
  - simpl. destruct (Nat.eqb_spec (cnt (gr s)) n); auto. lia.
Qed.

Lemma step_II : forall s s', step s s' -> Inv (gr s) -> II s -> II s'.
Proof.
  intros s s' H HI HII n down up L K.
  pose proof (step_Inv changed changed_sound ordN _ _ H HI) as [HI' [_ HE]].
  destruct (Nat.lt_ge_cases n (cnt (gr s))) as [Ln|Ln].
  - destruct (HE n Ln) as [E1 E2]. rewrite E1 in K.
    destruct (HII n down up Ln K) as [H1 H2].
    assert (O : ok n down up (parents (gr s) n) (output_of s n down) (gr s)) by (repeat split; auto).
    eapply ok_step in O; eauto.
    + destruct O as (_ & _ & O1 & O2). unfold output_of in *.
      rewrite E2, (step_made _ _ n H Ln). auto.
    + intros xs v EL EV. right. eauto.
  - destruct H; try (exfalso; revert L;
      rewrite ?(ss_cnt _ _ (send_roots_ss changed ns s)), ?(ss_cnt _ _ (send_roots_ss changed [n0] _));
      simpl; rewrite ?(ss_cnt _ _ (fc_ss _ _ _ (fc_push_down changed _ _ (gr s)))); lia).
    + unfold new_node in *. simpl in *.
      destruct (add_rest changed changed_sound (gr s) k ps v H H0) as (C & _). rewrite C in L.
      assert (n = cnt (gr s)) by lia. subst n.
      unfold output_of, cur, last. simpl.
      rewrite (add_nd_new changed changed_sound (gr s) k ps v H H0). simpl. rewrite Nat.eqb_refl. auto.
    + exfalso. cbn [gr with_gr] in L.
      rewrite (ss_cnt _ _ (fr_ss _ _ (fr_refresh changed ordN (S n0) n0 (gr s)))) in L. lia.
Qed.

Lemma reach_all : forall w s, reach w s -> Inv (gr s) /\ KI (gr s) /\ TI s /\ II s.
Proof using changed_sound ordN_in.
  intros w s H. unfold NodesRoots.reach in H. remember (init_st dv w) as s0 eqn:E.
  induction H as [s|s s1 s2 H IH H1]; subst.
  - destruct (reach_Inv dv changed changed_sound ordN w (init_st dv w)) as [I _]; [constructor|].
    split; auto. split; [intros n; constructor|]. split; intros n; simpl; lia.
  - destruct (IH eq_refl) as (I1 & I2 & I3 & I4).
    split; [apply (step_Inv changed changed_sound ordN _ _ H1 I1)|].
    split; [eapply step_KI; eauto|]. split; [eapply step_TI; eauto|]. eapply step_II; eauto.
Qed.

(** ** Filters and transducers *)
Lemma follow_filter : forall g n p pred vs v0, filter_node g n p pred ->
  follow (kind_of g n) [] vs v0 = accepted pred vs v0.
Proof using Type.
  intros g n p pred vs v0 (down & up & K & _ & D). rewrite K. unfold accepted.
  induction vs as [|v vs IH]; simpl; auto. rewrite D. destruct (pred v); auto.
Qed.

Lemma filter_shows : forall fuel w p0 s n p pred, visible (run fuel w p0) s ->
  filter_node (gr s) n p pred -> alive (gr s) n = true -> not_reread (gr s) n ->
  exists v0, made_with (log s) n = Some v0 /\
    last (gr s) n = accepted pred (shown_since (log s) p n) v0.
Proof using changed_sound ordN_in.
  intros fuel w p0 s n p pred HV HF A NR.
  apply (visible_reach dv changed changed_sound ordV ordN) in HV.
  destruct (reach_all w s HV) as ((Wf & _) & _ & T & _).
  pose proof HF as (down & up & K & P1 & D).
  pose proof (alive_cnt _ (wf_par _ Wf) n A) as L.
  destruct (T n L p P1) as [_ T2]; [now rewrite K|auto|]. rewrite K in T2 at 1.
  destruct (T2 eq_refl NR) as (_ & v0 & E1 & E2 & _). exists v0. split; auto.
  rewrite E2. eapply follow_filter; eauto.
Qed.

Lemma filter_never : forall fuel w p0 s n p pred, visible (run fuel w p0) s ->
  filter_node (gr s) n p pred -> n < cnt (gr s) ->
  pred (last (gr s) n) = true \/ made_with (log s) n = Some (last (gr s) n).
Proof using changed_sound ordN_in.
  intros fuel w p0 s n p pred HV (down & up & K & P1 & D) L.
  apply (visible_reach dv changed changed_sound ordV ordN) in HV.
  destruct (reach_all w s HV) as (_ & _ & _ & I4).
  destruct (I4 n down up L K) as [_ [H|(xs & EL & EX)]]; auto.
  left. rewrite P1 in EL. destruct xs as [|x [|? ?]]; try discriminate. rewrite D in EX.
  destruct (pred x) eqn:E; congruence.
Qed.

Lemma hist_singles : forall (vs : list V), map (fun x => [x]) vs ++ [] = map (fun x => [x]) vs.
Proof using Type. intros. now rewrite app_nil_r. Qed.

Lemma follow_xform : forall f up vs v0,
  follow (KXform f up : kind V W) [] vs v0 =
  transduced (fun h x => f (map (fun y => [y]) h) [x]) vs v0.
Proof using Type.
  intros f up. induction vs as [|v vs IH]; intros v0; simpl; auto.
  now rewrite app_nil_r, IH.
Qed.
Lemma xform_shows : forall fuel w p0 s n p f up, visible (run fuel w p0) s ->
  kind_of (gr s) n = KXform f up -> parents (gr s) n = [p] ->
  alive (gr s) n = true -> not_reread (gr s) n ->
  exists v0, made_with (log s) n = Some v0 /\
    last (gr s) n = transduced (fun h x => f (map (fun y => [y]) h) [x])
                               (shown_since (log s) p n) v0.
Proof using changed_sound ordN_in.
  intros fuel w p0 s n p f up HV K P1 A NR.
  apply (visible_reach dv changed changed_sound ordV ordN) in HV.
  destruct (reach_all w s HV) as ((Wf & _) & _ & T & _).
  pose proof (alive_cnt _ (wf_par _ Wf) n A) as L.
  destruct (T n L p P1) as [_ T2]; [now rewrite K|auto|]. rewrite K in T2.
  destruct (T2 eq_refl NR) as (_ & v0 & E1 & E2 & _). exists v0. split; auto.
  rewrite E2. apply follow_xform.
Qed.

(** ** with_setter *)
Lemma setter_tracks : forall fuel w p0 s n p auto fn, visible (run fuel w p0) s ->
  kind_of (gr s) n = KSetter auto fn -> parents (gr s) n = [p] -> alive (gr s) n = true ->
  source_newer (log s) p n = true -> last (gr s) n = last (gr s) p.
Proof using changed_sound ordN_in.
  intros fuel w p0 s n p auto fn HV K P1 A HS.
  apply (visible_reach dv changed changed_sound ordV ordN) in HV.
  destruct (reach_all w s HV) as ((Wf & _) & _ & T & _).
  pose proof (alive_cnt _ (wf_par _ Wf) n A) as L.
  destruct (T n L p P1) as [T1 _]; [now rewrite K|auto|]. rewrite K in T1.
  destruct (T1 eq_refl) as (_ & E). auto.
Qed.

Fixpoint sees (l : list (event V W)) : nat :=
  match l with [] => 0 | ESee _ :: l' => S (sees l') | _ :: l' => sees l' end.
Lemma sees_app : forall l l', sees (l ++ l') = sees l + sees l'.
Proof using Type. induction l as [|[] l IH]; intros l'; simpl; auto. Qed.
Lemma sees_ran : forall l, client_ran l = false -> sees l = 0.
Proof using Type. induction l as [|[] l IH]; simpl; auto. discriminate. Qed.
Lemma asked_app : forall (l l' : list (event V W)) n, asked (l ++ l') n = asked l n ++ asked l' n.
Proof using Type.
  induction l as [|e l IH]; intros l' n; simpl; auto. destruct e; auto.
  destruct (n0 =? n); simpl; now rewrite IH.
Qed.
Lemma asked_sends : forall (l : list (event V W)) n, Forall is_send l -> asked l n = [].
Proof using Type. induction 1 as [|e l He Hl IH]; simpl; auto. destruct e; simpl in *; contradiction || auto. Qed.
Lemma ev_sees : forall t s b s', ev t s b s' -> Inv (gr s) -> sees (log s) <= sees (log s').
Proof.
  intros t s b s' H HI. destruct (ev_log changed changed_sound ordV ordN _ _ _ _ H HI) as (l & ->).
  rewrite sees_app. lia.
Qed.
Lemma ev_Inv : forall t s b s', ev t s b s' -> Inv (gr s) -> Inv (gr s').
Proof.
  intros t s b s' H HI. eapply steps_Inv; eauto. eapply ev_steps; eauto.
Qed.

Lemma nosee_prog : forall p s s', ev (TProg p) s true s' -> Inv (gr s) ->
  sees (log s') <= sees (log s) -> s' = s.
Proof.
  intros p s s' H HI L. inversion H; subst; auto.
  - match goal with H1 : NodesEv.ev _ _ _ (TCmd _) _ _ _, H2 : NodesEv.ev _ _ _ (TProg _) (see ?x) _ _ |- _ =>
      pose proof (ev_sees _ _ _ _ H1 HI); pose proof (ev_Inv _ _ _ _ H1 HI) as I1;
      pose proof (ev_sees _ _ _ _ H2 I1) as Q; simpl in Q end. lia.
  - match goal with H1 : NodesEv.ev _ _ _ (TProg _) s _ _, H2 : NodesEv.ev _ _ _ (TProg _) (see ?x) _ _ |- _ =>
      pose proof (ev_sees _ _ _ _ H1 HI); pose proof (ev_Inv _ _ _ _ H1 HI) as I1;
      pose proof (ev_sees _ _ _ _ H2 I1) as Q; simpl in Q end. lia.
Qed.

Lemma nosee_notify : forall t s b s', ev t s b s' -> b = true -> notifies t = true -> Inv (gr s) ->
  sees (log s') <= sees (log s) -> forall n, asked (log s') n = asked (log s) n.
Proof.
  intros t s b s' H. induction H; intros EB HN HI L m; try discriminate; auto.
  - pose proof (ev_Inv _ _ _ _ H0 HI) as I1. pose proof (ev_sees _ _ _ _ H0 HI).
    pose proof (ev_sees _ _ _ _ H1 I1). rewrite IHev2, IHev1; auto; lia.
  - assert (I0 : Inv (gr (start_notify n s))) by (now apply (start_I changed changed_sound ordN)).
    pose proof (ev_Inv _ _ _ _ H1 I0) as I1. pose proof (ev_sees _ _ _ _ H1 I0).
    pose proof (ev_sees _ _ _ _ H2 I1). simpl in *. rewrite IHev2, IHev1; auto; lia.
  - assert (I0 : Inv (gr (called n sid s))) by exact HI.
    pose proof (ev_Inv _ _ _ _ H0 I0) as I1. pose proof (ev_sees _ _ _ _ H0 I0).
    pose proof (ev_sees _ _ _ _ H3 I1). simpl in *.
    assert (s1 = called n sid s) by (eapply nosee_prog; eauto; simpl; lia). subst s1.
    rewrite IHev2; auto.
  - destruct (garbage && negb old); auto.
  - assert (I0 : Inv (gr (pin c s))) by (now apply (pin_I changed changed_sound)).
    pose proof (ev_Inv _ _ _ _ H2 I0) as I1. pose proof (ev_sees _ _ _ _ H2 I0).
    assert (I2 : Inv (gr (unpin s1))) by (now apply (unpin_I changed changed_sound)).
    pose proof (ev_sees _ _ _ _ H4 I2). simpl in *. rewrite IHev2, IHev1; auto; lia.
Qed.

Lemma asked_roots : forall ns s m, asked (log (send_roots changed ns s)) m = asked (log s) m.
Proof using Type.
  intros ns s m. destruct (send_roots_log changed ns s) as (l & -> & Hl).
  rewrite asked_app, asked_sends by auto. reflexivity.
Qed.
Lemma sees_roots : forall ns s, sees (log (send_roots changed ns s)) = sees (log s).
Proof using Type.
  intros ns s. destruct (send_roots_log changed ns s) as (l & -> & Hl). rewrite sees_app.
  assert (E : sees l = 0) by (induction Hl as [|e l He Hl IH]; simpl; auto; destruct e; simpl in *; contradiction || auto).
  rewrite E. reflexivity.
Qed.

(** [set] on a with_setter cursor: the call of the setter function comes first. *)
Lemma send_setter : forall n v s b s' auto fn, ev (TSend n v) s b s' -> Inv (gr s) ->
  kind_of (gr s) n = KSetter auto fn ->
  exists l, log s' = l ++ ESetter n v (gr s) :: log s /\
    (b = true -> client_ran l = false -> asked l n = []).
Proof.
  intros n v s b s' auto fn H HI K.
  assert (I0 : Inv (gr (ask n v s))) by exact HI.
  inversion H; subst; try congruence;
    try match goal with HP : NodesEv.ev _ _ _ (TProg _) (ask _ _ _) _ _ |- _ => rename HP into HQ end;
    try match goal with HU : up_of _ = _ |- _ => rewrite K in HU; discriminate end.
  - destruct (ev_log changed changed_sound ordV ordN _ _ _ _ HQ I0) as (l & El).
    exists l. split; [exact El|]. discriminate.
  - destruct (ev_log changed changed_sound ordV ordN _ _ _ _ HQ I0) as (l & El).
    exists l. split; [exact El|]. intros _ NC. simpl in El.
    assert (E : s1 = ask n v s).
    { eapply nosee_prog; eauto. rewrite El, sees_app, (sees_ran l NC). simpl. lia. }
    subst s1. simpl in El. rewrite <- (app_nil_l (ESetter n v (gr s) :: log s)) in El at 1.
    apply app_inv_tail in El. subst l. reflexivity.
  - match goal with HP : kind_of _ _ = KSetter true _ |- _ => clear K; rename HP into K end.
    match goal with HP : NodesEv.ev _ _ _ (TNotify n) _ _ _ |- _ => rename HP into HN end.
    pose proof (ev_Inv _ _ _ _ HQ I0) as I1.
    assert (L : n < cnt (gr s)) by (apply (noninner_out _ _ (proj1 HI)); rewrite K; discriminate).
    assert (S1 : step s1 (send_roots changed [n] (mark_rcp n (with_gr s1 (push_down changed n v))))).
    { eapply S_setter_auto.
      destruct (steps_Inv changed changed_sound ordN _ _ (ev_steps changed changed_sound ordV ordN _ _ _ _ HQ I0) I0) as [_ [_ E1]].
      destruct (E1 n L) as [E2 _]. rewrite E2. simpl. exact K. }
    destruct (step_Inv changed changed_sound ordN _ _ S1 I1) as [I2 _].
    set (s2 := send_roots changed [n] (mark_rcp n (with_gr s1 (push_down changed n v)))) in *.
    destruct (ev_log changed changed_sound ordV ordN _ _ _ _ HQ I0) as (l & El).
    destruct (ev_log changed changed_sound ordV ordN _ _ _ _ HN I2) as (l2 & El2).
    destruct (send_roots_log changed [n] (mark_rcp n (with_gr s1 (push_down changed n v)))) as (l3 & El3 & Hl3).
    fold s2 in El3. simpl in El3.
    exists (l2 ++ l3 ++ ECommit [n] (world (push_down changed n v (gr s1))) :: l). split.
    { rewrite El2, El3, El. simpl. rewrite <- !app_assoc. reflexivity. }
    intros -> NC. apply sees_ran in NC. rewrite !sees_app in NC. simpl in NC.
    assert (Q1 : sees (log s1) <= sees (log (ask n v s))) by (rewrite El, sees_app; lia).
    pose proof (nosee_prog _ _ _ HQ I0 Q1) as ->.
    assert (Q2 : asked (log s') n = asked (log s2) n).
    { apply (nosee_notify _ _ _ _ HN); auto. rewrite El2, sees_app. lia. }
    rewrite El2, asked_app in Q2. rewrite <- (app_nil_l (asked (log s2) n)) in Q2 at 2.
    apply app_inv_tail in Q2. simpl in El.
    rewrite <- (app_nil_l (ESetter n v (gr s) :: log s)) in El at 1. apply app_inv_tail in El. subst l.
    rewrite !asked_app, Q2, asked_sends by auto. reflexivity.
Qed.

Lemma set_setter : forall fuel w p0 fuel' n v s s' auto fn, visible (run fuel w p0) s ->
  kind_of (gr s) n = KSetter auto fn -> finished (exec fuel' (TCmd (CSet n v)) s) s' ->
  exists l g, log s' = l ++ ESetter n v g :: log s /\ (forall m, last g m = last (gr s) m) /\
    (exec fuel' (TCmd (CSet n v)) s = Done s' -> client_ran l = false -> asked l n = []).
Proof.
  intros fuel w p0 fuel' n v s s' auto fn HV K H.
  apply (visible_reach dv changed changed_sound ordV ordN) in HV.
  destruct (reach_Inv dv changed changed_sound ordN w s HV) as [HI _].
  assert (HB : exists b, ev (TCmd (CSet n v)) s b s' /\
     (exec fuel' (TCmd (CSet n v)) s = Done s' -> b = true)).
  { destruct H as [H|H].
    - exists true. split; auto. apply (exec_ev changed ordV ordN fuel'). rewrite H. simpl. auto.
    - exists false. split; [|congruence]. apply (exec_ev changed ordV ordN fuel'). rewrite H. simpl. auto. }
  destruct HB as (b & HE & HB). inversion HE; subst.
  assert (IP : Inv (gr (pin n s))).
  { apply (pin_I changed changed_sound); auto. now apply alive_handle. }
  match goal with HP : NodesEv.ev _ _ _ (TSend n v) _ _ _ |- _ =>
    destruct (send_setter _ _ _ _ _ auto fn HP IP K) as (l & El & Hl) end.
  exists l, (gr (pin n s)). split; [exact El|]. split; auto.
Qed.

(** Automatic with_setter cursors show the value when [set] returns. *)
Lemma set_setter_auto : forall fuel w p0 fuel' n v s s' fn, visible (run fuel w p0) s ->
  kind_of (gr s) n = KSetter true fn -> exec fuel' (TCmd (CSet n v)) s = Done s' ->
  exists l2 w' l1 g, log s' = l2 ++ ECommit [n] w' :: l1 ++ ESetter n v g :: log s /\
    (propagations l2 = 0 -> last (gr s') n = v).
Proof using changed_sound ordN_in.
  intros fuel w p0 fuel' n v s s' fn HV K H.
  apply (visible_reach dv changed changed_sound ordV ordN) in HV.
  destruct (reach_all w s HV) as (HI & HK & HT & _).
  assert (HE : ev (TCmd (CSet n v)) s true s').
  { apply (exec_ev changed ordV ordN fuel'). rewrite H. simpl. auto. }
  inversion HE; subst.
  assert (S0 : step s (pin n s)) by (constructor; now apply alive_handle).
  assert (IP : Inv (gr (pin n s))) by (apply (step_Inv changed changed_sound ordN _ _ S0 HI)).
  assert (Kp : KI (gr (pin n s))) by (eapply step_KI; eauto).
  assert (Tp : TI (pin n s)) by (eapply step_TI; eauto).
  match goal with HP : NodesEv.ev _ _ _ (TSend n v) _ _ _ |- _ => rename HP into HS end.
  assert (KP : kind_of (gr (pin n s)) n = KSetter true fn) by exact K.
  inversion HS; subst; try congruence;
    try (match goal with HU : up_of _ = _ |- _ => rewrite KP in HU; discriminate end).
  match goal with HF : kind_of (gr (pin n s)) n = KSetter true ?f |- _ =>
    assert (f = fn) by congruence; subst f end.
  assert (I0 : Inv (gr (ask n v (pin n s)))) by exact IP.
  match goal with HP : NodesEv.ev _ _ _ (TProg _) (ask n v (pin n s)) true ?x |- _ => rename HP into HQ; rename x into sQ end.
  match goal with HP : NodesEv.ev _ _ _ (TNotify n) _ true ?x |- _ => rename HP into HN; rename x into sN end.
  pose proof (ev_steps changed changed_sound ordV ordN _ _ _ _ HQ I0) as ST.
  assert (AllS : forall a b, steps a b -> Inv (gr a) -> KI (gr a) -> TI a -> Inv (gr b) /\ KI (gr b) /\ TI b).
  { intros a b X. induction X as [x|x y z X IHX X1]; intros Q1 Q2 Q3; auto.
    destruct (IHX Q1 Q2 Q3) as (R1 & R2 & R3).
    split; [apply (step_Inv changed changed_sound ordN _ _ X1 R1)|].
    split; [eapply step_KI; eauto|eapply step_TI; eauto]. }
  assert (T0 : TI (ask n v (pin n s))).
  { eapply step_TI; [exact changed_sound|exact ordN_in|apply (S_ask changed ordN n v (pin n s))|exact IP|exact Kp|exact Tp]. }
  destruct (AllS _ _ ST I0 Kp T0) as (I1 & K1 & T1).
  destruct (steps_Inv changed changed_sound ordN _ _ ST I0) as [_ [C1 E1]].
  assert (L : n < cnt (gr s)) by (apply (noninner_out _ _ (proj1 HI)); rewrite K; discriminate).
  destruct (E1 n L) as [E2 _]. change (kind_of (gr (ask n v (pin n s))) n) with (kind_of (gr s) n) in E2.
  rewrite K in E2.
  assert (S1 : step sQ (send_roots changed [n] (mark_rcp n (with_gr sQ (push_down changed n v)))))
    by (eapply S_setter_auto; eauto).
  destruct (step_Inv changed changed_sound ordN _ _ S1 I1) as [I2 _].
  assert (A1 : alive (gr sQ) n = true).
  { apply (pinned_alive changed); auto. exists n. split; [|split; [simpl in *; lia|constructor]].
    rewrite (ev_pins changed ordV ordN _ _ _ _ HQ). simpl. now left. }
  assert (W1 : wf (gr (mark_rcp n (with_gr sQ (push_down changed n v))))).
  { destruct (Inv_push_down changed changed_sound (gr sQ) n v I1) as [Q1 [Q2 _]].
    { now rewrite E2. }
    apply (Inv_rcp changed changed_sound (push_down changed n v (gr sQ)) n true Q1). simpl in *. lia. }
  assert (HL : last (gr (send_roots changed [n] (mark_rcp n (with_gr sQ (push_down changed n v))))) n = v).
  { assert (Ln : n < cnt (gr sQ)) by (simpl in *; lia).
    destruct (TIn_self changed changed_sound sQ n v fn (proj1 I1) E2 (T1 n Ln) W1) as [_ X]. auto. }
  set (s2 := send_roots changed [n] (mark_rcp n (with_gr sQ (push_down changed n v)))) in *.
  destruct (ev_log changed changed_sound ordV ordN _ _ _ _ HQ I0) as (l1 & El1).
  destruct (ev_log changed changed_sound ordV ordN _ _ _ _ HN I2) as (l4 & El4).
  destruct (send_roots_log changed [n] (mark_rcp n (with_gr sQ (push_down changed n v)))) as (l3 & El3 & Hl3).
  fold s2 in El3. simpl in El3.
  exists (l4 ++ l3), (world (push_down changed n v (gr sQ))), l1, (gr (pin n s)). split.
  - simpl. rewrite El4, El3, El1. simpl. rewrite <- !app_assoc. reflexivity.
  - intros HP. rewrite props_app in HP. rewrite <- HL. simpl.
    apply (steps_last changed changed_sound ordN s2 sN); auto.
    + eapply ev_steps; eauto.
    + rewrite El4, props_app. lia.
    + assert (SS : cnt (gr s2) = cnt (gr sQ)).
      { unfold s2. rewrite (ss_cnt _ _ (send_roots_ss changed [n] _)). simpl.
        apply (ss_cnt _ _ (fc_ss _ _ _ (fc_push_down changed n v (gr sQ)))). }
      rewrite SS. simpl in *. lia.
Qed.

(** The value with which a filtered reader is made. *)
Lemma filter_initial : forall fuel w p0 fuel' s s' p (pred : V -> bool) down up d, visible (run fuel w p0) s ->
  (forall x : V, down [x] = if pred x then Some x else None) ->
  exec fuel' (TCmd (CNew (KInner down up) [p] d)) s = Done s' ->
  exists v0, made_with (log s') (cnt (gr s)) = Some v0 /\ last (gr s') (cnt (gr s)) = v0 /\
    filter_node (gr s') (cnt (gr s)) p pred /\
    (if pred (cur (gr s) p) then v0 = cur (gr s) p else d = Some v0).
Proof using changed_sound.
  intros fuel w p0 fuel' s s' p pred down up d HV D H.
  apply (visible_reach dv changed changed_sound ordV ordN) in HV.
  destruct (reach_Inv dv changed changed_sound ordN w s HV) as [HI _].
  assert (HE : ev (TCmd (CNew (KInner down up) [p] d)) s true s').
  { apply (exec_ev changed ordV ordN fuel'). rewrite H. simpl. auto. }
  inversion HE; subst.
  match goal with HP : initial _ _ _ _ = Some v |- _ => rename HP into HN end.
  assert (X : wf (gr s)) by apply HI.
  assert (NE : nd (add_node (KInner down up) [p] v (gr s)) (cnt (gr s)) =
               Node (KInner down up) [p] [] v v false false false false [] 1 []).
  { match goal with HA : forall q, In q [p] -> _, HD : NoDup [p] |- _ =>
      exact (add_nd_new changed changed_sound (gr s) (KInner down up) [p] v HA HD) end. }
  exists v. unfold new_node, filter_node, last, kind_of, parents. cbn [gr log with_gr emit made_with].
  rewrite NE, Nat.eqb_refl. cbn [n_kind n_last n_parents].
  split; auto. split; auto. split; [exists down, up; auto|].
  unfold initial, current_from in HN. simpl in HN. rewrite D in HN.
  destruct (pred (cur (gr s) p)); congruence.
Qed.

(** The value with which any node is made. *)
Lemma new_starts : forall fuel w p0 fuel' s s' k ps d, visible (run fuel w p0) s ->
  exec fuel' (TCmd (CNew k ps d)) s = Done s' ->
  exists v0, made_with (log s') (cnt (gr s)) = Some v0 /\ last (gr s') (cnt (gr s)) = v0 /\
    kind_of (gr s') (cnt (gr s)) = k /\ parents (gr s') (cnt (gr s)) = ps /\
    starts_as k (map (cur (gr s)) ps) (world (gr s)) d v0.
Proof using changed_sound.
  intros fuel w p0 fuel' s s' k ps d HV H.
  apply (visible_reach dv changed changed_sound ordV ordN) in HV.
  destruct (reach_Inv dv changed changed_sound ordN w s HV) as [HI _].
  assert (HE : ev (TCmd (CNew k ps d)) s true s').
  { apply (exec_ev changed ordV ordN fuel'). rewrite H. simpl. auto. }
  inversion HE; subst.
  match goal with HP : initial _ _ _ _ = Some v |- _ => rename HP into HN end.
  match goal with HP : arity_ok _ _ = true |- _ => rename HP into HO end.
  assert (X : wf (gr s)) by apply HI.
  assert (NE : nd (add_node k ps v (gr s)) (cnt (gr s)) =
               Node k ps [] v v false false false false [] 1 []).
  { match goal with HA : forall q, In q ps -> _, HD : NoDup ps |- _ =>
      exact (add_nd_new changed changed_sound (gr s) k ps v HA HD) end. }
  exists v. unfold new_node, last, kind_of, parents. cbn [gr log with_gr emit made_with].
  rewrite NE, Nat.eqb_refl. cbn [n_kind n_last n_parents].
  do 4 (split; auto). unfold initial, current_from in HN. destruct k; cbn in *; auto.
  - congruence.
  - destruct (down (map _ _)); [left; congruence|right; auto].
  - destruct (rev _) as [|x l] eqn:E.
    + right. split; auto. rewrite <- (rev_involutive (_ [] _)), E. auto.
    + left. injection HN as ->. exists (rev l). rewrite <- (rev_involutive (_ [] _)), E. auto.
  - destruct ps as [|p [|q ps]]; try discriminate. cbn. congruence.
Qed.
End TrackFacts.
