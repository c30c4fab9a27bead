(** Consequences of the invariants for commits, close to the stated properties. *)
From Coq Require Import List Arith Bool Lia.
From Verif Require Import NodesModel NodesSpec NodesBase NodesInv NodesExec NodesEv
                          NodesRoots NodesNotify NodesTold NodesCount.
Import ListNotations.

Section Facts.
Context {V W : Type}.
Variable dv : V.
Variable changed : V -> V -> bool.
Hypothesis changed_sound : forall a b, changed a b = false -> a = b.
Variable ordV : graph V W -> nat -> list (nat * V) -> list (nat * V).
Variable ordN : graph V W -> nat -> list nat -> list nat.

Set Default Proof Using "Type changed_sound ordN".
Implicit Types g : graph V W.
Implicit Types s : st V W.

Notation Inv := (Inv changed).
Notation ctx := (ctx changed).
Notation ev := (ev changed ordV ordN).
Notation exec := (exec changed ordV ordN).
Notation run := (run dv changed ordV ordN).
Notation step := (step changed ordN).
Notation steps := (steps changed ordN).
Notation reach := (reach dv changed ordN).

Let evI := ev_Inv changed changed_sound ordV ordN.
Let evC := ev_ctx changed changed_sound ordV ordN.

(** ** Every state in which client code runs satisfies the invariants *)
Lemma step_fresh : forall s s', step s s' -> Inv (gr s) -> fresh_ntf (gr s) -> fresh_ntf (gr s').
Proof.
  intros s s' H HI HF. destruct H; try exact HF.
  - eapply fresh_ss; [apply send_roots_ss|exact HF].
  - eapply fresh_ss; [apply wr_ss|exact HF].
  - eapply fresh_ss; [eapply ss_trans; [apply wr_ss|apply send_roots_ss]|exact HF].
  - eapply fresh_ss; [|exact HF]. apply (fc_ss _ _ _ (fc_push_down changed n v (gr s))).
  - eapply fresh_ss; [|exact HF]. eapply ss_trans; [|apply send_roots_ss].
    eapply ss_trans; [apply (fc_ss _ _ _ (fc_push_down changed n v (gr s)))|].
    apply ss_upd. intros []; simpl; auto 10.
  - intros m L. unfold new_node in *. simpl in *.
    destruct (add_rest changed changed_sound (gr s) k ps v H H0) as (C & _). rewrite C in L.
    destruct (add_old_fields changed changed_sound (gr s) k ps v H H0 m) as (_&_&_&_&_&_&_&_&E);
      [lia|]. rewrite E. apply HF. lia.
  - intros m L. unfold ntf. simpl in *. destruct (m =? n); apply (HF m L).
  - intros m L. unfold ntf. simpl in *. destruct (m =? n); apply (HF m L).
  - intros m L. unfold ntf. simpl in *. destruct (m =? n); apply (HF m L).
  - eapply fresh_ss; [|exact HF]. apply (fr_ss _ _ (fr_refresh changed ordN (S n) n (gr s))).
  - pose proof (nn_lt changed s n HI H) as Ln. intros m L. unfold ntf. simpl in *.
    destruct (Nat.eqb_spec m n); [lia|]. apply (HF m L).
  - intros m L. unfold ntf. simpl in *. destruct (Nat.eqb_spec m n); [lia|]. apply (HF m L).
  - intros m L. unfold ntf. simpl in *. destruct (m =? n); apply (HF m L).
Qed.

Lemma reach_ctx : forall w s, reach w s -> ctx s.
Proof.
  intros w s H. unfold NodesRoots.reach in H. remember (init_st dv w) as s0 eqn:E.
  induction H as [s|s s1 s2 H IH H1].
  - subst. split; [apply Inv_empty; auto|]. intros n L. reflexivity.
  - specialize (IH E). destruct IH as [A B]. split.
    + now apply (step_Inv changed changed_sound ordN _ _ H1).
    + eapply step_fresh; eauto.
Qed.

Lemma reach_moment : forall w s l1 e g l2, reach w s -> log s = l1 ++ e :: l2 ->
  snap e = Some g -> reach w (St g (e :: l2)).
Proof using Type.
  intros w s l1 e g l2 H. unfold NodesRoots.reach in *. revert l1.
  remember (init_st dv w) as s0 eqn:E0.
  induction H as [s|s s1 s2 H IH H1]; intros l1 EL ES.
  - subst s. simpl in EL. now destruct l1.
  - destruct (step_snap changed ordN _ _ _ _ _ _ H1 EL ES) as [(-> & -> & -> & EG)|(l1' & E)].
    + simpl in EL. rewrite <- EG, <- EL. destruct s2. simpl.
      eapply steps_snoc; eauto.
    + eauto.
Qed.

Lemma done_reach : forall fuel w p s, run fuel w p = Done s -> reach w s.
Proof.
  intros fuel w p s O. apply (run_reach dv changed changed_sound ordV ordN fuel w p true).
  rewrite O. simpl. auto.
Qed.
Lemma thrown_reach : forall fuel w p s, run fuel w p = Thrown s -> reach w s.
Proof.
  intros fuel w p s O. apply (run_reach dv changed changed_sound ordV ordN fuel w p false).
  rewrite O. simpl. auto.
Qed.
Lemma moment_reach : forall fuel w p s, moment (run fuel w p) s -> reach w s.
Proof.
  intros fuel w p s (s' & O & l1 & e & l2 & EL & ES & E).
  assert (R : reach w s') by (destruct O; eauto using done_reach, thrown_reach).
  destruct s as [g l]. simpl in *. subst l. eapply reach_moment; eauto.
Qed.

(** ** Which nodes a propagation assigns *)
Definition sent (R : nat -> Prop) s l s' : Prop :=
  log s' = l ++ log s /\ same_struct (gr s) (gr s') /\
  (forall m, 0 < assigned l m -> nn (gr s') m = true /\
     (R m \/ exists p, In p (parents (gr s) m) /\ 0 < assigned l p)) /\
  (forall m, assigned l m = 0 -> last (gr s') m = last (gr s) m).

Lemma assigned_app : forall (l l' : list (event V W)) m,
  assigned (l ++ l') m = assigned l m + assigned l' m.
Proof using Type. induction l as [|[] l IH]; intros l' m; simpl; auto. rewrite IH. lia. Qed.

Lemma sent_refl : forall R s, sent R s [] s.
Proof using Type. intros R s. split; [auto|]. split; [apply ss_refl|]. split; simpl; intros; auto; lia. Qed.
Lemma sent_weaken : forall (R R' : nat -> Prop) s l s', (forall m, R m -> R' m) ->
  sent R s l s' -> sent R' s l s'.
Proof using Type.
  intros R R' s l s' H (A & B & C & D). split; auto. split; auto. split; auto.
  intros m Hm. destruct (C m Hm) as [N [Q|Q]]; auto.
Qed.
Lemma sent_trans : forall R s l s1 l' s2, frame_send (gr s1) (gr s2) ->
  sent R s l s1 -> sent R s1 l' s2 -> sent R s (l' ++ l) s2.
Proof using Type.
  intros R s l s1 l' s2 F (A & B & C & D) (A' & B' & C' & D').
  split; [rewrite A', A; now rewrite app_assoc|].
  split; [eapply ss_trans; eauto|]. split; intros m Hm; rewrite assigned_app in Hm.
  - destruct (Nat.eq_dec (assigned l' m) 0) as [E|E].
    + assert (H : 0 < assigned l m) by lia. destruct (C m H) as [N Q].
      split; [now apply (fs_nn _ _ F)|]. destruct Q as [Q|(p & Hp & Ep)]; auto.
      right. exists p. split; auto. rewrite assigned_app. lia.
    + assert (H : 0 < assigned l' m) by lia. destruct (C' m H) as [N Q].
      split; auto. destruct Q as [Q|(p & Hp & Ep)]; auto.
      right. exists p. rewrite (ss_parents _ _ B) in Hp. split; auto. rewrite assigned_app. lia.
  - rewrite D', D; auto; lia.
Qed.

Lemma kids_fs : forall f cs a, frame_send (gr a) (gr (fold_left
  (fun s0 c0 => if alive (gr s0) c0 then send_down changed f c0 s0 else s0) cs a)).
Proof using Type.
  intros f. induction cs as [|x xs IHx]; intros b; simpl; [apply fs_refl|].
  eapply fs_trans; [|apply IHx]. destruct (alive (gr b) x); [apply fs_send_down|apply fs_refl].
Qed.
Lemma sends_fs : forall l a, frame_send (gr a)
  (gr (fold_left (fun s n => send_down_node changed n s) l a)).
Proof using Type.
  induction l as [|x xs IHx]; intros b; simpl; [apply fs_refl|].
  eapply fs_trans; [|apply IHx]. apply fs_send_down.
Qed.

Lemma sample_0 : forall n s, exists l, sample n s = l ++ log s /\ forall m, assigned l m = 0.
Proof using Type.
  intros n s. unfold sample. destruct (kind_of (gr s) n); try (exists []; auto; fail).
  eexists [_]. split; reflexivity.
Qed.
Lemma send_down_sent : forall fuel n s, wf (gr s) ->
  exists l, sent (eq n) s l (send_down changed fuel n s).
Proof.
  induction fuel as [|f IH]; intros n s Wf; simpl; [exists []; apply sent_refl|].
  pose proof (wf_recompute changed changed_sound _ n Wf) as W1.
  pose proof (fc_recompute changed n (gr s)) as F.
  set (g1 := recompute changed n (gr s)) in *. clearbody g1.
  destruct (sample_0 n s) as (l0 & E0 & A0). rewrite E0.
  destruct (nsd g1 n) eqn:E.
  2:{ exists l0. split; auto. split; [apply (fc_ss _ _ _ F)|]. split; [intros m; rewrite A0; lia|].
      intros m _. apply (fc_last _ _ _ F). }
  assert (Ln : n < cnt g1).
  { destruct (Nat.lt_ge_cases n (cnt g1)) as [Ln|Ln]; auto.
    destruct (wf_out _ W1 n Ln) as (_&_&_&_&A&_). congruence. }
  pose proof (wf_sent changed changed_sound _ n W1 Ln) as W2.
  set (s1 := St (upd g1 n set_sent) (ESend n (last (upd g1 n set_sent) n) :: l0 ++ log s)).
  assert (S1 : sent (eq n) s (ESend n (last (upd g1 n set_sent) n) :: l0) s1).
  { split; auto. split; [eapply ss_trans; [apply (fc_ss _ _ _ F)|apply ss_set_sent]|].
    simpl. split; intros m; rewrite A0; intros Hm; destruct (Nat.eqb_spec n m) as [->|N]; simpl in *; try lia.
    - split; auto. unfold nn. simpl. now rewrite Nat.eqb_refl.
    - rewrite <- (fc_last _ _ _ F m). unfold last. simpl.
      rewrite (proj2 (Nat.eqb_neq m n)); auto. }
  assert (H : forall cs a, wf (gr a) -> exists l,
    sent (fun m => In m cs) a l
      (fold_left (fun s0 c => if alive (gr s0) c then send_down changed f c s0 else s0) cs a)).
  { induction cs as [|c cs IHc]; intros a Wa; simpl; [exists []; apply sent_refl|].
    destruct (alive (gr a) c).
    - destruct (IH c a Wa) as (l1 & Q1).
      destruct (IHc (send_down changed f c a)) as (l2 & Q2); [now apply wf_send_down|].
      exists (l2 ++ l1). eapply sent_trans; [apply kids_fs| |].
      + eapply sent_weaken; [|exact Q1]. simpl. auto.
      + eapply sent_weaken; [|exact Q2]. simpl. auto.
    - destruct (IHc a Wa) as (l2 & Q2). exists l2. eapply sent_weaken; [|exact Q2]. simpl. auto. }
  destruct (H (children (upd g1 n set_sent) n) s1) as (l & Q); [exact W2|].
  match goal with |- context [fold_left ?f ?cs ?a] => change a with s1; set (s2 := fold_left f cs s1) in * end.
  exists (l ++ ESend n (last (upd g1 n set_sent) n) :: l0).
  destruct S1 as (A & B & C & D). destruct Q as (A' & B' & C' & D').
  assert (NN : nn (gr s2) n = true).
  { apply (fs_nn _ _ (kids_fs f _ _)). unfold nn. simpl. now rewrite Nat.eqb_refl. }
  split; [rewrite A', A, <- app_assoc; reflexivity|]. split; [eapply ss_trans; eauto|].
  split; intros m Hm; rewrite assigned_app in Hm.
  - destruct (Nat.eq_dec n m) as [<-|N]; [auto|].
    simpl in Hm. rewrite A0, (proj2 (Nat.eqb_neq n m) N) in Hm.
    assert (Hl : 0 < assigned l m) by lia. destruct (C' m Hl) as [N1 Q]. split; auto.
    right. destruct Q as [Q|(p & Hp & Ep)].
    + exists n. split.
      * rewrite <- (ss_parents _ _ B m). apply (wf_kids _ W2 n m). exact Q.
      * rewrite assigned_app. simpl. rewrite Nat.eqb_refl. lia.
    + exists p. rewrite (ss_parents _ _ B) in Hp. split; auto. rewrite assigned_app. lia.
  - rewrite D', D; auto; lia.
Qed.

Lemma send_roots_sent : forall ns s, wf (gr s) -> exists l,
  log (send_roots changed ns s) = l ++ ECommit ns (world (gr s)) :: log s /\
  (forall m, 0 < assigned l m -> nn (gr (send_roots changed ns s)) m = true /\
     (In m ns \/ exists p, In p (parents (gr (send_roots changed ns s)) m) /\ 0 < assigned l p)) /\
  (forall m, assigned l m = 0 -> last (gr (send_roots changed ns s)) m = last (gr s) m).
Proof.
  intros ns s Wf. unfold send_roots.
  assert (H : forall l a, wf (gr a) -> exists l',
    sent (fun m => In m l) a l' (fold_left (fun s n => send_down_node changed n s) l a)).
  { induction l as [|n l IH]; intros a Wa; simpl; [exists []; apply sent_refl|].
    destruct (send_down_sent (S (cnt (gr a))) n a Wa) as (l1 & Q1).
    destruct (IH (send_down_node changed n a)) as (l2 & Q2).
    { unfold send_down_node. now apply wf_send_down. }
    exists (l2 ++ l1). eapply sent_trans; [apply sends_fs| |].
    - eapply sent_weaken; [|exact Q1]. simpl. auto.
    - eapply sent_weaken; [|exact Q2]. simpl. auto. }
  destruct (H ns (emit (ECommit ns (world (gr s))) s) Wf) as (l & A & B & C & D).
  exists l. split; auto. split; auto. intros m Hm. destruct (C m Hm) as [N Q]. split; auto.
  destruct Q as [Q|(p & Hp & Ep)]; auto. right. exists p. rewrite (ss_parents _ _ B). auto.
Qed.

(** ** Values change only by propagations *)
Lemma step_last : forall s s', step s s' -> Inv (gr s) ->
  propagations (log s') <= propagations (log s) ->
  forall n, n < cnt (gr s) -> last (gr s') n = last (gr s) n.
Proof.
  intros s s' H HI HP n0 L0. destruct H; auto.
  - destruct (roots_counts changed ns s) as (_ & E & _). lia.
  - apply (fc_last _ _ _ (fc_push_down changed n v (gr s))).
  - destruct (roots_counts changed [n] (wr changed n v s)) as (_ & E & _). simpl in E. lia.
  - apply (fc_last _ _ _ (fc_push_down changed n v (gr s))).
  - destruct (roots_counts changed [n] (mark_rcp n (with_gr s (push_down changed n v)))) as (_ & E & _).
    simpl in E. lia.
  - destruct (add_old_fields changed changed_sound (gr s) k ps v H H0 n0) as (_&_&_&E&_); [lia|].
    exact E.
  - unfold last. simpl. destruct (n0 =? n); auto.
  - unfold last. simpl. destruct (n0 =? n); auto.
  - unfold last. simpl. destruct (n0 =? n); auto.
  - apply (fr_last _ _ (fr_refresh changed ordN (S n) n (gr s))).
  - unfold last. simpl. destruct (n0 =? n); auto.
  - unfold last. simpl. destruct (n0 =? n); auto.
  - unfold last. simpl. destruct (n0 =? n); auto.
Qed.
Lemma step_props : forall s s', step s s' -> propagations (log s) <= propagations (log s').
Proof using Type.
  intros s s' H. destruct (step_log changed ordN _ _ H) as (l & ->). rewrite props_app. lia.
Qed.
Lemma steps_props : forall s s', steps s s' -> propagations (log s) <= propagations (log s').
Proof using Type. intros s s' H. destruct (steps_log changed ordN _ _ H) as (l & ->). rewrite props_app. lia. Qed.
Lemma steps_last : forall s s', steps s s' -> Inv (gr s) ->
  propagations (log s') <= propagations (log s) ->
  forall n, n < cnt (gr s) -> last (gr s') n = last (gr s) n.
Proof.
  intros s s' H HI. induction H as [s|s s1 s2 H IH H1]; intros HP n L; auto.
  pose proof (step_props _ _ H1). pose proof (steps_props _ _ H).
  destruct (steps_Inv changed changed_sound ordN _ _ H HI) as [I1 [C1 _]].
  rewrite (step_last _ _ H1 I1); [|lia|lia]. apply IH; auto. lia.
Qed.

(** ** After a completed propagation *)
Lemma clean_nsd : (forall a, changed a a = false) -> forall s n, Inv (gr s) -> RootInv s ->
  plain (gr s) n -> alive (gr s) n = true -> clean (gr s) (log s) n ->
  forall m, anc (gr s) m n -> nsd (gr s) m = false.
Proof.
  intros Hr s n [Wf [dl HD]] HR P A C.
  assert (Main : forall m, anc (gr s) m n -> good (gr s) m -> alive (gr s) m = true ->
     dl m = false /\ nsd (gr s) m = false).
  { induction m as [m IH] using (well_founded_induction lt_wf). intros AN G AM.
    destruct (HD m G AM) as (H1 & H2 & H3 & H4).
    destruct (is_root (kind_of (gr s) m)) eqn:R.
    - assert (Lm : m < cnt (gr s)) by (apply alive_cnt; auto; apply (wf_par _ Wf)).
      assert (U : uncommitted (log s) m = false) by (apply C; auto; now apply source_anc).
      assert (E : nsd (gr s) m = false).
      { destruct (HR m Lm R) as [[_ Q] _].
        destruct (nsd (gr s) m) eqn:E; auto.
        destruct (kind_of (gr s) m); simpl in R; try discriminate;
          destruct Q as (_ & Q) || idtac; try (destruct Q as (_ & Q); rewrite Q in U; auto; discriminate).
        discriminate. }
      split; auto. destruct (dl m) eqn:Ed; auto. rewrite (H2 eq_refl) in E. discriminate.
    - destruct (H4 eq_refl) as (H5 & H6 & H7); [intros []|].
      assert (Ed : dl m = false).
      { destruct (dl m) eqn:Ed; auto. destruct (H5 eq_refl) as (p & Hp & Ep).
        assert (HP : dl p = false).
        { apply IH.
          - apply (wf_par _ Wf _ _ Hp).
          - eapply anc_trans; [apply anc_parent; eauto|auto].
          - eapply good_parent; eauto.
          - eapply alive_parent; eauto. apply (wf_par _ Wf). }
        congruence. }
      split; auto. destruct (nsd (gr s) m) eqn:En; auto. rewrite (H7 Hr eq_refl) in Ed. discriminate. }
  intros m AN. apply plain_good in P.
  assert (G : good (gr s) m /\ alive (gr s) m = true); [|apply Main; apply G || auto; apply G].
  clear -AN P A Wf. revert P A. induction AN as [n|a p n AN IH Hp]; intros P A; auto.
  apply IH.
  - eapply good_parent; eauto. destruct (is_root (kind_of (gr s) n)) eqn:R; auto.
    pose proof (is_root_parents (gr s) n Wf R) as E0. rewrite E0 in Hp. destruct Hp.
  - eapply alive_parent; eauto. apply (wf_par _ Wf).
Qed.

Lemma J_quiet : forall B g n, wf g -> J B g none -> good g n -> alive g n = true ->
  (forall m, anc g m n -> nsd g m = false) -> ~ B n -> nn g n = false.
Proof using Type.
  intros B g n Wf HJ. induction n as [n IH] using (well_founded_induction lt_wf).
  intros G A HN Bn. destruct (nn g n) eqn:E; auto.
  destruct (HJ n G A Bn (fun x => x) E) as [H|(p & Hp & Bp & Np)].
  - rewrite HN in H; [discriminate|constructor].
  - rewrite IH in Np; auto.
    + apply (wf_par _ Wf _ _ Hp).
    + eapply good_parent; eauto. destruct (is_root (kind_of g n)) eqn:R; auto.
      pose proof (is_root_parents g n Wf R) as E0. rewrite E0 in Hp. destruct Hp.
    + eapply alive_parent; eauto. apply (wf_par _ Wf).
    + intros m AN. apply HN. eapply anc_trans; [exact AN|]. now apply anc_parent.
Qed.

Lemma ev_commit : forall ns s b s', ev (TCmd (CCommit ns)) s b s' ->
  ev (TRoots ns) (send_roots changed ns s) b s'.
Proof using Type. intros ns s b s' H. inversion H; subst; auto. Qed.

(** ** C03: at most one call per propagation *)
Lemma commit_calls : forall fuel ns s s' l n sid, ctx s ->
  exec fuel (TCmd (CCommit ns)) s = Done s' \/ exec fuel (TCmd (CCommit ns)) s = Thrown s' ->
  log s' = l ++ log s -> calls l n sid <= propagations l.
Proof.
  intros fuel ns s s' l n sid HC HE EL.
  assert (HV : exists b, ev (TCmd (CCommit ns)) s b s').
  { destruct HE as [HE|HE]; [exists true|exists false]; apply (exec_ev changed ordV ordN fuel);
      rewrite HE; simpl; auto. }
  destruct HV as (b & HV). inversion HV; subst.
  match goal with H : NodesEv.ev _ _ _ (TRoots ns) _ _ _ |- _ =>
    pose proof (ev_pays changed changed_sound ordV ordN n sid _ _ _ _ H
      (ctx_roots changed changed_sound ordN ns s HC)) as P end.
  destruct P as [P _]. cbn [covers b2n] in P.
  destruct (roots_counts changed ns s) as (_ & R2 & R3). rewrite R2, R3, EL, calls_app, props_app in P.
  assert (b2n (nn (gr (send_roots changed ns s)) n) <= 1) by (unfold b2n; destruct (nn (gr (send_roots changed ns s)) n); lia).
  lia.
Qed.

(** ** C04: a change of a committed value is always announced *)
Lemma commit_told : (forall a, changed a a = false) ->
  forall fuel ns w s s' l n sid cb, reach w s ->
  exec fuel (TCmd (CCommit ns)) s = Done s' ->
  log s' = l ++ log s -> escapes l = false -> propagations l = 1 ->
  plain (gr s') n -> alive (gr s') n = true -> clean (gr s') (log s') n ->
  In (sid, cb) (slots (gr s) n) -> In (sid, cb) (slots (gr s') n) ->
  last (gr s') n <> last (gr s) n ->
  calls l n sid = 1 /\ seen (log s') n sid = Some (last (gr s') n).
Proof.
  intros Hr fuel ns w s s' l n sid cb HR HE EL HT HP1 HPl HA HCl Hs Hs' HN.
  pose proof (reach_ctx _ _ HR) as HC.
  assert (L1 : calls l n sid <= 1).
  { rewrite <- HP1. eapply commit_calls; eauto. }
  assert (HV : ev (TCmd (CCommit ns)) s true s').
  { apply (exec_ev changed ordV ordN fuel). rewrite HE. simpl. auto. }
  assert (R' : reach w s').
  { unfold NodesRoots.reach in *. eapply steps_trans; [exact HR|].
    eapply ev_steps; eauto. apply HC. }
  pose proof (ev_commit _ _ _ _ HV) as HV1.
  clear HV. set (s0 := send_roots changed ns s) in *.
  pose proof (ctx_roots changed changed_sound ordN ns s HC) as C0. fold s0 in C0.
  destruct (send_roots_sent ns s (proj1 (proj1 HC))) as (l0 & EL0 & HS & HL). fold s0 in EL0, HS, HL.
  assert (Ln : n < cnt (gr s)).
  { destruct (Nat.lt_ge_cases n (cnt (gr s))) as [Ln|Ln]; auto.
    exfalso. destruct HC as [[Wf _] _]. destruct (wf_out _ Wf n Ln) as (_&_&_&Q&_).
    rewrite Q in Hs. destruct Hs. }
  assert (EL2 : exists l2, log s' = l2 ++ log s0).
  { apply (ev_log changed changed_sound ordV ordN _ _ _ _ HV1 (proj1 C0)). }
  destruct EL2 as (l2 & EL2).
  assert (El : l = l2 ++ l0 ++ [ECommit ns (world (gr s))]).
  { rewrite EL2, EL0 in EL. apply (app_inv_tail (log s)). rewrite <- EL, <- !app_assoc. reflexivity. }
  destruct (roots_counts changed ns s) as (R1 & R2 & R3). fold s0 in R1, R2, R3.
  assert (P2 : propagations l2 = 0).
  { rewrite EL2, EL0 in *. rewrite El, !props_app in HP1. simpl in HP1. lia. }
  assert (T2 : nescapes l2 = 0).
  { apply nescapes_escapes in HT. rewrite El, nescapes_app in HT. lia. }
  assert (LE : last (gr s') n = last (gr s0) n).
  { apply steps_last; auto.
    - apply (ev_steps changed changed_sound ordV ordN _ _ _ _ HV1 (proj1 C0)).
    - apply C0.
    - rewrite EL2, props_app. lia.
    - unfold s0. rewrite (ss_cnt _ _ (send_roots_ss changed ns s)). exact Ln. }
  assert (AS : 0 < assigned l0 n).
  { destruct (Nat.eq_dec (assigned l0 n) 0) as [E|E]; [|lia].
    exfalso. apply HN. rewrite LE. now apply HL. }
  destruct (HS n AS) as [N0 _].
  set (B := fun m => assigned l0 m = 0).
  assert (CB : calm B s0 s').
  { split; [|right]; rewrite EL2, ?nescapes_app, ?props_app; lia. }
  assert (J0 : J B (gr s0) (fun m => none m \/ In m ns)).
  { intros m G A Bm NX Nm. right. destruct (HS m) as [_ Q]; [unfold B in Bm; lia|].
    destruct Q as [Q|(p & Hp & Ep)]; [exfalso; auto|]. exists p.
    destruct (HS p Ep) as [Np _]. split; auto. split; auto. unfold B. lia. }
  pose proof (ev_J changed changed_sound ordV ordN B _ _ _ _ HV1 C0 (or_introl eq_refl) CB none J0) as J1.
  destruct (reach_Inv dv changed changed_sound ordN w s' R') as [I' RI'].
  assert (N1 : nn (gr s') n = false).
  { apply (J_quiet B); auto.
    - apply I'.
    - now apply plain_good.
    - eapply clean_nsd; eauto.
    - unfold B. lia. }
  split.
  - assert (HQ : ~ quiet n sid s0 s').
    { intros HQ.
      destruct (ev_told changed changed_sound ordV ordN n sid cb _ _ _ _ HV1 C0 (or_introl eq_refl) HQ) as [_ Q].
      - unfold s0. rewrite (ss_nexts _ _ (send_roots_ss changed ns s)).
        apply (wf_sids _ (proj1 (proj1 HC)) n (sid, cb) Hs).
      - exact Hs'.
      - rewrite Q in N1; auto. discriminate. }
    unfold quiet in HQ. rewrite EL2, nescapes_app, calls_app in HQ.
    assert (1 <= calls l2 n sid) by lia.
    assert (calls l n sid = calls l2 n sid + calls (l0 ++ [ECommit ns (world (gr s))]) n sid)
      by (rewrite El; apply calls_app).
    lia.
  - assert (K0 : K s0 (fun m i => m <> n)).
    { intros m i c Hi NY. right. destruct (Nat.eq_dec m n) as [->|X]; [exact N0|contradiction]. }
    assert (CN : calm no s0 s').
    { split; [rewrite EL2, nescapes_app; lia|]. left. intros m []. }
    pose proof (ev_K changed changed_sound ordV ordN _ _ _ _ HV1 C0 (or_introl eq_refl) CN _ K0) as K1.
    destruct (K1 n sid cb Hs') as [Q|Q]; auto. congruence.
Qed.

Lemma run_ev : forall fuel w p s, run fuel w p = Done s \/ run fuel w p = Thrown s ->
  exists b, ev (TProg p) (init_st dv w) b s.
Proof using Type.
  intros fuel w p s [H|H]; [exists true|exists false];
    apply (exec_ev changed ordV ordN fuel); unfold NodesModel.run in H; rewrite H; simpl; auto.
Qed.

(** ** C05: at rest, every watcher has received the current value *)
Lemma rest_told : (forall a, changed a a = false) ->
  forall fuel w p s n sid cb, run fuel w p = Done s \/ run fuel w p = Thrown s ->
  escapes (log s) = false ->
  plain (gr s) n -> clean (gr s) (log s) n -> In (sid, cb) (slots (gr s) n) ->
  seen (log s) n sid = Some (last (gr s) n).
Proof.
  intros Hr fuel w p s n sid cb HE HT HP HCl Hs.
  assert (R : reach w s) by (destruct HE as [HE|HE]; [eapply done_reach|eapply thrown_reach]; exact HE).
  destruct (reach_Inv dv changed changed_sound ordN w s R) as [I RI].
  assert (C0 : ctx (init_st dv w)) by (apply (reach_ctx w); apply steps_refl).
  apply run_ev in HE as (b & HE).
  assert (CN : calm no (init_st dv w) s).
  { split; [|left; intros m []]. apply nescapes_escapes in HT. rewrite HT. lia. }
  assert (J1 : J no (gr s) none).
  { eapply (ev_J changed changed_sound ordV ordN no _ _ _ _ HE C0 (or_intror eq_refl) CN none).
    intros m G A Bm NX Nm. discriminate. }
  assert (K1 : K s (fun _ _ => False)).
  { eapply (ev_K changed changed_sound ordV ordN _ _ _ _ HE C0 (or_intror eq_refl) CN).
    intros m i c []. }
  assert (Ln : n < cnt (gr s)).
  { destruct (Nat.lt_ge_cases n (cnt (gr s))) as [Ln|Ln]; auto.
    exfalso. destruct (wf_out _ (proj1 I) n Ln) as (_&_&_&Q&_). rewrite Q in Hs. destruct Hs. }
  assert (A : alive (gr s) n = true).
  { apply alive_handle. unfold handle. apply andb_true_iff. split; [now apply Nat.ltb_lt|].
    apply orb_true_iff. right. destruct (slots (gr s) n); [destruct Hs|reflexivity]. }
  destruct (K1 n sid cb Hs) as [Q|Q]; auto.
  rewrite (J_quiet no (gr s) n) in Q; auto; try discriminate.
  - apply I.
  - now apply plain_good.
  - eapply clean_nsd; eauto.
Qed.

(** ** C06: a commit with nothing written does nothing *)
Lemma idle_commit : (forall a, changed a a = false) ->
  forall fuel w p s ns, run fuel w p = Done s \/ run fuel w p = Thrown s ->
  escapes (log s) = false ->
  (forall r, In r ns -> handle (gr s) r = true /\ is_root (kind_of (gr s) r) = true /\
     uncommitted (log s) r = false /\
     forall f, kind_of (gr s) r = KSensor f -> f (world (gr s)) = last (gr s) r) ->
  exists l, Forall (fun e => exists r v, e = ESample r v) l /\
  forall k, exec (length ns + 2 + k) (TCmd (CCommit ns)) s =
    Done (St (gr s) (l ++ ECommit ns (world (gr s)) :: log s)).
Proof.
  intros Hr fuel w p s ns HE HT Hns.
  assert (R : reach w s) by (destruct HE as [HE|HE]; [eapply done_reach|eapply thrown_reach]; exact HE).
  destruct (reach_Inv dv changed changed_sound ordN w s R) as [I RI].
  assert (C0 : ctx (init_st dv w)) by (apply (reach_ctx w); apply steps_refl).
  apply run_ev in HE as (b & HE).
  assert (CN : calm no (init_st dv w) s).
  { split; [|left; intros m []]. apply nescapes_escapes in HT. rewrite HT. lia. }
  assert (J1 : J no (gr s) none).
  { eapply (ev_J changed changed_sound ordV ordN no _ _ _ _ HE C0 (or_intror eq_refl) CN none).
    intros m G A Bm NX Nm. discriminate. }
  assert (Q : forall r, In r ns -> nsd (gr s) r = false /\ nn (gr s) r = false /\
     recompute changed r (gr s) = gr s).
  { intros r Hin. destruct (Hns r Hin) as (HH & HRt & HU & HSn).
    assert (A : alive (gr s) r = true) by (now apply alive_handle).
    assert (PL : plain (gr s) r) by (now apply plain_root).
    assert (AN : forall m, anc (gr s) m r -> m = r).
    { intros m X. destruct X as [|a q r0 X Hq]; auto.
      rewrite (is_root_parents _ _ (proj1 I) HRt) in Hq. destruct Hq. }
    assert (CL : clean (gr s) (log s) r).
    { intros m X _. apply source_anc in X. apply AN in X as ->. exact HU. }
    assert (ND : forall m, anc (gr s) m r -> nsd (gr s) m = false) by (eapply clean_nsd; eauto).
    split; [apply ND; constructor|]. split.
    - apply (J_quiet no); auto; [apply I|now apply plain_good].
    - destruct (clean_facts changed changed_sound s r I RI PL A CL) as (_ & EC & _).
      unfold recompute. destruct (kind_of (gr s) r) eqn:K; try discriminate; auto.
      unfold push_down. rewrite (HSn _ eq_refl), EC, Hr. reflexivity. }
  assert (FB : forallb (fun n => handle (gr s) n && is_root (kind_of (gr s) n)) ns = true).
  { apply forallb_forall. intros r Hin. destruct (Hns r Hin) as (HH & HRt & _). now rewrite HH, HRt. }
  set (L0 := ECommit ns (world (gr s)) :: log s).
  assert (SR : exists l, Forall (fun e => exists r v, e = ESample r v) l /\
     send_roots changed ns s = St (gr s) (l ++ L0)).
  { unfold send_roots. change (emit (ECommit ns (world (gr s))) s) with (St (gr s) L0).
    assert (Z : forall ms, incl ms ns -> forall L, exists l,
      Forall (fun e : event V W => exists r v, e = ESample r v) l /\
      fold_left (fun s n => send_down_node changed n s) ms (St (gr s) L) = St (gr s) (l ++ L)).
    { induction ms as [|r ms IH]; intros Hl L; simpl; [exists []; auto|].
      destruct (Q r) as (Q1 & _ & Q3); [apply Hl; now left|].
      unfold send_down_node at 2. cbn [send_down gr log]. rewrite Q3, Q1.
      destruct (IH (fun x Hx => Hl x (or_intror Hx)) (sample r (St (gr s) L))) as (l & Fl & ->).
      unfold sample. cbn [gr log].
      destruct (kind_of (gr s) r) as [| f | | | | | ]; try (exists l; auto; fail).
      exists (l ++ [ESample r (f (world (gr s)))]). rewrite <- app_assoc. split; auto.
      apply Forall_app. split; auto. constructor; eauto. }
    apply Z, incl_refl. }
  destruct SR as (l & Fl & SR). exists l. split; auto. intros k.
  replace (length ns + 2 + k) with (S (length ns + S k)) by lia. cbn [NodesModel.exec].
  rewrite FB, SR. clear SR FB. set (s1 := St (gr s) (l ++ L0)).
  assert (Z : forall ms, incl ms ns -> forall j, exec (length ms + S j) (TRoots ms) s1 = Done s1).
  { induction ms as [|r ms IH]; intros Hl j; [reflexivity|].
    simpl length. cbn [Nat.add NodesModel.exec].
    destruct (Hns r) as (HH & _); [apply Hl; now left|]. change (gr s1) with (gr s). rewrite HH.
    assert (N : exec (length ms + S j) (TNotify r) s1 = Done s1).
    { rewrite Nat.add_succ_r. cbn [NodesModel.exec].
      destruct (Q r) as (_ & Q2 & _); [apply Hl; now left|]. change (gr s1) with (gr s).
      now rewrite (alive_handle _ _ HH), Q2. }
    rewrite N. simpl andthen. apply IH. intros x Hx. apply Hl. now right. }
  apply Z, incl_refl.
Qed.

(** ** Consistency of clean readers *)
Lemma reach_consistent : forall w s n, reach w s -> plain (gr s) n -> alive (gr s) n = true ->
  clean (gr s) (log s) n ->
  agrees (gr s) n /\ (forall v, denotes (gr s) (log s) n v -> last (gr s) n = v).
Proof.
  intros w s n HR P A C. destruct (reach_Inv dv changed changed_sound ordN w s HR) as [I RI].
  split; [now apply (agrees_of changed changed_sound s n)|].
  intros v D. now apply (denotes_last changed changed_sound s I RI).
Qed.

Lemma reach_denotes : forall w s n, reach w s -> plain (gr s) n -> alive (gr s) n = true ->
  (forall m down up, source (gr s) m n -> kind_of (gr s) m = KInner down up ->
     forall vs, down vs <> None) ->
  exists v, denotes (gr s) (log s) n v.
Proof.
  intros w s n HR. destruct (reach_Inv dv changed changed_sound ordN w s HR) as [I RI].
  induction n as [n IH] using (well_founded_induction lt_wf). intros P A HT.
  destruct P as [n R|n down up K HP].
  - pose proof (alive_cnt _ (wf_par _ (proj1 I)) n A) as L.
    destruct (RI n L R) as [[_ Q] _].
    destruct (kind_of (gr s) n) eqn:K; try discriminate.
    + exists (last (gr s) n). apply den_state; [now rewrite K|apply Q].
    + exists (last (gr s) n). eapply den_sensor; [exact K|apply Q].
    + exists (last (gr s) n). apply den_state; [now rewrite K|apply Q].
    + exists (last (gr s) n). apply den_state; [now rewrite K|apply Q].
  - assert (HD : forall p, In p (parents (gr s) n) -> exists v, denotes (gr s) (log s) p v).
    { intros p Hp. apply IH; auto.
      - apply (wf_par _ (proj1 I) _ _ Hp).
      - eapply alive_parent; eauto. apply (wf_par _ (proj1 I)).
      - intros m d u Sm. apply (HT m d u). econstructor; eauto. }
    assert (Q : exists vs, Forall2 (denotes (gr s) (log s)) (parents (gr s) n) vs).
    { revert HD. generalize (parents (gr s) n) as ps. induction ps as [|p ps IHp]; intros HD.
      - exists []. constructor.
      - destruct (HD p (or_introl eq_refl)) as (v & D).
        destruct IHp as (vs & F); [intros q Hq; apply HD; now right|].
        exists (v :: vs). now constructor. }
    destruct Q as (vs & F). destruct (down vs) as [v|] eqn:E.
    + exists v. eapply den_inner; eauto.
    + exfalso. exact (HT n down up (source_refl _ n) K vs E).
Qed.

(** ** A full commit leaves nothing uncommitted, unless callbacks write *)
Lemma uncommitted_app : forall (l l' : list (event V W)) r,
  Forall (fun e => match e with EWrite m _ => m <> r | _ => True end) l ->
  uncommitted l' r = false -> uncommitted (l ++ l') r = false.
Proof using Type.
  induction 1 as [|e l He Hl IH]; intros HU; simpl; auto.
  destruct e; auto.
  - destruct (Nat.eqb_spec n r); auto. contradiction.
  - destruct (mem r ns); auto.
  - destruct (n =? r); auto.
Qed.
Lemma commit_clean : forall fuel ns s s' l r, ctx s ->
  exec fuel (TCmd (CCommit ns)) s = Done s' \/ exec fuel (TCmd (CCommit ns)) s = Thrown s' ->
  log s' = l ++ log s -> In r ns ->
  Forall (fun e => match e with EWrite m _ => m <> r | _ => True end) l ->
  uncommitted (log s') r = false.
Proof.
  intros fuel ns s s' l r HC HE EL Hr HF.
  assert (HV : exists b, ev (TCmd (CCommit ns)) s b s').
  { destruct HE as [HE|HE]; [exists true|exists false]; apply (exec_ev changed ordV ordN fuel);
      rewrite HE; simpl; auto. }
  destruct HV as (b & HV). apply ev_commit in HV.
  destruct (ev_log changed changed_sound ordV ordN _ _ _ _ HV) as (l2 & E2).
  { apply (ctx_roots changed changed_sound ordN ns s HC). }
  destruct (send_roots_log changed ns s) as (l0 & E0 & _).
  rewrite E0 in E2. assert (El : l = l2 ++ l0 ++ [ECommit ns (world (gr s))]).
  { apply (app_inv_tail (log s)). rewrite <- EL, E2, <- !app_assoc. reflexivity. }
  subst l. rewrite E2. apply Forall_app in HF as [F1 F2]. apply Forall_app in F2 as [F2 _].
  apply uncommitted_app; auto. apply uncommitted_app; auto. simpl.
  assert (M : mem r ns = true).
  { unfold mem. apply existsb_exists. exists r. split; auto. apply Nat.eqb_refl. }
  now rewrite M.
Qed.

(** ** Automatic states *)
Lemma unc_roots : forall ns s r, uncommitted (log (send_roots changed ns s)) r = true ->
  uncommitted (log s) r = true.
Proof using Type.
  intros ns s r H. destruct (send_roots_log changed ns s) as (l & E & F). rewrite E in H.
  rewrite uncommitted_sends in H; auto. simpl in H. destruct (mem r ns); [discriminate|auto].
Qed.
Lemma reach_unc : forall w s, reach w s -> forall r, uncommitted (log s) r = true ->
  r < cnt (gr s) /\ (kind_of (gr s) r = KStore \/ exists a, kind_of (gr s) r = KState a).
Proof.
  intros w s H. unfold NodesRoots.reach in H. remember (init_st dv w) as s0 eqn:E0.
  induction H as [s|s s1 s2 H IH H1]; intros r U.
  - subst. discriminate.
  - assert (I1 : Inv (gr s1)).
    { subst s. apply (reach_Inv dv changed changed_sound ordN w s1 H). }
    destruct (step_Inv changed changed_sound ordN _ _ H1 I1) as [_ X].
    assert (Q : uncommitted (log s1) r = true ->
       r < cnt (gr s2) /\ (kind_of (gr s2) r = KStore \/ exists a, kind_of (gr s2) r = KState a)).
    { intros U1. destruct (IH E0 r U1) as [L K]. destruct X as [L2 X]. split; [lia|].
      destruct (X r L) as [-> _]. auto. }
    assert (QW : forall n v, kind_of (gr s1) n = KStore \/ (exists a, kind_of (gr s1) n = KState a) ->
       uncommitted (EWrite n v :: log s1) r = true ->
       r < cnt (gr s2) /\ (kind_of (gr s2) r = KStore \/ exists a, kind_of (gr s2) r = KState a)).
    { intros n v K U1. simpl in U1. destruct (Nat.eqb_spec n r) as [->|N]; auto.
      assert (L : r < cnt (gr s1)).
      { apply (noninner_out _ _ (proj1 I1)). destruct K as [K|[a K]]; rewrite K; discriminate. }
      destruct X as [L2 X]. split; [lia|]. destruct (X r L) as [-> _]. auto. }
    destruct H1; try (apply Q; exact U).
    + apply Q. now apply unc_roots in U.
    + apply (QW n v); auto. destruct H0; eauto.
    + apply unc_roots in U. apply (QW n v); eauto.
    + apply Q. now apply unc_roots in U.
    + apply Q. simpl in U. destruct (cnt (gr s0) =? r); [discriminate|auto].
Qed.

Lemma auto_consistent : forall w s n, reach w s -> plain (gr s) n -> alive (gr s) n = true ->
  (forall r, source (gr s) r n ->
     match kind_of (gr s) r with KState false | KStore => False | _ => True end) ->
  clean (gr s) (log s) n.
Proof.
  intros w s n HR P A HA r Sr Rr.
  destruct (reach_Inv dv changed changed_sound ordN w s HR) as [I RI].
  assert (Ar : alive (gr s) r = true).
  { eapply alive_anc; [apply (wf_par _ (proj1 I))|apply source_anc; exact Sr|exact A]. }
  pose proof (alive_cnt _ (wf_par _ (proj1 I)) r Ar) as L.
  destruct (RI r L Rr) as [_ Q]. specialize (HA r Sr).
  destruct (kind_of (gr s) r) as [[]| | | | | |] eqn:K; try discriminate; try contradiction.
  - auto.
  - destruct (uncommitted (log s) r) eqn:U; auto. destruct (reach_unc _ _ HR r U) as [_ [Q3|(a & Q3)]]; congruence.
  - destruct (uncommitted (log s) r) eqn:U; auto. destruct (reach_unc _ _ HR r U) as [_ [Q3|(a & Q3)]]; congruence.
Qed.

Lemma auto_value : forall w s r, reach w s -> kind_of (gr s) r = KState true ->
  alive (gr s) r = true -> written (log s) r = Some (last (gr s) r).
Proof.
  intros w s r HR K A. destruct (reach_Inv dv changed changed_sound ordN w s HR) as [I RI].
  assert (Rr : is_root (kind_of (gr s) r) = true) by (now rewrite K).
  pose proof (alive_cnt _ (wf_par _ (proj1 I)) r A) as L.
  destruct (RI r L Rr) as [[_ Q] Q2]. specialize (Q2 K). rewrite K in Q. destruct Q as (Q & _).
  assert (CL : clean (gr s) (log s) r).
  { intros m Sm Rm. inversion Sm as [|a q n0 Sq Hq]; subst; auto.
    rewrite (is_root_parents _ _ (proj1 I) Rr) in Hq. destruct Hq. }
  destruct (clean_facts changed changed_sound s r I RI (plain_root _ _ Rr) A CL) as (_ & EL & _).
  congruence.
Qed.

(** ** Sensors *)
Lemma sensor_value : forall w s r f, reach w s -> kind_of (gr s) r = KSensor f ->
  r < cnt (gr s) -> sampled f (log s) r = Some (last (gr s) r).
Proof.
  intros w s r f HR K L. destruct (reach_Inv dv changed changed_sound ordN w s HR) as [I RI].
  destruct (RI r L) as [[_ Q] _]; [now rewrite K|]. rewrite K in Q. apply Q.
Qed.

Lemma samples_app : forall (l l' : list (event V W)) r,
  samples (l ++ l') r = samples l r ++ samples l' r.
Proof using Type.
  induction l as [|[] l IH]; intros l' r; simpl; auto. destruct (n =? r); auto.
  simpl. now rewrite IH.
Qed.
Lemma send_down_samples : forall fuel n s r, wf (gr s) -> is_root (kind_of (gr s) n) = false ->
  samples (log (send_down changed fuel n s)) r = samples (log s) r.
Proof.
  induction fuel as [|f IH]; intros n s r Wf HN; simpl; auto.
  pose proof (wf_recompute changed changed_sound _ n Wf) as W1.
  pose proof (fc_recompute changed n (gr s)) as F.
  assert (ES : sample n s = log s)
    by (unfold sample; destruct (kind_of (gr s) n); auto; discriminate).
  rewrite ES.
  set (g1 := recompute changed n (gr s)) in *. clearbody g1.
  destruct (nsd g1 n) eqn:E; auto.
  assert (Ln : n < cnt g1).
  { destruct (Nat.lt_ge_cases n (cnt g1)) as [Ln|Ln]; auto.
    destruct (wf_out _ W1 n Ln) as (_&_&_&_&A&_). congruence. }
  pose proof (wf_sent changed changed_sound _ n W1 Ln) as W2.
  assert (HK : forall c, In c (children (upd g1 n set_sent) n) ->
    is_root (kind_of (upd g1 n set_sent) c) = false).
  { intros c Hc. apply (child_not_root _ n c W2 Hc). }
  match goal with |- samples (log (fold_left _ ?cs ?a)) r = _ =>
    change (samples (log s) r) with (samples (log a) r);
    assert (W3 : wf (gr a)) by exact W2; revert W3;
    assert (HK' : forall c, In c cs -> is_root (kind_of (gr a) c) = false) by exact HK;
    revert HK'; generalize a; generalize cs end.
  intros cs. induction cs as [|c cs IHc]; intros a HK' W3; simpl; auto.
  destruct (alive (gr a) c).
  - pose proof (fs_send_down changed f c a) as FS. rewrite IHc.
    + apply IH; auto. apply HK'. now left.
    + intros c' Hc'. rewrite (ss_kind _ _ (fs_ss _ _ FS)). apply HK'. now right.
    + now apply wf_send_down.
  - apply IHc; auto. intros c' Hc'. apply HK'. now right.
Qed.
Lemma send_down_samples_root : forall fuel n s r, wf (gr s) ->
  samples (log (send_down changed (S fuel) n s)) r = samples (sample n s) r.
Proof.
  intros f n s r Wf. simpl.
  pose proof (wf_recompute changed changed_sound _ n Wf) as W1.
  pose proof (fc_recompute changed n (gr s)) as F.
  set (g1 := recompute changed n (gr s)) in *. clearbody g1.
  destruct (nsd g1 n) eqn:E; auto.
  assert (Ln : n < cnt g1).
  { destruct (Nat.lt_ge_cases n (cnt g1)) as [Ln|Ln]; auto.
    destruct (wf_out _ W1 n Ln) as (_&_&_&_&A&_). congruence. }
  pose proof (wf_sent changed changed_sound _ n W1 Ln) as W2.
  assert (HK : forall c, In c (children (upd g1 n set_sent) n) ->
    is_root (kind_of (upd g1 n set_sent) c) = false).
  { intros c Hc. apply (child_not_root _ n c W2 Hc). }
  match goal with |- samples (log (fold_left _ ?cs ?a)) r = _ =>
    change (samples (sample n s) r) with (samples (log a) r);
    assert (W3 : wf (gr a)) by exact W2; revert W3;
    assert (HK' : forall c, In c cs -> is_root (kind_of (gr a) c) = false) by exact HK;
    revert HK'; generalize a; generalize cs end.
  intros cs. induction cs as [|c cs IHc]; intros a HK' W3; simpl; auto.
  destruct (alive (gr a) c).
  - pose proof (fs_send_down changed f c a) as FS. rewrite IHc.
    + apply send_down_samples; auto. apply HK'. now left.
    + intros c' Hc'. rewrite (ss_kind _ _ (fs_ss _ _ FS)). apply HK'. now right.
    + now apply wf_send_down.
  - apply IHc; auto. intros c' Hc'. apply HK'. now right.
Qed.
(** One evaluation per mention of the sensor in a commit. *)
Lemma send_roots_samples : forall ns s r f, wf (gr s) -> kind_of (gr s) r = KSensor f ->
  samples (log (send_roots changed ns s)) r =
    repeat (f (world (gr s))) (count_occ Nat.eq_dec ns r) ++ samples (log s) r.
Proof.
  intros ns s r f Wf K. unfold send_roots.
  set (s0 := emit (ECommit ns (world (gr s))) s).
  change (samples (log s) r) with (samples (log s0) r).
  assert (W0 : wf (gr s0)) by exact Wf. assert (K0 : kind_of (gr s0) r = KSensor f) by exact K.
  assert (E0 : world (gr s0) = world (gr s)) by reflexivity.
  clearbody s0. rewrite <- E0. clear E0 Wf K.
  revert s0 W0 K0. induction ns as [|n ns IH]; intros s0 W0 K0; cbn [fold_left]; auto.
  unfold send_down_node at 2.
  pose proof (fs_send_down changed (S (cnt (gr s0))) n s0) as FS.
  rewrite IH.
  - rewrite send_down_samples_root by auto. rewrite (ss_world _ _ (fs_ss _ _ FS)).
    unfold sample. destruct (Nat.eq_dec n r) as [->|N].
    + rewrite K0. cbn [count_occ samples]. destruct (Nat.eq_dec r r); [|contradiction].
      rewrite Nat.eqb_refl. cbn [repeat].
      change (f (world (gr s0)) :: samples (log s0) r) with
        ([f (world (gr s0))] ++ samples (log s0) r).
      rewrite app_assoc. rewrite <- repeat_cons. reflexivity.
    + cbn [count_occ]. destruct (Nat.eq_dec n r); [contradiction|].
      destruct (kind_of (gr s0) n); auto. cbn [samples].
      now rewrite (proj2 (Nat.eqb_neq n r) N).
  - now apply wf_send_down.
  - now rewrite (ss_kind _ _ (fs_ss _ _ FS)).
Qed.

(** ** Calls *)
Lemma step_call : forall s s', step s s' -> forall n sid v g, In (ECall n sid v g) (log s') ->
  In (ECall n sid v g) (log s) \/
  (g = gr s /\ v = last g n /\ exists cb, In (sid, cb) (slots g n)).
Proof using Type.
  intros s s' H n0 sid0 v0 g0 HI. destruct H; auto; simpl in HI.
  - destruct HI as [HI|HI]; [discriminate|auto].
  - destruct HI as [HI|HI]; [discriminate|auto].
  - destruct HI as [HI|HI]; [discriminate|auto].
  - destruct HI as [HI|HI]; [discriminate|auto].
  - destruct (send_roots_log changed ns s) as (l & E & F). rewrite E in HI.
    apply in_app_iff in HI as [HI|[HI|HI]]; [|discriminate|auto].
    rewrite Forall_forall in F. destruct (F _ HI).
  - destruct HI as [HI|HI]; [discriminate|auto].
  - destruct (send_roots_log changed [n] (wr changed n v s)) as (l & E & F). rewrite E in HI.
    apply in_app_iff in HI as [HI|[HI|[HI|HI]]]; try discriminate; auto.
    rewrite Forall_forall in F. destruct (F _ HI).
  - destruct (send_roots_log changed [n] (mark_rcp n (with_gr s (push_down changed n v)))) as (l & E & F).
    rewrite E in HI. apply in_app_iff in HI as [HI|[HI|HI]]; try discriminate; auto.
    rewrite Forall_forall in F. destruct (F _ HI).
  - destruct HI as [HI|HI]; [discriminate|auto].
  - destruct HI as [HI|HI]; [discriminate|auto].
  - destruct HI as [HI|HI]; auto. injection HI as <- <- <- <-. right. eauto.
Qed.
Lemma reach_call : forall w s, reach w s -> forall n sid v g, In (ECall n sid v g) (log s) ->
  v = last g n /\ exists cb, In (sid, cb) (slots g n).
Proof using Type.
  intros w s H n sid v g. unfold NodesRoots.reach in H. remember (init_st dv w) as s0 eqn:E0.
  induction H as [s|s s1 s2 H IH H1]; intros HI.
  - subst. destruct HI.
  - destruct (step_call _ _ H1 _ _ _ _ HI) as [Q|(A & B & C)]; auto.
Qed.

(** ** Flags and memory *)
Lemma run_ntf : forall fuel w p s, run fuel w p = Done s \/ run fuel w p = Thrown s ->
  forall n, ntf (gr s) n = false.
Proof.
  intros fuel w p s HE n.
  assert (HV : exists b, ev (TProg p) (init_st dv w) b s).
  { destruct HE as [HE|HE]; [exists true|exists false]; apply (exec_ev changed ordV ordN fuel);
      unfold NodesModel.run in HE; rewrite HE; simpl; auto. }
  destruct HV as (b & HV).
  assert (C0 : ctx (init_st dv w)) by (apply (reach_ctx w); apply steps_refl).
  destruct (ev_ntf changed changed_sound ordV ordN _ _ _ _ HV (proj1 C0) (proj2 C0)) as [E _].
  now rewrite E.
Qed.
Lemma run_no_UBlib : (forall g n l x, In x (ordV g n l) -> In x l) ->
  forall fuel w p, run fuel w p <> UBlib.
Proof.
  intros HO fuel w p. assert (C0 : ctx (init_st dv w)) by (apply (reach_ctx w); apply steps_refl).
  apply (exec_no_UBlib changed changed_sound ordV ordN HO); try apply C0. simpl; auto.
Qed.

End Facts.
