(** How often watchers are called, and with what. *)
From Coq Require Import List Arith Bool Lia.
From Verif Require Import NodesModel NodesSpec NodesBase NodesInv NodesExec NodesEv
                          NodesRoots NodesNotify NodesTold.
Import ListNotations.

Section Count.
Context {V W : Type}.
Variable dv : V.
Variable changed : V -> V -> bool.
Hypothesis changed_sound : forall a b, changed a b = false -> a = b.
Variable ordV : graph V W -> nat -> list (nat * V) -> list (nat * V).
Variable ordN : graph V W -> nat -> list nat -> list nat.

Set Default Proof Using "Type changed_sound ordN".
Implicit Types g : graph V W.
Implicit Types s : st V W.

Notation Inv := (Inv changed).
Notation ctx := (ctx changed).
Notation ev := (ev changed ordV ordN).
Notation exec := (exec changed ordV ordN).
Notation step := (step changed ordN).
Notation steps := (steps changed ordN).

Let evI := ev_Inv changed changed_sound ordV ordN.
Let evC := ev_ctx changed changed_sound ordV ordN.
Let evM := ev_mono changed changed_sound ordV ordN.

(** ** Watchers are connected once *)
Lemma step_slots : forall s s', step s s' -> Inv (gr s) ->
  nexts (gr s) <= nexts (gr s') /\
  forall n sid cb, In (sid, cb) (slots (gr s') n) -> sid < nexts (gr s) ->
    In (sid, cb) (slots (gr s) n).
Proof.
  intros s s' H HI.
  assert (SS : forall s0, same_struct (gr s) (gr s0) -> nexts (gr s) <= nexts (gr s0) /\
    forall n sid cb, In (sid, cb) (slots (gr s0) n) -> sid < nexts (gr s) ->
    In (sid, cb) (slots (gr s) n)).
  { intros s0 S. rewrite (ss_nexts _ _ S). split; auto. intros n sid cb.
    now rewrite (ss_slots _ _ S). }
  destruct H; try (split; [auto|intros q i c Hi _; exact Hi]).
  - apply SS. apply send_roots_ss.
  - apply SS. apply wr_ss.
  - apply SS. eapply ss_trans; [apply wr_ss|apply send_roots_ss].
  - apply SS. apply (fc_ss _ _ _ (fc_push_down changed n v (gr s))).
  - apply SS. eapply ss_trans; [|apply send_roots_ss].
    eapply ss_trans; [apply (fc_ss _ _ _ (fc_push_down changed n v (gr s)))|].
    apply ss_upd. intros []; simpl; auto 10.
  - unfold new_node. simpl.
    destruct (add_rest changed changed_sound (gr s) k ps v H H0) as (C & X & _). rewrite X.
    split; auto. intros m i c Hi _. destruct (Nat.eq_dec m (cnt (gr s))) as [->|N].
    + unfold slots in Hi. rewrite (add_nd_new changed changed_sound (gr s) k ps v H H0) in Hi.
      destruct Hi.
    + destruct (add_old_fields changed changed_sound (gr s) k ps v H H0 m N)
        as (_&_&_&_&_&_&E&_). now rewrite E in Hi.
  - split; auto. intros m i c. unfold slots. simpl. destruct (m =? n); auto.
  - split; [simpl; lia|]. intros m i c. unfold slots. simpl.
    destruct (Nat.eqb_spec m n) as [->|]; auto. simpl. intros Hi L.
    apply in_app_iff in Hi as [Hi|[Hi|[]]]; auto. injection Hi as E _. lia.
  - split; auto. intros m i c. unfold slots. simpl. destruct (Nat.eqb_spec m n) as [->|]; auto.
    simpl. intros Hi _. apply filter_In in Hi. apply Hi.
  - apply SS. apply (fr_ss _ _ (fr_refresh changed ordN (S n) n (gr s))).
  - split; auto. intros m i c. unfold slots. simpl. destruct (m =? n); auto.
  - split; auto. intros m i c. unfold slots. simpl. destruct (m =? n); auto.
  - split; auto. intros m i c. unfold slots, collect. simpl. destruct (m =? n); auto.
Qed.
Lemma steps_slots : forall s s', steps s s' -> Inv (gr s) ->
  nexts (gr s) <= nexts (gr s') /\
  forall n sid cb, In (sid, cb) (slots (gr s') n) -> sid < nexts (gr s) ->
    In (sid, cb) (slots (gr s) n).
Proof.
  intros s s' H HI. induction H as [s|s s1 s2 H IH H1]; [auto|].
  destruct (IH HI) as [A B].
  destruct (step_slots _ _ H1 (proj1 (steps_Inv changed changed_sound ordN _ _ H HI))) as [A1 B1].
  split; [lia|]. intros n sid cb Hi L. apply B; auto. apply B1; auto. lia.
Qed.
Lemma ev_slots : forall t s b s', ev t s b s' -> Inv (gr s) ->
  nexts (gr s) <= nexts (gr s') /\
  forall n sid cb, In (sid, cb) (slots (gr s') n) -> sid < nexts (gr s) ->
    In (sid, cb) (slots (gr s) n).
Proof.
  intros t s b s' H HI. apply steps_slots; auto. eapply ev_steps; eauto.
Qed.

(** ** A pending mark only disappears by calling the watchers *)
Section OneWatcher.
Variables (n0 sid0 : nat) (cb0 : V -> obs V -> prog V W).
Set Default Proof Using "Type changed_sound ordN".

Definition here s : Prop := In (sid0, cb0) (slots (gr s) n0).
Definition quiet s s' : Prop :=
  nescapes (log s') <= nescapes (log s) /\
  calls (log s') n0 sid0 <= calls (log s) n0 sid0.
Definition covers (t : task V W) : bool :=
  match t with TSlots n from => (n =? n0) && (from <=? sid0) | _ => false end.

Lemma here_back : forall t s b s', ev t s b s' -> Inv (gr s) -> sid0 < nexts (gr s) ->
  here s' -> here s /\ sid0 < nexts (gr s').
Proof.
  intros t s b s' H HI L HH. destruct (ev_slots _ _ _ _ H HI) as [A B].
  split; [apply (B n0); auto|lia].
Qed.

Lemma evm : forall t s b s', ev t s b s' -> ctx s ->
  nescapes (log s) <= nescapes (log s') /\ calls (log s) n0 sid0 <= calls (log s') n0 sid0.
Proof.
  intros t s b s' H HC. destruct (evM _ _ _ _ H (proj1 HC)) as (A & _ & C). split; auto.
Qed.

Lemma nn_roots : forall ns s, nn (gr s) n0 = true -> nn (gr (send_roots changed ns s)) n0 = true.
Proof using Type. intros ns s. apply (fs_nn _ _ (send_roots_fs changed ns s)). Qed.
Lemma nn_push : forall n v g, nn (push_down changed n v g) n0 = nn g n0.
Proof using Type. intros. apply (fc_nn _ _ _ (fc_push_down changed n v g)). Qed.

Lemma quiet_done : forall t s b s', ev t s b s' -> ctx s -> notifies t = true ->
  quiet s s' -> b = true.
Proof.
  intros t s [] s' H [HI _] N [HC _]; auto.
  pose proof (ev_thrown changed changed_sound ordV ordN _ _ _ _ H eq_refl N HI). lia.
Qed.
Ltac trim HB := simpl in HB; match type of HB with
  | _ \/ true = false => destruct HB as [HB|HB]; [try discriminate HB; subst|discriminate HB]
  | _ => clear HB end.

Lemma ev_told : forall t s b s', ev t s b s' -> ctx s -> b = true \/ notifies t = false -> quiet s s' ->
  sid0 < nexts (gr s) -> here s' ->
  covers t = false /\ (nn (gr s) n0 = true -> nn (gr s') n0 = true).
Proof.
  intros t s b s' H. induction H; intros HC HB HQ HL HH; trim HB; auto;
    try (split; [reflexivity|auto]; fail).
  - pose proof (evm _ _ _ _ H HC) as M1. pose proof (evC _ _ _ _ H HC) as C1.
    pose proof (evm _ _ _ _ H0 C1) as M2.
    destruct (ev_slots _ _ _ _ H (proj1 HC)) as [L1 _].
    assert (HL1 : sid0 < nexts (gr s1)) by lia.
    destruct (here_back _ _ _ _ H0 (proj1 C1) HL1 HH) as [HH1 _].
    destruct IHev1 as [_ A]; [assumption|auto|unfold quiet in *; simpl in *; lia|assumption|assumption|].
    destruct IHev2 as [_ B]; [assumption|auto|unfold quiet in *; simpl in *; lia|assumption|assumption|].
    split; auto.
  - pose proof (evm _ _ _ _ H HC) as M1. pose proof (evC _ _ _ _ H HC) as C1.
    pose proof (evm _ _ _ _ H0 C1) as M2.
    destruct (ev_slots _ _ _ _ H (proj1 HC)) as [L1 _].
    assert (HL1 : sid0 < nexts (gr s1)) by lia.
    destruct (here_back _ _ _ _ H0 (proj1 C1) HL1 HH) as [HH1 _].
    destruct IHev1 as [_ A]; [assumption|auto|unfold quiet in *; simpl in *; lia|assumption|assumption|].
    destruct IHev2 as [_ B]; [assumption|auto|unfold quiet in *; simpl in *; lia|assumption|assumption|].
    split; auto.
  - assert (C0 : ctx (pin n s)).
    { apply (ctx_pin changed changed_sound ordN); auto. now apply alive_handle. }
    apply (IHev C0 (or_intror eq_refl) HQ HL HH).
  - assert (C0 : ctx (pin n s)).
    { apply (ctx_pin changed changed_sound ordN); auto. now apply alive_handle. }
    apply (IHev C0 (or_intror eq_refl) HQ HL HH).
  - assert (C0 : ctx (send_roots changed ns s)) by (now apply ctx_roots).
    destruct (roots_counts changed ns s) as (R1 & _ & R3). specialize (R3 n0 sid0).
    pose proof (evm _ _ _ _ H0 C0) as M.
    assert (Q0 : quiet (send_roots changed ns s) s1) by (unfold quiet in *; lia).
    destruct IHev as [_ A]; auto.
    + left. eapply quiet_done; eauto.
    + now rewrite (ss_nexts _ _ (send_roots_ss changed ns s)).
    + split; auto. intros E. apply A. now apply nn_roots.
  - split; auto. simpl. now rewrite nn_push.
  - split; auto. unfold new_node. simpl. intros E.
    assert (N : n0 <> cnt (gr s)).
    { pose proof (nn_lt changed s n0 (proj1 HC) E). lia. }
    destruct (add_old_fields changed changed_sound (gr s) k ps v H H0 n0 N)
      as (_&_&_&_&_&E6&_). now rewrite E6.
  - split; auto. unfold nn. simpl. destruct (n0 =? n); auto.
  - split; auto. unfold nn. simpl. destruct (n0 =? n); auto.
  - split; auto. unfold nn. simpl. destruct (n0 =? n); auto.
  - split; auto. simpl. now rewrite nn_push.
  - assert (C0 : ctx (send_roots changed [n] (wr changed n v s))) by (now apply ctx_auto).
    destruct (roots_counts changed [n] (wr changed n v s)) as (R1 & _ & R3). specialize (R3 n0 sid0).
    assert (Q0 : quiet (send_roots changed [n] (wr changed n v s)) s1)
      by (unfold quiet in *; simpl in *; lia).
    destruct IHev as [_ A]; auto.
    + left. eapply quiet_done; eauto.
    + rewrite (ss_nexts _ _ (send_roots_ss changed [n] (wr changed n v s))).
      now rewrite (ss_nexts _ _ (wr_ss changed n v s)).
    + split; auto. intros E. apply A. apply nn_roots. simpl. now rewrite nn_push.
  - assert (HH1 : here s1).
    { unfold here in *. simpl in HH.
      now rewrite (ss_slots _ _ (fc_ss _ _ _ (fc_push_down changed n v (gr s1)))) in HH. }
    destruct (IHev HC (or_introl eq_refl) HQ HL HH1) as [_ A]. split; auto. simpl. rewrite nn_push. exact A.
  - assert (C1 : ctx s1) by (eapply evC; [exact H0|exact HC]).
    destruct (evI _ _ _ _ H0 (proj1 HC)) as [I1 X1]. change (gr (ask n v s)) with (gr s) in X1.
    set (s2' := mark_rcp n (with_gr s1 (push_down changed n v))) in *.
    assert (C2 : ctx (send_roots changed [n] s2'))
      by (exact (ctx_setter changed changed_sound ordN n fn s s1 v HC H C1 X1)).
    pose proof (evm _ _ _ _ H0 HC) as M1. pose proof (evm _ _ _ _ H1 C2) as M2.
    destruct (roots_counts changed [n] s2') as (R1 & _ & R3). specialize (R3 n0 sid0).
    assert (S2 : same_struct (gr s1) (gr (send_roots changed [n] s2'))).
    { eapply ss_trans; [|apply send_roots_ss].
      eapply ss_trans; [apply (fc_ss _ _ _ (fc_push_down changed n v (gr s1)))|].
      apply ss_upd. intros []; simpl; auto 10. }
    destruct (ev_slots _ _ _ _ H0 (proj1 HC)) as [L1 _]. simpl in L1.
    assert (HL2 : sid0 < nexts (gr (send_roots changed [n] s2'))) by (rewrite (ss_nexts _ _ S2); lia).
    destruct (here_back _ _ _ _ H1 (proj1 C2) HL2 HH) as [HH2 _].
    assert (HH1 : here s1) by (unfold here in *; now rewrite (ss_slots _ _ S2) in HH2).
    change (log s2') with (log s1) in *.
    assert (Q0 : quiet (send_roots changed [n] s2') s2) by (unfold quiet in *; simpl in *; lia).
    destruct IHev1 as [_ A]; [assumption|auto|unfold quiet in *; simpl in *; lia|assumption|assumption|].
    destruct IHev2 as [_ B]; [assumption|left; eapply quiet_done; eauto|unfold quiet in *; simpl in *; lia|assumption|assumption|].
    split; auto. intros E. apply B. apply nn_roots. unfold s2', nn. simpl.
    assert (E1 : nn (push_down changed n v (gr s1)) n0 = true) by (rewrite nn_push; auto).
    unfold nn in E1. destruct (n0 =? n); auto.
  - assert (C0 : ctx (refreshed changed ordN rf n s)) by (now apply ctx_ref).
    destruct IHev as [_ A]; auto.
    + destruct rf; exact HQ.
    + now rewrite (ss_nexts _ _ (refreshed_ss changed ordN rf n s)).
    + split; auto. intros E. apply A. destruct rf; auto. simpl.
      now rewrite (fr_nn _ _ (fr_refresh changed ordN (S n) n (gr s))).
  - pose proof (evm _ _ _ _ H HC) as M1. pose proof (evC _ _ _ _ H HC) as C1.
    pose proof (evm _ _ _ _ H0 C1) as M2.
    destruct (ev_slots _ _ _ _ H (proj1 HC)) as [L1 _].
    assert (HL1 : sid0 < nexts (gr s1)) by lia.
    destruct (here_back _ _ _ _ H0 (proj1 C1) HL1 HH) as [HH1 _].
    destruct IHev1 as [_ A]; [assumption|auto|unfold quiet in *; simpl in *; lia|assumption|assumption|].
    destruct IHev2 as [_ B]; [assumption|auto|unfold quiet in *; simpl in *; lia|assumption|assumption|].
    split; auto.
  - pose proof (evm _ _ _ _ H HC) as M1. pose proof (evC _ _ _ _ H HC) as C1.
    pose proof (evm _ _ _ _ H0 C1) as M2.
    destruct (ev_slots _ _ _ _ H (proj1 HC)) as [L1 _].
    assert (HL1 : sid0 < nexts (gr s1)) by lia.
    destruct (here_back _ _ _ _ H0 (proj1 C1) HL1 HH) as [HH1 _].
    destruct IHev1 as [_ A]; [assumption|auto|unfold quiet in *; simpl in *; lia|assumption|assumption|].
    destruct IHev2 as [_ B]; [assumption|auto|unfold quiet in *; simpl in *; lia|assumption|assumption|].
    split; auto.
  - pose proof (evm _ _ _ _ H0 HC) as M1. pose proof (evC _ _ _ _ H0 HC) as C1.
    pose proof (evm _ _ _ _ H1 C1) as M2.
    destruct (ev_slots _ _ _ _ H0 (proj1 HC)) as [L1 _].
    assert (HL1 : sid0 < nexts (gr s1)) by lia.
    destruct (here_back _ _ _ _ H1 (proj1 C1) HL1 HH) as [HH1 _].
    destruct IHev1 as [_ A]; [assumption|auto|unfold quiet in *; simpl in *; lia|assumption|assumption|].
    destruct IHev2 as [_ B]; [assumption|auto|unfold quiet in *; simpl in *; lia|assumption|assumption|].
    split; auto.
  - (* notified *)
    assert (C0 : ctx (start_notify n s)) by (now apply ctx_start).
    pose proof (evm _ _ _ _ H1 C0) as M1. pose proof (evC _ _ _ _ H1 C0) as C1.
    pose proof (evm _ _ _ _ H2 C1) as M2.
    destruct (ev_slots _ _ _ _ H1 (proj1 C0)) as [L1 _]. simpl in L1.
    assert (HL1 : sid0 < nexts (gr s1)) by lia.
    assert (HH2 : here s2).
    { unfold here, slots in *. simpl in HH. destruct (n0 =? n); auto. }
    destruct (here_back _ _ _ _ H2 (proj1 C1) HL1 HH2) as [HH1 _].
    destruct IHev1 as [A1 A2]; [assumption|auto|unfold quiet in *; simpl in *; lia|assumption|assumption|].
    destruct IHev2 as [_ B]; [assumption|auto|unfold quiet in *; simpl in *; lia|assumption|assumption|].
    simpl in A1. rewrite andb_true_r in A1. apply Nat.eqb_neq in A1.
    split; auto. intros E. unfold nn in *. simpl in *.
    rewrite (proj2 (Nat.eqb_neq n0 n)) in * by auto. auto.
  - (* no more watchers *)
    split; auto. simpl. destruct (Nat.eqb_spec n n0) as [->|]; auto. simpl.
    unfold next_slot in H. apply (find_none _ _ H) in HH. exact HH.
  - assert (C0 : ctx (called n sid s)) by (exact HC).
    pose proof (evm _ _ _ _ H0 C0) as M1. pose proof (evC _ _ _ _ H0 C0) as C1.
    pose proof (evm _ _ _ _ H3 C1) as M2.
    destruct (ev_slots _ _ _ _ H0 (proj1 C0)) as [L1 _]. simpl in L1.
    assert (HL1 : sid0 < nexts (gr s1)) by lia.
    destruct (here_back _ _ _ _ H3 (proj1 C1) HL1 HH) as [HH1 _].
    destruct (here_back _ _ _ _ H0 (proj1 C0) HL HH1) as [HH0 _].
    simpl in M1.
    assert (NC : (n =? n0) && (sid =? sid0) = false).
    { destruct ((n =? n0) && (sid =? sid0)); auto. unfold quiet in HQ. lia. }
    rewrite NC in M1.
    destruct IHev1 as [_ A]; [assumption|auto|unfold quiet in *; simpl in *; rewrite NC; lia|assumption|assumption|].
    destruct IHev2 as [B1 B2]; [assumption|auto|unfold quiet in *; simpl in *; lia|assumption|assumption|].
    split; auto. cbn [covers] in *. destruct (Nat.eqb_spec n n0) as [->|]; auto.
    cbn [andb] in *.
    destruct (Nat.leb_spec from sid0) as [Lf|]; auto.
    pose proof (next_slot_first _ _ _ _ _ _ _ (wf_sorted _ (proj1 (proj1 HC)) n0) H HH0 Lf) as L.
    apply Nat.eqb_neq in NC. apply Nat.leb_gt in B1. lia.
  - split; auto. destruct (garbage && negb old); auto. unfold nn. simpl. destruct (n0 =? n); auto.
  - assert (C0 : ctx (pin c s)) by (now apply (ctx_pin changed changed_sound ordN)).
    pose proof (evm _ _ _ _ H2 C0) as M1. pose proof (evC _ _ _ _ H2 C0) as C1.
    assert (C2 : ctx (unpin s1)) by (now apply (ctx_unpin changed changed_sound ordN)).
    pose proof (evm _ _ _ _ H4 C2) as M2.
    destruct (ev_slots _ _ _ _ H2 (proj1 C0)) as [L1 _]. simpl in L1.
    assert (HL1 : sid0 < nexts (gr s1)) by lia.
    destruct (here_back _ _ _ _ H4 (proj1 C2) HL1 HH) as [HH1 _].
    destruct IHev1 as [_ A]; [assumption|auto|unfold quiet in *; simpl in *; lia|assumption|assumption|].
    destruct IHev2 as [_ B]; [assumption|auto|unfold quiet in *; simpl in *; lia|assumption|assumption|].
    split; auto.
Qed.


(** ** Each call is paid for by a propagation that assigned the value *)
Definition b2n (b : bool) : nat := if b then 1 else 0.
Definition pays (c : nat) s s' : Prop :=
  calls (log s') n0 sid0 + b2n (nn (gr s') n0) + propagations (log s) <=
    calls (log s) n0 sid0 + propagations (log s') + b2n (nn (gr s) n0) + c /\
  calls (log s') n0 sid0 + b2n (nn (gr s') n0) + assigned (log s) n0 <=
    calls (log s) n0 sid0 + assigned (log s') n0 + b2n (nn (gr s) n0) + c.

Lemma pays_trans : forall c c' s s1 s2, pays c s s1 -> pays c' s1 s2 -> pays (c + c') s s2.
Proof using Type. unfold pays. intros. lia. Qed.
Lemma pays_refl : forall s, pays 0 s s.
Proof using Type. unfold pays. intros. lia. Qed.
Lemma pays_weak : forall c c' s s', pays c s s' -> c <= c' -> pays c' s s'.
Proof using Type. unfold pays. intros. lia. Qed.
Lemma pays_eq : forall s s', log s' = log s -> nn (gr s') n0 = nn (gr s) n0 -> pays 0 s s'.
Proof using Type. unfold pays. intros s s' -> ->. lia. Qed.

Lemma send_down_pays : forall fuel n s,
  b2n (nn (gr (send_down changed fuel n s)) n0) + assigned (log s) n0 <=
  assigned (log (send_down changed fuel n s)) n0 + b2n (nn (gr s) n0).
Proof using Type.
  induction fuel as [|f IH]; intros n s; simpl; [lia|].
  assert (ES : assigned (sample n s) n0 = assigned (log s) n0)
    by (unfold sample; destruct (kind_of (gr s) n); auto).
  pose proof (fc_nn _ _ _ (fc_recompute changed n (gr s))) as EN.
  set (g1 := recompute changed n (gr s)) in *. clearbody g1.
  destruct (nsd g1 n); [|simpl; rewrite EN, ES; lia].
  assert (H : forall cs a,
    b2n (nn (gr (fold_left (fun s0 c => if alive (gr s0) c then send_down changed f c s0 else s0) cs a)) n0)
      + assigned (log a) n0 <=
    assigned (log (fold_left (fun s0 c => if alive (gr s0) c then send_down changed f c s0 else s0) cs a)) n0
      + b2n (nn (gr a) n0)).
  { induction cs as [|c cs IHc]; intros a; simpl; [lia|].
    destruct (alive (gr a) c); [|apply IHc]. specialize (IH c a).
    specialize (IHc (send_down changed f c a)). lia. }
  match goal with |- context [fold_left _ ?cs ?a] => specialize (H cs a) end.
  simpl in *. rewrite ES in H. rewrite <- (EN n0). unfold nn at 2 in H. simpl in H.
  rewrite (Nat.eqb_sym n0 n) in H. unfold nn in *.
  destruct (n =? n0); simpl in *; destruct (n_nn (nd g1 n0)); simpl in *; lia.
Qed.
Lemma sends_pays : forall ns s,
  let s' := fold_left (fun s n => send_down_node changed n s) ns s in
  b2n (nn (gr s') n0) + assigned (log s) n0 <= assigned (log s') n0 + b2n (nn (gr s) n0).
Proof using Type.
  induction ns as [|n ns IH]; intros s; simpl; [lia|].
  specialize (IH (send_down_node changed n s)). unfold send_down_node in *.
  pose proof (send_down_pays (S (cnt (gr s))) n s). cbv zeta in *. lia.
Qed.
Lemma roots_pays : forall ns s, pays 0 s (send_roots changed ns s).
Proof using Type.
  intros ns s. destruct (roots_counts changed ns s) as (_ & R2 & R3). unfold pays.
  rewrite R2, R3. pose proof (sends_pays ns (emit (ECommit ns (world (gr s))) s)) as P.
  fold (send_roots changed ns s) in P. cbv zeta in P. simpl in P.
  unfold b2n at 1. destruct (nn (gr (send_roots changed ns s)) n0); simpl in *; lia.
Qed.

Lemma ev_pays : forall t s b s', ev t s b s' -> ctx s -> pays (b2n (covers t)) s s'.
Proof.
  intros t s b s' H. induction H; intros HC; simpl b2n;
    try (eapply pays_weak; [apply pays_eq; reflexivity|simpl; lia]; fail).
  - unfold pays; simpl; lia.
  - pose proof (evC _ _ _ _ H HC) as C1.
    eapply pays_weak; [eapply pays_trans; [apply (IHev1 HC)|apply (IHev2 C1)]|simpl; lia].
  - auto.
  - pose proof (evC _ _ _ _ H HC) as C1.
    eapply pays_weak; [eapply pays_trans; [apply (IHev1 HC)|apply (IHev2 C1)]|simpl; lia].
  - apply IHev. apply (ctx_pin changed changed_sound ordN); auto. now apply alive_handle.
  - apply IHev. apply (ctx_pin changed changed_sound ordN); auto. now apply alive_handle.
  - assert (C0 : ctx (send_roots changed ns s)) by (now apply ctx_roots).
    eapply pays_weak; [eapply pays_trans; [apply roots_pays|apply (IHev C0)]|simpl; lia].
  - unfold pays; simpl. rewrite nn_push. lia.
  - assert (E : nn (gr (new_node k ps v s)) n0 = nn (gr s) n0).
    { unfold new_node. simpl. destruct (Nat.eq_dec n0 (cnt (gr s))) as [->|N].
      - unfold nn at 1. rewrite (add_nd_new changed changed_sound (gr s) k ps v H H0). simpl.
        destruct (wf_out _ (proj1 (proj1 HC)) (cnt (gr s))) as (_&_&_&_&_&A&_); auto.
      - destruct (add_old_fields changed changed_sound (gr s) k ps v H H0 n0 N)
          as (_&_&_&_&_&E6&_). exact E6. }
    unfold pays. rewrite E. simpl. lia.
  - unfold pays; simpl; lia.
  - apply pays_eq; auto. unfold nn. simpl. destruct (n0 =? n); auto.
  - assert (E : nn (gr (add_watch n cb s)) n0 = nn (gr s) n0).
    { unfold nn. simpl. destruct (n0 =? n); auto. }
    unfold pays. rewrite E. simpl. lia.
  - apply pays_eq; auto. unfold nn. simpl. destruct (n0 =? n); auto.
  - unfold pays; simpl. rewrite nn_push. lia.
  - assert (C0 : ctx (send_roots changed [n] (wr changed n v s))) by (now apply ctx_auto).
    assert (P : pays 0 s (wr changed n v s)) by (unfold pays; simpl; rewrite nn_push; lia).
    eapply pays_weak; [eapply pays_trans; [exact P|eapply pays_trans;
      [apply roots_pays|apply (IHev C0)]]|simpl; lia].
  - apply (IHev HC).
  - eapply pays_weak; [eapply pays_trans; [apply (IHev HC)|]|].
    + apply pays_eq; [reflexivity|]. simpl. apply nn_push.
    + simpl; lia.
  - assert (C1 : ctx s1) by (eapply evC; [exact H0|exact HC]).
    destruct (evI _ _ _ _ H0 (proj1 HC)) as [I1 X1]. change (gr (ask n v s)) with (gr s) in X1.
    set (s2' := mark_rcp n (with_gr s1 (push_down changed n v))) in *.
    assert (C2 : ctx (send_roots changed [n] s2'))
      by (exact (ctx_setter changed changed_sound ordN n fn s s1 v HC H C1 X1)).
    assert (P : pays 0 s1 s2').
    { apply pays_eq; [reflexivity|]. unfold s2', nn. simpl.
      pose proof (nn_push n v (gr s1)) as E. unfold nn in E. rewrite <- E.
      destruct (n0 =? n); auto. }
    eapply pays_weak; [eapply pays_trans; [apply (IHev1 HC)|eapply pays_trans; [exact P|
      eapply pays_trans; [apply roots_pays|apply (IHev2 C2)]]]|simpl; lia].
  - assert (C0 : ctx (refreshed changed ordN rf n s)) by (now apply ctx_ref).
    assert (P : pays 0 s (refreshed changed ordN rf n s)).
    { destruct rf; [|apply pays_refl]. apply pays_eq; [reflexivity|].
      apply (fr_nn _ _ (fr_refresh changed ordN (S n) n (gr s))). }
    eapply pays_weak; [eapply pays_trans; [exact P|apply (IHev C0)]|simpl; lia].
  - pose proof (evC _ _ _ _ H HC) as C1.
    eapply pays_weak; [eapply pays_trans; [apply (IHev1 HC)|apply (IHev2 C1)]|simpl; lia].
  - auto.
  - pose proof (evC _ _ _ _ H HC) as C1.
    eapply pays_weak; [eapply pays_trans; [apply (IHev1 HC)|apply (IHev2 C1)]|simpl; lia].
  - auto.
  - pose proof (evC _ _ _ _ H0 HC) as C1.
    eapply pays_weak; [eapply pays_trans; [apply (IHev1 HC)|apply (IHev2 C1)]|simpl; lia].
  - auto.
  - (* notified *)
    assert (C0 : ctx (start_notify n s)) by (now apply ctx_start).
    pose proof (evC _ _ _ _ H1 C0) as C1.
    specialize (IHev1 C0). specialize (IHev2 C1). simpl covers in *.
    rewrite andb_true_r in IHev1. simpl in IHev2.
    assert (E2 : nn (gr (restore n (ntf (gr s) n) s2)) n0 = nn (gr s2) n0).
    { unfold nn. simpl. destruct (n0 =? n); auto. }
    unfold pays in *. rewrite E2. change (log (start_notify n s)) with (log s) in *.
    change (log (restore n (ntf (gr s) n) s2)) with (log s2).
    cbn [b2n].
    assert (E0 : b2n (nn (gr (start_notify n s)) n0) + b2n (n =? n0) = b2n (nn (gr s) n0)).
    { unfold nn in *. simpl. rewrite (Nat.eqb_sym n0 n).
      destruct (Nat.eqb_spec n n0) as [->|]; simpl; [rewrite H; auto|lia]. }
    lia.
  - assert (C0 : ctx (start_notify n s)) by (now apply ctx_start).
    specialize (IHev C0). simpl covers in *. rewrite andb_true_r in IHev.
    assert (E2 : nn (gr (restore n (ntf (gr s) n) s1)) n0 = nn (gr s1) n0).
    { unfold nn. simpl. destruct (n0 =? n); auto. }
    unfold pays in *. rewrite E2. change (log (start_notify n s)) with (log s) in *.
    change (log (restore n (ntf (gr s) n) s1)) with (log s1).
    cbn [b2n].
    assert (E0 : b2n (nn (gr (start_notify n s)) n0) + b2n (n =? n0) = b2n (nn (gr s) n0)).
    { unfold nn in *. simpl. rewrite (Nat.eqb_sym n0 n).
      destruct (Nat.eqb_spec n n0) as [->|]; simpl; [rewrite H; auto|lia]. }
    lia.
  - assert (C0 : ctx (called n sid s)) by (exact HC).
    pose proof (evC _ _ _ _ H0 C0) as C1. specialize (IHev1 C0). specialize (IHev2 C1).
    apply next_slot_In in H as [_ L]. cbn [covers b2n] in *.
    unfold pays in *. simpl log in *. cbn [calls propagations assigned] in IHev1.
    change (gr (called n sid s)) with (gr s) in IHev1.
    destruct (n =? n0); cbn [andb b2n] in *; [|lia].
    destruct (Nat.eqb_spec sid sid0) as [->|N].
    + rewrite (proj2 (Nat.leb_gt (S sid0) sid0)) in IHev2 by lia.
      rewrite (proj2 (Nat.leb_le from sid0)) by lia. cbn [b2n] in *. lia.
    + destruct (Nat.leb_spec (S sid) sid0).
      * rewrite (proj2 (Nat.leb_le from sid0)) by lia. cbn [b2n] in *. lia.
      * cbn [b2n] in *. lia.
  - assert (C0 : ctx (called n sid s)) by (exact HC).
    specialize (IHev C0).
    apply next_slot_In in H as [_ L]. cbn [covers b2n] in *.
    unfold pays in *. simpl log in *. cbn [calls propagations assigned] in *.
    change (gr (emit (EEscape n sid) s1)) with (gr s1).
    change (gr (called n sid s)) with (gr s) in IHev.
    destruct (n =? n0); cbn [andb b2n] in *; [|lia].
    destruct (Nat.eqb_spec sid sid0) as [->|N].
    + rewrite (proj2 (Nat.leb_le from sid0)) by lia. cbn [b2n] in *. lia.
    + lia.
  - apply pays_eq; destruct (garbage && negb old); auto. unfold nn. simpl. destruct (n0 =? n); auto.
  - assert (C0 : ctx (pin c s)) by (now apply (ctx_pin changed changed_sound ordN)).
    pose proof (evC _ _ _ _ H2 C0) as C1.
    assert (C2 : ctx (unpin s1)) by (now apply (ctx_unpin changed changed_sound ordN)).
    eapply pays_weak; [eapply pays_trans; [apply (IHev1 C0)|apply (IHev2 C2)]|simpl; lia].
  - assert (C0 : ctx (pin c s)) by (now apply (ctx_pin changed changed_sound ordN)).
    apply (IHev C0).
  - auto.
Qed.

End OneWatcher.
End Count.
