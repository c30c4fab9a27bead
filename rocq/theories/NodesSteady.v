(** Nodes that are only recomputed by propagation, the order of children, and what
    the log says of the values shown. *)
From Coq Require Import List Arith Bool Lia Sorted.
From Verif Require Import NodesModel NodesSpec NodesTrackSpec NodesBase NodesInv NodesExec NodesEv NodesRoots
  NodesTrack.
Import ListNotations.

Section Steady.
Context {V W : Type}.
Variable changed : V -> V -> bool.
Hypothesis changed_sound : forall a b, changed a b = false -> a = b.
Variable ordN : graph V W -> nat -> list nat -> list nat.
Hypothesis ordN_in : forall g n l x, In x (ordN g n l) -> In x l.
Set Default Proof Using "Type changed_sound".
Implicit Types g : graph V W.
Implicit Types s : st V W.
Notation step := (step changed ordN).
Notation steps := (steps changed ordN).

(** ** Nothing waits to be sent down *)
Definition settled g n : Prop := nsd g n = false /\ last g n = cur g n.
Definition steady g n : Prop :=
  (exists down up, kind_of g n = KInner down up) /\ alive g n = true /\ not_reread g n.

Lemma settled_nd : forall g g' n, nd g' n = nd g n -> settled g n -> settled g' n.
Proof using Type. intros g g' n E. unfold settled, nsd, last, cur. now rewrite E. Qed.

Lemma send_settled : forall f r s n, wf (gr s) -> settled (gr s) n ->
  settled (gr (send_down changed f r s)) n.
Proof.
  induction f as [|f IH]; intros r s n Wf H; [exact H|]. cbn [send_down].
  pose proof (wf_recompute changed changed_sound _ r Wf) as W1.
  pose proof (fc_recompute changed r (gr s)) as F.
  assert (H1 : n <> r -> nd (recompute changed r (gr s)) n = nd (gr s) n) by (intros; now apply nd_recompute_other).
  assert (H2 : n = r -> nsd (recompute changed r (gr s)) r = false ->
    settled (recompute changed r (gr s)) n).
  { intros -> E. split; auto. rewrite (fc_last _ _ _ F), (fc_unch _ _ _ F E). apply H. }
  set (g1 := recompute changed r (gr s)) in *. clearbody g1.
  destruct (nsd g1 r) eqn:E; cbn [gr].
  2: { destruct (Nat.eq_dec n r) as [Eq|N]; [now apply H2|]. apply (settled_nd (gr s)); auto. }
  assert (Lm : r < cnt g1).
  { destruct (Nat.lt_ge_cases r (cnt g1)) as [Lm|Lm]; auto.
    destruct (wf_out _ W1 r Lm) as (_&_&_&_&A&_). congruence. }
  pose proof (wf_sent changed changed_sound _ r W1 Lm) as W2.
  assert (HF : forall cs (a : st V W), wf (gr a) -> settled (gr a) n ->
    settled (gr (fold_left (fun s0 c => if alive (gr s0) c then send_down changed f c s0 else s0) cs a)) n).
  { induction cs as [|c cs IHc]; intros a Wa Pa; [exact Pa|]. simpl.
    destruct (alive (gr a) c); [|now apply IHc]. apply IHc; [now apply wf_send_down|]. now apply IH. }
  apply HF; [exact W2|]. cbn [gr]. destruct (Nat.eq_dec n r) as [->|N].
  - unfold settled, nsd, last, cur. rewrite nd_upd_same. split; reflexivity.
  - apply (settled_nd (gr s)); auto. rewrite nd_upd_other by auto. auto.
Qed.
Lemma sends_settled : forall ns s n, wf (gr s) -> settled (gr s) n ->
  settled (gr (fold_left (fun s n => send_down_node changed n s) ns s)) n.
Proof.
  induction ns as [|r ns IH]; intros s n Wf H; [exact H|]. simpl. apply IH.
  - now apply wf_send_down.
  - now apply send_settled.
Qed.

Definition NI s : Prop := forall n, steady (gr s) n -> settled (gr s) n.

Lemma steady_ext : forall g g' n, wf g -> ext g g' -> n < cnt g ->
  (alive g' n = true -> alive g n = true) -> steady g' n -> steady g n.
Proof using Type.
  intros g g' n Wf E L HA ((d & u & K) & A & NR). pose proof E as [_ E2].
  destruct (E2 n L) as [E3 E4]. split; [exists d, u; congruence|]. split; auto.
  eapply not_reread_ext; eauto.
Qed.

Lemma step_NI : forall s s', step s s' -> Inv changed (gr s) -> NI s -> NI s'.
Proof using changed_sound ordN_in.
  intros s s' H HI HN n Hs.
  pose proof (step_Inv changed changed_sound ordN _ _ H HI) as [HI' HE].
  pose proof HI as [Wf _]. pose proof HI' as [Wf' _].
  assert (HA : n < cnt (gr s) -> alive (gr s') n = true -> alive (gr s) n = true)
    by (intros; eapply step_alive; eauto).
  assert (L' : n < cnt (gr s')) by (apply alive_cnt; [apply (wf_par _ Wf')|apply Hs]).
  assert (OLD : n < cnt (gr s) -> settled (gr s) n /\ steady (gr s) n).
  { intros L. assert (St : steady (gr s) n) by (eapply steady_ext; eauto). split; auto. }
  assert (FR : cnt (gr s') = cnt (gr s) -> (settled (gr s) n -> steady (gr s) n -> settled (gr s') n) -> settled (gr s') n).
  { intros C X. rewrite C in L'. destruct (OLD L') as [O1 O2]. auto. }
  clear HN. destruct H; try (apply FR; auto; fail);
    try (apply FR; [reflexivity|]; intros [X1 X2] _; unfold settled, nsd, last, cur in *; simpl;
         destruct (_ =? _); auto; fail).
  - apply FR; [apply (ss_cnt _ _ (send_roots_ss changed ns s))|]. intros X _. now apply sends_settled.
  - pose proof (fc_push_down changed n0 v (gr s)) as F. apply FR; [apply (ss_cnt _ _ (fc_ss _ _ _ F))|].
    intros X ((d & u & K) & _). apply (settled_nd (gr s)); auto. simpl. apply nd_push_other.
    intros ->. destruct H; congruence.
  - pose proof (fc_push_down changed n0 v (gr s)) as F.
    apply FR; [rewrite (ss_cnt _ _ (send_roots_ss changed [n0] _)); apply (ss_cnt _ _ (fc_ss _ _ _ F))|].
    intros X ((d & u & K) & _). apply sends_settled.
    + apply (wf_push_down changed changed_sound); auto. apply (noninner_out _ _ Wf). rewrite H. discriminate.
    + apply (settled_nd (gr s)); auto. simpl. apply nd_push_other. congruence.
  - pose proof (fc_push_down changed n0 v (gr s)) as F. apply FR; [apply (ss_cnt _ _ (fc_ss _ _ _ F))|].
    intros X ((d & u & K) & _). apply (settled_nd (gr s)); auto. simpl. apply nd_push_other. congruence.
  - pose proof (fc_push_down changed n0 v (gr s)) as F.
    apply FR; [rewrite (ss_cnt _ _ (send_roots_ss changed [n0] _)); apply (ss_cnt _ _ (fc_ss _ _ _ F))|].
    intros X ((d & u & K) & _). apply sends_settled.
    + eapply wf_vals with (g := push_down changed n0 v (gr s)).
      * apply (wf_push_down changed changed_sound); auto. apply (noninner_out _ _ Wf). rewrite H. discriminate.
      * apply ss_upd. intros []; simpl; auto 10.
      * intros m Hm. pose proof (wf_push_down changed changed_sound _ n0 v Wf) as Wp.
        assert (Ln : n0 < cnt (gr s)) by (apply (noninner_out _ _ Wf); rewrite H; discriminate).
        destruct (wf_out _ (Wp Ln) m Hm) as (A1 & A2 & A3 & A4 & A5 & A6 & A7 & A8).
        unfold nsd, nn, last, cur in *. simpl.
        destruct (Nat.eqb_spec m n0) as [->|]; simpl; auto.
    + apply (settled_nd (gr s)); auto. simpl. assert (N : n <> n0) by congruence.
      rewrite (proj2 (Nat.eqb_neq n n0)) by auto. now apply nd_push_other.
  - unfold new_node in *. simpl in *.
    destruct (add_rest changed changed_sound (gr s) k ps v H H0) as (C & _).
    rewrite C in L'. destruct (Nat.eq_dec n (cnt (gr s))) as [->|N].
    + pose proof (add_nd_new changed changed_sound (gr s) k ps v H H0) as EN.
      unfold settled, nsd, last, cur. rewrite EN. split; reflexivity.
    + destruct OLD as [[X1 X2] _]; [lia|].
      unfold settled, nsd, last, cur in *. rewrite (add_nd_old changed changed_sound (gr s) k ps v H H0) by auto.
      destruct (mem n ps); auto.
  - pose proof (fr_refresh changed ordN (S n0) n0 (gr s)) as F.
    apply FR; [apply (ss_cnt _ _ (fr_ss _ _ F))|]. intros X (_ & _ & NR).
    apply (settled_nd (gr s)); auto. cbn [gr with_gr]. apply nd_refresh; auto.
    right. intros Y. apply anc_source in Y. apply (NR n0 Y). unfold rereads.
    destruct (kind_of (gr s) n0); simpl in H; try discriminate; rewrite H; exact I.
Qed.

(** ** Children are in the order in which they were made *)
Definition SI g : Prop := forall n, StronglySorted lt (children g n).

Lemma sorted_snoc : forall l x, StronglySorted lt l -> (forall y, In y l -> y < x) -> StronglySorted lt (l ++ [x]).
Proof using Type.
  induction l as [|a l IH]; intros x H HX; simpl; [constructor; constructor|].
  inversion H as [|? ? H1 H2]; subst. constructor.
  - apply IH; auto. intros y Hy. apply HX. now right.
  - apply Forall_app. split; auto. constructor; auto. apply HX. now left.
Qed.
Lemma sorted_filter : forall f l, StronglySorted lt l -> StronglySorted lt (filter f l).
Proof using Type.
  intros f. induction l as [|a l IH]; intros H; simpl; [constructor|]. inversion H as [|? ? H1 H2]; subst.
  destruct (f a); auto. constructor; auto. apply Forall_forall. intros x Hx.
  apply filter_In in Hx as [Hx _]. rewrite Forall_forall in H2. auto.
Qed.
Lemma sorted_split : forall l m n, StronglySorted lt l -> In m l -> In n l -> m < n ->
  exists l1 l2 l3, l = l1 ++ m :: l2 ++ n :: l3 /\ (forall c, In c l1 -> c < m) /\
    (forall c, In c l2 -> m < c < n) /\ (forall c, In c l3 -> n < c).
Proof using Type.
  assert (SP : forall l x, StronglySorted lt l -> In x l -> exists l1 l2, l = l1 ++ x :: l2 /\
    (forall c, In c l1 -> c < x) /\ StronglySorted lt l2 /\ (forall c, In c l2 -> x < c)).
  { induction l as [|a l IH]; intros x H HX; [destruct HX|]. inversion H as [|? ? H1 H2]; subst.
    destruct HX as [<-|Hx].
    - exists [], l. rewrite Forall_forall in H2. split; auto. split; auto. intros c [].
    - destruct (IH x H1 Hx) as (l1 & l2 & -> & A & B & C). exists (a :: l1), l2. split; auto.
      rewrite Forall_forall in H2. split; auto. intros c [<-|Hc]; auto. }
  intros l m n H Hm Hn L. destruct (SP l m H Hm) as (l1 & r & -> & A & B & C).
  assert (Hn' : In n r).
  { apply in_app_iff in Hn as [Hn|[Hn|Hn]]; auto; [apply A in Hn|]; lia. }
  destruct (SP r n B Hn') as (l2 & l3 & -> & A2 & B2 & C2).
  exists l1, l2, l3. split; auto. split; auto. split; auto.
  intros c Hc. split; auto. apply C. apply in_app_iff. now left.
Qed.

Lemma SI_children : forall g g', (forall n, children g' n = children g n) -> SI g -> SI g'.
Proof using Type. intros g g' E H n. rewrite E. apply H. Qed.
Lemma step_SI : forall s s', step s s' -> Inv changed (gr s) -> SI (gr s) -> SI (gr s').
Proof.
  intros s s' H HI HK. pose proof HI as [Wf _].
  assert (PD : forall n v, SI (push_down changed n v (gr s))).
  { intros n v. eapply SI_children; [|exact HK]. apply (ss_children _ _ (fc_ss _ _ _ (fc_push_down changed n v (gr s)))). }
  destruct H; auto; try apply PD;
    try (eapply SI_children; [|exact HK]; intros m; unfold children; simpl;
         destruct (m =? n); reflexivity).
  - eapply SI_children; [|exact HK]. apply (ss_children _ _ (send_roots_ss changed ns s)).
  - eapply SI_children; [|apply (PD n v)].
    apply (ss_children _ _ (send_roots_ss changed [n] (wr changed n v s))).
  - eapply SI_children; [|apply (PD n v)]. intros m.
    rewrite (ss_children _ _ (send_roots_ss changed [n] _)).
    unfold children. simpl. destruct (m =? n); reflexivity.
  - intros m. unfold new_node. simpl. destruct (Nat.eq_dec m (cnt (gr s))) as [->|N].
    + unfold children. rewrite (add_nd_new changed changed_sound (gr s) k ps v H H0). constructor.
    + rewrite (add_old_children changed changed_sound (gr s) k ps v H H0) by auto.
      destruct (mem m ps); [|rewrite app_nil_r; apply HK].
      apply sorted_snoc; [apply HK|]. intros y Hy. now apply (wf_kids _ Wf) in Hy.
  - eapply SI_children; [|exact HK].
    apply (ss_children _ _ (fr_ss _ _ (fr_refresh changed ordN (S n) n (gr s)))).
  - intros m. unfold children. simpl. destruct (Nat.eqb_spec m n) as [->|N]; [|apply HK].
    simpl. apply sorted_filter. apply HK.
Qed.

(** ** The log tells what is shown *)
Lemma showing_sends : forall (l l' : list (event V W)) n, Forall is_send l ->
  showing (l ++ l') n = match shown l n with v :: _ => Some v | [] => showing l' n end.
Proof using Type.
  induction 1 as [|e l He Hl IH]; simpl; auto. destruct e; simpl in *; try contradiction; auto.
  destruct (n0 =? n); auto.
Qed.
Lemma when_sends : forall (l l' : list (event V W)) n c, Forall is_send l ->
  shown_when (l ++ l') n c = shown_when l' n c.
Proof using Type.
  induction 1 as [|e l He Hl IH]; simpl; auto. destruct e; simpl in *; try contradiction; auto.
Qed.
Lemma sends_last : forall ns s n,
  let s' := fold_left (fun s n => send_down_node changed n s) ns s in exists vs,
  shown (log s') n = vs ++ shown (log s) n /\ last (gr s') n = hd (last (gr s) n) vs.
Proof using Type.
  induction ns as [|r ns IH]; intros s n; simpl; [exists []; auto|].
  destruct (IH (send_down_node changed r s) n) as (v1 & A1 & A2). unfold send_down_node in *.
  destruct (send_last changed (S (cnt (gr s))) r s n) as (v2 & B1 & B2). exists (v1 ++ v2).
  rewrite A1, A2, B1, B2, app_assoc. split; auto. now destruct v1.
Qed.
Lemma sends_showing : forall ns s n, showing (log s) n = Some (last (gr s) n) ->
  showing (log (send_roots changed ns s)) n = Some (last (gr (send_roots changed ns s)) n).
Proof using Type.
  intros ns s n H. unfold send_roots.
  set (s0 := emit (ECommit ns (world (gr s))) s).
  destruct (sends_log changed ns s0) as (l & EL & Hl).
  destruct (sends_last ns s0 n) as (vs & A1 & A2). cbv zeta in A1, A2. rewrite A2. rewrite EL in A1 |- *.
  rewrite shown_app in A1. apply app_inv_tail in A1. rewrite showing_sends, A1 by auto.
  destruct vs; auto.
Qed.

Definition SH s : Prop := forall n, n < cnt (gr s) -> showing (log s) n = Some (last (gr s) n).
Lemma step_SH : forall s s', step s s' -> Inv changed (gr s) -> SH s -> SH s'.
Proof.
  intros s s' H HI HS n L. pose proof HI as [Wf _].
  destruct H; try (apply HS; exact L);
    try (unfold last; simpl; destruct (Nat.eqb_spec n n0) as [->|]; simpl; apply HS; exact L).
  - apply sends_showing. apply HS. now rewrite (ss_cnt _ _ (send_roots_ss changed ns s)) in L.
  - pose proof (fc_push_down changed n0 v (gr s)) as F. simpl in *. rewrite (fc_last _ _ _ F). apply HS.
    now rewrite (ss_cnt _ _ (fc_ss _ _ _ F)) in L.
  - pose proof (fc_push_down changed n0 v (gr s)) as F.
    apply sends_showing. rewrite (ss_cnt _ _ (send_roots_ss changed [n0] _)) in L. simpl in *.
    rewrite (fc_last _ _ _ F). apply HS. now rewrite (ss_cnt _ _ (fc_ss _ _ _ F)) in L.
  - pose proof (fc_push_down changed n0 v (gr s)) as F. simpl in *. rewrite (fc_last _ _ _ F). apply HS.
    now rewrite (ss_cnt _ _ (fc_ss _ _ _ F)) in L.
  - pose proof (fc_push_down changed n0 v (gr s)) as F.
    apply sends_showing. rewrite (ss_cnt _ _ (send_roots_ss changed [n0] _)) in L. simpl in L.
    rewrite (ss_cnt _ _ (fc_ss _ _ _ F)) in L. cbn [log mark_rcp with_gr emit].
    transitivity (Some (last (gr s) n)); [now apply HS|]. f_equal.
    unfold last. simpl. destruct (n =? n0); symmetry; apply (fc_last _ _ _ F).
  - unfold new_node in *. simpl in *.
    destruct (add_rest changed changed_sound (gr s) k ps v H H0) as (C & _). rewrite C in L.
    destruct (Nat.eqb_spec (cnt (gr s)) n) as [<-|N].
    + unfold last. now rewrite (add_nd_new changed changed_sound (gr s) k ps v H H0).
    + destruct (add_old_fields changed changed_sound (gr s) k ps v H H0 n) as (_ & _ & _ & E2 & _); auto.
      rewrite E2. apply HS. lia.
  - pose proof (fr_refresh changed ordN (S n0) n0 (gr s)) as F. cbn [gr log with_gr] in *.
    rewrite (fr_last _ _ F). apply HS. now rewrite (ss_cnt _ _ (fr_ss _ _ F)) in L.
Qed.
End Steady.
