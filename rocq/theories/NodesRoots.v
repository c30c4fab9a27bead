(** Root values are determined by the log; derived values by the roots. *)
From Coq Require Import List Arith Bool Lia.
From Verif Require Import NodesModel NodesSpec NodesBase NodesInv NodesExec NodesEv.
Import ListNotations.

Section Roots.
Context {V W : Type}.
Variable dv : V.
Variable changed : V -> V -> bool.
Hypothesis changed_sound : forall a b, changed a b = false -> a = b.
Variable ordV : graph V W -> nat -> list (nat * V) -> list (nat * V).
Variable ordN : graph V W -> nat -> list nat -> list nat.

Set Default Proof Using "Type changed_sound".
Implicit Types g : graph V W.
Implicit Types s : st V W.

Notation Inv := (Inv changed).
Notation step := (step changed ordN).
Notation steps := (steps changed ordN).

Definition is_send (e : event V W) : Prop := match e with ESend _ _ | ESample _ _ => True | _ => False end.

Lemma sample_log : forall n s, exists l, sample n s = l ++ log s /\ Forall is_send l.
Proof using Type.
  intros n s. unfold sample. destruct (kind_of (gr s) n); try (exists []; auto; fail).
  eexists [_]. split; [reflexivity|]. constructor; simpl; auto.
Qed.

Lemma send_down_log : forall fuel n s, exists l,
  log (send_down changed fuel n s) = l ++ log s /\ Forall is_send l.
Proof using Type.
  induction fuel as [|f IH]; intros n s; simpl; [exists []; auto|].
  destruct (sample_log n s) as (l0 & E0 & H0).
  destruct (nsd (recompute changed n (gr s)) n); [|exists l0; auto].
  assert (H : forall cs a, exists l,
    log (fold_left (fun s0 c => if alive (gr s0) c then send_down changed f c s0 else s0) cs a)
      = l ++ log a /\ Forall is_send l).
  { induction cs as [|c cs IHc]; intros a; simpl; [exists []; auto|].
    destruct (alive (gr a) c); auto.
    destruct (IHc (send_down changed f c a)) as (l & -> & Hl).
    destruct (IH c a) as (l' & -> & Hl'). exists (l ++ l'). rewrite app_assoc.
    split; auto. now apply Forall_app. }
  match goal with |- context [fold_left _ ?cs ?a] => destruct (H cs a) as (l & -> & Hl) end.
  simpl. rewrite E0. eexists (l ++ _ :: l0). rewrite <- app_assoc. simpl. split; [reflexivity|].
  apply Forall_app. split; auto. constructor; simpl; auto.
Qed.
Lemma sends_log : forall ns s, exists l,
  log (fold_left (fun s n => send_down_node changed n s) ns s) = l ++ log s /\ Forall is_send l.
Proof using Type.
  induction ns as [|n ns IH]; intros s; simpl; [exists []; auto|].
  destruct (IH (send_down_node changed n s)) as (l & -> & Hl).
  destruct (send_down_log (S (cnt (gr s))) n s) as (l' & E & Hl').
  unfold send_down_node. rewrite E. exists (l ++ l'). rewrite app_assoc.
  split; auto. now apply Forall_app.
Qed.
Lemma send_roots_log : forall ns s, exists l,
  log (send_roots changed ns s) = l ++ ECommit ns (world (gr s)) :: log s /\ Forall is_send l.
Proof using Type.
  intros ns s. unfold send_roots. destruct (sends_log ns (emit (ECommit ns (world (gr s))) s))
    as (l & -> & Hl). exists l. auto.
Qed.

Lemma written_sends : forall l l' r, Forall is_send l -> written (l ++ l') r = written l' r.
Proof using Type. induction 1 as [|e l He]; simpl; auto. destruct e; simpl in *; contradiction || auto. Qed.
Lemma committed_sends : forall l l' r, Forall is_send l -> committed (l ++ l') r = committed l' r.
Proof using Type. induction 1 as [|e l He]; simpl; auto. destruct e; simpl in *; contradiction || auto. Qed.
Lemma sampled_sends : forall f l l' r, Forall is_send l -> sampled f (l ++ l') r = sampled f l' r.
Proof using Type. induction 1 as [|e l He]; simpl; auto. destruct e; simpl in *; contradiction || auto. Qed.
Lemma uncommitted_sends : forall l l' r, Forall is_send l ->
  uncommitted (l ++ l') r = uncommitted l' r.
Proof using Type. induction 1 as [|e l He]; simpl; auto. destruct e; simpl in *; contradiction || auto. Qed.

(** Propagation does not touch other roots. *)
Lemma recompute_nsd_cur : forall g n, nsd (recompute changed n g) n = false ->
  nsd g n = false.
Proof using Type.
  intros g n H. destruct (nsd g n) eqn:E; auto.
  now rewrite (fc_up _ _ _ (fc_recompute changed n g) E) in H.
Qed.

Lemma child_not_root : forall g p c, wf g -> In c (children g p) ->
  is_root (kind_of g c) = false.
Proof using Type.
  intros g p c Wf H. destruct (wf_kids _ Wf _ _ H) as [_ Hp].
  pose proof (wf_arity _ Wf c) as A. destruct (kind_of g c); simpl in *; auto;
    destruct (parents g c); try discriminate; destruct Hp.
Qed.

Lemma wf_send_down : forall fuel n s, wf (gr s) -> wf (gr (send_down changed fuel n s)).
Proof.
  induction fuel as [|f IH]; intros n s Wf; simpl; auto.
  pose proof (wf_recompute changed changed_sound _ n Wf) as W1.
  set (g1 := recompute changed n (gr s)) in *. clearbody g1.
  destruct (nsd g1 n) eqn:E; simpl; auto.
  assert (Ln : n < cnt g1).
  { destruct (Nat.lt_ge_cases n (cnt g1)) as [Ln|Ln]; auto.
    destruct (wf_out _ W1 n Ln) as (_&_&_&_&A&_). congruence. }
  pose proof (wf_sent changed changed_sound _ n W1 Ln) as W2.
  match goal with |- wf (gr (fold_left _ ?cs ?a)) =>
    assert (Wa : wf (gr a)) by exact W2; revert Wa; generalize a; generalize cs end.
  intros cs; induction cs as [|c cs IHc]; intros a Wa; simpl; auto.
  apply IHc. destruct (alive (gr a) c); auto.
Qed.

Lemma send_down_other_root : forall fuel n s r, wf (gr s) -> r <> n ->
  is_root (kind_of (gr s) r) = true ->
  let g' := gr (send_down changed fuel n s) in
  cur g' r = cur (gr s) r /\ last g' r = last (gr s) r /\ nsd g' r = nsd (gr s) r.
Proof.
  induction fuel as [|f IH]; intros n s r Wf N R; [simpl; auto|]. cbv zeta. simpl.
  pose proof (wf_recompute changed changed_sound _ n Wf) as W1.
  pose proof (fc_recompute changed n (gr s)) as F. destruct F as [F1 F2 F3 F4 F5 F6 F7].
  pose proof (F4 r N) as G4. pose proof (F5 r N) as G5. pose proof (F2 r) as G2.
  rewrite <- (ss_kind _ _ F1) in R. rewrite <- G4, <- G5, <- G2.
  set (g1 := recompute changed n (gr s)) in *. clearbody g1.
  destruct (nsd g1 n) eqn:E; simpl; auto.
  assert (Ln : n < cnt g1).
  { destruct (Nat.lt_ge_cases n (cnt g1)) as [Ln|Ln]; auto.
    destruct (wf_out _ W1 n Ln) as (_&_&_&_&A&_). congruence. }
  assert (H : forall cs (a : st V W), same_struct g1 (gr a) -> wf (gr a) ->
    (forall c, In c cs -> In c (children g1 n)) ->
    let b := fold_left (fun s0 c => if alive (gr s0) c then send_down changed f c s0 else s0) cs a in
    cur (gr b) r = cur (gr a) r /\ last (gr b) r = last (gr a) r /\ nsd (gr b) r = nsd (gr a) r).
  { induction cs as [|c cs IHc]; intros a Sa Wa Hc; [simpl; auto|]. cbv zeta. simpl.
    assert (Hr : r <> c).
    { intros ->. assert (Hi : In c (children g1 n)) by (apply Hc; now left).
      apply (child_not_root g1 n c W1) in Hi. congruence. }
    assert (Hcs : forall c', In c' cs -> In c' (children g1 n)) by (intros c' Hc'; apply Hc; now right).
    destruct (alive (gr a) c).
    - pose proof (fs_send_down changed f c a) as FS.
      destruct (IHc (send_down changed f c a)) as (-> & -> & ->); auto.
      + eapply ss_trans; [exact Sa|apply (fs_ss _ _ FS)].
      + now apply wf_send_down.
      + apply IH; auto. now rewrite (ss_kind _ _ Sa).
    - now apply IHc. }
  assert (EC : children (upd g1 n set_sent) n = children g1 n).
  { unfold children. now rewrite nd_upd_same. }
  rewrite EC.
  destruct (H (children g1 n) (St (upd g1 n set_sent)
     (ESend n (last (upd g1 n set_sent) n) :: sample n s))) as (-> & -> & ->); auto.
  - apply ss_set_sent.
  - now apply (wf_sent changed changed_sound).
  - simpl. unfold cur, last, nsd. rewrite nd_upd_other by auto. auto.
Qed.

(** Sending down from a root publishes its current value. *)
Lemma send_down_self : forall fuel n s, wf (gr s) -> is_root (kind_of (gr s) n) = true ->
  (nsd (gr s) n = false -> last (gr s) n = cur (gr s) n) ->
  let g' := gr (send_down changed (S fuel) n s) in
  cur g' n = cur (recompute changed n (gr s)) n /\ last g' n = cur g' n /\ nsd g' n = false.
Proof.
  intros fuel n s Wf R HL. cbv zeta. simpl.
  pose proof (wf_recompute changed changed_sound _ n Wf) as W1.
  pose proof (fc_recompute changed n (gr s)) as F. destruct F as [F1 F2 F3 F4 F5 F6 F7].
  rewrite <- (ss_kind _ _ F1) in R.
  assert (HL1 : nsd (recompute changed n (gr s)) n = false ->
     last (recompute changed n (gr s)) n = cur (recompute changed n (gr s)) n).
  { intros E. rewrite F2, F7 by auto. apply HL. now apply recompute_nsd_cur. }
  set (g1 := recompute changed n (gr s)) in *. clearbody g1.
  destruct (nsd g1 n) eqn:E; simpl; auto.
  assert (Ln : n < cnt g1).
  { destruct (Nat.lt_ge_cases n (cnt g1)) as [Ln|Ln]; auto.
    destruct (wf_out _ W1 n Ln) as (_&_&_&_&A&_). congruence. }
  assert (H : forall cs (a : st V W), same_struct g1 (gr a) -> wf (gr a) ->
    (forall c, In c cs -> In c (children g1 n)) ->
    let b := fold_left (fun s0 c => if alive (gr s0) c then send_down changed fuel c s0 else s0) cs a in
    cur (gr b) n = cur (gr a) n /\ last (gr b) n = last (gr a) n /\ nsd (gr b) n = nsd (gr a) n).
  { induction cs as [|c cs IHc]; intros a Sa Wa Hc; [simpl; auto|]. cbv zeta. simpl.
    assert (Hr : n <> c).
    { intros ->. assert (Hi : In c (children g1 c)) by (apply Hc; now left).
      apply (child_not_root g1 c c W1) in Hi. congruence. }
    assert (Hcs : forall c', In c' cs -> In c' (children g1 n)) by (intros c' Hc'; apply Hc; now right).
    destruct (alive (gr a) c).
    - pose proof (fs_send_down changed fuel c a) as FS.
      destruct (IHc (send_down changed fuel c a)) as (-> & -> & ->); auto.
      + eapply ss_trans; [exact Sa|apply (fs_ss _ _ FS)].
      + now apply wf_send_down.
      + apply send_down_other_root; auto. now rewrite (ss_kind _ _ Sa).
    - now apply IHc. }
  assert (EC : children (upd g1 n set_sent) n = children g1 n).
  { unfold children. now rewrite nd_upd_same. }
  rewrite EC.
  destruct (H (children g1 n) (St (upd g1 n set_sent)
     (ESend n (last (upd g1 n set_sent) n) :: sample n s))) as (-> & -> & ->); auto.
  - apply ss_set_sent.
  - now apply (wf_sent changed changed_sound).
  - simpl. unfold cur, last, nsd. rewrite nd_upd_same. auto.
Qed.

(** ** Roots and the log *)
Definition RootOk s r : Prop :=
  (nsd (gr s) r = false -> last (gr s) r = cur (gr s) r) /\
  match kind_of (gr s) r with
  | KState _ | KStore | KConst =>
      written (log s) r = Some (cur (gr s) r) /\
      committed (log s) r = Some (last (gr s) r) /\
      (nsd (gr s) r = true -> uncommitted (log s) r = true)
  | KSensor f => sampled f (log s) r = Some (last (gr s) r) /\ nsd (gr s) r = false
  | _ => True
  end.
Definition AutoOk s r : Prop :=
  kind_of (gr s) r = KState true -> uncommitted (log s) r = false.
Definition RootInv s : Prop :=
  forall r, r < cnt (gr s) -> is_root (kind_of (gr s) r) = true -> RootOk s r /\ AutoOk s r.

Lemma RootInv_frame : forall s s', RootInv s -> cnt (gr s') = cnt (gr s) ->
  (forall r, kind_of (gr s') r = kind_of (gr s) r) ->
  (forall r, is_root (kind_of (gr s) r) = true -> cur (gr s') r = cur (gr s) r /\
     last (gr s') r = last (gr s) r /\ nsd (gr s') r = nsd (gr s) r) ->
  (forall r, written (log s') r = written (log s) r) ->
  (forall r, committed (log s') r = committed (log s) r) ->
  (forall f r, sampled f (log s') r = sampled f (log s) r) ->
  (forall r, uncommitted (log s') r = uncommitted (log s) r) ->
  RootInv s'.
Proof.
  intros s s' H C K F1 F2 F3 F4 F5 r L R. rewrite C in L. rewrite K in R.
  destruct (H r L R) as [A B]. destruct (F1 r R) as (E1 & E2 & E3).
  unfold RootOk, AutoOk in *. rewrite K, E1, E2, E3, F2, F3, F5.
  split; auto. destruct (kind_of (gr s) r); auto. now rewrite F4.
Qed.

Lemma recompute_root_cur : forall g r,
  match kind_of g r with KState _ | KStore | KConst => True | _ => False end ->
  recompute changed r g = g.
Proof using Type. intros g r H. unfold recompute. destruct (kind_of g r); contradiction || auto. Qed.

(** Publishing a set of roots. *)
Lemma sends_roots : forall ns s, wf (gr s) ->
  let s' := fold_left (fun s n => send_down_node changed n s) ns s in
  same_struct (gr s) (gr s') /\
  forall r, is_root (kind_of (gr s) r) = true ->
    (nsd (gr s) r = false -> last (gr s) r = cur (gr s) r) ->
    (~ In r ns -> cur (gr s') r = cur (gr s) r /\ last (gr s') r = last (gr s) r /\
       nsd (gr s') r = nsd (gr s) r) /\
    (In r ns -> nsd (gr s') r = false /\ last (gr s') r = cur (gr s') r /\
      match kind_of (gr s) r with
      | KSensor f => cur (gr s') r = f (world (gr s))
      | _ => cur (gr s') r = cur (gr s) r
      end).
Proof.
  induction ns as [|n ns IH]; intros s Wf; cbv zeta; simpl.
  - split; [apply ss_refl|]. intros r R HL. split; [auto|intros []].
  - pose proof (fs_send_down changed (S (cnt (gr s))) n s) as FS.
    change (send_down changed (S (cnt (gr s))) n s) with (send_down_node changed n s) in FS.
    assert (W1 : wf (gr (send_down_node changed n s))) by (now apply wf_send_down).
    destruct (IH _ W1) as [S1 H1]. pose proof (fs_ss _ _ FS) as S0. split.
    + eapply ss_trans; eauto.
    + intros r R HL. assert (R1 : is_root (kind_of (gr (send_down_node changed n s)) r) = true)
        by (now rewrite (ss_kind _ _ S0)).
      assert (HX : (r <> n -> cur (gr (send_down_node changed n s)) r = cur (gr s) r /\
                 last (gr (send_down_node changed n s)) r = last (gr s) r /\
                 nsd (gr (send_down_node changed n s)) r = nsd (gr s) r) /\
               (r = n -> nsd (gr (send_down_node changed n s)) r = false /\
                 last (gr (send_down_node changed n s)) r = cur (gr (send_down_node changed n s)) r /\
                 match kind_of (gr s) r with
                 | KSensor f => cur (gr (send_down_node changed n s)) r = f (world (gr s))
                 | _ => cur (gr (send_down_node changed n s)) r = cur (gr s) r
                 end)).
      { split.
        - intros N. unfold send_down_node. now apply send_down_other_root.
        - intros ->. unfold send_down_node.
          destruct (send_down_self (cnt (gr s)) n s Wf R HL) as (A1 & A2 & A3).
          split; auto. split; auto.
          destruct (kind_of (gr s) n) eqn:K; simpl in R; try discriminate;
            rewrite A1; unfold recompute; rewrite K; auto.
          apply push_down_cur. exact changed_sound. }
      destruct HX as [HX1 HX2].
      assert (HL1 : nsd (gr (send_down_node changed n s)) r = false ->
         last (gr (send_down_node changed n s)) r = cur (gr (send_down_node changed n s)) r).
      { destruct (Nat.eq_dec r n) as [E|N].
        - now destruct (HX2 E) as (_ & A & _).
        - destruct (HX1 N) as (-> & -> & ->). auto. }
      destruct (H1 r R1 HL1) as [H2 H3]. split.
      * intros N. assert (N1 : r <> n) by (intros ->; apply N; now left).
        assert (N2 : ~ In r ns) by (intros Hi; apply N; now right).
        destruct (HX1 N1) as (<- & <- & <-). auto.
      * intros Hi. destruct (in_dec Nat.eq_dec r ns) as [Hr|Hr].
        -- destruct (H3 Hr) as (B1 & B2 & B3). split; auto. split; auto.
           rewrite (ss_kind _ _ S0), (ss_world _ _ S0) in B3.
           destruct (Nat.eq_dec r n) as [E|N1].
           ++ destruct (HX2 E) as (_ & _ & C3).
              destruct (kind_of (gr s) r); auto; congruence.
           ++ destruct (HX1 N1) as (C1 & _). destruct (kind_of (gr s) r); auto; congruence.
        -- destruct (H2 Hr) as (B1 & B2 & B3). rewrite B1, B2, B3. apply HX2.
           destruct Hi as [<-|Hi]; auto. contradiction.
Qed.

Lemma send_roots_RootOk : forall ns s, wf (gr s) ->
  (forall r, r < cnt (gr s) -> is_root (kind_of (gr s) r) = true ->
      RootOk s r /\ (~ In r ns -> AutoOk s r)) ->
  RootInv (send_roots changed ns s).
Proof.
  intros ns s Wf H r L R. unfold send_roots in *.
  set (s0 := emit (ECommit ns (world (gr s))) s) in *.
  destruct (sends_roots ns s0 Wf) as [S1 HS].
  destruct (sends_log ns s0) as (l & EL & Hl).
  set (s' := fold_left (fun s n => send_down_node changed n s) ns s0) in *. clearbody s'.
  rewrite (ss_cnt _ _ S1) in L. rewrite (ss_kind _ _ S1) in R.
  destruct (H r L R) as [[A1 A2] B]. destruct (HS r R A1) as [N1 N2].
  unfold RootOk, AutoOk. rewrite (ss_kind _ _ S1), EL.
  rewrite written_sends, committed_sends, uncommitted_sends by auto.
  change (kind_of (gr s0) r) with (kind_of (gr s) r) in *.
  change (cur (gr s0) r) with (cur (gr s) r) in *.
  change (last (gr s0) r) with (last (gr s) r) in *.
  change (nsd (gr s0) r) with (nsd (gr s) r) in *.
  change (world (gr s0)) with (world (gr s)) in *.
  unfold s0. simpl.
  destruct (mem r ns) eqn:E.
  - apply mem_In in E. destruct (N2 E) as (C1 & C2 & C3). rewrite C1, C2.
    split; [|auto]. split; auto.
    destruct (kind_of (gr s) r); auto.
    + rewrite C3. destruct A2 as (A2 & _). repeat split; auto; discriminate.
    + rewrite sampled_sends by auto. simpl. rewrite (proj2 (mem_In r ns) E), C3. auto.
    + rewrite C3. destruct A2 as (A2 & _). repeat split; auto; discriminate.
    + rewrite C3. destruct A2 as (A2 & _). repeat split; auto; discriminate.
  - assert (E' : ~ In r ns) by (intros Hi; apply mem_In in Hi; congruence).
    destruct (N1 E') as (-> & -> & ->). split; [split; auto|apply (B E')].
    destruct (kind_of (gr s) r); auto.
    rewrite sampled_sends by auto. simpl. now rewrite E.
Qed.

Lemma push_down_other : forall n v g r, r <> n ->
  cur (push_down changed n v g) r = cur g r /\ last (push_down changed n v g) r = last g r /\
  nsd (push_down changed n v g) r = nsd g r.
Proof using Type.
  intros n v g r N. destruct (fc_push_down changed n v g) as [F1 F2 F3 F4 F5 F6 F7]. auto.
Qed.
Lemma push_down_last : forall n v g r, last (push_down changed n v g) r = last g r.
Proof using Type. intros. apply (fc_last _ _ _ (fc_push_down changed n v g)). Qed.

Lemma wr_RootOk : forall n v s, RootInv s ->
  match kind_of (gr s) n with KState _ | KStore => True | _ => False end ->
  forall r, r < cnt (gr s) -> is_root (kind_of (gr s) r) = true ->
  RootOk (wr changed n v s) r /\ (r <> n -> AutoOk (wr changed n v s) r).
Proof.
  intros n v s H K r L R. destruct (H r L R) as [[A1 A2] B].
  pose proof (fc_push_down changed n v (gr s)) as F.
  pose proof (ss_kind _ _ (fc_ss _ _ _ F)) as HK.
  unfold RootOk, AutoOk, wr. simpl. rewrite HK.
  destruct (Nat.eq_dec r n) as [->|N].
  - split; [|intros X; contradiction]. rewrite Nat.eqb_refl, push_down_last.
    rewrite (push_down_cur changed changed_sound). split.
    + intros E. rewrite <- (push_down_cur changed changed_sound n v (gr s)).
      rewrite (fc_unch _ _ _ F E). apply A1.
      destruct (nsd (gr s) n) eqn:E2; auto. now rewrite (fc_up _ _ _ F E2) in E.
    + destruct (kind_of (gr s) n); try contradiction;
        destruct A2 as (X1 & X2 & X3); auto.
  - destruct (push_down_other n v (gr s) r N) as (-> & -> & ->).
    rewrite (proj2 (Nat.eqb_neq n r)) by auto. split; auto.
Qed.

Lemma step_RootInv : forall s s', step s s' -> Inv (gr s) -> RootInv s -> RootInv s'.
Proof.
  intros s s' H HI HR. pose proof HI as [Wf _].
  destruct H; try (eapply RootInv_frame; [exact HR|..]; intros; reflexivity || auto; fail).
  - apply send_roots_RootOk; auto. intros r L R. destruct (HR r L R). auto.
  - intros r L R.
    pose proof (fc_ss _ _ _ (fc_push_down changed n v (gr s))) as F.
    unfold wr in L, R. simpl in L, R. rewrite (ss_cnt _ _ F) in L. rewrite (ss_kind _ _ F) in R.
    assert (K : match kind_of (gr s) n with KState _ | KStore => True | _ => False end)
      by (destruct H as [H|H]; now rewrite H).
    destruct (wr_RootOk n v s HR K r L R) as [A B]. split; auto.
    destruct (Nat.eq_dec r n) as [->|N]; auto. unfold AutoOk, wr. simpl.
    rewrite (ss_kind _ _ F). destruct H as [H|H]; rewrite H; discriminate.
  - pose proof (fc_ss _ _ _ (fc_push_down changed n v (gr s))) as F.
    assert (K : match kind_of (gr s) n with KState _ | KStore => True | _ => False end)
      by (now rewrite H).
    apply send_roots_RootOk.
    + apply (wf_push_down changed changed_sound); auto. apply (noninner_out _ _ Wf). rewrite H. discriminate.
    + intros r L R. unfold wr in L, R. simpl in L, R.
      rewrite (ss_cnt _ _ F) in L. rewrite (ss_kind _ _ F) in R.
      destruct (wr_RootOk n v s HR K r L R) as [A B]. split; auto.
      intros N. apply B. intros ->. apply N. now left.
  - apply (RootInv_frame s); auto; try (intros; apply (ss_cnt _ _ (fc_ss _ _ _ (fc_push_down changed n v (gr s))))).
    + intros r. apply (ss_kind _ _ (fc_ss _ _ _ (fc_push_down changed n v (gr s)))).
    + intros r R. apply push_down_other. intros ->. now rewrite H in R.
  - apply send_roots_RootOk.
    + eapply wf_vals with (g := push_down changed n v (gr s)).
      * apply (wf_push_down changed changed_sound); auto. apply (noninner_out _ _ Wf). rewrite H. discriminate.
      * apply ss_upd. intros []; simpl; auto 10.
      * intros m Hm. pose proof (wf_push_down changed changed_sound _ n v Wf) as Wp.
        assert (Ln : n < cnt (gr s)) by (apply (noninner_out _ _ Wf); rewrite H; discriminate).
        destruct (wf_out _ (Wp Ln) m Hm) as (A1 & A2 & A3 & A4 & A5 & A6 & A7 & A8).
        unfold nsd, nn, last, cur in *. simpl.
        destruct (Nat.eqb_spec m n) as [->|]; simpl; auto.
    + assert (HK : forall r, kind_of (gr (mark_rcp n (with_gr s (push_down changed n v)))) r
                     = kind_of (gr s) r).
      { intros r. rewrite <- (ss_kind _ _ (fc_ss _ _ _ (fc_push_down changed n v (gr s)))).
        unfold kind_of. simpl. destruct (r =? n); auto. }
      assert (HC : cnt (gr (mark_rcp n (with_gr s (push_down changed n v)))) = cnt (gr s))
        by (apply (ss_cnt _ _ (fc_ss _ _ _ (fc_push_down changed n v (gr s))))).
      intros r L R. rewrite HC in L. rewrite HK in R.
      assert (N : r <> n) by (intros ->; now rewrite H in R).
      destruct (HR r L R) as [[A1 A2] B]. unfold RootOk, AutoOk. rewrite HK.
      destruct (push_down_other n v (gr s) r N) as (E1 & E2 & E3).
      unfold cur, last, nsd in *. simpl. rewrite (proj2 (Nat.eqb_neq r n)) by auto.
      rewrite E1, E2, E3. auto.
  - (* new node *)
    intros r L R. unfold new_node in L, R. simpl in L, R.
    set (N := cnt (gr s)) in *.
    destruct (add_rest changed changed_sound (gr s) k ps v H H0) as (C & _).
    rewrite C in L. unfold RootOk, AutoOk, new_node. simpl.
    destruct (Nat.eq_dec r N) as [->|NN].
    + unfold kind_of, last, cur, nsd in *.
      pose proof (add_nd_new changed changed_sound (gr s) k ps v H H0) as EN. fold N in EN.
      rewrite EN in R |- *. simpl in *. rewrite Nat.eqb_refl. split; [|auto].
      split; auto. destruct k; simpl in R; auto; try (repeat split; auto; discriminate).
    + destruct (add_old_fields changed changed_sound (gr s) k ps v H H0 r NN)
        as (E1 & E2 & E3 & E4 & E5 & _).
      rewrite E1 in R. rewrite E1, E3, E4, E5.
      assert (Lr : r < N) by lia. destruct (HR r Lr R) as [[A1 A2] B].
      rewrite (proj2 (Nat.eqb_neq (cnt (gr s)) r)) by (unfold N in NN; auto).
      split; [split; auto|exact B].
  - apply (RootInv_frame s); auto.
    + intros r. unfold kind_of. simpl. destruct (r =? n); auto.
    + intros r R. unfold cur, last, nsd. simpl. destruct (r =? n); auto.
  - apply (RootInv_frame s); auto.
    + intros r. unfold kind_of. simpl. destruct (r =? n); auto.
    + intros r R. unfold cur, last, nsd. simpl. destruct (r =? n); auto.
  - apply (RootInv_frame s); auto.
    + intros r. unfold kind_of. simpl. destruct (r =? n); auto.
    + intros r R. unfold cur, last, nsd. simpl. destruct (r =? n); auto.
  - pose proof (fr_refresh changed ordN (S n) n (gr s)) as F.
    apply (RootInv_frame s); auto.
    + apply (ss_cnt _ _ (fr_ss _ _ F)).
    + apply (ss_kind _ _ (fr_ss _ _ F)).
    + intros r R.
      destruct (fr_noninner _ _ F r) as [A B].
      { destruct (kind_of (gr s) r); simpl in R; auto; discriminate. }
      split; auto. split; auto. apply (fr_last _ _ F).
  - apply (RootInv_frame s); auto.
    + intros r. unfold kind_of. simpl. destruct (r =? n); auto.
    + intros r R. unfold cur, last, nsd. simpl. destruct (r =? n); auto.
  - apply (RootInv_frame s); auto.
    + intros r. unfold kind_of. simpl. destruct (r =? n); auto.
    + intros r R. unfold cur, last, nsd. simpl. destruct (r =? n); auto.
  - apply (RootInv_frame s); auto.
    + intros r. unfold kind_of, collect. simpl. destruct (r =? n); auto.
    + intros r R. unfold cur, last, nsd, collect. simpl. destruct (r =? n); auto.
Qed.

(** ** Reachable states *)
Definition reach w s : Prop := steps (init_st dv w) s.

Lemma reach_Inv : forall w s, reach w s -> Inv (gr s) /\ RootInv s.
Proof.
  intros w s H. unfold reach in H. remember (init_st dv w) as s0 eqn:E.
  induction H as [s|s s1 s2 H IH H1].
  - subst. split; [apply Inv_empty; auto|]. intros r L. simpl in L. lia.
  - destruct (IH E) as [A B]. split.
    + now apply (step_Inv changed changed_sound ordN _ _ H1).
    + eapply step_RootInv; eauto.
Qed.

Lemma run_reach : forall fuel w p b s,
  outcome (run dv changed ordV ordN fuel w p) b s -> reach w s.
Proof.
  intros fuel w p b s H. apply exec_ev in H.
  eapply ev_steps; eauto. apply Inv_empty; auto.
Qed.

(** Every graph seen by client code is the graph of a reachable state. *)
Definition is_see (e : event V W) (g : graph V W) : Prop := snap e = Some g.

Lemma step_snap : forall s s' l1 e g l2, step s s' -> log s' = l1 ++ e :: l2 -> snap e = Some g ->
  (l1 = [] /\ g = gr s /\ l2 = log s /\ gr s' = gr s) \/
  exists l1', log s = l1' ++ e :: l2.
Proof using Type.
  intros s s' l1 e g l2 H EL ES.
  assert (Q1 : forall l0 x, ~ is_send e -> Forall is_send x -> forall k, k ++ e :: l2 = x ++ l0 ->
     exists l1', l0 = l1' ++ e :: l2).
  { intros l0 x N Hx. induction Hx as [|a x Ha Hx IHx]; intros k E; simpl in E.
    - exists k. auto.
    - destruct k as [|b k]; simpl in E; injection E as E0 E.
      + subst. contradiction.
      + eauto. }
  assert (NS : ~ is_send e) by (destruct e; simpl in *; auto; discriminate).
  assert (Q2 : forall a l0, snap a = None -> l1 ++ e :: l2 = a :: l0 ->
     exists l1', l0 = l1' ++ e :: l2).
  { intros a l0 Ha E. destruct l1 as [|b k]; simpl in E; injection E as E0 E.
    - congruence.
    - eauto. }
  assert (Q3 : forall a l0, snap a = Some (gr s) -> l1 ++ e :: l2 = a :: l0 ->
     (l1 = [] /\ g = gr s /\ l2 = l0) \/ exists l1', l0 = l1' ++ e :: l2).
  { intros a l0 Ha E. destruct l1 as [|b k]; simpl in E; injection E as E0 E.
    - subst a l0. left. rewrite ES in Ha. injection Ha as ->. auto.
    - right. eauto. }
  assert (QR : forall ns s0, log (send_roots changed ns s0) = l1 ++ e :: l2 ->
     exists l1', log s0 = l1' ++ e :: l2).
  { intros ns s0 E. destruct (send_roots_log ns s0) as (x & E1 & Hx).
    rewrite E1 in E. symmetry in E. apply Q1 in E as (l1' & E); auto.
    destruct l1' as [|b l1']; simpl in E; injection E as E0 E.
    - subst e. discriminate.
    - eauto. }
  destruct H; try (right; exists l1; exact EL).
  - right. apply (Q2 EThrow (log s)); auto.
  - destruct (Q3 (ESee (gr s)) (log s)) as [(A & B & C)|A]; auto.
  - destruct (Q3 (ESetter n v (gr s)) (log s)) as [(A & B & C)|A]; auto.
  - right. apply (Q2 (EEscape n sid) (log s)); auto.
  - right. apply (QR ns s EL).
  - right. apply (Q2 (EWrite n v) (log s)); auto.
  - right. apply QR in EL as (l1' & E). simpl in E. destruct l1' as [|b l1'];
      simpl in E; injection E as E0 E; [subst e; discriminate|eauto].
  - right. apply (QR _ _ EL).
  - right. apply (Q2 (ENew (cnt (gr s)) v (world (gr s))) (log s)); auto.
  - right. apply (Q2 (EWatch n (nexts (gr s)) (last (gr s) n)) (log s)); auto.
  - destruct (Q3 (ECall n sid (last (gr s) n) (gr s)) (log s)) as [(A & B & C)|A]; auto.
Qed.

Lemma reach_snap : forall w s l1 e g l2, reach w s -> log s = l1 ++ e :: l2 -> snap e = Some g ->
  reach w (St g l2).
Proof using Type.
  intros w s l1 e g l2 H. unfold reach in *. revert l1.
  remember (init_st dv w) as s0 eqn:E0.
  induction H as [s|s s1 s2 H IH H1]; intros l1 EL ES.
  - subst s. simpl in EL. now destruct l1.
  - destruct (step_snap _ _ _ _ _ _ H1 EL ES) as [(-> & -> & -> & _)|(l1' & E)].
    + destruct s1; exact H.
    + eauto.
Qed.

(** ** Derived readers *)
Lemma source_anc : forall g a n, source g a n <-> anc g a n.
Proof using Type.
  intros g a n; split; intros H; induction H;
    try (constructor; fail); econstructor; eauto.
Qed.
Lemma plain_good : forall g n, plain g n <-> good g n.
Proof using Type.
  intros g n; split; intros H.
  - induction H; [now apply good_root|eapply good_inner; eauto].
  - induction H; [now apply plain_root|eapply plain_inner; eauto].
Qed.

Lemma root_lt : forall g p n, wf g -> In p (parents g n) -> p < cnt g.
Proof using Type.
  intros g p n Wf Hp. destruct (Nat.lt_ge_cases p (cnt g)) as [L|L]; auto.
  pose proof (wf_par _ Wf _ _ Hp).
  destruct (wf_out _ Wf n) as (_ & E & _); [lia|]. rewrite E in Hp. destruct Hp.
Qed.

Lemma clean_facts : forall s n, Inv (gr s) -> RootInv s -> plain (gr s) n ->
  alive (gr s) n = true -> clean (gr s) (log s) n ->
  settled (gr s) n /\ last (gr s) n = cur (gr s) n /\
  (forall p, In p (parents (gr s) n) -> last (gr s) p = cur (gr s) p).
Proof.
  intros s n [Wf [dl HD]] HR P A C.
  assert (Main : forall m, anc (gr s) m n -> good (gr s) m -> alive (gr s) m = true ->
     dl m = false /\ last (gr s) m = cur (gr s) m /\ settled (gr s) m).
  { induction m as [m IH] using (well_founded_induction lt_wf). intros AN G AM.
    destruct (HD m G AM) as (H1 & H2 & H3 & H4).
    destruct (is_root (kind_of (gr s) m)) eqn:R.
    - assert (Lm : m < cnt (gr s)) by (apply alive_cnt; auto; apply (wf_par _ Wf)).
      assert (U : uncommitted (log s) m = false) by (apply C; auto; now apply source_anc).
      assert (E : nsd (gr s) m = false).
      { destruct (HR m Lm R) as [[_ Q] _].
        destruct (nsd (gr s) m) eqn:E; auto.
        destruct (kind_of (gr s) m); simpl in R; try discriminate;
          destruct Q as (_ & Q) || idtac; try (destruct Q as (_ & Q); rewrite Q in U; auto; discriminate).
        discriminate. }
      split; [|split; auto].
      + destruct (dl m) eqn:Ed; auto. rewrite (H2 eq_refl) in E. discriminate.
      + intros down up v K. rewrite K in R. discriminate.
    - destruct (H4 eq_refl) as (H5 & H6 & _); [intros []|].
      assert (HP : forall p, In p (parents (gr s) m) -> dl p = false).
      { intros p Hp. apply IH.
        - apply (wf_par _ Wf _ _ Hp).
        - eapply anc_trans; [apply anc_parent; eauto|auto].
        - eapply good_parent; eauto.
        - eapply alive_parent; eauto. apply (wf_par _ Wf). }
      destruct (H6 HP) as [S1 E1]. split; [|split; auto].
      destruct (dl m) eqn:Ed; auto. destruct (H5 eq_refl) as (p & Hp & Ep).
      rewrite (HP p Hp) in Ep. discriminate. }
  apply plain_good in P. destruct (Main n (anc_refl _ n) P A) as (_ & E & S). split; auto.
  split; auto. intros p Hp.
  assert (AN : anc (gr s) p n) by (now apply anc_parent).
  assert (R : is_root (kind_of (gr s) n) = false).
  { destruct (is_root (kind_of (gr s) n)) eqn:R; auto.
    pose proof (is_root_parents (gr s) n Wf R) as E0. rewrite E0 in Hp. destruct Hp. }
  apply (Main p AN).
  - eapply good_parent; eauto.
  - eapply alive_parent; eauto. apply (wf_par _ Wf).
Qed.

Lemma agrees_of : forall s n, Inv (gr s) -> RootInv s -> plain (gr s) n ->
  alive (gr s) n = true -> clean (gr s) (log s) n -> agrees (gr s) n.
Proof.
  intros s n HI HR P A C down up v K E.
  destruct (clean_facts s n HI HR P A C) as (S & EL & EP).
  rewrite EL. apply (S down up v K). rewrite <- E. f_equal. unfold current_from.
  apply map_ext_in. intros p Hp. symmetry. auto.
Qed.

Lemma clean_parent : forall g l n p, clean g l n -> In p (parents g n) -> clean g l p.
Proof using Type.
  intros g l n p C Hp r S R. apply C; auto. eapply source_step; eauto.
Qed.

Lemma denotes_last : forall s, Inv (gr s) -> RootInv s -> forall n v, denotes (gr s) (log s) n v ->
  plain (gr s) n -> alive (gr s) n = true -> clean (gr s) (log s) n -> last (gr s) n = v.
Proof.
  intros s HI HR. fix IH 3. intros n v HD P A C.
  pose proof (alive_cnt _ (wf_par _ (proj1 HI)) n A) as L.
  destruct HD as [n v K E|n f v K E|n down up vs v K HF E].
  - assert (R : is_root (kind_of (gr s) n) = true) by (destruct (kind_of (gr s) n); auto; contradiction).
    destruct (HR n L R) as [[_ Q] _].
    destruct (kind_of (gr s) n); try contradiction; destruct Q as (_ & Q & _); rewrite Q in E; congruence.
  - assert (R : is_root (kind_of (gr s) n) = true) by now rewrite K.
    destruct (HR n L R) as [[_ Q] _]. rewrite K in Q. destruct Q as (Q & _). congruence.
  - apply (agrees_of s n HI HR P A C down up v K). rewrite <- E. f_equal.
    assert (HP : forall p, In p (parents (gr s) n) -> plain (gr s) p /\ alive (gr s) p = true /\
        clean (gr s) (log s) p).
    { intros p Hp. split; [|split].
      - apply plain_good. apply plain_good in P. eapply good_parent; eauto. now rewrite K.
      - eapply alive_parent; eauto. apply (wf_par _ (proj1 HI)).
      - eapply clean_parent; eauto. }
    revert HP. generalize (parents (gr s) n) as ps, vs, HF.
    fix IH2 3. intros ps0 vs0 HF0 HP. destruct HF0 as [|p v0 ps1 vs1 H0 H1]; simpl; auto.
    f_equal.
    + destruct (HP p (or_introl eq_refl)) as (B1 & B2 & B3). apply (IH p v0 H0); auto.
    + apply IH2; auto. intros q Hq. apply HP. now right.
Qed.

End Roots.
