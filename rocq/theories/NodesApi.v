(** The facts of the previous files in the form in which they are stated as
    properties. *)
From Coq Require Import List Arith Bool Lia Permutation.
From Verif Require Import NodesModel NodesSpec NodesBase NodesInv NodesExec NodesEv
                          NodesRoots NodesNotify NodesTold NodesCount NodesFacts NodesWrite.
Import ListNotations.

Section Api.
Context {V W : Type}.
Variable dv : V.
Variable changed : V -> V -> bool.
Hypothesis changed_sound : forall a b, changed a b = false -> a = b.
Variable ordV : graph V W -> nat -> list (nat * V) -> list (nat * V).
Variable ordN : graph V W -> nat -> list nat -> list nat.

Set Default Proof Using "Type changed_sound ordN".
Implicit Types g : graph V W.
Implicit Types s : st V W.

Notation Inv := (Inv changed).
Notation ev := (ev changed ordV ordN).
Notation exec := (exec changed ordV ordN).
Notation run := (run dv changed ordV ordN).
Notation reach := (reach dv changed ordN).
Notation ctx := (ctx changed).
Notation step := (step changed ordN).
Notation steps := (steps changed ordN).

Let rctx := reach_ctx dv changed changed_sound ordN.
Let rev' := reach_ev dv changed changed_sound ordV ordN.

Lemma visible_reach : forall fuel w p s, visible (run fuel w p) s -> reach w s.
Proof.
  intros fuel w p s [H|[H|H]].
  - eapply moment_reach; eauto.
  - eapply done_reach; eauto.
  - eapply thrown_reach; eauto.
Qed.

Lemma finished_reach : forall w fuel t s s', reach w s -> finished (exec fuel t s) s' -> reach w s'.
Proof.
  intros w fuel t s s' R H. apply outcome_ev in H as (b & H). eapply rev'; eauto.
Qed.
Lemma visible_reach2 : forall w fuel t s s', reach w s -> visible (exec fuel t s) s' -> reach w s'.
Proof.
  intros w fuel t s s' R [(s2 & H & l1 & e & l2 & E & S & E2)|H].
  - assert (R2 : reach w s2) by (eapply finished_reach; eauto).
    destruct s' as [g l]. simpl in *. subst l. eapply reach_moment; eauto.
  - eapply finished_reach; eauto.
Qed.

(** ** Commits *)
Lemma writes_none : forall (l : list (event V W)) r, writes l r = [] ->
  Forall (fun e => match e with EWrite m _ => m <> r | _ => True end) l.
Proof using Type.
  induction l as [|e l IH]; intros r H; [constructor|].
  destruct e; simpl in H; try (constructor; auto; fail).
  destruct (Nat.eqb_spec n r); [discriminate|]. constructor; auto.
Qed.
Lemma writes_app : forall (l l' : list (event V W)) r, writes (l ++ l') r = writes l r ++ writes l' r.
Proof using Type.
  induction l as [|[] l IH]; intros l' r; simpl; auto. destruct (n =? r); auto. simpl. now rewrite IH.
Qed.
Lemma ev_commit_log : forall ns s b s', ctx s -> ev (TCmd (CCommit ns)) s b s' ->
  exists l, log s' = l ++ ECommit ns (world (gr s)) :: log s.
Proof.
  intros ns s b s' C H. apply ev_commit in H.
  destruct (ev_log changed changed_sound ordV ordN _ _ _ _ H) as (l & E).
  - apply (ctx_roots changed changed_sound ordN); auto.
  - destruct (send_roots_log changed ns s) as (l' & E' & _). rewrite E' in E.
    exists (l ++ l'). rewrite E. apply app_assoc.
Qed.
Lemma suffix_of : forall (A : Type) (a b c : list A) x, a ++ x = b ++ c ++ x -> a = b ++ c.
Proof using Type. intros A a b c x H. rewrite app_assoc in H. now apply app_inv_tail in H. Qed.
Lemma commit_visible : forall w fuel ns s s' l, reach w s ->
  visible (exec fuel (TCmd (CCommit ns)) s) s' -> log s' = l ++ log s -> l <> [] ->
  exists l', l = l' ++ [ECommit ns (world (gr s))].
Proof.
  intros w fuel ns s s' l R H EL NE.
  assert (C : ctx s) by (eapply rctx; eauto).
  destruct H as [(s2 & H & l1 & e & l2 & E & S & E2)|H].
  - apply outcome_ev in H as (b & H). apply (ev_commit_log _ _ _ _ C) in H as (l3 & E3).
    rewrite E2 in EL. rewrite EL in E. rewrite E3 in E.
    change (ECommit ns (world (gr s)) :: log s) with ([ECommit ns (world (gr s))] ++ log s) in E.
    assert (E4 : l3 ++ [ECommit ns (world (gr s))] = l1 ++ l).
    { rewrite !app_assoc in E. now apply app_inv_tail in E. }
    destruct (exists_last NE) as (l' & x & ->). rewrite app_assoc in E4.
    apply app_inj_tail in E4 as [_ <-]. eauto.
  - apply outcome_ev in H as (b & H). apply (ev_commit_log _ _ _ _ C) in H as (l3 & E3).
    rewrite E3 in EL.
    change (ECommit ns (world (gr s)) :: log s) with ([ECommit ns (world (gr s))] ++ log s) in EL.
    rewrite app_assoc in EL. apply app_inv_tail in EL as <-. eauto.
Qed.

(** Once the roots of a reader are committed, and callbacks did not write them. *)
Lemma commit_makes_clean : forall w fuel ns s s' l n, reach w s ->
  visible (exec fuel (TCmd (CCommit ns)) s) s' -> log s' = l ++ log s -> l <> [] ->
  (forall r, source (gr s') r n -> is_root (kind_of (gr s') r) = true ->
     (In r ns \/ uncommitted (log s) r = false) /\ writes l r = []) ->
  clean (gr s') (log s') n.
Proof.
  intros w fuel ns s s' l n R H EL NE HW r S Rt.
  destruct (HW r S Rt) as [HI HN]. rewrite EL.
  destruct (commit_visible _ _ _ _ _ _ R H EL NE) as (l' & ->).
  rewrite writes_app in HN. apply app_eq_nil in HN as [HN _]. apply writes_none in HN.
  rewrite <- app_assoc. apply uncommitted_app; auto. simpl.
  destruct (mem r ns) eqn:M; auto. destruct HI as [HI|HI]; auto.
  exfalso. assert (mem r ns = true); [|congruence].
  apply existsb_exists. exists r. split; auto. apply Nat.eqb_refl.
Qed.

Lemma consistent_visible : forall fuel w p s n, visible (run fuel w p) s ->
  plain (gr s) n -> alive (gr s) n = true -> clean (gr s) (log s) n ->
  agrees (gr s) n /\ (forall v, denotes (gr s) (log s) n v -> last (gr s) n = v).
Proof. intros. eapply reach_consistent; eauto. eapply visible_reach; eauto. Qed.

Lemma consistent_commit : forall fuel0 w p fuel ns s s' l n, visible (run fuel0 w p) s ->
  visible (exec fuel (TCmd (CCommit ns)) s) s' -> log s' = l ++ log s -> l <> [] ->
  (forall r, source (gr s') r n -> is_root (kind_of (gr s') r) = true ->
     (In r ns \/ uncommitted (log s) r = false) /\ writes l r = []) ->
  plain (gr s') n -> alive (gr s') n = true ->
  agrees (gr s') n /\ (forall v, denotes (gr s') (log s') n v -> last (gr s') n = v).
Proof.
  intros fuel0 w p fuel ns s s' l n HV H EL NE HW P A.
  assert (R : reach w s) by (eapply visible_reach; eauto).
  assert (R' : reach w s') by (eapply visible_reach2; eauto).
  apply (reach_consistent dv changed changed_sound ordN w s' n R' P A).
  exact (commit_makes_clean w fuel ns s s' l n R H EL NE HW).
Qed.

Lemma denotes_visible : forall fuel w p s n, visible (run fuel w p) s ->
  plain (gr s) n -> alive (gr s) n = true ->
  (forall m down up, source (gr s) m n -> kind_of (gr s) m = KInner down up ->
     forall vs, down vs <> None) ->
  exists v, denotes (gr s) (log s) n v.
Proof. intros. eapply reach_denotes; eauto. eapply visible_reach; eauto. Qed.

Lemma auto_visible : forall fuel w p s n, visible (run fuel w p) s ->
  plain (gr s) n -> alive (gr s) n = true ->
  (forall r, source (gr s) r n ->
     match kind_of (gr s) r with KState false | KStore => False | _ => True end) ->
  agrees (gr s) n /\ (forall v, denotes (gr s) (log s) n v -> last (gr s) n = v).
Proof.
  intros fuel w p s n HV P A HA. assert (R : reach w s) by (eapply visible_reach; eauto).
  eapply reach_consistent; eauto. eapply auto_consistent; eauto.
Qed.

Lemma calls_visible : forall fuel0 w p fuel ns s s' l n sid, visible (run fuel0 w p) s ->
  finished (exec fuel (TCmd (CCommit ns)) s) s' -> log s' = l ++ log s ->
  calls l n sid <= propagations l.
Proof.
  intros fuel0 w p fuel ns s s' l n sid HV. apply visible_reach in HV.
  eapply commit_calls; eauto.
Qed.

Lemma told_visible : (forall a, changed a a = false) ->
  forall fuel0 w p fuel ns s s' l n sid cb, visible (run fuel0 w p) s ->
  exec fuel (TCmd (CCommit ns)) s = Done s' -> log s' = l ++ log s ->
  escapes l = false -> propagations l = 1 ->
  (forall r, source (gr s') r n -> is_root (kind_of (gr s') r) = true ->
     (In r ns \/ uncommitted (log s) r = false) /\ writes l r = []) ->
  plain (gr s') n ->
  In (sid, cb) (slots (gr s) n) -> In (sid, cb) (slots (gr s') n) ->
  last (gr s') n <> last (gr s) n ->
  calls l n sid = 1 /\ seen (log s') n sid = Some (last (gr s') n).
Proof.
  intros Hr fuel0 w p fuel ns s s' l n sid cb HV HE EL ES HP HW P S1 S2 HN.
  assert (R : reach w s) by (eapply visible_reach; eauto).
  assert (HV2 : visible (exec fuel (TCmd (CCommit ns)) s) s') by (right; left; auto).
  assert (R' : reach w s') by (eapply visible_reach2; eauto).
  assert (NE : l <> []) by (intros ->; discriminate HP).
  assert (A : alive (gr s') n = true).
  { destruct (rctx _ _ R') as [[Wf _] _].
    assert (L : n < cnt (gr s')).
    { destruct (Nat.lt_ge_cases n (cnt (gr s'))) as [L|L]; auto.
      exfalso. destruct (wf_out _ Wf n L) as (_&_&_&Q&_). rewrite Q in S2. destruct S2. }
    apply alive_handle. unfold handle. apply andb_true_iff. split; [now apply Nat.ltb_lt|].
    apply orb_true_iff. right. destruct (slots (gr s') n); [destruct S2|reflexivity]. }
  pose proof (commit_makes_clean w fuel ns s s' l n R HV2 EL NE HW) as CL.
  exact (commit_told dv changed changed_sound ordV ordN Hr fuel ns w s s' l n sid cb
    R HE EL ES HP P A CL S1 S2 HN).
Qed.

(** Every call was preceded by an assignment of the watched reader. *)
Lemma calls_assigned : forall fuel w p s n sid, finished (run fuel w p) s ->
  calls (log s) n sid <= assigned (log s) n.
Proof.
  intros fuel w p s n sid H. apply run_ev in H as (b & H).
  assert (C : ctx (init_st dv w)) by (apply (rctx w); apply steps_refl).
  destruct (ev_pays changed changed_sound ordV ordN n sid _ _ _ _ H C) as [_ P].
  simpl in P. lia.
Qed.

(** ** Automatic states *)
Lemma chain_here_send : forall w fuel s s' r v, reach w s -> kind_of (gr s) r = KState true ->
  handle (gr s) r = true ->
  finished (exec fuel (TCmd (CSet r v)) s) s' ->
  exists l, log s' = l ++ EWrite r v :: log s.
Proof.
  intros w fuel s s' r v R K Hh H. apply outcome_ev in H as (b & H).
  assert (C : ctx s) by (eapply rctx; eauto).
  inversion H; subst. clear H.
  match goal with X : NodesEv.ev _ _ _ (TSend r v) (pin r s) b ?x |- _ =>
    revert X; generalize x; clear - K C Hh changed_sound end.
  intros s1 X. simpl.
  assert (C1 : ctx (pin r s)).
  { apply (ctx_pin changed changed_sound ordN); auto. now apply alive_handle. }
  change (kind_of (gr (pin r s)) r = KState true) in K. change (log s) with (log (pin r s)).
  inversion X; subst; try congruence.
  - pose proof (ctx_auto changed changed_sound ordN r v (pin r s) C1 K) as C2.
    match goal with Y : NodesEv.ev _ _ _ (TNotify r) _ _ _ |- _ =>
      apply (ev_log changed changed_sound ordV ordN) in Y; [destruct Y as (l & ->)|apply C2] end.
    destruct (send_roots_log changed [r] (wr changed r v (pin r s))) as (l' & -> & _).
    exists (l ++ l' ++ [ECommit [r] (world (gr (wr changed r v (pin r s))))]).
    rewrite <- !app_assoc. reflexivity.
  - rewrite K in *. discriminate.
Qed.
Lemma written_skip : forall (l : list (event V W)) l' r, writes l r = [] ->
  (forall v w, ~ In (ENew r v w) l) -> written (l ++ l') r = written l' r.
Proof using Type.
  induction l as [|e l IH]; intros l' r H HN; simpl; auto.
  destruct e; simpl in H; try (apply IH; auto; intros v' w' Hi; apply (HN v' w'); now right).
  - destruct (Nat.eqb_spec n r); [discriminate|]. apply IH; auto.
    intros v' w' Hi. apply (HN v' w'). now right.
  - destruct (Nat.eqb_spec n r) as [->|].
    + exfalso. apply (HN v w). now left.
    + apply IH; auto. intros v' w' Hi. apply (HN v' w'). now right.
Qed.

(** Nodes are created once. *)
Lemma step_new : forall s s', step s s' -> exists l, log s' = l ++ log s /\
  forall r v w, In (ENew r v w) l -> cnt (gr s) <= r.
Proof using Type.
  intros s s' H.
  assert (SR : forall ns s0, exists l, log (send_roots changed ns s0) = l ++ log s0 /\
     forall r v w, ~ In (ENew r v w) l).
  { intros ns s0. destruct (send_roots_log changed ns s0) as (l & E & F).
    eexists (l ++ [_]). rewrite <- app_assoc. split; [exact E|].
    intros r v w Hi. apply in_app_iff in Hi as [Hi|[Hi|[]]]; [|discriminate].
    rewrite Forall_forall in F. destruct (F _ Hi). }
  destruct H; try (exists []; split; [reflexivity|intros ? ? ? []]);
    try (eexists [_]; split; [reflexivity|intros ? ? ? [E|[]]; discriminate]).
  - destruct (SR ns s) as (l & E & N). exists l. split; auto. intros r v w Hi. destruct (N _ _ _ Hi).
  - destruct (SR [n] (wr changed n v s)) as (l & E & N). exists (l ++ [EWrite n v]).
    split; [rewrite <- app_assoc; exact E|]. intros r v' w Hi.
    apply in_app_iff in Hi as [Hi|[Hi|[]]]; [destruct (N _ _ _ Hi)|discriminate].
  - destruct (SR [n] (mark_rcp n (with_gr s (push_down changed n v)))) as (l & E & N).
    exists l. split; [exact E|]. intros r v' w Hi. destruct (N _ _ _ Hi).
  - eexists [_]. split; [reflexivity|]. intros r v' w [E|[]]. injection E as <- _ _. auto.
Qed.
Lemma steps_new : forall s s', steps s s' -> Inv (gr s) -> exists l, log s' = l ++ log s /\
  forall r v w, In (ENew r v w) l -> cnt (gr s) <= r.
Proof.
  intros s s' H HI. induction H as [s|s s1 s2 H IH H1].
  - exists []. split; auto. intros ? ? ? [].
  - destruct (IH HI) as (l & E & N). destruct (step_new _ _ H1) as (l' & E' & N').
    destruct (steps_Inv changed changed_sound ordN _ _ H HI) as [_ [C _]].
    exists (l' ++ l). split; [rewrite E', E; apply app_assoc|].
    intros r v w Hi. apply in_app_iff in Hi as [Hi|Hi]; eauto. apply N' in Hi. lia.
Qed.
Lemma ev_new : forall t s b s' l, ev t s b s' -> Inv (gr s) -> log s' = l ++ log s ->
  forall r v w, In (ENew r v w) l -> cnt (gr s) <= r.
Proof.
  intros t s b s' l H HI E. destruct (steps_new s s') as (l' & E' & N); auto.
  - eapply ev_steps; eauto.
  - rewrite E' in E. apply app_inv_tail in E as <-. exact N.
Qed.

(** The committed roots show what was written before, at all of these moments. *)
Lemma commit_shows_written : forall fuel0 w p fuel ns s s' l r v, visible (run fuel0 w p) s ->
  visible (exec fuel (TCmd (CCommit ns)) s) s' -> log s' = l ++ log s -> l <> [] ->
  In r ns -> match kind_of (gr s') r with KState _ | KStore => True | _ => False end ->
  writes l r = [] -> written (log s) r = Some v -> last (gr s') r = v.
Proof.
  intros fuel0 w p fuel ns s s' l r v HV H EL NE Hr K HW HWr.
  assert (R : reach w s) by (eapply visible_reach; eauto).
  assert (R' : reach w s') by (eapply visible_reach2; eauto).
  destruct (reach_Inv dv changed changed_sound ordN w s R) as [I _].
  destruct (reach_Inv dv changed changed_sound ordN w s' R') as [I' RI'].
  assert (Rt : is_root (kind_of (gr s') r) = true) by (destruct (kind_of (gr s') r); auto; destruct K).
  assert (L' : r < cnt (gr s')).
  { destruct (Nat.lt_ge_cases r (cnt (gr s'))) as [L|L]; auto. destruct I' as [Wf _].
    destruct (wf_out _ Wf r L) as (Q & _). rewrite Q in K. destruct K. }
  assert (Hh : handle (gr s) r = true /\ exists l3 b s2, ev (TCmd (CCommit ns)) s b s2 /\ log s2 = l3 ++ log s').
  { assert (F : exists s2 l3, finished (exec fuel (TCmd (CCommit ns)) s) s2 /\ log s2 = l3 ++ log s').
    { destruct H as [(s2 & F & l1 & e & l2 & E & _ & E2)|F].
      - exists s2, l1. split; auto. now rewrite E, E2.
      - exists s', []. auto. }
    destruct F as (s2 & l3 & F & E3). split.
    - destruct fuel; [destruct F; discriminate|]. destruct F as [F|F]; simpl in F;
        destruct (forallb _ ns) eqn:FB; try discriminate; rewrite forallb_forall in FB;
        apply FB in Hr; apply andb_true_iff in Hr; tauto.
    - apply outcome_ev in F as (b & F). eauto 6. }
  destruct Hh as (Hh & l3 & b & s2 & Hev & E3).
  assert (L : r < cnt (gr s)).
  { unfold handle in Hh. apply andb_true_iff in Hh as [Hh _]. now apply Nat.ltb_lt. }
  assert (U : uncommitted (log s') r = false).
  { destruct (commit_visible _ _ _ _ _ _ R H EL NE) as (l' & ->).
    rewrite writes_app in HW. apply app_eq_nil in HW as [HW _]. apply writes_none in HW.
    rewrite EL, <- app_assoc. apply uncommitted_app; auto. simpl.
    destruct (mem r ns) eqn:M; auto. exfalso. assert (mem r ns = true); [|congruence].
    apply existsb_exists. exists r. split; auto. apply Nat.eqb_refl. }
  destruct (RI' r L' Rt) as [[Q1 Q2] _].
  assert (Q : written (log s') r = Some (cur (gr s') r) /\
     (nsd (gr s') r = true -> uncommitted (log s') r = true)).
  { destruct (kind_of (gr s') r); destruct K; destruct Q2 as (? & ? & ?); auto. }
  destruct Q as [Q3 Q4]. rewrite Q1.
  - rewrite EL, written_skip in Q3; auto; [congruence|].
    intros v' w' Hi. pose proof (ev_new _ _ _ _ (l3 ++ l) Hev I) as N.
    assert (cnt (gr s) <= r); [|lia]. eapply N; [rewrite E3, EL; apply app_assoc|].
    apply in_app_iff. right. exact Hi.
  - destruct (nsd (gr s') r); auto. rewrite Q4 in U by auto. discriminate.
Qed.

Lemma set_auto_value : forall fuel0 w p fuel s s' r v, visible (run fuel0 w p) s ->
  kind_of (gr s) r = KState true -> finished (exec fuel (TCmd (CSet r v)) s) s' ->
  alive (gr s') r = true ->
  exists l, log s' = l ++ EWrite r v :: log s /\ (writes l r = [] -> last (gr s') r = v).
Proof.
  intros fuel0 w p fuel s s' r v HV K H A.
  assert (R : reach w s) by (eapply visible_reach; eauto).
  assert (R' : reach w s') by (eapply finished_reach; eauto).
  assert (Hh : handle (gr s) r = true).
  { destruct fuel; [destruct H; discriminate|]. destruct H as [H|H]; simpl in H;
      destruct (handle (gr s) r); auto; discriminate. }
  destruct (chain_here_send w fuel s s' r v R K Hh H) as (l & E).
  exists l. split; auto. intros HW.
  assert (L : r < cnt (gr s)).
  { unfold handle in Hh. apply andb_true_iff in Hh as [Hh _]. now apply Nat.ltb_lt. }
  assert (I : Inv (gr s)) by (apply (reach_Inv dv changed changed_sound ordN w s R)).
  apply outcome_ev in H as (b & H).
  assert (K' : kind_of (gr s') r = KState true).
  { destruct (ev_Inv changed changed_sound ordV ordN _ _ _ _ H I) as [_ [_ X]].
    destruct (X r L) as [X1 _]. congruence. }
  pose proof (auto_value dv changed changed_sound ordN w s' r R' K' A) as Q.
  rewrite E in Q. rewrite written_skip in Q; auto.
  - simpl in Q. rewrite Nat.eqb_refl in Q. congruence.
  - intros v' w' Hi.
    assert (E' : log s' = (l ++ [EWrite r v]) ++ log s) by (rewrite <- app_assoc; exact E).
    pose proof (ev_new _ _ _ _ _ H I E' r v' w') as N.
    assert (cnt (gr s) <= r); [|lia]. apply N. apply in_app_iff. now left.
Qed.

(** ** Sensors *)
Lemma step_samples : forall s s', step s s' ->
  propagations (log s') <= propagations (log s) ->
  forall r, samples (log s') r = samples (log s) r.
Proof using Type.
  intros s s' H HP r. destruct H; auto.
  - destruct (roots_counts changed ns s) as (_ & E & _). lia.
  - destruct (roots_counts changed [n] (wr changed n v s)) as (_ & E & _). simpl in E. lia.
  - destruct (roots_counts changed [n] (mark_rcp n (with_gr s (push_down changed n v)))) as (_ & E & _).
    simpl in E. lia.
Qed.
Lemma steps_samples : forall s s', steps s s' ->
  propagations (log s') <= propagations (log s) ->
  forall r, samples (log s') r = samples (log s) r.
Proof using Type.
  intros s s' H. induction H as [s|s s1 s2 H IH H1]; intros HP r; auto.
  pose proof (step_props changed ordN _ _ H1). pose proof (steps_props changed ordN _ _ H).
  rewrite (step_samples _ _ H1) by lia. apply IH. lia.
Qed.
Lemma commit_samples : forall fuel0 w p fuel ns s s' l r f, visible (run fuel0 w p) s ->
  finished (exec fuel (TCmd (CCommit ns)) s) s' -> log s' = l ++ log s -> propagations l = 1 ->
  kind_of (gr s) r = KSensor f ->
  samples l r = repeat (f (world (gr s))) (count_occ Nat.eq_dec ns r).
Proof.
  intros fuel0 w p fuel ns s s' l r f HV H EL HP K.
  assert (R : reach w s) by (eapply visible_reach; eauto).
  assert (C : ctx s) by (eapply rctx; eauto).
  apply outcome_ev in H as (b & H). apply ev_commit in H.
  assert (C0 : ctx (send_roots changed ns s)) by (apply (ctx_roots changed changed_sound ordN); auto).
  assert (ST : steps (send_roots changed ns s) s') by (eapply ev_steps; eauto; apply C0).
  destruct (roots_counts changed ns s) as (_ & R2 & _).
  assert (E : samples (log s') r = samples (log (send_roots changed ns s)) r).
  { apply steps_samples; auto. rewrite R2, EL, props_app. lia. }
  rewrite EL, samples_app in E.
  rewrite (send_roots_samples changed changed_sound ordN ns s r f) in E; auto.
  - now apply app_inv_tail in E.
  - apply C.
Qed.
Lemma sensor_visible : forall fuel w p s r f, visible (run fuel w p) s ->
  kind_of (gr s) r = KSensor f -> sampled f (log s) r = Some (last (gr s) r).
Proof.
  intros fuel w p s r f HV K. apply visible_reach in HV.
  eapply sensor_value; eauto. destruct (rctx _ _ HV) as [[Wf _] _].
  apply (noninner_out _ _ Wf). rewrite K. discriminate.
Qed.

End Api.
