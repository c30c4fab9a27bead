(** C16: a node that notifies forgets the children that were gone before. *)
From Coq Require Import List Arith Bool Lia.
From Verif Require Import NodesModel NodesSpec NodesBase NodesInv NodesExec NodesEv NodesNotify NodesTold
                          NodesRoots NodesFacts NodesTrack NodesApi NodesDrop NodesDropSim.
Import ListNotations.

Section Forget.
Context {V W : Type}.
Variable dv : V.
Variable changed : V -> V -> bool.
Hypothesis changed_sound : forall a b, changed a b = false -> a = b.
Variable ordV : graph V W -> nat -> list (nat * V) -> list (nat * V).
Variable ordN : graph V W -> nat -> list nat -> list nat.

Set Default Proof Using "Type changed_sound".
Implicit Types g : graph V W.
Implicit Types s : st V W.

Notation exec := (exec changed ordV ordN).
Notation run := (run dv changed ordV ordN).
Notation ctx := (ctx changed).
Notation reach := (reach dv changed ordN).

Lemma ss_kids : forall g g' m c, same_struct g g' -> In c (children g' m) -> In c (children g m).
Proof using Type. intros g g' m c K. now rewrite (ss_children _ _ K). Qed.

(** New children are new nodes. *)
Lemma step_kids : forall s s' m c, step changed ordN s s' -> wf (gr s) -> c < cnt (gr s) ->
  In c (children (gr s') m) -> In c (children (gr s) m).
Proof.
  intros s s' m c H Wf L. destruct H; try (intros I; exact I);
    try (unfold children; simpl; destruct (m =? n); auto; fail).
  - apply ss_kids, send_roots_ss.
  - apply ss_kids, wr_ss.
  - apply ss_kids. eapply ss_trans; [apply wr_ss|apply send_roots_ss].
  - apply ss_kids. apply (fc_ss _ _ _ (fc_push_down changed n v (gr s))).
  - apply ss_kids. eapply ss_trans; [|apply send_roots_ss].
    eapply ss_trans; [apply (fc_ss _ _ _ (fc_push_down changed n v (gr s)))|].
    apply ss_upd. intros []; simpl; auto 10.
  - intros I. destruct (Nat.eq_dec m (cnt (gr s))) as [->|N].
    + unfold new_node in I. cbn [gr with_gr emit] in I. unfold children in I.
      rewrite (add_nd_new changed changed_sound) in I by auto. destruct I.
    + unfold new_node in I. cbn [gr with_gr emit] in I.
      rewrite (add_old_children changed changed_sound) in I by auto. apply in_app_iff in I as [I|I]; auto.
      destruct (mem m ps); [destruct I as [I|[]]; lia|destruct I].
  - apply ss_kids. apply (refreshed_ss changed ordN true n s).
  - intros I. unfold children in *. simpl in I. destruct (m =? n) eqn:E; auto.
    simpl in I. apply Nat.eqb_eq in E. subst. now apply filter_In in I.
Qed.

Lemma steps_kids : forall s s' m c, steps changed ordN s s' -> ctx s -> c < cnt (gr s) ->
  In c (children (gr s') m) -> In c (children (gr s) m).
Proof.
  intros s s' m c H [HI HF] L. induction H as [s|s s1 s2 H IH H1]; auto. intros I.
  destruct (steps_Inv changed changed_sound ordN _ _ H HI) as [[W1 _] [C1 _]].
  apply IH; auto. eapply step_kids; eauto. lia.
Qed.
Lemma done_kids : forall f t s s' m c, exec f t s = Done s' -> ctx s -> c < cnt (gr s) ->
  In c (children (gr s') m) -> In c (children (gr s) m).
Proof.
  intros f t s s' m c E C L. apply steps_kids; auto.
  eapply (ev_steps changed changed_sound); [|apply C]. eapply exec_Done_ev; eauto.
Qed.

Lemma kids_forget : forall f m i size gb s s' c, exec f (TKids m i size gb false) s = Done s' ->
  ctx s -> ntf (gr s) m = true -> size <= length (children (gr s) m) ->
  c < cnt (gr s) -> alive (gr s) c = false ->
  gb = true \/ In c (slice i size (children (gr s) m)) ->
  ~ In c (children (gr s') m).
Proof.
  induction f as [|f IH]; intros m i size gb s s' c E C NT SZ L D G; [discriminate|].
  cbn [NodesModel.exec] in E. destruct (i <? size) eqn:Li.
  - apply Nat.ltb_lt in Li.
    destruct (nth_error (children (gr s) m) i) as [d|] eqn:Ed; [|discriminate].
    rewrite (slice_cons _ _ _ _ Li Ed) in G.
    destruct (alive (gr s) d) eqn:Ad.
    + destruct (exec f (TNotify d) (pin d s)) as [a|a| | |] eqn:E1; try discriminate.
      cbn [finally andthen] in E.
      destruct (alive (gr (unpin a)) m); [|unfold gone in E; destruct (is_root _); discriminate].
      pose proof (ctx_pin changed changed_sound ordN d s C Ad) as CP.
      pose proof (done_post changed changed_sound ordV ordN _ _ _ _ E1 CP) as P.
      assert (GL : grows m (gr s) (gr (unpin a))).
      { apply (p_grows _ _ _ _ P m); simpl; auto. }
      destruct GL as [x GL].
      eapply (IH _ _ _ _ _ _ c E).
      * apply (ctx_unpin changed changed_sound ordN), (p_ctx _ _ _ _ P).
      * change (ntf (gr a) m = true). rewrite (p_ntf _ _ _ _ P). exact NT.
      * rewrite GL, app_length. lia.
      * destruct (p_ext _ _ _ _ P) as [X _]. simpl in X |- *. lia.
      * destruct (alive (gr (unpin a)) c) eqn:Ac; auto.
        rewrite <- D. symmetry. apply (am_pin d s (ctx_wf _ _ C) Ad).
        apply (p_alive _ _ _ _ P c L).
        apply (am_unpin a); auto. apply (ctx_wf changed), (p_ctx _ _ _ _ P).
      * rewrite GL, slice_app by lia. destruct G as [G|[G|G]]; auto. congruence.
    + eapply (IH _ _ _ _ _ _ c E); eauto.
  - apply Nat.ltb_ge in Li. rewrite (slice_end _ _ _ Li) in G. destruct G as [->|[]].
    simpl in E. injection E as <-. unfold children. cbn [gr with_gr]. unfold collect.
    rewrite nd_upd_same. simpl. intros I. apply filter_In in I as [_ I]. congruence.
Qed.

(** The node's own notification, not one nested in another of the same node. *)
Lemma notify_forget : forall f m s s' c, exec f (TNotify m) s = Done s' -> ctx s ->
  nn (gr s) m = true -> nsd (gr s) m = false -> ntf (gr s) m = false ->
  In c (children (gr s') m) -> c < cnt (gr s) -> alive (gr s) c = true.
Proof.
  intros f m s s' c E C NN NS NT I L. destruct f as [|f]; [discriminate|].
  cbn [NodesModel.exec] in E. rewrite NN, NS, NT in E.
  destruct (alive (gr s) m) eqn:A; [|discriminate]. cbn [negb andb] in E.
  change (with_gr s (fun g => upd g m (fun a => set_ntf true (set_nn false a))))
    with (start_notify m s) in E.
  pose proof (ctx_start changed changed_sound ordN m s C NN NS) as C1.
  destruct (exec f (TSlots m 0) (start_notify m s)) as [s2|s2| | |] eqn:E1; try discriminate;
    cbn [andthen] in E; [|destruct (alive (gr s2) m);
                          [|unfold gone in E; destruct (is_root _)]; discriminate].
  pose proof (done_post changed changed_sound ordV ordN _ _ _ _ E1 C1) as P.
  set (t := TKids m 0 (length (children (gr s2) m)) false false) in *.
  destruct (exec f t s2) as [s3|s3| | |] eqn:E2; try discriminate;
    [|destruct (alive (gr s3) m); [|unfold gone in E; destruct (is_root _)]; discriminate].
  injection E as <-.
  assert (I3 : In c (children (gr s3) m)).
  { unfold children in *. cbn [gr with_gr] in I. rewrite nd_upd_same in I. exact I. }
  destruct (alive (gr s) c) eqn:Ac; auto. exfalso.
  assert (L2 : c < cnt (gr s2)).
  { destruct (p_ext _ _ _ _ P) as [X _]. simpl in X. lia. }
  refine (kids_forget f m 0 _ false s2 s3 c E2 _ _ (le_n _) L2 _ _ I3).
  - apply (p_ctx _ _ _ _ P).
  - rewrite (p_ntf _ _ _ _ P). unfold ntf. simpl. now rewrite Nat.eqb_refl.
  - destruct (alive (gr s2) c) eqn:A2; auto.
    rewrite <- Ac. symmetry.
    assert (X : alive (gr (start_notify m s)) c = true) by (now apply (p_alive _ _ _ _ P)).
    rewrite <- X. symmetry. apply skel_alive, skel_upd. intros []; simpl; auto.
  - right. unfold slice. rewrite firstn_all. simpl.
    apply (done_kids _ _ _ _ m c E2 (p_ctx _ _ _ _ P) L2 I3).
Qed.

(** At the level of the API: a commit whose first root has a new value. *)
Lemma commit_forget : forall w s fuel r ns s' v c, reach w s ->
  exec fuel (TCmd (CCommit (r :: ns))) s = Done s' -> ntf (gr s) r = false ->
  match kind_of (gr s) r with KState _ | KStore => True | _ => False end ->
  written (log s) r = Some v -> v <> last (gr s) r ->
  In c (children (gr s') r) -> c < cnt (gr s) -> alive (gr s) c = true.
Proof.
  intros w s fuel r ns s' v c HR E NT K Hv D I L.
  pose proof (reach_ctx dv changed changed_sound ordN w s HR) as C.
  pose proof (proj2 (reach_Inv dv changed changed_sound ordN w s HR)) as RI.
  destruct fuel as [|f]; [discriminate|]. cbn [NodesModel.exec] in E.
  destruct (forallb _ (r :: ns)) eqn:HB in E; [|discriminate].
  simpl in HB. apply andb_true_iff in HB as [HB _]. apply andb_true_iff in HB as [Hh Rt].
  assert (Lr : r < cnt (gr s)).
  { unfold handle in Hh. apply andb_true_iff in Hh as [Hh _]. now apply Nat.ltb_lt. }
  destruct (RI r Lr Rt) as [[RO1 RO2] _].
  set (s1 := send_roots changed (r :: ns) s) in *.
  assert (FS : frame_send (gr s) (gr s1)) by (apply send_roots_fs).
  assert (C1 : ctx s1) by (now apply (ctx_roots changed changed_sound ordN)).
  assert (SR : nsd (gr s1) r = false /\ last (gr s1) r = cur (gr s) r).
  { destruct (sends_roots changed changed_sound (r :: ns)
               (emit (ECommit (r :: ns) (world (gr s))) s)) as [_ X].
    { apply (ctx_wf _ _ C). }
    destruct (X r Rt RO1) as [_ Y]. destruct (Y (or_introl eq_refl)) as (Y1 & Y2 & Y3).
    change (fold_left _ _ _) with s1 in *. split; auto. rewrite Y2.
    change (kind_of (gr (emit _ s)) r) with (kind_of (gr s) r) in Y3.
    destruct (kind_of (gr s) r); try contradiction; exact Y3. }
  destruct SR as [SN SLa].
  assert (EV : v = cur (gr s) r).
  { destruct (kind_of (gr s) r); try contradiction; destruct RO2 as [R2 _]; congruence. }
  assert (N1 : nn (gr s1) r = true).
  { destruct (nn (gr s1) r) eqn:N1; auto. apply (fs_last _ _ FS) in N1. congruence. }
  destruct f as [|f]; [discriminate|]. cbn [NodesModel.exec] in E.
  destruct (handle (gr s1) r); [|discriminate].
  destruct (exec f (TNotify r) s1) as [s2|s2| | |] eqn:E1; try discriminate. cbn [andthen] in E.
  pose proof (done_post changed changed_sound ordV ordN _ _ _ _ E1 C1) as P.
  pose proof (fs_ss _ _ FS) as SS.
  assert (L1 : c < cnt (gr s1)) by (now rewrite (ss_cnt _ _ SS)).
  rewrite <- (alive_struct _ _ c SS).
  apply (notify_forget f r s1 s2 c E1 C1 N1 SN); auto.
  - now rewrite (ss_ntf _ _ SS).
  - apply (done_kids _ _ _ _ r c E (p_ctx _ _ _ _ P)); auto.
    destruct (p_ext _ _ _ _ P) as [X _]. lia.
Qed.

Lemma commit_forget_visible : forall fuel0 w p fuel r ns s s' v c,
  visible (run fuel0 w p) s ->
  exec fuel (TCmd (CCommit (r :: ns))) s = Done s' -> ntf (gr s) r = false ->
  match kind_of (gr s) r with KState _ | KStore => True | _ => False end ->
  written (log s) r = Some v -> v <> last (gr s) r ->
  In c (children (gr s') r) -> c < cnt (gr s) -> alive (gr s) c = true.
Proof.
  intros fuel0 w p fuel r ns s s' v c HV. apply (commit_forget w).
  eapply visible_reach; eauto.
Qed.
Lemma notify_forget_visible : forall fuel0 w p fuel m s s' c, visible (run fuel0 w p) s ->
  exec fuel (TNotify m) s = Done s' ->
  nn (gr s) m = true -> nsd (gr s) m = false -> ntf (gr s) m = false ->
  In c (children (gr s') m) -> c < cnt (gr s) -> alive (gr s) c = true.
Proof.
  intros fuel0 w p fuel m s s' c HV E. apply (notify_forget fuel m s s' c E).
  apply (reach_ctx dv changed changed_sound ordN w). eapply visible_reach; eauto.
Qed.

End Forget.
