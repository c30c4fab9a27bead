(** More facts in the form in which they are stated as properties: writing
    through cursors, exceptions, destruction. *)
From Coq Require Import List Arith Bool Lia Permutation.
From Verif Require Import NodesModel NodesSpec NodesBase NodesInv NodesExec NodesEv
                          NodesRoots NodesNotify NodesTold NodesCount NodesFacts NodesWrite
                          NodesApi.
Import ListNotations.

Section Api2.
Context {V W : Type}.
Variable dv : V.
Variable changed : V -> V -> bool.
Hypothesis changed_sound : forall a b, changed a b = false -> a = b.
Variable ordV : graph V W -> nat -> list (nat * V) -> list (nat * V).
Hypothesis ordV_perm : forall g n l, Permutation l (ordV g n l).
Variable ordN : graph V W -> nat -> list nat -> list nat.
Hypothesis ordN_perm : forall g n l, Permutation l (ordN g n l).

Set Default Proof Using "Type changed_sound ordN".
Implicit Types g : graph V W.
Implicit Types s : st V W.

Notation Inv := (Inv changed).
Notation ev := (ev changed ordV ordN).
Notation exec := (exec changed ordV ordN).
Notation run := (run dv changed ordV ordN).
Notation reach := (reach dv changed ordN).
Notation ctx := (ctx changed).
Notation step := (step changed ordN).
Notation steps := (steps changed ordN).

Let rctx := reach_ctx dv changed changed_sound ordN.
Let rev' := reach_ev dv changed changed_sound ordV ordN.
Let vreach := visible_reach dv changed changed_sound ordV ordN.
Let freach := finished_reach dv changed changed_sound ordV ordN.

Lemma auto_after : forall w fuel t s s' n, reach w s -> finished (exec fuel t s) s' ->
  plain (gr s') n -> alive (gr s') n = true ->
  (forall r, source (gr s') r n ->
     match kind_of (gr s') r with KState false | KStore => False | _ => True end) ->
  agrees (gr s') n /\ (forall v, denotes (gr s') (log s') n v -> last (gr s') n = v).
Proof.
  intros w fuel t s s' n R H P A HA. assert (R' : reach w s') by (eapply freach; eauto).
  eapply reach_consistent; eauto. eapply auto_consistent; eauto.
Qed.

Lemma log_grows : forall fuel0 w p fuel t s s', visible (run fuel0 w p) s ->
  finished (exec fuel t s) s' -> exists l, log s' = l ++ log s.
Proof.
  intros fuel0 w p fuel t s s' HV H. apply vreach in HV. apply outcome_ev in H as (b & H).
  eapply ev_log; eauto. apply (rctx _ _ HV).
Qed.

(** ** Chains of lenses *)
Lemma has_parents : forall g n p, wf g -> In p (parents g n) -> n < cnt g.
Proof using Type.
  intros g n p Wf Hp. destruct (Nat.lt_ge_cases n (cnt g)) as [L|L]; auto.
  destruct (wf_out _ Wf n L) as (_&E&_). rewrite E in Hp. destruct Hp.
Qed.
Lemma chain_ext : forall g g' r n gv gs, ext g g' -> wf g -> chain g r n gv gs ->
  chain g' r n gv gs.
Proof using Type.
  intros g g' r n gv gs [_ X] Wf H. induction H as [|p n gv gs vw st H IH HL]; [constructor|].
  econstructor; eauto. destruct HL as (down & up & K & P & A).
  assert (L : n < cnt g) by (apply (has_parents g n p Wf); rewrite P; now left).
  destruct (X n L) as [E1 E2]. exists down, up. rewrite E1, E2. auto.
Qed.

Lemma exec_do : forall fuel c k s s', exec fuel (TProg (PDo c k)) s = Done s' ->
  exists f s1, fuel = S f /\ exec f (TCmd c) s = Done s1 /\
    exec f (TProg (k (get_obs s1))) (see s1) = Done s'.
Proof using Type.
  intros [|f] c k s s' H; [discriminate|]. simpl in H.
  destruct (exec f (TCmd c) s) as [s1|s1| | |] eqn:E; try discriminate. eauto.
Qed.
Lemma reach_see : forall w s, reach w s -> reach w (see s).
Proof using Type. intros w s R. eapply steps_snoc; [exact R|constructor]. Qed.

Lemma root_lt : forall w s r a, reach w s -> kind_of (gr s) r = KState a -> r < cnt (gr s).
Proof.
  intros w s r a R K. destruct (rctx _ _ R) as [[Wf _] _].
  apply (noninner_out _ _ Wf). rewrite K. discriminate.
Qed.

Lemma set_commit_chain : forall fuel0 w p fuel s s' r n gv gs x v,
  visible (run fuel0 w p) s ->
  chain (gr s) r n gv gs -> kind_of (gr s) r = KState false -> written (log s) r = Some x ->
  exec fuel (TProg (PDo (CSet n v) (fun _ => PDo (CCommit [r]) (fun _ => PRet)))) s = Done s' ->
  exists l, log s' = l ++ EWrite r (gs x v) :: log s /\
    (writes l r = [] -> forall m gv' gs', chain (gr s) r m gv' gs' ->
       alive (gr s') m = true -> last (gr s') m = gv' (gs x v)).
Proof using Type changed_sound ordV_perm ordN_perm.
  intros fuel0 w p fuel s s' r n gv gs x v HV HC K HX HE.
  assert (R : reach w s) by (eapply vreach; eauto).
  apply exec_do in HE as (f & s1 & -> & E1 & HE).
  apply exec_do in HE as (f' & s2 & -> & E2 & HE).
  destruct f' as [|f']; [discriminate|]. simpl in HE. injection HE as <-.
  destruct (set_chain dv changed changed_sound ordV ordV_perm ordN ordN_perm w (S (S f')) s s1 r
    false n gv gs x v R HC K HX) as (l1 & L1 & L1'); auto. rewrite (L1' eq_refl) in L1. simpl in L1.
  assert (R1 : reach w s1).
  { eapply freach; [exact R|left; exact E1]. }
  pose proof (reach_see _ _ R1) as R1s.
  assert (R2 : reach w s2).
  { eapply freach; [exact R1s|left; exact E2]. }
  assert (V1 : exists b, ev (TCmd (CSet n v)) s b s1) by (eapply outcome_ev; left; eauto).
  assert (V2 : exists b, ev (TCmd (CCommit [r])) (see s1) b s2) by (eapply outcome_ev; left; eauto).
  destruct V1 as (b1 & V1). destruct V2 as (b2 & V2).
  destruct (ev_commit_log changed changed_sound ordV ordN _ _ _ _ (rctx _ _ R1s) V2) as (l2 & L2).
  destruct (rctx _ _ R) as [I _]. destruct (rctx _ _ R1s) as [I1 _].
  destruct (ev_Inv changed changed_sound ordV ordN _ _ _ _ V1 I) as [_ X1].
  destruct (ev_Inv changed changed_sound ordV ordN _ _ _ _ V2 I1) as [_ X2].
  assert (X : ext (gr s) (gr s2)) by (eapply ext_trans; [exact X1|exact X2]).
  pose proof (root_lt _ _ _ _ R K) as Lr.
  exists (ESee (gr s2) :: l2 ++ [ECommit [r] (world (gr (see s1))); ESee (gr s1)]).
  split.
  { cbn [see emit log]. rewrite L2. cbn [see emit log]. rewrite L1.
    rewrite <- app_comm_cons, <- app_assoc. reflexivity. }
  intros HW m gv' gs' HC' A.
  cbn [writes] in HW. rewrite writes_app in HW.
  apply app_eq_nil in HW as [HW _].
  apply (chain_reads dv changed changed_sound ordN w (see s2) r false m gv' gs' (gs x v)).
  - now apply reach_see.
  - eapply chain_ext; [exact X|apply I|exact HC'].
  - destruct X as [_ X]. destruct (X r Lr) as [Q _]. simpl. congruence.
  - cbn [see emit log written]. rewrite L2. rewrite written_skip; auto.
    + cbn [see emit log written]. rewrite L1. cbn [written]. now rewrite Nat.eqb_refl.
    + intros v' w' Hi.
      assert (Q : cnt (gr (see s1)) <= r).
      { assert (L2' : log s2 = (l2 ++ [ECommit [r] (world (gr (see s1)))]) ++ log (see s1))
          by (rewrite <- app_assoc; exact L2).
        apply (ev_new changed changed_sound ordV ordN _ _ _ _ _ V2 I1 L2' r v' w').
        apply in_app_iff. left. exact Hi. }
      destruct X1 as [C1 _]. simpl in Q. lia.
  - exact A.
  - cbn [see emit log uncommitted]. rewrite L2. apply uncommitted_app.
    + now apply writes_none.
    + simpl. now rewrite Nat.eqb_refl.
Qed.

(** ** Merged cursors *)
Lemma written_list : forall (ws : list (nat * V)) (L : list (event V W)), NoDup (map fst ws) ->
  let l := map (fun q => EWrite (fst q) (snd q)) ws ++ L in
  (forall r v, In (r, v) ws -> written l r = Some v) /\
  (forall r, ~ In r (map fst ws) -> written l r = written L r).
Proof using Type.
  induction ws as [|[q v] ws IH]; intros L ND; simpl; [split; [intros ? ? []|auto]|].
  inversion ND as [|? ? N1 N2]; subst. destruct (IH L N2) as [A B]. simpl in A, B. split.
  - intros r v' [E|Hi].
    + injection E as <- <-. now rewrite Nat.eqb_refl.
    + destruct (Nat.eqb_spec q r) as [->|]; auto.
      exfalso. apply N1. apply (in_map fst) in Hi. exact Hi.
  - intros r Hn. destruct (Nat.eqb_spec q r) as [->|]; auto.
    exfalso. apply Hn. now left.
Qed.
Lemma written_perm : forall (ws : list (nat * V)) (l L : list (event V W)), NoDup (map fst ws) ->
  Permutation l (map (fun q => EWrite (fst q) (snd q)) ws) ->
  (forall r v, In (r, v) ws -> written (l ++ L) r = Some v) /\
  (forall r, ~ In r (map fst ws) -> written (l ++ L) r = written L r).
Proof using Type.
  intros ws l L ND P. apply Permutation_map_inv in P as (ws' & -> & P).
  destruct (written_list ws' L) as [A B].
  - eapply Permutation_NoDup; [|exact ND]. now apply Permutation_map.
  - split.
    + intros r v Hi. apply A. eapply Permutation_in; eauto.
    + intros r Hn. apply B. intros Hi. apply Hn.
      eapply Permutation_in; [|exact Hi]. apply Permutation_sym. now apply Permutation_map.
Qed.
Lemma set_merge_result : forall fuel0 w p0 fuel s s' n comps t (rt : nat -> nat) gv gs x,
  visible (run fuel0 w p0) s ->
  merge_node (gr s) n comps -> length (comps t) = length (parents (gr s) n) ->
  (forall p, In p (parents (gr s) n) -> chain (gr s) (rt p) p (gv p) (gs p) /\
     kind_of (gr s) (rt p) = KState false /\ written (log s) (rt p) = Some (x p)) ->
  NoDup (map rt (parents (gr s) n)) ->
  finished (exec fuel (TCmd (CSet n t)) s) s' ->
  exists l, log s' = l ++ log s /\ length l = length (parents (gr s) n) /\
    (forall p c, In (p, c) (combine (parents (gr s) n) (comps t)) ->
       In (EWrite (rt p) (gs p (x p) c)) l /\
       written (log s') (rt p) = Some (gs p (x p) c)) /\
    (forall m, ~ In m (map rt (parents (gr s) n)) -> written (log s') m = written (log s) m).
Proof using Type changed_sound ordV_perm ordN_perm.
  intros fuel0 w p0 fuel s s' n comps t rt gv gs x HV HM HL HP ND HE.
  assert (R : reach w s) by (eapply vreach; eauto).
  destruct (set_merge dv changed changed_sound ordV ordV_perm ordN ordN_perm w fuel s s' n comps t rt
    gv gs x R HM HL HP ND HE) as (l & E & P).
  exists l. split; auto.
  set (ws := map (fun pv => (rt (fst pv), gs (fst pv) (x (fst pv)) (snd pv)))
                 (combine (parents (gr s) n) (comps t))).
  assert (EF : map fst ws = map rt (parents (gr s) n)).
  { unfold ws. rewrite map_map. simpl.
    rewrite <- (map_map fst rt). now rewrite map_fst_combine. }
  assert (P' : Permutation l (map (fun q => EWrite (fst q) (snd q)) ws)).
  { unfold ws. rewrite map_map. exact P. }
  destruct (written_perm ws l (log s)) as [A B]; [now rewrite EF|exact P'|].
  split; [|split].
  - rewrite (Permutation_length P), map_length, combine_length. lia.
  - intros p c Hi. rewrite E.
    assert (Hw : In (rt p, gs p (x p) c) ws).
    { apply (in_map (fun pv => (rt (fst pv), gs (fst pv) (x (fst pv)) (snd pv)))) in Hi. exact Hi. }
    split; [|now apply A]. eapply Permutation_in; [apply Permutation_sym; exact P'|].
    apply (in_map (fun q => @EWrite V W (fst q) (snd q))) in Hw. exact Hw.
  - intros m Hn. rewrite E. apply B. now rewrite EF.
Qed.

(** ** Exceptions: compare with callbacks that do nothing *)
Definition mnode (a : node V W) : node V W :=
  set_slots (map (fun sl => (fst sl, fun _ _ => PRet)) (n_slots a)) a.
(** Pointwise, to avoid functional extensionality. *)
Record muted g g' : Prop := {
  mu_cnt : cnt g' = cnt g; mu_nexts : nexts g' = nexts g; mu_pins : pins g' = pins g;
  mu_world : world g' = world g; mu_nd : forall n, nd g' n = mnode (nd g n) }.

Lemma mute_muted : forall s, muted (gr s) (gr (mute s)).
Proof using Type. intros s. split; auto. Qed.
Lemma mu_upd : forall g g' n h, muted g g' -> (forall a, h (mnode a) = mnode (h a)) ->
  muted (upd g n h) (upd g' n h).
Proof using Type.
  intros g g' n h M H. split; simpl; try apply M. intros m. destruct (m =? n); [|apply M].
  rewrite (mu_nd _ _ M). apply H.
Qed.
Section MutedAcc.
  Variables g g' : graph V W.
  Hypothesis M : muted g g'.
  Lemma mu_kind : forall n, kind_of g' n = kind_of g n.
  Proof using M. intros n. unfold kind_of. now rewrite (mu_nd _ _ M). Qed.
  Lemma mu_parents : forall n, parents g' n = parents g n.
  Proof using M. intros n. unfold parents. now rewrite (mu_nd _ _ M). Qed.
  Lemma mu_children : forall n, children g' n = children g n.
  Proof using M. intros n. unfold children. now rewrite (mu_nd _ _ M). Qed.
  Lemma mu_cur : forall n, cur g' n = cur g n.
  Proof using M. intros n. unfold cur. now rewrite (mu_nd _ _ M). Qed.
  Lemma mu_last : forall n, last g' n = last g n.
  Proof using M. intros n. unfold last. now rewrite (mu_nd _ _ M). Qed.
  Lemma mu_nsd : forall n, nsd g' n = nsd g n.
  Proof using M. intros n. unfold nsd. now rewrite (mu_nd _ _ M). Qed.
  Lemma mu_handle : forall n, handle g' n = handle g n.
  Proof using M.
    intros n. unfold handle, slots. rewrite (mu_cnt _ _ M), (mu_nd _ _ M). simpl.
    destruct (n_slots (nd g n)); auto.
  Qed.
  Lemma mu_ancb : forall f n m, ancb f g' n m = ancb f g n m.
  Proof using M.
    induction f as [|f IH]; intros n m; simpl; auto. rewrite mu_parents. f_equal.
    induction (parents g m) as [|q l IHl]; simpl; auto. now rewrite IH, IHl.
  Qed.
  Lemma mu_alive : forall n, alive g' n = alive g n.
  Proof using M.
    intros n. unfold alive. rewrite (mu_cnt _ _ M), (mu_pins _ _ M).
    apply existsb_ext_in. intros m _. now rewrite mu_handle, mu_ancb.
  Qed.
  Lemma mu_curs : forall ps, current_from g' ps = current_from g ps.
  Proof using M. intros ps. apply map_ext. apply mu_cur. Qed.
  Lemma mu_push : forall n v, muted (push_down changed n v g) (push_down changed n v g').
  Proof using M.
    intros n v. unfold push_down. rewrite mu_cur. destruct (changed v (cur g n)); auto.
    apply mu_upd; auto.
  Qed.
End MutedAcc.
Lemma mu_pushall : forall n vs g g', muted g g' ->
  muted (push_all changed n vs g) (push_all changed n vs g').
Proof using Type.
  intros n. unfold push_all. induction vs as [|v vs IH]; intros g g' M; simpl; auto.
  apply IH. now apply mu_push.
Qed.
Lemma mu_recompute : forall g g' n, muted g g' ->
  muted (recompute changed n g) (recompute changed n g').
Proof using Type.
  intros g g' n M. unfold recompute. rewrite (mu_kind _ _ M), (mu_parents _ _ M).
  destruct (kind_of g n); auto.
  - rewrite (mu_world _ _ M). now apply mu_push.
  - rewrite (mu_curs _ _ M). destruct (down _); auto. now apply mu_push.
  - rewrite (mu_curs _ _ M).
    replace (n_hist (nd g' n)) with (n_hist (nd g n)) by (now rewrite (mu_nd _ _ M)).
    apply mu_pushall. apply mu_upd; auto.
  - replace (n_rcp (nd g' n)) with (n_rcp (nd g n)) by (now rewrite (mu_nd _ _ M)).
    destruct (n_rcp (nd g n)); [apply mu_upd; auto|].
    destruct (parents g n) as [|q l]; auto. rewrite (mu_cur _ _ M). now apply mu_push.
Qed.
Lemma mu_send : forall f n s s', muted (gr s) (gr s') ->
  muted (gr (send_down changed f n s)) (gr (send_down changed f n s')).
Proof using Type.
  induction f as [|f IH]; intros n s s' M; simpl; auto.
  pose proof (mu_recompute _ _ n M) as M1.
  rewrite (mu_nsd _ _ M1). destruct (nsd (recompute changed n (gr s)) n); auto.
  assert (M2 : muted (upd (recompute changed n (gr s)) n set_sent)
                     (upd (recompute changed n (gr s')) n set_sent)).
  { apply mu_upd; auto. }
  rewrite (mu_children _ _ M2).
  match goal with |- muted (gr (fold_left _ ?cs ?a)) (gr (fold_left _ _ ?b)) =>
    assert (M3 : muted (gr a) (gr b)) by exact M2; revert M3; generalize a, b; generalize cs end.
  clear - IH. intros cs. induction cs as [|c cs IHc]; intros a b M; simpl; auto.
  apply IHc. rewrite (mu_alive _ _ M). destruct (alive (gr a) c); auto.
Qed.
Lemma mu_roots : forall ns s s', muted (gr s) (gr s') ->
  muted (gr (send_roots changed ns s)) (gr (send_roots changed ns s')).
Proof using Type.
  intros ns s s' M. unfold send_roots.
  assert (M' : muted (gr (emit (ECommit ns (world (gr s))) s))
                     (gr (emit (ECommit ns (world (gr s'))) s'))) by exact M.
  revert M'. generalize (emit (ECommit ns (world (gr s))) s), (emit (ECommit ns (world (gr s'))) s').
  clear M s s'. induction ns as [|n ns IH]; intros s s' M; simpl; auto.
  apply IH. unfold send_down_node. rewrite (mu_cnt _ _ M). now apply mu_send.
Qed.

(** Notification with callbacks that do nothing changes no value. *)
Definition silent g : Prop := forall n sl, In sl (slots g n) -> forall v o, snd sl v o = PRet.
Definition idle (t : task V W) : Prop :=
  match t with
  | TRoots _ | TNotify _ | TSlots _ _ | TKids _ _ _ _ _ | TProg PRet => True
  | _ => False
  end.
Definition same g g' : Prop := (forall n, slots g' n = slots g n) /\ (forall n, last g' n = last g n).
Lemma same_silent : forall g g', same g g' -> silent g -> silent g'.
Proof using Type. intros g g' [E _] H n sl. rewrite E. apply H. Qed.
Lemma same_trans : forall g1 g2 g3, same g1 g2 -> same g2 g3 -> same g1 g3.
Proof using Type.
  intros g1 g2 g3 [A B] [C D]. split; intros n; [rewrite C|rewrite D]; auto.
Qed.
Lemma same_refl : forall g, same g g.
Proof using Type. split; auto. Qed.
Lemma same_upd : forall g n h, (forall a, n_slots (h a) = n_slots a /\ n_last (h a) = n_last a) ->
  same g (upd g n h).
Proof using Type.
  intros g n h H. split; intros m; unfold slots, last; simpl; destruct (m =? n); auto; apply H.
Qed.
Lemma exec_idle : forall f t s s', idle t -> silent (gr s) ->
  finished (exec f t s) s' -> same (gr s) (gr s').
Proof using Type.
  unfold finished.
  induction f as [|f IH]; intros t s s' HT HS H; [destruct H; discriminate|].
  destruct t as [p|c|n v|n vs|l|ns|n|n from|n i size gb old]; try contradiction.
  - destruct p; try contradiction. destruct H as [H|H]; [|discriminate]. injection H as <-. apply same_refl.
  - destruct ns as [|n ns]; simpl in H.
    + destruct H as [H|H]; [|discriminate]. injection H as <-. apply same_refl.
    + destruct (handle (gr s) n); [|destruct H; discriminate].
      destruct (exec f (TNotify n) s) as [s1|s1| | |] eqn:E; simpl in H; try (destruct H; discriminate).
      * assert (S1 : same (gr s) (gr s1)) by (eapply (IH (TNotify n)); simpl; eauto).
        eapply same_trans; [exact S1|]. eapply (IH (TRoots ns)); simpl; eauto.
        eapply same_silent; eauto.
      * destruct H as [H|H]; [discriminate|]. injection H as <-. eapply (IH (TNotify n)); simpl; eauto.
  - simpl in H. destruct (negb (alive (gr s) n)); [destruct H; discriminate|].
    destruct (nn (gr s) n && negb (nsd (gr s) n)).
    2: { destruct H as [H|H]; [|discriminate]. injection H as <-. apply same_refl. }
    set (s1 := with_gr s (fun g => upd g n (fun a => set_ntf true (set_nn false a)))) in H.
    assert (S1 : same (gr s) (gr s1)) by (apply same_upd; auto).
    assert (SR : forall g, same g (upd g n (set_ntf (ntf (gr s) n)))) by (intros; apply same_upd; auto).
    assert (HS1 : silent (gr s1)) by (eapply same_silent; eauto).
    destruct (exec f (TSlots n 0) s1) as [s2|s2| | |] eqn:E; simpl in H; try (destruct H; discriminate).
    + assert (S2 : same (gr s1) (gr s2)) by (eapply (IH (TSlots n 0)); simpl; eauto).
      assert (HS2 : silent (gr s2)) by (eapply same_silent; eauto).
      destruct (exec f (TKids n 0 (length (children (gr s2) n)) false (ntf (gr s) n)) s2)
        as [s3|s3| | |] eqn:E3; try (destruct H; discriminate).
      * assert (S3 : same (gr s2) (gr s3)).
        { eapply (IH (TKids n 0 (length (children (gr s2) n)) false (ntf (gr s) n))); simpl; eauto. }
        destruct H as [H|H]; [|discriminate]. injection H as <-. simpl.
        eapply same_trans; [exact S1|]. eapply same_trans; [exact S2|].
        eapply same_trans; [exact S3|]. apply SR.
      * assert (S3 : same (gr s2) (gr s3)).
        { eapply (IH (TKids n 0 (length (children (gr s2) n)) false (ntf (gr s) n))); simpl; eauto. }
        destruct (alive (gr s3) n); [|unfold gone in H; destruct (is_root _); destruct H; discriminate].
        destruct H as [H|H]; try discriminate. injection H as <-. simpl.
        eapply same_trans; [exact S1|]. eapply same_trans; [exact S2|].
        eapply same_trans; [exact S3|]. apply SR.
    + assert (S2 : same (gr s1) (gr s2)) by (eapply (IH (TSlots n 0)); simpl; eauto).
      destruct (alive (gr s2) n); [|unfold gone in H; destruct (is_root _); destruct H; discriminate].
      destruct H as [H|H]; try discriminate. injection H as <-. simpl.
      eapply same_trans; [exact S1|]. eapply same_trans; [exact S2|]. apply SR.
  - simpl in H. destruct (next_slot from (slots (gr s) n)) as [[sid cb]|] eqn:EN.
    2: { destruct H as [H|H]; [|discriminate]. injection H as <-. apply same_refl. }
    assert (HQ : forall v o, cb v o = PRet).
    { apply find_some in EN as [Hi _]. intros v o. exact (HS n _ Hi v o). }
    rewrite HQ in H. destruct f as [|f']; [simpl in H; destruct H; discriminate|].
    set (f := S f') in *. assert (EF : exec f (TProg PRet) (emit (ECall n sid (last (gr s) n) (gr s)) s)
      = Done (emit (ECall n sid (last (gr s) n) (gr s)) s)) by reflexivity.
    rewrite EF in H. destruct (alive _ n); [|unfold gone in H; destruct (is_root _); destruct H; discriminate].
    destruct (existsb _ _); [|destruct H; discriminate].
    exact (IH (TSlots n (S sid)) (emit (ECall n sid (last (gr s) n) (gr s)) s) s' HT HS H).
  - simpl in H. destruct (i <? size).
    2: { destruct H as [H|H]; [|discriminate]. injection H as <-.
         destruct (gb && negb old); [apply same_upd; auto|apply same_refl]. }
    destruct (nth_error (children (gr s) n) i) as [c|]; [|destruct H; discriminate].
    destruct (alive (gr s) c).
    + assert (HP : silent (gr (pin c s))) by exact HS.
      destruct (exec f (TNotify c) (pin c s)) as [s1|s1| | |] eqn:E; simpl in H;
        try (destruct H; discriminate).
      * assert (S1 : same (gr (pin c s)) (gr s1)) by (eapply (IH (TNotify c)); simpl; eauto).
        assert (S1' : same (gr s) (gr (unpin s1))) by exact S1.
        destruct (alive _ n); [|unfold gone in H; destruct (is_root _); destruct H; discriminate].
        eapply same_trans; [exact S1'|].
        eapply (IH (TKids n (S i) size gb old)); simpl; eauto. eapply same_silent; eauto.
      * assert (S1 : same (gr (pin c s)) (gr s1)) by (eapply (IH (TNotify c)); simpl; eauto).
        destruct H as [H|H]; [discriminate|]. injection H as <-. exact S1.
    + eapply (IH (TKids n (S i) size true old)); simpl; eauto.
Qed.
Lemma muted_silent : forall g g', muted g g' -> (forall n sl, In sl (slots g' n) -> forall v o, snd sl v o = PRet).
Proof using Type.
  intros g g' M n sl Hi v o. unfold slots in Hi. rewrite (mu_nd _ _ M) in Hi. simpl in Hi.
  apply in_map_iff in Hi as (x & <- & _). reflexivity.
Qed.

Lemma commit_values : forall fuel0 w p fuel fuel' ns s s' s2 l,
  visible (run fuel0 w p) s ->
  finished (exec fuel (TCmd (CCommit ns)) s) s' -> log s' = l ++ log s -> propagations l = 1 ->
  finished (exec fuel' (TCmd (CCommit ns)) (mute s)) s2 ->
  forall n, n < cnt (gr s) -> last (gr s') n = last (gr s2) n.
Proof.
  intros fuel0 w p fuel fuel' ns s s' s2 l HV H EL HP H2 n L.
  assert (R : reach w s) by (eapply vreach; eauto).
  assert (C : ctx s) by (eapply rctx; eauto).
  apply outcome_ev in H as (b & H). apply ev_commit in H.
  assert (C0 : ctx (send_roots changed ns s)) by (apply (ctx_roots changed changed_sound ordN); auto).
  assert (ST : steps (send_roots changed ns s) s') by (eapply ev_steps; eauto; apply C0).
  destruct (roots_counts changed ns s) as (_ & R2 & _).
  rewrite (steps_last changed changed_sound ordN _ _ ST (proj1 C0)).
  2: { rewrite R2, EL, props_app. lia. }
  2: { now rewrite (ss_cnt _ _ (send_roots_ss changed ns s)). }
  assert (M : muted (gr (send_roots changed ns s)) (gr (send_roots changed ns (mute s)))).
  { apply mu_roots. apply mute_muted. }
  assert (H3 : exists f, finished (exec f (TRoots ns) (send_roots changed ns (mute s))) s2).
  { destruct fuel' as [|f]; [destruct H2; discriminate|]. exists f. unfold finished in *. simpl in H2.
    destruct (forallb _ ns); [exact H2|destruct H2; discriminate]. }
  destruct H3 as (f & H3).
  apply exec_idle in H3; [|exact Logic.I|exact (muted_silent _ _ M)].
  destruct H3 as [_ H3]. rewrite H3. symmetry. apply (mu_last _ _ M).
Qed.

Lemma set_values : forall fuel0 w p fuel fuel' r v s s' s2 l,
  visible (run fuel0 w p) s -> kind_of (gr s) r = KState true ->
  finished (exec fuel (TCmd (CSet r v)) s) s' -> log s' = l ++ log s -> propagations l = 1 ->
  finished (exec fuel' (TCmd (CSet r v)) (mute s)) s2 ->
  forall n, n < cnt (gr s) -> last (gr s') n = last (gr s2) n.
Proof.
  intros fuel0 w p fuel fuel' r v s s' s2 l HV K H EL HP H2 n L.
  assert (R : reach w s) by (eapply vreach; eauto).
  assert (C : ctx s) by (eapply rctx; eauto).
  assert (M0 : muted (gr s) (gr (mute s))) by apply mute_muted.
  set (t := send_roots changed [r] (wr changed r v (pin r s))).
  set (t' := send_roots changed [r] (wr changed r v (pin r (mute s)))).
  assert (M : muted (gr t) (gr t')).
  { apply mu_roots. unfold wr. cbn [with_gr gr]. apply mu_push.
    split; try apply M0. reflexivity. }
  assert (X : forall f0 s0 s1, kind_of (gr s0) r = KState true ->
     finished (exec f0 (TCmd (CSet r v)) s0) s1 -> handle (gr s0) r = true /\ exists f s3,
     finished (exec f (TNotify r) (send_roots changed [r] (wr changed r v (pin r s0)))) s3 /\
     s1 = unpin s3).
  { clear. intros f0 s0 s1 K H. unfold finished in *.
    destruct f0 as [|f0]; [destruct H; discriminate|]. simpl in H.
    destruct (handle (gr s0) r) eqn:Hh; [|destruct H; discriminate]. split; auto.
    destruct f0 as [|f0]; [destruct H; discriminate|]. simpl in H.
    destruct (alive (set_pins (gr s0) (r :: pins (gr s0))) r); [|destruct H; discriminate].
    replace (kind_of (set_pins (gr s0) (r :: pins (gr s0))) r) with (@KState V W true) in H by (symmetry; exact K).
    exists f0. change (with_gr (emit (EWrite r v) (pin r s0)) (push_down changed r v))
      with (wr changed r v (pin r s0)) in H.
    destruct (exec f0 (TNotify r) (send_roots changed [r] (wr changed r v (pin r s0)))) as [s3|s3| | |];
      destruct H as [H|H]; try discriminate; injection H as <-; eauto. }
  destruct (X _ _ _ K H) as (Hh & f1 & s3 & H3 & ->).
  assert (K' : kind_of (gr (mute s)) r = KState true) by (rewrite (mu_kind _ _ M0); exact K).
  destruct (X _ _ _ K' H2) as (_ & f2 & s4 & H4 & ->).
  apply outcome_ev in H3 as (b & H3).
  assert (C1 : ctx (pin r s)).
  { apply (ctx_pin changed changed_sound ordN); auto. now apply alive_handle. }
  pose proof (ctx_auto changed changed_sound ordN r v (pin r s) C1 K) as C2.
  assert (ST : steps t s3) by (eapply ev_steps; [exact changed_sound|exact H3|apply C2]).
  assert (E0 : propagations (log t) = S (propagations (log s))).
  { destruct (roots_counts changed [r] (wr changed r v (pin r s))) as (_ & R2 & _). exact R2. }
  change (last (gr (unpin s3)) n) with (last (gr s3) n).
  change (last (gr (unpin s4)) n) with (last (gr s4) n).
  change (log (unpin s3)) with (log s3) in EL.
  rewrite (steps_last changed changed_sound ordN _ _ ST (proj1 C2)).
  2: { rewrite E0, EL, props_app. lia. }
  2: { unfold t. rewrite (ss_cnt _ _ (send_roots_ss changed [r] _)).
       unfold wr. cbn [with_gr gr]. 
       pose proof (ss_cnt _ _ (fc_ss _ _ _ (fc_push_down changed r v (gr (pin r s))))) as Q.
       simpl in *. rewrite Q. exact L. }
  apply exec_idle in H4; [|exact Logic.I|exact (muted_silent _ _ M)].
  destruct H4 as [_ H4]. rewrite H4. symmetry. apply (mu_last _ _ M).
Qed.

End Api2.
