(** Writing through cursors. *)
From Coq Require Import List Arith Bool Lia Permutation.
From Verif Require Import NodesModel NodesSpec NodesBase NodesInv NodesExec NodesEv
                          NodesRoots NodesNotify NodesTold NodesCount NodesFacts.
Import ListNotations.

Section Write.
Context {V W : Type}.
Variable dv : V.
Variable changed : V -> V -> bool.
Hypothesis changed_sound : forall a b, changed a b = false -> a = b.
Variable ordV : graph V W -> nat -> list (nat * V) -> list (nat * V).
Hypothesis ordV_perm : forall g n l, Permutation l (ordV g n l).
Variable ordN : graph V W -> nat -> list nat -> list nat.
Hypothesis ordN_perm : forall g n l, Permutation l (ordN g n l).

Set Default Proof Using "Type".
Implicit Types g : graph V W.
Implicit Types s : st V W.

Notation Inv := (Inv changed).
Notation ev := (ev changed ordV ordN).
Notation exec := (exec changed ordV ordN).
Notation run := (run dv changed ordV ordN).
Notation reach := (reach dv changed ordN).

Lemma outcome_ev : forall fuel t s s',
  exec fuel t s = Done s' \/ exec fuel t s = Thrown s' -> exists b, ev t s b s'.
Proof.
  intros fuel t s s' [H|H]; [exists true|exists false];
    apply (exec_ev changed ordV ordN fuel); rewrite H; simpl; auto.
Qed.

(** ** Transactional writes *)
Lemma trans_ss : forall g g' n, (forall m, kind_of g' m = kind_of g m) ->
  (forall m, parents g' m = parents g m) -> transactional g n -> transactional g' n.
Proof.
  intros g g' n K P T r S. rewrite K. apply T. clear -P S.
  induction S as [|a p n S IH Hp]; [constructor|]. rewrite P in Hp. econstructor; eauto.
Qed.
Lemma writes_ss : forall g g' p, (forall m, kind_of g' m = kind_of g m) ->
  (forall m, parents g' m = parents g m) -> only_writes g p -> only_writes g' p.
Proof.
  intros g g' p K P H.
  induction H; constructor; auto; eapply trans_ss; eauto.
Qed.

Definition wtask g (t : task V W) : Prop :=
  match t with
  | TProg p => only_writes g p
  | TCmd (CSet n _) | TCmd (CUpdate n _) => transactional g n
  | TSend n _ => transactional g n
  | TPushAll n _ => transactional g n /\ is_root (kind_of g n) = false
  | TPush l => forall p v, In (p, v) l -> transactional g p
  | _ => False
  end.

Definition unseen s s' : Prop :=
  same_struct (gr s) (gr s') /\ (forall m, last (gr s') m = last (gr s) m) /\
  (forall m, nn (gr s') m = nn (gr s) m) /\
  exists l, log s' = l ++ log s /\ Forall invisible l.

Lemma unseen_refl : forall s, unseen s s.
Proof. intros s. split; [apply ss_refl|]. split; auto. split; auto. exists []; auto. Qed.
Lemma unseen_trans : forall a b c, unseen a b -> unseen b c -> unseen a c.
Proof.
  intros a b c (A1 & A2 & A3 & l & A4 & A5) (B1 & B2 & B3 & l' & B4 & B5).
  split; [eapply ss_trans; eauto|]. split; [intros; now rewrite B2|].
  split; [intros; now rewrite B3|]. exists (l' ++ l). rewrite B4, A4, app_assoc.
  split; auto. now apply Forall_app.
Qed.
Lemma unseen_see : forall s, unseen s (see s).
Proof.
  intros s. split; [apply ss_refl|]. split; auto. split; auto. exists [ESee (gr s)]; auto.
  split; auto. constructor; simpl; auto.
Qed.
Lemma unseen_wr : forall n v s, unseen s (wr changed n v s).
Proof.
  intros n v s. pose proof (fc_push_down changed n v (gr s)) as F.
  split; [apply (fc_ss _ _ _ F)|]. split; [apply (fc_last _ _ _ F)|].
  split; [apply (fc_nn _ _ _ F)|]. exists [EWrite n v]. split; auto. constructor; simpl; auto.
Qed.
Lemma unseen_refreshed : forall rf n s, unseen s (refreshed changed ordN rf n s).
Proof.
  intros rf n s. unfold refreshed. destruct rf; [|apply unseen_refl].
  pose proof (fr_refresh changed ordN (S n) n (gr s)) as F.
  split; [apply (fr_ss _ _ F)|]. split; [apply (fr_last _ _ F)|].
  split; [apply (fr_nn _ _ F)|]. exists []; auto.
Qed.

Lemma wtask_unseen : forall s s' t, unseen s s' -> wtask (gr s) t -> wtask (gr s') t.
Proof.
  intros s s' t (S & _) H.
  pose proof (ss_kind _ _ S) as K. pose proof (ss_parents _ _ S) as P.
  destruct t as [p|c| | | | | | |]; simpl in *; auto.
  - eapply writes_ss; eauto.
  - destruct c; auto; eapply trans_ss; eauto.
  - eapply trans_ss; eauto.
  - rewrite K. split; [eapply trans_ss; eauto; apply H|apply H].
  - intros p v Hp. eapply trans_ss; eauto.
Qed.

Lemma ev_unseen : forall t s b s', ev t s b s' -> wtask (gr s) t -> unseen s s'.
Proof using ordV_perm.
  intros t s b s' H. induction H; intros HW; simpl in HW; try contradiction;
    try (apply unseen_refl).
  - (* throw *) split; [apply ss_refl|]. split; auto. split; auto. exists [EThrow]. split; auto.
    constructor; simpl; auto.
  - assert (U1 : unseen s s1) by (apply IHev1; inversion HW; subst; simpl; auto).
    eapply unseen_trans; [exact U1|]. eapply unseen_trans; [apply unseen_see|]. apply IHev2.
    apply (wtask_unseen s); [eapply unseen_trans; [exact U1|apply unseen_see]|].
    inversion HW; subst; simpl; auto.
  - apply IHev. inversion HW; subst; simpl; auto.
  - assert (U1 : unseen s s1) by (apply IHev1; inversion HW; subst; simpl; auto).
    eapply unseen_trans; [exact U1|]. eapply unseen_trans; [apply unseen_see|]. apply IHev2.
    apply (wtask_unseen s); [eapply unseen_trans; [exact U1|apply unseen_see]|].
    inversion HW; subst; simpl; auto.
  - assert (U1 : unseen (pin n s) s1) by (apply IHev; simpl; apply (trans_ss (gr s)); auto).
    destruct U1 as (S1 & L1 & N1 & l & E1 & F1). destruct S1.
    split; [split; auto|]; [simpl; rewrite ss_pins; reflexivity|].
    split; auto. split; auto. exists l. auto.
  - assert (U1 : unseen (pin n s) s1) by (apply IHev; simpl; apply (trans_ss (gr s)); auto).
    destruct U1 as (S1 & L1 & N1 & l & E1 & F1). destruct S1.
    split; [split; auto|]; [simpl; rewrite ss_pins; reflexivity|].
    split; auto. split; auto. exists l. auto.
  - apply unseen_wr.
  - exfalso. specialize (HW n (source_refl _ n)). now rewrite H in HW.
  - exfalso. specialize (HW n (source_refl _ n)). now rewrite H in HW.
  - exfalso. specialize (HW n (source_refl _ n)). now rewrite H in HW.
  - exfalso. specialize (HW n (source_refl _ n)). now rewrite H in HW.
  - pose proof (unseen_refreshed rf n s) as U. eapply unseen_trans; [exact U|]. apply IHev.
    apply (wtask_unseen s); auto. simpl. split; auto.
    destruct (kind_of (gr s) n); auto; discriminate.
  - assert (U1 : unseen s s1).
    { apply IHev1. simpl. intros p v Hp.
      apply (Permutation_in _ (Permutation_sym (ordV_perm _ _ _))) in Hp. apply in_combine_l in Hp.
      intros r Hr. apply HW. econstructor; eauto. }
    eapply unseen_trans; [exact U1|]. apply IHev2. now apply (wtask_unseen s).
  - apply IHev. simpl. intros p v Hp.
    apply (Permutation_in _ (Permutation_sym (ordV_perm _ _ _))) in Hp. apply in_combine_l in Hp.
    intros r Hr. apply HW. econstructor; eauto.
  - assert (U1 : unseen s s1) by (apply IHev1; simpl; eapply HW; now left).
    eapply unseen_trans; [exact U1|]. apply IHev2. apply (wtask_unseen s); auto. simpl.
    intros q x Hq. apply (HW q x). now right.
  - apply IHev. simpl. eapply HW. now left.
Qed.

Lemma writes_unseen : forall fuel p s s', only_writes (gr s) p ->
  exec fuel (TProg p) s = Done s' \/ exec fuel (TProg p) s = Thrown s' ->
  (forall m, last (gr s') m = last (gr s) m) /\ (forall m, slots (gr s') m = slots (gr s) m) /\
  exists l, log s' = l ++ log s /\ Forall invisible l.
Proof using ordV_perm.
  intros fuel p s s' HW HE. destruct (outcome_ev _ _ _ _ HE) as (b & HV).
  destruct (ev_unseen _ _ _ _ HV HW) as (S & L & _ & HL).
  split; auto. split; auto. apply (ss_slots _ _ S).
Qed.

(** ** Chains of lens cursors *)
Lemma lens_ss : forall g g' n p vw st, (forall m, kind_of g' m = kind_of g m) ->
  (forall m, parents g' m = parents g m) -> lens_node g n p vw st -> lens_node g' n p vw st.
Proof.
  intros g g' n p vw st K P (down & up & H1 & H2 & H3 & H4). exists down, up.
  rewrite K, P. auto.
Qed.
Lemma chain_ss : forall g g' r n gv gs, (forall m, kind_of g' m = kind_of g m) ->
  (forall m, parents g' m = parents g m) -> chain g r n gv gs -> chain g' r n gv gs.
Proof.
  intros g g' r n gv gs K P H. induction H; econstructor; eauto. eapply lens_ss; eauto.
Qed.
Lemma chain_lawful : forall g r n gv gs, chain g r n gv gs ->
  (forall m p vw st, lens_node g m p vw st -> lawful vw st) -> lawful gv gs.
Proof.
  intros g r n gv gs H HL. induction H as [|p n gv gs vw st H IH HN].
  - split; auto.
  - destruct IH as (A1 & A2 & A3). destruct (HL _ _ _ _ HN) as (B1 & B2 & B3).
    split; [|split]; intros.
    + now rewrite A1, B1.
    + now rewrite B2, A2.
    + now rewrite A1, A3, B3.
Qed.

Lemma perm1 : forall (A : Type) (x : A) l, Permutation [x] l -> l = [x].
Proof. intros A x l H. now apply Permutation_length_1_inv in H. Qed.

Lemma push_down_cur : forall n v g, cur (push_down changed n v g) n = v.
Proof using changed_sound.
  intros n v g. unfold push_down. destruct (changed v (cur g n)) eqn:E.
  - unfold cur. now rewrite nd_upd_same.
  - symmetry. now apply changed_sound.
Qed.

Lemma refresh_lens : forall f n p vw st g, lens_node g n p vw st ->
  refresh changed ordN (S f) n g = recompute changed n (refresh changed ordN f p g).
Proof using ordN_perm.
  intros f n p vw st g (down & up & K & P & _). cbn [refresh]. rewrite K, P.
  rewrite (perm1 _ p _ (ordN_perm g n [p])). reflexivity.
Qed.

Lemma refresh_chain : forall g r auto, kind_of g r = KState auto -> par_lt g ->
  forall n gv gs, chain g r n gv gs -> forall fuel, n < fuel ->
  cur (refresh changed ordN fuel n g) n = gv (cur g r).
Proof using changed_sound ordN_perm.
  intros g r auto Kr PL n gv gs H.
  induction H as [|p n gv gs vw st H IH HN]; intros fuel L; (destruct fuel as [|f]; [lia|]).
  - cbn [refresh]. now rewrite Kr.
  - rewrite (refresh_lens f n p vw st g HN).
    pose proof (fr_ss _ _ (fr_refresh changed ordN f p g)) as S.
    destruct HN as (down & up & K & P & Hd & Hu).
    assert (Lp : p < n) by (apply PL; rewrite P; now left).
    unfold recompute. rewrite (ss_kind _ _ S), K, (ss_parents _ _ S), P.
    unfold current_from. simpl. rewrite Hd, push_down_cur, IH; auto. lia.
Qed.

Lemma send_chain : forall g r auto n gv gs, chain g r n gv gs ->
  kind_of g r = KState auto -> par_lt g -> forall s,
  (forall m, kind_of (gr s) m = kind_of g m) -> (forall m, parents (gr s) m = parents g m) ->
  forall v b s', ev (TSend n v) s b s' ->
  exists s1, ev (TSend r (gs (cur (gr s) r) v)) s1 b s' /\ log s1 = log s /\
    frame_refresh (gr s) (gr s1) /\ cur (gr s1) r = cur (gr s) r /\ steps changed ordN s s1.
Proof using changed_sound ordV_perm ordN_perm.
  intros g r auto n gv gs H Kr PL.
  induction H as [|p n gv gs vw st H IH HN0]; intros s EK EP v b s' HV.
  - exists s. split; auto. split; auto. split; [apply fr_refl|]. split; auto. apply steps_refl.
  - pose proof (lens_ss g (gr s) n p vw st EK EP HN0) as HN.
    pose proof (chain_ss g (gr s) r p gv gs EK EP H) as HCh.
    rewrite <- EK in Kr.
    assert (PLs : par_lt (gr s)) by (intros m q; rewrite EP; apply PL).
    pose proof HN as (down & up & K & P & Hd & Hu).
    assert (Lp : p < n) by (apply PLs; rewrite P; now left).
    inversion HV; subst; try congruence.
    match goal with E : up_of _ = UWrite _ _ |- _ =>
      rewrite K in E; cbn [up_of] in E; injection E as <- <- end.
    set (s1 := refreshed changed ordN true n s) in *.
    pose proof (fr_refresh changed ordN (S n) n (gr s)) as F.
    assert (S1 : same_struct (gr s) (gr s1)) by (apply (fr_ss _ _ F)).
    assert (Er : cur (gr s1) r = cur (gr s) r).
    { apply (fr_noninner _ _ F). rewrite Kr. exact I. }
    assert (Ep : cur (gr s1) p = gv (cur (gr s) r)).
    { change (gr s1) with (refresh changed ordN (S n) n (gr s)). rewrite (refresh_lens n n p vw st (gr s) HN).
      rewrite (fc_cur _ _ _ (fc_recompute changed n _) p); [|lia].
      eapply refresh_chain; eauto. }
    match goal with HV : NodesEv.ev _ _ _ (TPushAll _ _) _ _ _ |- _ => rename HV into HV1 end.
    rewrite (ss_parents _ _ S1), P in HV1. unfold current_from in HV1. cbn [map] in HV1.
    rewrite Ep, Hu in HV1.
    assert (HP : ev (TSend p (st (gv (cur (gr s) r)) v)) s1 b s').
    { inversion HV1; subst.
      - match goal with X : NodesEv.ev _ _ _ (TPush _) _ _ _, Y : NodesEv.ev _ _ _ (TPushAll _ []) _ _ _ |- _ =>
          inversion Y; subst; clear Y; rename X into HX end.
        rewrite (ss_parents _ _ S1), P in HX. cbn [combine] in HX.
        rewrite (perm1 _ _ _ (ordV_perm (gr s1) n [(p, st (gv (cur (gr s) r)) v)])) in HX.
        inversion HX; subst.
        match goal with Y : NodesEv.ev _ _ _ (TPush []) _ _ _ |- _ => inversion Y; subst end. auto.
      - match goal with X : NodesEv.ev _ _ _ (TPush _) _ _ _ |- _ => rename X into HX end.
        rewrite (ss_parents _ _ S1), P in HX. cbn [combine] in HX.
        rewrite (perm1 _ _ _ (ordV_perm (gr s1) n [(p, st (gv (cur (gr s) r)) v)])) in HX.
        inversion HX; subst; auto.
        match goal with Y : NodesEv.ev _ _ _ (TPush []) _ _ _ |- _ => inversion Y; subst end. }
    destruct (IH s1) with (v := st (gv (cur (gr s) r)) v) (b := b) (s' := s') as (s2 & Q1 & Q2 & Q3 & Q4 & Q5); auto.
    { intros m. rewrite (ss_kind _ _ S1). apply EK. }
    { intros m. rewrite (ss_parents _ _ S1). apply EP. }
    exists s2. rewrite Er in Q1. split; auto. split; auto. split; [eapply fr_trans; [exact F|exact Q3]|].
    split; [congruence|]. eapply steps_trans; [|exact Q5]. apply steps_one. eapply S_refresh. rewrite K. reflexivity.
Qed.

(** What one write through a chain does, to any state. *)
Lemma send_chain_log : forall r auto n gv gs s v b s', Inv (gr s) -> chain (gr s) r n gv gs -> kind_of (gr s) r = KState auto ->
  ev (TSend n v) s b s' ->
  exists l, log s' = l ++ EWrite r (gs (cur (gr s) r) v) :: log s /\
    (auto = false -> l = [] /\ b = true /\ same_struct (gr s) (gr s') /\
       cur (gr s') r = gs (cur (gr s) r) v /\
       forall m, is_root (kind_of (gr s) m) = true -> m <> r -> cur (gr s') m = cur (gr s) m).
Proof using changed_sound ordV_perm ordN_perm.
  intros r auto n gv gs s v b s' HI HC Kr HV.
  destruct (send_chain (gr s) r auto n gv gs HC Kr (wf_par _ (proj1 HI)) s
    (fun _ => eq_refl) (fun _ => eq_refl) v b s' HV) as (s1 & Q1 & Q2 & F & Q4 & Q5).
  pose proof (fr_ss _ _ F) as Q3.
  destruct (steps_Inv changed changed_sound ordN _ _ Q5 HI) as [I1 _].
  assert (K1 : kind_of (gr s1) r = KState auto) by (now rewrite (ss_kind _ _ Q3)).
  assert (RC : forall m, is_root (kind_of (gr s) m) = true -> cur (gr s1) m = cur (gr s) m).
  { intros m Rm. apply (fr_noninner _ _ F). destruct (kind_of (gr s) m); auto; discriminate. }
  inversion Q1; subst; try congruence.
  - exists []. simpl. rewrite Q2. split; auto. intros _. split; auto. split; auto.
    split; [eapply ss_trans; [exact Q3|apply wr_ss]|]. split; [apply push_down_cur|].
    intros m Rm Nm. rewrite <- (RC m); auto. apply (fc_cur _ _ _ (fc_push_down changed r _ (gr s1))); auto.
  - match goal with X : NodesEv.ev _ _ _ (TNotify _) _ _ _ |- _ =>
      destruct (ev_log changed changed_sound ordV ordN _ _ _ _ X) as (l & E) end.
    { apply (roots_I changed changed_sound ordN). apply (wr_I changed changed_sound ordN); auto.
      now rewrite K1. }
    destruct (send_roots_log changed [r] (wr changed r (gs (cur (gr s) r) v) s1)) as (l0 & E0 & _).
    rewrite E0 in E. simpl in E. rewrite Q2 in E.
    exists (l ++ l0 ++ [ECommit [r] (world (gr (wr changed r (gs (cur (gr s) r) v) s1)))]).
    split; [rewrite E, <- !app_assoc; reflexivity|].
    intros ->. congruence.
  - rewrite K1 in *. discriminate.
Qed.

Lemma reach_written : forall w s r auto x, reach w s -> kind_of (gr s) r = KState auto ->
  written (log s) r = Some x -> cur (gr s) r = x.
Proof using changed_sound.
  intros w s r auto x HR K E. destruct (reach_Inv dv changed changed_sound ordN w s HR) as [I RI].
  assert (L : r < cnt (gr s)).
  { apply (noninner_out _ _ (proj1 I)). rewrite K. discriminate. }
  destruct (RI r L) as [[_ Q] _]; [now rewrite K|]. rewrite K in Q. destruct Q as (Q & _). congruence.
Qed.

Lemma pin_facts : forall n s, Inv (gr s) -> handle (gr s) n = true -> Inv (gr (pin n s)).
Proof using changed_sound ordN.
  intros n s HI HH. apply (pin_I changed changed_sound ordN); auto. now apply alive_handle.
Qed.

(** set() through a chain of zooms *)
Lemma set_chain : forall w fuel s s' r auto n gv gs x v, reach w s ->
  chain (gr s) r n gv gs -> kind_of (gr s) r = KState auto -> written (log s) r = Some x ->
  exec fuel (TCmd (CSet n v)) s = Done s' \/ exec fuel (TCmd (CSet n v)) s = Thrown s' ->
  exists l, log s' = l ++ EWrite r (gs x v) :: log s /\ (auto = false -> l = []).
Proof using changed_sound ordV_perm ordN_perm.
  intros w fuel s s' r auto n gv gs x v HR HC K E HE.
  pose proof (reach_written _ _ _ _ _ HR K E) as Ex.
  destruct (reach_Inv dv changed changed_sound ordN w s HR) as [I RI].
  destruct (outcome_ev _ _ _ _ HE) as (b & HV). inversion HV; subst.
  match goal with X : NodesEv.ev _ _ _ (TSend _ _) _ _ _ |- _ =>
    destruct (send_chain_log r auto n gv gs (pin n s) v b s1) as (l & E1 & E2); auto end.
  - now apply pin_facts.
  - apply (chain_ss (gr s)); auto.
  - exists l. simpl in *. split; auto. intros A. now apply E2.
Qed.

Lemma chain_source : forall g r n gv gs, chain g r n gv gs -> source g r n.
Proof.
  intros g r n gv gs H. induction H as [|p n gv gs vw st H IH (down & up & _ & P & _)]; [constructor|].
  econstructor; [exact IH|]. rewrite P. now left.
Qed.
Lemma chain_plain : forall g r n gv gs, chain g r n gv gs -> is_root (kind_of g r) = true ->
  plain g n.
Proof.
  intros g r n gv gs H Kr. induction H as [|p n gv gs vw st H IH (down & up & K & P & _)].
  - now apply plain_root.
  - eapply plain_inner; eauto. rewrite P. intros q [<-|[]]. auto.
Qed.
(** A cursor whose state has no uncommitted write shows the composed view of the
    last value written. *)
Lemma chain_reads : forall w s r auto n gv gs x, reach w s ->
  chain (gr s) r n gv gs -> kind_of (gr s) r = KState auto -> written (log s) r = Some x ->
  alive (gr s) n = true -> uncommitted (log s) r = false -> last (gr s) n = gv x.
Proof using changed_sound.
  intros w s r auto n gv gs x HR HC K E A U.
  pose proof (reach_written _ _ _ _ _ HR K E) as Ex.
  destruct (reach_Inv dv changed changed_sound ordN w s HR) as [I RI].
  assert (Rr : is_root (kind_of (gr s) r) = true) by (now rewrite K).
  assert (CL : clean (gr s) (log s) n).
  { intros m Sm Rm. assert (m = r); [|now subst]. clear -Sm Rm HC Rr I.
    induction HC as [|p n gv gs vw st H IH (down & up & Kn & P & _)].
    - inversion Sm as [|a q n0 Sq Hq]; subst; auto.
      rewrite (is_root_parents _ _ (proj1 I) Rr) in Hq. destruct Hq.
    - inversion Sm as [|a q n0 Sq Hq]; subst; [rewrite Kn in Rm; discriminate|].
      rewrite P in Hq. destruct Hq as [<-|[]]. auto. }
  pose proof (chain_plain _ _ _ _ _ HC Rr) as PL.
  assert (Q : committed (log s) r = Some x).
  { assert (Ar : alive (gr s) r = true).
    { clear -A HC I. induction HC as [|p n gv gs vw st H IH (down & up & Kn & P & _)]; auto.
      apply IH. apply (alive_parent _ (wf_par _ (proj1 I)) p n); auto. rewrite P. now left. }
    assert (CLr : clean (gr s) (log s) r).
    { intros m Sm Rm. apply CL; auto. clear -Sm HC.
      induction HC as [|p n gv gs vw st H IH (down & up & Kn & P & _)]; auto.
      econstructor; [exact IH|]. rewrite P. now left. }
    destruct (clean_facts changed changed_sound s r I RI (plain_root _ _ Rr) Ar CLr) as (_ & EL & _).
    pose proof (alive_cnt _ (wf_par _ (proj1 I)) r Ar) as L.
    destruct (RI r L Rr) as [[_ Z] _]. rewrite K in Z. destruct Z as (_ & Z & _). congruence. }
  apply (denotes_last changed changed_sound s I RI); auto.
  clear -HC Q K. induction HC as [|p n gv gs vw st H IH (down & up & Kn & P & Hd & _)].
  - apply den_state; auto. now rewrite K.
  - eapply den_inner; [exact Kn|rewrite P; constructor; [exact IH|constructor]|apply Hd].
Qed.

(** update() on a state, or on a cursor in step with it *)
Lemma update_chain : forall w fuel s s' r auto n gv gs x fn, reach w s ->
  chain (gr s) r n gv gs -> kind_of (gr s) r = KState auto -> written (log s) r = Some x ->
  n = r \/ (clean (gr s) (log s) n /\ handle (gr s) n = true) ->
  exec fuel (TCmd (CUpdate n fn)) s = Done s' \/ exec fuel (TCmd (CUpdate n fn)) s = Thrown s' ->
  exists l, log s' = l ++ EWrite r (gs x (fn (gv x))) :: log s /\ (auto = false -> l = []).
Proof using changed_sound ordV_perm ordN_perm.
  intros w fuel s s' r auto n gv gs x fn HR HC K E HCl HE.
  pose proof (reach_written _ _ _ _ _ HR K E) as Ex.
  destruct (reach_Inv dv changed changed_sound ordN w s HR) as [I RI].
  assert (Ec : cur (gr s) n = gv x).
  { destruct HCl as [->|[CL HH]].
    - inversion HC as [E1 E2|p n gv0 gs0 vw st H (down & up & Kn & _)]; subst; [|congruence].
      auto.
    - assert (A : alive (gr s) n = true) by (now apply alive_handle).
      assert (Rr : is_root (kind_of (gr s) r) = true) by (now rewrite K).
      destruct (clean_facts changed changed_sound s n I RI (chain_plain _ _ _ _ _ HC Rr) A CL) as (_ & EL & _).
      rewrite <- EL. apply (chain_reads w s r auto n gv gs x); auto.
      apply CL; auto. eapply chain_source; eauto. }
  destruct (outcome_ev _ _ _ _ HE) as (b & HV). inversion HV; subst.
  match goal with X : NodesEv.ev _ _ _ (TSend _ _) _ _ _ |- _ =>
    destruct (send_chain_log r auto n gv gs (pin n s) (fn (cur (gr s) n)) b s1) as (l & E1 & E2); auto end.
  - now apply pin_facts.
  - apply (chain_ss (gr s)); auto.
  - exists l. rewrite Ec in *. simpl in *. split; auto. intros A. now apply E2.
Qed.

(** Several writes in one transaction *)
Lemma chain_sources : forall g r n gv gs, parents g r = [] -> chain g r n gv gs ->
  forall m, source g m n -> m = r \/ exists down up, kind_of g m = KInner down up.
Proof.
  intros g r n gv gs Pr HC.
  induction HC as [|p n gv gs vw st H IH (down & up & Kn & P & _)]; intros m Sm.
  - inversion Sm as [|a q n0 Sq Hq]; subst; auto. rewrite Pr in Hq. destruct Hq.
  - inversion Sm as [|a q n0 Sq Hq]; subst; eauto. rewrite P in Hq. destruct Hq as [<-|[]]. auto.
Qed.
Lemma chain_trans : forall g r n gv gs, wf g -> kind_of g r = KState false ->
  chain g r n gv gs -> transactional g n.
Proof.
  intros g r n gv gs Wf K HC m Sm.
  destruct (chain_sources g r n gv gs) with (m := m) as [->|(down & up & Km)]; auto.
  - apply is_root_parents; auto. now rewrite K.
  - now rewrite K.
  - now rewrite Km.
Qed.
Lemma reach_ev : forall w t s b s', reach w s -> ev t s b s' -> reach w s'.
Proof using changed_sound.
  intros w t s b s' HR HV. destruct (reach_Inv dv changed changed_sound ordN w s HR) as [I _].
  unfold NodesRoots.reach in *. eapply steps_trans; [exact HR|]. eapply ev_steps; eauto.
Qed.

Lemma sets_chain : forall w r fuel l gss s s' x, reach w s ->
  Forall2 (fun nv gs => exists gv, chain (gr s) r (fst nv) gv gs) l gss ->
  kind_of (gr s) r = KState false -> written (log s) r = Some x ->
  exec fuel (TProg (set_all l)) s = Done s' ->
  written (log s') r = Some (fold_left (fun y vg => snd vg y (fst vg)) (combine (map snd l) gss) x) /\
  (forall m, m <> r -> written (log s') m = written (log s) m).
Proof using changed_sound ordV_perm ordN_perm.
  intros w r fuel l gss s s' x HR HF. revert gss fuel s x HR HF.
  induction l as [|[n v] l IH]; intros gss fuel s x HR HF K E HE.
  - inversion HF; subst. destruct fuel; simpl in HE; [discriminate|]. injection HE as <-.
    simpl. auto.
  - inversion HF as [|? gs ? gss' [gv HC] HF']; subst. simpl in HC.
    destruct fuel as [|f]; [discriminate|]. cbn [set_all NodesModel.exec] in HE.
    destruct (exec f (TCmd (CSet n v)) s) as [s1|s1| | |] eqn:E1; simpl in HE; try discriminate.
    destruct (set_chain w f s s1 r false n gv gs x v HR HC K E (or_introl E1)) as (l1 & EL & Q).
    rewrite (Q eq_refl) in EL. simpl in EL.
    assert (HV : ev (TCmd (CSet n v)) s true s1) by (eapply exec_Done_ev; eauto).
    assert (R1 : reach w s1) by (eapply reach_ev; eauto).
    assert (S1 : unseen s s1).
    { apply (ev_unseen _ _ _ _ HV). simpl. eapply chain_trans; eauto.
      apply (reach_Inv dv changed changed_sound ordN w s HR). }
    destruct S1 as (SS & _). pose proof (ss_kind _ _ SS) as EK. pose proof (ss_parents _ _ SS) as EP.
    destruct (IH gss' f (see s1) (gs x v)) as [A B]; auto.
    + eapply steps_snoc; [exact R1|apply S_see].
    + clear -HF' EK EP. induction HF' as [|[a b] gs' l' gss'' [gv' H] HF IHF]; constructor; auto.
      exists gv'. apply (chain_ss (gr s)); auto.
    + change (kind_of (gr s1) r = KState false). now rewrite EK.
    + simpl. rewrite EL. simpl. now rewrite Nat.eqb_refl.
    + split; [exact A|]. intros m Hm. rewrite B; auto. simpl. rewrite EL. simpl.
      destruct (Nat.eqb_spec r m); [congruence|auto].
Qed.

Lemma updates_root : forall w r fuel l s s' x, reach w s ->
  kind_of (gr s) r = KState false -> written (log s) r = Some x ->
  exec fuel (TProg (update_all r l)) s = Done s' ->
  written (log s') r = Some (fold_left (fun y f => f y) l x).
Proof using changed_sound ordV_perm ordN_perm.
  intros w r fuel l. revert fuel.
  induction l as [|fn l IH]; intros fuel s s' x HR K E HE.
  - destruct fuel; simpl in HE; [discriminate|]. injection HE as <-. simpl. auto.
  - destruct fuel as [|f]; [discriminate|]. cbn [update_all NodesModel.exec] in HE.
    destruct (exec f (TCmd (CUpdate r fn)) s) as [s1|s1| | |] eqn:E1; simpl in HE; try discriminate.
    destruct (update_chain w f s s1 r false r _ _ x fn HR (chain_here _ r) K E (or_introl eq_refl)
      (or_introl E1)) as (l1 & EL & Q).
    rewrite (Q eq_refl) in EL. simpl in EL.
    assert (HV : ev (TCmd (CUpdate r fn)) s true s1) by (eapply exec_Done_ev; eauto).
    assert (R1 : reach w s1) by (eapply reach_ev; eauto).
    assert (S1 : unseen s s1).
    { apply (ev_unseen _ _ _ _ HV). simpl. eapply chain_trans; eauto; [|apply chain_here].
      apply (reach_Inv dv changed changed_sound ordN w s HR). }
    destruct S1 as (SS & _). pose proof (ss_kind _ _ SS) as EK.
    apply (IH f (see s1)); auto.
    + eapply steps_snoc; [exact R1|apply S_see].
    + change (kind_of (gr s1) r = KState false). now rewrite EK.
    + simpl. rewrite EL. simpl. now rewrite Nat.eqb_refl.
Qed.

(** ** Merged cursors *)
Lemma tpush_chains : forall g (rt : nat -> nat) (gv : nat -> V -> V) (gs : nat -> V -> V -> V)
    (x : nat -> V), forall l s b s',
  (forall p v, In (p, v) l -> chain g (rt p) p (gv p) (gs p) /\
     kind_of g (rt p) = KState false /\ cur (gr s) (rt p) = x p) ->
  NoDup (map (fun pv => rt (fst pv)) l) -> Inv (gr s) ->
  (forall m, kind_of (gr s) m = kind_of g m) -> (forall m, parents (gr s) m = parents g m) ->
  ev (TPush l) s b s' ->
  b = true /\
  log s' = rev (map (fun pv => EWrite (rt (fst pv)) (gs (fst pv) (x (fst pv)) (snd pv))) l) ++ log s.
Proof using changed_sound ordV_perm ordN_perm.
  intros g rt gv gs x. induction l as [|[p v] l IH]; intros s b s' HL ND HI EK EP HV.
  - inversion HV; subst. auto.
  - destruct (HL p v (or_introl eq_refl)) as (HC & K & Ex).
    assert (H1 : forall b1 s1, ev (TSend p v) s b1 s1 -> b1 = true /\
       log s1 = EWrite (rt p) (gs p (x p) v) :: log s /\ same_struct (gr s) (gr s1) /\
       Inv (gr s1) /\
       (forall m, is_root (kind_of g m) = true -> m <> rt p -> cur (gr s1) m = cur (gr s) m)).
    { intros b1 s1 H. rewrite <- EK in K. apply (chain_ss g (gr s)) in HC; auto.
      pose proof (send_chain_log (rt p) false p (gv p) (gs p) s v b1 s1 HI HC K H) as (l1 & E1 & E2).
      destruct (E2 eq_refl) as (-> & -> & SS & _ & CR). split; auto. simpl in E1. rewrite Ex in E1.
      split; auto. split; auto. split.
      - apply (ev_Inv changed changed_sound ordV ordN _ _ _ _ H HI).
      - intros m Rm. apply CR. now rewrite EK. }
    inversion HV; subst.
    + match goal with X : NodesEv.ev _ _ _ (TSend _ _) _ _ _ |- _ =>
        destruct (H1 _ _ X) as (_ & EL & SS & I1 & CR) end.
      inversion ND as [|? ? N1 N2]; subst.
      destruct (IH s1 b s') as [-> E]; auto.
      * intros q u Hq. destruct (HL q u (or_intror Hq)) as (A1 & A2 & A3).
        split; auto. split; auto. rewrite CR; auto.
        -- now rewrite A2.
        -- intros Eq. apply N1. simpl. rewrite <- Eq.
           apply (in_map (fun pv => rt (fst pv)) l (q, u)). auto.
      * intros m. now rewrite (ss_kind _ _ SS).
      * intros m. now rewrite (ss_parents _ _ SS).
      * split; auto. rewrite E, EL. simpl. rewrite <- app_assoc. reflexivity.
    + match goal with X : NodesEv.ev _ _ _ (TSend _ _) _ _ _ |- _ =>
        destruct (H1 _ _ X) as (E & _) end. discriminate.
Qed.

Lemma map_fst_combine : forall (A B : Type) (l : list A) (l' : list B),
  length l' = length l -> map fst (combine l l') = l.
Proof.
  induction l as [|a l IH]; intros [|b l'] E; simpl in *; auto; try discriminate.
  f_equal. auto.
Qed.

Lemma set_merge : forall w fuel s s' n comps t (rt : nat -> nat) gv gs x, reach w s ->
  merge_node (gr s) n comps -> length (comps t) = length (parents (gr s) n) ->
  (forall p, In p (parents (gr s) n) -> chain (gr s) (rt p) p (gv p) (gs p) /\
     kind_of (gr s) (rt p) = KState false /\ written (log s) (rt p) = Some (x p)) ->
  NoDup (map rt (parents (gr s) n)) ->
  exec fuel (TCmd (CSet n t)) s = Done s' \/ exec fuel (TCmd (CSet n t)) s = Thrown s' ->
  exists l, log s' = l ++ log s /\
    Permutation l (map (fun pv => EWrite (rt (fst pv)) (gs (fst pv) (x (fst pv)) (snd pv)))
                       (combine (parents (gr s) n) (comps t))).
Proof using changed_sound ordV_perm ordN_perm.
  intros w fuel s s' n comps t rt gv gs x HR (down & up & K & Hup) EL HP ND HE.
  destruct (reach_Inv dv changed changed_sound ordN w s HR) as [I RI].
  destruct (outcome_ev _ _ _ _ HE) as (b & HV). inversion HV; subst.
  match goal with X : NodesEv.ev _ _ _ (TSend _ _) _ _ _ |- _ => rename X into HS end.
  assert (KP : kind_of (gr (pin n s)) n = KInner down (UWrite false up)) by exact K.
  inversion HS; subst; try congruence.
  match goal with E : up_of _ = UWrite _ _ |- _ =>
    rewrite KP in E; cbn [up_of] in E; injection E as <- <- end.
  rewrite Hup in *. cbn [refreshed] in *.
  match goal with X : NodesEv.ev _ _ _ (TPushAll _ _) _ _ _ |- _ => rename X into HA end.
  assert (HT : ev (TPush (ordV (gr (pin n s)) n (combine (parents (gr s) n) (comps t)))) (pin n s) b s1).
  { inversion HA; subst; auto.
    match goal with Y : NodesEv.ev _ _ _ (TPushAll _ []) _ _ _ |- _ => inversion Y; subst end. auto. }
  set (l0 := ordV (gr (pin n s)) n (combine (parents (gr s) n) (comps t))) in *.
  assert (PM : Permutation (combine (parents (gr s) n) (comps t)) l0) by apply ordV_perm.
  destruct (tpush_chains (gr s) rt gv gs x l0 (pin n s) b s1) as [_ E]; auto.
  - intros p v Hp. apply (Permutation_in _ (Permutation_sym PM)) in Hp. apply in_combine_l in Hp.
    destruct (HP p Hp) as (A & B & C). split; auto. split; auto.
    apply (reach_written w s (rt p) false); auto.
  - apply (Permutation_NoDup (l := map (fun pv => rt (fst pv)) (combine (parents (gr s) n) (comps t)))).
    + now apply Permutation_map.
    + rewrite <- map_map, map_fst_combine; auto.
  - now apply pin_facts.
  - eexists. split; [exact E|].
    eapply Permutation_trans; [apply Permutation_sym, Permutation_rev|].
    apply Permutation_map. now apply Permutation_sym.
Qed.

End Write.
