(** The properties of the store, from the invariants. *)
From Coq Require Import List Arith Bool Lia Permutation.
From Verif Require Import StoreModel StoreSpec StoreSteps StoreInv StoreJobs StoreTold StoreQuiet.
Import ListNotations.

Section Main.
Variables M A W : Type.
Notation prog := (prog M A W).
Notation event := (event M A W).
Notation job := (job M A W).
Notation st := (st M A W).
Notation res := (res M A W).
Variable reducer : M -> A -> option (M * option prog).
Variable eqb : M -> M -> bool.
Variables trans futures manual : bool.
Variable ext : nat -> list A.
Variable m0 : M.
Notation exec := (exec reducer eqb trans futures manual ext).
Notation steps := (steps reducer eqb trans futures).
Notation bsteps := (bsteps reducer eqb trans futures).
Notation reach := (reach reducer eqb trans futures manual ext m0).

(** ** What is known of reachable states *)
Lemma steps_trans' : forall a b c, steps a b -> steps b c -> steps a c.
Proof. intros a b c H H0. induction H0; eauto using ss_c, ss_j. Qed.
Lemma bsteps_trans' : forall a b c, bsteps a b -> bsteps b c -> bsteps a c.
Proof. intros a b c H H0. induction H0; eauto using bs_snoc. Qed.
Record good (w : W) (s : st) : Prop := {
  gd_steps : steps (init m0 w) s;
  gd_bsteps : bsteps (init m0 w) s;
  gd_busy : busy s = false;
  gd_jinv : JInv trans s;
  gd_inv : Inv M A W trans m0 false false true (all) (none) s }.
Lemma reach_good : forall s, reach s -> exists w, good w s.
Proof.
  intros s H. induction H as [w|fuel p s s' H IH HF|fuel s s' H IH HF].
  - exists w. split; try constructor.
    all: try (apply init_JInv); try (apply init_Inv); try reflexivity; eauto.
  - destruct IH as [w G]. exists w. destruct G as [G1 G2 G3 G4 G5].
    pose proof (a_prog _ _ _ _ _ _ _ _ _ _ (exec_All M A W reducer eqb trans futures manual ext fuel) p s G4) as HR.
    assert (X : fin M A W (G M A W trans m0 false false true all none s) (exec fuel (TProg p) s)).
    { apply (g_prog _ _ _ _ _ _ _ _ _ _ _ (mains M A W reducer eqb trans futures manual ext m0 fuel)); auto.
      right. split; auto. }
    assert (Y : Rok reducer eqb trans futures s s' /\ G M A W trans m0 false false true all none s s').
    { destruct HF as [(f & E)|E]; rewrite E in HR, X; split; auto. }
    destruct Y as [[R1 _ R3 _ R5] [_ Y2]]. split; eauto using steps_trans', bsteps_trans'.
    eapply steps_JInv; eauto.
  - destruct IH as [w G]. exists w. destruct G as [G1 G2 G3 G4 G5].
    pose proof (a_run _ _ _ _ _ _ _ _ _ _ (exec_All M A W reducer eqb trans futures manual ext fuel) s G4 G3) as HR.
    assert (X : fin M A W (G M A W trans m0 false false true all none s) (exec fuel TRun s)).
    { apply (g_run _ _ _ _ _ _ _ _ _ _ _ (mains M A W reducer eqb trans futures manual ext m0 fuel)); auto.
      split; auto. }
    assert (Y : Rok reducer eqb trans futures s s' /\ G M A W trans m0 false false true all none s s').
    { destruct HF as [(f & E)|E]; rewrite E in HR, X; split; auto. }
    destruct Y as [[R1 _ R3 _ R5] [_ Y2]]. split; eauto using steps_trans', bsteps_trans'.
    eapply steps_JInv; eauto.
Qed.

Lemma good_inv : forall (P : st -> Prop),
  (forall s s', cstep trans futures s s' -> JInv trans s -> P s -> P s') ->
  (forall s s', jstep reducer eqb trans s s' -> JInv trans s -> P s -> P s') ->
  (forall w, P (init m0 w)) -> forall s, reach s -> P s.
Proof.
  intros P H1 H2 H3 s H. destruct (reach_good s H) as [w G].
  eapply (steps_inv M A W reducer eqb trans futures P H1 H2); eauto using gd_steps.
  apply init_JInv.
Qed.
Lemma reach_I20 : forall s, reach s -> I20 M A W s.
Proof.
  apply good_inv.
  - intros s s' HS HJ HI. eapply cstep_I20; eauto.
  - intros s s' HS HJ HI. eapply jstep_I20; eauto.
  - intros w. split; simpl; auto. intros id p a [].
Qed.

(** ** C20 *)
Lemma order : forall s, reach s -> exists rest,
  reduced (log s) ++ rest = seq 0 (length (actions (log s))) /\ (q s = [] -> rest = []).
Proof.
  intros s H. destruct (reach_I20 s H) as [I1 I2 _]. exists (pend_red (q s)). rewrite I2.
  split; auto. now intros ->.
Qed.
Section Eqv.
Variable eqv : M -> M -> Prop.
Hypothesis eqv_refl : forall a, eqv a a.
Hypothesis eqv_sym : forall a b, eqv a b -> eqv b a.
Hypothesis eqv_trans : forall a b c, eqv a b -> eqv b c -> eqv a c.
Hypothesis eqb_sound : forall a b, eqb a b = true -> eqv a b.
Hypothesis respects : forall a b x, eqv a b -> eqv (reduce1 reducer a x) (reduce1 reducer b x).
Lemma reach_IEff : forall s, reach s -> IEff M A W reducer trans m0 eqv s.
Proof.
  apply good_inv.
  - intros s s' HS HJ HI. eapply cstep_IEff; eauto.
  - intros s s' HS HJ HI. eapply jstep_IEff; eauto.
  - intros w. split; [|split].
    + split; [split; simpl; auto; intros id p a []|]. apply eqv_refl.
    + split; simpl; auto. discriminate.
    + exact Logic.I.
Qed.
Lemma cur_fold : forall s, reach s ->
  eqv (cur s) (fold reducer m0 (firstn (length (reduced (log s))) (actions (log s)))).
Proof. intros s H. destruct (reach_IEff s H) as [[_ H1] _]. exact H1. Qed.
Lemma all_reduced : forall s, reach s -> q s = [] ->
  firstn (length (reduced (log s))) (actions (log s)) = actions (log s).
Proof.
  intros s H E. destruct (reach_I20 s H) as [I1 I2 _]. rewrite E, app_nil_r in I1.
  rewrite I1, seq_length, <- I2. apply firstn_all.
Qed.
Lemma get_fold : forall s, reach s -> trans = false -> q s = [] ->
  eqv (last s) (fold reducer m0 (actions (log s))).
Proof.
  intros s H HT HQ. rewrite <- (all_reduced s H HQ) at 1. destruct (reach_IEff s H) as [[_ H1] [[L1 L2] _]].
  destruct (nsd s) eqn:E.
  - destruct (L2 HT eq_refl) as (j & Hj & _). rewrite HQ in Hj. destruct Hj.
  - rewrite (L1 eq_refl). exact H1.
Qed.
Lemma effect_model : forall s, reach s -> trans = false -> forall l1 id m e l2, log s = l1 ++ EEff id m e :: l2 ->
  eqv m (fold reducer m0 (firstn (length (reduced l2)) (actions l2))).
Proof.
  intros s H HT l1 id m e l2 E. destruct (reach_IEff s H) as [_ [_ H1]]. rewrite E in H1.
  apply at_each_app in H1. now apply H1.
Qed.
Lemma commit_model : forall s, reach s ->
  eqv (last (send_down s)) (fold reducer m0 (firstn (length (reduced (log s))) (actions (log s)))).
Proof.
  intros s H. destruct (reach_IEff s H) as [[_ H1] [[L1 L2] _]]. unfold send_down.
  destruct (nsd s) eqn:E; simpl; auto. now rewrite (L1 eq_refl).
Qed.

(** What the reducer returned for dispatch [id]; [None]: it threw. *)
Definition came (l : list event) (id : nat) (r : option (M * option prog)) : Prop :=
  exists a m, nth_error (actions l) id = Some a /\ eqv m (fold reducer m0 (firstn id (actions l))) /\
              reducer m a = r.
Lemma actions_app : forall l1 l2 : list event, actions (l1 ++ l2) = actions l2 ++ actions l1.
Proof.
  induction l1 as [|e l1 IH]; intros l2; simpl; [now rewrite app_nil_r|].
  destruct e; auto. now rewrite IH, app_assoc.
Qed.
Lemma came_mono : forall l l' id r, came l id r -> came (l' ++ l) id r.
Proof.
  intros l l' id r (a & m & H1 & H2 & H3). exists a, m. rewrite actions_app.
  assert (L : id < length (actions l)) by (apply nth_error_Some; congruence).
  split; [now rewrite nth_error_app1|]. split; auto. rewrite firstn_app.
  replace (id - length (actions l)) with 0 by lia. now rewrite app_nil_r.
Qed.
Record IProg (s : st) : Prop := {
  p_q : forall id p e, In (JEffect id p e) (q s) -> exists m, came (log s) id (Some (m, Some e));
  p_begin : forall id e, In (EBegin id e) (log s) -> exists m, came (log s) id (Some (m, Some e));
  p_eff : forall id m e, In (EEff id m e) (log s) -> exists m, came (log s) id (Some (m, Some e));
  p_red : forall id m b, In (ERed id m b) (log s) -> exists e, came (log s) id (Some (m, e)) /\
            (b = true <-> e <> None);
  p_fail : forall id, In (ERedFail id) (log s) -> came (log s) id None }.
Lemma IProg_grow : forall (s s' : st) l, log s' = l ++ log s -> IProg s ->
  (forall id p e, In (JEffect id p e) (q s') -> In (JEffect id p e) (q s) \/ exists m, came (log s') id (Some (m, Some e))) ->
  (forall e, In e l -> match e with
     | EBegin id e => exists m, came (log s') id (Some (m, Some e))
     | EEff id _ e => exists m, came (log s') id (Some (m, Some e))
     | ERed id m b => exists e, came (log s') id (Some (m, e)) /\ (b = true <-> e <> None)
     | ERedFail id => came (log s') id None
     | _ => True end) -> IProg s'.
Proof.
  intros s s' l E [I1 I2 I3 I4 I5] HQ HL.
  assert (MONO : forall id r, came (log s) id r -> came (log s') id r) by (intros; rewrite E; now apply came_mono).
  split.
  - intros id p e Hi. destruct (HQ id p e Hi) as [X|X]; auto. destruct (I1 _ _ _ X) as [m Y]. eauto.
  - intros id e Hi. rewrite E in Hi. apply in_app_or in Hi as [Hi|Hi]; [exact (HL _ Hi)|].
    destruct (I2 _ _ Hi) as [m Y]. eauto.
  - intros id m e Hi. rewrite E in Hi. apply in_app_or in Hi as [Hi|Hi]; [exact (HL _ Hi)|].
    destruct (I3 _ _ _ Hi) as [m' Y]. eauto.
  - intros id m b Hi. rewrite E in Hi. apply in_app_or in Hi as [Hi|Hi]; [exact (HL _ Hi)|].
    destruct (I4 _ _ _ Hi) as (e & Y & Z). eauto.
  - intros id Hi. rewrite E in Hi. apply in_app_or in Hi as [Hi|Hi]; [exact (HL _ Hi)|auto].
Qed.
Lemma cstep_IProg : forall s s', cstep trans futures s s' -> JInv trans s -> IProg s -> IProg s'.
Proof.
  intros s s' H J I. destruct H.
  - apply (IProg_grow s _ []); auto. intros e [].
  - apply (IProg_grow s _ []); auto. intros e [].
  - apply (IProg_grow s _ [EMark n]); auto. now intros e [<-|[]].
  - unfold arrive1, new_dispatch. apply (IProg_grow s _ [EDisp (ndisp s) a (if futures then Some (length (heap s)) else None)]); auto.
    + destruct futures; reflexivity.
    + intros id p e Hi. left. destruct futures; apply in_app_or in Hi as [Hi|[Hi|[]]]; auto; discriminate.
    + now intros e [<-|[]].
  - apply (IProg_grow s _ []); auto.
    + intros id p0 e Hi. left. apply in_app_or in Hi as [Hi|[Hi|[]]]; auto; discriminate.
    + intros e [].
  - apply (IProg_grow s _ [EProm (length (heap s))]); auto. now intros e [<-|[]].
  - apply (IProg_grow s _ [EDone n]); auto. now intros e [<-|[]].
  - apply (IProg_grow s _ []); auto. intros e [].
  - destruct (cell_cb _ _ _ trans _ _ _ _ _ _ J H) as (c' & n' & -> & _).
    apply (IProg_grow s _ [EDone n]); auto.
    + intros id p0 e Hi. left. apply in_app_or in Hi as [Hi|[Hi|[]]]; auto; discriminate.
    + now intros e [<-|[]].
  - apply (IProg_grow s _ []); auto. intros e [].
  - apply (IProg_grow s _ [cev f c (length (heap s))]); auto. intros e [<-|[]]. now destruct c.
  - apply (IProg_grow s _ [cev f c (length (heap s))]); auto.
    + intros id p0 e Hi. left. apply in_app_or in Hi as [Hi|[Hi|[]]]; auto; discriminate.
    + intros e [<-|[]]. now destruct c.
  - apply (IProg_grow s _ [ECommit]); auto.
    + now rewrite send_down_log.
    + intros id p0 e. rewrite send_down_q. auto.
    + now intros e [<-|[]].
  - apply (IProg_grow s _ []); auto. intros e [].
  - apply (IProg_grow s _ [ESee i (last s)]); auto. now intros e [<-|[]].
  - apply (IProg_grow s _ [EFail]); auto. now intros e [<-|[]].
  - apply (IProg_grow s _ [EConn (length (slots s)) (last s)]); auto. now intros e [<-|[]].
  - apply (IProg_grow s _ [EDisc i]); auto. now intros e [<-|[]].
Qed.
Lemma jstep_IProg : forall s s', jstep reducer eqb trans s s' -> ICur M A W reducer m0 eqv s ->
  IProg s -> IProg s'.
Proof.
  intros s s' H [[I1 I2 I3] C] I.
  assert (R : forall id p a r, q s = JReduce id p a :: r -> came (log s) id (reducer (cur s) a)).
  { intros id p a r E. exists a, (cur s). split; [eapply I3; rewrite E; now left|]. split; auto.
    rewrite E in I1. simpl in I1.
    assert (id = length (reduced (log s))) as ->; [|apply C].
    assert (X : nth_error (seq 0 (ndisp s)) (length (reduced (log s))) = Some id).
    { rewrite <- I1, nth_error_app2, Nat.sub_diag; auto. }
    assert (L : length (reduced (log s)) < ndisp s).
    { rewrite <- (seq_length (ndisp s) 0). apply nth_error_Some. congruence. }
    rewrite (nth_error_nth' _ 0) in X by (now rewrite seq_length). rewrite seq_nth in X by auto. now injection X. }
  assert (POP : forall j r id p e, q s = j :: r -> In (JEffect id p e) r -> In (JEffect id p e) (q s))
    by (intros j r id p e -> X; now right).
  destruct H.
  - apply (IProg_grow s _ [ERedFail id]); auto.
    + intros; left; eauto.
    + intros e [<-|[]]. apply (came_mono _ [_]). rewrite <- H0. eauto.
  - apply (IProg_grow s _ [ERed id m true]); auto.
    + now rewrite push_down_log.
    + intros id' p' e'. rewrite push_down_q, push_down_log. simpl. intros Hi.
      apply in_app_or in Hi as [Hi|[Hi|[]]]; eauto. right. injection Hi as <- <- <-. exists m.
      apply (came_mono _ [_]). rewrite <- H0. eauto.
    + intros e' [<-|[]]. rewrite push_down_log. exists (Some e). split; [|split; congruence].
      apply (came_mono _ [_]). rewrite <- H0. eauto.
  - apply (IProg_grow s _ [ERed id m false]); auto.
    + now rewrite push_down_log.
    + intros id' p' e'. rewrite push_down_q. simpl. intros Hi.
      apply in_app_or in Hi as [Hi|[Hi|[]]]; eauto; discriminate.
    + intros e' [<-|[]]. rewrite push_down_log. exists None. split; [|split; congruence].
      apply (came_mono _ [_]). rewrite <- H0. eauto.
  - apply (IProg_grow s _ [ERed id m false]); auto.
    + now rewrite push_down_log.
    + intros id' p' e'. rewrite push_down_q. eauto.
    + intros e' [<-|[]]. rewrite push_down_log. exists None. split; [|split; congruence].
      apply (came_mono _ [_]). rewrite <- H0. eauto.
  - assert (X : exists m, came (log s) id (Some (m, Some e))) by (eapply (p_q _ I); rewrite H; now left).
    apply (IProg_grow s _ [EBegin id e]); auto.
    + destruct trans; now rewrite ?send_down_log.
    + intros id' p' e'. destruct trans; rewrite ?send_down_q; simpl; eauto.
    + intros e' [<-|[]]. destruct X as [m X]. exists m.
      destruct trans; rewrite ?send_down_log; now apply (came_mono _ [_]).
  - apply (IProg_grow s _ []); auto.
    + now rewrite send_down_log.
    + intros id' p' e'. rewrite send_down_q. eauto.
    + intros e' [].
  - apply (IProg_grow s _ []); auto; [intros; left; eauto|intros e' []].
  - apply (IProg_grow s _ [ECb n c]); auto; [intros; left; eauto|now intros e' [<-|[]]].
  - apply (IProg_grow s _ []); auto; [intros; left; eauto|intros e' []].
  - apply (IProg_grow s _ [ETold id]); auto. now intros e' [<-|[]].
  - apply (IProg_grow s _ [EEff id (last s) e]); auto. intros e' [<-|[]].
    destruct (p_begin _ I _ _ H) as [m X]. exists m. now apply (came_mono _ [_]).
  - apply (IProg_grow s _ [ELost id]); auto. now intros e' [<-|[]].
  - apply (IProg_grow s _ [EEffEnd id f]); auto. now intros e' [<-|[]].
  - apply (IProg_grow s _ [ECbEnd n f]); auto. now intros e' [<-|[]].
  - apply (IProg_grow s _ []); auto. intros e' [].
Qed.
Lemma reach_IProg : forall s, reach s -> IProg s.
Proof.
  intros s H. enough (X : ICur M A W reducer m0 eqv s /\ IProg s) by apply X.
  revert s H. apply good_inv.
  - intros s s' H J (I1 & I2). split; [eapply cstep_ICur; eauto|eapply cstep_IProg; eauto].
  - intros s s' H J (I1 & I2). split; [eapply jstep_ICur; eauto|eapply jstep_IProg; eauto].
  - intros w. split; [|split; simpl; contradiction].
    split; [split; simpl; auto; intros id p a []|]. apply eqv_refl.
Qed.
End Eqv.

Lemma manual_EB : manual = true -> forall s, reach s -> EB M A W s.
Proof.
  intros HM s H. induction H as [w|fuel p s s' H IH HF|fuel s s' H IH HF].
  - split; auto.
  - pose proof (exec_EB M A W reducer eqb trans futures manual ext HM fuel (TProg p) s Logic.I IH) as X.
    destruct HF as [(f & E)|E]; rewrite E in X; auto.
  - destruct fuel as [|fuel]; [destruct HF as [(f & E)|E]; discriminate|].
    cbn [StoreModel.exec] in HF.
    destruct (exec fuel TDrain (set_busy true s)) as [f s1|s1| | |] eqn:ED; destruct HF as [(f' & E)|E];
      try discriminate; injection E; intros; subst; (split; [reflexivity|]); simpl.
    + right. eapply drain_empty; eauto.
    + left. eapply drain_thrown; eauto.
Qed.
Lemma manual_drained : manual = true -> forall s, reach s -> no_failure (log s) -> q s = [].
Proof. intros HM s H NF. destruct (manual_EB HM s H) as [_ [H1|H1]]; auto. now elim NF. Qed.
Lemma step_drained : forall s fuel f s', exec fuel TRun s = Done f s' -> q s' = [].
Proof. intros. eapply run_empty; eauto. Qed.

(** ** C21 *)
Lemma reach_bal : forall s, reach s -> begun (log s) = effects_over (log s).
Proof.
  intros s H. destruct (reach_good s H) as [w G].
  eapply (bsteps_bal M A W reducer eqb trans futures (init m0 w) s); eauto using gd_bsteps.
  - apply init_JInv.
  - reflexivity.
Qed.
Lemma effects_once : forall s, reach s -> exists rest,
  with_effect (log s) = effects_over (log s) ++ rest /\ (q s = [] -> rest = []).
Proof.
  intros s H. exists (pend_eff (q s)). rewrite <- (reach_bal s H). split; [|now intros ->].
  revert s H. apply good_inv.
  - intros s s' HS HJ HI. eapply cstep_I21; eauto.
  - intros s s' HS HJ HI. eapply jstep_I21; eauto.
  - reflexivity.
Qed.
Lemma with_effect_sub : forall l : list event, subseq (with_effect l) (reduced l).
Proof.
  induction l as [|e l IH]; [constructor|]. destruct e; simpl; auto.
  - destruct e; [now apply subseq_snoc|now apply subseq_app_r].
  - now apply subseq_app_r.
Qed.
Lemma cstep_lost : forall s s' : st, cstep trans futures s s' -> effects_lost (log s') = effects_lost (log s).
Proof.
  intros s s' H. destruct H; simpl; rewrite ?send_down_log; simpl; auto.
  - unfold arrive1, new_dispatch. destruct futures; auto.
  - destruct c; auto.
  - destruct c; auto.
Qed.
Lemma csteps_lost : forall s s' : st, csteps trans futures s s' -> effects_lost (log s') = effects_lost (log s).
Proof. induction 1 as [s|s s1 s2 H E1 H0]; auto. apply cstep_lost in H0. congruence. Qed.
Lemma jobrun_lost : forall s j r s', jobrun reducer eqb trans futures s r j false s' ->
  effects_lost (log s') = effects_lost (log s).
Proof.
  intros s j r s' H. remember false as b eqn:Eb.
  destruct H; try discriminate Eb; simpl; rewrite ?push_down_log; simpl; auto;
    repeat match goal with H : csteps _ _ _ _ |- _ => apply csteps_lost in H end;
    rewrite ?push_down_log, ?send_down_log, ?starts_log in *; simpl in *; congruence.
Qed.
Lemma lost_failure : forall s, reach s -> effects_lost (log s) = [] \/ In EFail (log s).
Proof.
  intros s H. destruct (reach_good s H) as [w G]. pose proof (gd_bsteps _ _ G) as HB.
  apply (bsteps_inv M A W reducer eqb trans futures
    (fun s => effects_lost (log s) = [] \/ In EFail (log s))) with (s := init m0 w); auto.
  - intros a b HS _ [IH|IH]; [left; apply cstep_lost in HS; congruence|right].
    destruct (cstep_log _ _ _ _ _ _ _ HS) as [l E]. rewrite E. apply in_or_app. auto.
  - intros a j r b HQ HJ HR [IH|IH]; [left; apply jobrun_lost in HR; congruence|right].
    assert (X : steps a b) by (eapply (bstep_steps M A W reducer eqb trans futures a b); auto; eapply b_job; eauto).
    destruct (steps_log _ _ _ _ _ _ _ _ _ X) as [l E]. rewrite E. apply in_or_app. auto.
  - intros. right. now left.
  - apply init_JInv.
Qed.
Lemma over_run : forall l : list event, effects_lost l = [] -> effects_over l = effects_run l.
Proof.
  induction l as [|e l IH]; auto. destruct e; simpl; auto.
  - intros H. now rewrite IH.
  - intros H. now destruct (effects_lost l).
Qed.
Lemma effects_ok : forall s, reach s -> no_failure (log s) -> effects_over (log s) = effects_run (log s).
Proof. intros s H NF. apply over_run. destruct (lost_failure s H); auto. now elim NF. Qed.
Lemma reach_before : forall s, reach s -> at_each (before trans) (log s).
Proof.
  apply good_inv.
  - intros s s' HS HJ HI. eapply cstep_before; eauto.
  - intros s s' HS HJ HI. eapply jstep_before; eauto.
  - intros w. exact Logic.I.
Qed.
Lemma red_in : forall (l : list event) id m e, In (ERed id m e) l -> In id (reduced l).
Proof.
  induction l as [|x l IH]; intros id m e H; [destruct H|].
  destruct H as [->|H]; simpl; [apply in_or_app; right; now left|].
  destruct x; eauto; apply in_or_app; left; eauto.
Qed.
(** Any suffix of the log is the log of some earlier state as far as the order of
    reductions is concerned. *)
Fixpoint red_ordered (l : list event) : Prop :=
  match l with
  | [] => True
  | ERed id _ _ :: r | ERedFail id :: r => id = length (reduced r) /\ red_ordered r
  | _ :: r => red_ordered r
  end.
Lemma ordered_seq : forall l n k, reduced l ++ k = seq 0 n -> red_ordered l.
Proof.
  assert (X : forall (l : list nat) x k n, (l ++ [x]) ++ k = seq 0 n -> x = length l).
  { intros l x k n H. rewrite <- app_assoc in H. simpl in H.
    assert (E : nth_error (seq 0 n) (length l) = Some x)
      by (rewrite <- H, nth_error_app2, Nat.sub_diag; auto).
    assert (L : length l < n) by (rewrite <- (seq_length n 0), <- H, app_length; simpl; lia).
    rewrite (nth_error_nth' _ 0) in E by (rewrite seq_length; auto).
    rewrite seq_nth in E by auto. simpl in E. congruence. }
  induction l as [|e l IH]; intros n k H; [exact Logic.I|].
  destruct e; simpl in *; eauto; (split; [eapply X; eauto|]); rewrite <- app_assoc in H; eauto.
Qed.
Lemma ordered_app : forall l1 l2, red_ordered (l1 ++ l2) -> red_ordered l2.
Proof. induction l1 as [|e l1 IH]; intros l2 H; auto. apply IH. destruct e; simpl in H; tauto. Qed.
Lemma ordered_lt : forall l id, red_ordered l -> In id (reduced l) -> id < length (reduced l).
Proof.
  induction l as [|e l IH]; intros id H Hi; [destruct Hi|].
  destruct e; simpl in *; auto; destruct H as [H H0]; rewrite app_length; simpl;
    apply in_app_or in Hi; destruct Hi as [Hi|[Hi|[]]]; try (specialize (IH _ H0 Hi)); lia.
Qed.
Lemma effect_own : forall s, reach s -> forall l1 id m e l2, log s = l1 ++ EEff id m e :: l2 ->
  id < length (reduced l2).
Proof.
  intros s H l1 id m e l2 E. apply ordered_lt.
  - apply (ordered_app (l1 ++ [EEff id m e])). rewrite <- app_assoc. simpl. rewrite <- E.
    destruct (reach_I20 s H) as [I1 _ _]. eapply ordered_seq; eauto.
  - pose proof (reach_before s H) as HB. rewrite E in HB. pose proof (at_each_app _ _ _ _ _ _ _ HB) as X.
    simpl in X.
    assert (HB2 : at_each (before trans) l2).
    { clear - HB. induction l1 as [|x l1 IH]; simpl in HB; [apply HB|apply IH; apply HB]. }
    destruct (at_each_in _ _ _ _ _ _ HB2 X) as (l3 & l4 & -> & [_ [m' Y]]).
    apply red_in with m' true. apply in_or_app. right. now right.
Qed.
Lemma effect_told : forall s, reach s -> trans = false -> forall l1 id m e l2, log s = l1 ++ EEff id m e :: l2 ->
  no_failure l2 -> no_commit l2 -> forall i m', knows i l2 = Some m' -> m' = m.
Proof.
  intros s H HT l1 id m e l2 E NF NC. destruct (reach_good s H) as [w G].
  pose proof (v_told _ _ _ _ _ _ _ _ _ _ _ (gd_inv _ _ G)) as X. rewrite E in X.
  apply at_each_app in X. now apply X.
Qed.

(** ** C22 *)
Lemma seen_sub : forall s, reach s -> no_commit (log s) -> forall i, subseq (seen i (log s)) (models (log s)).
Proof.
  intros s H NC i. destruct (reach_good s H) as [w G].
  destruct (v_pos _ _ _ _ _ _ _ _ _ _ _ (gd_inv _ _ G)) as (a & b & A1 & _ & _ & _ & A5).
  destruct (A5 i) as [_ B]. destruct (B NC) as [B1 _].
  replace (models (log s)) with (tl (m0 :: models (log s))) by reflexivity. rewrite A1.
  change (last s :: b) with ([last s] ++ b). rewrite app_assoc, (tl_app _ (a ++ [last s])) by (destruct a; discriminate).
  now apply subseq_app_r.
Qed.
Lemma seen_sub_rep : forall s, reach s -> forall i, subseq_rep (seen i (log s)) (models (log s)).
Proof.
  intros s H i. destruct (reach_good s H) as [w G].
  destruct (v_pos _ _ _ _ _ _ _ _ _ _ _ (gd_inv _ _ G)) as (a & b & A1 & _ & _ & _ & A5).
  destruct (A5 i) as [B1 _].
  replace (models (log s)) with (tl (m0 :: models (log s))) by reflexivity. rewrite A1.
  change (last s :: b) with ([last s] ++ b). rewrite app_assoc, (tl_app _ (a ++ [last s])) by (destruct a; discriminate).
  now apply subseq_rep_app_r.
Qed.
Lemma last_known : forall s, reach s -> no_failure (log s) -> forall i,
  (forall m, knows i (log s) = Some m -> m = last s) /\
  (knows i (log s) = None <-> ~ exists w, nth_error (slots s) i = Some (Some w)).
Proof.
  intros s H NF i. destruct (reach_good s H) as [w G]. destruct (gd_inv _ _ G) as [_ V2 V3 _ _ _].
  split; [|split].
  - intros m Hk. destruct (V3 _ _ Hk) as [w' Hw]. rewrite (V2 NF _ _ Hw) in Hk; [congruence|].
    left. exact Logic.I.
  - intros E [w' Hw]. rewrite (V2 NF _ _ Hw) in E; [discriminate|]. left. exact Logic.I.
  - intros N. destruct (knows i (log s)) as [m|] eqn:E; auto. elim N. eauto.
Qed.

(** ** C23, C26 *)
Lemma reach_alloc : forall s, reach s -> IAlloc M A W s.
Proof.
  apply good_inv.
  - intros s s' HS HJ HI. eapply cstep_IAlloc; eauto.
  - intros s s' HS HJ HI. eapply jstep_IAlloc; eauto.
  - intros w. reflexivity.
Qed.
Lemma reach_nodup : forall s, reach s -> NoDup (allocs (log s)).
Proof. intros s H. rewrite (reach_alloc s H). apply seq_NoDup. Qed.
Lemma one_maker : forall s, reach s -> forall n e1 e2, In e1 (log s) -> In e2 (log s) ->
  makes n e1 -> makes n e2 -> e1 = e2.
Proof. intros s H n. exact (makes_unique _ _ _ ext n (log s) (reach_nodup s H)). Qed.
Lemma in_suffix : forall X (x : X) l1 e l2, In x l2 -> In x (l1 ++ e :: l2).
Proof. intros. apply in_or_app. right. now right. Qed.
Lemma before_suffix : forall s l1 e l2, reach s -> log s = l1 ++ e :: l2 ->
  before trans e l2 /\ at_each (before trans) l2.
Proof.
  intros s l1 e l2 H E. pose proof (reach_before s H) as HB. rewrite E in HB. split.
  - now apply at_each_app in HB.
  - clear - HB. induction l1 as [|x l1 IH]; simpl in HB; [apply HB|apply IH; apply HB].
Qed.
Lemma done_settled : forall s, reach s -> forall id a n l1 l2, In (EDisp id a (Some n)) (log s) ->
  log s = l1 ++ EDone n :: l2 -> In (EDisp id a (Some n)) l2 /\ settled trans id l2.
Proof.
  intros s H id a n l1 l2 HD E. destruct (before_suffix _ _ _ _ H E) as [HJ HB]. simpl in HJ.
  assert (U : forall e, In e l2 -> makes n e -> e = EDisp id a (Some n)).
  { intros e Hi He. eapply (one_maker s H n); eauto.
    - rewrite E. now apply in_suffix.
    - reflexivity. }
  destruct HJ as [HJ|[HJ|[HJ|HJ]]].
  - apply U in HJ; [discriminate|reflexivity].
  - destruct HJ as (f & m & HJ). apply U in HJ; [discriminate|reflexivity].
  - destruct HJ as (id' & a' & m & H1 & H2 & H3). pose proof (U _ H1 eq_refl) as X.
    injection X as -> ->. split; auto. left. exists m. auto.
  - destruct HJ as (f & [(id' & a' & H1 & H2)|H1] & H3).
    + pose proof (U _ H1 eq_refl) as X. injection X as -> ->. split; auto. right.
      destruct (at_each_in _ _ _ _ _ _ HB H2) as (l3 & l4 & -> & (m' & e' & X1)).
      assert (HB4 : at_each (before trans) l4)
        by (clear - HB; induction l3 as [|x l3 IH]; simpl in HB; [apply HB|apply IH; apply HB]).
      destruct (at_each_in _ _ _ _ _ _ HB4 X1) as (l5 & l6 & -> & X2). simpl in X2.
      assert (HB6 : at_each (before trans) l6)
        by (clear - HB4; induction l5 as [|x l5 IH]; simpl in HB4; [apply HB4|apply IH; apply HB4]).
      destruct (at_each_in _ _ _ _ _ _ HB6 X2) as (l7 & l8 & -> & (_ & m & X3)).
      exists m, m', e', f. repeat split; auto.
      * apply in_suffix, in_suffix, in_suffix. exact X3.
      * apply in_suffix. apply in_or_app. right. now left.
    + destruct (at_each_in _ _ _ _ _ _ HB H1) as (l3 & l4 & -> & (f0 & c & _ & X1 & _)).
      assert (X : EThen f0 n c = EDisp id a (Some n)); [|discriminate].
      apply U; [|reflexivity]. now apply in_suffix.
Qed.
Lemma cb_after : forall s, reach s -> forall n c l1 l2, log s = l1 ++ ECb n c :: l2 ->
  exists f, In (EThen f n c) l2 /\ In (EDone f) l2.
Proof.
  intros s H n c l1 l2 E. destruct (before_suffix _ _ _ _ H E) as [(f & H1 & H2) _]. eauto.
Qed.
Lemma cb_of : forall s, reach s -> forall f k c c' l1 l2, In (EThen f k c) (log s) -> log s = l1 ++ ECb k c' :: l2 ->
  c' = c /\ In (EThen f k c) l2 /\ In (EDone f) l2.
Proof.
  intros s H f k c c' l1 l2 HT E. destruct (cb_after s H _ _ _ _ E) as (f' & H1 & H2).
  assert (X : EThen f' k c' = EThen f k c).
  { eapply (one_maker s H k); eauto; try reflexivity. rewrite E. now apply in_suffix. }
  injection X as -> ->. auto.
Qed.
Lemma cb_settled : forall s, reach s -> forall id a n k c c' l1 l2, In (EDisp id a (Some n)) (log s) ->
  In (EThen n k c) (log s) -> log s = l1 ++ ECb k c' :: l2 -> settled trans id l2.
Proof.
  intros s H id a n k c c' l1 l2 HD HT E. destruct (cb_of s H _ _ _ _ _ _ HT E) as (_ & _ & X).
  destruct (in_split _ _ X) as (l3 & l4 & ->).
  rewrite app_comm_cons, app_assoc in E.
  destruct (done_settled s H _ _ _ _ _ HD E) as [_ Y].
  assert (MON : forall e : event, In e l4 -> In e (l3 ++ EDone n :: l4)) by (intros; now apply in_suffix).
  destruct Y as [(m & Y1 & Y2)|(m & m' & e' & f & Y1 & Y2 & Y3 & Y4)]; [left|right].
  - exists m. auto.
  - exists m, m', e', f. repeat split; auto. destruct f; simpl in *; auto.
Qed.
Lemma reach_ICb : forall s, reach s -> ICb M A W s.
Proof.
  apply good_inv.
  - intros s s' HS HJ HI. eapply cstep_ICb; eauto.
  - intros s s' HS HJ HI. eapply jstep_ICb; eauto.
  - intros w. constructor.
Qed.
Lemma cb_once : forall s, reach s -> NoDup (callbacks_run (log s)).
Proof.
  intros s H. pose proof (attached_nodup _ _ _ ext _ (reach_nodup s H)) as ND.
  apply (Permutation_NoDup (reach_ICb s H)) in ND. now apply NoDup_app_l in ND.
Qed.
Lemma reach_IOnce : forall s, reach s -> IOnce M A W s.
Proof.
  apply good_inv.
  - intros s s' HS HJ HI. eapply cstep_IOnce; eauto.
  - intros s s' HS HJ HI. eapply jstep_IOnce; eauto.
  - intros w. split; [|exact Logic.I]. intros _ n [].
Qed.
Lemma done_once : forall s, reach s -> no_failure (log s) -> forall n l1 l2, log s = l1 ++ EDone n :: l2 ->
  ~ In (EDone n) l1 /\ ~ In (EDone n) l2.
Proof.
  intros s H NF n l1 l2 E. destruct (reach_IOnce s H) as [_ HO]. rewrite E in *. split.
  - intros Hi. destruct (in_split _ _ Hi) as (l3 & l4 & ->). rewrite <- app_assoc in HO. simpl in HO.
    apply at_each_app in HO. simpl in HO. apply HO.
    + intros HF. apply NF. rewrite <- app_assoc. simpl. now apply in_suffix.
    + apply in_or_app. right. now left.
  - apply at_each_app in HO. apply HO. intros HF. apply NF. now apply in_suffix.
Qed.
(** A stored callback: its future is not completed. *)
Lemma stored_undone : forall s, reach s -> no_failure (log s) -> forall f c j,
  nth_error (heap s) f = Some c -> cb c = Some j ->
  ~ In (EDone f) (log s) /\ exists c' n', j = JCb f c' n' /\ cbok (log s) f c' n'.
Proof.
  intros s H NF f c j Hc Hj. destruct (reach_good s H) as [w G].
  pose proof (ji_heap _ _ _ _ _ (gd_jinv _ _ G) f c Hc) as [_ C2 C3 C4].
  split; [|apply C4; auto]. intros HD. destruct (reach_IOnce s H) as [HI _].
  destruct (HI NF f HD) as (c1 & E1 & E2). assert (c1 = c) by congruence. subst c1.
  destruct E2 as [E2|E2]; [destruct (C2 E2)|destruct (C3 E2)]; congruence.
Qed.
Lemma disp_cell : forall s, reach s -> forall n e, In e (log s) -> makes n e -> exists c, nth_error (heap s) n = Some c.
Proof.
  intros s H n e Hi Hm. pose proof (makes_in _ _ _ ext _ _ _ Hi Hm) as X. rewrite (reach_alloc s H) in X.
  apply in_seq in X. destruct (nth_error (heap s) n) as [c|] eqn:E; eauto.
  apply nth_error_None in E. lia.
Qed.
Lemma owned : forall s, reach s -> no_failure (log s) -> q s = [] -> forall n e, In e (log s) -> makes n e ->
  (forall m, e <> EProm m) ->
  In (EDone n) (log s) \/ exists f c j, nth_error (heap s) f = Some c /\ cb c = Some j /\ owns j n.
Proof.
  intros s H NF HQ n e Hi Hm He. destruct (reach_good s H) as [w G].
  destruct (disp_cell s H n e Hi Hm) as [c Hc].
  assert (X : OwX M A W StoreJobs.none s).
  { eapply (bsteps_Own M A W reducer eqb trans futures (init m0 w) s); eauto using gd_bsteps.
    - apply init_JInv.
    - intros _ [|k] c' Hk; discriminate. }
  destruct (X n c Hc) as [K|[[]|[O|[(j & Hj & _)|O]]]]; auto.
  - exfalso. destruct (ji_heap _ _ _ _ _ (gd_jinv _ _ G) n c Hc) as [C1 _ _ _].
    specialize (C1 K). apply (He n). eapply (one_maker s H n); eauto. reflexivity.
  - rewrite HQ in Hj. destruct Hj.
Qed.
Lemma disp_done : forall s, reach s -> no_failure (log s) -> q s = [] -> forall id a n,
  In (EDisp id a (Some n)) (log s) ->
  In (EDone n) (log s) \/ exists f, In (EEffEnd id (Some f)) (log s) /\ ~ In (EDone f) (log s).
Proof.
  intros s H NF HQ id a n HD.
  destruct (owned s H NF HQ n _ HD eq_refl ltac:(discriminate)) as [|(f & c & j & Hc & Hj & Ho)]; auto.
  right. exists f. destruct (stored_undone s H NF f c j Hc Hj) as [HN (c' & n' & -> & HC)].
  split; auto. destruct HC as [HC1 HC2].
  assert (U : forall e, In e (log s) -> makes n e -> e = EDisp id a (Some n))
    by (intros e H1 H2; eapply (one_maker s H n); eauto; reflexivity).
  destruct c' as [c'|m]; simpl in *.
  - subst n'. apply U in HC1; [discriminate|reflexivity].
  - destruct Ho as [->| ->]; [|apply U in HC1; [discriminate|reflexivity]].
    destruct HC2 as [(id' & a' & X1 & X2)|X1].
    + apply U in X1; [|reflexivity]. injection X1 as -> ->. exact X2.
    + pose proof (reach_before s H) as HB.
      destruct (at_each_in _ _ _ _ _ _ HB X1) as (l3 & l4 & E & (f0 & c1 & _ & Y1 & _)).
      assert (X : EThen f0 n c1 = EDisp id a (Some n)); [|discriminate].
      apply U; [|reflexivity]. rewrite E. now apply in_suffix.
Qed.
Lemma cb_runs : forall s, reach s -> no_failure (log s) -> q s = [] -> forall f k c,
  In (EThen f k c) (log s) -> In (EDone f) (log s) -> In k (callbacks_run (log s)).
Proof.
  intros s H NF HQ f k c HT HD. pose proof (reach_ICb s H) as P. unfold ICb in P. rewrite HQ in P.
  pose proof (attached_in _ _ _ ext _ _ _ _ HT) as X. apply (Permutation_in _ P) in X.
  apply in_app_or in X. destruct X as [X|X]; auto. simpl in X. exfalso.
  apply in_flat_map in X. destruct X as (x & X1 & X2). apply In_nth_error in X1. destruct X1 as [g Hg].
  unfold ccb in X2. destruct (cb x) as [j|] eqn:EC; [|destruct X2].
  destruct (stored_undone s H NF g x j Hg EC) as [HN (c' & n' & -> & [HC _])].
  destruct c' as [c'|m]; simpl in X2; [|destruct X2]. destruct X2 as [->|[]]. simpl in HC.
  assert (Y : EThen g k c' = EThen f k c) by (eapply (one_maker s H k); eauto; reflexivity).
  injection Y as -> ->. auto.
Qed.
Lemma then_done : forall s, reach s -> no_failure (log s) -> q s = [] -> forall f k c,
  In (EThen f k c) (log s) ->
  In (EDone k) (log s) \/ ~ In (EDone f) (log s) \/
  exists g, In (ECbEnd k (Some g)) (log s) /\ ~ In (EDone g) (log s).
Proof.
  intros s H NF HQ f k c HT.
  destruct (owned s H NF HQ k _ HT eq_refl ltac:(discriminate)) as [|(g & x & j & Hc & Hj & Ho)]; auto.
  right. destruct (stored_undone s H NF g x j Hc Hj) as [HN (c' & n' & -> & HC)].
  destruct HC as [HC1 HC2].
  assert (U : forall e, In e (log s) -> makes k e -> e = EThen f k c)
    by (intros e H1 H2; eapply (one_maker s H k); eauto; reflexivity).
  destruct c' as [c'|m]; simpl in *.
  - subst n'. apply U in HC1; [|reflexivity]. injection HC1 as -> ->. auto.
  - destruct Ho as [->| ->]; [|apply U in HC1; [discriminate|reflexivity]]. right. exists g. split; auto.
    destruct HC2 as [(id' & a' & X1 & X2)|X1]; auto.
    apply U in X1; [discriminate|reflexivity].
Qed.
(** The future of a chained callback completes after everything it stands for. *)
Lemma then_after : forall s, reach s -> forall f k c l1 l2, In (EThen f k c) (log s) ->
  log s = l1 ++ EDone k :: l2 ->
  In (EDone f) l2 /\ In (ECb k c) l2 /\ exists g, In (ECbEnd k g) l2 /\ completed l2 g /\ (forall h, c = PRet h -> g = h).
Proof.
  intros s H f k c l1 l2 HT E. destruct (before_suffix _ _ _ _ H E) as [HJ HB]. simpl in HJ.
  assert (U : forall e, In e l2 -> makes k e -> e = EThen f k c).
  { intros e Hi He. eapply (one_maker s H k); eauto.
    - rewrite E. now apply in_suffix.
    - reflexivity. }
  destruct HJ as [HJ|[HJ|[HJ|HJ]]].
  - apply U in HJ; [discriminate|reflexivity].
  - destruct HJ as (g & m & HJ). apply U in HJ; [discriminate|reflexivity].
  - destruct HJ as (id' & a' & m & H1 & _). apply U in H1; [discriminate|reflexivity].
  - destruct HJ as (g & [(id' & a' & H1 & H2)|H1] & H3); [apply U in H1; [discriminate|reflexivity]|].
    destruct (at_each_in _ _ _ _ _ _ HB H1) as (l3 & l4 & -> & (f0 & c0 & X0 & X1 & X2 & X3)).
    assert (X : EThen f0 k c0 = EThen f k c) by (apply U; [now apply in_suffix|reflexivity]).
    injection X as -> ->. split; [now apply in_suffix|]. split; [now apply in_suffix|].
    exists g. auto.
Qed.
Lemma linked_app : forall (l : list event) ks f k, linked l f (ks ++ [k]) ->
  linked l f ks /\ exists c, In (EThen (List.last ks f) k c) l.
Proof.
  intros l ks. induction ks as [|x ks IH]; intros f k [H H0]; [auto|].
  destruct (IH x k H0) as [H1 [c H2]]. split; [split; auto|]. exists c.
  replace (List.last (x :: ks) f) with (List.last ks x); auto. clear.
  induction ks as [|y ks _] using rev_ind; auto. now rewrite app_comm_cons, !last_last.
Qed.
Lemma callbacks_run_app : forall l1 l2 : list event, callbacks_run (l1 ++ l2) = callbacks_run l2 ++ callbacks_run l1.
Proof.
  induction l1 as [|e l1 IH]; intros l2; simpl; [now rewrite app_nil_r|].
  destruct e; auto. now rewrite IH, app_assoc.
Qed.
Lemma chain_order : forall s, reach s -> forall ks f k c l1 l2, linked (log s) f (ks ++ [k]) ->
  log s = l1 ++ ECb k c :: l2 -> subseq ks (callbacks_run l2) /\ In (EDone f) l2.
Proof.
  intros s H ks. induction ks as [|k' ks IH] using rev_ind; intros f k c0 l1 l2 HL E.
  - destruct HL as [[c HT] _]. destruct (cb_of s H _ _ _ _ _ _ HT E) as (_ & _ & X). split; auto. constructor.
  - apply linked_app in HL. destruct HL as [HL [c HT]]. rewrite last_last in HT.
    destruct (cb_of s H _ _ _ _ _ _ HT E) as (_ & _ & X). destruct (in_split _ _ X) as (l3 & l4 & ->).
    destruct (linked_app _ _ _ _ HL) as [_ [c' HT']].
    pose proof E as E'. rewrite app_comm_cons, app_assoc in E'.
    destruct (then_after s H _ _ _ _ _ HT' E') as (_ & Y & _). destruct (in_split _ _ Y) as (l5 & l6 & ->).
    assert (E2 : log s = (l1 ++ ECb k c0 :: l3 ++ EDone k' :: l5) ++ ECb k' c' :: l6)
      by (rewrite E; rewrite <- app_assoc; simpl; rewrite <- app_assoc; reflexivity).
    destruct (IH _ _ _ _ _ HL E2) as [Z1 Z2]. split.
    + rewrite callbacks_run_app. apply subseq_app_r. simpl. rewrite callbacks_run_app. simpl.
      apply subseq_app_r. now apply subseq_snoc.
    + apply in_suffix, in_suffix. exact Z2.
Qed.

(** ** C24 *)
Lemma reach_qok : trans = true -> forall s, reach s -> qok M A W s.
Proof.
  intros HT s H. destruct (reach_good s H) as [w G]. destruct (gd_jinv _ _ G) as [J1 J2]. split.
  - intros j Hj. rewrite Forall_forall in J1. specialize (J1 j Hj).
    destruct j; simpl in *; auto. destruct J1 as (_ & _ & J1). congruence.
  - intros c j Hc Hj. apply In_nth_error in Hc. destruct Hc as [n Hn].
    destruct (co_cb _ _ _ _ _ _ (J2 n c Hn) j Hj) as (c' & n' & -> & _). exact Logic.I.
Qed.
Lemma quiet : trans = true -> forall s, reach s -> forall fuel t s',
  (exists p, t = TProg p) \/ t = TRun -> finished (exec fuel t s) s' ->
  commits (log s') = commits (log s) -> last s' = last s /\ forall i, seen i (log s') = seen i (log s).
Proof.
  intros HT s H fuel t s' Ht HF. 
  assert (X : fin M A W (Q M A W s) (exec fuel t s)).
  { apply (exec_Q M A W reducer eqb trans futures manual ext HT fuel); [|now apply reach_qok].
    destruct Ht as [[p ->]| ->]; exact Logic.I. }
  destruct HF as [(f & E)|E]; rewrite E in X; apply X.
Qed.
Lemma commits_0 : forall l : list event, no_commit l -> commits l = 0.
Proof.
  induction l as [|e l IH]; intros H; auto. assert (H' : no_commit l) by (intros H1; apply H; now right).
  destruct e; simpl; auto. elim H. now left.
Qed.
Lemma commits_0_inv : forall l : list event, commits l = 0 -> no_commit l.
Proof.
  induction l as [|e l IH]; intros H H0; [destruct H0|].
  destruct H0 as [->|H0]; [discriminate|]. destruct e; simpl in H; try discriminate; now apply IH in H.
Qed.
Lemma finished_grow : forall fuel t s s', finished (exec fuel t s) s' -> exists l, log s' = l ++ log s.
Proof.
  intros fuel t s s' HF. pose proof (exec_grow M A W reducer eqb trans futures manual ext fuel t s) as X.
  destruct HF as [(f & E)|E]; rewrite E in X; apply X.
Qed.
Lemma quiet_init : trans = true -> forall s, reach s -> no_commit (log s) -> last s = m0 /\ forall i, seen i (log s) = [].
Proof.
  intros HT s H NC.
  assert (X : forall fuel t s s', finished (exec fuel t s) s' -> no_commit (log s') ->
    commits (log s') = commits (log s) /\ no_commit (log s)).
  { intros fuel t a b HF NB. destruct (finished_grow _ _ _ _ HF) as [l E].
    assert (NA : no_commit (log a)) by (intros Hi; apply NB; rewrite E; apply in_or_app; auto).
    split; auto. now rewrite !commits_0. }
  induction H as [w|fuel p s s' H IH HF|fuel s s' H IH HF].
  - split; auto.
  - destruct (X _ _ _ _ HF NC) as [X1 X2]. destruct (IH X2) as [Y1 Y2].
    destruct (quiet HT s H fuel (TProg p) s' ltac:(eauto) HF X1) as [Z1 Z2].
    split; [congruence|]. intros i. now rewrite Z2.
  - destruct (X _ _ _ _ HF NC) as [X1 X2]. destruct (IH X2) as [Y1 Y2].
    destruct (quiet HT s H fuel TRun s' ltac:(eauto) HF X1) as [Z1 Z2].
    split; [congruence|]. intros i. now rewrite Z2.
Qed.
Lemma quiet_effects : trans = true -> forall s, reach s -> forall i m, In (ESee i m) (log s) -> In ECommit (log s).
Proof.
  intros HT s H i m Hi. destruct (commits (log s)) as [|c] eqn:E.
  - apply commits_0_inv in E. destruct (quiet_init HT s H E) as [_ X]. specialize (X i). exfalso.
    revert Hi X. generalize (log s). clear. induction l as [|e l IH]; intros Hi X; [destruct Hi|].
    destruct Hi as [->|Hi].
    + simpl in X. rewrite Nat.eqb_refl in X. now destruct (seen i l).
    + apply IH; auto. destruct e; simpl in X; auto. destruct (i =? i0); auto. now destruct (seen i l).
  - revert c E. generalize (log s). clear. induction l as [|e l IH]; intros c E; [discriminate|].
    destruct e; simpl in E; try (right; eapply IH; eauto; fail). now left.
Qed.

(** ** Dispatching on the queue loop *)
Lemma dispatch_queued : manual = false -> forall fuel a k s, exists s' f l,
  exec (S (S fuel)) (TProg (PDispatch a k)) s = exec (S fuel) (TProg (k f)) s' /\
  log s' = l ++ log s /\ Forall (fun e : event => exists i b g, e = EDisp i b g) l.
Proof.
  intros HM fuel a k s. destruct manual; [discriminate|]. cbn [StoreModel.exec].
  destruct (new_dispatch futures a (arrive futures false ext s)) as [[s1 f] j] eqn:E.
  cbn [andb andthen]. exists (push_job j s1), f.
  destruct (arrive_log M A W futures false ext s) as (l & E1 & F1).
  exists (EDisp (ndisp (arrive futures false ext s)) a f :: l).
  split; [reflexivity|]. split; [|constructor; eauto].
  simpl. rewrite (new_dispatch_log _ _ _ _ _ _ _ _ _ E), E1. reflexivity.
Qed.
End Main.
