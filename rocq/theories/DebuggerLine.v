(** Proofs about debugger.hpp. *)
From Coq Require Import List Arith Bool Lia.
From Verif Require Import StoreModel StoreExtraModel DebuggerModel DebuggerSpec.
Import ListNotations.

Section Line.
Variables M A W : Type.
Notation prog := (prog M A W).
Notation dmodel := (dmodel M A).
Notation dprog := (StoreModel.prog dmodel (daction A) W).
Variable reducer : M -> A -> option (M * option prog).
Variables pause_eff resume_eff : dprog.
Notation update := (update reducer pause_eff resume_eff).
Notation dstep := (dstep reducer pause_eff resume_eff).
Notation replays := (replays reducer).
Notation replay := (replay reducer).

(** The history is what replaying it gives. *)
Record valid (m0 : M) (d : dmodel) : Prop := {
  v_init : init d = m0;
  v_cur : cursor d <= length (history d);
  v_hist : forall k, k <= length (history d) ->
    exists m, lookup d k = Some (match k with 0 => None | S k' => option_map fst (nth_error (history d) k') end, m) /\
              replays m0 (firstn k (map fst (history d))) = Some m;
  v_pend : paused d = false -> pending d = [] }.

Lemma replays_snoc : forall l m a, replays m (l ++ [a]) =
  match replays m l with
  | Some m' => option_map fst (reducer m' a)
  | None => None
  end.
Proof.
  unfold DebuggerSpec.replays. induction l as [|b l IH]; intros m a; simpl.
  - destruct (reducer m a) as [[m' [e|]]|]; auto.
  - destruct (reducer m b) as [[m' e]|]; auto. specialize (IH m' a).
    destruct (replay m' (l ++ [a])) as [[x es]|], (replay m' l) as [[y fs]|]; simpl in *; auto.
Qed.
Lemma valid_shown : forall m0 d, valid m0 d -> exists m, shown d = Some m /\
  replays m0 (firstn (cursor d) (map fst (history d))) = Some m.
Proof.
  intros m0 d V. destruct (v_hist _ _ V (cursor d) (v_cur _ _ V)) as (m & E & R).
  exists m. split; auto. unfold shown. now rewrite E.
Qed.
Lemma lookup_bad : forall (d : dmodel) k, length (history d) < k -> lookup d k = None.
Proof. intros d k H. unfold lookup. apply Nat.ltb_lt in H. now rewrite H. Qed.

Lemma same_history : forall m0 (d : dmodel) c p q, valid m0 d -> c <= length (history d) ->
  (p = false -> q = []) -> valid m0 (D c p (init d) (history d) q).
Proof. intros m0 d c p q V HC HP. constructor; simpl; auto; [apply V|]. intros k HK. apply (v_hist _ _ V k HK). Qed.
Lemma nth_last : forall X (l : list X) x, nth_error (l ++ [x]) (length l) = Some x.
Proof. intros. rewrite nth_error_app2 by lia. now rewrite Nat.sub_diag. Qed.
Lemma nth_error_firstn : forall X n (l : list X) i, i < n -> nth_error (firstn n l) i = nth_error l i.
Proof. induction n as [|n IH]; intros [|x l] [|i] H; simpl; auto; try lia. apply IH. lia. Qed.
Lemma map_fst_firstn : forall X Y n (l : list (X * Y)), map fst (firstn n l) = firstn n (map fst l).
Proof. intros. apply eq_sym, firstn_map. Qed.

(** An ordinary action, not paused. *)
Lemma act_valid : forall m0 d a d' e, valid m0 d -> paused d = false -> update_act reducer d a = Some (d', e) ->
  valid m0 d' /\ paused d' = false.
Proof.
  intros m0 d a d' e V HP E. unfold update_act in E. rewrite HP in E.
  destruct (valid_shown _ _ V) as (m & ES & ER). rewrite ES in E.
  destruct (reducer m a) as [[m' e']|] eqn:EM; [|discriminate]. injection E as <- <-.
  set (h := firstn (cursor d) (history d) ++ [(a, m')]).
  assert (LF : length (firstn (cursor d) (history d)) = cursor d).
  { rewrite firstn_length. pose proof (v_cur _ _ V). lia. }
  assert (LH : length h = S (cursor d)) by (unfold h; rewrite app_length, LF; simpl; lia).
  split; [|reflexivity]. constructor; simpl; auto; [apply V| |intros _; apply V, HP].
  intros k HK. destruct (Nat.eq_dec k (length h)) as [->|N].
  - exists m'. rewrite (firstn_all2 (map fst h)) by (rewrite map_length; lia). split.
    + rewrite LH. unfold lookup. cbn [history]. rewrite LH, Nat.ltb_irrefl.
      assert (EN : nth_error h (cursor d) = Some (a, m')) by (unfold h; rewrite <- LF at 2; apply nth_last).
      now rewrite EN.
    + unfold h. rewrite map_app, map_fst_firstn. simpl. now rewrite replays_snoc, ER, EM.
  - assert (HK2 : k <= cursor d) by lia.
    destruct (v_hist _ _ V k) as (mk & EL & RL); [pose proof (v_cur _ _ V); lia|].
    assert (NE : forall i, i < cursor d -> nth_error h i = nth_error (history d) i).
    { intros i Hi. unfold h. rewrite nth_error_app1 by lia. now apply nth_error_firstn. }
    exists mk. unfold lookup in *. simpl.
    assert (B1 : (length h <? k) = false) by (apply Nat.ltb_ge; lia).
    assert (B2 : (length (history d) <? k) = false) by (apply Nat.ltb_ge; pose proof (v_cur _ _ V); lia).
    rewrite B1. rewrite B2 in EL. split.
    + destruct k as [|k]; auto. rewrite NE by lia. auto.
    + rewrite <- RL. f_equal. unfold h. rewrite map_app, firstn_app, map_fst_firstn, firstn_firstn.
      rewrite Nat.min_l by lia. rewrite firstn_length, map_length.
      replace (k - _) with 0 by (pose proof (v_cur _ _ V); lia). simpl. apply app_nil_r.
Qed.

Lemma resume_valid : forall m0 l d e d' e', valid m0 d -> paused d = false ->
  fold_left (resume1 reducer) l (Some (d, e)) = Some (d', e') -> valid m0 d' /\ paused d' = false.
Proof.
  intros m0. induction l as [|a l IH]; intros d e d' e' V HP E; simpl in E.
  - injection E as <- <-. auto.
  - destruct (update_act reducer d a) as [[d1 e1]|] eqn:EU.
    + destruct (act_valid _ _ _ _ _ V HP EU). eauto.
    + exfalso. clear - E. induction l; simpl in E; [discriminate|auto].
Qed.
Lemma update_valid : forall m0 d x d' e, valid m0 d -> update d x = Some (d', e) -> valid m0 d'.
Proof.
  intros m0 d x d' e V E. destruct x as [a|c| | | |]; simpl in E.
  - destruct (paused d) eqn:HP.
    + unfold update_act in E. rewrite HP in E. injection E as <- <-. apply same_history; auto; [apply V|discriminate].
    + eapply act_valid; eauto.
  - destruct (c <=? length (history d)) eqn:EC; injection E as <- <-; auto.
    apply Nat.leb_le in EC. apply same_history; auto. apply V.
  - destruct (0 <? cursor d) eqn:EC; injection E as <- <-; auto.
    apply same_history; auto; [pose proof (v_cur _ _ V); lia|apply V].
  - destruct (cursor d <? length (history d)) eqn:EC; injection E as <- <-; auto.
    apply Nat.ltb_lt in EC. apply same_history; auto. apply V.
  - injection E as <- <-. apply same_history; auto; [apply V|discriminate].
  - destruct (fold_left _ _ _) as [[d1 e1]|] eqn:EF; [|discriminate]. injection E as <- <-.
    eapply resume_valid; [| |exact EF]; auto. apply same_history; auto. apply V.
Qed.
Lemma init_valid : forall m0, valid m0 (dinit m0).
Proof.
  intros m0. constructor; simpl; auto. intros k HK. assert (k = 0) by lia. subst. exists m0. auto.
Qed.
Lemma dstep_valid : forall m0 d x, valid m0 d -> valid m0 (dstep d x).
Proof.
  intros m0 d x V. unfold DebuggerModel.dstep. destruct (update d x) as [[d' e]|] eqn:E; auto.
  eapply update_valid; eauto.
Qed.
Lemma steps_valid : forall m0 xs d, valid m0 d -> valid m0 (fold_left dstep xs d).
Proof. induction xs as [|x xs IH]; intros d V; simpl; auto. apply IH, dstep_valid; auto. Qed.
Lemma reached_valid : forall m0 xs, valid m0 (fold_left dstep xs (dinit m0)).
Proof. intros. apply steps_valid, init_valid. Qed.

(** ** C36 *)
Lemma valid_consistent : forall m0 d, valid m0 d -> consistent reducer m0 d.
Proof.
  intros m0 d V. split; [apply V|]. split; [|split; [apply lookup_bad|now apply valid_shown]].
  intros k H. destruct (v_hist _ _ V k H) as (m & E & R). eauto.
Qed.
Lemma reached_consistent : forall m0 xs, consistent reducer m0 (fold_left dstep xs (dinit m0)).
Proof. intros. apply valid_consistent, reached_valid. Qed.

(** ** C37 *)
Lemma undo_redo : forall m0 d, valid m0 d -> 0 < cursor d -> dstep (dstep d Undo) Redo = d.
Proof.
  intros m0 d V H. unfold DebuggerModel.dstep. simpl. apply Nat.ltb_lt in H. rewrite H. apply Nat.ltb_lt in H. simpl.
  pose proof (v_cur _ _ V) as HC. assert (B : (cursor d - 1 <? length (history d)) = true) by (apply Nat.ltb_lt; lia).
  rewrite B. replace (S (cursor d - 1)) with (cursor d) by lia. now destruct d.
Qed.
Lemma redo_undo : forall d : dmodel, cursor d < length (history d) -> dstep (dstep d Redo) Undo = d.
Proof.
  intros d H. unfold DebuggerModel.dstep. simpl. apply Nat.ltb_lt in H. rewrite H. simpl.
  rewrite Nat.sub_0_r. now destruct d.
Qed.
Lemma goto_ok : forall m0 d c, valid m0 d -> c <= length (history d) ->
  cursor (dstep d (Goto c)) = c /\ exists m, shown (dstep d (Goto c)) = Some m /\
  replays m0 (firstn c (map fst (history d))) = Some m.
Proof.
  intros m0 d c V H. pose proof (dstep_valid m0 d (Goto c) V) as V'.
  destruct (valid_shown _ _ V') as (m & E & R). unfold DebuggerModel.dstep in *. simpl in *.
  apply Nat.leb_le in H. rewrite H in *. simpl in *. eauto.
Qed.
Lemma goto_past : forall (d : dmodel) c, length (history d) < c -> dstep d (Goto c) = d.
Proof. intros d c H. unfold DebuggerModel.dstep. simpl. apply Nat.leb_gt in H. now rewrite H. Qed.
Lemma moves_keep : forall (d : dmodel) x, match x with Goto _ | Undo | Redo => True | _ => False end ->
  exists d', update d x = Some (d', noop) /\ history d' = history d /\ init d' = init d /\
             paused d' = paused d /\ pending d' = pending d.
Proof.
  intros d x H. destruct x; try contradiction; simpl; eexists; (split; [reflexivity|]);
    match goal with |- context [if ?b then _ else _] => destruct b end; auto.
Qed.
Lemma act_discards : forall m0 d a m' e, valid m0 d -> paused d = false ->
  (forall m, shown d = Some m -> reducer m a = Some (m', e)) ->
  exists d', update d (Act a) = Some (d', deff e) /\
    history d' = firstn (cursor d) (history d) ++ [(a, m')] /\ cursor d' = S (cursor d) /\ shown d' = Some m'.
Proof.
  intros m0 d a m' e V HP H. destruct (valid_shown _ _ V) as (m & ES & ER). specialize (H m ES). simpl.
  assert (EU : exists d', update_act reducer d a = Some (d', deff e) /\
    history d' = firstn (cursor d) (history d) ++ [(a, m')] /\ cursor d' = S (cursor d)).
  { unfold update_act. rewrite HP, ES, H. eexists. split; [reflexivity|]. simpl. split; auto.
    rewrite app_length, firstn_length. pose proof (v_cur _ _ V). simpl. lia. }
  destruct EU as (d' & EU & EH & EC). exists d'. split; auto. split; auto. split; auto.
  unfold shown, lookup. rewrite EC, EH.
  assert (LF : length (firstn (cursor d) (history d)) = cursor d).
  { rewrite firstn_length. pose proof (v_cur _ _ V). lia. }
  rewrite app_length, LF. simpl. replace (cursor d + 1 <? S (cursor d)) with false by (symmetry; apply Nat.ltb_ge; lia).
  rewrite <- LF at 2. now rewrite nth_last.
Qed.

(** ** C38 *)
Definition running (d : dmodel) : dmodel := D (cursor d) false (init d) (history d) [].
Definition with_pending (q : list A) (d : dmodel) : dmodel := D (cursor d) (paused d) (init d) (history d) q.

Lemma paused_step : forall (d : dmodel) x, paused d = true -> is_pause x = false ->
  dstep d x = with_pending (pending d ++ acts [x]) (fold_left dstep (moves [x]) d) /\
  paused (dstep d x) = true /\ pending (dstep d x) = pending d ++ acts [x] /\
  exists d', update d x = Some (d', noop).
Proof.
  intros d x HP HX. destruct d as [c p i h q]. simpl in HP. subst p. unfold DebuggerModel.dstep, with_pending.
  destruct x; simpl in *; try discriminate; rewrite ?app_nil_r; unfold update_act; simpl; eauto.
  - destruct (c0 <=? length h); simpl; eauto.
  - destruct (0 <? c); simpl; eauto.
  - destruct (c <? length h); simpl; eauto.
Qed.
(** The other actions do not look at what is pending. *)
Lemma move_pending : forall (d : dmodel) q x, is_pause x = false -> (forall a, x <> Act a) ->
  dstep (with_pending q d) x = with_pending q (dstep d x).
Proof.
  intros d q x HX HA. destruct d as [c p i h q0]. unfold DebuggerModel.dstep, with_pending.
  destruct x; simpl in *; try discriminate; try (now destruct (HA a)); 
    match goal with |- context [if ?b then _ else _] => destruct b end; auto.
Qed.
Lemma moves_pending : forall l (d : dmodel) q, existsb is_pause l = false ->
  fold_left dstep (moves l) (with_pending q d) = with_pending q (fold_left dstep (moves l) d).
Proof.
  induction l as [|x l IH]; intros d q H; auto. simpl in H. apply orb_false_iff in H. destruct H as [H1 H2].
  destruct x as [a|c| | | |]; try discriminate; cbn [moves fold_left]; auto;
    rewrite move_pending by (auto; discriminate); auto.
Qed.
Lemma pending_self : forall d : dmodel, with_pending (pending d) d = d.
Proof. now intros []. Qed.
Lemma pending_twice : forall (d : dmodel) q q', with_pending q (with_pending q' d) = with_pending q d.
Proof. now intros []. Qed.
Lemma paused_steps : forall l (d : dmodel), paused d = true -> existsb is_pause l = false ->
  fold_left dstep l d = with_pending (pending d ++ acts l) (fold_left dstep (moves l) d) /\
  paused (fold_left dstep l d) = true.
Proof.
  induction l as [|x l IH]; intros d HP H; simpl in H |- *.
  - rewrite app_nil_r, pending_self. auto.
  - apply orb_false_iff in H. destruct H as [H1 H2].
    destruct (paused_step d x HP H1) as (E & HP' & EP & _). destruct (IH (dstep d x) HP' H2) as [E1 E2].
    split; auto. rewrite E1, EP, E, moves_pending, pending_twice by auto.
    destruct x; try discriminate; simpl; rewrite <- app_assoc; auto.
Qed.
(** Nothing shows: the same as without the ordinary actions. *)
Lemma paused_shows : forall l (d : dmodel), paused d = true -> existsb is_pause l = false ->
  shown (fold_left dstep l d) = shown (fold_left dstep (moves l) d) /\
  history (fold_left dstep l d) = history d /\
  pending (fold_left dstep l d) = pending d ++ acts l.
Proof.
  intros l d HP H. destruct (paused_steps l d HP H) as [E _]. rewrite E. split; [reflexivity|]. split; [|reflexivity].
  cbn [with_pending history]. clear E HP. revert d. induction l as [|x l IH]; intros d; auto.
  simpl in H. apply orb_false_iff in H. destruct H as [H1 H2].
  destruct x as [a|c| | | |]; try discriminate; cbn [moves fold_left]; auto; rewrite IH by auto;
    unfold DebuggerModel.dstep; simpl; match goal with |- context [if ?b then _ else _] => destruct b end; auto.
Qed.

Lemma resume1_none : forall l, fold_left (resume1 reducer) l None = None.
Proof. induction l; simpl; auto. Qed.
Definition effs (es : list (option prog)) : list (option dprog) := map deff es.
Lemma resume_fold : forall m0 l d e, valid m0 d -> paused d = false -> forall m, shown d = Some m ->
  match replay m l with
  | None => fold_left (resume1 reducer) l (Some (d, e)) = None
  | Some (m', es) => exists d', fold_left (resume1 reducer) l (Some (d, e)) =
        Some (d', fold_left sequence (effs es) e) /\ d' = fold_left dstep (map Act l) d /\ shown d' = Some m' /\
        history d' = match l with [] => history d | _ => firstn (cursor d) (history d) ++ combine l (models_of reducer m l) end
  end.
Proof.
  intros m0. induction l as [|a l IH]; intros d e V HP m ES.
  - simpl. eauto 6.
  - cbn [DebuggerSpec.replay]. destruct (reducer m a) as [[m1 e1]|] eqn:EM.
    + destruct (act_discards m0 d a m1 e1 V HP) as (d1 & EU & EH & EC & E1).
      { intros m2 E2. rewrite E2 in ES. injection ES as ->. auto. }
      simpl in EU. destruct (act_valid _ _ _ _ _ V HP EU) as [V1 HP1].
      cbn [fold_left map].
      assert (ER1 : resume1 reducer (Some (d, e)) a = Some (d1, sequence e (deff e1))) by (simpl; now rewrite EU).
      rewrite ER1.
      specialize (IH d1 (sequence e (deff e1)) V1 HP1 m1 E1).
      assert (ED : dstep d (Act a) = d1) by (unfold DebuggerModel.dstep; simpl; now rewrite EU).
      rewrite ED. destruct (replay m1 l) as [[m2 es]|].
      * destruct IH as (d' & -> & -> & E3 & E4). eexists. split; [|split; [reflexivity|split; auto]].
        -- reflexivity.
        -- rewrite E4, EH, EC. cbn [models_of combine]. rewrite EM. cbn [combine]. destruct l as [|b l]; auto.
           rewrite firstn_all2, <- app_assoc; auto. rewrite app_length, firstn_length. simpl. lia.
      * exact IH.
    + cbn [fold_left]. assert (ER1 : resume1 reducer (Some (d, e)) a = None) by (simpl; unfold update_act; now rewrite HP, ES, EM).
      rewrite ER1. apply resume1_none.
Qed.
Lemma running_valid : forall m0 d, valid m0 d -> valid m0 (running d).
Proof. intros. apply same_history; auto. apply H. Qed.
Lemma resume_ok : forall m0 d m m' es, valid m0 d -> shown d = Some m -> replay m (pending d) = Some (m', es) ->
  exists d', update d Resume = Some (d', sequence (Some resume_eff) (sequence_all noop (effs es))) /\
    d' = fold_left dstep (map Act (pending d)) (running d) /\ shown d' = Some m' /\ pending d' = [] /\ paused d' = false /\
    history d' = match pending d with [] => history d
                 | l => firstn (cursor d) (history d) ++ combine l (models_of reducer m l) end.
Proof.
  intros m0 d m m' es V ES ER.
  pose proof (resume_fold m0 (pending d) (running d) noop (running_valid _ _ V) eq_refl m ES) as H.
  rewrite ER in H. destruct H as (d' & E1 & E2 & E3 & E4). exists d'.
  destruct (resume_valid m0 _ _ _ _ _ (running_valid _ _ V) eq_refl E1) as [V' HP'].
  split; [simpl; unfold running in E1; rewrite E1; reflexivity|].
  split; [exact E2|]. split; [exact E3|]. split; [exact (v_pend _ _ V' HP')|]. split; [exact HP'|]. rewrite E4. now destruct (pending d).
Qed.
Lemma resume_throws : forall m0 d m, valid m0 d -> shown d = Some m -> replay m (pending d) = None ->
  update d Resume = None /\ dstep d Resume = d.
Proof.
  intros m0 d m V ES ER.
  pose proof (resume_fold m0 (pending d) (running d) noop (running_valid _ _ V) eq_refl m ES) as H.
  rewrite ER in H. assert (X : update d Resume = None) by (simpl; unfold running in H; now rewrite H).
  split; auto. unfold DebuggerModel.dstep. now rewrite X.
Qed.
(** Only ordinary actions. *)
Lemma plain_models : forall m0 l m es, replay m0 l = Some (m, es) ->
  shown (fold_left dstep (map Act l) (dinit m0)) = Some m /\
  history (fold_left dstep (map Act l) (dinit m0)) = combine l (models_of reducer m0 l).
Proof.
  intros m0 l m es E. pose proof (resume_fold m0 l (dinit m0) None (init_valid m0) eq_refl m0 eq_refl) as H.
  rewrite E in H. destruct H as (d' & _ & -> & E1 & EH). split; auto. rewrite EH. now destruct l.
Qed.
Lemma moves_acts : forall l : list A, moves (map Act l) = [] /\ acts (map Act l) = l /\ existsb is_pause (map Act l) = false.
Proof. induction l as [|a l (H1 & H2 & H3)]; simpl; auto. rewrite H2. auto. Qed.
Lemma pause_resume : forall m0 d l m', valid m0 d -> paused d = false ->
  match shown d with Some m => replays m l = Some m' | None => False end ->
  fold_left dstep (Pause :: map Act l ++ [Resume]) d = fold_left dstep (map Act l) d.
Proof.
  intros m0 d l m' V HP HR. destruct (shown d) as [m|] eqn:ES; [|contradiction].
  unfold DebuggerSpec.replays in HR. destruct (replay m l) as [[m1 es]|] eqn:ER; [|discriminate].
  cbn [fold_left]. rewrite fold_left_app. cbn [fold_left].
  set (d1 := dstep d Pause). assert (V1 : valid m0 d1) by now apply dstep_valid.
  destruct (moves_acts l) as (E1 & E2 & E3). destruct (paused_steps (map Act l) d1 eq_refl E3) as [E4 _].
  rewrite E4, E1, E2. change (pending d1) with (pending d). rewrite (v_pend _ _ V HP). simpl app. cbn [fold_left].
  assert (V2 : valid m0 (with_pending l d1)) by (apply same_history; auto; [apply V1|discriminate]).
  destruct (resume_ok m0 (with_pending l d1) m m1 es V2) as (d' & EU & ED & _); auto.
  unfold DebuggerModel.dstep at 1. rewrite EU, ED. cbn [with_pending pending].
  f_equal. unfold running. simpl. destruct d as [c p i h q]. simpl in *. subst p. pose proof (v_pend _ _ V eq_refl) as EQ. simpl in EQ. now subst q.
Qed.
End Line.
