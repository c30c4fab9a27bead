(** Stores with a debugger: what they reach, and that with ordinary actions only they
    are like stores without. *)
From Coq Require Import List Arith Bool Lia.
From Verif Require Import StoreModel StoreSpec StoreExtraModel StoreModels.
From Verif Require Import DebuggerModel DebuggerSpec DebuggerSim DebuggerLine DebuggerTree.
Import ListNotations.

Section Plain.
Variables M A W : Type.
Notation prog := (prog M A W).
Variable reducer : M -> A -> option (M * option prog).
Variable eqb : M -> M -> bool.
Variables trans futures manual : bool.
Variable ext : nat -> list A.
Notation run := (run reducer eqb trans futures manual ext).

Section Line.
Notation dmodel := (dmodel M A).
Notation dprog := (StoreModel.prog dmodel (daction A) W).
Variables pause_eff resume_eff : dprog.
Notation update := (update reducer pause_eff resume_eff).
Variable deqb : dmodel -> dmodel -> bool.

Lemma store_valid : forall dext m0 s, reach update deqb trans futures manual dext (dinit m0) s ->
  valid M A W reducer m0 (cur s) /\ valid M A W reducer m0 (last s) /\
  forall d, In d (all_models (log s)) -> valid M A W reducer m0 d.
Proof.
  intros dext m0 s R.
  apply (reach_models _ _ _ update deqb trans futures manual dext (dinit m0) (valid M A W reducer m0)) in R; auto.
  - apply init_valid.
  - intros m a m' e V E. eapply update_valid; eauto.
Qed.
Lemma store_consistent : forall dext m0 s, reach update deqb trans futures manual dext (dinit m0) s ->
  consistent reducer m0 (cur s) /\ consistent reducer m0 (last s) /\
  forall d, In d (all_models (log s)) -> consistent reducer m0 d.
Proof.
  intros dext m0 s R. destruct (store_valid dext m0 s R) as (V1 & V2 & V3).
  split; [now apply valid_consistent|]. split; [now apply valid_consistent|].
  intros d H. now apply valid_consistent, V3.
Qed.

Definition like (m : M) (d : dmodel) : Prop := shown d = Some m /\ paused d = false.
Lemma like_step : forall m d a, like m d ->
  match reducer m a with
  | None => update d (Act a) = None
  | Some (n, e) => exists n', update d (Act a) = Some (n', or_noop (dmodel) (daction A) W (option_map (@dlift M A W) e)) /\ like n n'
  end.
Proof.
  intros m d a [ES HP]. destruct (reducer m a) as [[n e]|] eqn:E; cbn [DebuggerModel.update]; unfold update_act; rewrite HP, ES, E; auto.
  replace (or_noop _ _ _ _) with (deff e) by (now destruct e).
  eexists. split; [reflexivity|]. split; auto. unfold shown. cbn [cursor]. rewrite app_length.
  set (l := firstn (cursor d) (history d)). unfold lookup. cbn [history init]. rewrite app_length. simpl length.
  rewrite Nat.ltb_irrefl, Nat.add_1_r, nth_error_app2, Nat.sub_diag by lia. reflexivity.
Qed.
Lemma plain_strict :
  (forall m n d d', shown d = Some m -> shown d' = Some n -> deqb d d' = eqb m n) ->
  (trans = true -> futures = false) ->
  forall fuel m w p, run fuel m w p <> OutOfFuel ->
  exists ext' enough, regrouped Act ext ext' /\ forall fuel', enough <= fuel' ->
  same_run shown Act (run fuel m w p)
    (StoreModel.run update deqb trans futures manual ext' fuel' (dinit m) w (dlift p)).
Proof.
  intros HE HT fuel m w p HF.
  apply (run_sim M A dmodel (daction A) W shown Act like (fun m d H => proj1 H) reducer update
           (fun m d a H => like_step m d a H) eqb deqb true); try discriminate; auto.
  - intros _ m1 d1 m2 d2 [H1 _] [H2 _]. auto.
  - split; reflexivity.
Qed.
Lemma plain_strict_alone :
  (forall m n d d', shown d = Some m -> shown d' = Some n -> deqb d d' = eqb m n) ->
  (trans = true -> futures = false) -> (forall n, ext n = []) ->
  forall fuel m w p, run fuel m w p <> OutOfFuel ->
  exists enough, forall fuel', enough <= fuel' ->
  same_run shown Act (run fuel m w p)
    (StoreModel.run update deqb trans futures manual (fun _ => []) fuel' (dinit m) w (dlift p)).
Proof.
  intros HE HT HX fuel m w p HF.
  apply (run_sim_alone M A dmodel (daction A) W shown Act like (fun m d H => proj1 H) reducer update
           (fun m d a H => like_step m d a H) eqb deqb true); try discriminate; auto.
  - intros _ m1 d1 m2 d2 [H1 _] [H2 _]. auto.
  - split; reflexivity.
Qed.
Lemma plain_loose :
  (forall m n, eqb m n = true -> m = n) -> (forall d d', deqb d d' = true -> shown d = shown d' /\ paused d = paused d') ->
  (forall m a n e, reducer m a = Some (n, Some e) -> unwatched e) ->
  (trans = true -> futures = false) ->
  forall fuel m w p, unwatched p -> run fuel m w p <> OutOfFuel ->
  exists ext' enough, regrouped Act ext ext' /\ forall fuel', enough <= fuel' ->
  same_run shown Act (run fuel m w p)
    (StoreModel.run update deqb trans futures manual ext' fuel' (dinit m) w (dlift p)).
Proof.
  intros HE HD HU HT fuel m w p HP HF.
  apply (run_sim M A dmodel (daction A) W shown Act like (fun m d H => proj1 H) reducer update
           (fun m d a H => like_step m d a H) eqb deqb false); try discriminate; auto.
  - intros _. split; auto. intros x d d' [H1 H2] H3. destruct (HD _ _ H3) as [E1 E2]. split; congruence.
  - split; reflexivity.
Qed.
Lemma plain_loose_alone :
  (forall m n, eqb m n = true -> m = n) -> (forall d d', deqb d d' = true -> shown d = shown d' /\ paused d = paused d') ->
  (forall m a n e, reducer m a = Some (n, Some e) -> unwatched e) ->
  (trans = true -> futures = false) -> (forall n, ext n = []) ->
  forall fuel m w p, unwatched p -> run fuel m w p <> OutOfFuel ->
  exists enough, forall fuel', enough <= fuel' ->
  same_run shown Act (run fuel m w p)
    (StoreModel.run update deqb trans futures manual (fun _ => []) fuel' (dinit m) w (dlift p)).
Proof.
  intros HE HD HU HT HX fuel m w p HP HF.
  apply (run_sim_alone M A dmodel (daction A) W shown Act like (fun m d H => proj1 H) reducer update
           (fun m d a H => like_step m d a H) eqb deqb false); try discriminate; auto.
  - intros _. split; auto. intros x d d' [H1 H2] H3. destruct (HD _ _ H3) as [E1 E2]. split; congruence.
  - split; reflexivity.
Qed.
End Line.

Section Tree.
Notation tmodel := (tmodel M A).
Notation tprog := (StoreModel.prog tmodel (taction A) W).
Variables pause_eff resume_eff : tprog.
Notation treducer := (treducer reducer pause_eff resume_eff).
Variable teqb : tmodel -> tmodel -> bool.
Definition tlike (m : M) (d : tmodel) : Prop :=
  tshown d = Some m /\ tpaused d = false /\
  ((tcursor d = [] /\ tbranches d = []) \/
   exists h, tbranches d = [h] /\ h <> [] /\ tcursor d = [Pos 0 (length h - 1)]).
Lemma tlike_step : forall m d a, tlike m d ->
  match reducer m a with
  | None => treducer d (TAct a) = None
  | Some (n, e) => exists n', treducer d (TAct a) = Some (n', or_noop (tmodel) (taction A) W (option_map (@tlift M A W) e)) /\ tlike n n'
  end.
Proof.
  intros m d a (ES & HP & HC). unfold DebuggerModel.treducer. cbn [DebuggerModel.tupdate]. unfold tupdate_act. rewrite HP, ES.
  destruct (reducer m a) as [[n e]|] eqn:E; auto. replace (or_noop _ _ _ _) with (teff e) by (now destruct e). unfold append.
  destruct HC as [[-> ->]|(h & -> & NE & ->)].
  - eexists. split; [reflexivity|]. split; [reflexivity|]. split; auto. right. eexists. split; [reflexivity|]. split; [discriminate|reflexivity].
  - destruct (exists_last NE) as (h' & x & ->). rewrite app_length. cbn [length]. rewrite Nat.add_sub.
    cbn [do_append branch index update_at]. rewrite app_length. cbn [length]. rewrite Nat.eqb_refl.
    eexists. split; [reflexivity|]. cbn [tshown tlookup]. split; [|split; auto].
    + unfold tshown, tlookup. cbn [tcursor tbranches set_nth do_lookup branch index nth_error].
      rewrite nth_error_app2 by (rewrite app_length; simpl; lia). rewrite app_length. simpl length. rewrite Nat.sub_diag. reflexivity.
    + right. eexists. cbn [tbranches tcursor]. split; [reflexivity|]. split; [now destruct (h' ++ [x])|].
      rewrite !app_length. simpl. f_equal. f_equal. lia.
Qed.
Lemma tree_strict :
  (forall m n d d', tshown d = Some m -> tshown d' = Some n -> teqb d d' = eqb m n) ->
  (trans = true -> futures = false) ->
  forall fuel m w p, run fuel m w p <> OutOfFuel ->
  exists ext' enough, regrouped TAct ext ext' /\ forall fuel', enough <= fuel' ->
  same_run tshown TAct (run fuel m w p)
    (StoreModel.run treducer teqb trans futures manual ext' fuel' (tinit_model m) w (tlift p)).
Proof.
  intros HE HT fuel m w p HF.
  apply (run_sim M A tmodel (taction A) W tshown TAct tlike (fun m d H => proj1 H) reducer treducer
           (fun m d a H => tlike_step m d a H) eqb teqb true); try discriminate; auto.
  - intros _ m1 d1 m2 d2 [H1 _] [H2 _]. auto.
  - split; [|split]; auto.
Qed.
Lemma tree_strict_alone :
  (forall m n d d', tshown d = Some m -> tshown d' = Some n -> teqb d d' = eqb m n) ->
  (trans = true -> futures = false) -> (forall n, ext n = []) ->
  forall fuel m w p, run fuel m w p <> OutOfFuel ->
  exists enough, forall fuel', enough <= fuel' ->
  same_run tshown TAct (run fuel m w p)
    (StoreModel.run treducer teqb trans futures manual (fun _ => []) fuel' (tinit_model m) w (tlift p)).
Proof.
  intros HE HT HX fuel m w p HF.
  apply (run_sim_alone M A tmodel (taction A) W tshown TAct tlike (fun m d H => proj1 H) reducer treducer
           (fun m d a H => tlike_step m d a H) eqb teqb true); try discriminate; auto.
  - intros _ m1 d1 m2 d2 [H1 _] [H2 _]. auto.
  - split; [|split]; auto.
Qed.
Lemma tree_loose :
  (forall m n, eqb m n = true -> m = n) -> (forall d d', teqb d d' = false) ->
  (forall m a n e, reducer m a = Some (n, Some e) -> unwatched e) ->
  (trans = true -> futures = false) ->
  forall fuel m w p, unwatched p -> run fuel m w p <> OutOfFuel ->
  exists ext' enough, regrouped TAct ext ext' /\ forall fuel', enough <= fuel' ->
  same_run tshown TAct (run fuel m w p)
    (StoreModel.run treducer teqb trans futures manual ext' fuel' (tinit_model m) w (tlift p)).
Proof.
  intros HE HD HU HT fuel m w p HP HF.
  apply (run_sim M A tmodel (taction A) W tshown TAct tlike (fun m d H => proj1 H) reducer treducer
           (fun m d a H => tlike_step m d a H) eqb teqb false); try discriminate; auto.
  - intros _. split; auto. intros x d d' _ H. rewrite HD in H. discriminate.
  - split; [|split]; auto.
Qed.
Lemma tree_loose_alone :
  (forall m n, eqb m n = true -> m = n) -> (forall d d', teqb d d' = false) ->
  (forall m a n e, reducer m a = Some (n, Some e) -> unwatched e) ->
  (trans = true -> futures = false) -> (forall n, ext n = []) ->
  forall fuel m w p, unwatched p -> run fuel m w p <> OutOfFuel ->
  exists enough, forall fuel', enough <= fuel' ->
  same_run tshown TAct (run fuel m w p)
    (StoreModel.run treducer teqb trans futures manual (fun _ => []) fuel' (tinit_model m) w (tlift p)).
Proof.
  intros HE HD HU HT HX fuel m w p HP HF.
  apply (run_sim_alone M A tmodel (taction A) W tshown TAct tlike (fun m d H => proj1 H) reducer treducer
           (fun m d a H => tlike_step m d a H) eqb teqb false); try discriminate; auto.
  - intros _. split; auto. intros x d d' _ H. rewrite HD in H. discriminate.
  - split; [|split]; auto.
Qed.
End Tree.
End Plain.
