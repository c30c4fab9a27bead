(** Consequences about sequences of effects and about thunks. *)
From Coq Require Import List Arith Bool Lia.
From Verif Require Import StoreModel StoreSpec StoreSteps StoreInv StoreTold StoreQuiet StoreMain.
From Verif Require Import StoreExtraModel StoreSeq StoreThunk.
Import ListNotations.

Section Seq.
Variables M A W : Type.
Notation prog := (prog M A W).
Notation event := (event M A W).
Notation st := (st M A W).
Variable reducer : M -> A -> option (M * option prog).
Variable eqb : M -> M -> bool.
Variables trans futures manual : bool.
Variable ext : nat -> list A.
Notation exec := (exec reducer eqb trans futures manual ext).
Notation ends := (ends reducer eqb trans futures manual ext).
Notation arrive := (arrive futures manual ext).

Lemma then_logs : forall f b s g s', ends (TThen (Some f) (CBUser b)) s (Done g s') ->
  exists n, g = Some n /\ In (EThen f n b) (log s').
Proof.
  intros f b s g s' [_ [[|fl] E]]; [discriminate|]. cbn [StoreModel.exec] in E.
  destruct (nth_error (heap s) f) as [[k d [|] [j|]]|]; try discriminate.
  exists (length (heap s)). destruct d.
  - match type of E with context [exec fl ?t ?x] => pose proof (exec_grow M A W reducer eqb trans futures manual ext fl t x) as X;
      destruct (exec fl t x) as [g' s2| | | |]; try discriminate end.
    injection E as <- <-. split; auto. destruct X as [l X]. simpl in X |- *. rewrite X.
    apply in_or_app. right. now left.
  - injection E as <- <-. split; auto. now left.
Qed.
Lemma sequence_order : forall a b e s g s', sequence (Some a) (Some b) = Some e ->
  ends (TProg e) s (Done g s') ->
  exists f s1, ends (TProg a) s (Done f s1) /\
    match f with
    | None => exists s2, ends (TProg b) (arrive s1) (Done g s2) /\ s' = arrive s2
    | Some f' => exists n, g = Some n /\ In (EThen f' n b) (log s')
    end.
Proof.
  intros a b e s g s' E H. apply (sequence_ends _ _ _ reducer eqb trans futures manual ext a b e) in H; auto.
  destruct H as [(f & s1 & H1 & [(f' & s2 & H2 & H3)|[_ []]])|[_ []]].
  exists f, s1. split; auto. injection H3 as -> ->. destruct f as [f|].
  - destruct (then_logs _ _ _ _ _ H2) as (n & -> & Hi). exists n. split; auto.
    destruct (arrive_log M A W futures manual ext s2) as [l [X _]]. rewrite X. apply in_or_app. now right.
  - exists s2. split; auto. now apply after_none in H2.
Qed.
(** The future also() returns. *)
Lemma also_call : forall f g s h s', ends (TProg (also f g (fun h => PRet h))) s (Done h s') ->
  match f with Some f' => exists n, h = Some n /\ In (EThen f' n (PRet g)) (log s') | None => h = g end.
Proof.
  intros f g s h s' H. apply ends_then in H.
  destruct H as [(f' & s2 & H2 & H3)|[_ []]]. injection H3 as -> ->. destruct f as [f|].
  - destruct (then_logs _ _ _ _ _ H2) as (n & -> & Hi). exists n. split; auto.
    destruct (arrive_log M A W futures manual ext s2) as [l [X _]]. rewrite X. apply in_or_app. now right.
  - apply after_none in H2. apply ends_ret in H2. now injection H2.
Qed.
(** An effect that throws ends the sequence. *)
Lemma sequence_throws : forall a b e s s', sequence (Some a) (Some b) = Some e ->
  ends (TProg a) s (Thrown s') -> ends (TProg e) s (Thrown s').
Proof.
  intros a b e s s' E H. apply (sequence_ends _ _ _ reducer eqb trans futures manual ext a b e); auto.
  right. split; auto. exact Logic.I.
Qed.
End Seq.

Section Gen.
Variables M A W : Type.
Notation prog := (prog M A W).
Notation event := (event M A W).
Notation st := (st M A W).
Variable reducer : M -> A -> option (M * option prog).
Variable eqb : M -> M -> bool.
Variables trans futures manual : bool.
Variable ext : nat -> list A.
Variable m0 : M.
Notation reach := (reach reducer eqb trans futures manual ext m0).
Lemma reduced_ev : forall (l : list event) id, In id (reduced l) ->
  (exists m b, In (ERed id m b) l) \/ In (ERedFail id) l.
Proof.
  induction l as [|e l IH]; simpl; intros id H; [contradiction|].
  assert (R : In id (reduced l) -> (exists m b, e = ERed id m b \/ In (ERed id m b) l) \/ e = ERedFail id \/ In (ERedFail id) l).
  { intros H0. destruct (IH _ H0) as [(m & b & X)|X]; eauto. }
  destruct e; auto; apply in_app_or in H as [H|[<-|[]]]; eauto.
Qed.
Lemma with_effect_in : forall (l : list event) id m, In (ERed id m true) l -> In id (with_effect l).
Proof.
  induction l as [|e l IH]; simpl; intros id m H; [contradiction|].
  destruct H as [->|H]; [apply in_or_app; right; now left|].
  destruct e as [ | id' m' [|] | | | | | | | | | | | | | | | | | |]; eauto. apply in_or_app. eauto.
Qed.
Lemma effects_run_ev : forall (l : list event) id, In id (effects_run l) -> exists m e, In (EEff id m e) l.
Proof.
  induction l as [|e l IH]; simpl; intros id H; [contradiction|].
  assert (R : In id (effects_run l) -> exists m e', e = EEff id m e' \/ In (EEff id m e') l).
  { intros H0. destruct (IH _ H0) as (m & e' & X). eauto. }
  destruct e; auto. apply in_app_or in H as [H|[<-|[]]]; eauto.
Qed.
Lemma nodup_effects : forall s, reach s -> NoDup (effects_over (log s)).
Proof.
  intros s H.
  destruct (order _ _ _ _ _ _ _ _ _ _ s H) as (r1 & E1 & _).
  destruct (effects_once _ _ _ _ _ _ _ _ _ _ s H) as (r2 & E2 & _).
  pose proof (with_effect_sub M A W (log s)) as S1.
  assert (N1 : NoDup (reduced (log s))).
  { apply (NoDup_app_l _ _ r1). rewrite E1. apply seq_NoDup. }
  assert (X : forall (a b : list nat), subseq a b -> NoDup b -> NoDup a /\ incl a b).
  { clear. induction 1 as [l|x a b S IH|x a b S IH]; intros N; [split; [constructor|intros x []]| |].
    - inversion N as [|y l NI N']; subst. destruct (IH N') as [I1 I2]. split.
      + constructor; auto.
      + intros y [<-|Hy]; [now left|right; auto].
    - inversion N as [|y l NI N']; subst. destruct (IH N') as [I1 I2]. split; auto.
      intros y Hy. right. auto. }
  destruct (X _ _ S1 N1) as [N2 _]. rewrite E2 in N2. now apply NoDup_app_l in N2.
Qed.

(** An effect returned by the reducer runs exactly once. *)
Lemma once_in : forall s, reach s -> no_failure (log s) -> q s = [] -> forall id m, In (ERed id m true) (log s) ->
  exists l1 l2, effects_run (log s) = l1 ++ id :: l2 /\ ~ In id (l1 ++ l2).
Proof.
  intros s H NF HQ id m HR. apply with_effect_in in HR.
  destruct (effects_once _ _ _ _ _ _ _ _ _ _ s H) as (r2 & E2 & R2). rewrite (R2 HQ), app_nil_r in E2.
  pose proof (effects_ok _ _ _ _ _ _ _ _ _ _ s H NF) as E3. rewrite E2, E3 in HR.
  apply in_split in HR as (l1 & l2 & E). exists l1, l2. split; auto.
  pose proof (nodup_effects s H) as ND. rewrite E3, E in ND. now apply NoDup_remove_2 in ND.
Qed.
End Gen.

Section Thunk.
Variables M A W : Type.
Notation prog := (prog M A W).
Notation T := (thunk M A W).
Notation event := (event M T W).
Notation st := (st M T W).
Variable reducer : M -> A -> option (M * option prog).
Variable eqb : M -> M -> bool.
Variables trans futures manual : bool.
Variable ext : nat -> list T.
Variable m0 : M.
Notation reach := (reach (thunk_reducer reducer) eqb trans futures manual ext m0).

(** the plain actions in a mixed list *)
Definition plain (l : list T) : list A := flat_map (fun t => match t with inl _ => [] | inr a => [a] end) l.
Lemma thunk_fold : forall l m, fold (thunk_reducer reducer) m l = fold reducer m (plain l).
Proof.
  induction l as [|t l IH]; intros m; auto. unfold fold in *. simpl. rewrite IH.
  destruct t as [e|a]; simpl; auto. f_equal. unfold reduce1, thunk_reducer.
  destruct (reducer m a) as [[m' e]|]; auto.
Qed.

Section Eqv.
Variable eqv : M -> M -> Prop.
Hypothesis eqv_refl : forall a, eqv a a.
Hypothesis eqv_sym : forall a b, eqv a b -> eqv b a.
Hypothesis eqv_trans : forall a b c, eqv a b -> eqv b c -> eqv a c.
Hypothesis eqb_sound : forall a b, eqb a b = true -> eqv a b.
Hypothesis respects : forall a b x, eqv a b -> eqv (reduce1 reducer a x) (reduce1 reducer b x).
Lemma respects_thunk : forall a b x, eqv a b ->
  eqv (reduce1 (thunk_reducer reducer) a x) (reduce1 (thunk_reducer reducer) b x).
Proof.
  assert (X : forall a x, reduce1 (thunk_reducer reducer) a (inr x) = reduce1 reducer a x).
  { intros a x. unfold reduce1. simpl. destruct (reducer a x) as [[m e]|]; auto. }
  intros a b [e|x] H; [exact H|]. rewrite !X. auto.
Qed.
Lemma thunk_get : forall s, reach s -> trans = false -> q s = [] ->
  eqv (last s) (fold reducer m0 (plain (actions (log s)))).
Proof.
  intros s H HT HQ. rewrite <- thunk_fold.
  apply (get_fold M T W (thunk_reducer reducer) eqb trans futures manual ext m0 eqv); auto.
  apply respects_thunk.
Qed.
Lemma thunk_came : forall s, reach s ->
  IProg M T W (thunk_reducer reducer) m0 eqv s.
Proof.
  intros s H. apply (reach_IProg M T W (thunk_reducer reducer) eqb trans futures manual ext m0 eqv); auto.
  apply respects_thunk.
Qed.
Lemma plain_effect : forall s, reach s -> forall id a m e, nth_error (actions (log s)) id = Some (inr a) ->
  In (EEff id m e) (log s) ->
  exists m1 m2 e0, eqv m1 (fold reducer m0 (plain (firstn id (actions (log s))))) /\
    reducer m1 a = Some (m2, Some e0) /\ e = lift e0.
Proof.
  intros s H id a m e HN HE. destruct (p_eff _ _ _ _ _ _ _ (thunk_came s H) _ _ _ HE) as (m2 & b & m1 & H1 & H2 & H3).
  rewrite HN in H1. injection H1 as <-. rewrite thunk_fold in H2. simpl in H3.
  destruct (reducer m1 a) as [[m' e']|] eqn:E; [|discriminate]. injection H3 as -> H3.
  destruct e' as [e'|]; [|discriminate]. injection H3 as <-. exists m1, m2, e'. auto.
Qed.
End Eqv.

Lemma thunk_once : forall s, reach s -> no_failure (log s) -> q s = [] -> forall id e,
  nth_error (actions (log s)) id = Some (inl (Some e)) ->
  (exists l1 l2, effects_run (log s) = l1 ++ id :: l2 /\ ~ In id (l1 ++ l2)) /\
  (exists m, In (EEff id m (lift e)) (log s)) /\
  (forall m e', In (EEff id m e') (log s) -> e' = lift e).
Proof.
  intros s H NF HQ id e HN.
  assert (IP : IProg M T W (thunk_reducer reducer) m0 (fun _ _ => True) s) by (apply thunk_came; auto).
  destruct (order _ _ _ _ _ _ _ _ _ _ s H) as (r1 & E1 & R1). rewrite (R1 HQ), app_nil_r in E1.
  destruct (effects_once _ _ _ _ _ _ _ _ _ _ s H) as (r2 & E2 & R2). rewrite (R2 HQ), app_nil_r in E2.
  pose proof (effects_ok _ _ _ _ _ _ _ _ _ _ s H NF) as E3.
  assert (R : In id (reduced (log s))).
  { rewrite E1. apply in_seq. split; [lia|]. simpl. apply nth_error_Some. congruence. }
  assert (UNI : forall m e', In (EEff id m e') (log s) -> e' = lift e).
  { intros m e' HE. destruct (p_eff _ _ _ _ _ _ _ IP _ _ _ HE) as (m2 & b & m1 & H1 & _ & H3).
    rewrite HN in H1. injection H1 as <-. simpl in H3. now injection H3. }
  assert (RUN : In id (effects_run (log s))).
  { rewrite <- E3, <- E2. destruct (reduced_ev _ _ _ _ _ R) as [(m & b & X)|X].
    - destruct (p_red _ _ _ _ _ _ _ IP _ _ _ X) as (e1 & (a & m1 & H1 & _ & H3) & HB).
      rewrite HN in H1. injection H1 as <-. simpl in H3. injection H3 as <- <-.
      assert (b = true) as -> by (apply HB; discriminate). eapply with_effect_in; eauto.
    - destruct (p_fail _ _ _ _ _ _ _ IP _ X) as (a & m1 & H1 & _ & H3).
      rewrite HN in H1. injection H1 as <-. discriminate. }
  split; [|split; auto].
  - apply in_split in RUN as (l1 & l2 & E). exists l1, l2. split; auto.
    pose proof (nodup_effects _ _ _ _ _ _ _ _ _ _ s H) as ND. rewrite E3, E in ND. now apply NoDup_remove_2 in ND.
  - destruct (effects_run_ev _ _ _ _ _ RUN) as (m & e' & HE). exists m. now rewrite (UNI _ _ HE) in HE.
Qed.
End Thunk.
