(** Invariants of the store that hold between jobs, not inside them. *)
From Coq Require Import List Arith Bool Lia.
From Verif Require Import StoreModel StoreSpec StoreSteps StoreInv.
Import ListNotations.

Section Jobs.
Variables M A W : Type.
Notation prog := (prog M A W).
Notation event := (event M A W).
Notation job := (job M A W).
Notation cell := (cell M A W).
Notation st := (st M A W).
Variable reducer : M -> A -> option (M * option prog).
Variable eqb : M -> M -> bool.
Variables trans futures manual : bool.
Variable ext : nat -> list A.
Notation cstep := (cstep trans futures).
Notation jstep := (jstep reducer eqb trans).
Notation steps := (steps reducer eqb trans futures).
Notation csteps := (csteps trans futures).
Notation bstep := (bstep reducer eqb trans futures).
Notation bsteps := (bsteps reducer eqb trans futures).
Notation jobrun := (jobrun reducer eqb trans futures).
Notation JInv := (JInv trans).
Notation starts := (starts trans).

Lemma bstep_steps : forall s s', bstep s s' -> JInv s -> steps s s'.
Proof.
  intros s s' H J. destruct H.
  - apply csteps_steps. now apply cstep1.
  - apply jstep1. constructor.
  - eapply jobrun_steps; eauto.
  - eapply ss_c; [eapply jobrun_steps; eauto|constructor].
Qed.
Lemma bsteps_steps : forall s s', bsteps s s' -> JInv s -> steps s s'.
Proof.
  induction 1 as [s|s s1 s2 H IH H0]; intros J; [constructor|]. eapply steps_trans; [now apply IH|].
  apply bstep_steps; auto. eapply steps_JInv; eauto.
Qed.
Lemma bsteps_inv : forall P : st -> Prop,
  (forall s s', cstep s s' -> JInv s -> P s -> P s') ->
  (forall b s, P s -> P (set_busy b s)) ->
  (forall s j r s', q s = j :: r -> JInv s -> jobrun s r j false s' -> P s -> P s') ->
  (forall s j r s', q s = j :: r -> JInv s -> jobrun s r j true s' -> P s -> P (emit EFail s')) ->
  forall s s', bsteps s s' -> JInv s -> P s -> P s'.
Proof.
  intros P H1 H2 H3 H4 s s' H J HP. induction H as [s|s s1 s2 H IH H0]; auto.
  assert (J1 : JInv s1) by (eapply steps_JInv; [eapply bsteps_steps; eauto|auto]).
  specialize (IH J HP). destruct H0; eauto.
Qed.

(** ** Every effect that begins is run or lost *)
Definition bal (s : st) : Prop := begun (log s) = effects_over (log s).
Lemma cstep_bal : forall s s' : st, cstep s s' ->
  begun (log s') = begun (log s) /\ effects_over (log s') = effects_over (log s).
Proof.
  intros s s' H. destruct H; simpl; rewrite ?send_down_log; simpl; auto.
  - unfold StoreModel.arrive1, new_dispatch. destruct futures; auto.
  - destruct c; auto.
  - destruct c; auto.
Qed.
Lemma csteps_bal : forall s s' : st, csteps s s' ->
  begun (log s') = begun (log s) /\ effects_over (log s') = effects_over (log s).
Proof.
  induction 1 as [s|s s1 s2 H [E1 E2] H0]; auto. apply cstep_bal in H0 as [F1 F2]. split; congruence.
Qed.
Lemma jobrun_bal : forall s j r b s', jobrun s r j b s' -> bal s -> bal s'.
Proof.
  intros s j r b s' H B. unfold bal in *.
  destruct H; simpl; rewrite ?push_down_log; simpl; auto;
    repeat match goal with H : csteps _ _ |- _ => apply csteps_bal in H; destruct H as [? ?] end;
    rewrite ?push_down_log, ?send_down_log, ?starts_log in *; simpl in *; try congruence.
Qed.
Lemma bsteps_bal : forall s s', bsteps s s' -> JInv s -> bal s -> bal s'.
Proof.
  apply bsteps_inv; auto.
  - intros s s' H _ B. apply cstep_bal in H as [E1 E2]. unfold bal. congruence.
  - intros. eapply jobrun_bal; eauto.
  - intros s j r s' _ _ H B. eapply jobrun_bal in H; eauto.
Qed.

(** ** Every future has something that will complete it *)
Definition OwX (X : nat -> Prop) (s : st) : Prop :=
  forall n c, nth_error (heap s) n = Some c -> kind c = KUser \/ X n \/ Ow n s.
Lemma Ow_mono : forall n (s s' : st), incl (log s) (log s') ->
  (forall j, In j (q s) -> In j (q s')) ->
  (forall f c j, nth_error (heap s) f = Some c -> cb c = Some j ->
     In j (q s') \/ exists c', nth_error (heap s') f = Some c' /\ cb c' = Some j) ->
  Ow n s -> Ow n s'.
Proof.
  intros n s s' H1 H2 H3 [H|[(j & K1 & K2)|(f & c & j & K1 & K2 & K3)]].
  - left. auto.
  - right. left. eauto.
  - destruct (H3 f c j K1 K2) as [L|(c' & L1 & L2)]; [right; left; eauto|].
    right. right. exists f, c', j. auto.
Qed.
Lemma OwX_mono : forall X (s s' : st), incl (log s) (log s') ->
  (forall j, In j (q s) -> In j (q s')) ->
  (forall f c j, nth_error (heap s) f = Some c -> cb c = Some j ->
     In j (q s') \/ exists c', nth_error (heap s') f = Some c' /\ cb c' = Some j) ->
  (forall n c, nth_error (heap s') n = Some c ->
     (exists c0, nth_error (heap s) n = Some c0 /\ kind c0 = kind c) \/ kind c = KUser \/ Ow n s') ->
  OwX X s -> OwX X s'.
Proof.
  intros X s s' H1 H2 H3 H4 H n c Hn. destruct (H4 n c Hn) as [(c0 & K1 & K2)|[K|K]]; auto.
  destruct (H n c0 K1) as [L|[L|L]]; auto; [left; congruence|]. right. right.
  eapply Ow_mono; eauto.
Qed.
Lemma OwX_heap : forall X (s s' : st), incl (log s) (log s') ->
  (forall j, In j (q s) -> In j (q s')) -> heap s' = heap s -> OwX X s -> OwX X s'.
Proof.
  intros X s s' H1 H2 E. apply OwX_mono; auto; rewrite E.
  - intros f c j K1 K2. right. eauto.
  - intros n c K. left. eauto.
Qed.
Lemma OwX_upd : forall X (s s' : st) n x y, incl (log s) (log s') ->
  (forall j, In j (q s) -> In j (q s')) -> nth_error (heap s) n = Some x ->
  heap s' = heap (upd_cell n y s) -> kind y = kind x ->
  (forall j, cb x = Some j -> In j (q s')) -> OwX X s -> OwX X s'.
Proof.
  intros X s s' n x y H1 H2 Hn E EK HC. apply OwX_mono; auto; rewrite E.
  - intros f c j K1 K2. rewrite (nth_upd _ _ _ _ _ _ _ _ Hn). destruct (Nat.eqb_spec f n) as [->|N].
    + left. apply HC. congruence.
    + right. eauto.
  - intros m c K. rewrite (nth_upd _ _ _ _ _ _ _ _ Hn) in K. destruct (Nat.eqb_spec m n) as [->|N].
    + left. injection K as <-. eauto.
    + left. eauto.
Qed.
Lemma OwX_new : forall X (s s' : st) k, incl (log s) (log s') ->
  (forall j, In j (q s) -> In j (q s')) ->
  heap s' = heap s ++ [Cell k false false None] -> k = KUser \/ Ow (length (heap s)) s' ->
  OwX X s -> OwX X s'.
Proof.
  intros X s s' k H1 H2 E HK. apply OwX_mono; auto; rewrite E.
  - intros f c j K1 K2. right. exists c. split; auto. rewrite nth_error_app1; auto.
    apply nth_error_Some. congruence.
  - intros n c K. apply (heap_new _ _ _ s k) in K as [K|[-> ->]]; [left; eauto|right; auto].
Qed.
Lemma cstep_OwX : forall X s s', cstep s s' -> JInv s -> OwX X s -> OwX X s'.
Proof.
  intros X s s' H J I.
  assert (DONE : forall n c, nth_error (heap s) n = Some c -> done c = true -> cb c = None).
  { intros n c Hn Hd. destruct J as [_ J]. apply J in Hn. destruct Hn as [_ Hn _ _]. now apply Hn. }
  assert (SNOC : forall (l : list job) x j, In j l -> In j (l ++ [x])) by (intros; apply in_app_iff; auto).
  assert (T : forall e (l : list event), incl l (e :: l)) by (intros e l x; now right).
  assert (RF : forall l : list event, incl l l) by (intros l x; auto).
  destruct H;
    try (apply (OwX_heap _ s); simpl; rewrite ?send_down_log, ?send_down_q, ?send_down_heap; simpl; auto; fail).
  - unfold StoreModel.arrive1, new_dispatch. destruct futures; simpl.
    + apply (OwX_new _ s _ KDisp); simpl; auto. right. right. left.
      exists (JReduce (ndisp s) (Some (length (heap s))) a). split; [|reflexivity]. simpl.
      apply in_app_iff. right. now left.
    + apply (OwX_heap _ s); simpl; auto.
  - apply (OwX_new _ s _ KUser); simpl; auto.
  - eapply (OwX_upd _ s); [| |exact H|reflexivity|reflexivity| |exact I]; simpl; auto. discriminate.
  - eapply (OwX_upd _ s); [| |exact H|reflexivity|reflexivity| |exact I]; simpl; auto.
    intros j Ej. specialize (DONE _ _ H eq_refl). simpl in DONE. congruence.
  - eapply (OwX_upd _ s); [| |exact H|reflexivity|reflexivity| |exact I]; simpl; auto.
    intros j0 Ej. injection Ej as <-. apply in_app_iff. right. now left.
  - eapply (OwX_upd _ s); [| |exact H|reflexivity|reflexivity| |exact I]; simpl; auto. discriminate.
  - (* stored *)
    assert (L : f < length (heap s)) by (apply nth_error_Some; congruence).
    assert (N : forall y m, nth_error (set_nth f y (heap s ++ [Cell (ckind_of c) false false None])) m =
              if m =? f then Some y else nth_error (heap s ++ [Cell (ckind_of c) false false None]) m).
    { intros y m. rewrite nth_set_nth.
      assert (LL : f <? length (heap s ++ [@Cell M A W (ckind_of c) false false None]) = true)
        by (apply Nat.ltb_lt; rewrite app_length; simpl; lia).
      now rewrite LL, andb_true_r. }
    revert I. apply OwX_mono; simpl; auto.
    + intros f' c' j K1 K2. right. rewrite N. destruct (Nat.eqb_spec f' f) as [->|NE].
      * exfalso. rewrite H in K1. injection K1 as <-. discriminate.
      * exists c'. split; auto. rewrite nth_error_app1; auto. apply nth_error_Some. congruence.
    + intros n c' K. rewrite N in K. destruct (Nat.eqb_spec n f) as [->|NE].
      * injection K as <-. left. eauto.
      * apply (heap_new _ _ _ s (ckind_of c)) in K as [K|[-> ->]]; [left; eauto|].
        right. right. right. right.
        exists f, (Cell k false false (Some (JCb f c (length (heap s))))), (JCb f c (length (heap s))).
        split; [simpl; rewrite N, Nat.eqb_refl; reflexivity|]. split; auto. destruct c; simpl; auto.
  - (* posted *)
    assert (L : f < length (heap s)) by (apply nth_error_Some; congruence).
    assert (N : forall y m, nth_error (set_nth f y (heap s ++ [Cell (ckind_of c) false false None])) m =
              if m =? f then Some y else nth_error (heap s ++ [Cell (ckind_of c) false false None]) m).
    { intros y m. rewrite nth_set_nth.
      assert (LL : f <? length (heap s ++ [@Cell M A W (ckind_of c) false false None]) = true)
        by (apply Nat.ltb_lt; rewrite app_length; simpl; lia).
      now rewrite LL, andb_true_r. }
    revert I. apply OwX_mono; simpl; auto.
    + intros f' c' j K1 K2. right. rewrite N. destruct (Nat.eqb_spec f' f) as [->|NE].
      * exfalso. rewrite H in K1. injection K1 as <-. discriminate.
      * exists c'. split; auto. rewrite nth_error_app1; auto. apply nth_error_Some. congruence.
    + intros n c' K. rewrite N in K. destruct (Nat.eqb_spec n f) as [->|NE].
      * injection K as <-. left. eauto.
      * apply (heap_new _ _ _ s (ckind_of c)) in K as [K|[-> ->]]; [left; eauto|].
        right. right. right. left. exists (JCb f c (length (heap s))).
        split; [simpl; apply in_app_iff; right; now left|]. destruct c; simpl; auto.
Qed.
Lemma csteps_OwX : forall X s s', csteps s s' -> JInv s -> OwX X s -> OwX X s'.
Proof.
  induction 1 as [s|s s1 s2 H IH H0]; auto. intros J I. eapply cstep_OwX; eauto.
  eapply (steps_JInv _ _ _ reducer eqb trans futures s); [|auto]. now apply csteps_steps.
Qed.

Definition none (n : nat) : Prop := False.
Lemma OwX_pop : forall s j r, q s = j :: r -> OwX none s -> OwX (owns j) (set_q r s).
Proof.
  intros s j r E I n c Hn. destruct (I n c Hn) as [H|[[]|[H|[(j' & K1 & K2)|H]]]]; auto.
  - right. right. left. exact H.
  - rewrite E in K1. destruct K1 as [<-|K1]; auto. right. right. right. left. eauto.
  - right. right. right. right. exact H.
Qed.
Lemma OwX_end : forall (X : nat -> Prop) s, OwX X s -> (forall n, X n -> Ow n s) -> OwX none s.
Proof. intros X s I H n c Hn. destruct (I n c Hn) as [K|[K|K]]; auto. Qed.
Lemma OwX_emit : forall X e s, OwX X s -> OwX X (emit e s).
Proof. intros X e s. apply OwX_heap; simpl; auto. intros x; now right. Qed.
Lemma OwX_push_down : forall X m s, OwX X s -> OwX X (push_down eqb m s).
Proof.
  intros X m s. apply OwX_heap; rewrite ?push_down_log, ?push_down_q, ?push_down_heap; auto. intros x; auto.
Qed.
Lemma OwX_send_down : forall X s, OwX X s -> OwX X (send_down s).
Proof.
  intros X s. apply OwX_heap; rewrite ?send_down_log, ?send_down_q, ?send_down_heap; auto. intros x; auto.
Qed.
Lemma OwX_starts : forall X id e s, OwX X s -> OwX X (starts id e s).
Proof.
  intros X id e s I. unfold StoreSteps.starts.
  destruct trans; [|apply OwX_send_down]; now apply OwX_emit.
Qed.
Lemma Ow_push : forall n j (s : st), owns j n -> Ow n (push_job j s).
Proof. intros n j s H. right. left. exists j. split; auto. simpl. apply in_app_iff. right. now left. Qed.
Lemma OwX_push_job : forall X j s, OwX X s -> OwX X (push_job j s).
Proof. intros X j s. apply OwX_heap; simpl; auto. - intros x; auto. - intros; apply in_app_iff; auto. Qed.

Lemma jobrun_OwX : forall s j r s', q s = j :: r -> JInv s -> jobrun s r j false s' ->
  OwX none s -> OwX none s'.
Proof.
  intros s j r s' E J H I. pose proof (OwX_pop _ _ _ E I) as I0.
  assert (J0 : forall s1 s2, steps s s1 -> csteps s1 s2 -> steps s s2).
  { intros s1 s2 S1 C. eapply steps_trans; [exact S1|now apply csteps_steps]. }
  assert (JJ : forall s1, steps s s1 -> JInv s1) by (intros; eapply steps_JInv; eauto).
  remember false as b eqn:Eb. destruct H; try discriminate Eb; clear Eb.
  - apply (OwX_end (@owns M A W (JReduce id p a))).
    + now apply OwX_push_down, OwX_push_job, OwX_emit.
    + intros n Hn. simpl in Hn. subst.
      eapply (Ow_mono n (push_job (JEffect id (Some n) e) (emit (ERed id m true) (set_q r s))));
        rewrite ?push_down_log, ?push_down_q, ?push_down_heap; auto; try (intros x; auto; fail).
      * eauto.
      * now apply Ow_push.
  - apply (OwX_end (@owns M A W (JReduce id p a))).
    + now apply OwX_push_down, OwX_push_job, OwX_emit.
    + intros n Hn. simpl in Hn. subst.
      eapply (Ow_mono n (push_job (JNotify id (Some n)) (emit (ERed id m false) (set_q r s))));
        rewrite ?push_down_log, ?push_down_q, ?push_down_heap; auto; try (intros x; auto; fail).
      * eauto.
      * now apply Ow_push.
  - apply (OwX_end (@owns M A W (JReduce id p a))).
    + eapply csteps_OwX; eauto.
      * apply JJ, jstep1. eapply j_red_trans; eauto.
      * now apply OwX_push_down, OwX_emit.
    + intros n Hn. left. auto.
  - apply (OwX_end (@owns M A W (JEffect id p e))).
    + assert (S0 : steps s (starts id e (set_q r s))) by (apply jstep1; now apply j_begin with p).
      assert (S1 : steps s s1) by (eapply J0; [exact S0|exact H]).
      assert (BE : In (EBegin id e) (log s1)).
      { apply csteps_steps with (reducer := reducer) (eqb := eqb) in H as C.
        destruct (steps_log _ _ _ _ _ _ _ _ _ C) as (l & El). rewrite El.
        rewrite starts_log. apply in_app_iff. right. now left. }
      assert (S2 : steps s s3).
      { eapply J0; [|exact H1]. eapply ss_j; [exact S1|]. now apply j_eff. }
      eapply csteps_OwX; [exact H2| |].
      * apply JJ. eapply ss_j; [exact S2|]. apply j_eff_end. exists (last s1), e.
        apply csteps_steps with (reducer := reducer) (eqb := eqb) in H1.
        destruct (steps_log _ _ _ _ _ _ _ _ _ H1) as (l & El). rewrite El.
        apply in_app_iff. right. now left.
      * apply OwX_emit. eapply csteps_OwX; [exact H1| |].
        -- apply JJ. eapply ss_j; [exact S1|]. now apply j_eff.
        -- apply OwX_emit. eapply csteps_OwX; [exact H| |].
           ++ now apply JJ.
           ++ now apply OwX_starts.
    + exact H3.
  - apply (OwX_end (@owns M A W (JNotify id p))).
    + assert (OK : jok trans (log s) (JNotify id p)).
      { destruct J as [J _]. rewrite E in J. now inversion J. }
      destruct OK as [_ [(m0 & OK2) OK3]].
      assert (S1 : steps s s1) by (eapply J0; [apply jstep1; eapply j_note; eauto|exact H]).
      eapply csteps_OwX; [exact H0| |].
      * apply JJ. eapply ss_j; [exact S1|]. apply j_told; auto. exists m0.
        destruct (steps_log _ _ _ _ _ _ _ _ _ S1) as (l & El). rewrite El. apply in_app_iff. now right.
      * apply OwX_emit. eapply csteps_OwX; [exact H| |now apply OwX_send_down].
        apply JJ, jstep1. eapply j_note; eauto.
    + intros n Hn. left. auto.
  - apply (OwX_end (@owns M A W (JUser p))); [|intros n []].
    eapply csteps_OwX; [eassumption| |auto]. apply JJ, jstep1. eapply j_user; eauto.
  - apply (OwX_end (@owns M A W (JCb f (CBUser c) n))).
    + assert (OK : jok trans (log s) (JCb f (CBUser c) n)).
      { destruct J as [J _]. rewrite E in J. now inversion J. }
      destruct OK as [OK1 [OK2 OK3]].
      assert (S0 : steps s (emit (ECb n c) (set_q r s))) by (apply jstep1; eapply j_cb; eauto).
      assert (S1 : steps s s1) by (eapply J0; [exact S0|exact H]).
      apply csteps_steps with (reducer := reducer) (eqb := eqb) in H as C0.
      destruct (steps_log _ _ _ _ _ _ _ _ _ C0) as (l & El).
      destruct (steps_log _ _ _ _ _ _ _ _ _ S1) as (l' & El').
      eapply csteps_OwX; [exact H1| |].
      * apply JJ. eapply ss_j; [exact S1|]. apply j_cb_end.
        exists f, c. split; [rewrite El; apply in_app_iff; right; now left|].
        rewrite El'. split; [|split]; auto; apply in_app_iff; now right.
      * apply OwX_emit. eapply csteps_OwX; [exact H|now apply JJ|now apply OwX_emit].
    + intros n' Hn. simpl in Hn. now subst.
  - apply (OwX_end (@owns M A W (JCb f (CBFulfil m) n))).
    + eapply csteps_OwX; [exact H| |auto]. apply JJ, jstep1. eapply j_link; eauto.
    + intros n' [<-|<-]; left; auto.
Qed.
Lemma bsteps_Own : forall s s', bsteps s s' -> JInv s ->
  (no_failure (log s) -> OwX none s) -> no_failure (log s') -> OwX none s'.
Proof.
  apply (bsteps_inv (fun s => no_failure (log s) -> OwX none s)).
  - intros s s' H J I F. eapply cstep_OwX; eauto. apply I. intros K. apply F.
    destruct (cstep_log _ _ _ _ _ _ _ H) as (l & ->). apply in_app_iff. now right.
  - intros b s I F. exact (I F).
  - intros s j r s' E J H I F. eapply jobrun_OwX; eauto. apply I. intros K. apply F.
    pose proof (jobrun_steps _ _ _ _ _ _ _ _ _ _ _ _ J E H) as S1.
    destruct (steps_log _ _ _ _ _ _ _ _ _ S1) as (l & ->). apply in_app_iff. now right.
  - intros s j r s' E J H I F. exfalso. apply F. now left.
Qed.

End Jobs.
