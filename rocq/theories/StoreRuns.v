(** What the log says starts does start: an effect or callback whose first statement
    is a mark leaves that mark. *)
From Coq Require Import List Arith Bool Lia.
From Verif Require Import StoreModel StoreSpec StoreSteps StoreTold StoreQuiet.
Import ListNotations.

Section Runs.
Variables M A W : Type.
Notation prog := (prog M A W).
Notation event := (event M A W).
Notation job := (job M A W).
Notation st := (st M A W).
Notation res := (res M A W).
Variable reducer : M -> A -> option (M * option prog).
Variable eqb : M -> M -> bool.
Variables trans futures manual : bool.
Variable ext : nat -> list A.
Notation exec := (exec reducer eqb trans futures manual ext).
Notation arrive := (arrive futures manual ext).
Notation fin := (fin M A W).

Definition program (e : event) : option prog :=
  match e with EEff _ _ p => Some p | ECb _ p => Some p | _ => None end.
Definition disps (l : list event) : Prop := Forall (fun e => exists i a f, e = EDisp i a f) l.
Definition followed (l : list event) : Prop :=
  forall l1 e n k l2, l = l1 ++ e :: l2 -> program e = Some (PMark n k) ->
  exists l3 ds, l1 = l3 ++ EMark n :: ds /\ disps ds.
Definition F (s : st) : Prop := followed (log s).

Lemma followed_cons : forall e l, followed l -> (forall n k, program e <> Some (PMark n k)) -> followed (e :: l).
Proof.
  intros e l H N [|x l1] e' n k l2 E HP; simpl in E; injection E as -> E.
  - now apply N in HP.
  - destruct (H _ _ _ _ _ E HP) as (l3 & ds & -> & D). exists (x :: l3), ds. auto.
Qed.
Lemma followed_mark : forall ds e n k l, disps ds -> program e = Some (PMark n k) -> followed l ->
  followed (EMark n :: ds ++ e :: l).
Proof.
  intros ds e n k l D HP H l1 e' n' k' l2 E HP'.
  destruct l1 as [|x l1]; simpl in E; injection E as <- E; [discriminate|].
  assert (X : forall ds l1, disps ds -> ds ++ e :: l = l1 ++ e' :: l2 ->
    (ds = l1 /\ e = e') \/ exists l1', l1 = ds ++ e :: l1' /\ l = l1' ++ e' :: l2).
  { clear - HP'. induction ds as [|d ds IH]; intros [|x l1] D E; simpl in E; injection E as <- E; subst; auto.
    - right. exists l1. auto.
    - inversion D as [|? ? (i & a & f & ->) ?]; subst. discriminate.
    - inversion D; subst. destruct (IH l1) as [[-> ->]|(l1' & -> & E2)]; auto. right. exists l1'. auto. }
  destruct (X ds l1 D E) as [[-> ->]|(l1' & -> & E2)].
  - rewrite HP' in HP. injection HP as -> ->. exists [], l1. auto.
  - destruct (H _ _ _ _ _ E2 HP') as (l3 & ds' & -> & D').
    exists (EMark n :: ds ++ e :: l3), ds'. simpl. now rewrite <- app_assoc.
Qed.
Lemma F_emit : forall e s, F s -> program e = None -> F (emit e s).
Proof. intros e s H E. apply followed_cons; auto. intros. congruence. Qed.
Lemma followed_disps : forall ds l, disps ds -> followed l -> followed (ds ++ l).
Proof.
  induction ds as [|e ds IH]; intros l D H; auto. inversion D as [|? ? (i & a & f & ->) ?]; subst.
  apply followed_cons; auto. discriminate.
Qed.
Lemma F_arrive : forall s, F s -> F (arrive s).
Proof.
  intros s H. unfold F. destruct (arrive_log M A W futures manual ext s) as (l & -> & D).
  now apply followed_disps.
Qed.
Lemma F_eq : forall s s', F s -> log s' = log s -> F s'.
Proof. intros s s' H E. unfold F. now rewrite E. Qed.
Lemma F_send : forall s, F s -> F (send_down s).
Proof. intros s H. eapply F_eq; eauto. apply send_down_log. Qed.
Lemma F_push : forall m s, F s -> F (push_down eqb m s).
Proof. intros m s H. eapply F_eq; eauto. apply push_down_log. Qed.
Lemma F_disp : forall a s s1 f j, F s -> new_dispatch futures a s = (s1, f, j) -> F s1.
Proof.
  intros a s s1 f j H E. unfold F. rewrite (new_dispatch_log M A W futures a s s1 f j E).
  apply followed_cons; auto. discriminate.
Qed.
Lemma F_bind : forall r k, fin F r -> (forall f s, F s -> fin F (k f s)) -> fin F (andthen r k).
Proof. intros r k H H0. eapply fin_andthen; eauto. Qed.
Lemma F_throw : forall r e, fin F r -> program e = None -> fin F (on_throw r (emit e)).
Proof. intros [f s|s| | |] e H E; simpl in *; auto. now apply F_emit. Qed.

Ltac fr := repeat first
  [ assumption | reflexivity
  | apply F_emit | apply F_arrive | apply F_send | apply F_push
  | match goal with |- F (set_q _ ?b) => apply (F_eq b); [|reflexivity] end
  | match goal with |- F (set_busy _ ?b) => apply (F_eq b); [|reflexivity] end
  | match goal with |- F (set_world _ ?b) => apply (F_eq b); [|reflexivity] end
  | match goal with |- F (set_slots _ ?b) => apply (F_eq b); [|reflexivity] end
  | match goal with |- F (set_nn _ ?b) => apply (F_eq b); [|reflexivity] end
  | match goal with |- F (push_job _ ?b) => apply (F_eq b); [|reflexivity] end
  | match goal with |- F (new_cell _ ?b) => apply (F_eq b); [|reflexivity] end
  | match goal with |- F (upd_cell _ _ ?b) => apply (F_eq b); [|reflexivity] end ].
(** A program started with a record of it. *)
Lemma start_F : forall fl, (forall fl', fl' < fl -> forall t s, F s -> fin F (exec fl' t s)) ->
  (forall t s, F s -> fin F (exec fl t s)) ->
  forall p e s, program e = Some p -> F s -> fin F (exec fl (TProg p) (emit e s)).
Proof.
  intros fl IH0 IH p e s HP H.
  destruct p; try (apply IH; apply followed_cons; auto; intros n0 k0; congruence).
  destruct fl as [|fl]; [exact Logic.I|]. cbn [StoreModel.exec]. apply IH0; [lia|].
  unfold F. simpl. destruct (arrive_log M A W futures manual ext (emit e s)) as (l & E & D). rewrite E.
  simpl. eapply followed_mark; eauto.
Qed.
Lemma exec_F : forall fl t s, F s -> fin F (exec fl t s).
Proof.
  intros fl. induction fl as [fl IH0] using lt_wf_ind.
  destruct fl as [|fl]; intros t s H; [exact Logic.I|].
  assert (E : forall t s, F s -> fin F (exec fl t s)) by (apply IH0; lia).
  assert (ST : forall p e s, program e = Some p -> F s -> fin F (exec fl (TProg p) (emit e s))).
  { apply start_F; auto. }
  clear IH0. cbn [StoreModel.exec]. destruct t as [p|j| | |j| |i|n|[f|] c].
  - set (s' := arrive s). assert (G0 : F s') by (unfold s'; fr). clearbody s'.
    destruct p; try (apply E; fr; fail); try (simpl; fr; fail).
    + destruct (new_dispatch futures a s') as [[s1 f] j] eqn:EN.
      apply F_bind; [apply E; eapply F_disp; eauto|]. intros; apply E; fr.
    + apply F_bind; [apply E; fr|]; intros; apply E; fr.
    + apply F_bind; [apply E; fr|]; intros; apply E; fr.
    + destruct (nth_error (heap s') n) as [[[| | |] d l c]|]; try exact Logic.I.
      apply F_bind; [apply E; fr|]; intros; apply E; fr.
    + apply F_bind; [apply E; fr|]; intros; apply E; fr.
    + destruct (nth_error (slots s') i) as [[w|]|]; apply E; fr.
    + destruct (manual || busy s'); [exact Logic.I|].
      apply F_bind; [apply E; fr|]; intros; apply E; fr.
    + pose proof (E (TProg p) s' G0) as X.
      destruct (exec fl (TProg p) s') as [f s1|s1| | |]; try exact Logic.I; simpl in X; now apply E.
  - destruct (manual && negb (busy s)); [apply E; fr|simpl; fr].
  - pose proof (E TDrain (set_busy true s)) as X.
    destruct (exec fl TDrain (set_busy true s)) as [f s1|s1| | |]; try exact Logic.I;
      (simpl; fr; apply X; fr).
  - set (s' := arrive s). assert (G0 : F s') by (unfold s'; fr). clearbody s'.
    destruct (q s') as [|j r]; [simpl; fr|].
    apply F_bind; [apply F_throw; [apply E; fr|reflexivity]|]. intros; apply E; fr.
  - destruct j as [id p a|id p e|id p|p|f c n].
    + destruct (reducer (cur s) a) as [[m [e|]]|]; [| |simpl; fr].
      * apply F_bind; [apply E; fr|]. intros; simpl; fr.
      * apply F_bind; [|intros; simpl; fr].
        destruct (bool_dec trans true) as [ET|ET].
        -- rewrite ET at 1. destruct p as [n|]; [apply E; fr|simpl; fr].
        -- apply not_true_is_false in ET. rewrite ET at 1. apply E; fr.
    + apply F_bind; [|intros f s1 G1; apply F_bind; [now apply ST|]].
      * destruct (bool_dec trans true) as [ET|ET]; [|apply not_true_is_false in ET]; rewrite ET at 1;
          [simpl; fr|apply F_throw; [apply E; fr|reflexivity]].
      * intros f' s2 G2. destruct p; [apply E; fr|simpl; fr].
    + apply F_bind; [apply E; fr|]. intros f s1 G1. destruct p; [apply E; fr|simpl; fr].
    + apply E; fr.
    + destruct c as [c|m].
      * apply F_bind; [now apply ST|]. intros; apply E; fr.
      * apply F_bind; [apply E; fr|]. intros; apply E; fr.
  - destruct (nn s && negb (nsd s)); [apply E; fr|simpl; fr].
  - destruct (nth_error (slots s) i) as [[w|]|]; [|apply E; fr|simpl; fr].
    apply F_bind; [apply F_throw; [apply E; fr|reflexivity]|]. intros; apply E; fr.
  - destruct (nth_error (heap s) n) as [[k [|] [|] [j|]]|]; try exact Logic.I; try (simpl; fr; fail).
    match goal with |- context [exec fl ?t ?x] => assert (X : fin F (exec fl t x)) by (apply E; fr);
      destruct (exec fl t x) as [f s1|s1| | |]; try exact Logic.I; simpl in X |- *; fr end.
  - destruct (nth_error (heap s) f) as [[k d [|] [j|]]|]; try exact Logic.I.
    assert (X : F (emit (match c with CBUser c0 => EThen f (length (heap s)) c0 | CBFulfil m => ELink f m (length (heap s)) end)
      (new_cell (match c with CBUser _ => KThen | CBFulfil _ => KLink end) s))).
    { apply F_emit; [fr|now destruct c]. }
    destruct d.
    + match goal with |- context [exec fl ?t ?x] => assert (Y : fin F (exec fl t x)) by (apply E; fr);
        destruct (exec fl t x) as [f1 s1|s1| | |]; try exact Logic.I; simpl in Y |- *; fr end.
    + simpl. fr.
  - destruct c; apply E; fr.
Qed.
Lemma reach_F : forall m0 s, reach reducer eqb trans futures manual ext m0 s -> F s.
Proof.
  intros m0 s H. induction H as [w|fl p s s' H IH HF|fl s s' H IH HF].
  - intros [|x l1] e n k l2 E; discriminate.
  - pose proof (exec_F fl (TProg p) s IH) as X. destruct HF as [[f E]|E]; rewrite E in X; exact X.
  - pose proof (exec_F fl TRun s IH) as X. destruct HF as [[f E]|E]; rewrite E in X; exact X.
Qed.
Lemma effect_starts : forall m0 s, reach reducer eqb trans futures manual ext m0 s ->
  forall l1 id m n k l2, log s = l1 ++ EEff id m (PMark n k) :: l2 ->
  exists l3 ds, l1 = l3 ++ EMark n :: ds /\ disps ds.
Proof. intros m0 s H l1 id m n k l2 E. eapply (reach_F m0 s H); eauto. reflexivity. Qed.
Lemma callback_starts : forall m0 s, reach reducer eqb trans futures manual ext m0 s ->
  forall l1 j n k l2, log s = l1 ++ ECb j (PMark n k) :: l2 ->
  exists l3 ds, l1 = l3 ++ EMark n :: ds /\ disps ds.
Proof. intros m0 s H l1 j n k l2 E. eapply (reach_F m0 s H); eauto. reflexivity. Qed.
End Runs.
