(** What calls do not do: the log only grows, a drained loop is empty, and a
    transactional store shows nothing between commits. *)
From Coq Require Import List Arith Bool Lia.
From Verif Require Import StoreModel StoreSpec StoreSteps StoreTold.
Import ListNotations.

Section Quiet.
Variables M A W : Type.
Notation prog := (prog M A W).
Notation event := (event M A W).
Notation job := (job M A W).
Notation st := (st M A W).
Notation res := (res M A W).
Notation cell := (cell M A W).
Variable reducer : M -> A -> option (M * option prog).
Variable eqb : M -> M -> bool.
Variables trans futures manual : bool.
Variable ext : nat -> list A.
Notation exec := (exec reducer eqb trans futures manual ext).
Notation arrive := (arrive futures manual ext).
Notation arrive1 := (arrive1 futures).
Notation fin := (fin M A W).

(** *** The log grows *)
Definition grow (s s' : st) : Prop := exists l, log s' = l ++ log s.
Lemma grow_refl : forall s, grow s s.
Proof. intros s. now exists []. Qed.
Lemma grow_trans : forall a b c, grow a b -> grow b c -> grow a c.
Proof. intros a b c [l H] [l' H']. exists (l' ++ l). rewrite H', H. apply app_assoc. Qed.
Lemma grow_eq : forall a b b', grow a b -> log b' = log b -> grow a b'.
Proof. intros a b b' [l H] E. exists l. congruence. Qed.
Lemma grow_emit : forall a b e, grow a b -> grow a (emit e b).
Proof. intros a b e [l H]. exists (e :: l). simpl. now rewrite H. Qed.
Lemma new_dispatch_log : forall a (s s1 : st) f j, new_dispatch futures a s = (s1, f, j) ->
  log s1 = EDisp (ndisp s) a f :: log s.
Proof. intros a s s1 f j H. unfold new_dispatch in H. destruct futures; now injection H as <- <- <-. Qed.
Lemma arrive1_log : forall (s : st) a, exists f, log (arrive1 s a) = EDisp (ndisp s) a f :: log s.
Proof.
  intros s a. unfold StoreModel.arrive1. destruct (new_dispatch futures a s) as [[s1 f] j] eqn:E.
  exists f. simpl. eapply new_dispatch_log; eauto.
Qed.
Lemma arrive_log : forall s, exists l, log (arrive s) = l ++ log s /\
  Forall (fun e : event => exists i a f, e = EDisp i a f) l.
Proof.
  intros s. unfold StoreModel.arrive. destruct manual; [exists []; split; auto|]. simpl.
  assert (X : forall l (s : st), exists l', log (fold_left arrive1 l s) = l' ++ log s /\
    Forall (fun e : event => exists i a f, e = EDisp i a f) l'); [|apply X].
  induction l as [|a l IH]; intros s0; simpl; [exists []; split; auto|].
  destruct (IH (arrive1 s0 a)) as (l' & E & F). destruct (arrive1_log s0 a) as [f Ef].
  rewrite E, Ef. exists (l' ++ [EDisp (ndisp s0) a f]). split; [now rewrite <- app_assoc|].
  apply Forall_app. split; auto. constructor; eauto.
Qed.
Lemma grow_arrive : forall a b, grow a b -> grow a (arrive b).
Proof.
  intros a b H. eapply grow_trans; eauto. destruct (arrive_log b) as (l & E & _). now exists l.
Qed.
Lemma grow_send : forall a b, grow a b -> grow a (send_down b).
Proof. intros a b H. eapply grow_eq; eauto. apply send_down_log. Qed.
Lemma grow_push : forall a b m, grow a b -> grow a (push_down eqb m b).
Proof. intros a b m H. eapply grow_eq; eauto. apply push_down_log. Qed.
Lemma grow_disp : forall a x b s1 f j, grow x b -> new_dispatch futures a b = (s1, f, j) -> grow x s1.
Proof.
  intros a x b s1 f j H E. eapply grow_trans; eauto. exists [EDisp (ndisp b) a f].
  eapply new_dispatch_log; eauto.
Qed.
Lemma fin_grow : forall a b r, grow a b -> fin (grow b) r -> fin (grow a) r.
Proof. intros a b r H H0. eapply fin_impl; eauto. intros. eapply grow_trans; eauto. Qed.
Lemma grow_bind : forall s r k, fin (grow s) r -> (forall f s', grow s s' -> fin (grow s) (k f s')) ->
  fin (grow s) (andthen r k).
Proof. intros s r k H H0. eapply fin_andthen; eauto. Qed.
Lemma grow_throw : forall s r e, fin (grow s) r -> fin (grow s) (on_throw r (emit e)).
Proof. intros s [f s'|s'| | |] e H; simpl in *; auto. now apply grow_emit. Qed.

Ltac gr := repeat first
  [ apply grow_refl | assumption
  | apply grow_emit | apply grow_arrive | apply grow_send | apply grow_push
  | match goal with |- grow ?a (set_q _ ?b) => apply (grow_eq a b); [|reflexivity] end
  | match goal with |- grow ?a (set_busy _ ?b) => apply (grow_eq a b); [|reflexivity] end
  | match goal with |- grow ?a (set_world _ ?b) => apply (grow_eq a b); [|reflexivity] end
  | match goal with |- grow ?a (set_slots _ ?b) => apply (grow_eq a b); [|reflexivity] end
  | match goal with |- grow ?a (set_nn _ ?b) => apply (grow_eq a b); [|reflexivity] end
  | match goal with |- grow ?a (push_job _ ?b) => apply (grow_eq a b); [|reflexivity] end
  | match goal with |- grow ?a (new_cell _ ?b) => apply (grow_eq a b); [|reflexivity] end
  | match goal with |- grow ?a (upd_cell _ _ ?b) => apply (grow_eq a b); [|reflexivity] end ].
Lemma exec_grow : forall fl t s, fin (grow s) (exec fl t s).
Proof.
  induction fl as [|fl IH]; intros t s; [exact Logic.I|].
  assert (E : forall t s', grow s s' -> fin (grow s) (exec fl t s')) by (intros; eapply fin_grow; eauto).
  cbn [StoreModel.exec]. destruct t as [p|j| | |j| |i|n|[f|] c].
  - set (s' := arrive s). assert (G0 : grow s s') by (unfold s'; gr). clearbody s'.
    destruct p; try (apply E; gr; fail); try (simpl; gr; fail).
    + destruct (new_dispatch futures a s') as [[s1 f] j] eqn:EN.
      apply grow_bind; [apply E; eapply grow_disp; eauto|]. intros; apply E; gr.
    + apply grow_bind; [apply E; gr|]; intros; apply E; gr.
    + apply grow_bind; [apply E; gr|]; intros; apply E; gr.
    + destruct (nth_error (heap s') n) as [[[| | |] d l c]|]; try exact Logic.I.
      apply grow_bind; [apply E; gr|]; intros; apply E; gr.
    + apply grow_bind; [apply E; gr|]; intros; apply E; gr.
    + destruct (nth_error (slots s') i) as [[w|]|]; apply E; gr.
    + destruct (manual || busy s'); [exact Logic.I|].
      apply grow_bind; [apply E; gr|]; intros; apply E; gr.
    + specialize (E (TProg p) s' G0). specialize (IH). 
      destruct (exec fl (TProg p) s') as [f s1|s1| | |]; try exact Logic.I; simpl in E;
        (eapply fin_grow; [exact E|apply IH]).
  - destruct (manual && negb (busy s)); [apply E; gr|simpl; gr].
  - pose proof (E TDrain (set_busy true s)) as X. 
    destruct (exec fl TDrain (set_busy true s)) as [f s1|s1| | |]; try exact Logic.I;
      (simpl; gr; apply X; gr).
  - set (s' := arrive s). assert (G0 : grow s s') by (unfold s'; gr). clearbody s'.
    destruct (q s') as [|j r]; [simpl; gr|].
    apply grow_bind; [apply grow_throw; apply E; gr|]. intros; apply E; gr.
  - destruct j as [id p a|id p e|id p|p|f c n].
    + destruct (reducer (cur s) a) as [[m [e|]]|]; [| |simpl; gr].
      * apply grow_bind; [apply E; gr|]. intros; simpl; gr.
      * apply grow_bind; [|intros; simpl; gr].
        destruct (bool_dec trans true) as [ET|ET].
        -- rewrite ET at 1. destruct p as [n|]; [apply E; gr|simpl; gr].
        -- apply not_true_is_false in ET. rewrite ET at 1. apply E; gr.
    + apply grow_bind; [|intros f s1 G1; apply grow_bind; [apply E; gr|]].
      * destruct (bool_dec trans true) as [ET|ET]; [|apply not_true_is_false in ET]; rewrite ET at 1;
          [simpl; gr|apply grow_throw, E; gr].
      * intros f' s2 G2. destruct p; [apply E; gr|simpl; gr].
    + apply grow_bind; [apply E; gr|]. intros f s1 G1. destruct p; [apply E; gr|simpl; gr].
    + apply E; gr.
    + destruct c as [c|m].
      * apply grow_bind; [apply E; gr|]. intros; apply E; gr.
      * apply grow_bind; [apply E; gr|]. intros; apply E; gr.
  - destruct (nn s && negb (nsd s)); [apply E; gr|simpl; gr].
  - destruct (nth_error (slots s) i) as [[w|]|]; [|apply E; gr|simpl; gr].
    apply grow_bind; [apply grow_throw, E; gr|]. intros; apply E; gr.
  - destruct (nth_error (heap s) n) as [[k [|] [|] [j|]]|]; try exact Logic.I; try (simpl; gr; fail).
    set (s1 := emit (EDone n) (upd_cell n (Cell k false true None) s)).
    pose proof (E (TPost j) s1) as X.
    destruct (exec fl (TPost j) s1) as [f s2|s2| | |]; try exact Logic.I;
      (simpl; gr; apply X; unfold s1; gr).
  - destruct (nth_error (heap s) f) as [[k d [|] [j|]]|]; try exact Logic.I.
    set (s1 := emit _ _). assert (G1 : grow s s1) by (unfold s1; gr). clearbody s1.
    destruct d; [|simpl; gr].
    pose proof (E (TPost (JCb f c (length (heap s)))) (upd_cell f (Cell k true true None) s1)) as X.
    destruct (exec fl (TPost (JCb f c (length (heap s)))) (upd_cell f (Cell k true true None) s1)) as [f' s2|s2| | |];
      try exact Logic.I; (simpl; gr; apply X; gr).
  - destruct c; apply E; gr.
Qed.

(** *** A drained loop is empty *)
Lemma drain_empty : forall fl s f s', exec fl TDrain s = Done f s' -> q s' = [].
Proof.
  induction fl as [|fl IH]; intros s f s' H; [discriminate|]. cbn [StoreModel.exec] in H.
  destruct (q (arrive s)) as [|j r] eqn:E; [injection H as <- <-; auto|].
  destruct (exec fl (TJob j) (set_q r (arrive s))) as [f1 s1|s1| | |]; simpl in H; try discriminate. eauto.
Qed.
Lemma run_empty : forall fl s f s', exec fl TRun s = Done f s' -> q s' = [].
Proof.
  intros [|fl] s f s' H; [discriminate|]. cbn [StoreModel.exec] in H.
  destruct (exec fl TDrain (set_busy true s)) as [f1 s1|s1| | |] eqn:E; try discriminate.
  injection H as <- <-. simpl. eapply drain_empty; eauto.
Qed.

(** On the manual loop nothing is left when control is back at the client. *)
Definition EB (s : st) : Prop := busy s = false /\ (In EFail (log s) \/ q s = []).
Lemma EB_same : forall s s', busy s' = busy s -> q s' = q s -> grow s s' -> EB s -> EB s'.
Proof.
  intros s s' B Q [l G] [H1 [H2|H2]]; split; try congruence; [left|right; congruence].
  rewrite G. apply in_or_app. auto.
Qed.
Definition client (t : task M A W) : Prop := match t with TDrain | TJob _ | TRun => False | _ => True end.
Lemma EB_bind : forall r k, fin EB r -> (forall f s', EB s' -> fin EB (k f s')) -> fin EB (andthen r k).
Proof. intros r k H H0. eapply fin_andthen; eauto. Qed.
Section Manual.
Hypothesis HM : manual = true.
Ltac ebs := match goal with H : EB ?s |- EB _ => apply (EB_same s); [reflexivity|reflexivity|gr|exact H] end.
Lemma exec_EB : forall fl t s, client t -> EB s -> fin EB (exec fl t s).
Proof.
  induction fl as [|fl IH]; intros t s HC H; [exact Logic.I|].
  assert (E : forall t s', client t -> EB s' -> fin EB (exec fl t s')) by (intros; eauto).
  cbn [StoreModel.exec]. destruct t as [p|j| | |j| |i|n|[f|] c]; try contradiction.
  - replace (arrive s) with s by (unfold StoreModel.arrive; now rewrite HM).
    destruct p; try (apply E; [exact Logic.I|]; first [exact H|ebs]; fail);
      try (exact H).
    + destruct (new_dispatch futures a s) as [[s1 f] j] eqn:EN.
      apply EB_bind; [|intros; apply E; auto; exact Logic.I]. apply E; [exact Logic.I|].
      eapply EB_same; [| | |exact H]; [| |eapply grow_disp; eauto; gr];
        unfold new_dispatch in EN; destruct futures; now injection EN as <- <- <-.
    + apply EB_bind; [|intros; apply E; auto; exact Logic.I]. apply E; auto; exact Logic.I.
    + apply EB_bind; [|intros; apply E; auto; exact Logic.I]. apply E; auto; exact Logic.I.
    + destruct (nth_error (heap s) n) as [[[| | |] d l c]|]; try exact Logic.I.
      apply EB_bind; [|intros; apply E; auto; exact Logic.I]. apply E; auto; exact Logic.I.
    + apply EB_bind; [|intros; apply E; auto; exact Logic.I]. apply E; [exact Logic.I|].
      eapply EB_same; [| | |exact H]; [rewrite send_down_busy|rewrite send_down_q|gr]; reflexivity.
    + destruct (nth_error (slots s) i) as [[w|]|]; apply E; auto; try exact Logic.I. ebs.
    + destruct (manual || busy s) eqn:EE; [exact Logic.I|]. rewrite HM in EE. discriminate.
    + specialize (E (TProg p) s Logic.I H).
      destruct (exec fl (TProg p) s) as [f s1|s1| | |]; try exact Logic.I; apply IH; auto; exact Logic.I.
  - destruct (manual && negb (busy s)) eqn:EE.
    + destruct fl as [|fl']; [exact Logic.I|]. cbn [StoreModel.exec].
      destruct (exec fl' TDrain (set_busy true (push_job j s))) as [f s1|s1| | |] eqn:ED; try exact Logic.I.
      * split; [reflexivity|]. right. simpl. eapply drain_empty; eauto.
      * split; [reflexivity|]. left. simpl. eapply drain_thrown; eauto.
    + rewrite HM in EE. destruct H as [H _]. rewrite H in EE. discriminate.
  - destruct (nn s && negb (nsd s)); [|exact H]. apply E; [exact Logic.I|]. ebs.
  - destruct (nth_error (slots s) i) as [[w|]|]; [|apply E; auto; exact Logic.I|exact H].
    apply EB_bind; [|intros; apply E; auto; exact Logic.I].
    specialize (E (TProg (w (last s))) (emit (ESee i (last s)) s) Logic.I).
    destruct (exec fl (TProg (w (last s))) (emit (ESee i (last s)) s)) as [f s1|s1| | |]; try exact Logic.I.
    + apply E. ebs.
    + split; [|left; now left]. simpl. apply E. ebs.
  - destruct (nth_error (heap s) n) as [[k [|] [|] [j|]]|]; try exact Logic.I;
      try (cbn [StoreTold.fin]; ebs; fail).
    set (s1 := emit (EDone n) (upd_cell n (Cell k false true None) s)).
    assert (X : fin EB (exec fl (TPost j) s1)).
    { apply E; [exact Logic.I|]. eapply EB_same; [| | |exact H]; [reflexivity|reflexivity|unfold s1; gr]. }
    destruct (exec fl (TPost j) s1) as [f s2|s2| | |]; try exact Logic.I; exact X.
  - destruct (nth_error (heap s) f) as [[k d [|] [j|]]|]; try exact Logic.I.
    set (s1 := emit _ _).
    assert (X0 : forall c, EB (upd_cell f c s1)).
    { intros c0. eapply EB_same; [| | |exact H]; [reflexivity|reflexivity|unfold s1; gr]. }
    destruct d; [|apply X0].
    assert (X : fin EB (exec fl (TPost (JCb f c (length (heap s)))) (upd_cell f (Cell k true true None) s1))).
    { apply E; [exact Logic.I|apply X0]. }
    destruct (exec fl (TPost (JCb f c (length (heap s)))) (upd_cell f (Cell k true true None) s1)) as [f' s2|s2| | |];
      try exact Logic.I; exact X.
  - destruct c; apply E; auto; exact Logic.I.
Qed.
End Manual.

(** *** Transactional stores *)
Definition okj (j : job) : Prop := match j with JNotify _ _ => False | _ => True end.
Definition okt (t : task M A W) : Prop :=
  match t with TPost j | TJob j => okj j | TNotify | TSlots _ => False | _ => True end.
Definition qok (s : st) : Prop :=
  (forall j, In j (q s) -> okj j) /\ (forall c j, In c (heap s) -> cb c = Some j -> okj j).
Definition Wk (s s' : st) : Prop := qok s' /\ commits (log s) <= commits (log s').
Definition Q (s s' : st) : Prop := Wk s s' /\
  (commits (log s') = commits (log s) -> last s' = last s /\ forall i, seen i (log s') = seen i (log s)).
Lemma Q_refl : forall s, qok s -> Q s s.
Proof. intros s H. split; [split; auto|auto]. Qed.
Lemma Q_trans : forall a b c, Q a b -> Q b c -> Q a c.
Proof.
  intros a b c [[H1 H2] H3] [[H4 H5] H6]. split; [split; auto; lia|]. intros E.
  destruct (H3 ltac:(lia)) as [E1 E2]. destruct (H6 ltac:(lia)) as [E3 E4].
  split; [congruence|]. intros i. now rewrite E4, E2.
Qed.
Lemma Wk_trans : forall a b c, Wk a b -> Wk b c -> Wk a c.
Proof. unfold Wk. intros a b c [] []. split; auto; lia. Qed.
Lemma Q_Wk : forall a b, Q a b -> Wk a b.
Proof. intros a b []. auto. Qed.
(** changes that matter to nothing here *)
Definition dull (e : event) : Prop := match e with ECommit | ESee _ _ => False | _ => True end.
Lemma dull_log : forall e (l : list event), dull e ->
  commits (e :: l) = commits l /\ forall i, seen i (e :: l) = seen i l.
Proof. intros e l H. destruct e; simpl in *; try contradiction; auto. Qed.
Lemma Q_same : forall s s', qok s' -> log s' = log s -> last s' = last s -> Q s s'.
Proof.
  intros s s' H E1 E2. split; [split; auto; rewrite E1; auto|]. intros _. rewrite E1. auto.
Qed.
Lemma Q_emit : forall e s s', dull e -> Q s s' -> Q s (emit e s').
Proof.
  intros e s s' H H0. destruct (dull_log e (log s') H) as [E1 E2]. eapply Q_trans; eauto.
  destruct H0 as [[H0 _] _]. split; [split; [exact H0|]|]; cbn [log emit]; rewrite E1; auto.
Qed.
Lemma qok_push : forall s j, okj j -> qok s -> qok (push_job j s).
Proof. intros s j Hj [H1 H2]. split; auto. simpl. intros j' Hin. apply in_app_or in Hin. destruct Hin as [|[<-|[]]]; auto. Qed.
Lemma qok_cell : forall s k, qok s -> qok (new_cell k s).
Proof.
  intros s k [H1 H2]. split; auto. simpl. intros c j Hin E. apply in_app_or in Hin.
  destruct Hin as [|[<-|[]]]; eauto. discriminate.
Qed.
Lemma in_set_nth : forall X (l : list X) n x y, In y (set_nth n x l) -> y = x \/ In y l.
Proof.
  induction l as [|z l IH]; intros [|n] x y H; simpl in *; auto.
  - destruct H as [->|H]; auto.
  - destruct H as [->|H]; auto. destruct (IH _ _ _ H); auto.
Qed.
Lemma qok_upd : forall s n c, (forall j, cb c = Some j -> okj j) -> qok s -> qok (upd_cell n c s).
Proof.
  intros s n c Hc [H1 H2]. split; auto. simpl. intros c' j Hin E.
  destruct (in_set_nth _ _ _ _ _ Hin) as [->|]; eauto.
Qed.
Lemma qok_eq : forall s s', q s' = q s -> heap s' = heap s -> qok s -> qok s'.
Proof. intros s s' E1 E2 [H1 H2]. split; rewrite ?E1, ?E2; auto. Qed.
Lemma disp_Q : forall a s s1 f j, new_dispatch futures a s = (s1, f, j) -> qok s -> Q s s1 /\ okj j.
Proof.
  intros a s s1 f j E H. unfold new_dispatch in E. destruct futures; injection E as <- <- <-; split;
    try exact Logic.I; apply Q_emit; try exact Logic.I; apply Q_same; try reflexivity.
  - apply (qok_eq (new_cell KDisp s)); try reflexivity. now apply qok_cell.
  - now apply (qok_eq s).
Qed.
Lemma arrive_Q : forall s, qok s -> Q s (arrive s).
Proof.
  intros s H. unfold StoreModel.arrive. destruct manual; [now apply Q_refl|].
  assert (X : forall l s, qok s -> Q s (fold_left arrive1 l s)).
  { clear s H. induction l as [|a l IH]; intros s H; simpl; [now apply Q_refl|].
    assert (Y : Q s (arrive1 s a)).
    { unfold StoreModel.arrive1. destruct (new_dispatch futures a s) as [[s1 f] j] eqn:E.
      destruct (disp_Q _ _ _ _ _ E H) as [Y1 Y2]. eapply Q_trans; eauto.
      apply Q_same; try reflexivity. apply qok_push; auto. apply Y1. }
    eapply Q_trans; eauto. apply IH. apply Y. }
  specialize (X (ext (clock s)) s H). eapply Q_trans; eauto. apply Q_same; try reflexivity.
  eapply qok_eq; [reflexivity|reflexivity|]. apply X.
Qed.
Lemma Q_qok : forall s s', Q s s' -> qok s'.
Proof. intros s s' [[H _] _]. exact H. Qed.

Hypothesis HT : trans = true.
Lemma Q_bind : forall s r k, fin (Q s) r -> (forall f s', Q s s' -> fin (Q s) (k f s')) ->
  fin (Q s) (andthen r k).
Proof. intros s r k H H0. eapply fin_andthen; eauto. Qed.
Lemma Wk_bind : forall s r k, fin (Wk s) r -> (forall f s', Wk s s' -> fin (Wk s) (k f s')) ->
  fin (Wk s) (andthen r k).
Proof. intros s r k H H0. eapply fin_andthen; eauto. Qed.

Lemma exec_Q : forall fl,
  (forall t s, okt t -> qok s -> fin (Q s) (exec fl t s)) /\
  (forall t s, match t with TNotify | TSlots _ => True | _ => False end -> qok s -> fin (Wk s) (exec fl t s)).
Proof.
  induction fl as [|fl [IH1 IH2]]; [split; intros; exact Logic.I|]. split.
  - intros t s Ht H.
    assert (E : forall t s', okt t -> Q s s' -> fin (Q s) (exec fl t s')).
    { intros t' s' Ht' HQ. eapply fin_impl; [apply IH1; auto; eapply Q_qok; eauto|].
      intros. eapply Q_trans; eauto. }
    cbn [StoreModel.exec]. destruct t as [p|j| | |j| |i|n|[f|] c]; try contradiction.
    + pose proof (arrive_Q s H) as H0. revert H0. generalize (arrive s). intros s' H0.
      pose proof (Q_qok _ _ H0) as K0.
      assert (EP : forall p s', Q s s' -> fin (Q s) (exec fl (TProg p) s')) by (intros; apply E; auto; exact Logic.I).
      assert (SM : forall s1, log s1 = log s' -> last s1 = last s' -> qok s1 -> Q s s1).
      { intros s1 E1 E2 K1. eapply Q_trans; eauto. apply Q_same; auto. }
      destruct p; try (exact H0); try (apply EP; exact H0).
      * destruct (new_dispatch futures a s') as [[s1 f] j] eqn:EN.
        destruct (disp_Q _ _ _ _ _ EN K0) as [Y1 Y2].
        apply Q_bind; [|intros; apply EP; auto]. apply E; auto. eapply Q_trans; eauto.
      * apply Q_bind; [|intros; apply EP; auto]. apply E; auto; exact Logic.I.
      * apply Q_bind; [|intros; apply EP; auto]. apply E; auto; exact Logic.I.
      * apply EP. apply Q_emit; [exact Logic.I|]. apply SM; auto. now apply qok_cell.
      * destruct (nth_error (heap s') n) as [[[| | |] d l c]|]; try exact Logic.I.
        apply Q_bind; [|intros; apply EP; auto]. apply E; auto; exact Logic.I.
      * assert (K1 : qok (send_down (emit ECommit s'))).
        { apply (qok_eq s'); rewrite ?send_down_q, ?send_down_heap; auto. }
        assert (X : fin (Q s) (exec fl TNotify (send_down (emit ECommit s')))).
        { eapply fin_impl; [apply IH2; [exact Logic.I|exact K1]|].
          intros s2 [K2 L2]. rewrite send_down_log in L2. simpl in L2. destruct H0 as [[_ H0] _].
          split; [split; auto; lia|]. lia. }
        apply Q_bind; auto.
      * destruct (nth_error (slots s') i) as [[w|]|]; apply EP; auto.
      * destruct (manual || busy s'); [exact Logic.I|].
        apply Q_bind; [|intros; apply EP; auto]. apply E; auto; exact Logic.I.
      * pose proof (EP p s' H0) as X.
        destruct (exec fl (TProg p) s') as [f s1|s1| | |]; try exact Logic.I; apply EP; exact X.
    + assert (X : Q s (push_job j s)) by (apply Q_same; auto; now apply qok_push).
      destruct (manual && negb (busy s)); [|exact X]. apply E; auto; exact Logic.I.
    + assert (X : fin (Q s) (exec fl TDrain (set_busy true s))).
      { apply E; [exact Logic.I|]. apply Q_same; auto. }
      destruct (exec fl TDrain (set_busy true s)) as [f s1|s1| | |]; try exact Logic.I;
        (eapply Q_trans; [exact X|]; apply Q_same; auto; now apply (qok_eq s1), Q_qok with s).
    + pose proof (arrive_Q s H) as H0. revert H0. generalize (arrive s). intros s' H0.
      pose proof (Q_qok _ _ H0) as K0. destruct (q s') as [|j r] eqn:EQ; [exact H0|].
      assert (X : fin (Q s) (exec fl (TJob j) (set_q r s'))).
      { apply E; [apply K0; rewrite EQ; now left|]. eapply Q_trans; eauto. apply Q_same; auto.
        destruct K0 as [K1 K2]. split; auto. simpl. intros j' Hj. apply K1. rewrite EQ. now right. }
      apply Q_bind; [|intros; apply E; auto; exact Logic.I].
      destruct (exec fl (TJob j) (set_q r s')) as [f s1|s1| | |]; auto.
    + assert (EQ : forall t e, okt t -> dull e -> fin (Q s) (exec fl t (emit e s))).
      { intros t e Hto He. apply E; auto. apply Q_emit; auto. now apply Q_refl. }
      destruct j as [id p a|id p e|id p|p|f c n]; try contradiction.
      * assert (PD : forall f s' m, Q s s' -> fin (Q s) (Done f (push_down eqb m s'))).
        { intros f s' m HQ. unfold push_down. simpl. destruct (eqb m (cur s')); exact HQ. }
        destruct (reducer (cur s) a) as [[m [e|]]|].
        -- apply Q_bind; [apply EQ; exact Logic.I|]. intros; now apply PD.
        -- apply Q_bind; [|intros; now apply PD]. rewrite HT at 1. destruct p as [n|].
           ++ apply EQ; exact Logic.I.
           ++ apply Q_emit; [exact Logic.I|now apply Q_refl].
        -- apply Q_emit; [exact Logic.I|now apply Q_refl].
      * rewrite HT at 1.
        assert (X : fin (Q s) (exec fl (TProg e) (emit (EEff id (last (emit (EBegin id e) s)) e) (emit (EBegin id e) s)))).
        { apply E; [exact Logic.I|]. apply Q_emit; [exact Logic.I|]. apply Q_emit; [exact Logic.I|]. now apply Q_refl. }
        simpl andthen at 1. apply Q_bind; [exact X|]. intros f s2 H2.
        destruct p as [n|]; [apply E; [exact Logic.I|]|]; (apply (Q_emit (EEffEnd id f) s s2); [exact Logic.I|exact H2]).
      * apply E; [exact Logic.I|now apply Q_refl].
      * destruct c as [c|m].
        -- apply Q_bind; [apply EQ; exact Logic.I|]. intros. apply E; [exact Logic.I|]; auto.
        -- apply Q_bind; [apply E; [exact Logic.I|now apply Q_refl]|]. intros. apply E; auto.
    + destruct (nth_error (heap s) n) as [[k [|] [|] [j|]]|] eqn:EN; try exact Logic.I.
      * apply Q_same; auto. apply qok_upd; auto. discriminate.
      * apply Q_same; auto. apply qok_upd; auto. discriminate.
      * set (s1 := emit (EDone n) (upd_cell n (Cell k false true None) s)).
        assert (X : fin (Q s) (exec fl (TPost j) s1)).
        { apply E.
          - destruct H as [_ H]. eapply H; [eapply nth_error_In; eauto|reflexivity].
          - apply Q_emit; [exact Logic.I|]. apply Q_same; auto. apply qok_upd; auto. discriminate. }
        destruct (exec fl (TPost j) s1) as [f s2|s2| | |]; try exact Logic.I;
          (eapply Q_trans; [exact X|]; apply Q_same; auto; apply qok_upd; [discriminate|];
           eapply Q_qok; exact X).
      * apply Q_emit; [exact Logic.I|]. apply Q_same; auto. apply qok_upd; auto. discriminate.
    + destruct (nth_error (heap s) f) as [[k d [|] [j|]]|]; try exact Logic.I.
      set (s1 := emit _ _).
      assert (X0 : Q s s1).
      { apply Q_emit; [destruct c; exact Logic.I|]. apply Q_same; auto. now apply qok_cell. }
      assert (UP : forall s2 c0, Q s s2 -> (forall j, cb c0 = Some j -> okj j) -> Q s (upd_cell f c0 s2)).
      { intros s2 c0 HQ Hc. eapply Q_trans; eauto. apply Q_same; auto. apply qok_upd; auto. eapply Q_qok; eauto. }
      destruct d.
      * assert (X : fin (Q s) (exec fl (TPost (JCb f c (length (heap s)))) (upd_cell f (Cell k true true None) s1))).
        { apply E; [exact Logic.I|]. apply UP; auto. discriminate. }
        destruct (exec fl (TPost (JCb f c (length (heap s)))) (upd_cell f (Cell k true true None) s1)) as [f' s2|s2| | |];
          try exact Logic.I; apply UP; auto; discriminate.
      * apply UP; auto. simpl. intros j [= <-]. exact Logic.I.
    + destruct c; apply E; auto; try exact Logic.I; now apply Q_refl.
  - intros t s Ht H.
    cbn [StoreModel.exec]. destruct t as [p|j| | |j| |i|n|[f|] c]; try contradiction.
    + destruct (nn s && negb (nsd s)).
      * apply (IH2 (TSlots 0) (set_nn false s) Logic.I). exact H.
      * split; auto.
    + destruct (nth_error (slots s) i) as [[w|]|].
      * assert (X : fin (Wk s) (exec fl (TProg (w (last s))) (emit (ESee i (last s)) s))).
        { eapply fin_impl; [apply IH1; [exact Logic.I|exact H]|]. intros s' HQ. apply Q_Wk in HQ. exact HQ. }
        apply Wk_bind.
        -- destruct (exec fl (TProg (w (last s))) (emit (ESee i (last s)) s)) as [f s1|s1| | |]; auto.
        -- intros f s1 H1. eapply fin_impl; [apply IH2; [exact Logic.I|apply H1]|]. intros. eapply Wk_trans; eauto.
      * apply (IH2 (TSlots (S i)) s); auto.
      * split; auto.
Qed.
End Quiet.
