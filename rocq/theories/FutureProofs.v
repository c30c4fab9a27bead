From Coq Require Import List Arith Bool Lia.
From Verif Require Import FutureModel FutureSpec.
Import ListNotations.

Section P.
Variable role : nat -> call.
Variable debug : bool.
Notation step := (step role debug).
Notation reach := (reach role debug).

Definition inside (x : place) : bool :=
  match x with Crit | Posting _ | Mark | Clear | Leave => true | _ => false end.
Definition settled (x : place) : bool := match x with Leave | Ret => true | _ => false end.
Definition marked (x : place) : bool := match x with Clear | Leave | Ret => true | _ => false end.
Definition marking (x : place) : bool := match x with Mark | Clear => true | _ => false end.

Record Inv (s : st) : Prop := {
  i_hold : forall i, inside (pc s i) = true <-> holder s = Some i;
  i_start : forall i, pc s i = New \/ In (EStart i) (log s);
  i_peek : forall i, pc s i = Peek -> role i = Attach;
  i_unl : forall i, pc s i = Ret <-> In (EUnlock i) (log s);
  i_mark : forall i, marking (pc s i) = true -> role i = Fulfil /\ callback s = None;
  i_ful : forall i, role i = Fulfil -> marked (pc s i) = true -> done s = true;
  i_done : done s = true -> callback s = None /\ exists f, role f = Fulfil /\ marked (pc s f) = true;
  i_cb : forall c, callback s = Some c -> role c = Attach /\ settled (pc s c) = true;
  i_att : forall c, role c = Attach -> settled (pc s c) = true ->
          In c (posts (log s)) \/ callback s = Some c \/ In (EDrop c) (log s);
  i_post : forall c, In c (posts (log s)) -> role c = Attach /\ callback s <> Some c /\
          (settled (pc s c) = true \/ pc s c = Posting c \/ pc s c = Exc);
  i_posting : forall i c, pc s i = Posting c -> In c (posts (log s)) /\ (role i = Attach -> c = i) /\ callback s = None;
  i_nodup : NoDup (posts (log s));
  i_drop : forall c, In (EDrop c) (log s) -> role c = Attach /\ exists c', c' <> c /\ role c' = Attach
}.

Lemma init_Inv : Inv init.
Proof.
  constructor; simpl; intros; try discriminate; try tauto; try (split; intros; easy).
  constructor.
Qed.

Lemma upd_same : forall X (f : nat -> X) i x, upd f i x i = x.
Proof. intros. unfold upd. now rewrite Nat.eqb_refl. Qed.
Lemma upd_other : forall X (f : nat -> X) i x k, k <> i -> upd f i x k = f k.
Proof. intros. unfold upd. apply Nat.eqb_neq in H. now rewrite H. Qed.

Ltac cases := repeat match goal with
  | H : context [upd _ ?i _ ?k] |- _ => unfold upd in H; destruct (Nat.eqb_spec k i); try subst k
  | |- context [upd _ ?i _ ?k] => unfold upd; destruct (Nat.eqb_spec k i); try subst k
  end.
Ltac inv I := destruct I as [Ihold Istart Ipeek Iunl Imark Iful Idone Icb Iatt Ipost Iposting Inodup Idrop].


Ltac feed I k := pose proof (i_start _ I k); pose proof (i_hold _ I k); pose proof (i_unl _ I k);
    pose proof (i_mark _ I k); pose proof (i_ful _ I k); pose proof (i_cb _ I k); pose proof (i_att _ I k);
    pose proof (i_post _ I k); pose proof (i_posting _ I k); pose proof (i_peek _ I k); pose proof (i_drop _ I k).

Lemma step_Inv : forall i s s', Inv s -> step i s s' -> Inv s'.
Proof.
  intros i s s' I H.
  assert (Hns : pc s i = Crit -> callback s <> Some i /\ ~ In i (posts (log s))).
  { intros E; split; intros X; [apply (i_cb _ I) in X|apply (i_post _ I) in X]; rewrite E in X; simpl in X;
      intuition discriminate. }
  assert (Hin : inside (pc s i) = true -> forall k, k <> i -> inside (pc s k) = false).
  { intros E k N. destruct (inside (pc s k)) eqn:X; auto. apply (i_hold _ I) in X. apply (i_hold _ I) in E. congruence. }
  assert (Hfr : holder s = None -> forall k, inside (pc s k) = false).
  { intros E k. destruct (inside (pc s k)) eqn:X; auto. apply (i_hold _ I) in X. congruence. }
  assert (Hcl : pc s i = Clear -> callback s = None).
  { intros E. apply (i_mark _ I i). now rewrite E. }
  destruct H as [i p s H1 H2|i s H1 H2|i s c H1 H2|i s H1 H2|i s c H1 H2 H3 H4|i s H1 H2 H3|i s H1 H2 H3|i s H1 H2 H3
    |i s c H1 H2|i s c H1 H2|i s H1|i s H1|i s H1].
  all: try (unfold drop; rewrite Hcl by auto).
  1: assert (HE : inside (entry role debug i) = false /\ settled (entry role debug i) = false /\ marked (entry role debug i) = false /\
    marking (entry role debug i) = false /\ entry role debug i <> Ret /\ (forall c, entry role debug i <> Posting c)
    /\ (entry role debug i = Peek -> role i = Attach))
    by (unfold entry; destruct (role i), debug; repeat split; intros; easy).
  1: destruct HE as (HE1 & HE2 & HE3 & HE4 & HE5 & HE6 & HE7).
  8: destruct (callback s) as [c|] eqn:EC; unfold drop; rewrite EC; simpl.
  10: destruct (role i) eqn:ER.
  all: pose proof (i_start _ I i) as Si; pose proof (i_hold _ I i) as Hi; pose proof (i_unl _ I i) as Ui;
    pose proof (i_mark _ I i) as Mi; pose proof (i_ful _ I i) as Fi; pose proof (i_cb _ I i) as Ci; pose proof (i_att _ I i) as Ai;
    pose proof (i_post _ I i) as Pi; pose proof (i_posting _ I i) as Ti;
    rewrite H1 in Si, Hi, Ui, Mi, Fi, Ci, Ai, Pi, Ti; simpl in Hi, Mi, Fi, Ci, Ai, Pi, Ti.
  all: try (specialize (Hin (f_equal inside H1))).
  all: constructor; simpl; intros; cases.
  all: try (match goal with |- _ /\ (exists f, role f = Fulfil /\ _) => idtac end;
    match goal with E : done _ = true |- _ => destruct (i_done _ I E) as [HD1 (f & HD2 & HD3)] end;
    split; [congruence|]; exists f; split; auto; cases; auto; rewrite H1 in *; simpl in *; congruence).
  all: try exact (i_nodup _ I).
  all: try (constructor; [now apply Hns|exact (i_nodup _ I)]).
  all: try (constructor; [|exact (i_nodup _ I)]; intros X; apply (i_post _ I) in X; tauto).
  all: try (match goal with |- _ /\ (exists c', c' <> _ /\ _) => idtac end; apply (i_drop _ I); intuition congruence).
  all: try (match goal with X : pc _ ?k = Posting ?c |- _ => pose proof (i_posting _ I k c X) end;
     match goal with |- _ /\ (_ -> _) /\ _ => idtac end; intuition congruence).
  all: try match goal with H1 : pc _ ?j = _, n : ?k <> ?j |- _ => try specialize (Hin k n);
    pose proof (i_start _ I k); pose proof (i_hold _ I k); pose proof (i_unl _ I k) end.
  all: try solve [intuition congruence].
  all: try (match goal with H1 : pc _ ?j = _, n : ?k <> ?j |- _ =>
    pose proof (i_mark _ I k); pose proof (i_ful _ I k); pose proof (i_cb _ I k); pose proof (i_att _ I k);
    pose proof (i_post _ I k); pose proof (i_peek _ I k) end; solve [clear Si Hi Ui Mi Fi Ci Ai Pi Ti; intuition congruence | intuition congruence]).
  - destruct H as [<-|H]; [|apply (i_post _ I) in H; split; [tauto|split; [discriminate|tauto]]].
    apply (i_cb _ I) in H4. split; [tauto|split; [discriminate|tauto]].
  - split; auto. destruct H3 as [H3|H3]; auto. apply (i_done _ I) in H3. tauto.
  - injection H as <-. apply (i_done _ I) in H3. tauto.
  - destruct H as [E|H]; [injection E as <-|now apply (i_drop _ I)].
    split; [now apply (i_cb _ I)|]. exists i. split; auto. intros ->. destruct (Hns H1). congruence.
  - destruct (pc s i0); discriminate.
  - rewrite H in Hin. discriminate.
  - split; auto. now apply (Ti c).
  - left. destruct (Ti c eq_refl) as (X & Y & _). now rewrite <- Y.
  - split; discriminate.
  - destruct Mi as [M1 M2]; auto. split; auto. exists i. rewrite upd_same. auto.
  - split; discriminate.
Qed.
Lemma reach_Inv : forall s, reach s -> Inv s.
Proof. intros s H. induction H; [apply init_Inv|eapply step_Inv; eauto]. Qed.
End P.
