(** What the reducer preserves holds of all models that show up. *)
From Coq Require Import List Arith Bool.
From Verif Require Import StoreModel StoreSpec StoreSteps StoreInv StoreMain.
Import ListNotations.

Section Models.
Variables M A W : Type.
Notation event := (event M A W).
Notation st := (st M A W).
Variable reducer : M -> A -> option (M * option (prog M A W)).
Variable eqb : M -> M -> bool.
Variables trans futures manual : bool.
Variable ext : nat -> list A.
Variable m0 : M.
Notation reach := (reach reducer eqb trans futures manual ext m0).
Variable P : M -> Prop.
Hypothesis P0 : P m0.
Hypothesis PS : forall m a m' e, P m -> reducer m a = Some (m', e) -> P m'.

Definition IMod (s : st) : Prop := P (cur s) /\ P (last s) /\ forall m, In m (all_models (log s)) -> P m.
Lemma send_down_IMod : forall s, IMod s -> IMod (send_down s).
Proof. intros s (H1 & H2 & H3). unfold send_down. destruct (nsd s); repeat split; auto. Qed.
Lemma push_down_IMod : forall m s, P m -> IMod s -> IMod (push_down eqb m s).
Proof. intros m s HM (H1 & H2 & H3). unfold push_down. destruct (eqb m (cur s)); repeat split; auto. Qed.
Lemma emit_IMod : forall e s, (forall m, In m (all_models [e]) -> P m) -> IMod s -> IMod (emit e s).
Proof.
  intros e s HE (H1 & H2 & H3). repeat split; auto. simpl. intros m HM. destruct e; simpl in *; auto; destruct HM as [<-|HM]; auto.
Qed.
Lemma IMod_eq : forall s s' : st, cur s' = cur s -> last s' = last s -> log s' = log s -> IMod s -> IMod s'.
Proof. intros s s' E1 E2 E3. unfold IMod. now rewrite E1, E2, E3. Qed.
Lemma cstep_IMod : forall s s', cstep trans futures s s' -> IMod s -> IMod s'.
Proof.
  intros s s' H HI. pose proof HI as (H1 & H2 & H3).
  destruct H as [w s|s|n s|a s|p s|s|n k s HN HJ|n k c s HN|n k j s HN HJ|n k d d' s HN HD HE|f k c s HN HC|f k c s HN HC
                |s|s HN HD|i w s HN|s|w s|i w s HN]; try (apply (IMod_eq s); auto; fail);
    try (apply emit_IMod; [now intros m []|apply (IMod_eq s); auto]; fail).
  - unfold arrive1, new_dispatch. destruct futures; (split; [|split]); auto.
  - apply (IMod_eq (emit (cev f c (length (heap s))) s)); auto. apply emit_IMod; auto. intros m. now destruct c.
  - apply (IMod_eq (emit (cev f c (length (heap s))) s)); auto. apply emit_IMod; auto. intros m. now destruct c.
  - apply send_down_IMod, emit_IMod; auto. intros m [].
  - apply emit_IMod; auto. intros m [<-|[]]. auto.
  - apply emit_IMod; [|apply (IMod_eq s); auto]. intros m [<-|[]]. auto.
Qed.
Lemma jstep_IMod : forall s s', jstep reducer eqb trans s s' -> IMod s -> IMod s'.
Proof.
  intros s s' H HI. pose proof HI as (H1 & H2 & H3).
  destruct H; try (apply (IMod_eq s); auto; fail); try (apply emit_IMod; [now intros x []|apply (IMod_eq s); auto]; fail).
  - assert (PM : P m) by (eapply (PS (cur s)); eauto). apply push_down_IMod; auto.
    apply (IMod_eq (emit (ERed id m true) s)); auto. apply emit_IMod; auto. intros x [<-|[]]. auto.
  - assert (PM : P m) by (eapply (PS (cur s)); eauto). apply push_down_IMod; auto.
    apply (IMod_eq (emit (ERed id m false) s)); auto. apply emit_IMod; auto. intros x [<-|[]]. auto.
  - assert (PM : P m) by (eapply (PS (cur s)); eauto). apply push_down_IMod; auto.
    apply (IMod_eq (emit (ERed id m false) s)); auto. apply emit_IMod; auto. intros x [<-|[]]. auto.
  - destruct trans; [|apply send_down_IMod]; (apply emit_IMod; [now intros x []|apply (IMod_eq s); auto]).
  - apply send_down_IMod, (IMod_eq s); auto.
  - apply emit_IMod; auto. intros x [<-|[]]. auto.
Qed.
Lemma reach_models : forall s, reach s -> IMod s.
Proof.
  apply good_inv.
  - intros. eapply cstep_IMod; eauto.
  - intros. eapply jstep_IMod; eauto.
  - intros w. repeat split; simpl; auto. intros m [].
Qed.
End Models.
