From Coq Require Import List Bool Arith Lia.
From Verif Require Import ThrowModel ThrowSpec.
Import ListNotations.

(** ** Logs *)
Definition is_push m e := match e with EPush x => x =? m | _ => false end.
Definition is_sent m e := match e with ESent x => x =? m | _ => false end.
Definition is_down m e := match e with EDown x => x =? m | _ => false end.
Definition is_seen m e := match e with EDown x => x =? m | ESeen x => x =? m | _ => false end.
Fixpoint since (x stop : event -> bool) (l : list event) : bool :=
  match l with
  | [] => false
  | e :: r => if x e then true else if stop e then false else since x stop r
  end.
Definition dirty p n := since (is_push p) (is_seen n).
Definition skipped p n := since (is_sent p) (is_down n).
Definition unsent m := since (is_push m) (is_sent m).

Lemma since_split x stop l : since x stop l = true <->
  exists l1 e l2, l = l1 ++ e :: l2 /\ x e = true /\ forall d, In d l1 -> x d = false /\ stop d = false.
Proof.
  induction l as [|e l IH]; cbn; split.
  - discriminate.
  - intros (l1 & e & l2 & E & _); destruct l1; discriminate.
  - destruct (x e) eqn:X; [exists [], e, l; cbn; intuition|].
    destruct (stop e) eqn:T; [discriminate|intro H; apply IH in H as (l1 & d & l2 & -> & Y & Z)].
    exists (e :: l1), d, l2; split; auto; split; auto; intros y [<- | I]; auto.
  - intros (l1 & d & l2 & E & Y & Z); destruct l1 as [|a l1]; injection E as <- E; [rewrite Y; auto|].
    destruct (Z e (or_introl eq_refl)) as [-> ->]; apply IH; exists l1, d, l2; split; auto; split; auto.
    intros y I; apply Z; right; auto.
Qed.
(** With no [stop] rather than none of both *)
Lemma since_split' x stop l : since x stop l = true <->
  exists l1 e l2, l = l1 ++ e :: l2 /\ x e = true /\ forall d, In d l1 -> stop d = false.
Proof.
  split; [intro H; apply since_split in H as (l1 & e & l2 & E & X & Z); exists l1, e, l2; split; auto; split; auto; intros d I; apply Z; auto|].
  intros (l1 & e & l2 & -> & X & Z); induction l1 as [|a l1 IH]; cbn; [rewrite X; auto|].
  destruct (x a); auto; rewrite (Z a (or_introl eq_refl)); apply IH; intros d I; apply Z; right; auto.
Qed.

Section Graph.
Context {V : Type}.
Variable changed : V -> V -> bool.
Variable g : graph V.
Variable w : world V.
Notation St := (st V).
Notation push_down := (push_down changed).
Notation recompute := (recompute changed g w).
Notation send_down := (send_down changed g w).
Notation refresh := (refresh changed g w).
Notation send_up := (send_up changed g w).
Notation notify := (notify g).

Definition pres (P : St -> Prop) (o : outcome V) : Prop :=
  match o with Done s | Threw s => P s | OutOfFuel => True end.
Lemma pres_bind (P : St -> Prop) o f : pres P o -> (forall s, P s -> pres P (f s)) -> pres P (bind o f).
Proof. destruct o; cbn; auto. Qed.
Lemma pres_each {A} (P : St -> Prop) (f : A -> St -> outcome V) l s : (forall n s, P s -> pres P (f n s)) -> P s -> pres P (each f l s).
Proof. intro F; revert s; induction l as [|n l IH]; intros s H; cbn; auto; apply pres_bind; auto. Qed.
Definition visited (n : nat) (s1 : St) : St := if pending s1 n then sent n s1 else s1.

Section Pres.
Variable P : St -> Prop.
Hypothesis Hvisit : forall n s s1, P s -> recompute (EDown n) n s = Done s1 -> P (visited n s1).
Hypothesis Hfail : forall n s, P s -> P (note (EFail n) (tick s)).
Lemma pres_recompute e n s : P s -> (forall s1, recompute e n s = Done s1 -> P s1) -> pres P (recompute e n s).
Proof.
  intros H K; destruct (recompute e n s) as [s1|s1|] eqn:E; cbn; auto.
  unfold ThrowModel.recompute, compute in E; destruct (kind_of g n), (throws w (clock s)); inversion E; subst; auto.
Qed.
Lemma sd_pres f n s : P s -> pres P (send_down f n s).
Proof.
  revert n s; induction f as [|f IH]; intros n s H; cbn; auto.
  destruct (recompute (EDown n) n s) as [s1|s1|] eqn:E; cbn; auto.
  - pose proof (Hvisit _ _ _ H E) as K; unfold visited in K.
    destruct (pending s1 n); cbn; auto; apply pres_each; auto.
  - unfold ThrowModel.recompute, compute in E; destruct (kind_of g n), (throws w (clock s)); inversion E; subst; auto.
Qed.
Hypothesis Hcall : forall n s, P s -> calling s n = true -> pending s n = false -> P (called n s).
Lemma nt_pres f n s : P s -> pres P (notify f n s).
Proof.
  revert n s; induction f as [|f IH]; intros n s H; cbn; auto.
  destruct (calling s n) eqn:C, (pending s n) eqn:D; cbn; auto; apply pres_each; auto.
Qed.
Hypothesis Hseen : forall n s s1, P s -> inner g n -> recompute (ESeen n) n s = Done s1 -> P s1.
Lemma rf_pres f n s : P s -> pres P (refresh f n s).
Proof.
  revert n s; induction f as [|f IH]; intros n s H; cbn; auto.
  destruct (kind_of g n) eqn:K; cbn; auto.
  apply pres_bind; [apply pres_each; auto|]; intros s1 H1; apply pres_recompute; auto; intros s2 E.
  eapply Hseen; eauto; eexists; eauto.
Qed.
Hypothesis Htick : forall s, P s -> P (tick s).
Hypothesis Hpush : forall n b v s, kind_of g n = Root b -> P s -> P (push_down n v s).
Lemma su_pres f n v s : P s -> pres P (send_up f n v s).
Proof.
  revert n v s; induction f as [|f IH]; intros n v s H; [exact I|cbn [ThrowModel.send_up]].
  destruct (kind_of g n) eqn:K; [| exact H |].
  - destruct automatic; [|cbn; eauto].
    apply pres_bind; [apply sd_pres; eauto|intros; apply nt_pres; auto].
  - apply pres_bind.
    + destruct refreshes; [apply rf_pres; auto|exact H].
    + intros s1 H1; unfold compute; destruct (throws w (clock s1)); [cbn; auto|].
      destruct (put g n (seen_by g n s1) v); [apply pres_each; auto|cbn; auto].
Qed.
Lemma do_pres o s : P s -> pres P (do changed g w o s).
Proof.
  destruct o; cbn [do]; intro H; [apply su_pres; auto|].
  unfold commit; apply pres_bind; [apply pres_each; auto; intros; apply sd_pres; auto|].
  intros; apply pres_each; auto; intros; apply nt_pres; auto.
Qed.
End Pres.
Lemma reach_pres (P : St -> Prop) : 
  (forall n s s1, P s -> recompute (EDown n) n s = Done s1 -> P (visited n s1)) ->
  (forall n s, P s -> P (note (EFail n) (tick s))) ->
  (forall n s, P s -> calling s n = true -> pending s n = false -> P (called n s)) ->
  (forall n s s1, P s -> inner g n -> recompute (ESeen n) n s = Done s1 -> P s1) ->
  (forall s, P s -> P (tick s)) ->
  (forall n b v s, kind_of g n = Root b -> P s -> P (push_down n v s)) ->
  (forall iv, starts changed g iv -> P (init iv)) -> forall s, reach changed g w s -> P s.
Proof.
  intros H1 H2 H3 H4 H5 H6 H7 s (iv & ops & I & _ & E).
  assert (K : forall ops s0 s, P s0 -> run changed g w ops s0 = Some s -> P s).
  { clear - H1 H2 H3 H4 H5 H6; induction ops as [|o r IH]; intros s0 s H E; cbn in E; [injection E as <-; auto|].
    pose proof (do_pres P H1 H2 H3 H4 H5 H6 o s0 H) as D.
    destruct (do changed g w o s0); cbn in D; eauto; discriminate. }
  eauto.
Qed.

(** ** The invariant *)
Hypothesis B : built g.
Hypothesis R : reflexive changed.
Record Inv (s : St) : Prop := {
  i_unsent : forall m, pending s m = unsent m (log s);
  i_last : forall m, pending s m = false -> last s m = cur s m;
  i_dirty : forall n p, In p (parents g n) -> dirty p n (log s) = true ->
    pending s p = true \/ exists q, In q (parents g n) /\ skipped q n (log s) = true;
  i_pending : forall n, inner g n -> pending s n = true ->
    exists p, In p (parents g n) /\ (pending s p = true \/ skipped p n (log s) = true);
  i_agrees : forall n, inner g n -> (forall p, In p (parents g n) -> dirty p n (log s) = false) ->
    forall v, fn g n (map (cur s) (parents g n)) = Some v -> changed v (cur s n) = false }.

Lemma not_own n : ~ In n (parents g n).
Proof. intro I; apply (older _ B) in I; lia. Qed.

Lemma inv_init iv : starts changed g iv -> Inv (init iv).
Proof. intro H; split; cbn; auto; try discriminate; intros n [b K] _ v; eauto. Qed.
Lemma inv_fail n s : Inv s -> Inv (note (EFail n) (tick s)).
Proof. intros [I1 I2 I3 I4 I5]; split; cbn; auto. Qed.
Lemma inv_tick s : Inv s -> Inv (tick s).
Proof. intros [I1 I2 I3 I4 I5]; split; cbn; auto. Qed.
Lemma inv_call n s : Inv s -> Inv (called n s).
Proof. intros [I1 I2 I3 I4 I5]; split; cbn; auto. Qed.

Ltac eqb a b := destruct (Nat.eqb_spec a b).
Lemma at_eq {A} (f : nat -> A) n x : at_ f n x n = x.
Proof. unfold at_; rewrite Nat.eqb_refl; auto. Qed.
Lemma at_ne {A} (f : nat -> A) n x m : m <> n -> at_ f n x m = f m.
Proof. intro N; unfold at_; apply Nat.eqb_neq in N; rewrite N; auto. Qed.
Lemma map_at {A} (f : nat -> A) n x l : ~ In n l -> map (at_ f n x) l = map f l.
Proof. intro N; apply map_ext_in; intros a I; apply at_ne; intros ->; auto. Qed.

Lemma inv_push n b v s : kind_of g n = Root b -> Inv s -> Inv (push_down n v s).
Proof.
  intros K [I1 I2 I3 I4 I5]; unfold ThrowModel.push_down; destruct (changed v (cur s n)); [|split; auto].
  assert (NI : ~ inner g n) by (intros [c E]; congruence).
  split; cbn.
  - intro m; eqb n m; [subst; rewrite at_eq; reflexivity|rewrite at_ne by auto; cbn; apply I1].
  - intros m H; eqb m n; [subst; rewrite at_eq in H; discriminate|rewrite at_ne in H by auto; rewrite at_ne by auto; auto].
  - intros m p Ip D; cbn in D; eqb n p; [subst; left; apply at_eq|].
    rewrite at_ne by auto; auto.
  - intros m Im H; eqb m n; [subst; tauto|]; rewrite at_ne in H by auto.
    destruct (I4 m Im H) as (p & Ip & [A | A]); exists p; split; auto; left; eqb p n; [subst; apply at_eq|rewrite at_ne; auto].
  - intros m Im H v0.
    assert (Nm : m <> n) by (intros ->; tauto).
    assert (Np : ~ In n (parents g m)).
    { intro Ip; specialize (H n Ip); cbn in H; rewrite Nat.eqb_refl in H; discriminate. }
    rewrite (at_ne _ _ _ m Nm), map_at by auto; apply I5; auto.
    intros p Ip; specialize (H p Ip); cbn in H; destruct (n =? p); [discriminate|auto].
Qed.

(** A computation in refresh *)
Lemma inv_seen n s s1 : Inv s -> inner g n -> recompute (ESeen n) n s = Done s1 -> Inv s1.
Proof.
  intros [I1 I2 I3 I4 I5] Nn E; destruct (Nn) as [b K].
  unfold ThrowModel.recompute, compute in E; rewrite K in E.
  destruct (throws w (clock s)); [discriminate|injection E as <-].
  unfold maybe_down, seen_by.
  assert (D0 : forall p m l, dirty p m (ESeen n :: l) = if n =? m then false else dirty p m l) by reflexivity.
  set (u := match fn g n (map (cur s) (parents g n)) with Some v => v | None => cur s n end).
  assert (U : match fn g n (map (cur s) (parents g n)) with
              | Some v => push_down n v (note (ESeen n) (tick s))
              | None => note (ESeen n) (tick s)
              end = push_down n u (note (ESeen n) (tick s))).
  { subst u; destruct (fn g n (map (cur s) (parents g n))); auto.
    unfold ThrowModel.push_down; cbn; rewrite R; auto. }
  rewrite U; clear U.
  assert (Uf : forall v, fn g n (map (cur s) (parents g n)) = Some v -> v = u) by (subst u; intros v ->; auto).
  unfold ThrowModel.push_down; cbn [cur tick note].
  destruct (changed _ _) eqn:C.
  - assert (X : exists p, In p (parents g n) /\ (pending s p = true \/ skipped p n (log s) = true)).
    { destruct (existsb (fun p => dirty p n (log s)) (parents g n)) eqn:Ex.
      - apply existsb_exists in Ex as (p & Ip & D); destruct (I3 n p Ip D) as [A | (q & Iq & A)]; eauto.
      - exfalso; assert (C' : changed u (cur s n) = false); [|congruence].
        destruct (fn g n (map (cur s) (parents g n))) as [v|] eqn:F; [|apply R].
        rewrite <- (Uf v eq_refl); apply (I5 n Nn); [|exact F].
        intros p Ip; destruct (dirty p n (log s)) eqn:D; auto.
        rewrite <- Ex; symmetry; apply existsb_exists; eauto. }
    split; cbn [pending last cur log note tick].
    + intro m; cbn; eqb n m; [subst; rewrite at_eq; reflexivity|rewrite at_ne by auto; apply I1].
    + intros m H; eqb m n; [subst; rewrite at_eq in H; discriminate|rewrite at_ne in H by auto; rewrite at_ne by auto; auto].
    + intros m p Ip D; cbn in D; eqb n p; [subst; left; apply at_eq|].
      rewrite at_ne by auto; eqb n m; [discriminate|cbn; auto].
    + intros m Im H; eqb m n.
      * subst; destruct X as (p & Ip & X); exists p; split; auto; cbn.
        rewrite at_ne by (intros ->; apply (not_own n); auto); auto.
      * rewrite at_ne in H by auto; destruct (I4 m Im H) as (p & Ip & A); exists p; split; auto; cbn.
        destruct A as [A | A]; auto; left; eqb p n; [subst; apply at_eq|rewrite at_ne; auto].
    + intros m Im H v Ev; eqb m n.
      * subst m; rewrite map_at in Ev by apply not_own; rewrite at_eq, (Uf v Ev); apply R.
      * assert (Np : ~ In n (parents g m)).
        { intro Ip; specialize (H n Ip); cbn in H; rewrite Nat.eqb_refl in H; discriminate. }
        rewrite map_at in Ev by auto; rewrite at_ne by auto; apply (I5 m); auto.
        intros p Ip; specialize (H p Ip); cbn in H; destruct (n =? p); [discriminate|].
        eqb n m; [congruence|auto].
  - split; cbn [pending last cur log note tick].
    + intro m; cbn; apply I1.
    + auto.
    + intros m p Ip D; cbn in D; eqb n m; [discriminate|cbn; auto].
    + intros m Im H; cbn; auto.
    + intros m Im H v Ev; eqb m n; [subst m; rewrite (Uf v Ev); exact C|apply (I5 m); auto].
      intros p Ip; specialize (H p Ip); cbn in H; eqb n m; [congruence|auto].
Qed.

Lemma skipped_down p n m l : skipped p n (EDown m :: l) = if m =? n then false else skipped p n l.
Proof. reflexivity. Qed.

(** A node is reached on the way down. *)
Record visit (n : nat) (s s' : St) (y : list event) (v : V) : Prop := {
  v_cur : forall m, cur s' m = if m =? n then v else cur s m;
  v_last : forall m, last s' m = if m =? n then (match y with [] => last s n | _ => v end) else last s m;
  v_pending : forall m, pending s' m = if m =? n then false else pending s m;
  v_calling : forall m, calling s' m = match y with [] => calling s m | _ => if m =? n then true else calling s m end;
  v_log : log s' = y ++ EDown n :: log s;
  v_y : y = [] \/ y = [ESent n] \/ y = [ESent n; EPush n];
  v_none : y = [] -> pending s n = false;
  v_same : v = cur s n \/ y = [ESent n; EPush n];
  v_agrees : inner g n -> forall u, fn g n (map (cur s) (parents g n)) = Some u -> changed u v = false }.
Lemma visit_shape n s s1 : recompute (EDown n) n s = Done s1 ->
  exists y v, visit n s (visited n s1) y v.
Proof.
  intro E.
  assert (X : (exists k, s1 = note (EDown n) k /\ (k = s \/ k = tick s) /\
                (inner g n -> forall u, fn g n (map (cur s) (parents g n)) = Some u -> changed u (cur s n) = false)) \/
              (exists v, s1 = note (EPush n) (ThrowModel.St (at_ (cur s) n v) (last s) (at_ (pending s) n true) (calling s)
                                (S (clock s)) (EDown n :: log s)) /\
                (inner g n -> forall u, fn g n (map (cur s) (parents g n)) = Some u -> changed u v = false))).
  { unfold ThrowModel.recompute, compute, seen_by in E; destruct (kind_of g n) eqn:K.
    - injection E as <-; left; exists s; split; auto; split; auto; intros [b C]; congruence.
    - destruct (throws w (clock s)); [discriminate|injection E as <-]; unfold ThrowModel.push_down; cbn.
      destruct (changed _ _); [right; eexists; split; [reflexivity|]|left; exists (tick s); split; auto; split; auto];
        intros [b C]; congruence.
    - destruct (throws w (clock s)); [discriminate|injection E as <-]; unfold ThrowModel.push_down; cbn.
      unfold maybe_down; destruct (fn g n (map (cur s) (parents g n))) as [u|] eqn:F.
      + unfold ThrowModel.push_down; cbn.
        destruct (changed u _) eqn:C; [right; eexists; split; [reflexivity|intros _ v E; injection E as <-; apply R]|].
        left; exists (tick s); split; auto; split; auto; intros _ v E; injection E as <-; auto.
      + left; exists (tick s); split; auto; split; auto; discriminate. }
  unfold visited; destruct X as [(k & -> & K & A) | (v & -> & A)].
  - assert (KK : cur k = cur s /\ last k = last s /\ pending k = pending s /\ calling k = calling s /\ log k = log s)
      by (destruct K as [-> | ->]; cbn; auto).
    destruct KK as (K1 & K2 & K3 & K4 & K5).
    cbn [pending note]; rewrite K3; destruct (pending s n) eqn:Pn.
    + exists [ESent n], (cur s n); split; cbn; rewrite ?K1, ?K2, ?K3, ?K4, ?K5; auto; try discriminate.
      intro m; eqb m n; subst; auto.
    + exists [], (cur s n); split; cbn; rewrite ?K1, ?K2, ?K3, ?K4, ?K5; auto; try discriminate;
        intro m; eqb m n; subst; auto.
  - cbn [pending note]; rewrite at_eq; exists [ESent n; EPush n], v; split; cbn; auto; try discriminate.
    + intro m; unfold at_; rewrite Nat.eqb_refl; auto.
    + intro m; unfold at_; destruct (m =? n); auto.
Qed.

Lemma log_visit n y l : y = [] \/ y = [ESent n] \/ y = [ESent n; EPush n] ->
  (forall m, unsent m (y ++ EDown n :: l) = if m =? n then (match y with [] => unsent m l | _ => false end) else unsent m l) /\
  (forall p, p <> n -> dirty p n (y ++ EDown n :: l) = false) /\
  (forall p m, m <> n -> dirty p m (y ++ EDown n :: l) =
     (match y with [_; _] => n =? p | _ => false end) || dirty p m l) /\
  (forall p m, m <> n -> skipped p m (y ++ EDown n :: l) =
     (match y with [] => false | _ => n =? p end) || skipped p m l).
Proof.
  unfold unsent, dirty, skipped; intros [-> | [-> | ->]]; cbn; repeat split; intros; try rewrite Nat.eqb_refl;
    rewrite ?(Nat.eqb_sym n m);
    repeat match goal with |- context [?a =? ?b] => eqb a b end; subst; try congruence; auto.
Qed.
Lemma inv_visit n s s1 : Inv s -> recompute (EDown n) n s = Done s1 -> Inv (visited n s1).
Proof.
  intros [I1 I2 I3 I4 I5] E; apply visit_shape in E as (y & v & [X1 X2 X3 X4 X5 X6 X7 X8 X9]).
  set (s' := visited n s1) in *; clearbody s'.
  destruct (log_visit n y (log s) X6) as (L1 & L2 & L3 & L4).
  split; rewrite ?X5.
  - intro m; rewrite X3, L1; eqb m n; auto; subst; destruct y; auto; rewrite <- I1; symmetry; auto.
  - intros m; rewrite X1, X2, X3; eqb m n; auto; subst; intros _.
    destruct y; auto; destruct X8 as [-> | X8]; [auto|discriminate].
  - intros m p Ip D; eqb m n; [subst; rewrite L2 in D by (intros ->; apply (not_own n); auto); discriminate|].
    rewrite L3 in D by auto; rewrite X3.
    assert (K : y <> [] -> In n (parents g m) -> exists q, In q (parents g m) /\ skipped q m (y ++ EDown n :: log s) = true).
    { intros Y In_; exists n; split; auto; rewrite L4, Nat.eqb_refl by auto; destruct y; [congruence|auto]. }
    apply orb_true_iff in D as [D | D].
    + right; apply K; [intros ->; discriminate|].
      destruct y as [|? [|? [|]]]; try discriminate; apply Nat.eqb_eq in D; subst; auto.
    + destruct (I3 m p Ip D) as [A | (q & Iq & A)].
      * eqb p n; auto; subst; right; apply K; auto; intros ->; rewrite (X7 eq_refl) in A; discriminate.
      * right; exists q; split; auto; rewrite L4, A by auto; apply orb_true_r.
  - intros m Im; rewrite X3; eqb m n; [discriminate|intro H].
    destruct (I4 m Im H) as (p & Ip & A); exists p; split; auto; rewrite X3, L4 by auto.
    destruct A as [A | A]; [|right; rewrite A; apply orb_true_r].
    eqb p n; auto; subst; right; destruct y; [rewrite (X7 eq_refl) in A; discriminate|].
    rewrite Nat.eqb_refl; auto.
  - intros m Im H u.
    assert (MP : ~ In n (parents g m) \/ v = cur s n -> map (cur s') (parents g m) = map (cur s) (parents g m)).
    { intro C; apply map_ext_in; intros a Ia; rewrite X1; eqb a n; auto; subst; destruct C; [tauto|auto]. }
    eqb m n.
    + subst; rewrite MP by (left; apply not_own); rewrite X1, Nat.eqb_refl; auto.
    + rewrite MP.
      * rewrite X1; destruct (Nat.eqb_spec m n); [congruence|]; apply I5; auto.
        intros p Ip; specialize (H p Ip); rewrite L3 in H by auto; apply orb_false_iff in H; tauto.
      * destruct X8 as [X8 | ->]; auto; left; intro Ip; specialize (H n Ip).
        rewrite L3, Nat.eqb_refl in H by auto; discriminate.
Qed.

Theorem reach_inv s : reach changed g w s -> Inv s.
Proof.
  apply reach_pres; eauto using inv_visit, inv_fail, inv_call, inv_seen, inv_tick, inv_push, inv_init.
Qed.
End Graph.
