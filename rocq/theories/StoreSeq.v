(** Effects in sequence. *)
From Coq Require Import List Arith Bool Lia.
From Verif Require Import StoreModel StoreSpec StoreExtraModel.
Import ListNotations.

Section Seq.
Variables M A W : Type.
Notation prog := (prog M A W).
Notation event := (event M A W).
Notation st := (st M A W).
Notation res := (res M A W).
Notation task := (task M A W).
Variable reducer : M -> A -> option (M * option prog).
Variable eqb : M -> M -> bool.
Variables trans futures manual : bool.
Variable ext : nat -> list A.
Notation exec := (exec reducer eqb trans futures manual ext).
Notation arrive := (arrive futures manual ext).

(** *** More fuel changes nothing *)
Definition ok (r : res) : Prop := r <> OutOfFuel.
Lemma andthen_mono : forall (r r' : res) k k', (ok r -> r' = r) ->
  (forall f s, ok (k f s) -> k' f s = k f s) -> ok (andthen r k) -> andthen r' k' = andthen r k.
Proof.
  intros r r' k k' H H0 H1. destruct r as [f s|s| | |]; try (rewrite H by discriminate; reflexivity).
  - rewrite H by discriminate. simpl. now apply H0.
  - now elim H1.
Qed.
Lemma on_throw_mono : forall (r r' : res) h, (ok r -> r' = r) -> ok (on_throw r h) -> on_throw r' h = on_throw r h.
Proof.
  intros r r' h H H1. rewrite H; auto. intros ->. now apply H1.
Qed.
Lemma exec_mono1 : forall fl t s, ok (exec fl t s) -> exec (S fl) t s = exec fl t s.
Proof.
  induction fl as [|fl IH]; intros t s H; [now elim H|].
  assert (X : forall fl1, (forall t s, ok (exec fl t s) -> exec fl1 t s = exec fl t s) ->
    exec (S fl1) t s = exec (S fl) t s); [|now apply X].
  clear IH. intros fl1 IH'. cbn [StoreModel.exec] in H |- *.
  destruct t as [p|j| | |j| |i|n|[f|] c].
  - revert H. generalize (arrive s). intros s' H. 
    destruct p; auto.
    + destruct (new_dispatch futures a s') as [[s1 f] j].
      apply andthen_mono; auto.
    + apply andthen_mono; auto.
    + apply andthen_mono; auto.
    + destruct (nth_error (heap s') n) as [[[| | |] d l c]|]; auto. apply andthen_mono; auto.
    + apply andthen_mono; auto.
    + destruct (nth_error (slots s') i) as [[w|]|]; auto.
    + destruct (manual || busy s'); auto. apply andthen_mono; auto.
    + pose proof (IH' (TProg p) s') as X.
      destruct (exec fl (TProg p) s') as [f s1|s1| | |]; try (rewrite X by discriminate; auto; fail).
      now elim H.
  - destruct (manual && negb (busy s)); auto.
  - specialize (IH' TDrain (set_busy true s)).
    destruct (exec fl TDrain (set_busy true s)); try (rewrite IH' by discriminate; auto; fail). now elim H.
  - destruct (q (arrive s)); auto. apply andthen_mono; auto. intros. apply on_throw_mono; auto.
  - destruct j as [id p a|id p e|id p|p|f c n]; auto.
    + destruct (reducer (cur s) a) as [[m [e|]]|]; auto; apply andthen_mono; auto.
      destruct trans; auto. destruct p; auto.
    + apply andthen_mono; auto.
      * destruct trans; auto. intros. apply on_throw_mono; auto.
      * intros f s1. apply andthen_mono; auto. intros f' s2. destruct p; auto.
    + apply andthen_mono; auto. intros f s1. destruct p; auto.
    + destruct c; apply andthen_mono; auto.
  - destruct (nn s && negb (nsd s)); auto.
  - destruct (nth_error (slots s) i) as [[w|]|]; auto. apply andthen_mono; auto. intros. apply on_throw_mono; auto.
  - destruct (nth_error (heap s) n) as [[k [|] [|] [j|]]|]; auto.
    specialize (IH' (TPost j) (emit (EDone n) (upd_cell n (Cell k false true None) s))).
    destruct (exec fl (TPost j) (emit (EDone n) (upd_cell n (Cell k false true None) s)));
      try (rewrite IH' by discriminate; auto; fail). now elim H.
  - destruct (nth_error (heap s) f) as [[k d [|] [j|]]|]; auto. destruct d; auto.
    match goal with |- context [exec fl ?t ?s1] => specialize (IH' t s1); destruct (exec fl t s1);
      try (rewrite IH' by discriminate; auto; fail) end. now elim H.
  - destruct c; auto.
Qed.
Lemma exec_mono : forall fl fl' t s, fl <= fl' -> ok (exec fl t s) -> exec fl' t s = exec fl t s.
Proof.
  intros fl fl' t s L H. induction L as [|fl' L IH]; auto. rewrite <- IH. apply exec_mono1. now rewrite IH.
Qed.
(** How a task ends, with enough fuel. *)
Definition ends (t : task) (s : st) (r : res) : Prop := ok r /\ exists fl, exec fl t s = r.
Lemma ends_det : forall t s r r', ends t s r -> ends t s r' -> r = r'.
Proof.
  intros t s r r' [H [fl E]] [H' [fl' E']]. subst r r'.
  rewrite <- (exec_mono fl (max fl fl')), <- (exec_mono fl' (max fl fl')); auto; lia.
Qed.
Definition notdone (r : res) : Prop := match r with Done _ _ => False | _ => True end.
(** [t] in [s], then [K] *)
Definition binds (t : task) (s : st) (K : option nat -> st -> res -> Prop) (r : res) : Prop :=
  (exists f s1, ends t s (Done f s1) /\ K f s1 r) \/ (ends t s r /\ notdone r).
Lemma ends_andthen : forall t s (k : option nat -> task) (r : res),
  binds t s (fun f s1 => ends (k f) s1) r <->
  ok r /\ exists fl, andthen (exec fl t s) (fun f s1 => exec fl (k f) s1) = r.
Proof.
  intros t s k r. split.
  - intros [(f & s1 & [_ [fl E]] & [H [fl' E']])|[[H [fl E]] N]]; split; auto.
    + exists (max fl fl'). rewrite (exec_mono fl); [|lia|rewrite E; discriminate]. rewrite E. simpl.
      rewrite (exec_mono fl'); [auto|lia|now rewrite E'].
    + exists fl. rewrite E. destruct r; auto. destruct N.
  - intros [H [fl E]]. destruct (exec fl t s) as [f s1|s1| | |] eqn:E1; simpl in E;
      try (right; subst r; split; [split; auto; eauto|exact Logic.I]; fail).
    left. exists f, s1. split; split; auto; try discriminate; eauto.
Qed.
(** How each piece of client code ends; [s] is the state after the arrivals. *)
Lemma ends_S : forall t s r (P : nat -> res), (forall fl, exec (S fl) t s = P fl) ->
  (ends t s r <-> ok r /\ exists fl, P fl = r).
Proof.
  intros t s r P H. split; intros [H0 [fl E]]; split; auto.
  - destruct fl as [|fl]; [subst r; now elim H0|]. exists fl. now rewrite <- H.
  - exists (S fl). now rewrite H.
Qed.
Lemma ends_ret : forall f s r, ends (TProg (PRet f)) s r <-> r = Done f (arrive s).
Proof.
  intros f s r. rewrite (ends_S _ _ _ (fun _ => Done f (arrive s))) by reflexivity. split.
  - intros [_ [fl E]]. auto.
  - intros ->. split; [discriminate|]. now exists 0.
Qed.
Lemma ends_try : forall p k s r, ends (TProg (PTry p k)) s r <->
  (exists f s1, ends (TProg p) (arrive s) (Done f s1) /\ ends (TProg (k true)) s1 r) \/
  (exists s1, ends (TProg p) (arrive s) (Thrown s1) /\ ends (TProg (k false)) s1 r) \/
  (ends (TProg p) (arrive s) r /\ (r = Misuse \/ r = Deadlock)).
Proof.
  intros p k s r. rewrite (ends_S _ _ _ (fun fl => match exec fl (TProg p) (arrive s) with
            | Done _ s1 => exec fl (TProg (k true)) s1
            | Thrown s1 => exec fl (TProg (k false)) s1
            | r => r
            end)) by reflexivity. split.
  - intros [H [fl E]]. destruct (exec fl (TProg p) (arrive s)) as [f s1|s1| | |] eqn:E1.
    + left. exists f, s1. split; split; auto; try discriminate; eauto.
    + right. left. exists s1. split; split; auto; try discriminate; eauto.
    + subst r. right. right. split; auto. split; eauto.
    + subst r. right. right. split; auto. split; eauto.
    + now subst r.
  - intros [(f & s1 & [_ [fl E]] & [H [fl' E']])|[(s1 & [_ [fl E]] & [H [fl' E']])|([H [fl E]] & [->| ->])]];
      split; auto.
    + exists (max fl fl'). rewrite (exec_mono fl) by (try lia; rewrite E; discriminate). rewrite E.
      rewrite (exec_mono fl'); [auto|lia|now rewrite E'].
    + exists (max fl fl'). rewrite (exec_mono fl) by (try lia; rewrite E; discriminate). rewrite E.
      rewrite (exec_mono fl'); [auto|lia|now rewrite E'].
    + exists fl. now rewrite E.
    + exists fl. now rewrite E.
Qed.
Lemma binds_ext : forall t s K K' r, (forall f s1, K f s1 r <-> K' f s1 r) -> (binds t s K r <-> binds t s K' r).
Proof.
  intros t s K K' r H. unfold binds. split; (intros [(f & s1 & H1 & H2)|H1]; [left|now right]);
    exists f, s1; split; auto; now apply H.
Qed.
(** doing something first *)
Lemma binds_assoc : forall t s (k : option nat -> task) K r,
  binds t s (fun f s1 => binds (k f) s1 K) r <->
  (exists f s1 fl, andthen (exec fl t s) (fun f s1 => exec fl (k f) s1) = Done f s1 /\ K f s1 r) \/
  (exists fl, andthen (exec fl t s) (fun f s1 => exec fl (k f) s1) = r /\ ok r /\ notdone r).
Proof.
  intros t s k K r. split.
  - intros [(f & s1 & H1 & [(f' & s2 & H2 & H3)|[H2 N]])|[H1 N]].
    + left. destruct (proj1 (ends_andthen t s k (Done f' s2))) as [_ [fl E]]; [left; eauto|]. exists f', s2, fl. auto.
    + right. destruct (proj1 (ends_andthen t s k r)) as [H [fl E]]; [left; eauto|]. exists fl. auto.
    + right. destruct (proj1 (ends_andthen t s k r)) as [H [fl E]]; [right; auto|]. exists fl. auto.
  - intros [(f & s1 & fl & E & HK)|(fl & E & H & N)].
    + destruct (proj2 (ends_andthen t s k (Done f s1))) as [(f' & s2 & H1 & H2)|[_ []]].
      * split; [discriminate|eauto].
      * left. exists f', s2. split; auto. left. eauto.
    + destruct (proj2 (ends_andthen t s k r)) as [(f' & s2 & H1 & H2)|H1]; [split; eauto| |].
      * left. exists f', s2. split; auto. right. auto.
      * right. auto.
Qed.

Section Bind.
Variable g : option nat -> prog.
Definition bound (p : prog) (s : st) (r : res) : Prop :=
  binds (TProg p) s (fun f s1 => ends (TProg (g f)) s1) r.
(** a step that does not return anything *)
Lemma bound_step : forall p p' s s' s'' r, (forall fl, exec (S fl) (TProg p) s = exec fl (TProg p') s') ->
  (forall fl, exec (S fl) (TProg (pbind p g)) s = exec fl (TProg (pbind p' g)) s'') -> s'' = s' ->
  (ends (TProg (pbind p' g)) s' r <-> bound p' s' r) -> (ends (TProg (pbind p g)) s r <-> bound p s r).
Proof.
  intros p p' s s' s'' r H1 H2 -> H.
  assert (X : forall r, ends (TProg p) s r <-> ends (TProg p') s' r).
  { intros r0. rewrite (ends_S _ _ _ _ H1). reflexivity. }
  rewrite (ends_S _ _ _ _ H2). change (ends (TProg (pbind p' g)) s' r <-> bound p s r). rewrite H.
  unfold bound, binds. rewrite X. split; (intros [(f & s1 & K1 & K2)|K1]; [left|now right]);
    exists f, s1; split; auto; now apply X.
Qed.
(** a step that calls [t] first *)
Lemma bound_call : forall p t (p' : option nat -> prog) s s' r,
  (forall fl, exec (S fl) (TProg p) s = andthen (exec fl t s') (fun f s1 => exec fl (TProg (p' f)) s1)) ->
  (forall fl, exec (S fl) (TProg (pbind p g)) s =
     andthen (exec fl t s') (fun f s1 => exec fl (TProg (pbind (p' f) g)) s1)) ->
  (forall f s1, ends (TProg (pbind (p' f) g)) s1 r <-> bound (p' f) s1 r) ->
  (ends (TProg (pbind p g)) s r <-> bound p s r).
Proof.
  intros p t p' s s' r H1 H2 H.
  rewrite (ends_S _ _ _ _ H2), <- (ends_andthen t s' (fun f => TProg (pbind (p' f) g))).
  rewrite (binds_ext _ _ _ (fun f s1 => bound (p' f) s1)) by (intros; apply H).
  unfold bound. rewrite (binds_assoc t s' (fun f => TProg (p' f))).
  assert (X : forall r, ends (TProg p) s r <->
    ok r /\ exists fl, andthen (exec fl t s') (fun f s1 => exec fl (TProg (p' f)) s1) = r)
    by (intros; apply (ends_S _ _ _ _ H1)).
  unfold binds. split.
  - intros [(f & s1 & fl & E & HK)|(fl & E & HO & N)].
    + left. exists f, s1. split; auto. apply X. split; [discriminate|eauto].
    + right. split; auto. apply X. eauto.
  - intros [(f & s1 & HE & HK)|[HE N]]; apply X in HE; destruct HE as [HO [fl E]].
    + left. eauto 6.
    + right. eauto.
Qed.
Lemma bind_ends : forall p s r, ends (TProg (pbind p g)) s r <-> bound p s r.
Proof.
  intros p. induction p as [f| |k IH|k IH|w k IH|n k IH|a k IH|f c _ k IH|p _ k IH|k IH|n k IH|k IH|w _ k IH|i k IH|k IH|p _ k IH];
    intros s r.
  - simpl. rewrite (ends_S _ _ _ (fun fl => exec fl (TProg (g f)) (arrive s))) by reflexivity.
    change (ends (TProg (g f)) (arrive s) r <-> bound (PRet f) s r). unfold bound, binds. split.
    + intros H. left. exists f, (arrive s). split; auto. now apply ends_ret.
    + intros [(f' & s1 & H1 & H2)|[H1 N]]; apply ends_ret in H1.
      * injection H1 as -> ->. exact H2.
      * subst r. destruct N.
  - assert (X : forall s r, ends (TProg PThrow) s r <-> r = Thrown (arrive s)).
    { intros s0 r0. rewrite (ends_S _ _ _ (fun _ => Thrown (arrive s0))) by reflexivity. split.
      - intros [_ [fl E]]. auto.
      - intros ->. split; [discriminate|now exists 0]. }
    simpl. unfold bound, binds. split.
    + intros H. right. split; auto. apply X in H. now subst r.
    + intros [(f & s1 & H1 & _)|[H1 _]]; auto. apply X in H1. discriminate.
  - eapply (bound_step _ (k (last (arrive s)))); try reflexivity. apply IH.
  - eapply (bound_step _ (k (world (arrive s)))); try reflexivity. apply IH.
  - eapply (bound_step _ k); try reflexivity. apply IH.
  - eapply (bound_step _ k); try reflexivity. apply IH.
  - destruct (new_dispatch futures a (arrive s)) as [[s1 f] j] eqn:E.
    apply (bound_call _ (TPost j) (fun _ => k f) _ s1).
    + intros fl. cbn [StoreModel.exec]. now rewrite E.
    + intros fl. cbn [StoreModel.exec pbind]. now rewrite E.
    + intros. apply IH.
  - apply (bound_call _ (TThen f (CBUser c)) k _ (arrive s)); try reflexivity. intros. apply IH.
  - apply (bound_call _ (TPost (JUser p)) (fun _ => k) _ (arrive s)); try reflexivity. intros. apply IH.
  - eapply (bound_step _ (k (length (heap (arrive s))))); try reflexivity. apply IH.
  - destruct (nth_error (heap (arrive s)) n) as [[[| | |] d l c]|] eqn:E.
    1: { apply (bound_call _ (TFulfil n) (fun _ => k) _ (arrive s)).
         - intros fl. cbn [StoreModel.exec]. now rewrite E.
         - intros fl. cbn [StoreModel.exec pbind]. now rewrite E.
         - intros. apply IH. }
    all: assert (X1 : forall p r, ends (TProg (PFulfil n p)) s r <-> r = Misuse) by
      (intros p r0; rewrite (ends_S _ _ _ (fun _ => Misuse)); [split; [intros [_ [fl E1]]; auto|
        intros ->; split; [discriminate|now exists 0]]|intros fl; cbn [StoreModel.exec]; now rewrite E]).
    all: simpl; unfold bound, binds; rewrite !X1; split; [intros ->; right; split; [reflexivity|exact Logic.I]|
      intros [(f & s1 & H1 & _)|[H1 _]]; [apply X1 in H1; discriminate|auto]].
  - apply (bound_call _ TNotify (fun _ => k) _ (send_down (emit ECommit (arrive s)))); try reflexivity. intros. apply IH.
  - eapply (bound_step _ (k (length (slots (arrive s))))); try reflexivity. apply IH.
  - destruct (nth_error (slots (arrive s)) i) as [[w|]|] eqn:E.
    + eapply (bound_step _ k); [intros fl; cbn [StoreModel.exec]; rewrite E; reflexivity|
        intros fl; cbn [StoreModel.exec pbind]; rewrite E; reflexivity|reflexivity|apply IH].
    + eapply (bound_step _ k); [intros fl; cbn [StoreModel.exec]; rewrite E; reflexivity|
        intros fl; cbn [StoreModel.exec pbind]; rewrite E; reflexivity|reflexivity|apply IH].
    + eapply (bound_step _ k); [intros fl; cbn [StoreModel.exec]; rewrite E; reflexivity|
        intros fl; cbn [StoreModel.exec pbind]; rewrite E; reflexivity|reflexivity|apply IH].
  - destruct (manual || busy (arrive s)) eqn:E.
    + assert (X1 : forall p r, ends (TProg (PStep p)) s r <-> r = Misuse) by
      (intros p r0; rewrite (ends_S _ _ _ (fun _ => Misuse)); [split; [intros [_ [fl E1]]; auto|
        intros ->; split; [discriminate|now exists 0]]|intros fl; cbn [StoreModel.exec]; now rewrite E]).
      simpl; unfold bound, binds; rewrite !X1; split; [intros ->; right; split; [reflexivity|exact Logic.I]|
      intros [(f & s1 & H1 & _)|[H1 _]]; [apply X1 in H1; discriminate|auto]].
    + apply (bound_call _ TRun (fun _ => k) _ (arrive s)).
      * intros fl. cbn [StoreModel.exec]. now rewrite E.
      * intros fl. cbn [StoreModel.exec pbind]. now rewrite E.
      * intros. apply IH.
  - cbn [pbind]. rewrite ends_try. unfold bound, binds. split.
    + intros [(f & s1 & H1 & H2)|[(s1 & H1 & H2)|(H1 & H2)]].
      * apply IH in H2. destruct H2 as [(f' & s2 & H2 & H3)|[H2 N]].
        -- left. exists f', s2. split; auto. apply ends_try. left. eauto.
        -- right. split; auto. apply ends_try. left. eauto.
      * apply IH in H2. destruct H2 as [(f' & s2 & H2 & H3)|[H2 N]].
        -- left. exists f', s2. split; auto. apply ends_try. right. left. eauto.
        -- right. split; auto. apply ends_try. right. left. eauto.
      * right. split; [apply ends_try; auto|]. destruct H2; subst r; exact Logic.I.
    + intros [(f & s1 & H1 & H2)|[H1 N]]; apply ends_try in H1.
      * destruct H1 as [(f' & s2 & K1 & K2)|[(s2 & K1 & K2)|(K1 & [K2|K2])]]; try discriminate.
        -- left. exists f', s2. split; auto. apply IH. left. eauto.
        -- right. left. exists s2. split; auto. apply IH. left. eauto.
      * destruct H1 as [(f' & s2 & K1 & K2)|[(s2 & K1 & K2)|K]]; auto.
        -- left. exists f', s2. split; auto. apply IH. right. eauto.
        -- right. left. exists s2. split; auto. apply IH. right. eauto.
Qed.
End Bind.

(** *** C27 *)
(** [b], once [f] is there: immediately if it is the empty future, and otherwise as
    a callback of it *)
Definition after (f : option nat) (b : prog) (s : st) (r : res) : Prop := ends (TThen f (CBUser b)) s r.
Lemma after_none : forall b s r, after None b s r <-> ends (TProg b) s r.
Proof.
  intros b s r. unfold after. rewrite (ends_S _ _ _ (fun fl => exec fl (TProg b) s)) by reflexivity. reflexivity.
Qed.
Lemma ends_then : forall f b s r, ends (TProg (PThen f b (fun f' => PRet f'))) s r <->
  binds (TThen f (CBUser b)) (arrive s) (fun f' s1 r => r = Done f' (arrive s1)) r.
Proof.
  intros f b s r. rewrite (ends_S _ _ _ (fun fl => andthen (exec fl (TThen f (CBUser b)) (arrive s))
    (fun f' s1 => exec fl (TProg (PRet f')) s1))) by reflexivity.
  rewrite <- (ends_andthen _ _ (fun f => TProg (PRet f))). apply binds_ext. intros f1 s1. apply ends_ret.
Qed.
Lemma sequence_ends : forall a b e s r, sequence (Some a) (Some b) = Some e ->
  (ends (TProg e) s r <->
   binds (TProg a) s (fun f s1 => binds (TThen f (CBUser b)) (arrive s1) (fun f' s2 r => r = Done f' (arrive s2))) r).
Proof.
  intros a b e s r E. injection E as <-. rewrite bind_ends. apply binds_ext. intros f s1. apply ends_then.
Qed.
End Seq.
Arguments ok {M A W}. Arguments notdone {M A W}.
Arguments ends {M A W}. Arguments binds {M A W}. Arguments after {M A W}.

(** On the manual loop, where nothing arrives in between. *)
Section Tree.
Variables M A W : Type.
Notation prog := (prog M A W).
Notation st := (st M A W).
Notation res := (res M A W).
Variable reducer : M -> A -> option (M * option prog).
Variable eqb : M -> M -> bool.
Variables trans futures : bool.
Variable ext : nat -> list A.
Notation ends := (ends reducer eqb trans futures true ext).
Notation after := (after reducer eqb trans futures true ext).
Definition runs (e : option prog) (s : st) (r : res) : Prop :=
  match e with Some p => ends (TProg p) s r | None => r = Done None s end.
(** a thing, then another that is given its future *)
Definition next (P : st -> res -> Prop) (K : option nat -> st -> res -> Prop) (s : st) (r : res) : Prop :=
  (exists f s1, P s (Done f s1) /\ K f s1 r) \/ (P s r /\ notdone r).
(** one effect after the other *)
Fixpoint chain (es : list prog) (f : option nat) (s : st) (r : res) : Prop :=
  match es with
  | [] => r = Done f s
  | e :: es => next (after f e) (chain es) s r
  end.
Lemma next_ext : forall P P' K K' s r, (forall s r, P s r <-> P' s r) -> (forall f s r, K f s r <-> K' f s r) ->
  (next P K s r <-> next P' K' s r).
Proof.
  intros P P' K K' s r H1 H2. unfold next. split; (intros [(f & s1 & X & Y)|[X N]]; [left; exists f, s1|right]);
    split; auto; try apply H1; try apply H2; auto.
Qed.
Lemma next_next : forall P K K' s r, next (next P K) K' s r <-> next P (fun f => next (K f) K') s r.
Proof.
  intros P K K' s r. unfold next. split.
  - intros [(f & s1 & [(f' & s2 & X & Y)|[X []]] & Z)|[[(f' & s2 & X & Y)|[X _]] N]].
    + left. exists f', s2. split; auto. left. eauto.
    + left. exists f', s2. split; auto.
    + right. auto.
  - intros [(f & s1 & X & [(f' & s2 & Y & Z)|[Y N]])|[X N]].
    + left. exists f', s2. split; auto. left. eauto.
    + right. split; auto. left. eauto.
    + right. auto.
Qed.
Lemma next_ret : forall P s r, next P (fun f s1 r => r = Done f s1) s r <-> P s r.
Proof.
  intros P s r. unfold next. split.
  - intros [(f & s1 & X & ->)|[X _]]; auto.
  - intros H. destruct r as [f s1| | | |]; [left; eauto|..]; right; split; auto; exact Logic.I.
Qed.
Lemma ret_next : forall f s K r, next (fun s r => r = Done f s) K s r <-> K f s r.
Proof.
  intros f s K r. unfold next. split.
  - intros [(f' & s1 & X & Y)|[-> []]]. now injection X as -> ->.
  - intros H. left. eauto.
Qed.
Lemma chain_app : forall es es' f s r, chain (es ++ es') f s r <-> next (chain es f) (chain es') s r.
Proof.
  induction es as [|e es IH]; intros es' f s r; simpl.
  - now rewrite (ret_next f).
  - rewrite next_next. apply next_ext; [reflexivity|]. intros. apply IH.
Qed.
Lemma sequence_runs : forall a b s r,
  runs (sequence a b) s r <->
  next (runs a) (fun f => match b with Some b => after f b | None => fun s1 r => r = Done f s1 end) s r.
Proof.
  intros [a|] [b|] s r; simpl.
  - rewrite (sequence_ends _ _ _ reducer eqb trans futures true ext a b _ s r eq_refl).
    apply next_ext; [reflexivity|]. intros f s1 r1. unfold StoreModel.arrive. apply next_ret.
  - now rewrite next_ret.
  - rewrite (ret_next None). now rewrite (after_none _ _ _ reducer eqb trans futures true ext).
  - rewrite next_ret, (ends_ret _ _ _ reducer eqb trans futures true ext). reflexivity.
Qed.
(** doing nothing *)
Lemma noop_runs : forall s r, runs noop s r <-> r = Done None s.
Proof. intros s r. simpl. rewrite (ends_ret _ _ _ reducer eqb trans futures true ext). reflexivity. Qed.
Lemma sequence_noop_l : forall a s r, runs (sequence noop a) s r <-> runs a s r.
Proof.
  intros [a|] s r; rewrite sequence_runs.
  - rewrite (next_ext _ (fun s r => r = Done None s) _ _ s r noop_runs (fun _ _ _ => iff_refl _)).
    rewrite (ret_next None). apply after_none.
  - rewrite next_ret. apply noop_runs.
Qed.
Lemma sequence_none : forall a s r,
  (runs (sequence None a) s r <-> runs a s r) /\ (runs (sequence a None) s r <-> runs a s r).
Proof.
  intros a s r. split; [|rewrite sequence_runs; apply next_ret].
  destruct a as [a|]; [reflexivity|]. rewrite sequence_runs. apply next_ret.
Qed.
(** sequence of any number of effects *)
Definition present (es : list (option prog)) : list prog :=
  flat_map (fun e => match e with Some e => [e] | None => [] end) es.
Lemma sequence_all_runs : forall bs a s r,
  runs (sequence_all a bs) s r <-> chain (present (a :: bs)) None s r.
Proof.
  induction bs as [|b bs IH] using rev_ind; intros a s r.
  - destruct a; simpl; [|reflexivity]. rewrite next_ret. symmetry. apply after_none.
  - unfold sequence_all. rewrite fold_left_app. cbn [fold_left]. rewrite sequence_runs.
    rewrite app_comm_cons. unfold present. rewrite flat_map_app. rewrite chain_app.
    apply next_ext; [apply IH|]. intros f s1 r1. destruct b; simpl; [|reflexivity].
    now rewrite next_ret.
Qed.
(** *** Any bracketing *)
Inductive tree := Leaf (e : option prog) | Node (l r : tree).
Fixpoint build (t : tree) : option prog :=
  match t with Leaf e => e | Node l r => sequence (build l) (build r) end.
Fixpoint leaves (t : tree) : list (option prog) :=
  match t with Leaf e => [e] | Node l r => leaves l ++ leaves r end.
(** an effect that is over when it returns *)
Definition sync (e : prog) : Prop := forall s f s1, ends (TProg e) s (Done f s1) -> f = None.
Lemma sequence_noop_r : forall a s r, sync a -> (runs (sequence (Some a) noop) s r <-> runs (Some a) s r).
Proof.
  intros a s r H. rewrite sequence_runs. unfold next. split.
  - intros [(f & s1 & X & Y)|[X _]]; auto. assert (f = None) as -> by (eapply H; exact X).
    apply after_none, noop_runs in Y. now subst.
  - intros X. destruct r as [f s1| | | |]; try (right; split; [exact X|exact Logic.I]).
    left. exists f, s1. split; auto. assert (f = None) as -> by (eapply H; exact X).
    apply after_none. now apply noop_runs.
Qed.
Fixpoint all_sync (es : list prog) : Prop :=
  match es with
  | [] | [_] | [_; _] => True
  | e :: es => sync e /\ all_sync es
  end.
Lemma all_sync_cons : forall e es, all_sync (e :: es) -> all_sync es.
Proof. intros e [|e1 [|e2 es]]; simpl; tauto. Qed.
Lemma all_sync_l : forall es es', all_sync (es ++ es') -> all_sync es.
Proof.
  induction es as [|e es IH]; intros es' H; [exact Logic.I|].
  assert (H1 := IH es' (all_sync_cons _ _ H)). destruct es as [|e1 [|e2 es]]; try exact Logic.I.
  split; auto. apply H.
Qed.
Lemma all_sync_r : forall es es', all_sync (es ++ es') -> all_sync es'.
Proof. induction es as [|e es IH]; intros es' H; auto. apply IH. exact (all_sync_cons _ _ H). Qed.
Lemma all_sync_two : forall es e e' es', all_sync (es ++ e :: e' :: es') -> forall x, In x es -> sync x.
Proof.
  induction es as [|e0 es IH]; intros e e' es' H x Hx; [destruct Hx|].
  destruct Hx as [<-|Hx].
  - destruct es as [|e1 es]; [apply H|]. destruct es as [|e2 es]; apply H.
  - exact (IH e e' es' (all_sync_cons _ _ H) x Hx).
Qed.
Lemma chain_sync : forall es s f s1, (forall x, In x es -> sync x) -> chain es None s (Done f s1) -> f = None.
Proof.
  induction es as [|e es IH]; intros s f s1 H X; simpl in X; [now injection X|].
  destruct X as [(f' & s2 & X & Y)|[_ []]].
  apply after_none in X. assert (f' = None) as -> by (eapply H; [now left|eassumption]).
  apply (IH s2 f s1); auto. intros x Hx. apply H. now right.
Qed.
(** Empty effects are put in sequence with effects that are not empty only. *)
Fixpoint some_at_each (t : tree) : Prop :=
  match t with
  | Leaf _ => True
  | Node l r => some_at_each l /\ some_at_each r /\ present (leaves t) <> []
  end.
Lemma build_none : forall t, some_at_each t -> (build t = None <-> present (leaves t) = []).
Proof.
  induction t as [[e|]|l IHl r IHr]; intros C; simpl; try (split; congruence).
  destruct C as (C1 & C2 & C3). specialize (IHl C1). specialize (IHr C2). cbn [leaves] in C3.
  split; [|intros H; now elim C3]. destruct (build l), (build r); discriminate.
Qed.
Lemma build_one : forall t e, some_at_each t -> present (leaves t) = [e] -> build t = Some e.
Proof.
  induction t as [[e|]|l IHl r IHr]; intros e0 C H; simpl in *; try congruence.
  destruct C as (C1 & C2 & _).
  unfold present in *. rewrite flat_map_app in H. apply app_eq_unit in H as [[H1 H2]|[H1 H2]].
  - apply (build_none _ C1) in H1. rewrite H1, (IHr _ C2 H2). reflexivity.
  - apply (build_none _ C2) in H2. rewrite H2, (IHl _ C1 H1). reflexivity.
Qed.
Lemma tree_runs : forall t s r, some_at_each t -> all_sync (present (leaves t)) ->
  (runs (build t) s r <-> chain (present (leaves t)) None s r).
Proof.
  induction t as [e|tl IHl tr IHr]; intros s r C H.
  - destruct e; simpl; [|reflexivity]. rewrite next_ret. symmetry. apply after_none.
  - cbn [build leaves]. rewrite sequence_runs. destruct C as (C1 & C2 & _).
    assert (E : present (leaves tl ++ leaves tr) = present (leaves tl) ++ present (leaves tr))
      by apply flat_map_app.
    cbn [leaves] in H. rewrite E in H |- *. rewrite chain_app.
    destruct (present (leaves tr)) as [|e [|e' es]] eqn:Er.
    + rewrite (proj2 (build_none tr C2)) by exact Er. apply next_ext; [|reflexivity].
      intros. apply IHl; auto. exact (all_sync_l _ _ H).
    + rewrite (build_one tr e C2) by exact Er. apply next_ext.
      * intros. apply IHl; auto. exact (all_sync_l _ _ H).
      * intros. simpl. now rewrite next_ret.
    + destruct (build tr) as [b|] eqn:Eb.
      2: { apply (build_none _ C2) in Eb. rewrite Eb in Er. discriminate. }
      assert (X : forall s1 r1, after None b s1 r1 <-> chain (e :: e' :: es) None s1 r1).
      { intros s1 r1. rewrite <- IHr by (auto; exact (all_sync_r _ _ H)). apply after_none. }
      assert (Y : forall f s1, chain (present (leaves tl)) None s (Done f s1) -> f = None).
      { intros f s1. apply chain_sync. exact (all_sync_two _ _ _ _ H). }
      assert (Z : forall r, runs (build tl) s r <-> chain (present (leaves tl)) None s r).
      { intros. apply IHl; auto. exact (all_sync_l _ _ H). }
      unfold next at 1 2. split.
      * intros [(f & s1 & K1 & K2)|[K1 N]].
        -- left. apply Z in K1. assert (f = None) as -> by eauto. exists None, s1. split; auto. now apply X.
        -- right. split; auto. now apply Z.
      * intros [(f & s1 & K1 & K2)|[K1 N]].
        -- left. assert (f = None) as -> by eauto. exists None, s1. split; [now apply Z|]. now apply X.
        -- right. split; auto. now apply Z.
Qed.
End Tree.
