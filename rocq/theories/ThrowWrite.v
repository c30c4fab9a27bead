(** Proofs about exceptions in the graph: what a write changes. *)
From Coq Require Import List Bool Arith Lia Permutation.
From Verif Require Import ThrowModel ThrowSpec ThrowProofs ThrowCommit ThrowLate.
Import ListNotations.

Section Write.
Context {V : Type}.
Variable changed : V -> V -> bool.
Variable g : graph V.
Variable w : world V.
Notation St := (st V).

(** ** Refreshing changes nothing that is shown, and no root *)
Definition only_inner (s s' : St) : Prop :=
  (forall m, ~ inner g m -> cur s' m = cur s m) /\ (forall m, last s' m = last s m) /\
  (forall m, calling s' m = calling s m) /\ calls (log s') = calls (log s).
Lemma only_inner_refl s : only_inner s s.
Proof. repeat split. Qed.
Lemma only_inner_push s s1 n v : inner g n -> only_inner s s1 -> only_inner s (push_down changed n v s1).
Proof.
  intros N (A & B & C & D); unfold push_down; destruct (changed v (cur s1 n)); [|repeat split; auto].
  split; [|repeat split; auto]; intros m M; cbn; rewrite at_ne; auto; intros ->; auto.
Qed.
Lemma refresh_only_inner f n s s0 : only_inner s0 s -> pres (only_inner s0) (refresh changed g w f n s).
Proof.
  apply rf_pres.
  - intros m x (A & B & C & D); repeat split; auto.
  - intros m x x1 O Nm E; unfold recompute, compute in E; destruct Nm as [b K]; rewrite K in E.
    destruct (throws w (clock x)); [discriminate|injection E as <-].
    assert (O' : only_inner s0 (note (ESeen m) (tick x))) by (destruct O as (A & B & C & D); repeat split; auto).
    maybe; auto; apply only_inner_push; auto; exists b; auto.
Qed.

(** What is rejected on the way up is not written. *)
Theorem rejected n b v s s' : kind_of g n = Inner b -> (forall vs, put g n vs v = None) ->
  end_of (do changed g w (Set_ n v) s) = Some s' ->
  (forall m, ~ inner g m -> cur s' m = cur s m) /\ (forall m, last s' m = last s m) /\
  calls (log s') = calls (log s).
Proof.
  intros K P E; assert (O : only_inner s s'); [|destruct O as (A & B & _ & D); auto].
  cbn [do] in E; cbn [send_up] in E; rewrite K in E.
  assert (Q : pres (only_inner s) (if b then refresh changed g w (S n) n s else Done s)).
  { destruct b; [apply refresh_only_inner|]; apply only_inner_refl. }
  destruct (if b then _ else _) as [s1|s1|]; cbn [bind pres] in *; [|cbn in E; injection E as <-; auto|discriminate].
  assert (Q1 : only_inner s (tick s1)) by (destruct Q as (A & B & C & D); repeat split; auto).
  unfold compute in E; destruct (throws w (clock s1)); cbn in E; [injection E as <-|].
  - destruct Q as (A & B & C & D); repeat split; auto.
  - rewrite P in E; cbn in E; injection E as <-; auto.
Qed.

(** What is not rejected is written, if the parents are roots and nothing throws. *)
Lemma write_roots f l s s' : reflexive changed -> NoDup (map fst l) ->
  (forall p u, In (p, u) l -> kind_of g p = Root false) ->
  each (fun pv => send_up changed g w (S f) (fst pv) (snd pv)) l s = Done s' ->
  (forall p u, In (p, u) l -> changed u (cur s' p) = false) /\
  (forall p, ~ In p (map fst l) -> cur s' p = cur s p).
Proof.
  intro R; revert s; induction l as [|[p u] l IH]; intros s N K E.
  - cbn in E; injection E as <-; split; [intros ? ? []|auto].
  - cbn [each] in E; change (send_up changed g w (S f) (fst (p, u)) (snd (p, u)) s)
      with (send_up changed g w (S f) p u s) in E.
    cbn [send_up] in E; rewrite (K p u) in E by (left; auto); cbn [bind] in E.
    cbn in N; apply NoDup_cons_iff in N as [N1 N2].
    destruct (IH _ N2 (fun q x I => K q x (or_intror I)) E) as [A B]; split.
    + intros q x [X | X]; [|auto]; injection X as <- <-; rewrite B by auto.
      unfold push_down; destruct (changed u (cur s p)) eqn:C; auto; cbn; rewrite at_eq; apply R.
    + intros q Q; cbn in Q; rewrite B by tauto; unfold push_down; destruct (changed u (cur s p)); auto.
      cbn; rewrite at_ne; auto.
Qed.
Theorem accepted n b v vs s s' : reflexive changed -> built g -> fair w -> kind_of g n = Inner b ->
  NoDup (parents g n) -> (forall p, In p (parents g n) -> kind_of g p = Root false) ->
  put g n (map (cur s) (parents g n)) v = Some vs ->
  do changed g w (Set_ n v) s = Done s' ->
  forall p u, In (p, u) (combine (parents g n) vs) -> changed u (cur s' p) = false.
Proof.
  intros R B F K N Rt P E p u I; cbn [do] in E; cbn [send_up] in E; rewrite K in E.
  destruct n as [|n]; [destruct (parents g 0) eqn:E0; [destruct I|]; exfalso;
    pose proof (older _ B 0 n) as X; rewrite E0 in X; specialize (X (or_introl eq_refl)); lia|].
  assert (Q : pres (only_inner s) (if b then refresh changed g w (S (S n)) (S n) s else Done s)).
  { destruct b; [apply refresh_only_inner|]; apply only_inner_refl. }
  destruct (if b then _ else _) as [s1|s1|]; cbn [bind pres] in *; try discriminate.
  unfold compute in E; destruct (throws w (clock s1)); [discriminate|].
  assert (M : seen_by g (S n) s1 = map (cur s) (parents g (S n))).
  { unfold seen_by; apply map_ext_in; intros a Ia; apply Q; intros [c C]; rewrite Rt in C by auto; discriminate. }
  rewrite M, P in E.
  assert (Pm : Permutation (map fst (written w (clock (tick s1)) (combine (parents g (S n)) vs)))
                           (map fst (combine (parents g (S n)) vs))) by apply Permutation_map, F.
  assert (Nc : NoDup (map fst (combine (parents g (S n)) vs))).
  { clear - N; revert vs; induction (parents g (S n)) as [|a l IH]; intros [|x vs]; cbn; try constructor.
    - intro J; apply NoDup_cons_iff in N as [N _]; apply N.
      apply in_map_iff in J as ([c y] & <- & J); apply in_combine_l in J; auto.
    - apply NoDup_cons_iff in N as [_ N]; auto. }
  eapply write_roots in E; [destruct E as [E _]; apply E|auto| |].
  - apply (Permutation_in _ (Permutation_sym (proj2 F _ _))); auto.
  - apply (Permutation_NoDup (Permutation_sym Pm)); auto.
  - intros q x J; apply (Permutation_in _ (proj2 F _ _)), in_combine_l in J; auto.
Qed.
End Write.
