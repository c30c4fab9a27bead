(** Proofs about the Qt event loop. *)
From Coq Require Import List Arith Bool Lia Permutation.
From Verif Require Import QtLoopModel QtLoopSpec.
Import ListNotations.

Ltac case_step H :=
  repeat match type of H with
         | None = Some _ => discriminate H
         | Some _ = Some _ => injection H as H
         | context [match ?x with _ => _ end] => destruct x eqn:?
         end.

Lemma steps_app n ls1 ls2 s s' :
  steps n (ls1 ++ ls2) s = Some s' <-> exists m, steps n ls1 s = Some m /\ steps n ls2 m = Some s'.
Proof.
  revert s; induction ls1 as [|l r IH]; intro s; cbn.
  - split; [eauto | intros (m & E & H); injection E as ->; exact H].
  - destruct (step n l s) as [x|]; [apply IH|].
    split; [discriminate | intros (m & E & _); discriminate E].
Qed.

Lemma reach_ind n (P : st -> Prop) :
  P init -> (forall l s s', reach n s -> P s -> step n l s = Some s' -> P s') ->
  forall s, reach n s -> P s.
Proof.
  intros P0 PS s [ls E]; revert s E.
  induction ls as [|l r IH] using rev_ind; intros s E.
  - injection E as <-; exact P0.
  - apply steps_app in E as (m & E1 & E2); cbn in E2.
    destruct (step n l m) as [x|] eqn:F; [|discriminate E2]; injection E2 as <-.
    apply (PS l m x); [exists r; exact E1 | exact (IH _ E1) | exact F].
Qed.

Ltac proj :=
  cbn [inbox obj stack quitting tasks active loops dying next fated log
       note set_inbox set_obj set_stack set_pool set_loops bump set_fate] in *.
Ltac unstep H :=
  unfold step, go, do_use in H; case_step H; subst; proj;
  cbn [posted begun ended given started back finished] in *.

(** ** Posted functions *)

Definition queued (s : st) : Prop :=
  (if obj s then posted (log s) = begun (log s) ++ inbox s else inbox s = []) /\
  exists r, posted (log s) = begun (log s) ++ r.

Lemma queued_step n l s s' : queued s -> step n l s = Some s' -> queued s'.
Proof.
  intros [Q [r P]] H; unfold queued.
  unstep H; auto.
  all: try (split; [assumption | eauto]).
  - rewrite Heqb1, Q; split; [|exists (inbox s ++ [next s])]; rewrite app_assoc; reflexivity.
  - rewrite Heqb1; split; eauto.
  - destruct (obj s); [|discriminate Q]; rewrite Q; split; [|exists l0]; rewrite <- app_assoc; reflexivity.
  - split; eauto.
Qed.

Theorem queued_reach n s : reach n s -> queued s.
Proof.
  apply reach_ind; [|intros; eapply queued_step; eauto].
  split; [reflexivity | exists []; reflexivity].
Qed.

(** ** Numbers *)

Definition fresh (s : st) : Prop :=
  NoDup (posted (log s)) /\ NoDup (given (log s)) /\
  (forall i, In i (posted (log s)) -> i < next s) /\
  (forall i, In i (given (log s)) -> i < next s).

Lemma snoc_fresh l n : NoDup l -> (forall i, In i l -> i < n) ->
  NoDup (l ++ [n]) /\ (forall i, In i (l ++ [n]) -> i < S n).
Proof.
  intros N F; split.
  - apply (Permutation_NoDup (l := n :: l)); [apply Permutation_cons_append|].
    constructor; [intro I; specialize (F _ I); lia | exact N].
  - intros i I; apply in_app_iff in I as [I | [<- | []]]; [specialize (F _ I); lia | lia].
Qed.

Lemma is_in_iff k l : is_in k l = true <-> In k l.
Proof.
  unfold is_in; rewrite existsb_exists; split.
  - intros (x & I & E); apply Nat.eqb_eq in E; subst; exact I.
  - intro I; exists k; split; [exact I | apply Nat.eqb_refl].
Qed.

Lemma fresh_step n l s s' : fresh s -> step n l s = Some s' -> fresh s'.
Proof.
  intros (A & B & P & G) H; unfold fresh.
  unstep H; auto.
  all: try (destruct (snoc_fresh _ _ A P) as [A' P']).
  all: try (destruct (snoc_fresh _ _ B G) as [B' G']).
  all: repeat split; auto; intros i I; try (specialize (P i I)); try (specialize (G i I)); lia.
Qed.

Theorem fresh_reach n s : reach n s -> fresh s.
Proof.
  apply reach_ind; [|intros; eapply fresh_step; eauto].
  refine (conj (NoDup_nil _) (conj (NoDup_nil _) (conj _ _))); intros i [].
Qed.

Theorem order n s : reach n s ->
  NoDup (posted (log s)) /\ exists r, posted (log s) = begun (log s) ++ r.
Proof. intro R; split; [apply (fresh_reach _ _ R) | apply (queued_reach _ _ R)]. Qed.

Theorem delivers n s : reach n s -> fated s = Going -> obj s = true -> looping s = true ->
  posted (log s) <> begun (log s) ->
  exists s', step n LDeliver s = Some s' /\ begun (log s') <> begun (log s).
Proof.
  intros R G O L N; destruct (queued_reach _ _ R) as [Q _]; rewrite O in Q.
  destruct (inbox s) as [|i r] eqn:E; [rewrite app_nil_r in Q; contradiction|].
  unfold step; rewrite G; cbn; rewrite L, E; eexists; split; [reflexivity|]; cbn.
  intro F; apply (f_equal (@length nat)) in F; rewrite app_length in F; cbn in F; lia.
Qed.

Lemma in_begun_obj n s : reach n s -> forall l1 i l2, log s = l1 ++ EBegin i :: l2 -> ~ In EObjGone l2.
Proof.
  revert s; refine (fun s R => proj2 ((_ : (In EObjGone (log s) -> obj s = false) /\ _))).
  revert s R; apply (reach_ind n (fun s => (In EObjGone (log s) -> obj s = false) /\
    forall l1 i l2, log s = l1 ++ EBegin i :: l2 -> ~ In EObjGone l2)).
  - split; [cbn; intuition discriminate|]; intros [|x [|]] i l2 E; discriminate E.
  - intros l s s' R [A B] H; pose proof (queued_reach _ _ R) as [Q _].
    assert (X : forall e, (forall i, e <> EBegin i) ->
      forall l1 i l2, e :: log s = l1 ++ EBegin i :: l2 -> ~ In EObjGone l2).
    { intros e NE [|x l1] i l2 E; cbn in E; injection E; intros; subst; [destruct (NE i eq_refl)|].
      apply (B l1 i); assumption. }
    unstep H; split; auto; try (intros [F | F]; [discriminate F | auto]; fail).
    all: try (apply X; discriminate).
    all: try (match goal with O : obj ?x = _ |- _ -> obj ?x = false => rewrite O end).
    all: try (intros [F | F]; [discriminate F | auto]; fail).
    + intros [F | [F | F]]; try discriminate F; auto.
    + intros [|x l1] i l2 E; [discriminate E|]; injection E as _ E; eapply X; [|exact E]; discriminate.
    + intros [|x l1] i l2 E.
      * injection E as _ E; subst l2; intro F; rewrite (A F) in Q; discriminate Q.
      * injection E as _ E; eapply B; exact E.
Qed.

(** ** One at a time *)

Definition line (s : st) : Prop :=
  (stack s = [] /\ begun (log s) = ended (log s)) \/
  (exists b, stack s = [Exec b] /\ begun (log s) = ended (log s)) \/
  (exists b i, stack s = [Call i; Exec b] /\ begun (log s) = ended (log s) ++ [i]).

Lemma flat_tail e l : flat (e :: l) -> flat l.
Proof. intros F l1 l2 E; apply (F (e :: l1) l2); rewrite E; reflexivity. Qed.

Lemma line_reach n s : reach n s -> flat (log s) -> line s.
Proof.
  revert s; apply (reach_ind n (fun s => flat (log s) -> line s)).
  - intros _; left; split; reflexivity.
  - intros l s s' R IH H F.
    assert (L : line s).
    { apply IH; clear IH; unstep H; repeat (apply flat_tail in F); exact F. }
    clear IH; unfold line in *.
    unstep H; auto.
    + destruct L as [[E L] | [(b & E & L) | (b & i & E & L)]]; rewrite E; cbn [map];
        [left | right; left | right; right]; eauto.
    + destruct L as [[E L] | [(b & E & L) | (b & i & E & L)]]; try discriminate E.
      right; left; eauto.
    + rewrite Heql1; exact L.
    + specialize (F [] _ eq_refl); cbn in F.
      destruct L as [[E L] | [(b & E & L) | (b & i & E & L)]]; try discriminate E.
      * injection E as -> ->; unfold present in Heqb; rewrite Heql1, andb_false_r in Heqb; discriminate Heqb.
      * rewrite F in L; apply (f_equal (@length nat)) in L; rewrite app_length in L; cbn in L; lia.
    + destruct L as [[E L] | [(b & E & L) | (b & i & E & L)]]; try discriminate E.
      injection E; intros; subst; left; auto.
    + unfold looping in Heqb.
      destruct L as [[E L] | [(b & E & L) | (b & i & E & L)]]; rewrite E in Heqb; try discriminate Heqb.
      rewrite E; right; right; exists b, n0; rewrite L; auto.
    + destruct L as [[E L] | [(b & E & L) | (b & i & E & L)]]; try discriminate E.
      injection E; intros; subst; right; left; eauto.
Qed.

Theorem serial_flat n s : reach n s -> flat (log s) -> serial (log s).
Proof.
  intros R F; destruct (line_reach n s R F) as [[_ L] | [(b & _ & L) | (b & i & _ & L)]];
    unfold serial; eauto.
Qed.

(** ** The pool *)

Definition names (l : list (nat * nat)) : list nat := map fst l.

Definition pooled (s : st) : Prop :=
  given (log s) = started (log s) ++ names (tasks s) /\
  Permutation (started (log s)) (back (log s) ++ names (active s)).

Lemma nodup_right {A} (l1 l2 : list A) : NoDup (l1 ++ l2) -> NoDup l2.
Proof. induction l1; cbn; [auto | intro N; inversion N; auto]. Qed.
Lemma nodup_left {A} (l1 l2 : list A) : NoDup (l1 ++ l2) -> NoDup l1.
Proof.
  induction l1; cbn; intro N; [constructor|]; inversion N; subst; constructor; [|auto].
  intro I; apply H1, in_app_iff; auto.
Qed.

Lemma drop_perm a (l : list (nat * nat)) : NoDup (names l) -> In a (names l) ->
  Permutation (names l) (a :: names (filter (fun t => negb (fst t =? a)) l)).
Proof.
  induction l as [|t l IH]; cbn; intros N I; [destruct I|]; inversion N as [|x y A B]; subst.
  destruct (fst t =? a) eqn:E; cbn.
  - apply Nat.eqb_eq in E; rewrite E in A |- *; constructor.
    replace (filter (fun t => negb (fst t =? a)) l) with l; [apply Permutation_refl|].
    clear - A; induction l as [|u l IH]; [reflexivity|]; cbn in A |- *.
    destruct (fst u =? a) eqn:E; [apply Nat.eqb_eq in E; destruct A; auto|]; cbn.
    rewrite <- IH; auto.
  - destruct I as [I | I]; [apply Nat.eqb_neq in E; contradiction|].
    rewrite (IH B I) at 1; apply perm_swap.
Qed.

Lemma pooled_nodup n s : reach n s -> pooled s ->
  NoDup (started (log s)) /\ NoDup (names (active s)).
Proof.
  intros R [P1 P2]; destruct (fresh_reach _ _ R) as (_ & N & _); rewrite P1 in N.
  apply nodup_left in N; split; [exact N|].
  apply (Permutation_NoDup P2) in N; exact (nodup_right _ _ N).
Qed.

Lemma present_task a s : present (Task a) s = true ->
  In a (names (active s)) /\ forall k, ~ In (Task a, k) (dying s).
Proof.
  unfold present; intro H; apply andb_true_iff in H as [H1 H2]; split.
  - apply existsb_exists in H2 as (t & I & E); apply Nat.eqb_eq in E; rewrite <- E.
    apply in_map, I.
  - intros k I; apply negb_true_iff in H1.
    assert (X : existsb (fun d : who * nat => who_eqb (fst d) (Task a)) (dying s) = true).
    { apply existsb_exists; exists (Task a, k); split; [exact I|]; apply Nat.eqb_refl. }
    rewrite H1 in X; discriminate X.
Qed.

Lemma pooled_step n l s s' : reach n s -> pooled s -> step n l s = Some s' -> pooled s'.
Proof.
  intros R P H; destruct (pooled_nodup _ _ R P) as [N1 N2]; destruct P as [P1 P2]; unfold pooled.
  unstep H; try (split; assumption).
  - rewrite P1; unfold names; rewrite map_app, app_assoc; split; auto.
  - match goal with A : tasks s = [], B : active s = [] |- _ => rewrite A, B end; split; assumption.
  - rewrite P1; unfold names; rewrite map_app, app_assoc; split; auto.
  - rewrite P1; unfold names in *; rewrite map_app; cbn; rewrite <- app_assoc; split; [reflexivity|].
    rewrite P2, <- app_assoc; apply Permutation_refl.
  - split; [exact P1|]; apply present_task in Heqb as [I _].
    rewrite P2, (drop_perm _ _ N2 I), <- app_assoc; apply Permutation_refl.
Qed.

Theorem pooled_reach n s : reach n s -> pooled s.
Proof.
  apply reach_ind; [split; [reflexivity | constructor] | intros; eapply pooled_step; eauto].
Qed.

Theorem async_order n s : reach n s ->
  NoDup (given (log s)) /\ exists r, given (log s) = started (log s) ++ r.
Proof.
  intro R; destruct (pooled_reach _ _ R) as [P _]; split; [apply (fresh_reach _ _ R) | eauto].
Qed.

(** At most [n] at a time. *)
Theorem at_most n s : reach n s -> length (started (log s)) <= length (back (log s)) + n.
Proof.
  intro R; destruct (pooled_reach _ _ R) as [_ P]; rewrite (Permutation_length P), app_length.
  enough (length (names (active s)) <= n) by lia.
  unfold names; rewrite map_length; clear P; revert s R.
  apply (reach_ind n (fun s => length (active s) <= n)); [cbn; lia|].
  intros l s s' R L H; unstep H; auto;
    try (match goal with A : active s = [] |- _ => rewrite A; exact L end).
  - apply Nat.ltb_lt in Heqb; rewrite app_length; cbn; lia.
  - etransitivity; [|exact L].
    clear; induction (active s) as [|t l IH]; [constructor|]; cbn.
    destruct (negb (fst t =? a)); cbn; lia.
Qed.

(** The pool calls what waits whenever it may. *)
Theorem starts n s : reach n s -> fated s = Going ->
  given (log s) <> started (log s) -> length (started (log s)) < length (back (log s)) + n ->
  exists s', step n LStart s = Some s' /\ started (log s') <> started (log s).
Proof.
  intros R G N L; destruct (pooled_reach _ _ R) as [P1 P2].
  destruct (tasks s) as [|t r] eqn:E; [cbn in P1; rewrite app_nil_r in P1; contradiction|].
  rewrite (Permutation_length P2), app_length in L; unfold names in L; rewrite map_length in L.
  unfold step, go; rewrite G, E.
  replace (length (active s) <? n) with true by (symmetry; apply Nat.ltb_lt; lia).
  eexists; split; [reflexivity|]; cbn.
  intro F; apply (f_equal (@length nat)) in F; rewrite app_length in F; cbn in F; lia.
Qed.

(** ** The destructor *)

(** When it returns every function that was given to the pool is back. *)
Definition idle (l : list event) : Prop := forall a, In a (given l) -> In a (back l).

Lemma idle_state s : pooled s -> tasks s = [] -> active s = [] -> idle (log s).
Proof.
  intros [P1 P2] T A a I; rewrite P1, T in I; cbn in I; rewrite app_nil_r in I.
  apply (Permutation_in _ P2) in I; rewrite A in I; cbn in I; rewrite app_nil_r in I; exact I.
Qed.

Theorem destroyed n s l1 k l2 : reach n s -> log s = l1 ++ EDead k :: l2 -> idle l2.
Proof.
  intro R; revert s R l1 k l2.
  apply (reach_ind n (fun s => forall l1 k l2, log s = l1 ++ EDead k :: l2 -> idle l2)).
  - intros [|x [|]] k l2 E; discriminate E.
  - intros l s s' R B H; pose proof (pooled_reach _ _ R) as P.
    assert (X : forall e, (forall k, e <> EDead k) ->
      forall l1 k l2, e :: log s = l1 ++ EDead k :: l2 -> idle l2).
    { intros e NE [|x l1] k l2 E; [injection E; intros; subst; destruct (NE k eq_refl)|].
      injection E as _ E; eapply B; exact E. }
    unstep H; auto; try (apply X; discriminate).
    + intros [|x l1] j l2 E; injection E as _ E; [|eapply B; exact E].
      subst l2; apply idle_state; assumption.
    + intros [|x l1] i l2 E; [discriminate E|]; injection E as _ E; eapply X; [|exact E]; discriminate.
Qed.

(** A function of the pool that uses the loop object it was given through never does so
    after the end of that object. *)
Definition kept (s : st) : Prop :=
  forall w k a, In (EAsync w k a) (log s) -> In a (names (tasks s) ++ names (active s)) -> In k (loops s).

Lemma given_in w k a l : In (EAsync w k a) l -> In a (given l).
Proof.
  induction l as [|e r IH]; intros I; [destruct I|].
  destruct I as [-> | I]; [cbn; apply in_app_iff; cbn; auto|].
  specialize (IH I); destruct e; cbn; auto; apply in_app_iff; auto.
Qed.

Lemma pool_given n s a : reach n s -> In a (names (tasks s) ++ names (active s)) -> In a (given (log s)).
Proof.
  intros R I; destruct (pooled_reach _ _ R) as [P1 P2]; rewrite P1; apply in_app_iff.
  apply in_app_iff in I as [I | I]; [auto|]; left.
  apply (Permutation_in _ (Permutation_sym P2)), in_app_iff; auto.
Qed.

Lemma kept_step n l s s' : reach n s -> kept s -> step n l s = Some s' -> kept s'.
Proof.
  intros R K H; unfold kept in *.
  destruct (fresh_reach _ _ R) as (_ & _ & _ & G).
  assert (X : forall e, (forall w k a, e <> EAsync w k a) -> forall w k a,
    In (EAsync w k a) (e :: log s) -> In a (names (tasks s) ++ names (active s)) -> In k (loops s)).
  { intros e N w k a [E | I]; [destruct (N _ _ _ E) | apply K with (w := w); assumption]. }
  unstep H; auto; try (apply X; discriminate).
  - intros w0 k0 a [E | I] J.
    + injection E; intros; subst; apply is_in_iff; assumption.
    + apply (K w0 k0 a I); unfold names in J; rewrite map_app in J; cbn in J.
      apply in_app_iff; apply in_app_iff in J as [J | J]; [|auto].
      apply in_app_iff in J as [J | [J | []]]; [auto|]; subst a.
      apply given_in, G in I; lia.
  - intros w0 k0 a [E | I] J; [discriminate E|]; apply in_app_iff; left; eapply K; eauto.
  - intros w0 k0 a [E | I] J; [discriminate E|].
    match goal with A : tasks s = [], B : active s = [] |- _ => rewrite A, B in J end; destruct J.
  - intros w0 k0 a [E | I] J; [discriminate E|].
    apply (K w0 k0 a I); unfold names in J; rewrite map_app in J; cbn in J.
    apply in_app_iff; apply in_app_iff in J as [J | J]; [|auto].
    apply in_app_iff in J as [J | [J | []]]; [auto|]; subst a.
    apply given_in, G in I; lia.
  - intros w0 k0 a [E | I] J; [discriminate E|].
    apply (K w0 k0 a I); unfold names in J |- *; rewrite map_app in J; cbn in J |- *.
    rewrite !in_app_iff in J; cbn in J; rewrite in_app_iff; tauto.
  - intros w0 k0 a0 [E | I] J; [discriminate E|].
    apply (K w0 k0 a0 I); rewrite in_app_iff in J |- *; destruct J as [J | J]; [auto|]; right.
    unfold names in *; apply in_map_iff in J as (x & E & J); apply filter_In in J as [J _].
    apply in_map_iff; eauto.
  - intros w0 k0 a [E | [E | I]] J; try discriminate E; eapply K; eauto.
Qed.

Theorem kept_reach n s : reach n s -> kept s.
Proof.
  apply reach_ind; [|intros; eapply kept_step; eauto].
  intros w k a [E | []]; discriminate E.
Qed.

Theorem uses n s s' w k a u : reach n s -> In (EAsync w k a) (log s) -> obj s = true ->
  step n (LUse (Task a) k u) s = Some s' -> fated s' = Going.
Proof.
  intros R I O H; unfold step, go in H; destruct (fated s) eqn:F; [|discriminate H].
  destruct (present (Task a) s) eqn:P; [|discriminate H].
  apply present_task in P as [P _].
  assert (K : In k (loops s)) by (apply (kept_reach _ _ R w k a I), in_app_iff; auto).
  apply is_in_iff in K; rewrite K in H; injection H as <-.
  destruct u; cbn; rewrite ?O; cbn; exact F.
Qed.

(** A destructor that is called by a function of the pool. *)
Definition stuck (s : st) : Prop :=
  forall a k, In (EDie (Task a) k) (log s) -> In (Task a, k) (dying s) /\ In a (names (active s)).

Lemma stuck_reach n s : reach n s -> stuck s.
Proof.
  revert s; apply reach_ind; [intros a k [E | []]; discriminate E|].
  intros l s s' R K H; unfold stuck in *.
  assert (X : forall e, (forall w k, e <> EDie w k) -> forall a k,
    In (EDie (Task a) k) (e :: log s) -> In (Task a, k) (dying s) /\ In a (names (active s))).
  { intros e N a k [E | I]; [destruct (N _ _ E) | auto]. }
  unstep H; auto; try (apply X; discriminate).
  - apply andb_true_iff in Heqb as [P _]; apply andb_true_iff in P as [P _].
    intros a k0 [E | I].
    + injection E as -> ->; split; [apply in_app_iff; cbn; auto | apply (present_task _ _ P)].
    + destruct (K a k0 I) as [A B]; split; [apply in_app_iff; auto | exact B].
  - intros a k0 [E | I]; [discriminate E|]; destruct (K a k0 I) as [_ B].
    destruct B.
  - intros a k [E | I]; [discriminate E|]; destruct (K a k I) as [A B]; split; [exact A|].
    unfold names; rewrite map_app; apply in_app_iff; auto.
  - intros a0 k [E | I]; [discriminate E|]; destruct (K a0 k I) as [A B]; split; [exact A|].
    apply present_task in Heqb as [_ P].
    unfold names in *; apply in_map_iff in B as (x & E & B); apply in_map_iff; exists x; split; [exact E|].
    apply filter_In; split; [exact B|]; apply negb_true_iff, Nat.eqb_neq; intros F.
    apply (P k); rewrite <- F, E; exact A.
  - intros a k [E | [E | I]]; try discriminate E; auto.
Qed.

Theorem deadlock n s l1 k l2 : reach n s -> log s = l1 ++ EDead k :: l2 ->
  forall a j, ~ In (EDie (Task a) j) l2.
Proof.
  intro R; revert s R l1 k l2.
  apply (reach_ind n (fun s => forall l1 k l2, log s = l1 ++ EDead k :: l2 ->
    forall a j, ~ In (EDie (Task a) j) l2)).
  - intros [|x [|]] k l2 E; discriminate E.
  - intros l s s' R B H; pose proof (stuck_reach _ _ R) as P.
    assert (X : forall e, (forall k, e <> EDead k) ->
      forall l1 k l2, e :: log s = l1 ++ EDead k :: l2 -> forall a j, ~ In (EDie (Task a) j) l2).
    { intros e NE [|x l1] k l2 E; [injection E; intros; subst; destruct (NE k eq_refl)|].
      injection E as _ E; eapply B; exact E. }
    unstep H; auto; try (apply X; discriminate).
    + intros [|x l1] j l2 E; injection E as _ E; [|eapply B; exact E].
      subst l2; intros a i I; destruct (P a i I) as [_ Q].
      match goal with C : active s = [] |- _ => rewrite C in Q end; destruct Q.
    + intros [|x l1] i l2 E; [discriminate E|]; injection E as _ E; eapply X; [|exact E]; discriminate.
Qed.

(** Such a destructor itself never returns. *)
Definition gone (s : st) : Prop :=
  (forall k, In k (loops s) -> k < next s) /\
  (forall k, In (EDead k) (log s) -> ~ In k (loops s) /\ k < next s) /\
  (forall w k, In (w, k) (dying s) -> In k (loops s)).

Lemma gone_reach n s : reach n s -> gone s.
Proof.
  revert s; apply reach_ind.
  { split; [intros k [<- | []]; constructor|].
    split; [intros k [E | []]; discriminate E | intros w k []]. }
  intros l s s' R (L & D & Y) H; unfold gone.
  assert (Z : forall e m, (forall k, e <> EDead k) -> next s <= m ->
    forall k, In (EDead k) (e :: log s) -> ~ In k (loops s) /\ k < m).
  { intros e m N M k [E | I]; [destruct (N _ E)|]; destruct (D k I); split; [assumption | lia]. }
  unstep H; auto.
  all: try (split; [intros k0 I; specialize (L _ I); lia|]; split; [|assumption];
            apply Z; [discriminate | lia]).
  - split; [intros k0 I; apply in_app_iff in I as [I | [<- | []]]; [specialize (L _ I)|]; lia|].
    split; [|intros w0 k0 I; apply in_app_iff; left; eapply Y; eauto].
    intros k0 [E | I]; [discriminate E|]; destruct (D _ I) as [D1 D2]; split; [|lia].
    intro J; apply in_app_iff in J as [J | [J | []]]; [auto | lia].
  - split; [exact L|]; split; [apply Z; [discriminate | lia]|].
    apply andb_true_iff in Heqb as [P _]; apply andb_true_iff in P as [_ P]; apply is_in_iff in P.
    intros w0 k0 I; apply in_app_iff in I as [I | [E | []]]; [eapply Y; eauto|].
    injection E; intros; subst; exact P.
  - apply existsb_exists in Heqb as ([w j] & I & E); apply Nat.eqb_eq in E; cbn in E; subst j.
    split; [intros k0 J; apply filter_In in J as [J _]; auto|]; split.
    + intros k0 [F | J].
      * injection F as <-; split; [|apply L; eapply Y; exact I].
        intro J; apply filter_In in J as [_ J]; rewrite Nat.eqb_refl in J; discriminate J.
      * destruct (D _ J); split; [|assumption]; intro Q; apply filter_In in Q as [Q _]; auto.
    + intros w0 k0 J; apply filter_In in J as [J N]; cbn in N; apply filter_In; split; [eapply Y; eauto | exact N].
  - split; [exact L|]; split; [|exact Y].
    intros k [E | I]; [discriminate E|]; apply (Z EExec (next s)); [discriminate | lia | exact I].
Qed.

Theorem never n s a k : reach n s -> In (EDie (Task a) k) (log s) -> ~ In (EDead k) (log s).
Proof.
  intros R I D; destruct (stuck_reach _ _ R a k I) as [Y _].
  destruct (gone_reach _ _ R) as (_ & G & W).
  apply (proj1 (G k D)), (W _ _ Y).
Qed.

(** Otherwise the destructor returns as soon as the pool is idle. *)
Theorem returns n s w k : reach n s -> fated s = Going -> In (EDie w k) (log s) -> ~ In (EDead k) (log s) ->
  idle (log s) -> exists s', step n (LDead k) s = Some s' /\ In (EDead k) (log s').
Proof.
  intros R G I N Q.
  assert (Y : forall s, reach n s -> forall w k, In (EDie w k) (log s) ->
    In (EDead k) (log s) \/ existsb (fun d => snd d =? k) (dying s) = true).
  { clear; apply (reach_ind n (fun s => forall w k, In (EDie w k) (log s) ->
      In (EDead k) (log s) \/ existsb (fun d => snd d =? k) (dying s) = true)).
    - intros w k [E | []]; discriminate E.
    - intros l s s' R K H.
      assert (X : forall e, (forall w k, e <> EDie w k) -> forall w k,
        In (EDie w k) (e :: log s) ->
        In (EDead k) (e :: log s) \/ existsb (fun d => snd d =? k) (dying s) = true).
      { intros e NE w k [E | I]; [destruct (NE _ _ E)|]; destruct (K w k I); cbn; auto. }
      unstep H; auto; try (apply X; discriminate).
      + intros w0 k0 [E | I].
        * injection E; intros; subst; right; rewrite existsb_app; cbn; rewrite Nat.eqb_refl, orb_true_r.
          reflexivity.
        * rewrite existsb_app; destruct (K w0 k0 I) as [J | J]; [left; right; exact J|].
          right; rewrite J; reflexivity.
      + intros w0 k0 [E | I]; [discriminate E|].
        destruct (Nat.eq_dec k0 k) as [-> | NE]; [left; left; reflexivity|].
        destruct (K w0 k0 I) as [J | J]; [left; right; exact J|]; right.
        apply existsb_exists in J as (d & J & E); apply existsb_exists; exists d; split; [|exact E].
        apply filter_In; split; [exact J|]; apply Nat.eqb_eq in E; rewrite E.
        apply negb_true_iff, Nat.eqb_neq; exact NE.
      + intros w k [E | [E | I]]; try discriminate E; destruct (K w k I); cbn; auto. }
  destruct (Y s R w k I) as [J | J]; [contradiction|].
  destruct (pooled_reach _ _ R) as [P1 P2]; destruct (pooled_nodup _ _ R (conj P1 P2)) as [N1 _].
  destruct (fresh_reach _ _ R) as (_ & N2 & _).
  assert (T : tasks s = []).
  { destruct (tasks s) as [|t r]; [reflexivity|]; exfalso; cbn in P1.
    assert (B : In (fst t) (back (log s))) by (apply Q; rewrite P1; apply in_app_iff; cbn; auto).
    assert (S1 : In (fst t) (started (log s)))
      by (apply (Permutation_in _ (Permutation_sym P2)), in_app_iff; auto).
    rewrite P1 in N2; apply NoDup_remove_2 in N2; apply N2, in_app_iff; auto. }
  assert (A : active s = []).
  { destruct (active s) as [|t r]; [reflexivity|]; exfalso; cbn in P2.
    pose proof (Permutation_NoDup P2 N1) as N3.
    assert (S1 : In (fst t) (started (log s)))
      by (apply (Permutation_in _ (Permutation_sym P2)), in_app_iff; cbn; auto).
    assert (B : In (fst t) (back (log s))) by (apply Q; rewrite P1; apply in_app_iff; auto).
    apply NoDup_remove_2 in N3; apply N3, in_app_iff; auto. }
  unfold step, go; rewrite G, J, T, A; eexists; split; [reflexivity|]; cbn; auto.
Qed.

(** ** finish *)

Lemma told_reach n s : reach n s -> finished (log s) = true ->
  forall b, In (Exec b) (stack s) -> b = true.
Proof.
  revert s; apply (reach_ind n (fun s => finished (log s) = true ->
    forall b, In (Exec b) (stack s) -> b = true)).
  - discriminate.
  - intros l s s' R K H; unstep H; auto; intro F; try discriminate F.
    + intros b I; apply in_map_iff in I as (f & E & _); destruct f; congruence.
    + intros b I; apply K; [exact F | right; exact I].
    + intros b [E | I]; [discriminate E | apply K; assumption].
    + intros b I; apply K; [exact F | right; exact I].
Qed.

Theorem finishes n s : reach n s -> fated s = Going -> finished (log s) = true -> looping s = true ->
  exists s', step n LExecRet s = Some s' /\ log s' = EExecRet :: log s.
Proof.
  intros R G F L; pose proof (told_reach _ _ R F) as T; unfold looping in L.
  destruct (stack s) as [|[b|] r] eqn:E; try discriminate L.
  rewrite (T b (or_introl eq_refl)) in E.
  unfold step, go; rewrite G, E; eexists; split; reflexivity.
Qed.

Definition is_exec (f : frame) : bool := match f with Exec _ => true | _ => false end.
Record loops_ok (s : st) : Prop := {
  o_depth : depth (log s) = length (filter is_exec (stack s));
  o_told : told (log s) = quitting s;
  o_all : quitting s = true -> forall b, In (Exec b) (stack s) -> b = true;
  o_only : In (Exec true) (stack s) -> quitting s = true;
  o_last : stack s = [] \/ exists r b, stack s = r ++ [Exec b] }.
Lemma loops_step n l s s' : loops_ok s -> step n l s = Some s' -> loops_ok s'.
Proof.
  intros [D T A O L] H. unstep H; cbn [depth told] in *; try (constructor; proj; cbn [depth told]; assumption).
  - constructor; proj; cbn [depth told]; auto.
    + rewrite D. clear. induction (stack s) as [|[b|i] r IH]; cbn; [reflexivity| |]; auto.
    + intros _ b I; apply in_map_iff in I as (f & E & _); destruct f; congruence.
    + destruct L as [->|(r & b & ->)]; [left; reflexivity|]. right. rewrite map_app. cbn. eauto.
  - constructor; proj; cbn [depth told].
    + rewrite D. reflexivity.
    + rewrite D. reflexivity.
    + discriminate.
    + intros [I|[]]; discriminate I.
    + right. exists [], false. reflexivity.
  - destruct L as [L|(r & b & L)]; [discriminate L|].
    constructor; proj; cbn [depth told pred].
    + rewrite Heql1. exact D.
    + rewrite D, L, filter_app, app_length, Heqb0. cbn. rewrite Nat.add_comm. exact T.
    + intros _. rewrite Heql1. exact (A eq_refl).
    + rewrite Heql1, Heqb0. exact O.
    + right. rewrite Heql1. eauto.
  - destruct L as [L|(r & b & L)]; [discriminate L|].
    constructor; proj; cbn [depth told].
    + rewrite D. reflexivity.
    + rewrite D, L, filter_app, app_length. cbn. rewrite Nat.add_comm. exact T.
    + discriminate.
    + intros [I|I]; [discriminate I|]. discriminate (O I).
    + right. exists (Exec false :: r), b. rewrite L. reflexivity.
  - constructor; proj; cbn [depth told].
    + rewrite D. reflexivity.
    + exact T.
    + intros Q b I. apply A; [exact Q|right; exact I].
    + intros I. apply O. right. exact I.
    + destruct L as [L|(r & b & L)]; [discriminate L|]. destruct r as [|x r]; injection L as _ L; [left; exact L|].
      right. eauto.
  - constructor; proj; cbn [depth told]; auto.
    + intros Q b [I|I]; [discriminate I|auto].
    + intros [I|I]; [discriminate I|auto].
    + destruct L as [L|(r & b & L)]; rewrite L; [|right; exists (Call n0 :: r), b; reflexivity].
      match goal with E : looping s = true |- _ => unfold looping in E; rewrite L in E; discriminate E end.
  - constructor; proj; cbn [depth told]; auto.
    + intros Q b I. apply A; [exact Q|right; exact I].
    + intros I. apply O. right. exact I.
    + destruct L as [L|(r & b & L)]; [discriminate L|]. destruct r as [|x r]; [discriminate L|]. injection L as _ L. right. eauto.
Qed.
Lemma loops_reach n s : reach n s -> loops_ok s.
Proof.
  revert s. apply reach_ind; [|intros; eapply loops_step; eauto].
  constructor; cbn; auto; try discriminate.
Qed.
Theorem returned n s : reach n s -> forall l1 l2, log s = l1 ++ EExecRet :: l2 -> told l2 = true.
Proof.
  intros R. assert (K := R). revert s R K. apply (reach_ind n (fun s => reach n s -> forall l1 l2, log s = l1 ++ EExecRet :: l2 -> told l2 = true)).
  - intros _ [|? [|? ?]] l2 E; discriminate E.
  - intros l s s' R K H _. specialize (K R). destruct (loops_reach _ _ R) as [D T A O L].
    assert (forall e, e <> EExecRet -> forall l1 l2, e :: log s = l1 ++ EExecRet :: l2 -> told l2 = true) as One.
    { intros e N [|x l1] l2 E; injection E as E1 E2; [congruence|]. exact (K _ _ E2). }
    unstep H; try assumption; try (apply One; discriminate).
    + destruct L as [L|(r & b & L)]; [discriminate L|].
      intros [|x l1] l2 E; [injection E as E2|injection E as E1 E2].
      * subst l2. cbn [told]. rewrite D, L, filter_app, app_length. cbn. rewrite Nat.add_comm. exact T.
      * subst x. revert E2. apply One. discriminate.
    + intros [|x l1] l2 E; [injection E as E2|injection E as E1 E2].
      * subst l2. rewrite T. apply O. left. reflexivity.
      * exact (K _ _ E2).
Qed.
Theorem finishes_nested n s : reach n s -> fated s = Going -> told (log s) = true -> looping s = true ->
  exists s', step n LExecRet s = Some s' /\ log s' = EExecRet :: log s.
Proof.
  intros R G F L. destruct (loops_reach _ _ R) as [_ T A _ _]. rewrite F in T. symmetry in T. unfold looping in L.
  destruct (stack s) as [|[b|] r] eqn:E; try discriminate L.
  rewrite (A T b (or_introl eq_refl)) in E.
  unfold step, go; rewrite G, E; eexists; split; reflexivity.
Qed.
