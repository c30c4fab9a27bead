(** Proofs about saving and loading. *)
From Coq Require Import List Bool Arith Permutation Lia.
From Verif Require Import ExtraModel ExtraProofs CerealModel CerealSpec.
Import ListNotations.

Lemma load_empty : forall {Name A} (same : A -> A -> Prop) (c : codec Name A) x a,
  returns same c x a -> exists a', load c x (save c a) = (a', Some []) /\ same a' a.
Proof. intros Name A same c x a R. destruct (R []) as (a' & E & S). rewrite app_nil_r in E. eauto. Qed.

(** What is saved determines the value. *)
Lemma save_inj : forall {Name A} (same : A -> A -> Prop) (c : codec Name A) x a b,
  returns same c x a -> returns same c x b ->
  (forall a b a', same a' a -> same a' b -> same a b) ->
  forall r r', save c a ++ r = save c b ++ r' -> same a b /\ r = r'.
Proof.
  intros Name A same c x a b Ra Rb T r r' E.
  destruct (Ra r) as (a' & Ea & Sa). destruct (Rb r') as (b' & Eb & Sb).
  rewrite E, Eb in Ea. injection Ea as -> ->. eauto.
Qed.

Section Sequence.
Context {Name A : Type} (c : codec Name A) (fresh : A) (same : A -> A -> Prop).

Lemma sequence_loop_returns : forall v acc rest,
  (forall a, In a v -> returns same c fresh a) ->
  exists v', sequence_loop c fresh (length v) acc (flat_map (save c) v ++ rest) = Some (acc ++ v', rest) /\
             Forall2 same v' v.
Proof.
  induction v as [|a v IH]; intros acc rest R; cbn.
  - exists []. rewrite app_nil_r. auto.
  - rewrite <- app_assoc. destruct (R a (or_introl eq_refl) (flat_map (save c) v ++ rest)) as (a' & E & S).
    rewrite E. destruct (IH (acc ++ [a']) rest) as (v' & Ev & Fv); [intros; apply R; right; assumption|].
    exists (a' :: v'). rewrite Ev, <- app_assoc. auto.
Qed.

Theorem sequence_returns : forall x v, (forall a, In a v -> returns same c fresh a) ->
  v <> [] \/ x = [] -> returns (Forall2 same) (sequence c fresh) x v.
Proof.
  intros x v R N rest. destruct (sequence_loop_returns v [] rest R) as (v' & E & F).
  cbn [load save sequence]. unfold sequence_load, sequence_save. cbn [app].
  destruct v as [|a v].
  - cbn. destruct N as [N| ->]; [contradiction|]. exists []. auto.
  - cbn [length] in *. rewrite E. exists v'. auto.
Qed.
Theorem sequence_into_empty : forall x rest,
  load (sequence c fresh) x (save (sequence c fresh) [] ++ rest) = (x, Some rest).
Proof. reflexivity. Qed.

(** Whatever the archive contains, if an exception is thrown the target is as before. *)
Theorem sequence_throws : forall x ts x', load (sequence c fresh) x ts = (x', None) -> x' = x.
Proof.
  intros x ts x'. cbn. unfold sequence_load.
  destruct ts as [|[[|n]|w|t] ts]; intros H; try (injection H as <-; reflexivity); try discriminate H.
  revert H. destruct (sequence_loop c fresh (S n) [] ts) as [[r ts']|]; [discriminate|].
  intros H; injection H as <-; reflexivity.
Qed.
(** Otherwise it has as many elements as the archive says, or none was read. *)
Lemma sequence_loop_length : forall n acc ts r rest,
  sequence_loop c fresh n acc ts = Some (r, rest) -> length r = length acc + n.
Proof.
  induction n as [|n IH]; cbn; intros acc ts r rest H.
  - injection H as <- _. lia.
  - destruct (load c fresh ts) as [x [ts'|]]; [|discriminate].
    apply IH in H. rewrite app_length in H. cbn in H. lia.
Qed.
Theorem sequence_size : forall x n ts r rest, n <> 0 ->
  load (sequence c fresh) x (Size n :: ts) = (r, Some rest) -> length r = n.
Proof.
  intros x n ts r rest N. cbn. destruct n as [|n]; [contradiction|].
  destruct (sequence_loop c fresh (S n) [] ts) as [[r' ts']|] eqn:E; [|discriminate].
  intros H; injection H as <- _. apply sequence_loop_length in E. exact E.
Qed.

Theorem box_returns : forall x a, returns same c fresh a -> returns same (box c fresh) x a.
Proof.
  intros x a R rest. destruct (R rest) as (a' & E & S). cbn. rewrite E. eauto.
Qed.
End Sequence.

Section Set_.
Context {Name A : Type} (c : codec Name A) (fresh : A) (eqb : A -> A -> bool).
Context (eqb_iff : forall a b, eqb a b = true <-> a = b).

Lemma existsb_in : forall x m, existsb (eqb x) m = true <-> In x m.
Proof.
  intros x m. rewrite existsb_exists. split.
  - intros (y & H & E). apply eqb_iff in E; subst; exact H.
  - intros H. exists x. split; [exact H|apply eqb_iff; reflexivity].
Qed.
Lemma insert_in : forall x m y, In y (insert eqb x m) <-> y = x \/ In y m.
Proof.
  intros x m y. unfold insert. destruct (existsb (eqb x) m) eqn:E.
  - apply existsb_in in E. split; [auto|]. intros [-> |H]; assumption.
  - rewrite in_app_iff. cbn. split; intros H; intuition.
Qed.
Lemma insert_nodup : forall x m, NoDup m -> NoDup (insert eqb x m).
Proof.
  intros x m N. unfold insert. destruct (existsb (eqb x) m) eqn:E; [exact N|].
  apply (Permutation_NoDup (Permutation_cons_append m x)). constructor; [|exact N].
  intros H. apply existsb_in in H. congruence.
Qed.

Lemma set_loop_returns : forall v m rest,
  (forall a, In a v -> returns eq c fresh a) ->
  set_loop c fresh eqb (length v) m (flat_map (save c) v ++ rest) =
  (fold_left (fun m a => insert eqb a m) v m, Some rest).
Proof.
  induction v as [|a v IH]; intros m rest R; cbn; [reflexivity|].
  rewrite <- app_assoc. destruct (R a (or_introl eq_refl) (flat_map (save c) v ++ rest)) as (a' & E & ->).
  rewrite E. apply IH. intros; apply R; right; assumption.
Qed.
Lemma fold_insert : forall v m, NoDup m ->
  NoDup (fold_left (fun m a => insert eqb a m) v m) /\
  forall y, In y (fold_left (fun m a => insert eqb a m) v m) <-> In y m \/ In y v.
Proof.
  induction v as [|a v IH]; cbn; intros m N; [tauto|].
  destruct (IH _ (insert_nodup a m N)) as [N' I]. split; [exact N'|].
  intros y. rewrite I, insert_in. intuition.
Qed.

(** Loading into a set: it gets the elements saved; an exception is thrown unless it had
    no others. *)
Theorem set_into : forall x v, NoDup x -> NoDup v -> (forall a, In a v -> returns eq c fresh a) ->
  forall rest, exists r,
  (forall y, In y r <-> In y x \/ In y v) /\ NoDup r /\
  ((incl x v /\ load (set c fresh eqb) x (save (set c fresh eqb) v ++ rest) = (r, Some rest)) \/
   (~ incl x v /\ load (set c fresh eqb) x (save (set c fresh eqb) v ++ rest) = (r, None))).
Proof.
  intros x v Nx Nv R rest. exists (fold_left (fun m a => insert eqb a m) v x).
  destruct (fold_insert v x Nx) as [N I]. split; [exact I|]. split; [exact N|].
  cbn. unfold sequence_save. cbn. rewrite set_loop_returns by assumption.
  set (r := fold_left _ v x) in *.
  assert (length v <= length r) as L by (apply NoDup_incl_length; [exact Nv|intros y Hy; apply I; auto]).
  destruct (length v =? length r) eqn:E.
  - apply Nat.eqb_eq in E. left. split; [|reflexivity].
    assert (incl r v) as J by (apply NoDup_length_incl; [exact Nv|lia|intros y Hy; apply I; auto]).
    intros y Hy. apply J, I; auto.
  - apply Nat.eqb_neq in E. right. split; [|reflexivity].
    intros J. apply E. apply Nat.le_antisymm; [exact L|].
    apply NoDup_incl_length; [exact N|]. intros y Hy. apply I in Hy. destruct Hy; auto.
Qed.
Theorem set_returns : forall v, NoDup v -> (forall a, In a v -> returns eq c fresh a) ->
  returns same_set (set c fresh eqb) [] v.
Proof.
  intros v N R rest. destruct (set_into [] v (NoDup_nil _) N R rest) as (r & I & Nr & [[_ E]|[J _]]).
  - exists r. split; [exact E|]. split.
    + apply Nat.le_antisymm; apply NoDup_incl_length; auto; intros y Hy; [|apply I; auto].
      apply I in Hy. destruct Hy as [[]|Hy]; exact Hy.
    + intros y. rewrite I. cbn. tauto.
  - exfalso. apply J. intros y [].
Qed.
Theorem set_size : forall x n ts r rest,
  load (set c fresh eqb) x (Size n :: ts) = (r, Some rest) -> length r = n.
Proof.
  intros x n ts r rest. cbn. destruct (set_loop c fresh eqb n x ts) as [m [ts'|]]; [|discriminate].
  destruct (n =? length m) eqn:E; [|discriminate]. intros H; injection H as <- _.
  apply Nat.eqb_eq in E. auto.
Qed.
End Set_.

Section Map_.
Context {Name K A : Type} (key_eqb : K -> K -> bool) (ck : codec Name K) (c : codec Name A)
        (fresh_key : K) (fresh : A) (same : A -> A -> Prop).
Context (key_iff : forall a b, key_eqb a b = true <-> a = b).

Lemma assign_keys : forall k x (m : list (K * A)), NoDup (map fst m) ->
  NoDup (map fst (assign key_eqb k x m)) /\
  forall k', In k' (map fst (assign key_eqb k x m)) <-> k' = k \/ In k' (map fst m).
Proof.
  induction m as [|[k0 x0] m IH]; cbn; intros N.
  - split; [constructor; [auto|constructor]|]. intros k'; intuition.
  - inversion N as [|? ? Nk Nm]; subst. destruct (key_eqb k k0) eqn:E; cbn.
    + apply key_iff in E; subst k0. split; [constructor; assumption|]. intros k'; intuition.
    + destruct (IH Nm) as [N' I]. split.
      * constructor; [|exact N']. rewrite I. intros [-> |H]; [|contradiction].
        rewrite (proj2 (key_iff k k) eq_refl) in E; discriminate.
      * intros k'. rewrite I. intuition.
Qed.
Lemma assign_in : forall k x (m : list (K * A)), NoDup (map fst m) ->
  forall k' y, In (k', y) (assign key_eqb k x m) <-> (k' = k /\ y = x) \/ (k' <> k /\ In (k', y) m).
Proof.
  induction m as [|[k0 x0] m IH]; cbn; intros N k' y.
  - split; [intros [H|[]]; injection H as <- <-; auto|]. intros [[-> ->]|[_ []]]; auto.
  - inversion N as [|? ? Nk Nm]; subst. destruct (key_eqb k k0) eqn:E; cbn.
    + apply key_iff in E; subst k0. split.
      * intros [H|H]; [injection H as <- <-; auto|]. right. split; [|auto].
        intros ->. apply Nk. apply in_map_iff. exists (k, y); auto.
      * intros [[-> ->]|[D [H|H]]]; auto. injection H as <- <-. congruence.
    + rewrite (IH Nm). assert (k0 <> k) by (intros ->; rewrite (proj2 (key_iff k k) eq_refl) in E; discriminate).
      split.
      * intros [H1|[H1|[D H1]]]; auto. injection H1 as <- <-. auto.
      * intros [H1|[D [H1|H1]]]; auto.
Qed.

(** Several assignments, one after the other. *)
Definition assign_all (v m : list (K * A)) : list (K * A) :=
  fold_left (fun m kx => assign key_eqb (fst kx) (snd kx) m) v m.
Lemma assign_all_spec : forall v m, NoDup (map fst v) -> NoDup (map fst m) ->
  NoDup (map fst (assign_all v m)) /\
  (forall k y, In (k, y) (assign_all v m) <-> In (k, y) v \/ (~ In k (map fst v) /\ In (k, y) m)).
Proof.
  induction v as [|[k0 x0] v IH]; cbn; intros m Nv Nm; [intuition|].
  inversion Nv as [|? ? Nk Nv']; subst.
  destruct (IH (assign key_eqb k0 x0 m) Nv' (proj1 (assign_keys k0 x0 m Nm))) as [N I].
  split; [exact N|]. intros k y. unfold assign_all in I. rewrite I, assign_in by assumption. split.
  - intros [H|[D [[-> ->]|[D' H]]]]; auto. right. split; [intuition|exact H].
  - intros [[H|H]|[D H]]; auto.
    + injection H as <- <-. right. split; [exact Nk|]. auto.
    + right. split; [tauto|]. right. split; [intros ->; apply D; auto|exact H].
Qed.

Lemma map_loop_returns : forall v m rest,
  (forall k a, In (k, a) v -> returns eq ck fresh_key k /\ returns same c fresh a) ->
  exists v', map_loop key_eqb ck c fresh_key fresh (length v) m
      (flat_map (fun kx => save ck (fst kx) ++ save c (snd kx)) v ++ rest) = (assign_all v' m, Some rest) /\
    map fst v' = map fst v /\ Forall2 (fun x y => same (snd x) (snd y)) v' v.
Proof.
  induction v as [|[k a] v IH]; intros m rest R; cbn.
  - exists []. auto.
  - destruct (R k a (or_introl eq_refl)) as [Rk Ra]. rewrite <- !app_assoc.
    destruct (Rk (save c a ++ flat_map (fun kx => save ck (fst kx) ++ save c (snd kx)) v ++ rest)) as (k' & Ek & ->).
    rewrite Ek. destruct (Ra (flat_map (fun kx => save ck (fst kx) ++ save c (snd kx)) v ++ rest)) as (a' & Ea & Sa).
    rewrite Ea. destruct (IH (assign key_eqb k a' m) rest) as (v' & E & F & S).
    { intros; apply R; right; assumption. }
    exists ((k, a') :: v'). rewrite E. cbn. repeat split; [f_equal; exact F|]. constructor; auto.
Qed.

Lemma forall2_in : forall v' v : list (K * A), map fst v' = map fst v ->
  Forall2 (fun x y => same (snd x) (snd y)) v' v ->
  (forall k x, In (k, x) v' -> exists y, In (k, y) v /\ same x y) /\
  (forall k y, In (k, y) v -> exists x, In (k, x) v' /\ same x y).
Proof.
  intros v' v F S. revert F. induction S as [|[k' x'] [k y] v' v H S IH]; cbn; intros F.
  - split; intros ? ? [].
  - injection F as -> F. destruct (IH F) as [I J]. cbn in H. split.
    + intros k0 x [E|E]; [injection E as <- <-; eauto|]. destruct (I _ _ E) as (y0 & Hy & Sy); eauto.
    + intros k0 y0 [E|E]; [injection E as <- <-; eauto|]. destruct (J _ _ E) as (x0 & Hx & Sx); eauto.
Qed.

Lemma in_keys : forall k (m : list (K * A)), In k (map fst m) <-> exists x, In (k, x) m.
Proof.
  intros k m. rewrite in_map_iff. split.
  - intros ([k' x] & <- & H). eauto.
  - intros (x & H). exists (k, x). auto.
Qed.
Lemma assign_all_loaded : forall m v v', NoDup (map fst m) -> NoDup (map fst v) ->
  map fst v' = map fst v -> Forall2 (fun x y => same (snd x) (snd y)) v' v ->
  loaded same m v (assign_all v' m) /\
  ((incl (map fst m) (map fst v) /\ length v = length (assign_all v' m)) \/
   (~ incl (map fst m) (map fst v) /\ length v <> length (assign_all v' m))).
Proof.
  intros m v v' Nm Nv F S.
  assert (NoDup (map fst v')) as Nv' by (rewrite F; exact Nv).
  destruct (assign_all_spec v' m Nv' Nm) as [N I]. destruct (forall2_in v' v F S) as [S1 S2].
  set (r := assign_all v' m) in *.
  assert (forall k, In k (map fst r) <-> In k (map fst m) \/ In k (map fst v)) as Kr.
  { intros k. rewrite <- F, !in_keys. setoid_rewrite I. split.
    - intros (x & [H|[_ H]]); eauto.
    - intros [(x & H)|(x & H)]; [|eauto].
      destruct (in_dec (fun a b => match Sumbool.sumbool_of_bool (key_eqb a b) with
                                   | left e => left (proj1 (key_iff a b) e)
                                   | right e => right (fun q => Bool.diff_true_false
                                       (eq_trans (eq_sym (proj2 (key_iff a b) q)) e)) end) k (map fst v')) as [D|D].
      + apply in_keys in D. destruct D as (y & D). eauto.
      + eauto. }
  assert (length v = length (map fst v)) as Lv by (rewrite map_length; reflexivity).
  assert (length r = length (map fst r)) as Lr by (rewrite map_length; reflexivity).
  split; [|].
  - split; [exact N|]. split; [exact Kr|]. split.
    + intros k y H. destruct (S2 k y H) as (x & Hx & Sx). exists x. split; [apply I; auto|exact Sx].
    + intros k x D. rewrite I, F. split; [|auto]. intros [H|[_ H]]; [|exact H].
      exfalso. apply D. rewrite <- F. apply in_keys; eauto.
  - destruct (Nat.eq_dec (length v) (length r)) as [E|E].
    + left. split; [|exact E].
      assert (incl (map fst r) (map fst v)) as J
        by (apply NoDup_length_incl; [exact Nv|lia|intros k Hk; apply Kr; auto]).
      intros k Hk. apply J, Kr; auto.
    + right. split; [|exact E]. intros J. apply E. rewrite Lv, Lr.
      apply Nat.le_antisymm; apply NoDup_incl_length; auto; intros k Hk; [apply Kr; auto|].
      apply Kr in Hk. destruct Hk; auto.
Qed.

Theorem map_into : forall m v, NoDup (map fst m) -> NoDup (map fst v) ->
  (forall k a, In (k, a) v -> returns eq ck fresh_key k /\ returns same c fresh a) ->
  forall rest, exists r, loaded same m v r /\
  ((incl (map fst m) (map fst v) /\
    load (dict key_eqb ck c fresh_key fresh) m (save (dict key_eqb ck c fresh_key fresh) v ++ rest) = (r, Some rest)) \/
   (~ incl (map fst m) (map fst v) /\
    load (dict key_eqb ck c fresh_key fresh) m (save (dict key_eqb ck c fresh_key fresh) v ++ rest) = (r, None))).
Proof.
  intros m v Nm Nv R rest. destruct (map_loop_returns v m rest R) as (v' & E & F & S).
  exists (assign_all v' m). destruct (assign_all_loaded m v v' Nm Nv F S) as [L D].
  split; [exact L|]. cbn. rewrite E. destruct D as [[D1 D2]|[D1 D2]]; [left|right]; split; auto.
  - apply Nat.eqb_eq in D2. rewrite D2. reflexivity.
  - apply Nat.eqb_neq in D2. rewrite D2. reflexivity.
Qed.

Lemma loaded_same : forall v r : list (K * A), NoDup (map fst v) -> loaded same [] v r -> same_map same r v.
Proof.
  intros v r Nv (N & Kr & S & _). unfold same_map.
  assert (length v = length (map fst v)) as Lv by (rewrite map_length; reflexivity).
  assert (length r = length (map fst r)) as Lr by (rewrite map_length; reflexivity).
  split; [|split].
  - rewrite Lv, Lr. apply Nat.le_antisymm; apply NoDup_incl_length; auto; intros k Hk.
    + apply Kr in Hk. destruct Hk as [[]|Hk]; exact Hk.
    + apply Kr; auto.
  - intros k x H. assert (In k (map fst r)) as Hk by (apply in_keys; eauto).
    apply Kr in Hk. destruct Hk as [[]|Hk]. apply in_keys in Hk. destruct Hk as (y & Hy).
    exists y. split; [exact Hy|]. destruct (S k y Hy) as (x' & Hx & Sx).
    replace x with x'; [exact Sx|].
    clear - N H Hx. induction r as [|[k0 x0] r IH]; [destruct H|]. cbn in N. inversion N as [|? ? Nk Nr]; subst.
    destruct H as [H|H], Hx as [Hx|Hx]; try congruence; auto.
    + injection H as -> ->. exfalso. apply Nk. apply in_keys; eauto.
    + injection Hx as -> ->. exfalso. apply Nk. apply in_keys; eauto.
  - intros k y H. destruct (S k y H) as (x & Hx & Sx). eauto.
Qed.

Theorem map_returns : forall v, NoDup (map fst v) ->
  (forall k a, In (k, a) v -> returns eq ck fresh_key k /\ returns same c fresh a) ->
  returns (same_map same) (dict key_eqb ck c fresh_key fresh) [] v.
Proof.
  intros v Nv R rest. destruct (map_into [] v (NoDup_nil _) Nv R rest) as (r & L & [[_ E]|[J _]]).
  - exists r. split; [exact E|]. apply loaded_same; assumption.
  - exfalso. apply J. intros ? [].
Qed.

(** Maps of objects with an id. *)
Context (id : A -> K).
Lemma auto_loop_returns : forall v m rest, (forall x y, same x y -> id x = id y) ->
  (forall k a, In (k, a) v -> id a = k /\ returns same c fresh a) ->
  exists v', auto_loop key_eqb c fresh id (length v) m (flat_map (fun kx => save c (snd kx)) v ++ rest) =
    (assign_all v' m, Some rest) /\
    map fst v' = map fst v /\ Forall2 (fun x y => same (snd x) (snd y)) v' v.
Proof.
  intros v m rest Hid. revert m. induction v as [|[k a] v IH]; intros m R; cbn.
  - exists []. auto.
  - destruct (R k a (or_introl eq_refl)) as [<- Ra]. rewrite <- app_assoc.
    destruct (Ra (flat_map (fun kx => save c (snd kx)) v ++ rest)) as (a' & Ea & Sa).
    rewrite Ea, (Hid _ _ Sa). destruct (IH (assign key_eqb (id a) a' m)) as (v' & E & F & S).
    { intros; apply R; right; assumption. }
    exists ((id a, a') :: v'). rewrite E. cbn. repeat split; [f_equal; exact F|]. constructor; auto.
Qed.
Theorem auto_into : forall m v, (forall x y, same x y -> id x = id y) ->
  NoDup (map fst m) -> NoDup (map fst v) ->
  (forall k a, In (k, a) v -> id a = k /\ returns same c fresh a) ->
  forall rest, exists r, loaded same m v r /\
  ((incl (map fst m) (map fst v) /\
    load (auto_dict key_eqb c fresh id) m (save (auto_dict key_eqb c fresh id) v ++ rest) = (r, Some rest)) \/
   (~ incl (map fst m) (map fst v) /\
    load (auto_dict key_eqb c fresh id) m (save (auto_dict key_eqb c fresh id) v ++ rest) = (r, None))).
Proof.
  intros m v Hid Nm Nv R rest. destruct (auto_loop_returns v m rest Hid R) as (v' & E & F & S).
  exists (assign_all v' m). destruct (assign_all_loaded m v v' Nm Nv F S) as [L D].
  split; [exact L|]. cbn. rewrite E. destruct D as [[D1 D2]|[D1 D2]]; [left|right]; split; auto.
  - apply Nat.eqb_eq in D2. rewrite D2. reflexivity.
  - apply Nat.eqb_neq in D2. rewrite D2. reflexivity.
Qed.
Theorem auto_returns : forall v, (forall x y, same x y -> id x = id y) -> NoDup (map fst v) ->
  (forall k a, In (k, a) v -> id a = k /\ returns same c fresh a) ->
  returns (same_map same) (auto_dict key_eqb c fresh id) [] v.
Proof.
  intros v Hid Nv R rest. destruct (auto_into [] v Hid (NoDup_nil _) Nv R rest) as (r & L & [[_ E]|[J _]]).
  - exists r. split; [exact E|]. apply loaded_same; assumption.
  - exfalso. apply J. intros ? [].
Qed.
Theorem map_size : forall m n ts r rest,
  load (dict key_eqb ck c fresh_key fresh) m (Size n :: ts) = (r, Some rest) -> length r = n.
Proof.
  intros m n ts r rest. cbn. destruct (map_loop key_eqb ck c fresh_key fresh n m ts) as [m' [ts'|]]; [|discriminate].
  destruct (n =? length m') eqn:E; [|discriminate]. intros H; injection H as <- _.
  apply Nat.eqb_eq in E. auto.
Qed.
End Map_.

Section Others.
Context {Name : Type} (name_eqb : Name -> Name -> bool).
Context (name_iff : forall a b, name_eqb a b = true <-> a = b).

Theorem enum_returns : forall (E : Type) (eqb : E -> E -> bool), (forall a b, eqb a b = true <-> a = b) ->
  forall (value_of : Name -> E) names x a, In a (map value_of names) ->
  returns eq (enumeration name_eqb eqb (apply value_of names)) x a.
Proof.
  intros E eqb eqb_iff value_of names x a I rest.
  destruct (round_trip eqb name_eqb eqb_iff name_iff value_of names a I) as (n & S & T & _).
  exists a. cbn. rewrite S. cbn. rewrite T. auto.
Qed.

Theorem struct_returns : forall (ts : list Type) same (cs : codecs Name ts) (x a : members ts),
  all_return same cs x a -> returns (same_members same) (struct cs) x a.
Proof.
  induction ts as [|t ts IH]; intros same cs x a R rest; cbn.
  - exists x. auto.
  - cbn in R. destruct R as [R1 R2]. rewrite <- app_assoc.
    destruct (R1 (members_save (snd cs) (snd a) ++ rest)) as (y & E & S). rewrite E.
    destruct (IH _ _ _ _ R2 rest) as (y' & E' & S'). cbn in E'. rewrite E'.
    exists (y, y'). auto.
Qed.
Theorem tuple_returns : forall (ts : list Type) same (cs : codecs Name ts) (x a : members ts),
  all_return same cs x a -> returns (same_members same) (tuple cs) x a.
Proof.
  intros ts same cs x a R rest. destruct (struct_returns ts same cs x a R rest) as (y & E & S).
  exists y. split; [exact E|exact S].
Qed.

Lemma load_variant_returns : forall (l : list (alternative Name)) same (v : variant_of l),
  NoDup (map aname l) -> held_returns same v ->
  forall rest, exists s i, variant_save v = Text s :: i /\ In s (map aname l) /\
  exists w, load_variant name_eqb (l := l) s (i ++ rest) = Some (w, rest) /\ same_variant same w v.
Proof.
  induction l as [|a l IH]; intros same v N R rest; [destruct v|].
  cbn in N. inversion N as [|? ? Na Nl]; subst. destruct v as [x|v]; cbn in R.
  - destruct (R rest) as (y & E & S). exists (aname a), (save (acodec a) x).
    split; [reflexivity|]. split; [left; reflexivity|]. exists (inl y). split; [|exact S].
    cbn. rewrite (proj2 (name_iff _ _) eq_refl), E. reflexivity.
  - destruct (IH _ v Nl R rest) as (s & i & E & I & w & Ew & S). exists s, i.
    split; [exact E|]. split; [right; exact I|]. exists (inr w). split; [|exact S].
    cbn. destruct (name_eqb (aname a) s) eqn:Q; [apply name_iff in Q; subst s; contradiction|].
    rewrite Ew. reflexivity.
Qed.
Theorem variant_returns : forall (l : list (alternative Name)) same (x v : variant_of l),
  NoDup (map aname l) -> held_returns same v -> returns (same_variant same) (variant name_eqb l) x v.
Proof.
  intros l same x v N R rest. destruct (load_variant_returns l same v N R rest) as (s & i & E & _ & w & Ew & S).
  exists w. split; [|exact S]. cbn [load save variant]. rewrite E. cbn. rewrite Ew. reflexivity.
Qed.
(** A name that is none of the alternatives' throws and leaves the target as it is. *)
Lemma load_variant_unknown : forall (l : list (alternative Name)) s i, ~ In s (map aname l) ->
  load_variant name_eqb (l := l) s i = None.
Proof.
  induction l as [|a l IH]; cbn; intros s i N; [reflexivity|].
  destruct (name_eqb (aname a) s) eqn:Q; [apply name_iff in Q; tauto|].
  rewrite IH by tauto. reflexivity.
Qed.
Theorem variant_unknown : forall (l : list (alternative Name)) (x : variant_of l) s i, ~ In s (map aname l) ->
  load (variant name_eqb l) x (Text s :: i) = (x, None).
Proof. intros l x s i N. cbn. rewrite load_variant_unknown by exact N. reflexivity. Qed.
Theorem variant_throws : forall (l : list (alternative Name)) (x x' : variant_of l) i,
  load (variant name_eqb l) x i = (x', None) -> x' = x.
Proof.
  intros l x x' i. cbn. destruct i as [|[n|n|s] i]; try (intros H; injection H as <-; reflexivity).
  destruct (load_variant name_eqb s i) as [[v j]|]; [discriminate|].
  intros H; injection H as <-; reflexivity.
Qed.
End Others.
