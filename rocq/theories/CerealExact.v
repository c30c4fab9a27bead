(** Which archives load. *)
From Coq Require Import List Bool Arith Lia.
From Verif Require Import ExtraModel ExtraProofs CerealModel CerealSpec CerealProofs.
Import ListNotations.

Section Sequence.
Context {Name A : Type} (c : codec Name A) (fresh : A).

Lemma sequence_loop_iff : forall n acc ts r rest,
  sequence_loop c fresh n acc ts = Some (r, rest) <->
  exists l, length l = n /\ elements c fresh l ts rest /\ r = acc ++ l.
Proof.
  induction n as [|n IH]; cbn; intros acc ts r rest.
  - split.
    + intros E; injection E as <- <-. exists []. rewrite app_nil_r. repeat split. constructor.
    + intros (l & L & R & ->). destruct l; [|discriminate]. inversion R; subst. now rewrite app_nil_r.
  - split.
    + destruct (load c fresh ts) as [x [ts1|]] eqn:E; [|discriminate]. intros H.
      apply IH in H. destruct H as (l & L & R & ->). exists (x :: l). cbn. rewrite <- app_assoc.
      repeat split; [now rewrite L|]. econstructor; eauto.
    + intros ([|x l] & L & R & ->); [discriminate|]. inversion R as [|? ? ? ts1 ? E R1]; subst.
      rewrite E. apply IH. exists l. rewrite <- app_assoc. injection L as L. auto.
Qed.
Theorem sequence_exact : forall x ts r rest,
  load (sequence c fresh) x ts = (r, Some rest) <->
  exists l ts1, ts = Size (length l) :: ts1 /\ elements c fresh l ts1 rest /\
    (l = [] /\ r = x \/ l <> [] /\ r = l).
Proof.
  intros x ts r rest. cbn. unfold sequence_load. split.
  - destruct ts as [|[[|n]|w|t] ts]; try discriminate.
    + intros E; injection E as <- <-. exists [], ts. repeat split; auto. constructor.
    + destruct (sequence_loop c fresh (S n) [] ts) as [[r' ts']|] eqn:E; [|discriminate].
      intros H; injection H as <- <-. apply sequence_loop_iff in E. destruct E as (l & L & R & ->).
      exists l, ts. rewrite L. repeat split; auto. right. split; auto. now destruct l.
  - intros (l & ts1 & -> & R & D). destruct l as [|a l].
    + cbn. inversion R; subst. destruct D as [[_ ->]|[D _]]; [reflexivity|now destruct D].
    + destruct D as [[D _]|[_ ->]]; [discriminate|]. cbn [length].
      assert (E : sequence_loop c fresh (S (length l)) [] ts1 = Some (a :: l, rest)).
      { apply sequence_loop_iff. exists (a :: l). auto. }
      now rewrite E.
Qed.
Theorem box_exact : forall x ts r rest,
  load (box c fresh) x ts = (r, Some rest) <-> load c fresh ts = (r, Some rest).
Proof.
  intros. cbn. destruct (load c fresh ts) as [y [t|]]; split; intros H; auto; discriminate.
Qed.

Context (eqb : A -> A -> bool) (eqb_iff : forall a b, eqb a b = true <-> a = b).
Lemma set_loop_iff : forall n m ts r rest,
  set_loop c fresh eqb n m ts = (r, Some rest) <->
  exists l, length l = n /\ elements c fresh l ts rest /\ r = fold_left (fun m a => insert eqb a m) l m.
Proof.
  induction n as [|n IH]; cbn; intros m ts r rest.
  - split.
    + intros E; injection E as <- <-. exists []. repeat split. constructor.
    + intros (l & L & R & ->). destruct l; [|discriminate]. now inversion R; subst.
  - split.
    + destruct (load c fresh ts) as [x [ts1|]] eqn:E; [|discriminate]. intros H.
      apply IH in H. destruct H as (l & L & R & ->). exists (x :: l). cbn.
      repeat split; [now rewrite L|]. econstructor; eauto.
    + intros ([|x l] & L & R & ->); [discriminate|]. inversion R as [|? ? ? ts1 ? E R1]; subst.
      rewrite E. apply IH. exists l. injection L as L. auto.
Qed.
Lemma union_length : forall {B} (x l u v : list B), union x l u -> union x l v -> length u = length v.
Proof.
  intros B x l u v [Nu Hu] [Nv Hv].
  apply Nat.le_antisymm; apply NoDup_incl_length; auto; intros y H; [apply Hv, Hu|apply Hu, Hv]; exact H.
Qed.
Theorem set_exact : forall x ts rest, NoDup x ->
  (forall r, load (set c fresh eqb) x ts = (r, Some rest) ->
     exists l ts1, ts = Size (length l) :: ts1 /\ elements c fresh l ts1 rest /\
       union x l r /\ length r = length l) /\
  (forall l ts1 u, ts = Size (length l) :: ts1 -> elements c fresh l ts1 rest ->
     union x l u -> length u = length l -> exists r, load (set c fresh eqb) x ts = (r, Some rest)).
Proof.
  intros x ts rest N. cbn. unfold set_load. split.
  - intros r. destruct ts as [|[n|w|t] ts]; try discriminate.
    destruct (set_loop c fresh eqb n x ts) as [m [ts1|]] eqn:E; [|discriminate].
    apply set_loop_iff in E. destruct E as (l & L & R & E).
    destruct (Nat.eqb_spec n (length m)) as [Q|]; [|discriminate]. intros H; injection H as <- <-.
    exists l, ts. rewrite L. repeat split; auto; rewrite E; apply fold_insert; auto.
  - intros l ts1 u -> R U L.
    assert (E : set_loop c fresh eqb (length l) x ts1 =
                (fold_left (fun m a => insert eqb a m) l x, Some rest)) by (apply set_loop_iff; eauto).
    rewrite E. assert (U' : union x l (fold_left (fun m a => insert eqb a m) l x)) by (apply fold_insert; auto).
    rewrite <- L, (union_length _ _ _ _ U U'), Nat.eqb_refl. eauto.
Qed.
(** Into a fresh set: the elements are different. *)
Theorem set_fresh : forall ts rest,
  (exists r, load (set c fresh eqb) [] ts = (r, Some rest)) <->
  exists l ts1, ts = Size (length l) :: ts1 /\ elements c fresh l ts1 rest /\ NoDup l.
Proof.
  intros ts rest. destruct (set_exact [] ts rest (NoDup_nil _)) as [H1 H2]. split.
  - intros (r & E). destruct (H1 r E) as (l & ts1 & -> & R & [N U] & L). exists l, ts1. repeat split; auto.
    apply (NoDup_incl_NoDup (l := r)); auto; [lia|]. intros y Hy. apply U in Hy. destruct Hy as [[]|]; auto.
  - intros (l & ts1 & E & R & N). apply (H2 l ts1 l); auto. split; auto. intros y. cbn. tauto.
Qed.
End Sequence.

Section Map_.
Context {Name K A : Type} (key_eqb : K -> K -> bool) (ck : codec Name K) (c : codec Name A)
        (fresh_key : K) (fresh : A) (key_iff : forall a b, key_eqb a b = true <-> a = b).

Lemma key_dec : forall a b : K, a = b \/ a <> b.
Proof.
  intros a b. destruct (key_eqb a b) eqn:E; [left; now apply key_iff|right].
  intros X. apply key_iff in X. congruence.
Qed.
Lemma last_of_cons : forall (k : K) (x : A) e l,
  last_of k x (e :: l) <-> last_of k x l \/ (~ In k (map fst l) /\ e = (k, x)).
Proof.
  intros k x e l. split.
  - intros ([|e' l1] & l2 & E & N); cbn in E; injection E as -> ->; [auto|].
    left. exists l1, l2. auto.
  - intros [(l1 & l2 & -> & N)|[N ->]]; [exists (e :: l1), l2; auto|exists [], l; auto].
Qed.
Lemma assign_all_assigned : forall l (m : list (K * A)), NoDup (map fst m) ->
  assigned m l (assign_all key_eqb l m).
Proof.
  induction l as [|[k0 x0] l IH]; cbn; intros m N.
  - split; [split; auto; cbn; tauto|]. intros k x. cbn. split; auto.
    intros [(l1 & l2 & E & _)|[_ H]]; auto. destruct l1; discriminate.
  - destruct (assign_keys key_eqb fresh eq key_iff k0 x0 m N) as [N' I].
    change (assigned m ((k0, x0) :: l) (assign_all key_eqb l (assign key_eqb k0 x0 m))).
    destruct (IH _ N') as [[NR U] H]. split.
    + split; auto. intros y. rewrite U, I. cbn. intuition.
    + intros k x. rewrite H, last_of_cons, (assign_in key_eqb key_iff) by assumption.
      split.
      * intros [X|[X [[-> ->]|[Y Z]]]]; auto. right. split; auto. cbn. intros [W|W]; auto.
      * intros [[X|[X Y]]|[X Y]]; auto.
        -- injection Y as -> ->. auto.
        -- right. split; [intros W; apply X; now right|]. right. split; auto. intros ->. apply X; now left.
Qed.
Lemma map_loop_iff : forall n m ts r rest,
  map_loop key_eqb ck c fresh_key fresh n m ts = (r, Some rest) <->
  exists l, length l = n /\ pairs ck c fresh_key fresh l ts rest /\ r = assign_all key_eqb l m.
Proof.
  induction n as [|n IH]; cbn; intros m ts r rest.
  - split.
    + intros E; injection E as <- <-. exists []. repeat split. constructor.
    + intros (l & L & R & ->). destruct l; [|discriminate]. now inversion R; subst.
  - split.
    + destruct (load ck fresh_key ts) as [k [ts1|]] eqn:E; [|discriminate].
      destruct (load c fresh ts1) as [x [ts2|]] eqn:E2; [|discriminate]. intros H.
      apply IH in H. destruct H as (l & L & R & ->). exists ((k, x) :: l). cbn.
      repeat split; [now rewrite L|]. econstructor; eauto.
    + intros ([|x l] & L & R & ->); [discriminate|]. inversion R as [|? ? ? ? ts1 ts2 ? E E2 R1]; subst.
      rewrite E, E2. apply IH. exists l. injection L as L. auto.
Qed.
Lemma assigned_length : forall m l r u, assigned m l r -> union (map fst m) (map fst l) u ->
  @length (K * A) r = length u.
Proof.
  intros m l r u [U _] U'. rewrite <- (map_length fst r). eapply union_length; eauto.
Qed.
Theorem map_exact : forall m ts rest, NoDup (map fst m) ->
  (forall r, load (dict key_eqb ck c fresh_key fresh) m ts = (r, Some rest) ->
     exists l ts1, ts = Size (length l) :: ts1 /\ pairs ck c fresh_key fresh l ts1 rest /\
       assigned m l r /\ length r = length l) /\
  (forall l ts1 u, ts = Size (length l) :: ts1 -> pairs ck c fresh_key fresh l ts1 rest ->
     union (map fst m) (map fst l) u -> length u = length l ->
     exists r, load (dict key_eqb ck c fresh_key fresh) m ts = (r, Some rest)).
Proof.
  intros x ts rest N. cbn. unfold map_load. split.
  - intros r. destruct ts as [|[n|w|t] ts]; try discriminate.
    destruct (map_loop key_eqb ck c fresh_key fresh n x ts) as [m [ts1|]] eqn:E; [|discriminate].
    apply map_loop_iff in E. destruct E as (l & L & R & E).
    destruct (Nat.eqb_spec n (length m)) as [Q|]; [|discriminate]. intros H; injection H as <- <-.
    exists l, ts. rewrite L. split; auto. split; auto. split; auto. rewrite E. now apply assign_all_assigned.
  - intros l ts1 u -> R U L.
    assert (E : map_loop key_eqb ck c fresh_key fresh (length l) x ts1 = (assign_all key_eqb l x, Some rest))
      by (apply map_loop_iff; eauto).
    rewrite E. rewrite <- L, (assigned_length _ _ _ _ (assign_all_assigned l x N) U), Nat.eqb_refl. eauto.
Qed.

Context (id : A -> K).
Definition keyed (l : list A) : list (K * A) := map (fun x => (id x, x)) l.
Lemma auto_loop_iff : forall n m ts r rest,
  auto_loop key_eqb c fresh id n m ts = (r, Some rest) <->
  exists l, length l = n /\ elements c fresh l ts rest /\ r = assign_all key_eqb (keyed l) m.
Proof.
  induction n as [|n IH]; cbn; intros m ts r rest.
  - split.
    + intros E; injection E as <- <-. exists []. repeat split. constructor.
    + intros (l & L & R & ->). destruct l; [|discriminate]. now inversion R; subst.
  - split.
    + destruct (load c fresh ts) as [x [ts1|]] eqn:E; [|discriminate]. intros H.
      apply IH in H. destruct H as (l & L & R & ->). exists (x :: l). cbn.
      repeat split; [now rewrite L|]. econstructor; eauto.
    + intros ([|x l] & L & R & ->); [discriminate|]. inversion R as [|? ? ? ts1 ? E R1]; subst.
      rewrite E. apply IH. exists l. injection L as L. auto.
Qed.
Theorem auto_exact : forall m ts rest, NoDup (map fst m) ->
  (forall r, load (auto_dict key_eqb c fresh id) m ts = (r, Some rest) ->
     exists l ts1, ts = Size (length l) :: ts1 /\ elements c fresh l ts1 rest /\
       assigned m (map (fun x => (id x, x)) l) r /\ length r = length l) /\
  (forall l ts1 u, ts = Size (length l) :: ts1 -> elements c fresh l ts1 rest ->
     union (map fst m) (map id l) u -> length u = length l ->
     exists r, load (auto_dict key_eqb c fresh id) m ts = (r, Some rest)).
Proof.
  intros x ts rest N. cbn. unfold auto_load. split.
  - intros r. destruct ts as [|[n|w|t] ts]; try discriminate.
    destruct (auto_loop key_eqb c fresh id n x ts) as [m [ts1|]] eqn:E; [|discriminate].
    apply auto_loop_iff in E. destruct E as (l & L & R & E).
    destruct (Nat.eqb_spec n (length m)) as [Q|]; [|discriminate]. intros H; injection H as <- <-.
    exists l, ts. rewrite L. split; auto. split; auto. split; auto. rewrite E. now apply assign_all_assigned.
  - intros l ts1 u -> R U L.
    assert (E : auto_loop key_eqb c fresh id (length l) x ts1 = (assign_all key_eqb (keyed l) x, Some rest))
      by (apply auto_loop_iff; eauto).
    rewrite E. replace (map id l) with (map fst (keyed l)) in U
      by (unfold keyed; rewrite map_map; reflexivity).
    rewrite <- L, (assigned_length _ _ _ _ (assign_all_assigned (keyed l) x N) U), Nat.eqb_refl. eauto.
Qed.
End Map_.

Section Others.
Context {Name : Type} (name_eqb : Name -> Name -> bool).
Context (name_iff : forall a b, name_eqb a b = true <-> a = b).

Theorem enum_exact : forall (E : Type) (eqb : E -> E -> bool) (value_of : Name -> E) names x r ts rest,
  load (enumeration name_eqb eqb (apply value_of names)) x ts = (r, Some rest) <->
  exists s, In s names /\ ts = Text s :: rest /\ r = value_of s.
Proof.
  intros E eqb value_of names x r ts rest. cbn.
  pose proof (to_enum_apply name_eqb name_iff value_of names) as H.
  split.
  - destruct ts as [|[n|n|s] ts]; try discriminate. rewrite H.
    destruct (existsb (fun n => name_eqb n s) names) eqn:X; [|discriminate]. intros Q; injection Q as <- <-.
    apply existsb_exists in X. destruct X as (n & I & Q). apply name_iff in Q. subst n. eauto.
  - intros (s & I & -> & ->). rewrite H. replace (existsb (fun n => name_eqb n s) names) with true; [reflexivity|].
    symmetry. apply existsb_exists. exists s. split; auto. now apply name_iff.
Qed.

Theorem struct_exact : forall (ts : list Type) (cs : codecs Name ts) (x r : members ts) i rest,
  load (struct cs) x i = (r, Some rest) <-> members_read cs x r i rest.
Proof.
  cbn. induction ts as [|t ts IH]; intros cs x r i rest.
  - destruct x, r. cbn. split; [now intros H; injection H|intros ->; reflexivity].
  - destruct x as [x xs], r as [r rs], cs as [c cs]. cbn. split.
    + destruct (load c x i) as [y [i1|]] eqn:E; [|discriminate].
      destruct (members_load cs xs i1) as [ys o] eqn:E1. cbn. intros H; injection H as -> -> ->.
      exists i1. split; auto. now apply IH.
    + intros (i1 & E & R). rewrite E. apply IH in R. rewrite R. reflexivity.
Qed.
Theorem tuple_exact : forall (ts : list Type) (cs : codecs Name ts) (x r : members ts) i rest,
  load (tuple cs) x i = (r, Some rest) <-> exists n i1, i = Size n :: i1 /\ members_read cs x r i1 rest.
Proof.
  intros ts cs x r i rest. cbn. split.
  - destruct i as [|[n|n|s] i]; try discriminate. intros H. exists n, i. split; auto.
    now apply struct_exact.
  - intros (n & i1 & -> & R). now apply struct_exact in R.
Qed.
Lemma load_variant_iff : forall (l : list (alternative Name)) s i (v : variant_of l) rest,
  load_variant name_eqb s i = Some (v, rest) <-> held_read v s i rest.
Proof.
  induction l as [|a l IH]; intros s i v rest; [destruct v|]. cbn.
  destruct (name_eqb (aname a) s) eqn:Q.
  - apply name_iff in Q. destruct (load (acodec a) (afresh a) i) as [y [i1|]] eqn:E.
    + split.
      * intros H; injection H as <- <-. auto.
      * destruct v as [x|v]; [|now intros [N _]]. intros [_ H]. now injection H as <- <-.
    + split; [discriminate|]. destruct v as [x|v]; [now intros [_ H]|now intros [N _]].
  - assert (N : aname a <> s) by (intros X; apply name_iff in X; congruence).
    destruct (load_variant name_eqb s i) as [[w i1]|] eqn:E.
    + split.
      * intros H; injection H as <- <-. split; auto. now apply IH.
      * destruct v as [x|v]; [now intros [X _]|]. intros [_ H]. apply IH in H. rewrite E in H. now injection H as -> ->.
    + split; [discriminate|]. destruct v as [x|v]; [now intros [X _]|]. intros [_ H]. apply IH in H. congruence.
Qed.
Theorem variant_exact : forall (l : list (alternative Name)) (x r : variant_of l) ts rest,
  load (variant name_eqb l) x ts = (r, Some rest) <->
  exists s i, ts = Text s :: i /\ held_read r s i rest.
Proof.
  intros l x r ts rest. cbn. split.
  - destruct ts as [|[n|n|s] i]; try discriminate.
    destruct (load_variant name_eqb s i) as [[v j]|] eqn:E; [|discriminate].
    intros H; injection H as <- <-. apply load_variant_iff in E. eauto.
  - intros (s & i & -> & R). apply load_variant_iff in R. now rewrite R.
Qed.
End Others.

(** ** What cereal provides itself *)
Lemma text_returns : forall Name (x a : Name), returns eq text x a.
Proof. intros Name x a rest. exists a. auto. Qed.
Lemma word_returns : forall Name x a, returns eq (@word Name) x a.
Proof. intros Name x a rest. exists a. auto. Qed.
Lemma text_exact : forall Name (x r : Name) ts rest,
  load text x ts = (r, Some rest) <-> ts = Text r :: rest.
Proof.
  intros. cbn. destruct ts as [|[n|n|s] ts]; split; intros H; try discriminate; now injection H as <- <-.
Qed.
Lemma word_exact : forall Name x r ts rest,
  load (@word Name) x ts = (r, Some rest) <-> ts = Word r :: rest.
Proof.
  intros. cbn. destruct ts as [|[n|n|s] ts]; split; intros H; try discriminate; now injection H as <- <-.
Qed.
