From Coq Require Import List Arith Bool Lia.
From Verif Require Import LensModel LensSpec LensProofs SmartModel SmartSpec.
Import ListNotations.

(** ** Trees *)
Lemma content_not_opt : forall v w, content v = Some w -> is_opt w = false.
Proof.
  fix IH 1. intros [n|[v|]|l|l|c l] w; simpl; intros H; try (inversion H; reflexivity); try discriminate.
  exact (IH v w H).
Qed.
Lemma content_id : forall w, is_opt w = false -> content w = Some w.
Proof. intros [| | | |]; simpl; auto; discriminate. Qed.
Lemma inside_id : forall f w, is_opt w = false -> inside f w = f w.
Proof. intros f [| | | |]; simpl; auto; discriminate. Qed.
Lemma is_opt_inside : forall f v, (forall w, is_opt w = false -> is_opt (f w) = false) ->
  is_opt (inside f v) = is_opt v.
Proof. intros f [n|[v|]|l|l|c l] H; simpl; auto; now rewrite H. Qed.
Lemma is_opt_changed : forall s f w, is_opt (changed s f w) = is_opt w.
Proof. intros [k|c n] f [| | | |]; simpl; auto. destruct (c =? c0); auto. Qed.
Lemma content_inside : forall f v, (forall w, is_opt w = false -> is_opt (f w) = false) ->
  content (inside f v) = option_map f (content v).
Proof.
  intros f v H. revert v. fix IH 1. intros [n|[v|]|l|l|c l]; simpl; auto; try (apply content_id; now apply H).
Qed.
Lemma inside_ext : forall f g v, (forall w, content v = Some w -> f w = g w) -> inside f v = inside g v.
Proof.
  intros f g. fix IH 1. intros [n|[v|]|l|l|c l] H; simpl; auto; try (now apply H).
  f_equal. f_equal. apply IH. exact H.
Qed.
Lemma inside_same : forall f v, (forall w, content v = Some w -> f w = w) -> inside f v = v.
Proof.
  intros f. fix IH 1. intros [n|[v|]|l|l|c l] H; simpl; auto; try (now apply H).
  f_equal. f_equal. apply IH. exact H.
Qed.
Lemma inside_inside : forall f g v, (forall w, is_opt w = false -> is_opt (g w) = false) ->
  inside f (inside g v) = inside (fun w => f (g w)) v.
Proof.
  intros f g v H. revert v. fix IH 1. intros [n|[v|]|l|l|c l]; simpl; auto; try (apply inside_id; now apply H).
  now rewrite IH.
Qed.

Lemma nth_changed_ext : forall f g l n, (forall e, nth_error l n = Some e -> f e = g e) ->
  nth_changed n f l = nth_changed n g l.
Proof. induction l as [|x l IH]; intros [|n] H; simpl; auto; f_equal; auto. Qed.
Lemma nth_changed_same : forall f l n, (forall e, nth_error l n = Some e -> f e = e) -> nth_changed n f l = l.
Proof. induction l as [|x l IH]; intros [|n] H; simpl; auto; f_equal; auto. Qed.
Lemma nth_changed_twice : forall f g l n,
  nth_changed n f (nth_changed n g l) = nth_changed n (fun e => f (g e)) l.
Proof. induction l as [|x l IH]; intros [|n]; simpl; auto; f_equal; auto. Qed.
Lemma nth_nth_changed : forall f l n, nth_error (nth_changed n f l) n = option_map f (nth_error l n).
Proof. induction l as [|x l IH]; intros [|n]; simpl; auto. Qed.
Lemma nth_nth_changed_other : forall f l n m, n <> m -> nth_error (nth_changed n f l) m = nth_error l m.
Proof. induction l as [|x l IH]; intros [|n] [|m] H; simpl; auto; try congruence. Qed.

Definition at_key (l : list (nat * tree)) k := option_map snd (find (fun e => fst e =? k) l).
Lemma key_changed_ext : forall f g l k, (forall e, at_key l k = Some e -> f e = g e) ->
  key_changed k f l = key_changed k g l.
Proof.
  unfold at_key. induction l as [|[i x] l IH]; intros k H; simpl in *; auto.
  destruct (i =? k); simpl in *. - now rewrite H. - f_equal; auto.
Qed.
Lemma key_changed_same : forall f l k, (forall e, at_key l k = Some e -> f e = e) -> key_changed k f l = l.
Proof.
  unfold at_key. induction l as [|[i x] l IH]; intros k H; simpl in *; auto.
  destruct (i =? k); simpl in *. - now rewrite H. - f_equal; auto.
Qed.
Lemma key_changed_twice : forall f g l k,
  key_changed k f (key_changed k g l) = key_changed k (fun e => f (g e)) l.
Proof.
  induction l as [|[i x] l IH]; intros k; simpl in *; auto.
  destruct (i =? k) eqn:E; simpl in *; rewrite E. - reflexivity. - f_equal; auto.
Qed.
Lemma at_key_changed : forall f l k, at_key (key_changed k f l) k = option_map f (at_key l k).
Proof.
  unfold at_key. induction l as [|[i x] l IH]; intros k; simpl in *; auto.
  destruct (i =? k) eqn:E; simpl in *; rewrite E; simpl; auto.
Qed.
Lemma at_key_changed_other : forall f l k m, k <> m -> at_key (key_changed k f l) m = at_key l m.
Proof.
  unfold at_key. induction l as [|[i x] l IH]; intros k m H; simpl in *; auto.
  destruct (i =? k) eqn:E; simpl in *.
  - apply Nat.eqb_eq in E. subst i. apply Nat.eqb_neq in H. now rewrite H.
  - destruct (i =? m); auto.
Qed.

Lemma changed_ext : forall s f g w, (forall e, index s w = Some e -> f e = g e) -> changed s f w = changed s g w.
Proof.
  intros [k|c n] f g [m|o|l|l|c' l] H; simpl in *; auto.
  - f_equal. now apply nth_changed_ext. - f_equal. now apply key_changed_ext.
  - destruct (c =? c'); auto. f_equal. now apply nth_changed_ext.
Qed.
Lemma changed_same : forall s f w, (forall e, index s w = Some e -> f e = e) -> changed s f w = w.
Proof.
  intros [k|c n] f [m|o|l|l|c' l] H; simpl in *; auto.
  - f_equal. now apply nth_changed_same. - f_equal. now apply key_changed_same.
  - destruct (c =? c'); auto. f_equal. now apply nth_changed_same.
Qed.
Lemma changed_twice : forall s f g w, changed s f (changed s g w) = changed s (fun e => f (g e)) w.
Proof.
  intros [k|c n] f g [m|o|l|l|c' l]; simpl; auto.
  - now rewrite nth_changed_twice. - now rewrite key_changed_twice.
  - destruct (c =? c') eqn:E; simpl; rewrite E; auto. now rewrite nth_changed_twice.
Qed.
Lemma index_changed : forall s f w, index s (changed s f w) = option_map f (index s w).
Proof.
  intros [k|c n] f [m|o|l|l|c' l]; simpl; auto.
  - apply nth_nth_changed. - apply at_key_changed.
  - destruct (c =? c') eqn:E; simpl; rewrite E; auto. apply nth_nth_changed.
Qed.
Definition differ (s s' : step) : Prop :=
  match s, s' with
  | AtKey k, AtKey k' => k <> k'
  | Field c n, Field c' n' => c <> c' \/ n <> n'
  | _, _ => True
  end.
Lemma index_changed_other : forall s s' f w, differ s s' -> index s' (changed s f w) = index s' w.
Proof.
  intros [k|c n] [k'|c' n'] f [m|o|l|l|c0 l] H; simpl in *; auto.
  - now apply nth_nth_changed_other. - now apply at_key_changed_other.
  - destruct (c =? c0); auto.
  - destruct (c =? c0) eqn:E; simpl; auto. destruct (c' =? c0) eqn:E'; auto.
    apply Nat.eqb_eq in E, E'. apply nth_nth_changed_other. intros ->. destruct H; congruence.
Qed.

Lemma place_cons : forall s p v w, content v = Some w ->
  place (s :: p) v = match index s w with Some e => place p e | None => None end.
Proof. intros s p v w H. simpl. now rewrite H. Qed.

Lemma changed_at_ext : forall p f g v, (forall e, place p v = Some e -> f e = g e) ->
  changed_at p f v = changed_at p g v.
Proof.
  induction p as [|s p IH]; simpl; intros f g v H. - now apply H.
  - apply inside_ext. intros w E. rewrite E in H. apply changed_ext. intros e E'. rewrite E' in H. auto.
Qed.
Lemma changed_at_same : forall p f v, (forall e, place p v = Some e -> f e = e) -> changed_at p f v = v.
Proof.
  induction p as [|s p IH]; simpl; intros f v H. - now apply H.
  - apply inside_same. intros w E. rewrite E in H. apply changed_same. intros e E'. rewrite E' in H. auto.
Qed.
Lemma changed_not_opt : forall s f w, is_opt w = false -> is_opt (changed s f w) = false.
Proof. intros. now rewrite is_opt_changed. Qed.
Lemma changed_at_twice : forall p f g v, changed_at p f (changed_at p g v) = changed_at p (fun e => f (g e)) v.
Proof.
  induction p as [|s p IH]; simpl; intros f g v; auto.
  rewrite inside_inside by apply changed_not_opt.
  apply inside_ext. intros w _. rewrite changed_twice. apply changed_ext. intros e _. apply IH.
Qed.
Lemma place_changed_at : forall p f v, place p (changed_at p f v) = option_map f (place p v).
Proof.
  induction p as [|s p IH]; simpl; intros f v; auto.
  rewrite content_inside by apply changed_not_opt.
  destruct (content v) as [w|]; simpl; auto. rewrite index_changed.
  destruct (index s w) as [e|]; simpl; auto.
Qed.
Lemma direct_changed_at : forall p f v, direct p (changed_at p f v) = direct p v.
Proof.
  induction p as [|s p IH]; intros f v; auto. simpl changed_at.
  destruct s as [k|c n]; auto. cbn [direct].
  rewrite is_opt_inside by apply changed_not_opt.
  destruct (is_opt v) eqn:E; auto. simpl negb. cbn [andb].
  rewrite inside_id by assumption. rewrite index_changed.
  destruct (index (Field c n) v); cbn [option_map]; auto.
Qed.
Lemma direct_place : forall p v, direct p v = true -> exists e, place p v = Some e.
Proof.
  induction p as [|[k|c n] p IH]; intros v H; simpl; eauto; try discriminate.
  cbn [direct] in H. apply andb_true_iff in H as [H1 H2]. apply negb_true_iff in H1.
  rewrite (content_id _ H1). change (match v with Rec c' l => if c =? c' then nth_error l n else None | _ => None end)
    with (index (Field c n) v). destruct (index (Field c n) v); [auto|discriminate].
Qed.

(** Paths that part *)
Lemma elsewhere : forall p q f v, part_ways p q ->
  place q (changed_at p f v) = place q v /\ direct q (changed_at p f v) = direct q v.
Proof.
  induction p as [|s p IH]; intros [|s' q] f v H; try contradiction.
  assert (D : s = s' /\ part_ways p q \/ differ s s') by exact H. clear H.
  split.
  - simpl. rewrite content_inside by apply changed_not_opt.
    destruct (content v) as [w|]; simpl; auto.
    destruct D as [[<- H]|H].
    + rewrite index_changed. destruct (index s w); simpl; auto. now apply IH.
    + now rewrite index_changed_other.
  - destruct s' as [k|c n]; auto. cbn [direct changed_at].
    rewrite is_opt_inside by apply changed_not_opt.
    destruct (is_opt v) eqn:E; auto. simpl negb. cbn [andb].
    rewrite inside_id by assumption.
    destruct D as [[-> H]|H].
    + rewrite index_changed. destruct (index (Field c n) v); cbn [option_map]; auto. now apply IH.
    + now rewrite index_changed_other.
Qed.

(** ** A step and the rest of the path *)
Definition key_step (s : step) : bool := match s with AtKey _ => true | _ => false end.
Lemma by_key_one : forall s, by_key [s] = key_step s.
Proof. reflexivity. Qed.
Lemma by_key_more : forall s s' p, by_key (s :: s' :: p) = by_key (s' :: p).
Proof. reflexivity. Qed.
Lemma content_as_opt : forall k e, content (as_opt k e) = content e.
Proof. intros [|] e; simpl; auto. unfold as_opt. destruct (is_opt e) eqn:E; auto. Qed.
Lemma is_opt_as_opt : forall k e, is_opt (as_opt k e) = true.
Proof. intros [|] e; simpl; auto. unfold as_opt. destruct (is_opt e) eqn:E; auto. Qed.

Lemma direct_one : forall s p v, direct (s :: p) v = true -> direct [s] v = true.
Proof.
  intros [k|c n] p v H; simpl in *; auto. apply andb_true_iff in H as [-> H]. simpl.
  destruct v; auto. destruct (c =? c0); auto. destruct (nth_error l n); auto.
Qed.
Lemma direct_two : forall s p v e, direct [s] v = true -> place [s] v = Some e -> direct (s :: p) v = direct p e.
Proof.
  intros [k|c n] p v e H E; [discriminate|]. cbn [direct] in *.
  apply andb_true_iff in H as [H1 H2]. rewrite H1. apply negb_true_iff in H1. cbn [andb].
  cbn [place] in E. rewrite (content_id _ H1) in E. destruct (index (Field c n) v); congruence.
Qed.
Lemma place_more : forall s p v, place (s :: p) v = match place [s] v with Some e => place p e | None => None end.
Proof. intros s p v. simpl. destruct (content v); auto. destruct (index s t); auto. Qed.

Lemma read_nil : forall v, read [] v = v.
Proof. reflexivity. Qed.
Lemma write_nil : forall y v, write [] y v = y.
Proof. reflexivity. Qed.

Lemma read_cons : forall s p v, read (s :: p) v = read p (read [s] v).
Proof.
  intros s p v. destruct (place [s] v) as [e|] eqn:E.
  - destruct (direct [s] v) eqn:D.
    + assert (R : read [s] v = e) by (unfold read; now rewrite E, D). rewrite R.
      unfold read. rewrite place_more, E, (direct_two _ p _ _ D E).
      destruct (place p e) eqn:P; auto. destruct (direct p e) eqn:D'; auto.
      destruct p; [discriminate|reflexivity].
    + assert (R : read [s] v = as_opt (key_step s) e) by (unfold read; now rewrite E, D). rewrite R.
      assert (D' : direct (s :: p) v = false).
      { destruct (direct (s :: p) v) eqn:X; auto. apply direct_one in X. congruence. }
      unfold read at 1. rewrite place_more, E, D'.
      destruct p as [|s' p]; [reflexivity|].
      unfold read. rewrite by_key_more.
      assert (P : place (s' :: p) (as_opt (key_step s) e) = place (s' :: p) e) by (simpl; now rewrite content_as_opt).
      rewrite P. destruct (place (s' :: p) e); auto.
      replace (direct (s' :: p) (as_opt (key_step s) e)) with false; auto.
      destruct s'; auto. cbn [direct]. now rewrite is_opt_as_opt.
  - assert (R : read [s] v = Opt None) by (unfold read; now rewrite E). rewrite R.
    unfold read at 1. rewrite place_more, E. destruct p as [|s' p]; reflexivity.
Qed.

Lemma write_cons : forall s p y v, write (s :: p) y v = write [s] (write p y (read [s] v)) v.
Proof.
  intros s p y v. unfold write at 1 2.
  change (changed_at (s :: p) (new_value (direct (s :: p) v) (by_key (s :: p)) y) v)
    with (changed_at [s] (changed_at p (new_value (direct (s :: p) v) (by_key (s :: p)) y)) v).
  apply changed_at_ext. intros e E. rewrite by_key_one.
  destruct p as [|s' p]; [reflexivity|]. rewrite by_key_more. set (r := s' :: p) in *.
  destruct (direct [s] v) eqn:D.
  - assert (R : read [s] v = e) by (unfold read; now rewrite E, D). rewrite R.
    rewrite (direct_two _ r _ _ D E). reflexivity.
  - assert (R : read [s] v = as_opt (key_step s) e) by (unfold read; now rewrite E, D). rewrite R.
    assert (D' : direct (s :: r) v = false).
    { destruct (direct (s :: r) v) eqn:X; auto. apply direct_one in X. congruence. }
    rewrite D'. unfold write.
    replace (direct r (as_opt (key_step s) e)) with false.
    2:{ subst r. destruct s'; auto. cbn [direct]. now rewrite is_opt_as_opt. }
    subst r. cbn [changed_at].
    set (g := changed s' (changed_at p (new_value false (by_key (s' :: p)) y))).
    unfold as_opt. destruct (key_step s); simpl; auto.
    destruct e as [n|[w|]|l|l|c l]; simpl; auto.
Qed.

(** ** The lenses *)
Definition fits {t} (L : part t) (p : list step) : Prop :=
  match L with
  | existT _ q l =>
      uniform l /\
      (forall x, tree_of q (view l x) = read p (tree_of t x)) /\
      (forall x y, tree_of t (set l x y) = write p (tree_of q y) (tree_of t x))
  end.

Lemma is_opt_tree : forall t x, is_opt (tree_of t x) = is_topt t.
Proof. intros [| | | |] x; reflexivity. Qed.

Lemma map_vec_assign : forall t (x : list (den t)) k y,
  map (tree_of t) (match vec_assign x k y with Some r => r | None => x end)
  = nth_changed k (fun _ => tree_of t y) (map (tree_of t) x).
Proof.
  induction x as [|a x IH]; intros [|k] y; simpl; auto.
  rewrite <- IH. destruct (vec_assign x k y); reflexivity.
Qed.
Lemma map_amap_assign : forall t (x : list (nat * den t)) k y,
  map (fun e => (fst e, tree_of t (snd e))) (match amap_assign Nat.eqb x k y with Some r => r | None => x end)
  = key_changed k (fun _ => tree_of t y) (map (fun e => (fst e, tree_of t (snd e))) x).
Proof.
  induction x as [|[i a] x IH]; intros k y; simpl; auto. rewrite (Nat.eqb_sym i k).
  destruct (k =? i); simpl; auto. rewrite <- IH. destruct (amap_assign Nat.eqb x k y); reflexivity.
Qed.
Lemma map_amap_at : forall t (x : list (nat * den t)) k,
  option_map (tree_of t) (amap_at Nat.eqb x k) = at_key (map (fun e => (fst e, tree_of t (snd e))) x) k.
Proof.
  unfold at_key. induction x as [|[i a] x IH]; intros k; simpl; auto. rewrite (Nat.eqb_sym i k).
  destruct (k =? i); simpl; auto.
Qed.

Lemma read_key : forall k v, is_opt v = false ->
  read [AtKey k] v = Opt (index (AtKey k) v).
Proof.
  intros k v H. unfold read. cbn [place direct]. rewrite (content_id _ H).
  destruct (index (AtKey k) v); reflexivity.
Qed.
Lemma write_key : forall k y v, is_opt v = false ->
  write [AtKey k] (Opt y) v = match y with Some z => changed (AtKey k) (fun _ => z) v | None => v end.
Proof.
  intros k y v H. unfold write. cbn [changed_at]. rewrite inside_id by assumption.
  destruct y; [reflexivity|]. now apply changed_same.
Qed.

Lemma at_vec_fits : forall b t k (l : lens (list (den t)) (option (den t))),
  (forall x, view l x = vec_at x k) -> (forall x p, set l x p = at_setter_mutable vec_assign x p k) -> uniform l ->
  fits (a_part (t := TVec b t) (TOpt t) l) [AtKey k].
Proof.
  intros b t k l V S U. split; [exact U|]. split.
  - intros x. rewrite read_key by reflexivity. rewrite V. simpl. f_equal.
    unfold vec_at. now rewrite nth_error_map.
  - intros x y. change (tree_of (TOpt t) y) with (Opt (option_map (tree_of t) y)).
    rewrite write_key by reflexivity. rewrite S. destruct y as [y|]; [|reflexivity].
    simpl. f_equal. apply map_vec_assign.
Qed.
Lemma at_map_fits : forall b t k (l : lens (list (nat * den t)) (option (den t))),
  (forall x, view l x = amap_at Nat.eqb x k) ->
  (forall x p, set l x p = at_setter_mutable (amap_assign Nat.eqb) x p k) -> uniform l ->
  fits (a_part (t := TMap b t) (TOpt t) l) [AtKey k].
Proof.
  intros b t k l V S U. split; [exact U|]. split.
  - intros x. rewrite read_key by reflexivity. rewrite V. simpl. f_equal. apply map_amap_at.
  - intros x y. change (tree_of (TOpt t) y) with (Opt (option_map (tree_of t) y)).
    rewrite write_key by reflexivity. rewrite S. destruct y as [y|]; [|reflexivity].
    simpl. f_equal. apply map_amap_assign.
Qed.

Definition member_ok_at (ms : members) (n : nat) (L : {p : ty & member (dens ms) (den p)}) : Prop :=
  match L with
  | existT _ q m =>
      nth_member ms n = Some q /\
      (forall x, nth_error (trees_of ms x) n = Some (tree_of q (mem_get m x))) /\
      (forall x y, trees_of ms (mem_assign m x y) = nth_changed n (fun _ => tree_of q y) (trees_of ms x))
  end.
Lemma member_fits : forall ms n L, member_at ms n = Some L -> member_ok_at ms n L.
Proof.
  induction ms as [|a r IH]; intros [|n] L H; simpl in H; try discriminate.
  - inversion H. clear. repeat split; simpl; auto.
  - specialize (IH n). destruct (member_at r n) as [[q m]|]; [|discriminate].
    inversion H. clear H. destruct (IH _ eq_refl) as (A & B & C). repeat split; simpl; auto.
    intros x y. now rewrite C.
Qed.
Lemma member_none : forall ms n, member_at ms n = None <-> nth_member ms n = None.
Proof.
  induction ms as [|a r IH]; intros [|n]; simpl; try tauto; try (split; discriminate).
  rewrite <- IH. destruct (member_at r n) as [[q m]|]; split; congruence.
Qed.

Lemma read_field : forall c n v, is_opt v = false -> index (Field c n) v <> None ->
  Some (read [Field c n] v) = index (Field c n) v.
Proof.
  intros c n v H N. unfold read. cbn [place direct]. rewrite (content_id _ H), H. cbn [negb andb].
  destruct (index (Field c n) v); congruence.
Qed.
Lemma write_field : forall c n y v, is_opt v = false -> index (Field c n) v <> None ->
  write [Field c n] y v = changed (Field c n) (fun _ => y) v.
Proof.
  intros c n y v H N. unfold write. cbn [changed_at direct]. rewrite inside_id by assumption.
  rewrite H. cbn [negb andb]. destruct (index (Field c n) v); [reflexivity|congruence].
Qed.

Lemma base_fits : forall t s L, is_topt t = false -> base_make t (arg_of s) = Some L -> fits L [s].
Proof.
  intros t [k|c n] L T H; simpl in H.
  - destruct t as [|t|[|] t|[|] t|c ms]; try discriminate; inversion H; subst L; clear H.
    + apply at_vec_fits.
      * intros x. apply (at_immer_vector_same _ k x).
      * intros x p. apply (at_immer_vector_same _ k x).
      * apply at_with_api.
    + apply at_vec_fits; try apply at_with_api; reflexivity.
    + assert (E : forall a b : nat, (a =? b) = true <-> a = b) by apply Nat.eqb_eq.
      apply at_map_fits.
      * intros x. apply (at_immer_map_same _ _ Nat.eqb E k x).
      * intros x p. apply (at_immer_map_same _ _ Nat.eqb E k x).
      * apply at_with_api.
    + apply at_map_fits; try apply at_with_api; reflexivity.
  - destruct t as [|t|b t|b t|c' ms]; try discriminate.
    destruct (c =? c') eqn:E; [|discriminate]. apply Nat.eqb_eq in E. subst c'.
    pose proof (member_fits ms n) as M. destruct (member_at ms n) as [[q m]|]; [|discriminate].
    inversion H. subst L. clear H. destruct (M _ eq_refl) as (_ & B & C). clear M.
    assert (N : forall x, index (Field c n) (tree_of (TClass c ms) x) <> None).
    { intros x. simpl. rewrite Nat.eqb_refl, B. discriminate. }
    split; [|split].
    + intros F f' LF f x. unfold attr. apply (lf_ext _ _ LF). reflexivity.
    + intros x. assert (X := read_field c n (tree_of (TClass c ms) x) eq_refl (N x)).
      simpl index in X. rewrite Nat.eqb_refl, B in X. now inversion X.
    + intros x y. rewrite write_field by (auto; reflexivity). simpl. rewrite Nat.eqb_refl. f_equal. apply C.
Qed.

Lemma read_opt : forall s v, read [s] (Opt (Some v)) = as_opt false (read [s] v).
Proof.
  intros s v. assert (P : place [s] (Opt (Some v)) = place [s] v) by reflexivity.
  unfold read. rewrite P. assert (D : direct [s] (Opt (Some v)) = false) by (destruct s; reflexivity). rewrite D.
  destruct (place [s] v) as [e|]; [|reflexivity].
  rewrite by_key_one. destruct (direct [s] v) eqn:D'.
  - destruct s; [discriminate|reflexivity].
  - destruct (key_step s); [reflexivity|]. unfold as_opt. destruct (is_opt e) eqn:E; simpl; rewrite ?E; auto.
Qed.
Lemma write_opt : forall s y v, is_opt (read [s] v) = true ->
  write [s] (Opt y) (Opt (Some v)) = match y with Some _ => Opt (Some (write [s] (Opt y) v)) | None => Opt (Some v) end.
Proof.
  intros s y v O. unfold write. assert (D : direct [s] (Opt (Some v)) = false) by (destruct s; reflexivity). rewrite D.
  destruct y as [z|].
  - cbn [changed_at inside]. f_equal. f_equal.
    change (changed_at [s] (new_value false (by_key [s]) (Opt (Some z))) v
            = changed_at [s] (new_value (direct [s] v) (by_key [s]) (Opt (Some z))) v).
    apply changed_at_ext. intros e E. rewrite by_key_one.
    destruct (direct [s] v) eqn:D'; auto. destruct s; [discriminate|]. simpl.
    unfold read in O. rewrite E, D' in O. now rewrite O.
  - apply changed_at_same. reflexivity.
Qed.
Lemma write_plain : forall s y z v, is_opt (read [s] v) = false -> y = Opt z ->
  write [s] y (Opt (Some v)) = match z with Some z => Opt (Some (write [s] z v)) | None => Opt (Some v) end.
Proof.
  intros s y z v O ->. unfold write. assert (D : direct [s] (Opt (Some v)) = false) by (destruct s; reflexivity). rewrite D.
  destruct z as [z|].
  - cbn [changed_at inside]. f_equal. f_equal.
    change (changed_at [s] (new_value false (by_key [s]) (Opt (Some z))) v
            = changed_at [s] (new_value (direct [s] v) (by_key [s]) z) v).
    apply changed_at_ext. intros e E. unfold read in O. rewrite E in O.
    destruct (direct [s] v) eqn:D'.
    + simpl. rewrite O. now rewrite andb_false_r.
    + now rewrite is_opt_as_opt in O.
  - apply changed_at_same. reflexivity.
Qed.

Lemma with_opt_fits : forall t (L : part t) s, fits L [s] -> fits (with_opt L) [s].
Proof.
  intros t [q l] s (U & V & W).
  assert (R : forall x, is_opt (read [s] (tree_of t x)) = is_topt q) by (intros x; now rewrite <- V, is_opt_tree).
  destruct q as [|q|b q|b q|c ms].
  2:{ split; [apply bind_opt_uniform|]. split.
      - intros [x|]; [|reflexivity]. change (tree_of (TOpt t) (Some x)) with (Opt (Some (tree_of t x))).
        rewrite read_opt. change (view (bind_opt l) (Some x)) with (view l x). rewrite V.
        unfold as_opt. now rewrite R.
      - intros [x|] y; [|reflexivity].
        change (tree_of (TOpt t) (Some x)) with (Opt (Some (tree_of t x))).
        change (tree_of (TOpt q) y) with (Opt (option_map (tree_of q) y)).
        rewrite write_opt by apply R. destruct y as [y|]; [|reflexivity].
        change (set (bind_opt l) (Some x) (Some y)) with (Some (set l x (Some y))).
        change (tree_of (TOpt t) (Some (set l x (Some y)))) with (Opt (Some (tree_of t (set l x (Some y))))).
        now rewrite W. }
  all: split; [apply map_opt_uniform|]; split.
  all: try (intros [x|]; [|reflexivity]; change (tree_of (TOpt t) (Some x)) with (Opt (Some (tree_of t x)));
            rewrite read_opt; rewrite <- V; reflexivity).
  all: intros [x|] y; [|reflexivity];
       change (tree_of (TOpt t) (Some x)) with (Opt (Some (tree_of t x)));
       match goal with _ : lens _ (den ?q) |- _ =>
         rewrite (write_plain s _ (option_map (tree_of q) y)) by (apply R || reflexivity) end;
       destruct y as [y|]; [|reflexivity];
       match goal with _ : lens _ (den ?q) |- _ =>
         transitivity (Opt (Some (write [s] (tree_of q y) (tree_of t x)))); [rewrite <- W|]; reflexivity end.
Qed.

Lemma make_fits : forall t s L, make t (arg_of s) = Some L -> fits L [s].
Proof.
  induction t; intros s L H; try (apply base_fits in H; auto; fail).
  assert (H' : option_map with_opt (make t (arg_of s)) = Some L) by (destruct s; exact H).
  destruct (make t (arg_of s)) as [L'|] eqn:E; [|discriminate]. inversion H'. apply with_opt_fits. auto.
Qed.

Lemma read_app : forall p q v, read (p ++ q) v = read q (read p v).
Proof.
  induction p as [|s p IH]; intros q v; [reflexivity|]. cbn [app].
  rewrite (read_cons s (p ++ q)), (read_cons s p). apply IH.
Qed.
Lemma write_app : forall p q y v, write (p ++ q) y v = write p (write q y (read p v)) v.
Proof.
  induction p as [|s p IH]; intros q y v; [reflexivity|]. cbn [app].
  rewrite (write_cons s (p ++ q)), (write_cons s p), IH, (read_cons s p). reflexivity.
Qed.

Lemma zoom_fits : forall t (L L' : part t) p s, fits L p -> zoom L (arg_of s) = Some L' -> fits L' (p ++ [s]).
Proof.
  intros t [q l] L' p s (U & V & W) H. simpl in H.
  pose proof (make_fits q s) as M. destruct (make q (arg_of s)) as [[r l2]|]; [|discriminate].
  inversion H. subst L'. destruct (M _ eq_refl) as (U2 & V2 & W2).
  destruct (compose_view_set _ _ _ l l2 U U2) as (CV & CS & CU).
  split; [exact CU|]. split.
  - intros x. now rewrite CV, V2, V, read_app.
  - intros x y. now rewrite CS, W, W2, V, write_app.
Qed.
Lemma brackets_fits : forall t r (L L' : part t) p, fits L p -> brackets L (map arg_of r) = Some L' ->
  fits L' (p ++ r).
Proof.
  induction r as [|s r IH]; intros L L' p F H; simpl in H.
  - inversion H. subst. now rewrite app_nil_r.
  - pose proof (fun Z => zoom_fits t L Z p s F) as X.
    destruct (zoom L (arg_of s)) as [L1|]; [|discriminate].
    replace (p ++ s :: r) with ((p ++ [s]) ++ r) by now rewrite <- app_assoc.
    eapply IH; eauto.
Qed.
Lemma select_fits : forall t p L, select t (map arg_of p) = Some L -> fits L p.
Proof.
  intros t [|s p] L H; simpl in H.
  - inversion H. repeat split; auto. intros F f LF g x. unfold id_lens. simpl.
    symmetry. apply (lf_id _ _ LF).
  - destruct (make t (arg_of s)) as [L1|] eqn:E; [|discriminate].
    apply (brackets_fits t p L1 L [s]); auto. now apply make_fits.
Qed.
