From Coq Require Import List Arith Bool.
From Verif Require Import LensModel LensSpec.
Import ListNotations.

Lemma const_lawful : forall R, lawful_functor (const_functor R) (const_map R).
Proof. intros R; split; intros; reflexivity. Qed.

Lemma identity_lawful : lawful_functor identity_functor identity_map.
Proof. split; intros; unfold identity_map; auto. Qed.

(** A lens given by a getter and a setter is uniform. *)
Lemma uniform_of_rep : forall S A (l : lens S A) (g : S -> A) (s : S -> A -> S),
  (forall F m, lawful_functor F m -> forall f p,
     l F m f p = m _ _ (s p) (f (g p))) ->
  (forall x, view l x = g x) /\ (forall x v, set l x v = s x v) /\
  (forall x h, over l x h = s x (h (g x))) /\ uniform l.
Proof.
  intros S A l g s H.
  assert (Hv : forall x, view l x = g x).
  { intros x. unfold view. rewrite (H _ _ (const_lawful A)). reflexivity. }
  assert (Hs : forall x v, set l x v = s x v).
  { intros x v. unfold set. rewrite (H _ _ identity_lawful). reflexivity. }
  split; [exact Hv|]. split; [exact Hs|]. split.
  - intros x h. unfold over. rewrite (H _ _ identity_lawful). reflexivity.
  - intros F m L f p. rewrite (H _ _ L), Hv. apply (lf_ext _ _ L).
    intros a. symmetry; apply Hs.
Qed.

Lemma uniform_over : forall S A (l : lens S A), uniform l -> over_law l.
Proof.
  intros S A l H x f. unfold over. rewrite (H _ _ identity_lawful). reflexivity.
Qed.

Lemma lawful_of_rep : forall S A (l : lens S A) (g : S -> A) (s : S -> A -> S),
  (forall F m, lawful_functor F m -> forall f p,
     l F m f p = m _ _ (s p) (f (g p))) ->
  (forall x v, g (s x v) = v) -> (forall x, s x (g x) = x) ->
  (forall x v w, s (s x v) w = s x w) -> lawful l.
Proof.
  intros S A l g s H H1 H2 H3.
  destruct (uniform_of_rep _ _ l g s H) as (Hv & Hs & Ho & Hu).
  split.
  - exact Hu.
  - intros x v. rewrite Hv, Hs. apply H1.
  - intros x. rewrite Hs, Hv. apply H2.
  - intros x v w. rewrite !Hs. apply H3.
  - apply uniform_over; exact Hu.
Qed.

Lemma getset_lawful : forall S A (g : S -> A) (s : S -> A -> S),
  (forall x v, g (s x v) = v) -> (forall x, s x (g x) = x) ->
  (forall x v w, s (s x v) w = s x w) -> lawful (getset g s).
Proof. intros. apply lawful_of_rep with g s; auto. Qed.

Lemma attr_lawful : forall S A (mb : member S A), member_ok mb -> lawful (attr mb).
Proof.
  intros S A mb [H1 H2 H3]. apply lawful_of_rep with (mem_get mb) (mem_assign mb); auto.
Qed.

Lemma unbox_lawful : forall A, lawful (@unbox A).
Proof.
  intros A. apply lawful_of_rep with box_get (fun _ x => Box x); auto.
  intros [a]; reflexivity.
Qed.

Lemma id_lens_lawful : forall S, lawful (@id_lens S).
Proof.
  intros S. split; try (intros; intro; intros; reflexivity).
  intros F m L f p. unfold id_lens. symmetry. apply (lf_id _ _ L).
Qed.

Lemma tget_tassign : forall ts T (i : idx ts T) w x, tget i (tassign i w x) = x.
Proof. induction i; intros w x; simpl; auto. Qed.
Lemma tassign_tget : forall ts T (i : idx ts T) w, tassign i w (tget i w) = w.
Proof. induction i; intros [w1 w2]; simpl; auto. now rewrite IHi. Qed.
Lemma tassign_tassign : forall ts T (i : idx ts T) w x y,
  tassign i (tassign i w x) y = tassign i w y.
Proof. induction i; intros [w1 w2] x y; simpl; auto. now rewrite IHi. Qed.

Lemma element_lawful : forall ts T (i : idx ts T), lawful (element i).
Proof.
  intros. apply lawful_of_rep with (tget i) (tassign i); auto.
  - apply tget_tassign. - apply tassign_tget. - apply tassign_tassign.
Qed.

Lemma zip_view_set : forall ws ps (ls : lens_pack ws ps), pack_lawful ls ->
  forall w p, zip_view ls (zip_set ls w p) = p.
Proof.
  induction ls; intros HL w p; simpl.
  - now destruct p.
  - destruct HL as [Hl Hr]. destruct w as [w1 w2], p as [p1 p2]; simpl.
    rewrite IHls by assumption. now rewrite (law_put_get _ Hl).
Qed.
Lemma zip_set_view : forall ws ps (ls : lens_pack ws ps), pack_lawful ls ->
  forall w, zip_set ls w (zip_view ls w) = w.
Proof.
  induction ls; intros HL w; simpl; auto.
  destruct HL as [Hl Hr]. destruct w as [w1 w2]; simpl.
  rewrite IHls by assumption. now rewrite (law_get_put _ Hl).
Qed.
Lemma zip_set_set : forall ws ps (ls : lens_pack ws ps), pack_lawful ls ->
  forall w p q, zip_set ls (zip_set ls w p) q = zip_set ls w q.
Proof.
  induction ls; intros HL w p q; simpl; auto.
  destruct HL as [Hl Hr]. destruct w as [w1 w2]; simpl.
  rewrite IHls by assumption. now rewrite (law_put_put _ Hl).
Qed.
Lemma zip_lawful : forall ws ps (ls : lens_pack ws ps), pack_lawful ls ->
  lawful (zip ls).
Proof.
  intros ws ps ls H. apply lawful_of_rep with (zip_view ls) (zip_set ls); auto.
  - now apply zip_view_set. - now apply zip_set_view. - now apply zip_set_set.
Qed.

(** Composition *)
Lemma compose_rep : forall S A B (l1 : lens S A) (l2 : lens A B),
  uniform l1 -> uniform l2 ->
  forall F m, lawful_functor F m -> forall f p,
    compose l1 l2 F m f p =
    m _ _ (fun b => set l1 p (set l2 (view l1 p) b)) (f (view l2 (view l1 p))).
Proof.
  intros S A B l1 l2 U1 U2 F m L f p. unfold compose.
  rewrite (U1 F m L), (U2 F m L). now rewrite (lf_comp _ _ L).
Qed.

Lemma compose_view_set : forall S A B (l1 : lens S A) (l2 : lens A B),
  uniform l1 -> uniform l2 ->
  (forall x, view (compose l1 l2) x = view l2 (view l1 x)) /\
  (forall x v, set (compose l1 l2) x v = set l1 x (set l2 (view l1 x) v)) /\
  uniform (compose l1 l2).
Proof.
  intros S A B l1 l2 U1 U2.
  destruct (uniform_of_rep _ _ _ _ _ (compose_rep _ _ _ l1 l2 U1 U2))
    as (Hv & Hs & _ & Hu).
  auto.
Qed.

Lemma compose_lawful : forall S A B (l1 : lens S A) (l2 : lens A B),
  lawful l1 -> lawful l2 -> lawful (compose l1 l2).
Proof.
  intros S A B l1 l2 L1 L2.
  eapply lawful_of_rep.
  - apply (compose_rep _ _ _ l1 l2 (law_uniform _ L1) (law_uniform _ L2)).
  - intros x v. cbv beta. now rewrite (law_put_get _ L1), (law_put_get _ L2).
  - intros x. cbv beta. now rewrite (law_get_put _ L2), (law_get_put _ L1).
  - intros x v w. cbv beta.
    now rewrite (law_put_get _ L1), (law_put_put _ L1), (law_put_put _ L2).
Qed.

Lemma compose_assoc : forall S A B C (l1 : lens S A) (l2 : lens A B) (l3 : lens B C),
  forall F m f p, compose (compose l1 l2) l3 F m f p = compose l1 (compose l2 l3) F m f p.
Proof. reflexivity. Qed.

(** Erasure *)
Lemma erase_same : forall S A (l : lens S A),
  (forall x, view (erase l) x = view l x) /\
  (forall x v, set (erase l) x v = set l x v) /\
  (forall x f, over (erase l) x f = set l x (f (view l x))) /\
  uniform (erase l).
Proof.
  intros S A l.
  apply (uniform_of_rep _ _ (erase l) (view l) (set l)).
  intros; reflexivity.
Qed.

Lemma erase_lawful : forall S A (l : lens S A),
  put_get l -> get_put l -> put_put l -> lawful (erase l).
Proof. intros. apply lawful_of_rep with (view l) (set l); auto. Qed.

(** fan *)
Lemma set_fold_indep_view : forall W A ps (l : lens W A) (ls : fan_pack W ps),
  indep_of_pack l ls -> forall w p, view l (set_fold ls w p) = view l w.
Proof.
  induction ls; simpl; intros H w p; auto.
  destruct H as [H Hr]. destruct H as (H1 & H2 & H3).
  rewrite H1. now apply IHls.
Qed.
Lemma fan_view_indep_set : forall W A ps (l : lens W A) (ls : fan_pack W ps),
  indep_of_pack l ls -> forall w a, fan_view ls (set l w a) = fan_view ls w.
Proof.
  induction ls; simpl; intros H w a; auto.
  destruct H as [H Hr]. destruct H as (H1 & H2 & H3).
  rewrite H2. now rewrite IHls.
Qed.
Lemma set_fold_indep_set : forall W A ps (l : lens W A) (ls : fan_pack W ps),
  indep_of_pack l ls -> forall w a p,
  set l (set_fold ls w p) a = set_fold ls (set l w a) p.
Proof.
  induction ls; simpl; intros H w a p; auto.
  destruct H as [H Hr]. destruct H as (H1 & H2 & H3).
  rewrite H3. now rewrite IHls.
Qed.
Lemma fan_view_set : forall W ps (ls : fan_pack W ps), fan_lawful ls ->
  forall w p, fan_view ls (set_fold ls w p) = p.
Proof.
  induction ls; simpl; intros H w p.
  - now destruct p.
  - destruct H as (Hl & Hi & Hr). destruct p as [p1 p2]; simpl.
    rewrite (law_put_get _ Hl). rewrite fan_view_indep_set by assumption.
    now rewrite IHls.
Qed.
Lemma fan_set_view : forall W ps (ls : fan_pack W ps), fan_lawful ls ->
  forall w, set_fold ls w (fan_view ls w) = w.
Proof.
  induction ls; simpl; intros H w; auto.
  destruct H as (Hl & Hi & Hr).
  rewrite IHls by assumption. apply (law_get_put _ Hl).
Qed.
Lemma fan_set_set : forall W ps (ls : fan_pack W ps), fan_lawful ls ->
  forall w p q, set_fold ls (set_fold ls w p) q = set_fold ls w q.
Proof.
  induction ls; simpl; intros H w p q; auto.
  destruct H as (Hl & Hi & Hr).
  rewrite <- (set_fold_indep_set _ _ _ l ls Hi).
  rewrite (law_put_put _ Hl). now rewrite IHls.
Qed.
Lemma fan_lawful_lens : forall W ps (ls : fan_pack W ps), fan_lawful ls ->
  lawful (fan ls).
Proof.
  intros W ps ls H. apply lawful_of_rep with (fan_view ls) (set_fold ls); auto.
  - now apply fan_view_set. - now apply fan_set_view. - now apply fan_set_set.
Qed.

(** Without independence, what is read back is what the earliest lens wrote:
    the head of the pack always reads back. *)
Lemma fan_head_wins : forall W P ps (l : lens W P) (r : fan_pack W ps), lawful l ->
  forall w p, view l (set (fan (FPcons l r)) w p) = fst p.
Proof.
  intros W P ps l r H w p.
  destruct (uniform_of_rep _ _ (fan (FPcons l r)) (fan_view (FPcons l r))
              (set_fold (FPcons l r)) (fun _ _ _ _ _ => eq_refl)) as (_ & Hs & _).
  rewrite Hs. simpl. apply (law_put_get _ H).
Qed.

(** ** at *)
Lemma at_with_api : forall W K A (at_ : W -> K -> option A) st k,
  (forall w, view (at_with at_ st k) w = at_ w k) /\
  (forall w p, set (at_with at_ st k) w p = st w p k) /\
  (forall w h, over (at_with at_ st k) w h = st w (h (at_ w k)) k) /\
  uniform (at_with at_ st k).
Proof.
  intros. apply (uniform_of_rep _ _ (at_with at_ st k) (fun w => at_ w k) (fun w p => st w p k)).
  intros; reflexivity.
Qed.
Lemma at_or_with_api : forall W K A (at_ : W -> K -> option A) st k d,
  (forall w, view (at_or_with at_ st k d) w = match at_ w k with Some v => v | None => d end) /\
  (forall w p, set (at_or_with at_ st k d) w p = st w p k) /\
  (forall w h, over (at_or_with at_ st k d) w h =
               st w (h (match at_ w k with Some v => v | None => d end)) k) /\
  uniform (at_or_with at_ st k d).
Proof.
  intros. apply (uniform_of_rep _ _ (at_or_with at_ st k d)
    (fun w => match at_ w k with Some v => v | None => d end) (fun w p => st w p k)).
  intros; reflexivity.
Qed.

Lemma vec_assign_some : forall A (w : list A) k v,
  (exists r, vec_assign w k v = Some r) <-> k < length w.
Proof.
  induction w as [|x w IH]; intros k v; simpl.
  - split; [intros [r H]; discriminate | intros H; inversion H].
  - destruct k as [|k].
    + split; [intros _; apply Nat.lt_0_succ | intros _; eauto].
    + specialize (IH k v). split.
      * intros [r H]. destruct (vec_assign w k v) eqn:E; [|discriminate].
        apply -> Nat.succ_lt_mono. apply IH; eauto.
      * intros H. apply Nat.succ_lt_mono in H. apply IH in H as [r H].
        rewrite H. eauto.
Qed.
Lemma vec_assign_spec : forall A (w : list A) k v r, vec_assign w k v = Some r ->
  length r = length w /\ nth_error r k = Some v /\
  (forall j, j <> k -> nth_error r j = nth_error w j).
Proof.
  induction w as [|x w IH]; intros k v r H; simpl in H; [discriminate|].
  destruct k as [|k].
  - inversion H; subst. simpl. repeat split; auto.
    intros [|j] Hj; [congruence|reflexivity].
  - destruct (vec_assign w k v) as [r'|] eqn:E; [|discriminate].
    inversion H; subst. apply IH in E as (H1 & H2 & H3). simpl.
    repeat split; auto. intros [|j] Hj; simpl; auto.
Qed.
Lemma vec_assign_none : forall A (w : list A) k v, vec_assign w k v = None ->
  nth_error w k = None.
Proof.
  intros A w k v H. apply nth_error_None.
  destruct (Nat.lt_ge_cases k (length w)) as [L|L]; auto.
  apply (vec_assign_some A w k v) in L as [r Hr]. congruence.
Qed.

Lemma nth_error_ext : forall A (l1 l2 : list A),
  (forall j, nth_error l1 j = nth_error l2 j) -> l1 = l2.
Proof.
  induction l1 as [|x l1 IH]; intros [|y l2] H; auto.
  - specialize (H 0); discriminate.
  - specialize (H 0); discriminate.
  - f_equal.
    + specialize (H 0). simpl in H. congruence.
    + apply IH. intros j. apply (H (S j)).
Qed.

(** Setting a vector slot, as one function. *)
Lemma at_vector_set_nth : forall A k (w : list A) p j,
  nth_error (set (at_vector k) w p) j =
  if j =? k then (match nth_error w k, p with
                  | Some _, Some v => Some v
                  | x, _ => x
                  end)
  else nth_error w j.
Proof.
  intros A k w p j. unfold at_vector.
  destruct (at_with_api _ _ _ (@vec_at A) (at_setter_mutable vec_assign) k) as (_ & Hs & _).
  rewrite Hs. unfold at_setter_mutable.
  destruct (Nat.eqb_spec j k) as [->|N].
  - destruct p as [v|].
    + destruct (vec_assign w k v) as [r|] eqn:E.
      * pose proof (vec_assign_spec _ _ _ _ _ E) as (H1 & H2 & H3). rewrite H2.
        destruct (nth_error w k) eqn:E2; auto.
        apply nth_error_None in E2. assert (exists r, vec_assign w k v = Some r) by eauto.
        apply vec_assign_some in H. exfalso. apply (Nat.lt_irrefl (length w)).
        eapply Nat.le_lt_trans; eauto.
      * apply vec_assign_none in E. now rewrite E.
    + destruct (nth_error w k); auto.
  - destruct p as [v|]; auto. destruct (vec_assign w k v) as [r|] eqn:E; auto.
    apply vec_assign_spec in E as (_ & _ & H3). now apply H3.
Qed.
Lemma at_vector_set_length : forall A k (w : list A) p,
  length (set (at_vector k) w p) = length w.
Proof.
  intros A k w p. unfold at_vector.
  destruct (at_with_api _ _ _ (@vec_at A) (at_setter_mutable vec_assign) k) as (_ & Hs & _).
  rewrite Hs. unfold at_setter_mutable.
  destruct p as [v|]; auto. destruct (vec_assign w k v) as [r|] eqn:E; auto.
  now apply vec_assign_spec in E as (-> & _).
Qed.

(** The two setter implementations for vectors agree. *)
Lemma at_immer_vector_same : forall A k (w : list A),
  view (at_immer_vector k) w = view (at_vector k) w /\
  forall p, set (at_immer_vector k) w p = set (at_vector k) w p.
Proof.
  intros A k w. unfold at_vector, at_immer_vector.
  destruct (at_with_api _ _ _ (@vec_at A) (at_setter_mutable vec_assign) k) as (Hv & Hs & _).
  destruct (at_with_api _ _ _ (@vec_at A) (at_setter_immer vec_at vec_set) k) as (Hv' & Hs' & _).
  split; [now rewrite Hv, Hv'|]. intros p. rewrite Hs, Hs'.
  unfold at_setter_mutable, at_setter_immer, vec_set, vec_at.
  destruct p as [v|]; auto. destruct (nth_error w k) eqn:E; auto.
  destruct (vec_assign w k v) eqn:E2; auto.
  assert (exists r, vec_assign w k v = Some r) by eauto.
  apply vec_assign_some in H. apply nth_error_None in E.
  exfalso. apply (Nat.lt_irrefl (length w)). eapply Nat.le_lt_trans; eauto.
Qed.

Lemma view_at_vector : forall A k (w : list A), view (at_vector k) w = nth_error w k.
Proof. reflexivity. Qed.

Lemma at_vector_put_get : forall A k (w : list A) v, k < length w ->
  view (at_vector k) (set (at_vector k) w (Some v)) = Some v.
Proof.
  intros A k w v H. rewrite view_at_vector, at_vector_set_nth, Nat.eqb_refl.
  destruct (nth_error w k) eqn:E; auto.
  apply nth_error_None in E. exfalso. apply (Nat.lt_irrefl (length w)).
  eapply Nat.le_lt_trans; eauto.
Qed.
Lemma at_vector_absent : forall A k (w : list A) p, length w <= k ->
  set (at_vector k) w p = w.
Proof.
  intros A k w p H. apply nth_error_ext. intros j. rewrite at_vector_set_nth.
  destruct (Nat.eqb_spec j k) as [->|]; auto.
  apply nth_error_None in H. now rewrite H.
Qed.
Lemma at_vector_set_none : forall A k (w : list A), set (at_vector k) w None = w.
Proof.
  intros A k w. apply nth_error_ext. intros j. rewrite at_vector_set_nth.
  destruct (Nat.eqb_spec j k) as [->|]; auto. destruct (nth_error w k); auto.
Qed.
Lemma at_vector_get_put : forall A k, get_put (@at_vector A k).
Proof.
  intros A k w. apply nth_error_ext. intros j. rewrite at_vector_set_nth, view_at_vector.
  destruct (Nat.eqb_spec j k) as [->|]; auto. destruct (nth_error w k); auto.
Qed.
Lemma at_vector_put_put : forall A k (w : list A) v u,
  set (at_vector k) (set (at_vector k) w v) (Some u) = set (at_vector k) w (Some u).
Proof.
  intros A k w v u. apply nth_error_ext. intros j. rewrite !at_vector_set_nth.
  destruct (Nat.eqb_spec j k) as [->|]; auto. rewrite Nat.eqb_refl.
  destruct (nth_error w k), v; auto.
Qed.

(** Maps *)
Section Maps.
  Variables (K A : Type) (eqk : K -> K -> bool).
  Hypothesis eqk_spec : forall a b, eqk a b = true <-> a = b.

  Lemma eqk_refl : forall a, eqk a a = true.
  Proof. intros; now apply eqk_spec. Qed.
  Lemma eqk_neq : forall a b, a <> b -> eqk a b = false.
  Proof.
    intros a b H. destruct (eqk a b) eqn:E; auto. apply eqk_spec in E; congruence.
  Qed.

  Lemma amap_assign_spec : forall (w : list (K * A)) k v r,
    amap_assign eqk w k v = Some r ->
    map fst r = map fst w /\ amap_at eqk r k = Some v /\
    (exists o, amap_at eqk w k = Some o) /\
    (forall j, j <> k -> amap_at eqk r j = amap_at eqk w j).
  Proof.
    induction w as [|[k' a] w IH]; intros k v r H; simpl in H; [discriminate|].
    destruct (eqk k k') eqn:E.
    - inversion H; subst. apply eqk_spec in E as ->. simpl. rewrite eqk_refl.
      repeat split; eauto. intros j Hj. now rewrite eqk_neq.
    - destruct (amap_assign eqk w k v) as [r'|] eqn:E2; [|discriminate].
      inversion H; subst. apply IH in E2 as (H1 & H2 & H3 & H4). simpl.
      rewrite E, H1. repeat split; auto.
      intros j Hj. destruct (eqk j k'); auto.
  Qed.
  Lemma amap_assign_none : forall (w : list (K * A)) k v,
    amap_assign eqk w k v = None -> amap_at eqk w k = None.
  Proof.
    induction w as [|[k' a] w IH]; intros k v H; simpl in *; auto.
    destruct (eqk k k'); [discriminate|].
    destruct (amap_assign eqk w k v) eqn:E; [discriminate|]. eauto.
  Qed.
  Lemma amap_assign_id : forall (w : list (K * A)) k a,
    amap_at eqk w k = Some a -> amap_assign eqk w k a = Some w.
  Proof.
    induction w as [|[k' b] w IH]; intros k a H; simpl in *; [discriminate|].
    destruct (eqk k k') eqn:E.
    - inversion H; now subst.
    - now rewrite IH.
  Qed.
  Lemma amap_assign_twice : forall (w : list (K * A)) k a b r,
    amap_assign eqk w k a = Some r ->
    amap_assign eqk r k b = amap_assign eqk w k b.
  Proof.
    induction w as [|[k' c] w IH]; intros k a b r H; simpl in *; [discriminate|].
    destruct (eqk k k') eqn:E.
    - inversion H; subst. simpl. now rewrite E.
    - destruct (amap_assign eqk w k a) eqn:E2; [|discriminate].
      inversion H; subst. simpl. rewrite E. now rewrite (IH k a b l).
  Qed.

  Lemma at_map_view : forall k (w : list (K * A)),
    view (at_map eqk k) w = amap_at eqk w k.
  Proof. reflexivity. Qed.
  Lemma at_map_set : forall k (w : list (K * A)) p,
    set (at_map eqk k) w p = at_setter_mutable (amap_assign eqk) w p k.
  Proof. reflexivity. Qed.
  Lemma at_immer_map_same : forall k (w : list (K * A)),
    view (at_immer_map eqk k) w = view (at_map eqk k) w /\
    forall p, set (at_immer_map eqk k) w p = set (at_map eqk k) w p.
  Proof.
    intros k w. split; [reflexivity|]. intros p.
    rewrite at_map_set.
    change (set (at_immer_map eqk k) w p)
      with (at_setter_immer (amap_at eqk) (amap_set eqk) w p k).
    unfold at_setter_immer, at_setter_mutable, amap_set.
    destruct p as [v|]; auto.
    destruct (amap_assign eqk w k v) as [r|] eqn:E.
    - apply amap_assign_spec in E as (_ & _ & [o ->] & _). reflexivity.
    - now rewrite (amap_assign_none _ _ _ E).
  Qed.

  Lemma at_map_keys : forall k (w : list (K * A)) p,
    map fst (set (at_map eqk k) w p) = map fst w.
  Proof.
    intros k w p. rewrite at_map_set. unfold at_setter_mutable.
    destruct p as [v|]; auto. destruct (amap_assign eqk w k v) eqn:E; auto.
    now apply amap_assign_spec in E as (-> & _).
  Qed.
  Lemma at_map_other : forall k (w : list (K * A)) p j, j <> k ->
    view (at_map eqk j) (set (at_map eqk k) w p) = view (at_map eqk j) w.
  Proof.
    intros k w p j N. rewrite !at_map_view, at_map_set. unfold at_setter_mutable.
    destruct p as [v|]; auto. destruct (amap_assign eqk w k v) eqn:E; auto.
    apply amap_assign_spec in E as (_ & _ & _ & H). now apply H.
  Qed.
  Lemma at_map_put_get : forall k (w : list (K * A)) v,
    view (at_map eqk k) w <> None ->
    view (at_map eqk k) (set (at_map eqk k) w (Some v)) = Some v.
  Proof.
    intros k w v N. rewrite at_map_view in N. rewrite at_map_view, at_map_set.
    unfold at_setter_mutable. destruct (amap_assign eqk w k v) eqn:E.
    - now apply amap_assign_spec in E as (_ & -> & _).
    - apply amap_assign_none in E. congruence.
  Qed.
  Lemma at_map_absent : forall k (w : list (K * A)) p,
    view (at_map eqk k) w = None -> set (at_map eqk k) w p = w.
  Proof.
    intros k w p N. rewrite at_map_view in N. rewrite at_map_set.
    unfold at_setter_mutable. destruct p as [v|]; auto.
    destruct (amap_assign eqk w k v) eqn:E; auto.
    apply amap_assign_spec in E as (_ & _ & [o Ho] & _). congruence.
  Qed.
  Lemma at_map_get_put : forall k, get_put (@at_map K A eqk k).
  Proof.
    intros k w. rewrite at_map_view, at_map_set. unfold at_setter_mutable.
    destruct (amap_at eqk w k) as [a|] eqn:E; auto.
    now rewrite (amap_assign_id _ _ _ E).
  Qed.
  Lemma at_map_put_put : forall k (w : list (K * A)) v u,
    set (at_map eqk k) (set (at_map eqk k) w v) (Some u) = set (at_map eqk k) w (Some u).
  Proof.
    intros k w v u. rewrite !at_map_set. unfold at_setter_mutable.
    destruct v as [v|]; auto. destruct (amap_assign eqk w k v) as [r|] eqn:E; auto.
    rewrite (amap_assign_twice _ _ _ u _ E).
    destruct (amap_assign eqk w k u) eqn:E2; auto.
    apply amap_assign_none in E2. apply amap_assign_spec in E as (_ & _ & [o Ho] & _).
    congruence.
  Qed.
End Maps.

(** ** alternative *)
Lemma vget_vmake : forall ts T (i : idx ts T) x, vget i (vmake i x) = Some x.
Proof. induction i; simpl; auto. Qed.
Lemma vmake_vget : forall ts T (i : idx ts T) v x, vget i v = Some x -> vmake i x = v.
Proof.
  induction i; simpl; intros v x H; destruct v; try discriminate.
  - now inversion H.
  - f_equal. now apply IHi.
Qed.
Lemma vget_vmake_other : forall ts T U (i : idx ts T) (j : idx ts U) x y v,
  vget i v = Some x -> (vget j v = None -> vget j (vmake i y) = None).
Proof.
  induction i; intros j x y v H.
  - revert v x y H. refine (match j in idx ts0 U0 return
      match ts0 as t return idx t U0 -> Prop with
      | [] => fun _ => True
      | T0 :: ts1 => fun j => forall (v : variant (T0 :: ts1)) (x y : T0),
          vget IZ v = Some x -> vget j v = None -> vget j (vmake IZ y) = None
      end j with IZ => _ | IS j' => _ end).
    + intros [v|v] x y H H2; simpl in *; discriminate.
    + intros [v|v] x y H H2; simpl in *; auto.
  - revert i IHi v x y H. refine (match j in idx ts0 U0 return
      match ts0 as t return idx t U0 -> Prop with
      | [] => fun _ => True
      | T0 :: ts1 => fun j => forall (i : idx ts1 T)
          (IHi : forall (j0 : idx ts1 U0) x y v, vget i v = Some x ->
              vget j0 v = None -> vget j0 (vmake i y) = None)
          (v : variant (T0 :: ts1)) (x y : T),
          vget (IS i) v = Some x -> vget j v = None -> vget j (vmake (IS i) y) = None
      end j with IZ => _ | IS j' => _ end).
    + intros i IHi [v|v] x y H H2; simpl in *; auto; discriminate.
    + intros i IHi [v|v] x y H H2; simpl in *; try discriminate. eauto.
Qed.

Lemma alternative_api : forall ts T (i : idx ts T),
  (forall v, view (alternative i) v = vget i v) /\
  (forall v p, set (alternative i) v p =
     match p, vget i v with Some x, Some _ => vmake i x | _, _ => v end) /\
  uniform (alternative i).
Proof.
  intros. destruct (uniform_of_rep _ _ (alternative i) (vget i)
    (fun v p => match p, vget i v with Some x, Some _ => vmake i x | _, _ => v end))
    as (H1 & H2 & _ & H3); auto.
Qed.

(** ** Optionals *)
Lemma map_opt_uniform : forall W P (l : lens W P), uniform (map_opt l).
Proof.
  intros W P l F m L f [w|]; simpl; apply (lf_ext _ _ L); intros [x|]; reflexivity.
Qed.
Lemma bind_opt_uniform : forall W P (l : lens W (option P)), uniform (bind_opt l).
Proof.
  intros W P l F m L f [w|]; simpl; apply (lf_ext _ _ L); intros [x|]; reflexivity.
Qed.

(** ** at_or in terms of at, and the no-exceptions configuration *)
Lemma at_or_vector_at : forall A k (d : A) (w : list A),
  view (at_or_vector k d) w = match view (at_vector k) w with Some v => v | None => d end /\
  forall v, set (at_or_vector k d) w v = set (at_vector k) w (Some v).
Proof. intros; split; reflexivity. Qed.
Lemma at_or_immer_vector_at : forall A k (d : A) (w : list A),
  view (at_or_immer_vector k d) w = match view (at_vector k) w with Some v => v | None => d end /\
  forall v, set (at_or_immer_vector k d) w v = set (at_vector k) w (Some v).
Proof.
  intros; split; [reflexivity|]. intros v.
  destruct (at_immer_vector_same A k w) as [_ H]. rewrite <- H. reflexivity.
Qed.

Lemma find_amap : forall K A (eqk : K -> K -> bool) (w : list (K * A)) k,
  amap_count eqk w k = match amap_at eqk w k with Some _ => true | None => false end.
Proof.
  induction w as [|[k' a] w IH]; intros k; simpl; auto.
  destruct (eqk k k'); simpl; auto.
Qed.
Lemma vec_has_at : forall A (w : list A) k,
  vec_has w k = match vec_at w k with Some _ => true | None => false end.
Proof.
  intros A w k. unfold vec_has, vec_at. destruct (Nat.ltb_spec k (length w)) as [H|H].
  - destruct (nth_error w k) eqn:E; auto. apply nth_error_None in E.
    exfalso; apply (Nat.lt_irrefl k); eapply Nat.lt_le_trans; eauto.
  - apply nth_error_None in H. now rewrite H.
Qed.

Lemma noexc_vector : forall A (w : list A) k p,
  noexc_view vec_has vec_at w k = Some (view (at_vector k) w) /\
  noexc_set_mutable vec_has vec_assign w p k = Some (set (at_vector k) w p) /\
  noexc_set_immer vec_has vec_at vec_set w p k = Some (set (at_immer_vector k) w p).
Proof.
  intros A w k p.
  change (view (at_vector k) w) with (vec_at w k).
  change (set (at_vector k) w p) with (at_setter_mutable vec_assign w p k).
  change (set (at_immer_vector k) w p) with (at_setter_immer vec_at vec_set w p k).
  unfold noexc_view, noexc_set_mutable, noexc_set_immer, at_setter_mutable, at_setter_immer.
  rewrite vec_has_at. unfold vec_at. destruct (nth_error w k) as [a|] eqn:E.
  - repeat split; destruct p as [v|]; auto.
    destruct (vec_assign w k v) eqn:E2; auto.
    apply vec_assign_none in E2. congruence.
  - repeat split; destruct p as [v|]; auto.
    destruct (vec_assign w k v) eqn:E2; auto.
    assert (X : exists r, vec_assign w k v = Some r) by eauto.
    apply vec_assign_some in X. apply nth_error_None in E.
    exfalso; apply (Nat.lt_irrefl k); eapply Nat.lt_le_trans; eauto.
Qed.

Section Maps2.
  Variables (K A : Type) (eqk : K -> K -> bool).
  Hypothesis eqk_spec : forall a b, eqk a b = true <-> a = b.

  Lemma noexc_map : forall (w : list (K * A)) k p,
    noexc_view (amap_count eqk) (amap_at eqk) w k = Some (view (at_map eqk k) w) /\
    noexc_set_mutable (amap_count eqk) (amap_assign eqk) w p k = Some (set (at_map eqk k) w p) /\
    noexc_set_immer (amap_count eqk) (amap_at eqk) (amap_set eqk) w p k
      = Some (set (at_immer_map eqk k) w p).
  Proof.
    intros w k p.
    change (view (at_map eqk k) w) with (amap_at eqk w k).
    change (set (at_map eqk k) w p) with (at_setter_mutable (amap_assign eqk) w p k).
    change (set (at_immer_map eqk k) w p)
      with (at_setter_immer (amap_at eqk) (amap_set eqk) w p k).
    unfold noexc_view, noexc_set_mutable, noexc_set_immer, at_setter_mutable, at_setter_immer.
    rewrite find_amap. destruct (amap_at eqk w k) as [a|] eqn:E.
    - repeat split; destruct p as [v|]; auto.
      destruct (amap_assign eqk w k v) eqn:E2; auto.
      apply amap_assign_none in E2. congruence.
    - repeat split; destruct p as [v|]; auto.
      destruct (amap_assign eqk w k v) eqn:E2; auto.
      apply (amap_assign_spec _ _ _ eqk_spec) in E2 as (_ & _ & [o Ho] & _). congruence.
  Qed.

  Lemma amap_at_none_iff : forall (w : list (K * A)) k,
    amap_at eqk w k = None <-> ~ In k (map fst w).
  Proof.
    induction w as [|[k' a] w IH]; intros k; simpl; [tauto|].
    destruct (eqk k k') eqn:E.
    - apply eqk_spec in E as ->. split; [discriminate|intros H; exfalso; auto].
    - assert (k' <> k) by (intros ->; rewrite (proj2 (eqk_spec k k) eq_refl) in E; discriminate).
      rewrite IH. tauto.
  Qed.
  Lemma amap_at_some_in : forall (w : list (K * A)) k a,
    amap_at eqk w k = Some a -> In (k, a) w.
  Proof.
    induction w as [|[k' b] w IH]; intros k a H; simpl in *; [discriminate|].
    destruct (eqk k k') eqn:E; auto.
    apply eqk_spec in E as ->. inversion H; auto.
  Qed.
  Lemma amap_in_at : forall (w : list (K * A)) k a, NoDup (map fst w) ->
    In (k, a) w -> amap_at eqk w k = Some a.
  Proof.
    induction w as [|[k' b] w IH]; intros k a ND H; simpl in *; [tauto|].
    inversion ND as [|x l Hx Hl]; subst.
    destruct H as [H|H].
    - inversion H; subst. now rewrite (proj2 (eqk_spec k k) eq_refl).
    - destruct (eqk k k') eqn:E; auto. apply eqk_spec in E as ->.
      exfalso. apply Hx. change k' with (fst (k', a)). now apply in_map.
  Qed.

  Lemma at_or_map_at : forall k (d : A) (w : list (K * A)),
    view (at_or_map eqk k d) w = match view (at_map eqk k) w with Some v => v | None => d end /\
    forall v, set (at_or_map eqk k d) w v = set (at_map eqk k) w (Some v).
  Proof. intros; split; reflexivity. Qed.
  Lemma at_or_immer_map_at : forall k (d : A) (w : list (K * A)),
    view (at_or_immer_map eqk k d) w = match view (at_map eqk k) w with Some v => v | None => d end /\
    forall v, set (at_or_immer_map eqk k d) w v = set (at_map eqk k) w (Some v).
  Proof.
    intros; split; [reflexivity|]. intros v.
    destruct (at_immer_map_same _ _ _ eqk_spec k w) as [_ H]. rewrite <- H. reflexivity.
  Qed.

  (** immer::table *)
  Variable idof : A -> K.
  Lemma table_insert_present : forall (w : list A) v,
    In (idof v) (map idof w) ->
    map idof (table_insert eqk idof w v) = map idof w.
  Proof.
    induction w as [|a w IH]; intros v H; simpl in *; [tauto|].
    destruct (eqk (idof v) (idof a)) eqn:E.
    - apply eqk_spec in E. simpl. now rewrite E.
    - simpl. f_equal. apply IH. destruct H as [H|H]; auto.
      rewrite (proj2 (eqk_spec _ _) (eq_sym H)) in E. discriminate.
  Qed.
  Lemma table_insert_get : forall (w : list A) v,
    table_at eqk idof (table_insert eqk idof w v) (idof v) = Some v.
  Proof.
    unfold table_at. induction w as [|a w IH]; intros v; simpl.
    - now rewrite (proj2 (eqk_spec _ _) eq_refl).
    - destruct (eqk (idof v) (idof a)) eqn:E; simpl.
      + now rewrite (proj2 (eqk_spec _ _) eq_refl).
      + now rewrite E.
  Qed.
  Lemma table_insert_other : forall (w : list A) v k, k <> idof v ->
    table_at eqk idof (table_insert eqk idof w v) k = table_at eqk idof w k.
  Proof.
    unfold table_at. induction w as [|a w IH]; intros v k N; simpl.
    - destruct (eqk k (idof v)) eqn:E; auto. apply eqk_spec in E. congruence.
    - destruct (eqk (idof v) (idof a)) eqn:E; simpl.
      + apply eqk_spec in E. rewrite <- E.
        destruct (eqk k (idof v)) eqn:E2; auto. apply eqk_spec in E2. congruence.
      + destruct (eqk k (idof a)) eqn:E2; auto.
  Qed.
End Maps2.

Lemma independent_sym : forall W A B (l1 : lens W A) (l2 : lens W B),
  independent l1 l2 -> independent l2 l1.
Proof. intros W A B l1 l2 (H1 & H2 & H3). repeat split; auto. Qed.

Lemma map_opt_laws : forall W P (l : lens W P), lawful l ->
  (forall w v, view (map_opt l) (set (map_opt l) (Some w) (Some v)) = Some v) /\
  get_put (map_opt l) /\
  (forall w v u, set (map_opt l) (set (map_opt l) w v) (Some u) = set (map_opt l) w (Some u)) /\
  over_law (map_opt l).
Proof.
  intros W P l H. repeat split.
  - intros w v. unfold set, view; simpl. unfold identity_map, const_map. simpl.
    f_equal. apply (law_put_get _ H).
  - intros [w|]; [|reflexivity].
    change (Some (set l w (view l w)) = Some w). f_equal. apply (law_get_put _ H).
  - intros [w|] [v|] u; try reflexivity.
    change (Some (set l (set l w v) u) = Some (set l w u)). f_equal. apply (law_put_put _ H).
  - apply uniform_over, map_opt_uniform.
Qed.

(** bind_opt of a lens with optional part, e.g. [at]: the laws it needs from
    the inner lens are only the ones [at] has. *)
Lemma bind_opt_laws : forall W P (l : lens W (option P)),
  get_put l ->
  (forall w v u, set l (set l w v) (Some u) = set l w (Some u)) ->
  get_put (bind_opt l) /\
  (forall w v u, set (bind_opt l) (set (bind_opt l) w v) (Some u) = set (bind_opt l) w (Some u)) /\
  (forall w v, view l (set l w (Some v)) = Some v ->
     view (bind_opt l) (set (bind_opt l) (Some w) (Some v)) = Some v) /\
  over_law (bind_opt l).
Proof.
  intros W P l H1 H2. repeat split.
  - intros [w|]; [|reflexivity].
    change (match view l w with Some v => Some (set l w (Some v)) | None => Some w end = Some w).
    destruct (view l w) eqn:E; auto. rewrite <- E. f_equal. apply H1.
  - intros [w|] [v|] u; try reflexivity.
    change (Some (set l (set l w (Some v)) (Some u)) = Some (set l w (Some u))).
    f_equal. apply H2.
  - intros w v H. exact H.
  - apply uniform_over, bind_opt_uniform.
Qed.

Lemma value_or_uniform : forall A (t : A), uniform (value_or t).
Proof. intros A t F m L f p. apply (lf_ext _ _ L). reflexivity. Qed.
Lemma force_opt_uniform : forall A, uniform (@force_opt A).
Proof. intros A F m L f p. apply (lf_ext _ _ L). intros [x|]; reflexivity. Qed.

Lemma alternative_props : forall ts T (i : idx ts T) (w : variant ts),
  (forall x, view (alternative i) w = Some x <-> w = vmake i x) /\
  (forall p U (j : idx ts U),
     view (alternative j) (set (alternative i) w p) = None <-> view (alternative j) w = None) /\
  (forall p, view (alternative i) w = None -> set (alternative i) w p = w) /\
  (set (alternative i) w None = w) /\
  (forall x, view (alternative i) w <> None ->
     view (alternative i) (set (alternative i) w (Some x)) = Some x) /\
  (set (alternative i) w (view (alternative i) w) = w).
Proof.
  intros ts T i w. destruct (alternative_api ts T i) as (Hv & Hs & _).
  split; [|split; [|split; [|split; [|split]]]].
  - intros x. rewrite Hv. split.
    + intros H. symmetry. now apply vmake_vget.
    + intros ->. apply vget_vmake.
  - intros p U j. destruct (alternative_api ts U j) as (Hvj & _ & _).
    rewrite !Hvj, Hs. destruct p as [y|]; [|tauto].
    destruct (vget i w) as [x|] eqn:E; [|tauto].
    split.
    + intros H. rewrite <- (vmake_vget _ _ _ _ _ E).
      apply (vget_vmake_other _ _ _ i j y x (vmake i y)); auto. apply vget_vmake.
    + eapply vget_vmake_other; eauto.
  - intros p. rewrite Hv, Hs. intros ->. now destruct p.
  - now rewrite Hs.
  - intros x. rewrite !Hv, Hs. destruct (vget i w); [|congruence].
    intros _. apply vget_vmake.
  - rewrite Hs, Hv. destruct (vget i w) eqn:E; auto. now apply vmake_vget.
Qed.

Fixpoint builtin_lawful_aux S A (l : lens S A) (H : builtin S A l) {struct H} : lawful l :=
  match H in builtin S A l return lawful l with
  | B_attr W A mb Hm => attr_lawful W A mb Hm
  | B_element ts T i => element_lawful ts T i
  | B_unbox A => unbox_lawful A
  | B_getset W A g s H1 H2 H3 => getset_lawful W A g s H1 H2 H3
  | B_id W => id_lens_lawful W
  | B_zip ws ps ls Hp => zip_lawful ws ps ls (builtin_pack_lawful_aux ws ps ls Hp)
  | B_comp W A B l1 l2 H1 H2 =>
      compose_lawful W A B l1 l2 (builtin_lawful_aux _ _ _ H1) (builtin_lawful_aux _ _ _ H2)
  | B_erase W A l H1 =>
      let L := builtin_lawful_aux _ _ _ H1 in
      erase_lawful W A l (law_put_get _ L) (law_get_put _ L) (law_put_put _ L)
  end
with builtin_pack_lawful_aux ws ps (ls : lens_pack ws ps) (H : builtin_pack ws ps ls)
  {struct H} : pack_lawful ls :=
  match H in builtin_pack ws ps ls return pack_lawful ls with
  | BP_nil => I
  | BP_cons W P ws ps l r H1 H2 =>
      conj (builtin_lawful_aux _ _ _ H1) (builtin_pack_lawful_aux _ _ _ H2)
  end.


Lemma pair_fst_member_ok : forall X Y,
  member_ok (Member fst (fun (s : X * Y) (a : X) => (a, snd s))).
Proof. intros X Y; split; intros; simpl; auto. now destruct s. Qed.

Lemma fan_overlap_witness : exists (l : lens (nat * nat) nat), lawful l /\
  ~ put_get (fan (FPcons l (FPcons l FPnil))).
Proof.
  exists (attr (Member fst (fun s a => (a, snd s)))). split.
  - apply attr_lawful, pair_fst_member_ok.
  - intros H. specialize (H (0, 0) (1, (2, tt))). discriminate H.
Qed.
Lemma at_absent_witness : exists (w : list nat) k v,
  view (at_vector k) (set (at_vector k) w (Some v)) <> Some v.
Proof. exists [], 0, 1. discriminate. Qed.
Lemma at_vector_other : forall A k (w : list A) p j, j <> k ->
  nth_error (set (at_vector k) w p) j = nth_error w j.
Proof.
  intros A k w p j N. rewrite at_vector_set_nth.
  now rewrite (proj2 (Nat.eqb_neq j k) N).
Qed.
Lemma table_shape_witness : exists (w : list (nat * nat)) (k : nat) (v : nat * nat),
  length (set (at_immer_table Nat.eqb fst k) w (Some v)) <> length w.
Proof. exists [], 0, (0, 0). discriminate. Qed.
Lemma value_or_get_put_witness : forall A (t : A),
  set (value_or t) None (view (value_or t) None) <> None.
Proof. discriminate. Qed.
