(** Proofs: which conversions of bags of dependencies compile, and which throw. *)
From Coq Require Import List Bool Arith.
From Verif Require Import DepsModel DepsSpec DepsProofs.
Import ListNotations.

Section Proofs.
Context {ty : Type} (ty_dec : forall a b : ty, {a = b} + {a <> b}).
Context {V L W : Type} (deref : W -> L -> V).
Notation spec := (spec ty).
Notation sty := (sty ty).
Notation stor := (stor V L W).
Notation bag := (list (spec * stor)).
Notation implicit := (@implicit ty ty_dec V L W).
Notation extract := (extract ty_dec deref).
Notation lookup := (lookup ty_dec).
Notation convert := (convert ty_dec deref).

Lemma becomes_iff : forall dst src, becomes src dst <-> implicit dst src <> None.
Proof.
  induction dst as [t|t|d IH|d IH]; intros src; rewrite implicit_eq;
    destruct (sty_eqb ty_dec src _) eqn:E;
    try (apply (sty_eqb_iff ty_dec) in E; subst src; split; [discriminate|constructor]).
  - split; [|congruence]. intros H. inversion H; subst. rewrite (proj2 (sty_eqb_iff ty_dec _ _) eq_refl) in E. discriminate.
  - split; [|congruence]. intros H. inversion H; subst. rewrite (proj2 (sty_eqb_iff ty_dec _ _) eq_refl) in E. discriminate.
  - split.
    + intros H. inversion H as [|s' d' B|s' d' B|]; subst.
      * rewrite (proj2 (sty_eqb_iff ty_dec _ _) eq_refl) in E. discriminate.
      * apply IH in B. destruct (implicit d src); [discriminate|congruence].
      * apply IH in B. destruct (implicit d (TOpt s')); [discriminate|].
        destruct (implicit d s'); [discriminate|congruence].
    + destruct (implicit d src) eqn:Q; [intros _; apply B_put, IH; congruence|].
      destruct src as [t|t|s|s]; try congruence.
      destruct (implicit d s) eqn:Q'; [|congruence]. intros _. apply B_opt, IH. congruence.
  - split.
    + intros H. inversion H as [| | |s' d' B]; subst.
      * rewrite (proj2 (sty_eqb_iff ty_dec _ _) eq_refl) in E. discriminate.
      * apply IH in B. destruct (implicit d s'); [discriminate|congruence].
    + destruct src as [t|t|s|s]; try congruence.
      destruct (implicit d s) eqn:Q'; [|congruence]. intros _. apply B_fn, IH. congruence.
Qed.
Lemma calling_iff : forall dst src, calling src dst <-> from_function ty_dec deref dst src <> None.
Proof.
  intros dst src. split.
  - intros H. inversion H; subst; cbn; rewrite (eqb_refl ty_dec); discriminate.
  - destruct dst as [t|t|d|d]; cbn; try congruence; destruct src as [u|u|s|[u|u|u|u]]; try congruence;
      destruct (ty_eqb ty_dec t u) eqn:E; try congruence; apply (eqb_iff ty_dec) in E; subst; constructor.
Qed.
Lemma required_iff : forall d : spec, required d = true <-> ~ optional d.
Proof.
  intros d. rewrite optional_iff. destruct (required d); split; congruence.
Qed.
Lemma optional_blank : forall d : spec, optional d -> exists y : stor, blank (storage d) = Some y.
Proof. intros d H. induction H; cbn; eauto. Qed.

(** The outcome for one specification, from what is found. *)
Lemma extract_from_rejected : forall w d (b : bag) (found : ty -> spec -> stor -> Prop),
  (forall s x, lookup (key_of d) b = Some (s, x) <-> found (key_of d) s x) ->
  extract_from ty_dec deref w d b = Rejected <-> ~ available found d.
Proof.
  intros w d b found Fd. unfold extract_from, available.
  destruct (required d) eqn:R.
  - assert (R' := R). apply required_iff in R'.
    destruct (lookup (key_of d) b) as [[s x]|] eqn:E.
    + assert (U : forall s' x', found (key_of d) s' x' -> s' = s /\ x' = x).
      { intros s' x' H. apply Fd in H. split; congruence. }
      unfold DepsModel.extract. destruct (implicit (storage d) (storage s)) as [c|] eqn:I.
      * split; [discriminate|]. intros N. exfalso. apply N. split; [|intros; contradiction].
        intros _. exists s, x. split; [apply Fd; reflexivity|]. left. apply becomes_iff. congruence.
      * destruct (from_function ty_dec deref (storage d) (storage s)) as [c|] eqn:F.
        -- split; [destruct (c w x); discriminate|]. intros N. exfalso. apply N. split; [|intros; contradiction].
           intros _. exists s, x. split; [apply Fd; reflexivity|]. right. apply calling_iff. congruence.
        -- split; [|reflexivity]. intros _ [H _]. destruct (H R') as (s' & x' & Fs & [B|C]);
             destruct (U _ _ Fs) as [-> ->].
           ++ apply becomes_iff in B. contradiction.
           ++ apply calling_iff in C. contradiction.
    + split; [|reflexivity]. intros _ [H _]. destruct (H R') as (s' & x' & Fs & _). apply Fd in Fs. discriminate.
  - assert (R' := R). apply optional_iff in R'.
    destruct (lookup (key_of d) b) as [[s x]|] eqn:E.
    + destruct (implicit (storage d) (storage s)) as [c|] eqn:I.
      * split; [discriminate|]. intros N. exfalso. apply N. split; [intros; contradiction|].
        intros _ s' x' H. apply Fd in H. injection H as <- <-. apply becomes_iff. congruence.
      * split; [|reflexivity]. intros _ [_ H]. apply (H R' s x) in E || specialize (H R' s x (proj1 (Fd s x) eq_refl)).
        apply becomes_iff in H. contradiction.
    + destruct (optional_blank d R') as (y & ->). split; [discriminate|]. intros N. exfalso. apply N.
      split; [intros; contradiction|]. intros _ s x H. apply Fd in H. discriminate.
Qed.
Lemma extract_from_thrown : forall w d (b : bag) (found : ty -> spec -> stor -> Prop),
  (forall s x, lookup (key_of d) b = Some (s, x) <-> found (key_of d) s x) -> proper b ->
  extract_from ty_dec deref w d b = Thrown <->
  available found d /\ ~ optional d /\ exists s, found (key_of d) s (SFn None) /\ ~ becomes (storage s) (storage d).
Proof.
  intros w d b found Fd P. split.
  - intros H. assert (A : available found d).
    { assert (N : ~ ~ available found d).
      { intros N. apply (extract_from_rejected w d b found Fd) in N. congruence. }
      unfold available in *. clear - H N Fd.
      unfold extract_from in H. destruct (required d) eqn:R.
      - apply required_iff in R. destruct (lookup (key_of d) b) as [[s x]|] eqn:E; [|discriminate].
        split; [|contradiction]. intros _. exists s, x. split; [apply Fd; reflexivity|].
        destruct (extract (storage d) (storage s)) as [c|] eqn:Q; [|discriminate]. unfold DepsModel.extract in Q.
        destruct (implicit (storage d) (storage s)) eqn:I; [left; apply becomes_iff; congruence|].
        right. apply calling_iff. congruence.
      - destruct (lookup (key_of d) b) as [[s x]|]; [destruct (implicit _ _); discriminate|].
        destruct (blank (storage d)); discriminate. }
    split; [exact A|]. unfold extract_from in H. destruct (required d) eqn:R.
    + split; [apply required_iff; exact R|].
      destruct (lookup (key_of d) b) as [[s x]|] eqn:E; [|discriminate].
      assert (Fx := E). apply (lookup_in ty_dec) in Fx. destruct Fx as [Ix _]. apply (proj2 P) in Ix.
      exists s. unfold DepsModel.extract in H. destruct (implicit (storage d) (storage s)) as [c|] eqn:I; [discriminate|].
      assert (B : ~ becomes (storage s) (storage d)) by (rewrite becomes_iff; congruence).
      split; [|exact B]. apply Fd. f_equal. f_equal.
      destruct (storage d) as [t|t|dd|dd]; cbn in H; try discriminate;
        destruct (storage s) as [u|u|u|[u|u|u|u]]; try discriminate;
        destruct (ty_eqb ty_dec t u); try discriminate; inversion Ix as [| | | | |s' f Ff]; subst; try reflexivity.
      * specialize (Ff w). inversion Ff as [|? l Q Ql| | | |]. rewrite <- Ql in H. discriminate.
      * discriminate.
    + exfalso. destruct (lookup (key_of d) b) as [[s x]|]; [destruct (implicit _ _); discriminate|].
      destruct (blank (storage d)); discriminate.
  - intros (A & O & s & Fs & B). unfold extract_from.
    rewrite (proj2 (required_iff d) O). apply Fd in Fs. rewrite Fs. unfold DepsModel.extract.
    destruct (implicit (storage d) (storage s)) as [c|] eqn:I; [exfalso; apply B, becomes_iff; congruence|].
    destruct A as [A _]. destruct (A O) as (s' & x' & Fs' & Q). apply Fd in Fs'. rewrite Fs in Fs'. injection Fs' as <- <-.
    destruct Q as [Q|Q]; [contradiction|].
    inversion Q; cbn; rewrite (eqb_refl ty_dec); reflexivity.
Qed.

(** The outcome for all. *)
Lemma make_rejected : forall w ds (b : bag),
  make_storage_from ty_dec deref w ds b = Rejected <-> exists d, In d ds /\ extract_from ty_dec deref w d b = Rejected.
Proof.
  induction ds as [|d ds IH]; intros b; cbn; [split; [discriminate|intros (d & [] & _)]|].
  split.
  - intros H. destruct (extract_from ty_dec deref w d b) as [| |x] eqn:E; [eauto| |];
      destruct (make_storage_from ty_dec deref w ds b) as [| |r] eqn:E'; try discriminate;
      destruct (proj1 (IH b) E') as (d' & I & R); eauto.
  - intros (d' & [<-|I] & R); [rewrite R; reflexivity|].
    assert (E : make_storage_from ty_dec deref w ds b = Rejected) by (apply IH; eauto).
    rewrite E. destruct (extract_from ty_dec deref w d b); reflexivity.
Qed.
Lemma make_thrown : forall w ds (b : bag),
  make_storage_from ty_dec deref w ds b = Thrown <->
  (forall d, In d ds -> extract_from ty_dec deref w d b <> Rejected) /\
  exists d, In d ds /\ extract_from ty_dec deref w d b = Thrown.
Proof.
  induction ds as [|d ds IH]; intros b; cbn; [split; [discriminate|intros (_ & d & [] & _)]|].
  assert (K : make_storage_from ty_dec deref w ds b <> Rejected <->
              forall d, In d ds -> extract_from ty_dec deref w d b <> Rejected).
  { rewrite make_rejected. split; [intros N d' I R; apply N; eauto|intros N (d' & I & R); exact (N d' I R)]. }
  split.
  - intros H. destruct (extract_from ty_dec deref w d b) as [| |x] eqn:E; [discriminate| |];
      destruct (make_storage_from ty_dec deref w ds b) as [| |r] eqn:E'; try discriminate.
    + split; [|eauto]. intros d' [<-|I]; [congruence|]. apply (proj1 K); [discriminate|exact I].
    + split; [|eauto]. intros d' [<-|I]; [congruence|]. apply (proj1 K); [discriminate|exact I].
    + destruct (proj1 (IH b) E') as (N & d' & I & T). split; [|eauto]. intros d'' [<-|I']; [congruence|auto].
  - intros (N & d' & I & T).
    assert (E : make_storage_from ty_dec deref w ds b <> Rejected) by (apply K; auto).
    assert (N0 := N d (or_introl eq_refl)).
    destruct I as [<-|I].
    + rewrite T. destruct (make_storage_from ty_dec deref w ds b); congruence.
    + assert (E' : make_storage_from ty_dec deref w ds b = Thrown) by (apply IH; split; eauto).
      rewrite E'. destruct (extract_from ty_dec deref w d b); congruence.
Qed.

Lemma lookup_in_bag : forall (b : bag) k s x, proper b -> lookup k b = Some (s, x) <-> in_bag b k s x.
Proof.
  intros b k s x [N F]. unfold in_bag. rewrite keyed_iff. split.
  - apply lookup_in.
  - intros [I <-]. apply lookup_of; assumption.
Qed.
Lemma lookup_in_bags : forall (b1 b2 : bag) k s x, proper b1 -> proper b2 ->
  lookup k (union ty_dec b1 b2) = Some (s, x) <-> in_bags b1 b2 k s x.
Proof.
  intros b1 b2 k s x P1 P2. rewrite union_lookup. unfold in_bags.
  rewrite <- (lookup_in_bag b2 k s x P2), <- (lookup_in_bag b1 k s x P1).
  assert (D : declared k b2 <-> lookup k b2 <> None).
  { unfold declared, declares. split.
    - intros (s' & x' & I & K). apply (lookup_none ty_dec k b2) || idtac.
      assert (Q : lookup k b2 = Some (s', x')) by (apply lookup_in_bag; [exact P2|]; split; [exact I|apply keyed_iff; exact K]).
      congruence.
    - destruct (lookup k b2) as [[s' x']|] eqn:E; [|congruence]. intros _. apply lookup_in in E. exists s', x'. exact E. }
  destruct (lookup k b2) as [e|] eqn:E.
  - split; [intros H; left; exact H|]. intros [H|[H _]]; [exact H|]. exfalso. apply H, D. discriminate.
  - split.
    + intros H. right. split; [rewrite D; congruence|exact H].
    + intros [H|[_ H]]; [discriminate|exact H].
Qed.
Lemma firm_iff : forall (b : bag) k, firm b k <-> In k (required_keys (map fst b)).
Proof.
  intros b k. unfold firm, in_bag, required_keys. rewrite in_map_iff. split.
  - intros (s & x & (I & K) & O). exists s. split; [apply keyed_iff; exact K|].
    apply filter_In. split; [apply in_map_iff; exists (s, x); auto|apply required_iff; exact O].
  - intros (s & K & I). apply filter_In in I. destruct I as [I R]. apply in_map_iff in I.
    destruct I as ([s' x] & <- & I). exists s', x. cbn in *. split; [split; [exact I|apply keyed_iff; exact K]|].
    apply required_iff. exact R.
Qed.
Lemma required_keys_incl : forall ds (ks : list ty), incl (required_keys ds) ks <->
  forall d : spec, In d ds -> ~ optional d -> In (key_of d) ks.
Proof.
  intros ds ks. split.
  - intros H d I O. apply H. apply required_key; [exact I|apply required_iff; exact O].
  - intros H k I. apply in_map_iff in I. destruct I as (d & <- & I). apply filter_In in I. destruct I as [I R].
    apply H; [exact I|apply required_iff; exact R].
Qed.

Lemma make_compiles : forall w ds (b : bag) found,
  (forall d s x, In d ds -> lookup (key_of d) b = Some (s, x) <-> found (key_of d) s x) ->
  (make_storage_from ty_dec deref w ds b = Rejected <-> exists d, In d ds /\ ~ available found d).
Proof.
  intros w ds b found Fd. rewrite make_rejected. split; intros (d & I & H); exists d; split; auto.
  - apply (extract_from_rejected w d b found); auto.
  - apply (extract_from_rejected w d b found) in H; auto.
Qed.
(** [available] can be decided. *)
Lemma available_dec : forall w ds (b : bag) found,
  (forall d s x, In d ds -> lookup (key_of d) b = Some (s, x) <-> found (key_of d) s x) ->
  (make_storage_from ty_dec deref w ds b <> Rejected <-> forall d, In d ds -> available found d).
Proof.
  intros w ds b found Fd. rewrite (make_compiles w ds b found Fd). split.
  - intros N d I. 
    assert (D : available found d \/ ~ available found d).
    { destruct (extract_from ty_dec deref w d b) as [| |y] eqn:E.
      - right. apply (extract_from_rejected w d b found); auto.
      - left. unfold extract_from in E. unfold available. destruct (required d) eqn:R.
        + apply required_iff in R. split; [|contradiction]. intros _.
          destruct (lookup (key_of d) b) as [[s x]|] eqn:Q; [|discriminate]. exists s, x.
          split; [apply Fd; auto|]. destruct (extract (storage d) (storage s)) eqn:X; [|discriminate].
          unfold DepsModel.extract in X. destruct (implicit (storage d) (storage s)) eqn:Y.
          * left. apply becomes_iff. congruence.
          * right. apply calling_iff. congruence.
        + destruct (lookup (key_of d) b) as [[s x]|]; [destruct (implicit _ _); discriminate|].
          destruct (blank (storage d)); discriminate.
      - left. unfold extract_from in E. unfold available. destruct (required d) eqn:R.
        + apply required_iff in R. split; [|contradiction]. intros _.
          destruct (lookup (key_of d) b) as [[s x]|] eqn:Q; [|discriminate]. exists s, x.
          split; [apply Fd; auto|]. destruct (extract (storage d) (storage s)) eqn:X; [|discriminate].
          unfold DepsModel.extract in X. destruct (implicit (storage d) (storage s)) eqn:Y.
          * left. apply becomes_iff. congruence.
          * right. apply calling_iff. congruence.
        + apply optional_iff in R. split; [contradiction|]. intros _ s x H. apply (Fd d s x I) in H.
          rewrite H in E. destruct (implicit (storage d) (storage s)) eqn:Y; [|discriminate].
          apply becomes_iff. congruence. }
    destruct D as [D|D]; [exact D|]. exfalso. apply N. eauto.
  - intros H (d & I & N). exact (N (H d I)).
Qed.

Theorem convert_compiles : forall w ds (b : bag), proper b ->
  convert w ds b <> Rejected <->
  NoDup (map key_of ds) /\ forall d, In d ds -> available (in_bag b) d /\ (~ optional d -> firm b (key_of d)).
Proof.
  intros w ds b P. unfold DepsModel.convert.
  assert (Fd : forall d s x, In d ds -> lookup (key_of d) b = Some (s, x) <-> in_bag b (key_of d) s x)
    by (intros; apply lookup_in_bag; exact P).
  destruct (distinct ty_dec (map key_of ds)) eqn:D; cbn [andb].
  - apply distinct_iff in D. destruct (subset ty_dec _ _) eqn:S.
    + apply subset_iff in S. rewrite required_keys_incl in S.
      rewrite (available_dec w ds b _ Fd). split.
      * intros A. split; [exact D|]. intros d I. split; [auto|]. intros O. apply firm_iff; auto.
      * intros [_ A] d I. apply A. exact I.
    + split; [congruence|]. intros [_ A]. exfalso. rewrite <- not_true_iff_false in S. apply S, subset_iff, required_keys_incl.
      intros d I O. apply firm_iff. apply A; assumption.
  - split; [congruence|]. intros [N _]. apply (distinct_iff ty_dec) in N. congruence.
Qed.
Lemma make_calls : forall w ds (b : bag) found, proper b ->
  (forall d s x, In d ds -> lookup (key_of d) b = Some (s, x) <-> found (key_of d) s x) ->
  make_storage_from ty_dec deref w ds b = Thrown <->
  make_storage_from ty_dec deref w ds b <> Rejected /\ calls_empty found ds.
Proof.
  intros w ds b found P Fd. rewrite (available_dec w ds b _ Fd), make_thrown. unfold calls_empty. split.
  - intros (N & d & I & T). split.
    + rewrite <- (available_dec w ds b _ Fd), make_rejected. intros (d' & I' & R). exact (N d' I' R).
    + apply (extract_from_thrown w d b found) in T; auto. destruct T as (_ & O & s & F & B). exists d, s. auto.
  - intros (A & d & s & I & O & F & B). split.
    + intros d' I' R. apply (extract_from_rejected w d' b found) in R; auto. 
    + exists d. split; [exact I|]. apply (extract_from_thrown w d b found); auto. split; auto. split; eauto.
Qed.
Theorem convert_thrown : forall w ds (b : bag), proper b ->
  convert w ds b = Thrown <-> convert w ds b <> Rejected /\ calls_empty (in_bag b) ds.
Proof.
  intros w ds b P. unfold DepsModel.convert. destruct (_ && _).
  - apply make_calls; [exact P|]. intros. apply lookup_in_bag. exact P.
  - split; [discriminate|]. intros [H _]. congruence.
Qed.

Theorem convert2_compiles : forall w ds (b1 b2 : bag), proper b1 -> proper b2 ->
  convert2 ty_dec deref w ds b1 b2 <> Rejected <->
  NoDup (map key_of ds) /\ forall d, In d ds -> available (in_bags b1 b2) d /\
    (~ optional d -> firm b1 (key_of d) \/ firm b2 (key_of d)).
Proof.
  intros w ds b1 b2 P1 P2. unfold DepsModel.convert2.
  assert (Fd : forall d s x, In d ds -> lookup (key_of d) (union ty_dec b1 b2) = Some (s, x) <-> in_bags b1 b2 (key_of d) s x)
    by (intros; apply lookup_in_bags; assumption).
  destruct (distinct ty_dec (map key_of ds)) eqn:D; cbn [andb].
  - apply distinct_iff in D. destruct (subset ty_dec _ _) eqn:S.
    + apply subset_iff in S. rewrite required_keys_incl in S.
      rewrite (available_dec w ds _ _ Fd). split.
      * intros A. split; [exact D|]. intros d I. split; [auto|]. intros O. rewrite !firm_iff.
        apply in_app_iff. auto.
      * intros [_ A] d I. apply A. exact I.
    + split; [congruence|]. intros [_ A]. exfalso. rewrite <- not_true_iff_false in S. apply S, subset_iff, required_keys_incl.
      intros d I O. apply in_app_iff. rewrite <- !firm_iff. apply A; assumption.
  - split; [congruence|]. intros [N _]. apply (distinct_iff ty_dec) in N. congruence.
Qed.
Theorem convert2_thrown : forall w ds (b1 b2 : bag), proper b1 -> proper b2 ->
  convert2 ty_dec deref w ds b1 b2 = Thrown <->
  convert2 ty_dec deref w ds b1 b2 <> Rejected /\ calls_empty (in_bags b1 b2) ds.
Proof.
  intros w ds b1 b2 P1 P2. unfold DepsModel.convert2. destruct (_ && _).
  - apply make_calls; [apply union_proper; assumption|]. intros. apply lookup_in_bags; assumption.
  - split; [discriminate|]. intros [H _]. congruence.
Qed.
(** What is made is what the conversion of the bag with the entries of both gives. *)
Theorem convert2_made : forall w ds (b1 b2 b' : bag), proper b1 -> proper b2 ->
  convert2 ty_dec deref w ds b1 b2 = Made b' ->
  map fst b' = ds /\ proper b' /\ forall d, In d ds -> forall w', required d = false \/ w' = w ->
  forall s x, in_bags b1 b2 (key_of d) s x ->
  exists now, get ty_dec w' (key_of d) b' = Some now /\ same deref w' (get_of s w' x) now.
Proof.
  intros w ds b1 b2 b' P1 P2 H. unfold DepsModel.convert2 in H.
  destruct (_ && _) eqn:C; [|discriminate]. apply andb_true_iff in C. destruct C as [C _]. apply distinct_iff in C.
  assert (Pu := union_proper ty_dec _ _ P1 P2).
  destruct (make_spec ty_dec deref _ _ _ _ H) as [E X]. split; [exact E|]. split.
  - split; [rewrite keys_fst, E; exact C|]. intros s x I. apply X in I.
    eapply extract_from_fits; eauto.
  - intros d I w' Q s x F. apply (lookup_in_bags b1 b2 (key_of d) s x P1 P2) in F.
    destruct (made_lookup ty_dec deref _ _ _ _ H C d I) as (y & Ly & Ey).
    unfold get. rewrite Ly. exists (get_of d w' y). split; [reflexivity|].
    assert (Fx : fits (storage s) x) by (apply (proj2 Pu); eapply lookup_in; eauto).
    apply extract_from_spec in Ey. rewrite F in Ey.
    destruct Ey as [(c & Ic & ->)|(R & _ & c & Ic & Ey)].
    + left. rewrite !get_storage. apply (proj2 (implicit_ok ty_dec _ _ _ Ic x Fx w)).
    + destruct Q as [Q| ->]; [congruence|]. rewrite !get_storage. exact (proj2 (extract_ok ty_dec deref _ _ _ Ic x Fx w y Ey)).
Qed.

Theorem with_exact : forall (ds : list spec) (xs : list stor) b,
  with_ ty_dec ds xs = Some b <-> NoDup (map key_of ds) /\ map fst b = ds /\ map snd b = xs.
Proof.
  intros ds xs b. unfold with_. split.
  - destruct (distinct ty_dec (map key_of ds)) eqn:D; cbn [andb]; [|discriminate].
    destruct (Nat.eqb (length ds) (length xs)) eqn:Q; [|discriminate]. intros H. injection H as <-.
    apply distinct_iff in D. split; [exact D|]. apply Nat.eqb_eq in Q. clear D.
    revert xs Q. induction ds as [|d ds IH]; intros [|x xs] Q; cbn in *; try discriminate; auto.
    injection Q as Q. destruct (IH xs Q) as [E1 E2]. split; congruence.
  - intros (D & <- & <-). apply (distinct_iff ty_dec) in D. rewrite D, !map_length, Nat.eqb_refl. cbn [andb].
    f_equal. clear D. induction b as [|[s x] b IH]; cbn; [reflexivity|congruence].
Qed.
Theorem has_exact : forall (s : spec) (x : stor),
  has_of s x = true <-> ~ optional s \/ (x <> SOpt None /\ x <> SFn None).
Proof.
  intros s x. rewrite optional_iff. induction s as [t|t|s IH|s IH|k s IH]; cbn; try exact IH; try (split; [left; congruence|reflexivity]).
  split.
  - intros H. right. destruct x as [v|l|[o|]|[f|]]; cbn in H; split; congruence.
  - intros [H|[H1 H2]]; [congruence|]. destruct x as [v|l|[o|]|[f|]]; cbn; congruence.
Qed.
End Proofs.
