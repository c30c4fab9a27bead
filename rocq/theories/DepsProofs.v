(** Proofs about bags of dependencies. *)
From Coq Require Import List Bool Arith Lia.
From Verif Require Import DepsModel DepsSpec.
Import ListNotations.

Section Proofs.
Context {ty : Type} (ty_dec : forall a b : ty, {a = b} + {a <> b}).
Context {V L W : Type} (deref : W -> L -> V).
Notation spec := (spec ty).
Notation sty := (sty ty).
Notation stor := (stor V L W).
Notation res := (res V L).
Notation bag := (list (spec * stor)).
Notation implicit := (@implicit ty ty_dec V L W).
Notation extract := (extract ty_dec deref).
Notation lookup := (lookup ty_dec).
Notation convert := (convert ty_dec deref).
Notation merge := (merge ty_dec deref).

Lemma eqb_iff : forall a b, ty_eqb ty_dec a b = true <-> a = b.
Proof. intros; unfold ty_eqb; destruct (ty_dec a b); split; congruence. Qed.
Lemma eqb_refl : forall a, ty_eqb ty_dec a a = true.
Proof. intros; apply eqb_iff; reflexivity. Qed.
Lemma mem_iff : forall k l, mem ty_dec k l = true <-> In k l.
Proof.
  intros k l; unfold mem; rewrite existsb_exists; split.
  - intros (x & Hx & E); apply eqb_iff in E; subst; exact Hx.
  - intros H; exists k; split; [exact H|apply eqb_refl].
Qed.
Lemma distinct_iff : forall l, distinct ty_dec l = true <-> NoDup l.
Proof.
  induction l as [|k l IH]; cbn; [split; [constructor|reflexivity]|].
  rewrite andb_true_iff, negb_true_iff, IH; split.
  - intros [A B]; constructor; [|exact B].
    intros C; apply mem_iff in C; congruence.
  - intros H; inversion H; subst; split; [|assumption].
    destruct (mem ty_dec k l) eqn:E; [apply mem_iff in E; contradiction|reflexivity].
Qed.
Lemma subset_iff : forall a b, subset ty_dec a b = true <-> incl a b.
Proof.
  intros a b; unfold subset; rewrite forallb_forall; split.
  - intros H x Hx; apply mem_iff; auto.
  - intros H x Hx; apply mem_iff; auto.
Qed.
Lemma sty_eqb_iff : forall a b, sty_eqb ty_dec a b = true <-> a = b.
Proof.
  induction a; destruct b; cbn; split; intros H; try discriminate;
    try (apply eqb_iff in H; subst; reflexivity);
    try (inversion H; subst; apply eqb_refl).
  - apply IHa in H; subst; reflexivity.
  - inversion H; subst; apply IHa; reflexivity.
  - apply IHa in H; subst; reflexivity.
  - inversion H; subst; apply IHa; reflexivity.
Qed.

(** What [get] does depends on the storage type only. *)
Fixpoint get_ty (t : sty) (w : W) (x : stor) : res :=
  match t, x with
  | TVal _, SVal v => RVal v
  | TRef _, SRef l => RRef l
  | TOpt s, SOpt (Some x) => get_ty s w x
  | TOpt _, SOpt None => Missing
  | TFn s, SFn (Some f) => get_ty s w (f w)
  | TFn _, SFn None => BadCall
  | _, _ => Mistyped
  end.
Lemma get_storage : forall s w (x : stor), get_of s w x = get_ty (storage s) w x.
Proof.
  induction s; intros w x; cbn; auto.
  - destruct x as [| |[x|]|]; cbn; auto.
  - destruct x as [| | |[f|]]; cbn; auto.
Qed.

Lemma implicit_eq : forall dst src, implicit dst src =
  if sty_eqb ty_dec src dst then Some (fun _ x => x)
  else match dst with
  | TOpt d =>
      match implicit d src with
      | Some c => Some (fun w x => SOpt (Some (c w x)))
      | None =>
          match src with
          | TOpt s =>
              match implicit d s with
              | Some c => Some (fun w x => match x with
                                           | SOpt (Some y) => SOpt (Some (c w y))
                                           | _ => SOpt None
                                           end)
              | None => None
              end
          | _ => None
          end
      end
  | TFn d =>
      match src with
      | TFn s =>
          match implicit d s with
          | Some c => Some (fun _ x => match x with
                                       | SFn (Some f) => SFn (Some (fun w => c w (f w)))
                                       | _ => SFn None
                                       end)
          | None => None
          end
      | _ => None
      end
  | _ => None
  end.
Proof. destruct dst; reflexivity. Qed.

Lemma implicit_same : forall t, implicit t t = Some (fun _ x => x).
Proof. intros t; rewrite implicit_eq, (proj2 (sty_eqb_iff t t)); reflexivity. Qed.

Lemma implicit_ok : forall dst src c, implicit dst src = Some c ->
  forall x, fits src x -> forall w, fits dst (c w x) /\ forall w', get_ty dst w' (c w x) = get_ty src w' x.
Proof.
  induction dst as [t|t|d IH|d IH]; intros src c H x Fx w; rewrite implicit_eq in H;
    destruct (sty_eqb ty_dec src _) eqn:E in H;
    try (apply sty_eqb_iff in E; subst; injection H as <-; split; [exact Fx|reflexivity]);
    try discriminate.
  - destruct (implicit d src) as [c0|] eqn:C0.
    { injection H as <-. destruct (IH _ _ C0 x Fx w) as [A B].
      split; [constructor; exact A|]. intros w'; cbn; apply B. }
    destruct src as [| |s|]; try discriminate.
    destruct (implicit d s) as [c1|] eqn:C1; [|discriminate].
    injection H as <-.
    inversion Fx; subst; [split; [constructor|reflexivity]|].
    destruct (IH _ _ C1 _ H0 w) as [A B].
    split; [constructor; exact A|]. intros w'; cbn; apply B.
  - destruct src as [| | |s]; try discriminate.
    destruct (implicit d s) as [c1|] eqn:C1; [|discriminate].
    injection H as <-.
    inversion Fx; subst; [split; [constructor|reflexivity]|].
    split; [constructor; intros w'; apply (IH _ _ C1 _ (H0 w') w')|].
    intros w'; cbn. apply (IH _ _ C1 _ (H0 w') w').
Qed.

(** [implicit] into a type that is no [std::optional] keeps its head. *)
Lemma implicit_fn : forall dst src c, implicit dst src = Some c ->
  match dst with
  | TFn _ => exists s, src = TFn s
  | TOpt _ => True
  | _ => src = dst
  end.
Proof.
  intros dst src c H. rewrite implicit_eq in H.
  destruct (sty_eqb ty_dec src dst) eqn:E.
  { apply sty_eqb_iff in E; subst. destruct dst; eauto. }
  destruct dst; auto; try discriminate.
  destruct src; try discriminate; eauto.
Qed.

(** ** Looking up *)
Lemma lookup_in : forall k (b : bag) s x, lookup k b = Some (s, x) -> In (s, x) b /\ key_of s = k.
Proof.
  induction b as [|e b IH]; cbn; intros s x H; [discriminate|].
  destruct (ty_eqb ty_dec (key_of (fst e)) k) eqn:E.
  - injection H as ->. apply eqb_iff in E. auto.
  - apply IH in H; tauto.
Qed.
Lemma lookup_of : forall (b : bag) s x, NoDup (map (fun e => key_of (fst e)) b) ->
  In (s, x) b -> lookup (key_of s) b = Some (s, x).
Proof.
  induction b as [|e b IH]; cbn; intros s x N H; [contradiction|].
  inversion N; subst.
  destruct H as [->|H].
  - cbn. rewrite eqb_refl; reflexivity.
  - destruct (ty_eqb ty_dec (key_of (fst e)) (key_of s)) eqn:E; [|apply IH; auto].
    apply eqb_iff in E. exfalso. apply H2. rewrite E.
    apply (in_map (fun e => key_of (fst e)) _ _ H).
Qed.
Lemma lookup_none : forall k (b : bag), lookup k b = None <-> ~ In k (map (fun e => key_of (fst e)) b).
Proof.
  induction b as [|e b IH]; cbn; [tauto|].
  destruct (ty_eqb ty_dec (key_of (fst e)) k) eqn:E.
  - apply eqb_iff in E. split; [discriminate|tauto].
  - rewrite IH. split; [|tauto]. intros H [A|A]; [|tauto].
    apply eqb_iff in A; congruence.
Qed.

(** ** Extraction *)
Lemma extract_ok : forall dst src c, extract dst src = Some c ->
  forall x, fits src x -> forall w y, c w x = Some y ->
  fits dst y /\ same deref w (get_ty src w x) (get_ty dst w y).
Proof.
  intros dst src c H x Fx w y Cy. unfold DepsModel.extract in H.
  destruct (implicit dst src) as [c0|] eqn:C0.
  { injection H as <-. injection Cy as <-.
    destruct (implicit_ok _ _ _ C0 x Fx w) as [A B].
    split; [exact A|]. left; apply B. }
  unfold from_function in H.
  destruct dst as [t|t|d|d]; try discriminate; destruct src as [| | |[|t'| |]]; try discriminate;
    destruct (ty_eqb ty_dec t t') eqn:E; try discriminate; injection H as <-;
    inversion Fx as [| | | | |s0 f Hf]; subst; try discriminate;
    specialize (Hf w); inversion Hf as [|t0 l Et El| | | |]; subst.
  - rewrite <- El in Cy. injection Cy as <-. split; [constructor|].
    right; exists l; cbn; rewrite <- El; auto.
  - injection Cy as <-. rewrite <- El. split; [constructor|].
    left; cbn; rewrite <- El; reflexivity.
Qed.

Lemma extract_from_spec : forall w d (b : bag) y, extract_from ty_dec deref w d b = Made y ->
  match lookup (key_of d) b with
  | None => required d = false /\ blank (storage d) = Some y
  | Some (s, x) =>
      (exists c, implicit (storage d) (storage s) = Some c /\ y = c w x) \/
      (required d = true /\ implicit (storage d) (storage s) = None /\
       exists c, extract (storage d) (storage s) = Some c /\ c w x = Some y)
  end.
Proof.
  intros w d b y H. unfold extract_from in H.
  destruct (required d) eqn:R; destruct (lookup (key_of d) b) as [[s x]|] eqn:Lk; try discriminate.
  - destruct (extract (storage d) (storage s)) as [c|] eqn:C; [|discriminate].
    destruct (c w x) as [y'|] eqn:Cy; [|discriminate]. injection H as ->.
    pose proof C as C'. unfold DepsModel.extract in C'.
    destruct (implicit (storage d) (storage s)) as [c0|] eqn:C0; [|right; eauto].
    left. exists c0; split; [reflexivity|]. injection C' as <-. congruence.
  - destruct (implicit (storage d) (storage s)) as [c|] eqn:C; [|discriminate].
    injection H as <-. left; eauto.
  - destruct (blank (storage d)) as [y'|] eqn:B; [|discriminate]. injection H as ->. auto.
Qed.

Lemma make_spec : forall w ds (b b' : bag), make_storage_from ty_dec deref w ds b = Made b' ->
  map fst b' = ds /\ forall d y, In (d, y) b' -> extract_from ty_dec deref w d b = Made y.
Proof.
  induction ds as [|d ds IH]; cbn; intros b b' H.
  - injection H as <-. split; [reflexivity|intros ? ? []].
  - destruct (extract_from ty_dec deref w d b) as [| |y] eqn:E; try discriminate;
      destruct (make_storage_from ty_dec deref w ds b) as [| |r] eqn:M; try discriminate.
    injection H as <-. destruct (IH _ _ M) as [A B].
    split; [cbn; rewrite A; reflexivity|].
    intros d0 y0 [H0|H0]; [injection H0 as <- <-; exact E|apply B; exact H0].
Qed.

Lemma convert_made : forall w ds (b b' : bag), convert w ds b = Made b' ->
  NoDup (map key_of ds) /\ incl (required_keys ds) (required_keys (map fst b)) /\
  make_storage_from ty_dec deref w ds b = Made b'.
Proof.
  intros w ds b b' H. unfold DepsModel.convert in H.
  destruct (distinct ty_dec (map key_of ds)) eqn:D; [|discriminate].
  destruct (subset ty_dec (required_keys ds) (required_keys (map fst b))) eqn:S; [|discriminate].
  apply distinct_iff in D. apply subset_iff in S. auto.
Qed.

Lemma keys_fst : forall (b : bag), map (fun e => key_of (fst e)) b = map key_of (map fst b).
Proof. intros; rewrite map_map; reflexivity. Qed.

(** Each requested key is found with the requested specification. *)
Lemma made_lookup : forall w ds (b b' : bag), make_storage_from ty_dec deref w ds b = Made b' ->
  NoDup (map key_of ds) -> forall d, In d ds ->
  exists y, lookup (key_of d) b' = Some (d, y) /\ extract_from ty_dec deref w d b = Made y.
Proof.
  intros w ds b b' M N d Hd. destruct (make_spec _ _ _ _ M) as [A B].
  assert (In d (map fst b')) as Hm by (rewrite A; exact Hd).
  apply in_map_iff in Hm. destruct Hm as ([d0 y] & E & Hy); cbn in E; subst d0.
  exists y; split; [|apply B; exact Hy].
  apply lookup_of; [rewrite keys_fst, A; exact N|exact Hy].
Qed.

Lemma blank_fits : forall (t : sty) (y : stor), blank t = Some y -> fits t y.
Proof. intros [| | |]; cbn; intros y H; try discriminate; injection H as <-; constructor. Qed.

Lemma extract_from_fits : forall w d (b : bag) y, proper b ->
  extract_from ty_dec deref w d b = Made y -> fits (storage d) y.
Proof.
  intros w d b y [N F] H. apply extract_from_spec in H.
  destruct (lookup (key_of d) b) as [[s x]|] eqn:Lk; [|destruct H; apply blank_fits; assumption].
  apply lookup_in in Lk. destruct Lk as [Hin _]. apply F in Hin.
  destruct H as [(c & C & ->)|(_ & _ & c & C & Cy)].
  - apply (implicit_ok _ _ _ C _ Hin w).
  - apply (extract_ok _ _ _ C _ Hin w y Cy).
Qed.

Lemma convert_proper : forall w ds (b b' : bag), proper b -> convert w ds b = Made b' ->
  proper b' /\ map fst b' = ds.
Proof.
  intros w ds b b' P H. apply convert_made in H. destruct H as (N & _ & M).
  destruct (make_spec _ _ _ _ M) as [A B].
  split; [|exact A]. split.
  - rewrite keys_fst, A; exact N.
  - intros s x Hx. eapply extract_from_fits; eauto.
Qed.

(** ** The laws of conversion *)
Lemma required_key : forall (d : spec) ds, In d ds -> required d = true -> In (key_of d) (required_keys ds).
Proof. intros; apply in_map, filter_In; auto. Qed.

Lemma required_declared : forall (b : bag) k, NoDup (map (fun e => key_of (fst e)) b) ->
  In k (required_keys (map fst b)) -> exists s x, lookup k b = Some (s, x) /\ required s = true.
Proof.
  intros b k N H. apply in_map_iff in H. destruct H as (s & <- & H).
  apply filter_In in H. destruct H as [H R].
  apply in_map_iff in H. destruct H as ([s0 x] & E & H); cbn in E; subst s0.
  exists s, x; split; [|exact R]. apply lookup_of; assumption.
Qed.

Lemma no_opt_get : forall (s : spec) w (x : stor), required s = true -> get_of s w x <> Missing.
Proof.
  induction s; intros w x R; cbn in *; try discriminate.
  - destruct x; discriminate.
  - destruct x; discriminate.
  - destruct x as [| | |[f|]]; cbn; try discriminate; apply IHs; exact R.
  - apply IHs; exact R.
Qed.
Lemma required_has : forall (s : spec) (x : stor), required s = true -> has_of s x = true.
Proof. induction s; cbn; intros; auto; discriminate. Qed.

Theorem convert_required : forall w ds (b b' : bag) d, proper b -> convert w ds b = Made b' ->
  In d ds -> required d = true ->
  exists was now, get ty_dec w (key_of d) b = Some was /\ get ty_dec w (key_of d) b' = Some now /\
    same deref w was now /\ now <> Missing /\ has ty_dec (key_of d) b' = Some true.
Proof.
  intros w ds b b' d P H Hd R. pose proof P as [N F].
  apply convert_made in H. destruct H as (Nd & I & M).
  destruct (made_lookup _ _ _ _ M Nd d Hd) as (y & Ly & E).
  destruct (required_declared b (key_of d) N) as (s & x & Lx & Rs).
  { apply I, required_key; assumption. }
  pose proof (lookup_in _ _ _ _ Lx) as [Hin _]. apply F in Hin.
  exists (get_of s w x), (get_of d w y). unfold get, has. rewrite Lx, Ly.
  split; [reflexivity|]. split; [reflexivity|].
  split.
  { apply extract_from_spec in E. rewrite Lx in E. rewrite !get_storage.
    destruct E as [(c & C & ->)|(_ & _ & c & C & Cy)].
    - left; apply (implicit_ok _ _ _ C _ Hin w).
    - apply (extract_ok _ _ _ C _ Hin w y Cy). }
  split; [apply no_opt_get; exact R|].
  rewrite required_has; auto.
Qed.

Lemma by_fn_storage : forall s : spec, by_fn s = match storage s with TFn _ => true | _ => false end.
Proof. induction s; cbn; auto. Qed.

(** At any later time: as in the source bag if both or neither provide the dependency
    by a function. *)
Theorem convert_later : forall w ds (b b' : bag) d s, proper b -> convert w ds b = Made b' ->
  In d ds -> declares b (key_of d) s -> (required d = false \/ by_fn d = by_fn s) ->
  forall w', get ty_dec w' (key_of d) b' = get ty_dec w' (key_of d) b.
Proof.
  intros w ds b b' d s P H Hd (x & Hx & Ks) B w'. pose proof P as [N F].
  apply convert_made in H. destruct H as (Nd & I & M).
  destruct (made_lookup _ _ _ _ M Nd d Hd) as (y & Ly & E).
  pose proof (lookup_of _ _ _ N Hx) as Lx. rewrite Ks in Lx.
  unfold get. rewrite Lx, Ly, !get_storage. f_equal.
  apply F in Hx. apply extract_from_spec in E. rewrite Lx in E.
  destruct E as [(c & C & ->)|(R & C0 & c & C & Cy)].
  - apply (implicit_ok _ _ _ C _ Hx w).
  - exfalso. destruct B as [B|B]; [congruence|].
    rewrite !by_fn_storage in B. unfold DepsModel.extract in C. rewrite C0 in C.
    unfold from_function in C.
    destruct (storage d); try discriminate; destruct (storage s); discriminate.
Qed.

(** If only the source provides it by a function, that function is called once and for
    all. *)
Theorem convert_frozen : forall w ds (b b' : bag) d s, proper b -> convert w ds b = Made b' ->
  In d ds -> declares b (key_of d) s -> required d = true -> by_fn d = false ->
  by_fn s = true -> exists l, get ty_dec w (key_of d) b = Some (RRef l) /\
  forall w', get ty_dec w' (key_of d) b' = Some (RRef l) \/
             get ty_dec w' (key_of d) b' = Some (RVal (deref w l)).
Proof.
  intros w ds b b' d s P H Hd (x & Hx & Ks) R Bd Bs. pose proof P as [N F].
  apply convert_made in H. destruct H as (Nd & I & M).
  destruct (made_lookup _ _ _ _ M Nd d Hd) as (y & Ly & E).
  pose proof (lookup_of _ _ _ N Hx) as Lx. rewrite Ks in Lx.
  apply F in Hx. apply extract_from_spec in E. rewrite Lx in E.
  rewrite by_fn_storage in Bd, Bs.
  unfold get. rewrite Lx, Ly.
  destruct E as [(c & C & ->)|(_ & C0 & c & C & Cy)].
  - exfalso. apply implicit_fn in C.
    destruct (storage d) as [t|t|t|t] eqn:Sd; try discriminate; try (rewrite C in Bs; discriminate).
    assert (forall (s0 : spec) t0, storage s0 = TOpt t0 -> required s0 = false) as K.
    { induction s0; cbn; intros ? E; try discriminate; auto; eapply IHs0; eauto. }
    rewrite (K _ _ Sd) in R; discriminate.
  - unfold DepsModel.extract in C. rewrite C0 in C. unfold from_function in C.
    destruct (storage s) as [| | |[|t'| |]] eqn:Ss; try (destruct (storage d); discriminate).
    inversion Hx; subst.
    + destruct (storage d); try discriminate; destruct (ty_eqb ty_dec _ _); try discriminate;
        injection C as <-; discriminate.
    + specialize (H0 w). inversion H0 as [|t0 l Et H1| | | |]; subst. exists l.
      split; [rewrite get_storage, Ss; cbn; rewrite <- H1; reflexivity|].
      intros w'. rewrite get_storage.
      destruct (storage d) as [t|t|t|t] eqn:Sd; try discriminate; destruct (ty_eqb ty_dec t t'); try discriminate;
        injection C as <-; rewrite <- H1 in Cy; injection Cy as <-; cbn; auto.
Qed.

(** Optional keys. *)
Theorem convert_missing : forall w ds (b b' : bag) d, convert w ds b = Made b' ->
  In d ds -> required d = false -> (forall s, ~ declares b (key_of d) s) ->
  has ty_dec (key_of d) b' = Some false /\
  forall w', get ty_dec w' (key_of d) b' = Some Missing \/
             (by_fn d = true /\ get ty_dec w' (key_of d) b' = Some BadCall).
Proof.
  intros w ds b b' d H Hd R U.
  apply convert_made in H. destruct H as (Nd & I & M).
  destruct (made_lookup _ _ _ _ M Nd d Hd) as (y & Ly & E).
  apply extract_from_spec in E.
  destruct (lookup (key_of d) b) as [[s x]|] eqn:Lx.
  { exfalso. apply lookup_in in Lx. apply (U s). exists x. exact Lx. }
  destruct E as [_ B]. unfold get, has. rewrite Ly.
  assert (engaged y = false) as G.
  { destruct (storage d); cbn in B; try discriminate; injection B as <-; reflexivity. }
  split.
  - f_equal. clear - R G.
    induction d; cbn in *; try discriminate; auto.
  - intros w'. rewrite get_storage, by_fn_storage.
    destruct (storage d) eqn:Sd; cbn in B; try discriminate; injection B as <-; cbn; auto.
Qed.

Lemma no_opt_storage : forall s : spec, no_opt s -> match storage s with TOpt _ => False | _ => True end.
Proof. induction s; cbn; intros; try exact I; [contradiction|apply IHs; assumption]. Qed.
Lemma no_opt_required : forall s : spec, no_opt s -> required s = true.
Proof. induction s; cbn; intros; auto; contradiction. Qed.

(** A tidy optional specification stores an optional of something that is not. *)
Lemma tidy_opt : forall s : spec, tidy s -> required s = false ->
  exists t, storage s = TOpt t /\ (match t with TOpt _ => False | _ => True end) /\
  forall x : stor, has_of s x = engaged x.
Proof.
  induction s; cbn; intros T R; try discriminate.
  - exists (storage s); split; [reflexivity|]. split; [apply no_opt_storage; exact T|reflexivity].
  - apply no_opt_required in T; congruence.
  - destruct (IHs T R) as (t & A & B & C). exists t; auto.
Qed.
Lemma tidy_req : forall s : spec, tidy s -> required s = true -> match storage s with TOpt _ => False | _ => True end.
Proof.
  induction s; cbn; intros T R; try discriminate; try exact I. apply IHs; assumption.
Qed.

Theorem convert_has : forall w ds (b b' : bag) d s, proper b -> convert w ds b = Made b' ->
  In d ds -> declares b (key_of d) s -> tidy d -> tidy s ->
  has ty_dec (key_of d) b' = has ty_dec (key_of d) b.
Proof.
  intros w ds b b' d s P H Hd (x & Hx & Ks) Td Ts. pose proof P as [N F].
  apply convert_made in H. destruct H as (Nd & I & M).
  destruct (made_lookup _ _ _ _ M Nd d Hd) as (y & Ly & E).
  pose proof (lookup_of _ _ _ N Hx) as Lx. rewrite Ks in Lx.
  unfold has. rewrite Lx, Ly. f_equal.
  destruct (required d) eqn:R.
  { destruct (required_declared b (key_of d) N) as (s' & x' & Lx' & Rs).
    { apply I, required_key; assumption. }
    rewrite Lx in Lx'. injection Lx' as <- <-. rewrite !required_has; auto. }
  apply F in Hx. apply extract_from_spec in E. rewrite Lx in E.
  destruct E as [(c & C & ->)|(R' & _)]; [|congruence].
  destruct (tidy_opt _ Td R) as (t & Sd & Ht & Hd').
  rewrite Hd'. rewrite Sd in C. rewrite implicit_eq in C.
  destruct (required s) eqn:Rs.
  - rewrite required_has by exact Rs.
    pose proof (tidy_req _ Ts Rs) as Q.
    destruct (sty_eqb ty_dec (storage s) (TOpt t)) eqn:Eq.
    { apply sty_eqb_iff in Eq. rewrite Eq in Q. contradiction. }
    destruct (implicit t (storage s)) as [c0|]; [injection C as <-; reflexivity|].
    destruct (storage s); try discriminate; contradiction.
  - destruct (tidy_opt _ Ts Rs) as (t' & Ss & Ht' & Hs'). rewrite Hs'.
    rewrite Ss in C, Hx.
    destruct (sty_eqb ty_dec (TOpt t') (TOpt t)) eqn:Eq; [injection C as <-; reflexivity|].
    destruct (implicit t (TOpt t')) as [c0|] eqn:C0.
    { exfalso. apply implicit_fn in C0. destruct t; try discriminate; [contradiction|].
      destruct C0; discriminate. }
    destruct (implicit t t') as [c1|]; [|discriminate]. injection C as <-.
    inversion Hx; subst; reflexivity.
Qed.

(** ** Merging *)
Lemma filter_keys : forall (f : ty -> bool) (b : bag),
  map (fun e => key_of (fst e)) (filter (fun e => f (key_of (fst e))) b) =
  filter f (map (fun e => key_of (fst e)) b).
Proof.
  induction b as [|e b IH]; cbn; [reflexivity|].
  destruct (f (key_of (fst e))); cbn; rewrite IH; reflexivity.
Qed.

Lemma nodup_app : forall (A : Type) (l l' : list A), NoDup l -> NoDup l' ->
  (forall x, In x l -> ~ In x l') -> NoDup (l ++ l').
Proof.
  induction l as [|a l IH]; cbn; intros l' N N' D; [exact N'|].
  inversion N; subst. constructor.
  - rewrite in_app_iff. intros [C|C]; [contradiction|]. apply (D a); auto.
  - apply IH; auto.
Qed.

Lemma union_proper : forall b1 b2 : bag, proper b1 -> proper b2 -> proper (union ty_dec b1 b2).
Proof.
  intros b1 b2 [N1 F1] [N2 F2]; unfold union; split.
  - rewrite map_app. apply nodup_app; [exact N2| |].
    + rewrite (filter_keys (fun k => negb (mem ty_dec k (keys b2)))). apply NoDup_filter; exact N1.
    + intros k H C. rewrite (filter_keys (fun k => negb (mem ty_dec k (keys b2)))) in C.
      apply filter_In in C. destruct C as [_ C]. apply negb_true_iff in C.
      apply mem_iff in H. unfold keys in C. congruence.
  - intros s x H. apply in_app_iff in H. destruct H as [H|H]; [auto|].
    apply filter_In in H. apply F1; tauto.
Qed.

Lemma lookup_app : forall k (a b : bag), lookup k (a ++ b) =
  match lookup k a with Some e => Some e | None => lookup k b end.
Proof.
  induction a as [|e a IH]; cbn; intros b; [reflexivity|].
  destruct (ty_eqb ty_dec (key_of (fst e)) k); auto.
Qed.
Lemma lookup_filter : forall (f : ty -> bool) k (b : bag), f k = true ->
  lookup k (filter (fun e => f (key_of (fst e))) b) = lookup k b.
Proof.
  induction b as [|e b IH]; cbn; intros Fk; [reflexivity|].
  destruct (f (key_of (fst e))) eqn:E; cbn.
  - destruct (ty_eqb ty_dec (key_of (fst e)) k); auto.
  - destruct (ty_eqb ty_dec (key_of (fst e)) k) eqn:K; [|auto].
    apply eqb_iff in K. congruence.
Qed.

Lemma union_lookup : forall k (b1 b2 : bag), lookup k (union ty_dec b1 b2) =
  match lookup k b2 with Some e => Some e | None => lookup k b1 end.
Proof.
  intros k b1 b2; unfold union. rewrite lookup_app.
  destruct (lookup k b2) as [e|] eqn:E; [reflexivity|].
  apply lookup_none in E.
  apply (lookup_filter (fun k => negb (mem ty_dec k (keys b2)))).
  apply negb_true_iff. destruct (mem ty_dec k (keys b2)) eqn:C; [|reflexivity].
  apply mem_iff in C; contradiction.
Qed.

Lemma extract_self : forall w (b : bag) d x, lookup (key_of d) b = Some (d, x) ->
  extract_from ty_dec deref w d b = Made x.
Proof.
  intros w b d x Lx. unfold extract_from, DepsModel.extract.
  rewrite Lx, implicit_same. destruct (required d); reflexivity.
Qed.

Lemma make_self : forall w (u b : bag), NoDup (map (fun e => key_of (fst e)) u) -> incl b u ->
  make_storage_from ty_dec deref w (map fst b) u = Made b.
Proof.
  induction b as [|[d x] b IH]; cbn; intros N I; [reflexivity|].
  rewrite (extract_self w u d x); [|apply lookup_of; [exact N|apply I; left; reflexivity]].
  rewrite IH; auto. intros e H; apply I; right; exact H.
Qed.

Lemma merge_made : forall w (b1 b2 : bag), proper b1 -> proper b2 ->
  merge w b1 b2 = Made (union ty_dec b1 b2).
Proof.
  intros w b1 b2 P1 P2. pose proof (union_proper _ _ P1 P2) as [N _].
  unfold DepsModel.merge, convert2.
  rewrite (proj2 (distinct_iff _)) by (rewrite <- keys_fst; exact N).
  rewrite (proj2 (subset_iff _ _)); cbn.
  - apply make_self; [exact N|apply incl_refl].
  - intros k H. apply in_map_iff in H. destruct H as (s & <- & H).
    apply filter_In in H. destruct H as [H R].
    apply in_map_iff in H. destruct H as (e & <- & H).
    unfold union in H. apply in_app_iff in H. apply in_app_iff.
    destruct H as [H|H].
    + right. apply in_map, filter_In; split; [apply in_map; exact H|exact R].
    + apply filter_In in H. left. apply in_map, filter_In; split; [apply in_map; tauto|exact R].
Qed.

Theorem merge_spec : forall w (b1 b2 : bag), proper b1 -> proper b2 ->
  exists m, merge w b1 b2 = Made m /\ proper m /\
  forall k w', 
    (declared k b2 -> get ty_dec w' k m = get ty_dec w' k b2 /\ has ty_dec k m = has ty_dec k b2) /\
    (~ declared k b2 -> get ty_dec w' k m = get ty_dec w' k b1 /\ has ty_dec k m = has ty_dec k b1) /\
    (declared k m <-> declared k b1 \/ declared k b2).
Proof.
  intros w b1 b2 P1 P2. exists (union ty_dec b1 b2).
  split; [apply merge_made; assumption|].
  split; [apply union_proper; assumption|].
  assert (forall (b : bag) k, proper b -> declared k b <-> lookup k b <> None) as D.
  { intros b k [N _]; split.
    - intros (s & x & Hx & <-). rewrite (lookup_of _ _ _ N Hx). discriminate.
    - destruct (lookup k b) as [[s x]|] eqn:E; [|contradiction].
      intros _. exists s, x. apply lookup_in; exact E. }
  pose proof (union_proper _ _ P1 P2) as P.
  intros k w'. rewrite !D by assumption. unfold get, has. rewrite union_lookup.
  destruct (lookup k b2) as [e|]; split; [auto|split|auto|split].
  - intros C; exfalso; apply C; discriminate.
  - split; [right; discriminate|discriminate].
  - intros C; contradiction.
  - auto.
  - tauto.
Qed.

(** Dependencies given to a store: the last enhancer that declares a key provides it. *)
Theorem enhance_spec : forall w (news : list bag) (b : bag), proper b ->
  (forall n, In n news -> proper n) ->
  exists m, enhance ty_dec deref w b news = Made m /\ proper m /\
  forall k w',
    (forall pre n post, news = pre ++ n :: post -> declared k n ->
       (forall n', In n' post -> ~ declared k n') ->
       get ty_dec w' k m = get ty_dec w' k n /\ has ty_dec k m = has ty_dec k n) /\
    ((forall n, In n news -> ~ declared k n) ->
       get ty_dec w' k m = get ty_dec w' k b /\ has ty_dec k m = has ty_dec k b).
Proof.
  induction news as [|n news IH]; cbn; intros b P Pn.
  { exists b. split; [reflexivity|]. split; [exact P|].
    intros k w'; split; [intros [|]; discriminate|auto]. }
  destruct (merge_spec w b n P (Pn n (or_introl eq_refl))) as (m & M & Pm & S).
  rewrite M.
  destruct (IH m Pm (fun n' H => Pn n' (or_intror H))) as (r & E & Pr & T).
  exists r. split; [exact E|]. split; [exact Pr|].
  intros k w'. destruct (T k w') as [T1 T2]. destruct (S k w') as (S1 & S2 & _).
  split.
  - intros [|p pre] n0 post Eq D0 Dp; cbn in Eq; injection Eq as -> ->.
    + destruct (T2 Dp) as [A B]. destruct (S1 D0) as [A' B']. split; congruence.
    + apply (T1 pre n0 post); auto.
  - intros U. destruct T2 as [A B]; [auto|]. destruct S2 as [A' B']; [auto|]. split; congruence.
Qed.

(** A sub-bag can always be made. *)
Theorem convert_subset : forall w (b : bag) ds, proper b -> NoDup (map key_of ds) ->
  incl ds (map fst b) ->
  exists b', convert w ds b = Made b' /\ incl b' b /\ map fst b' = ds.
Proof.
  intros w b ds [N F] Nd I. unfold DepsModel.convert.
  rewrite (proj2 (distinct_iff _) Nd), (proj2 (subset_iff _ _)); cbn.
  2: { intros k H. apply in_map_iff in H. destruct H as (s & <- & H).
       apply filter_In in H. apply required_key; [apply I; tauto|tauto]. }
  clear Nd. revert I. induction ds as [|d ds IH]; intros I.
  - exists []. repeat split; auto. intros ? [].
  - destruct IH as (b' & M & J & K); [intros e H; apply I; right; exact H|].
    assert (In d (map fst b)) as Hd by (apply I; left; reflexivity).
    apply in_map_iff in Hd. destruct Hd as ([d0 x] & E & Hx); cbn in E; subst d0.
    exists ((d, x) :: b'). cbn. rewrite M, (extract_self w b d x) by (apply lookup_of; assumption).
    split; [reflexivity|]. split.
    + intros e [<-|H]; auto.
    + rewrite K; reflexivity.
Qed.

(** What was merged can be taken apart if the bags agree on the keys they share. *)
Theorem merge_back : forall w (b1 b2 m : bag), proper b1 -> proper b2 -> merge w b1 b2 = Made m ->
  (forall k s1 s2, declares b1 k s1 -> declares b2 k s2 -> s1 = s2) ->
  (exists c, convert w (map fst b1) m = Made c) /\ convert w (map fst b2) m = Made b2.
Proof.
  intros w b1 b2 m P1 P2 M A. rewrite merge_made in M by assumption. injection M as <-.
  pose proof (union_proper _ _ P1 P2) as P. split.
  - destruct (convert_subset w (union ty_dec b1 b2) (map fst b1)) as (c & C & _); eauto.
    + rewrite <- keys_fst; apply P1.
    + intros d H. apply in_map_iff in H. destruct H as ([d0 x] & E & H); cbn in E; subst d0.
      pose proof (union_lookup (key_of d) b1 b2) as U. rewrite (lookup_of _ _ _ (proj1 P1) H) in U.
      destruct (lookup (key_of d) b2) as [[s y]|] eqn:L2.
      * apply lookup_in in U. apply lookup_in in L2.
        rewrite (A (key_of d) d s); [apply (in_map fst _ _ (proj1 U))|exists x; auto|exists y; auto].
      * apply lookup_in in U. apply (in_map fst _ _ (proj1 U)).
  - unfold DepsModel.convert. rewrite (proj2 (distinct_iff _)) by (rewrite <- keys_fst; apply P2).
    rewrite (proj2 (subset_iff _ _)); cbn.
    + apply make_self; [apply P|]. intros e H; apply in_app_iff; auto.
    + intros k H. apply in_map_iff in H. destruct H as (s & <- & H). apply filter_In in H.
      apply required_key; [|tauto]. unfold union. rewrite map_app. apply in_app_iff. tauto.
Qed.

(** ** Passing on any number of times *)
Lemma same_refl : forall w (r : res), same deref w r r.
Proof. left; reflexivity. Qed.
Lemma same_trans : forall w (a b c : res), same deref w a b -> same deref w b c -> same deref w a c.
Proof.
  intros w a b c [->|(l & -> & ->)] H; [exact H|].
  destruct H as [->|(l' & E & _)]; [right; eauto|discriminate].
Qed.

Lemma same_lost : forall w (a b : res), same deref w a b -> lost a -> lost b.
Proof.
  intros w a b [->|(l & -> & ->)] H; [exact H|]. destruct H; discriminate.
Qed.

Lemma convert_key : forall w ds (b b' : bag) k now, proper b -> convert w ds b = Made b' ->
  get ty_dec w k b' = Some now ->
  (exists was, get ty_dec w k b = Some was /\ same deref w was now) \/
  (get ty_dec w k b = None /\ lost now /\ ~ In k (required_keys ds)).
Proof.
  intros w ds b b' k now P C G.
  destruct (convert_proper _ _ _ _ P C) as [P' E].
  unfold get in G. destruct (lookup k b') as [[d y]|] eqn:Ly; [|discriminate].
  injection G as <-. pose proof (lookup_in _ _ _ _ Ly) as [Hin <-].
  assert (In d ds) as Hd by (rewrite <- E; apply (in_map fst _ _ Hin)).
  destruct (required d) eqn:R.
  - destruct (convert_required _ _ _ _ _ P C Hd R) as (was & now & A & B & S & _).
    left. exists was; split; [exact A|]. unfold get in B. rewrite Ly in B. injection B as <-. exact S.
  - destruct (lookup (key_of d) b) as [[s x]|] eqn:Lx.
    + assert (declares b (key_of d) s) as Ds by (exists x; apply lookup_in; exact Lx).
      pose proof (convert_later _ _ _ _ _ _ P C Hd Ds (or_introl R) w) as Q.
      left. unfold get in *. rewrite Lx, Ly in *. injection Q as Q. eexists; split; [reflexivity|].
      left; exact Q.
    + destruct (convert_missing _ _ _ _ _ C Hd R) as [_ Q].
      { intros s (x & Hx & K). pose proof (lookup_of _ _ _ (proj1 P) Hx) as T.
        rewrite K in T. congruence. }
      right. unfold get. rewrite Lx. split; [reflexivity|]. specialize (Q w).
      unfold get in Q. rewrite Ly in Q. split.
      * destruct Q as [Q|[_ Q]]; injection Q as Q; [left|right]; exact Q.
      * intros C0. apply in_map_iff in C0. destruct C0 as (d' & K & C0).
        apply filter_In in C0. destruct C0 as [I' R'].
        pose proof (convert_made _ _ _ _ C) as (Nd & _ & _).
        assert (d' = d); [|subst; congruence].
        clear - Nd I' K Hd. induction ds as [|e ds IH]; [contradiction|].
        inversion Nd; subst. destruct I' as [->|I'], Hd as [->|Hd]; auto.
        -- exfalso. apply H1. rewrite K. apply in_map; exact Hd.
        -- exfalso. apply H1. rewrite <- K. apply in_map; exact I'.
Qed.

Theorem pass_on_spec : forall (steps : list (W * list spec)) w (b b' : bag), proper b ->
  (forall st, In st steps -> fst st = w) ->
  pass_on ty_dec deref b steps = Made b' ->
  proper b' /\ forall k now, get ty_dec w k b' = Some now ->
  (exists was, get ty_dec w k b = Some was /\ same deref w was now) \/ lost now.
Proof.
  induction steps as [|[w0 ds] steps IH]; cbn; intros w b b' P Hw H.
  - injection H as <-. split; [exact P|]. intros k now G. left. exists now.
    split; [exact G|apply same_refl].
  - pose proof (Hw _ (or_introl eq_refl)) as Ew; cbn in Ew; subst w0.
    destruct (convert w ds b) as [| |m] eqn:C; try discriminate.
    destruct (convert_proper _ _ _ _ P C) as [Pm _].
    destruct (IH w m b' Pm (fun st I => Hw st (or_intror I)) H) as [P' T].
    split; [exact P'|]. intros k now G.
    destruct (T k now G) as [(was & A & S)|S]; [|right; exact S].
    destruct (convert_key _ _ _ _ _ _ P C A) as [(was' & A' & S')|(_ & Q & _)].
    + left. exists was'; split; [exact A'|]. eapply same_trans; eauto.
    + right. eapply same_lost; eauto.
Qed.

(** A required key at the end was required all along. *)
Theorem pass_on_required : forall (steps : list (W * list spec)) (b b' : bag) w k, proper b ->
  (forall st, In st steps -> fst st = w) ->
  pass_on ty_dec deref b steps = Made b' -> In k (required_keys (map fst b')) ->
  In k (required_keys (map fst b)) /\
  exists was now, get ty_dec w k b = Some was /\ get ty_dec w k b' = Some now /\
    same deref w was now /\ now <> Missing.
Proof.
  induction steps as [|[w0 ds] steps IH]; cbn; intros b b' w k P Hw H Hk.
  - injection H as <-. split; [exact Hk|].
    destruct (required_declared _ _ (proj1 P) Hk) as (s & x & Lx & R).
    exists (get_of s w x), (get_of s w x). unfold get. rewrite Lx.
    repeat split; auto. + apply same_refl. + apply no_opt_get; exact R.
  - pose proof (Hw _ (or_introl eq_refl)) as Ew; cbn in Ew; subst w0.
    destruct (convert w ds b) as [| |m] eqn:C; try discriminate.
    destruct (convert_proper _ _ _ _ P C) as [Pm Em].
    destruct (IH m b' w k Pm (fun st I => Hw st (or_intror I)) H Hk) as (Rm & was & now & A & B & S & Q).
    rewrite Em in Rm. pose proof (convert_made _ _ _ _ C) as (_ & I & _).
    split; [apply I; exact Rm|].
    destruct (convert_key _ _ _ _ _ _ P C A) as [(was' & A' & S')|(_ & _ & Q')]; [|contradiction].
    exists was', now. repeat split; auto. eapply same_trans; eauto.
Qed.

End Proofs.

Lemma keyed_iff : forall {ty} (s : spec ty) k, keyed s k <-> key_of s = k.
Proof.
  intros ty s k; split.
  - induction 1; cbn; auto.
  - intros <-. induction s; cbn; constructor; assumption.
Qed.
Lemma optional_iff : forall {ty} (s : spec ty), optional s <-> required s = false.
Proof.
  intros ty s; split.
  - induction 1; cbn; auto.
  - induction s; cbn; intros H; try discriminate; constructor; auto.
Qed.
Lemma get_keyed : forall {ty} ty_dec {V L W} (b : list (spec ty * stor V L W)) s x k w,
  proper b -> In (s, x) b -> keyed s k ->
  get ty_dec w k b = Some (get_of s w x) /\ has ty_dec k b = Some (has_of s x).
Proof.
  intros ty ty_dec V L W b s x k w [N _] I K. apply keyed_iff in K; subst k.
  unfold get, has. rewrite (lookup_of ty_dec _ _ _ N I). auto.
Qed.
