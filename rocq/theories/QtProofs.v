From Coq Require Import List Arith Bool Lia.
From Verif Require Import WatchModel WatchSpec WatchFrame WatchPass WatchLog WatchLaws WatchSilent WatchValues QtModel QtSpec.
Import ListNotations.

Section Proofs.
Context {V : Type}.
Variable veq : V -> V -> bool.
Notation st := (st V).
Notation op := (op V).
Notation qst := (qst V).
Notation qop := (qop V).
Notation tell := (tell veq).
Notation told := (told veq).

(** ** Fuel *)
Lemma one_more : forall fl f1, (forall t (s : st), exec fl t s <> OutOfFuel -> exec f1 t s = exec fl t s) ->
  forall t (s : st), exec (S fl) t s <> OutOfFuel -> exec (S f1) t s = exec (S fl) t s.
Proof.
  intros fl f1 IH t s H.
  assert (A : forall (t : task V) (s : st) (k k' : st -> res V), (forall s1, k s1 <> OutOfFuel -> k' s1 = k s1) ->
            andthen (exec fl t s) k <> OutOfFuel ->
            andthen (exec f1 t s) k' = andthen (exec fl t s) k).
  { intros t0 s0 k k' K N. rewrite IH by (intros E; rewrite E in N; contradiction).
    destruct (exec fl t0 s0); cbn [andthen] in *; auto. }
  destruct t as [[|x l]|p n [r|] v|p r v|p r [c|] v].
  1:reflexivity.
  1:{ destruct x; cbn [exec] in *.
      - auto.
      - destruct (get r s); auto.
      - destruct (get r s); auto.
      - destruct (get r s); auto. destruct (get r' s); auto.
      - destruct (get r s); auto. destruct (get r' s); auto.
      - destruct (get r s); auto.
      - destruct (get r s) as [o|]; auto. destruct (node o); auto. apply A; auto. intros s1 H1. destruct (get r s1); auto.
      - destruct (get r s) as [o|]; auto. destruct (node o); auto.
      - destruct (get r s); auto.
      - destruct (get r s); auto.
      - apply A; auto.
      - destruct (existsb _ _); auto. }
  all: cbn [exec] in *; try reflexivity.
  - apply A; [|exact H]. intros s1 H1. cbn beta in *. destruct (after r (obs s1 n)); auto.
  - destruct (get r (emit (EBegin p r) s)); auto.
  - destruct (get r s); auto. destruct (find c (cbs r0)); auto. apply A; [|exact H].
    intros s1 H1. cbn beta in *. destruct (get r s1); auto. destruct (after c _); auto.
Qed.
Lemma more_fuel : forall fuel t (s : st), exec fuel t s <> OutOfFuel -> exec (S fuel) t s = exec fuel t s.
Proof. induction fuel as [|fl IH]; intros t s H; [contradiction|]. now apply one_more. Qed.
Lemma enough : forall f f' t (s s' : st), f <= f' -> exec f t s = Done s' -> exec f' t s = Done s'.
Proof.
  intros f f' t s s' L. induction L as [|m L IH]; auto. intros H. rewrite more_fuel; auto. rewrite IH; auto. discriminate.
Qed.

Lemma join : forall f f' x l (s s1 s2 : st), exec f (TOps [x]) s = Done s1 -> exec f' (TOps l) s1 = Done s2 ->
  exists F, exec F (TOps (x :: l)) s = Done s2.
Proof.
  intros f f' x l s s1 s2 H H'. destruct f as [|fl]; [discriminate|].
  exists (S (fl + f')). assert (G' : exec (fl + f') (TOps l) s1 = Done s2) by (eapply enough; [|exact H']; lia).
  assert (N : forall a, exec fl (TOps []) a = Done s1 -> a = s1).
  { intros a Ea. destruct fl; [discriminate|]. now injection Ea. }
  assert (A : forall t a (k k' : st -> res V), andthen (exec fl t a) k = Done s1 ->
    (forall b, k b = Done s1 -> k' b = Done s2) -> andthen (exec (fl + f') t a) k' = Done s2).
  { intros t a k k' E K. destruct (exec fl t a) as [b| | |] eqn:Eb; try discriminate.
    rewrite (enough fl (fl + f') t a b) by (auto; lia). apply K, E. }
  destruct x; cbn [exec] in *;
    repeat match type of H with (match ?z with _ => _ end) = _ => destruct z eqn:?; try discriminate end;
    first [apply N in H; rewrite H; exact G'|idtac].
  - apply (A _ _ _ _ H). intros b Hb. destruct (get r b); [|discriminate]. apply N in Hb. now rewrite Hb.
  - apply (A _ _ _ _ H). intros b Hb. apply N in Hb. now rewrite Hb.
  - apply (A _ _ _ _ H). intros b Hb. apply N in Hb. now rewrite Hb.
Qed.

(** ** Steps that call no callback *)
Definition plain1 (x : op) : Prop := match x with Notify _ _ | Bind _ _ | Nudge _ => False | _ => True end.
Definition refs (x : op) : list nat :=
  match x with
  | Copy r | Move r | Watch r _ | Unbind r | Destroy r => [r]
  | Assign r r' | MoveAssign r r' => [r; r']
  | _ => []
  end.
Lemma calls_drop : forall r (l : list (event V)), calls (EDrop r :: l) = calls l.
Proof. intros. change (EDrop r :: l) with ([EDrop r] ++ l). rewrite calls_app. apply app_nil_r. Qed.
Lemma plain_calls : forall l fuel (s s' : st), Forall plain1 l -> exec fuel (TOps l) s = Done s' ->
  calls (log s') = calls (log s).
Proof.
  induction l as [|x l IH]; intros fuel s s' P H.
  - destruct fuel; [discriminate|]. now injection H as <-.
  - inversion_clear P as [|? ? Px Pl]. destruct (split_run _ _ _ _ _ H) as (fl & s1 & H1 & H2).
    rewrite (IH _ _ _ Pl H2). clear - Px H1. destruct (one _ _ _ _ H1) as [f ->].
    remember (S f) as g. assert (N : forall a, exec g (TOps []) a = Done s1 -> a = s1) by (subst g; intros a E; now injection E).
    clear Heqg.
    destruct x; try contradiction; cbn [exec] in H1;
      repeat match type of H1 with (match ?z with _ => _ end) = _ => destruct z eqn:?; try discriminate end;
      apply N in H1; subst s1; cbn [log new_obj set_obj unlink set_obs emit]; rewrite ?calls_drop; auto.
    + unfold relink. cbn [cbs node]. destruct (cbs r0), (node r1); cbn [log add set_obj unlink set_obs emit]; now rewrite ?calls_drop.
    + unfold relink. cbn [cbs node]. destruct (cbs r0), (node r1); cbn [log add set_obj unlink set_obs emit]; now rewrite ?calls_drop.
    + unfold do_watch. destruct (cbs r0), (node r0); reflexivity.
    + clear. generalize (obs s n). intros l. revert s. induction l as [|a m IHm]; intros s; cbn [fold_left]; auto.
      rewrite IHm. cbn [log unlink set_obs emit]. apply calls_drop.
Qed.
Lemma plain_runs : forall w k (s : st) x, matches w k s -> plain1 x -> (forall n, x <> Expire n) ->
  Forall (fun r => at_ w r <> None) (refs x) -> exists s', exec 2 (TOps [x]) s = Done s'.
Proof.
  intros w k s x (_ & _ & M) P NE R.
  assert (G : forall r, at_ w r <> None -> exists o, get r s = Some o).
  { intros r Hr. specialize (M r). destruct (at_ w r); [|contradiction]. destruct (get r s); [eauto|contradiction]. }
  destruct x; try contradiction; cbn [exec]; eauto; try (now contradiction (NE n));
    cbn in R; repeat match goal with H : Forall _ (_ :: _) |- _ => inversion_clear H end;
    repeat match goal with H : at_ w _ <> None |- _ => apply G in H as (? & ->) end; eauto.
Qed.

(** ** The state and the story *)
Definition rep (w : world) (ms : list (option nat)) (sh : list (option (option nat))) : Prop :=
  length ms = length sh /\
  (forall k, match nth k ms None, nth k sh None with
             | Some r, Some n => at_ w r = Some (O n n [k])
             | None, None => True
             | _, _ => False
             end) /\
  (forall r o, at_ w r = Some o -> exists k, nth k ms None = Some r).
Definition sound (w : world) (s : qst) (y : story) : Prop :=
  quiet (under s) /\ inv (under s) /\ matches w (length (members s)) (under s) /\
  rep w (members s) (shows y) /\ (forall n, value (under s) n = holds y n) /\
  (forall k, signals k s = said y k).

Lemma signals_calls : forall k (s : qst),
  signals k s = map snd (filter (fun x => fst x =? k) (calls (log (under s)))).
Proof.
  intros k s. unfold signals, calls. induction (rev (log (under s))) as [|e l IH]; auto. cbn [flat_map].
  rewrite IH, filter_app, map_app. f_equal. destruct e; auto. cbn. destruct (c =? k); auto.
Qed.
Lemma member_nth : forall k (s : qst), member k s = nth k (members s) None.
Proof.
  intros k s. unfold member. generalize (members s). induction k as [|k IH]; intros [|o l]; cbn; auto.
Qed.
Lemma now_same : forall k o l, k < length l -> nth k (now k o l) None = o.
Proof.
  intros. unfold now. rewrite app_nth2; rewrite firstn_length_le by lia; auto. now rewrite Nat.sub_diag.
Qed.
Lemma now_other : forall k j o l, k < length l -> j <> k -> nth j (now k o l) None = nth j l None.
Proof.
  induction k as [|k IH]; intros j o [|x l] L Ne; cbn in L; try lia; unfold now; cbn.
  - destruct j; [contradiction|auto].
  - destruct j; auto. cbn. apply IH; lia.
Qed.
Lemma now_length : forall k o l, k < length l -> length (now k o l) = length l.
Proof. intros. unfold now. rewrite app_length, firstn_length_le by lia. cbn [length]. rewrite skipn_length. lia. Qed.
Lemma nth_lt : forall {X} k (l : list (option X)) x, nth k l None = Some x -> k < length l.
Proof. intros X k l x E. destruct (Nat.lt_ge_cases k (length l)); auto. rewrite nth_overflow in E by auto. discriminate. Qed.
Lemma nth_set : forall {X} k j (o : option X) l, k < length l ->
  nth j (set_nth k o l) None = if j =? k then o else nth j l None.
Proof.
  induction k as [|k IH]; intros j o [|x l] L; cbn in L; try lia; destruct j; cbn; auto. apply IH. lia.
Qed.

(** Steps below that call nothing *)
Lemma below_plain : forall fuel l ms w (s : qst) y s', sound w s y ->
  Forall plain1 l -> silent l -> (forall x n v, In x l -> x <> Notify n v) ->
  below fuel l ms s = Fine s' ->
  let wk := fold_left (fun wk x => object_step x wk) l (w, length (members s)) in
  members s' = ms /\ quiet (under s') /\ inv (under s') /\ matches (fst wk) (snd wk) (under s') /\
  (forall n, value (under s') n = holds y n) /\ (forall k, signals k s' = said y k).
Proof.
  intros fuel l ms w s y s' (Qu & I & M & _ & Va & Si) P Sl NN H wk. unfold below in H.
  destruct (exec fuel (TOps l) (under s)) as [u| | |] eqn:E; try discriminate. injection H as <-.
  cbn [under members]. destruct (run_matches _ _ _ _ _ _ Sl Qu I M E) as [Q' M'].
  split; [auto|]. split; [auto|]. split; [apply (exec_good _ _ 0 _ _ I (Nat.le_0_l _) (ends_of _ _ E))|].
  split; [exact M'|]. split.
  - intros n. rewrite (run_value _ _ _ _ _ _ n Sl Qu I M E), <- Va. clear - NN. unfold latest.
    generalize (value (under s) n). induction l as [|x l IH]; intros v; auto. cbn [fold_left].
    destruct x; try (apply IH; intros; apply NN; now right).
    exfalso. eapply NN; [now left|reflexivity].
  - intros k. rewrite signals_calls. cbn [under]. rewrite (plain_calls _ _ _ _ P E), <- (Si k). symmetry. apply signals_calls.
Qed.

(** What a change of a node calls *)
Lemma followers : forall (s : st) w k n, inv s -> matches w k s ->
  NoDup (flat_map snd (attached s n)) /\
  forall c, In c (flat_map snd (attached s n)) <->
    exists r o, at_ w r = Some o /\ follows o = Some n /\ In c (has o).
Proof.
  intros s w k n I (_ & _ & M). split.
  - unfold attached. rewrite flat_map_concat_map, map_map, <- flat_map_concat_map.
    cbn [snd]. pose proof (i_nodup _ I n) as N. induction (obs s n) as [|r l IH]; cbn; [constructor|].
    inversion_clear N. apply nodup_app; auto; [apply (i_ids _ I)|].
    intros c Hc Hl. apply in_flat_map in Hl as (q & Hq & Hc'). pose proof (i_own _ I _ _ _ Hc Hc'). subst. contradiction.
  - intros c. split.
    + intros Hx. apply in_flat_map in Hx as ((r, l) & Hr & Hc).
      unfold attached in Hr. apply in_map_iff in Hr as (q & E & Hq). injection E as -> <-. cbn in Hc.
      specialize (M r). unfold ids in Hc. destruct (get r s) as [o'|]; [|contradiction].
      destruct (at_ w r) as [o|] eqn:Ao; [|contradiction]. destruct M as (_ & Mh & Mf).
      exists r, o. rewrite Mh, Mf. auto.
    + intros (r & o & Ao & Fo & Ho). apply in_flat_map. exists (r, ids s r).
      specialize (M r). rewrite Ao in M. destruct (get r s) as [o'|] eqn:G; [|contradiction].
      destruct M as (_ & Mh & Mf). split.
      * unfold attached. apply in_map_iff. exists r. split; auto. now apply Mf.
      * cbn. rewrite (ids_get _ _ _ G), <- Mh. auto.
Qed.
Lemma pick : forall l k (v : V), NoDup l ->
  map snd (filter (fun x => fst x =? k) (map (fun c => (c, v)) l)) = if existsb (Nat.eqb k) l then [v] else [].
Proof.
  induction l as [|c l IH]; intros k v N; auto. inversion_clear N as [|? ? Nc Nl]. cbn. rewrite (Nat.eqb_sym k c).
  destruct (c =? k) eqn:E; cbn; rewrite IH by auto; auto. apply Nat.eqb_eq in E. subst c.
  destruct (existsb (Nat.eqb k) l) eqn:X; auto. apply existsb_exists in X as (j & Hj & Ej).
  apply Nat.eqb_eq in Ej. subst. contradiction.
Qed.
Lemma notify_sound : forall fuel n v w (s : qst) y s', sound w s y ->
  below fuel [Notify n v] (members s) s = Fine s' -> sound w s' (change n v y).
Proof.
  intros fuel n v w s y s' (Qu & I & M & Rp & Va & Si) H. unfold below in H.
  destruct (exec fuel (TOps [Notify n v]) (under s)) as [u| | |] eqn:E; try discriminate. injection H as <-.
  assert (Sl : silent [Notify n v]) by (repeat constructor).
  destruct (run_matches _ _ _ _ _ _ Sl Qu I M E) as [Q' M']. cbn in M'.
  split; [exact Q'|]. split; [apply (exec_good _ _ 0 _ _ I (Nat.le_0_l _) (ends_of _ _ E))|].
  split; [exact M'|]. split; [exact Rp|]. split.
  - intros m. cbn [under]. rewrite (run_value _ _ _ _ _ _ m Sl Qu I M E). cbn. rewrite Nat.eqb_sym.
    destruct (m =? n); auto.
  - intros k. destruct (notify_silent _ _ _ _ _ I Qu E) as (new & L & C).
    rewrite signals_calls. cbn [under]. rewrite L, calls_app, C, filter_app, map_app.
    rewrite <- signals_calls, Si. unfold change. cbn [said]. f_equal.
    destruct (followers _ _ _ n I M) as [N F]. rewrite pick by exact N.
    destruct Rp as (Rl & Rk & Rr). specialize (Rk k) as Rk'. fold (shown k y) in Rk'.
    assert (X : forall b, (b = true <-> shown k y = Some (Some n)) ->
      (if b then [v] else []) = match shown k y with Some (Some m) => if m =? n then [v] else [] | _ => [] end).
    { intros b Hb. destruct (shown k y) as [[m|]|].
      - destruct (m =? n) eqn:Em.
        + apply Nat.eqb_eq in Em. subst. now rewrite (proj2 Hb).
        + destruct b; auto. pose proof (proj1 Hb eq_refl) as Z. injection Z as ->. now rewrite Nat.eqb_refl in Em.
      - destruct b; auto. now pose proof (proj1 Hb eq_refl).
      - destruct b; auto. now pose proof (proj1 Hb eq_refl). }
    apply X. rewrite existsb_exists. split.
    + intros (c & Hc & Ec). apply Nat.eqb_eq in Ec. subst c. apply F in Hc as (r & o & Ao & Fo & Ho).
      destruct (Rr _ _ Ao) as (j & Hj). specialize (Rk j). rewrite Hj in Rk.
      destruct (nth j (shows y) None) as [m|] eqn:Ej; [|contradiction]. rewrite Ao in Rk. injection Rk as ->.
      cbn in Fo, Ho. destruct Ho as [->|[]]. unfold shown. now rewrite Ej, Fo.
    + intros Es. rewrite Es in Rk'. destruct (nth k (members s) None) as [r|]; [|contradiction].
      exists k. split; [|apply Nat.eqb_refl]. apply F. exists r. eexists. split; [exact Rk'|]. cbn. auto.
Qed.
End Proofs.
