(** Proofs about enumerations, derived equality and hash. *)
From Coq Require Import List Bool NArith.
From Verif Require Import ExtraModel.
Import ListNotations.

Section Enum.
Context {E Name : Type} (eqb : E -> E -> bool) (name_eqb : Name -> Name -> bool).
Context (eqb_iff : forall a b, eqb a b = true <-> a = b).
Context (name_eqb_iff : forall a b, name_eqb a b = true <-> a = b).
Notation to_string := (to_string eqb).
Notation to_enum := (to_enum name_eqb).

Lemma to_string_spec : forall t v (n : Name), to_string t v = Some n <->
  exists pre post, t = pre ++ (v, n) :: post /\ forall m, ~ In (v, m) pre.
Proof.
  induction t as [|[x n0] t IH]; cbn; intros v n.
  - split; [discriminate|]. intros ([|] & post & H & _); discriminate.
  - destruct (eqb x v) eqn:E0.
    + apply eqb_iff in E0; subst x. split.
      * intros H; injection H as ->. exists [], t. cbn; auto.
      * intros ([|p pre] & post & H & N); cbn in H; injection H as H; [congruence|].
        subst p. exfalso. apply (N n0); left; reflexivity.
    + rewrite IH. split.
      * intros (pre & post & -> & N). exists ((x, n0) :: pre), post. split; [reflexivity|].
        intros m [H|H]; [injection H as -> _; rewrite (proj2 (eqb_iff v v) eq_refl) in E0; discriminate|].
        apply (N m); exact H.
      * intros ([|p pre] & post & H & N); cbn in H.
        -- injection H as -> _ _. rewrite (proj2 (eqb_iff v v) eq_refl) in E0; discriminate.
        -- injection H as _ H. exists pre, post. split; [exact H|].
           intros m Hm; apply (N m); right; exact Hm.
Qed.
Lemma to_string_none : forall t v, to_string t v = None <-> forall n : Name, ~ In (v, n) t.
Proof.
  induction t as [|[x n0] t IH]; cbn; intros v.
  - split; [auto|reflexivity].
  - destruct (eqb x v) eqn:E0.
    + apply eqb_iff in E0; subst x. split; [discriminate|]. intros H; exfalso; apply (H n0); left; reflexivity.
    + rewrite IH. split; [|intros H n Hn; apply (H n); right; exact Hn].
      intros H n [Hn|Hn]; [|apply (H n); exact Hn].
      injection Hn as -> _. rewrite (proj2 (eqb_iff v v) eq_refl) in E0; discriminate.
Qed.

Lemma to_enum_apply : forall (value_of : Name -> E) names s,
  to_enum (apply value_of names) s = if existsb (fun n => name_eqb n s) names then Some (value_of s) else None.
Proof.
  induction names as [|n names IH]; cbn; intros s; [reflexivity|].
  destruct (name_eqb n s) eqn:E0; cbn; [|apply IH].
  apply name_eqb_iff in E0; subst; reflexivity.
Qed.

Lemma in_apply : forall (value_of : Name -> E) names v n,
  In (v, n) (apply value_of names) <-> In n names /\ value_of n = v.
Proof.
  intros value_of names v n. unfold apply. rewrite in_map_iff. split.
  - intros (m & H & Hm). injection H as <- <-. auto.
  - intros [H <-]. eauto.
Qed.

Theorem round_trip : forall (value_of : Name -> E) names x, In x (map value_of names) ->
  exists n, to_string (apply value_of names) x = Some n /\ to_enum (apply value_of names) n = Some x /\ In n names.
Proof.
  intros value_of names x H.
  destruct (to_string (apply value_of names) x) as [n|] eqn:T.
  - exists n. split; [reflexivity|]. apply to_string_spec in T.
    destruct T as (pre & post & Eq & _).
    assert (In (x, n) (apply value_of names)) as I by (rewrite Eq; apply in_app_iff; right; left; reflexivity).
    apply in_apply in I. destruct I as [I V].
    rewrite to_enum_apply. split; [|exact I].
    rewrite (proj2 (existsb_exists _ _)); [congruence|]. exists n; split; [exact I|apply name_eqb_iff; reflexivity].
  - exfalso. rewrite to_string_none in T. apply in_map_iff in H. destruct H as (n & V & I).
    apply (T n), in_apply; auto.
Qed.

Theorem first_name : forall (value_of : Name -> E) names x n,
  to_string (apply value_of names) x = Some n <->
  exists pre post, names = pre ++ n :: post /\ value_of n = x /\ forall m, In m pre -> value_of m <> x.
Proof.
  intros value_of names x n. rewrite to_string_spec. unfold apply. split.
  - intros (pre & post & Eq & N).
    assert (forall l q p, map (fun n => (value_of n, n)) l = q ++ p -> exists l1 l2, l = l1 ++ l2 /\
              map (fun n => (value_of n, n)) l1 = q /\ map (fun n => (value_of n, n)) l2 = p) as K.
    { induction l as [|a l IH]; intros [|b q] p H; cbn in H.
      - exists [], []; auto. - discriminate.
      - exists [], (a :: l); auto.
      - injection H as <- H. destruct (IH _ _ H) as (l1 & l2 & -> & <- & <-). exists (a :: l1), l2; auto. }
    destruct (K _ _ _ Eq) as (l1 & [|a l2] & -> & <- & E2); [discriminate|].
    injection E2 as V -> _. exists l1, l2. split; [reflexivity|]. split; [exact V|].
    intros m Hm C. apply (N m). apply in_map_iff. exists m; split; [congruence|exact Hm].
  - intros (pre & post & -> & V & N). exists (map (fun n => (value_of n, n)) pre), (map (fun n => (value_of n, n)) post).
    split; [rewrite map_app; cbn; congruence|].
    intros m Hm. apply in_map_iff in Hm. destruct Hm as (m' & Q & Hm). injection Q as Q ->.
    apply (N m Hm Q).
Qed.

Theorem unknown_value : forall (value_of : Name -> E) names x,
  to_string (apply value_of names) x = None <-> ~ In x (map value_of names).
Proof.
  intros value_of names x. rewrite to_string_none, in_map_iff. split.
  - intros H (n & V & I). apply (H n), in_apply; auto.
  - intros H n I. apply in_apply in I. apply H. exists n; tauto.
Qed.
Theorem unknown_name : forall (value_of : Name -> E) names s,
  to_enum (apply value_of names) s = None <-> ~ In s names.
Proof.
  intros value_of names s. rewrite to_enum_apply.
  destruct (existsb (fun n => name_eqb n s) names) eqn:X.
  - apply existsb_exists in X. destruct X as (n & I & Q). apply name_eqb_iff in Q; subst n.
    split; [discriminate|contradiction].
  - split; [|reflexivity]. intros _ I.
    assert (existsb (fun n => name_eqb n s) names = true); [|congruence].
    apply existsb_exists. exists s; split; [exact I|apply name_eqb_iff; reflexivity].
Qed.
End Enum.

Section Derive.
Context {S : Type}.

Lemma fold_and : forall (ms : list (member S)) a b acc,
  fold_left (fun acc m => acc && meq m (mget m a) (mget m b)) ms acc = true <->
  acc = true /\ forall m, In m ms -> meq m (mget m a) (mget m b) = true.
Proof.
  induction ms as [|m ms IH]; cbn; intros a b acc.
  - split; [intros ->; auto|tauto].
  - rewrite IH, andb_true_iff. split.
    + intros [[A B] C]. split; [exact A|]. intros m' [<-|H]; auto.
    + intros [A B]. repeat split; auto.
Qed.

Theorem eq_iff : forall (ms : list (member S)) a b, derived_eq ms a b = true <->
  forall m, In m ms -> meq m (mget m a) (mget m b) = true.
Proof. intros; unfold derived_eq; rewrite fold_and; tauto. Qed.

Theorem hash_eq : forall bits seed (ms : list (member S)) a b,
  (forall m, In m ms -> forall x y, meq m x y = true -> mhash m x = mhash m y) ->
  seed a = seed b ->
  derived_eq ms a b = true -> derived_hash bits seed ms a = derived_hash bits seed ms b.
Proof.
  intros bits seed ms a b R S0 H. rewrite eq_iff in H. unfold derived_hash. rewrite S0.
  generalize (seed b). clear S0.
  induction ms as [|m ms IH]; cbn; intros s; [reflexivity|].
  rewrite (R m (or_introl eq_refl) _ _ (H m (or_introl eq_refl))).
  apply IH; intros; [eapply R; eauto; right; assumption|apply H; right; assumption].
Qed.

(** If the members tell objects apart so does the equality. *)
Theorem eq_leibniz : forall (ms : list (member S)),
  (forall m, In m ms -> forall x y, meq m x y = true <-> x = y) ->
  (forall a b : S, (forall m, In m ms -> mget m a = mget m b) -> a = b) ->
  forall a b, derived_eq ms a b = true <-> a = b.
Proof.
  intros ms R X a b. rewrite eq_iff. split.
  - intros H. apply X. intros m Hm. apply (R m Hm). apply H; exact Hm.
  - intros -> m Hm. apply (R m Hm). reflexivity.
Qed.
Theorem eq_equivalence : forall (ms : list (member S)),
  (forall m, In m ms -> (forall x, meq m x x = true) /\
     (forall x y, meq m x y = true -> meq m y x = true) /\
     (forall x y z, meq m x y = true -> meq m y z = true -> meq m x z = true)) ->
  (forall a, derived_eq ms a a = true) /\
  (forall a b, derived_eq ms a b = true -> derived_eq ms b a = true) /\
  (forall a b c, derived_eq ms a b = true -> derived_eq ms b c = true -> derived_eq ms a c = true).
Proof.
  intros ms H. split; [|split].
  - intros a. apply eq_iff. intros m Hm. destruct (H m Hm) as (R & _). apply R.
  - intros a b E. apply eq_iff. intros m Hm. destruct (H m Hm) as (_ & Y & _). apply Y. exact (proj1 (eq_iff _ _ _) E m Hm).
  - intros a b c E F. apply eq_iff. intros m Hm. destruct (H m Hm) as (_ & _ & T).
    eapply T; [exact (proj1 (eq_iff _ _ _) E m Hm)|exact (proj1 (eq_iff _ _ _) F m Hm)].
Qed.
End Derive.
