(** Proofs about contexts and lists of actions. *)
From Coq Require Import List Bool Arith Lia Eqdep_dec.
From Verif Require Import DepsModel DepsSpec DepsProofs ContextModel ContextSpec.
Import ListNotations.

Section Lists.
Context {ty : Type} (is_convertible : ty -> ty -> bool).
Notation accepts := (accepts is_convertible).
Notation merge_step := (merge_step is_convertible).
Notation merge_lists := (merge_lists is_convertible).
Notation irredundant := (irredundant is_convertible).

Lemma has_convertible_iff : forall l x, has_convertible is_convertible l x = true <-> accepts l x.
Proof.
  intros l x; unfold has_convertible.
  destruct (find (fun t => is_convertible x t) l) as [y|] eqn:F.
  - apply find_some in F. split; [|reflexivity]. intros _; exists y; exact F.
  - split; [discriminate|]. intros (y & Hy & C). pose proof (find_none _ _ F y Hy) as N; cbn in N; congruence.
Qed.

Lemma merge_step_eq : forall acc x, merge_step acc x = if has_convertible is_convertible acc x then acc else acc ++ [x].
Proof.
  intros acc x; unfold ContextModel.merge_step.
  destruct (has_convertible is_convertible acc x) eqn:H; [reflexivity|].
  f_equal. unfold remove_convertibles.
  assert (forall t, In t acc -> is_convertible x t = false) as N.
  { intros t Ht. destruct (is_convertible x t) eqn:E; [|reflexivity].
    assert (has_convertible is_convertible acc x = true) by (apply has_convertible_iff; exists t; auto).
    congruence. }
  clear H. induction acc as [|t acc IH]; cbn; [reflexivity|].
  rewrite (N t) by (left; reflexivity). cbn. rewrite IH; [reflexivity|].
  intros t' H'; apply N; right; exact H'.
Qed.

Lemma merge_prefix : forall a2 a1, exists rest, merge_lists a1 a2 = a1 ++ rest /\ some_of rest a2.
Proof.
  induction a2 as [|x a2 IH]; intros a1.
  - exists []. split; [cbn; rewrite app_nil_r; reflexivity|constructor].
  - unfold ContextModel.merge_lists; cbn [fold_left].
    destruct (IH (merge_step a1 x)) as (rest & E & S).
    unfold ContextModel.merge_lists in E. rewrite E, merge_step_eq.
    destruct (has_convertible is_convertible a1 x).
    + exists rest; split; [reflexivity|constructor; exact S].
    + exists (x :: rest). rewrite <- app_assoc. split; [reflexivity|constructor; exact S].
Qed.

Lemma some_of_in : forall (l l' : list ty), some_of l l' -> incl l l'.
Proof.
  induction 1; intros y H0; [exact H0| |right; auto].
  destruct H0 as [->|H0]; [left; reflexivity|right; auto].
Qed.

Lemma merge_in1 : forall a1 a2, incl a1 (merge_lists a1 a2).
Proof.
  intros a1 a2 y H. destruct (merge_prefix a2 a1) as (rest & -> & _). apply in_app_iff; auto.
Qed.
Lemma merge_only : forall a1 a2, incl (merge_lists a1 a2) (a1 ++ a2).
Proof.
  intros a1 a2 y H. destruct (merge_prefix a2 a1) as (rest & E & S). rewrite E in H.
  apply in_app_iff in H. apply in_app_iff. destruct H; [auto|right; apply (some_of_in _ _ S); assumption].
Qed.

Lemma merge_listed : (forall x, is_convertible x x = true) ->
  forall a2 a1 x, In x (a1 ++ a2) -> accepts (merge_lists a1 a2) x.
Proof.
  intros R. induction a2 as [|z a2 IH]; intros a1 x H.
  - rewrite app_nil_r in H. exists x; auto.
  - unfold ContextModel.merge_lists; cbn [fold_left]. fold (merge_lists (merge_step a1 z) a2).
    apply in_app_iff in H. destruct H as [H|[->|H]].
    + exists x; split; [|apply R]. apply merge_in1. rewrite merge_step_eq.
      destruct (has_convertible is_convertible a1 z); [exact H|apply in_app_iff; auto].
    + rewrite merge_step_eq. destruct (has_convertible is_convertible a1 x) eqn:C.
      * apply has_convertible_iff in C. destruct C as (y & Hy & C). exists y; split; [|exact C].
        apply merge_in1; exact Hy.
      * exists x; split; [|apply R]. apply merge_in1, in_app_iff; cbn; auto.
    + apply IH, in_app_iff; auto.
Qed.

Theorem merge_accepts : (forall x, is_convertible x x = true) ->
  (forall x y z, is_convertible x y = true -> is_convertible y z = true -> is_convertible x z = true) ->
  forall a1 a2 x, accepts (merge_lists a1 a2) x <-> accepts a1 x \/ accepts a2 x.
Proof.
  intros R T a1 a2 x; split.
  - intros (y & Hy & C). apply merge_only, in_app_iff in Hy.
    destruct Hy; [left|right]; exists y; auto.
  - intros H. assert (exists y, In y (a1 ++ a2) /\ is_convertible x y = true) as (y & Hy & C).
    { destruct H as [(y & Hy & C)|(y & Hy & C)]; exists y; rewrite in_app_iff; auto. }
    destruct (merge_listed R _ _ _ Hy) as (z & Hz & C'). exists z; eauto.
Qed.

Lemma irredundant_snoc : forall l x, irredundant l -> ~ accepts l x -> irredundant (l ++ [x]).
Proof.
  intros l x I N pre u mid v post E.
  destruct (exists_last (l := v :: post)) as (q & z & Ez); [discriminate|].
  rewrite Ez in E. rewrite app_comm_cons, !app_assoc in E.
  apply app_inj_tail in E. destruct E as [E ->].
  destruct q as [|v' q]; cbn in Ez.
  - injection Ez as -> ->. destruct (is_convertible z u) eqn:C; [|reflexivity].
    exfalso. apply N. exists u; split; [|exact C]. rewrite E, app_nil_r. apply in_app_iff; cbn; auto.
  - injection Ez as <- ->. apply (I pre u mid v q). rewrite E, <- app_assoc. reflexivity.
Qed.

Theorem merge_irredundant : forall a2 a1, irredundant a1 -> irredundant (merge_lists a1 a2).
Proof.
  induction a2 as [|x a2 IH]; intros a1 I; [exact I|].
  unfold ContextModel.merge_lists; cbn [fold_left]. fold (merge_lists (merge_step a1 x) a2).
  apply IH. rewrite merge_step_eq. destruct (has_convertible is_convertible a1 x) eqn:C; [exact I|].
  apply irredundant_snoc; [exact I|]. intros A. apply has_convertible_iff in A. congruence.
Qed.

(** What comes from the second list is not convertible to anything before it. *)
Theorem merge_new : forall a2 a1 pre y post, merge_lists a1 a2 = a1 ++ pre ++ y :: post ->
  forall x, In x (a1 ++ pre) -> is_convertible y x = false.
Proof.
  induction a2 as [|z a2 IH]; intros a1 pre y post E x Hx.
  - cbn in E. exfalso. rewrite <- (app_nil_r a1) in E at 1. apply app_inv_head in E.
    destruct pre; discriminate.
  - unfold ContextModel.merge_lists in E; cbn [fold_left] in E. fold (merge_lists (merge_step a1 z) a2) in E.
    rewrite merge_step_eq in E. destruct (has_convertible is_convertible a1 z) eqn:C.
    + eapply IH; eauto.
    + destruct pre as [|p pre].
      * destruct (merge_prefix a2 (a1 ++ [z])) as (rest & E' & _). rewrite E', <- app_assoc in E.
        apply app_inv_head in E. cbn in E. injection E as -> _. rewrite app_nil_r in Hx.
        destruct (is_convertible y x) eqn:F; [|reflexivity].
        assert (has_convertible is_convertible a1 y = true) by (apply has_convertible_iff; exists x; auto).
        congruence.
      * destruct (merge_prefix a2 (a1 ++ [z])) as (rest & E' & _). pose proof E as E0.
        rewrite E', <- app_assoc in E.
        apply app_inv_head in E. cbn in E. injection E as -> _.
        apply (IH (a1 ++ [p]) pre y post); [rewrite E0, <- app_assoc; reflexivity|].
        rewrite <- app_assoc; exact Hx.
Qed.

Theorem merge_actions_some : forall t1 t2 m, merge_actions is_convertible t1 t2 = Some m ->
  as_actions m = merge_lists (as_actions t1) (as_actions t2).
Proof.
  intros t1 t2 m H. unfold merge_actions in H.
  destruct ((length (as_actions t1) =? 0) || (length (as_actions t2) =? 0)); [discriminate|].
  destruct (merge_lists (as_actions t1) (as_actions t2)) as [|x [|y l]]; injection H as <-; reflexivity.
Qed.
Theorem merge_actions_defined : forall t1 t2, as_actions t1 <> [] -> as_actions t2 <> [] ->
  exists m, merge_actions is_convertible t1 t2 = Some m.
Proof.
  intros t1 t2 N1 N2. unfold merge_actions.
  destruct (as_actions t1) as [|x1 l1] eqn:E1; [contradiction|].
  destruct (as_actions t2) as [|x2 l2] eqn:E2; [contradiction|]. cbn [length Nat.eqb orb].
  destruct (merge_lists (x1 :: l1) (x2 :: l2)) as [|x [|y l]]; eauto.
Qed.
End Lists.

Section Contexts.
Context {ty : Type} (ty_dec : forall a b : ty, {a = b} + {a <> b}).
Context (val : ty -> Type) (conv : forall a b : ty, option (val a -> val b)).
Context {R V L W LP : Type} (deref : W -> L -> V).
Notation disp := (@disp ty val R).
Notation context := (@context ty val R V L W LP).
Notation step := (@step ty val W).

Lemma all_some_in : forall A B (f : A -> option B) l r, all_some f l = Some r ->
  Forall2 (fun a b => f a = Some b) l r.
Proof.
  induction l as [|a l IH]; cbn; intros r H.
  - injection H as <-; constructor.
  - destruct (f a) as [b|] eqn:E; [|discriminate].
    destruct (all_some f l) as [r'|]; [|discriminate]. injection H as <-.
    constructor; [exact E|]. apply IH; reflexivity.
Qed.
Lemma all_some_defined : forall A B (f : A -> option B) l, (forall a, In a l -> f a <> None) ->
  exists r, all_some f l = Some r.
Proof.
  induction l as [|a l IH]; cbn; intros H; [eauto|].
  destruct (f a) as [b|] eqn:E; [|destruct (H a); auto].
  destruct IH as (r & ->); eauto.
Qed.
Lemma all_some_map : forall A B C (f : A -> option B) (g : B -> C) (h : A -> C) l r,
  (forall a b, f a = Some b -> g b = h a) -> all_some f l = Some r -> map g r = map h l.
Proof.
  induction l as [|a l IH]; cbn; intros r K H; [injection H as <-; reflexivity|].
  destruct (f a) as [b|] eqn:E; [|discriminate].
  destruct (all_some f l) as [r'|]; [|discriminate]. injection H as <-. cbn.
  rewrite (K _ _ E), (IH r'); auto.
Qed.

Lemma entry_for_in : forall a (d : disp) f, entry_for val conv a d = Some f ->
  exists b g c, In (existT _ b g) d /\ conv a b = Some c /\ forall x, f x = g (c x).
Proof.
  induction d as [|[b g] d IH]; cbn; intros f H; [discriminate|].
  destruct (conv a b) as [c|] eqn:C.
  - injection H as <-. exists b, g, c. auto.
  - destruct (IH _ H) as (b' & g' & c' & I & E). exists b', g', c'; auto.
Qed.
Lemma entry_for_defined : forall a (d : disp), existsb (fun t => convertible val conv a t) (types val d) = true ->
  exists f, entry_for val conv a d = Some f.
Proof.
  induction d as [|[b g] d IH]; cbn; intros H; [discriminate|].
  unfold convertible at 1 in H. destruct (conv a b) as [c|]; [eauto|apply IH; exact H].
Qed.

(** The function for each action of a context does to [x] what the store does to the
    action carried. *)
Definition sound (root : ty) (deliver : val root -> R) (back : list step) (d : disp) : Prop :=
  types val d = actions_after val root back /\
  forall a f, In (existT _ a f) d -> forall x, exists y, carries val conv root back a x y /\ f x = deliver y.

Lemma in_types : forall b g (d : disp), In (existT _ b g) d -> In b (types val d).
Proof. intros b g d H. apply (in_map (fun e => projT1 e) _ _ H). Qed.

Lemma root_sound : forall root deliver d, root_disp val conv root deliver [root] = Some d ->
  sound root deliver [] d.
Proof.
  intros root deliver d H. unfold root_disp in H; cbn in H.
  destruct (conv root root) as [c|] eqn:C; [|discriminate]. injection H as <-.
  split; [reflexivity|]. intros a f [E|[]] x.
  pose proof (f_equal (@projT1 _ _) E) as Ea; cbn in Ea. subst a.
  apply (Eqdep_dec.inj_pair2_eq_dec ty ty_dec) in E. subst f.
  exists (c x); split; [constructor; exact C|reflexivity].
Qed.

Lemma in_entry : forall (l : list ty) (F : ty -> option {a : ty & val a -> R}) d,
  all_some F l = Some d -> (forall a e, F a = Some e -> projT1 e = a) ->
  types val d = l /\ forall a f, In (existT _ a f) d -> In a l /\ F a = Some (existT _ a f).
Proof.
  intros l F d H K. split.
  - rewrite <- (map_id l). unfold types. apply (all_some_map _ _ _ F); auto.
  - apply all_some_in in H. intros a f Hf.
    induction H as [|b e l d Hb H IH]; [contradiction|].
    destruct Hf as [->|Hf].
    + pose proof (K _ _ Hb) as E; cbn in E; subst b. split; [left; reflexivity|exact Hb].
    + destruct (IH Hf); split; [right|]; assumption.
Qed.

Lemma convert_disp_sound : forall root deliver back d s d',
  sound root deliver back d -> sconv s = None ->
  convert_disp ty_dec val conv (sactions s) d = Some d' -> sound root deliver (s :: back) d'.
Proof.
  intros root deliver back d s d' [T S] N H. unfold convert_disp in H.
  destruct (list_eq_dec ty_dec (sactions s) (types val d)) as [E|_].
  - injection H as <-. split; [cbn; congruence|].
    intros a f Hf x. destruct (S a f Hf x) as (y & Cy & Ey).
    exists y; split; [|exact Ey]. apply C_copy; [exact N|congruence|exact Cy].
  - apply in_entry in H as [T' I].
    2: { intros a e He. destruct (entry_for val conv a d); [injection He as <-; reflexivity|discriminate]. }
    split; [exact T'|]. intros a f Hf x. destruct (I a f Hf) as [Ia Fa].
    destruct (entry_for val conv a d) as [f'|] eqn:En; [|discriminate].
    injection Fa as Fa. apply (Eqdep_dec.inj_pair2_eq_dec ty ty_dec) in Fa. subst f'.
    apply entry_for_in in En. destruct En as (b & g & c & Ib & C & Ef).
    destruct (S b g Ib (c x)) as (y & Cy & Ey). exists y; split; [|congruence].
    eapply C_direct; eauto. rewrite <- T. eapply in_types; eauto.
Qed.

Lemma convert_disp_with_sound : forall root deliver back d s k d',
  sound root deliver back d -> sconv s = Some k ->
  convert_disp_with val conv k (sactions s) d = Some d' -> sound root deliver (s :: back) d'.
Proof.
  intros root deliver back d s k d' [T S] N H. unfold convert_disp_with in H.
  apply in_entry in H as [T' I].
  2: { intros a e He. destruct (k a) as [[r g]|]; [|discriminate].
       destruct (entry_for val conv r d); [injection He as <-; reflexivity|discriminate]. }
  split; [exact T'|]. intros a f Hf x. destruct (I a f Hf) as [Ia Fa].
  destruct (k a) as [[r h]|] eqn:K; [|discriminate].
  destruct (entry_for val conv r d) as [f'|] eqn:En; [|discriminate].
  injection Fa as Fa. apply (Eqdep_dec.inj_pair2_eq_dec ty ty_dec) in Fa. subst f.
  apply entry_for_in in En. destruct En as (b & g & c & Ib & C & Ef).
  destruct (S b g Ib (c (h x))) as (y & Cy & Ey). exists y; split; [|rewrite Ef; exact Ey].
  eapply C_with; eauto. rewrite <- T. eapply in_types; eauto.
Qed.

Lemma convert_context_made : forall s (c c' : context),
  convert_context ty_dec val conv deref s c = Made c' ->
  convert ty_dec deref (sworld s) (sdeps s) (cdeps c) = Made (cdeps c') /\ cloop c' = cloop c /\
  match sconv s with
  | None => convert_disp ty_dec val conv (sactions s) (cdisp c) = Some (cdisp c')
  | Some k => convert_disp_with val conv k (sactions s) (cdisp c) = Some (cdisp c')
  end.
Proof.
  intros s c c' H. unfold convert_context in H. destruct (sconv s) as [k|].
  - destruct (are_compatible_with val conv k _ _); [|discriminate].
    destruct (convert _ _ _ _ _) as [| |d]; try discriminate.
    destruct (convert_disp_with val conv k _ _) as [f|]; [|discriminate]. injection H as <-. auto.
  - destruct (are_compatible val conv _ _); [|discriminate].
    destruct (convert _ _ _ _ _) as [| |d]; try discriminate.
    destruct (convert_disp ty_dec val conv _ _) as [f|]; [|discriminate]. injection H as <-. auto.
Qed.

Lemma hand_down_sound : forall root deliver steps back (c c' : context),
  sound root deliver back (cdisp c) -> hand_down ty_dec val conv deref c steps = Made c' ->
  sound root deliver (rev steps ++ back) (cdisp c') /\ cloop c' = cloop c /\
  pass_on ty_dec deref (cdeps c) (map (fun s => (sworld s, sdeps s)) steps) = Made (cdeps c').
Proof.
  intros root deliver. induction steps as [|s steps IH]; cbn; intros back c c' S H.
  - injection H as <-. auto.
  - destruct (convert_context ty_dec val conv deref s c) as [| |m] eqn:C; try discriminate.
    apply convert_context_made in C. destruct C as (D & Lm & K). rewrite D.
    destruct (IH (s :: back) m c') as (A & B & E); [|exact H|].
    + destruct (sconv s) as [k|] eqn:N.
      * eapply convert_disp_with_sound; eauto.
      * eapply convert_disp_sound; eauto.
    + rewrite <- app_assoc. split; [exact A|]. split; [congruence|exact E].
Qed.

Lemma exact_entry_in : forall a (d : disp) f, exact_entry ty_dec val a d = Some f ->
  exists g, In (existT _ a g) d /\ forall x, f x = g x.
Proof.
  induction d as [|[b g] d IH]; cbn; intros f H; [discriminate|].
  destruct (ty_dec b a) as [E|_].
  - subst b. injection H as <-. exists g; auto.
  - destruct (IH _ H) as (g' & I & E). exists g'; auto.
Qed.
Lemma exact_entry_none : forall a (d : disp), exact_entry ty_dec val a d = None <-> ~ In a (types val d).
Proof.
  induction d as [|[b g] d IH]; cbn; [tauto|].
  destruct (ty_dec b a) as [E|N].
  - split; [discriminate|tauto].
  - rewrite IH. tauto.
Qed.

Theorem dispatch_arrives : forall root deliver loop deps (c0 c : context) steps a f,
  store_context val conv root deliver loop deps = Some c0 ->
  hand_down ty_dec val conv deref c0 steps = Made c ->
  dispatch ty_dec val conv c a = Some f ->
  forall x, exists y, arrives val conv root (rev steps) a x y /\ f x = deliver y.
Proof.
  intros root deliver loop deps c0 c steps a f H0 H D x.
  unfold store_context in H0. destruct (root_disp val conv root deliver [root]) as [d|] eqn:E; [|discriminate].
  injection H0 as <-. apply root_sound in E.
  destruct (hand_down_sound root deliver steps [] (Ctx deps d loop) c E H) as ([T S] & _ & _).
  rewrite app_nil_r in T, S.
  unfold dispatch, call in D. destruct (exact_entry ty_dec val a (cdisp c)) as [f'|] eqn:X.
  - injection D as ->. pose proof X as X'. apply exact_entry_in in X. destruct X as (g & Ig & Ef).
    destruct (S a g Ig x) as (y & Cy & Ey). exists y; split; [|congruence].
    left; split; [|exact Cy]. rewrite <- T. eapply in_types; eauto.
  - apply exact_entry_none in X. destruct (viable val conv a (cdisp c)) as [|e [|]]; try discriminate.
    apply entry_for_in in D. destruct D as (b & g & c' & Ib & C & Ef).
    destruct (S b g Ib (c' x)) as (y & Cy & Ey). exists y; split; [|congruence].
    right; split; [rewrite <- T; exact X|]. exists b, c'. split; [rewrite <- T; eapply in_types; eauto|auto].
Qed.

Theorem handed_down : forall root deliver loop deps (c0 c : context) steps,
  store_context val conv root deliver loop deps = Some c0 ->
  hand_down ty_dec val conv deref c0 steps = Made c ->
  cloop c = loop /\
  pass_on ty_dec deref deps (map (fun s => (sworld s, sdeps s)) steps) = Made (cdeps c).
Proof.
  intros root deliver loop deps c0 c steps H0 H.
  unfold store_context in H0. destruct (root_disp val conv root deliver [root]) as [d|] eqn:E; [|discriminate].
  injection H0 as <-. apply root_sound in E.
  destruct (hand_down_sound root deliver steps [] (Ctx deps d loop) c E H) as (_ & A & B). auto.
Qed.

(** Every action listed can be dispatched. *)
Theorem dispatch_listed : forall root deliver loop deps (c0 c : context) steps a,
  store_context val conv root deliver loop deps = Some c0 ->
  hand_down ty_dec val conv deref c0 steps = Made c ->
  In a (actions_after val root (rev steps)) ->
  exists f, dispatch ty_dec val conv c a = Some f.
Proof.
  intros root deliver loop deps c0 c steps a H0 H I.
  unfold store_context in H0. destruct (root_disp val conv root deliver [root]) as [d|] eqn:E; [|discriminate].
  injection H0 as <-. apply root_sound in E.
  destruct (hand_down_sound root deliver steps [] (Ctx deps d loop) c E H) as ([T _] & _ & _).
  rewrite app_nil_r in T. unfold dispatch, call.
  destruct (exact_entry ty_dec val a (cdisp c)) as [f|] eqn:X; [eauto|].
  apply exact_entry_none in X. rewrite T in X. contradiction.
Qed.

(** The conditions under which the constructors take part in overload resolution are
    enough for them to compile. *)
Theorem convertible_enough : forall s (c : context) d,
  match sconv s with
  | None => are_compatible val conv (sactions s) (types val (cdisp c)) = true
  | Some k => are_compatible_with val conv k (sactions s) (types val (cdisp c)) = true
  end ->
  convert ty_dec deref (sworld s) (sdeps s) (cdeps c) = Made d ->
  exists c', convert_context ty_dec val conv deref s c = Made c'.
Proof.
  intros s c d H D. unfold convert_context. rewrite D. destruct (sconv s) as [k|].
  - rewrite H. unfold are_compatible_with in H. rewrite forallb_forall in H.
    destruct (convert_disp_with val conv k (sactions s) (cdisp c)) as [f|] eqn:E; [eauto|].
    exfalso. unfold convert_disp_with in E.
    match type of E with all_some ?F ?l = None => destruct (all_some_defined _ _ F l) as (r & Er) end;
      [|congruence].
    intros a Ha. specialize (H a Ha). destruct (k a) as [[r g]|]; [|discriminate].
    destruct (entry_for_defined r (cdisp c) H) as (f & ->). discriminate.
  - rewrite H. unfold are_compatible in H. rewrite forallb_forall in H.
    destruct (convert_disp ty_dec val conv (sactions s) (cdisp c)) as [f|] eqn:E; [eauto|].
    exfalso. unfold convert_disp in E.
    destruct (list_eq_dec ty_dec (sactions s) (types val (cdisp c))); [discriminate|].
    match type of E with all_some ?F ?l = None => destruct (all_some_defined _ _ F l) as (r & Er) end;
      [|congruence].
    intros a Ha. specialize (H a Ha).
    destruct (entry_for_defined a (cdisp c) H) as (f & ->). discriminate.
Qed.
Lemma fitting_iff : forall (s : step) (c : context),
  fitting val conv s (types val (cdisp c)) <->
  match sconv s with
  | None => are_compatible val conv (sactions s) (types val (cdisp c)) = true
  | Some k => are_compatible_with val conv k (sactions s) (types val (cdisp c)) = true
  end.
Proof.
  intros s c. unfold fitting, are_compatible, are_compatible_with, convertible. destruct (sconv s) as [k|];
    rewrite forallb_forall; split; intros H a I; specialize (H a I).
  - destruct H as (r & g & b & E & Ib & Cb). rewrite E. apply existsb_exists. exists b. split; [exact Ib|].
    destruct (conv r b); congruence.
  - destruct (k a) as [[r g]|]; [|discriminate]. apply existsb_exists in H. destruct H as (b & Ib & Cb).
    exists r, g, b. split; [reflexivity|]. split; [exact Ib|]. destruct (conv r b); congruence.
  - destruct H as (b & Ib & Cb). apply existsb_exists. exists b. split; [exact Ib|].
    destruct (conv a b); congruence.
  - apply existsb_exists in H. destruct H as (b & Ib & Cb). exists b. split; [exact Ib|]. destruct (conv a b); congruence.
Qed.
Theorem convert_context_exact : forall s (c : context),
  ((exists c', convert_context ty_dec val conv deref s c = Made c') <->
   fitting val conv s (types val (cdisp c)) /\
   exists d, convert ty_dec deref (sworld s) (sdeps s) (cdeps c) = Made d) /\
  (convert_context ty_dec val conv deref s c = Thrown <->
   fitting val conv s (types val (cdisp c)) /\
   convert ty_dec deref (sworld s) (sdeps s) (cdeps c) = Thrown).
Proof.
  intros s c. rewrite fitting_iff. split; split.
  - intros (c' & H). unfold convert_context in H.
    destruct (sconv s); [destruct (are_compatible_with _ _ _ _ _)|destruct (are_compatible _ _ _ _)]; try discriminate;
      (split; [reflexivity|]); destruct (convert ty_dec deref _ _ _); try discriminate; eauto.
  - intros (C & d & D). apply (convertible_enough s c d C D).
  - intros H. unfold convert_context in H.
    destruct (sconv s) as [k|];
      [destruct (are_compatible_with _ _ k _ _); [|discriminate]|destruct (are_compatible _ _ _ _); [|discriminate]];
      (split; [reflexivity|]); destruct (convert ty_dec deref _ _ _); try discriminate; try reflexivity.
    + destruct (convert_disp_with _ _ _ _ _); discriminate.
    + destruct (convert_disp _ _ _ _ _); discriminate.
  - intros (C & D). unfold convert_context. destruct (sconv s); rewrite C, D; reflexivity.
Qed.

(** Meanings. *)
Lemma carries_mean : forall M (mean : forall a, val a -> M), kept_by_conversion val conv mean ->
  forall root (back : list step) a x y, carries val conv root back a x y ->
  forall ms, Forall2 (acts_as val mean) back ms ->
  mean root y = fold_left (fun v m => m v) ms (mean a x).
Proof.
  intros M mean K root back a x y C.
  induction C as [c x Hc|s back a x y N E C IH|s back a b c x y N Ia Ib Hc C IH
                 |s back k a r g b c x y N Ia Hk Ib Hc C IH]; intros ms F.
  - inversion F; subst. cbn. apply (K _ _ _ _ Hc).
  - inversion F as [|s0 m0 back0 ms0 A F']; subst. cbn. unfold acts_as in A. rewrite N in A.
    rewrite A. apply IH; exact F'.
  - inversion F as [|s0 m0 back0 ms0 A F']; subst. cbn. unfold acts_as in A. rewrite N in A.
    rewrite A, <- (K _ _ _ x Hc). apply IH; exact F'.
  - inversion F as [|s0 m0 back0 ms0 A F']; subst. cbn. unfold acts_as in A. rewrite N in A.
    rewrite <- (A a r g x Hk), <- (K _ _ _ (g x) Hc). apply IH; exact F'.
Qed.

Theorem dispatch_means : forall M (mean : forall a, val a -> M), kept_by_conversion val conv mean ->
  forall root deliver loop deps (c0 c : context) steps a f,
  store_context val conv root deliver loop deps = Some c0 ->
  hand_down ty_dec val conv deref c0 steps = Made c ->
  dispatch ty_dec val conv c a = Some f ->
  forall ms, Forall2 (acts_as val mean) (rev steps) ms ->
  forall x, exists y, f x = deliver y /\ mean root y = fold_left (fun v m => m v) ms (mean a x).
Proof.
  intros M mean K root deliver loop deps c0 c steps a f H0 H D ms F x.
  destruct (dispatch_arrives root deliver loop deps c0 c steps a f H0 H D x) as (y & A & E).
  exists y; split; [exact E|].
  destruct A as [[_ A]|(_ & b & c' & _ & C & A)].
  - eapply carries_mean; eauto.
  - rewrite <- (K _ _ _ x C). eapply carries_mean; eauto.
Qed.
End Contexts.

Lemma find_convertible_first : forall (ty : Type) (is_convertible : ty -> ty -> bool) a l t,
  find_convertible is_convertible a l = Some t <->
  exists pre post, l = pre ++ t :: post /\ is_convertible a t = true /\
                   forall u, In u pre -> is_convertible a u = false.
Proof.
  intros ty is_convertible a l t. unfold find_convertible. induction l as [|u l IH]; cbn.
  - split; [discriminate|]. intros (pre & post & E & _). destruct pre; discriminate.
  - destruct (is_convertible a u) eqn:C.
    + split.
      * intros H. injection H as <-. exists [], l. cbn. intuition.
      * intros (pre & post & E & C' & N). destruct pre as [|v pre]; cbn in E; injection E as E1 E2; subst; [reflexivity|].
        rewrite (N v (or_introl eq_refl)) in C. discriminate.
    + rewrite IH. split.
      * intros (pre & post & -> & C' & N). exists (u :: pre), post. split; [reflexivity|]. split; [exact C'|].
        intros v [<-|I]; auto.
      * intros (pre & post & E & C' & N). destruct pre as [|v pre]; cbn in E; injection E as E1 E2; subst; [congruence|].
        exists pre, post. split; [reflexivity|]. split; [exact C'|]. intros w I. apply N. right. exact I.
Qed.
