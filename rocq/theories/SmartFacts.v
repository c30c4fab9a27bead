From Coq Require Import List Arith Bool Lia.
From Verif Require Import LensModel LensSpec LensProofs SmartModel SmartSpec SmartProofs.
Import ListNotations.

(** ** Types *)
Lemma leads_fun : forall t p e d, leads t p e d -> forall e' d', leads t p e' d' -> e = e' /\ d = d'.
Proof.
  induction 1; intros e' d' H'; inversion H'; subst; auto.
  - match goal with X : leads t (s :: p) e' _ |- _ => now destruct (IHleads _ _ X); subst end.
  - match goal with X : leads t p e' _ |- _ => now destruct (IHleads _ _ X); subst end.
  - match goal with X : leads t p e' _ |- _ => now destruct (IHleads _ _ X); subst end.
  - match goal with X : nth_member ms n = Some _, Y : leads _ p e' _ |- _ =>
      rewrite H in X; inversion X; subst; now destruct (IHleads _ _ Y); subst end.
Qed.
Lemma leads_cons : forall t s p e d, leads t (s :: p) e d <->
  exists e1 d1 d2, leads t [s] e1 d1 /\ leads e1 p e d2 /\ d = d1 && d2.
Proof.
  split.
  - remember (s :: p) as sp eqn:E. intros H. revert s p E.
    induction H; intros s0 p0 E; inversion E; subst.
    + destruct (IHleads _ _ eq_refl) as (e1 & d1 & d2 & A & B & C).
      exists e1, false, d2. repeat split; auto. econstructor; eauto.
    + exists t, false, d. repeat split; auto. econstructor; constructor.
    + exists t, false, d. repeat split; auto. econstructor; constructor.
    + exists m, true, d. repeat split; auto. econstructor; eauto. constructor.
  - intros (e1 & d1 & d2 & A & B & ->). remember [s] as q eqn:E. revert E B.
    induction A; intros E B; inversion E; subst.
    + eapply LOpt. apply IHA; auto.
    + inversion A; subst. econstructor; eauto.
    + inversion A; subst. econstructor; eauto.
    + inversion A; subst. econstructor; eauto.
Qed.
Lemma leads_shown : forall d1 k e1 s p e d, leads (shown d1 k e1) (s :: p) e d <->
  exists d2, leads e1 (s :: p) e d2 /\ d = d1 && d2.
Proof.
  assert (O : forall t s p e d, leads (TOpt t) (s :: p) e d <-> exists d2, leads t (s :: p) e d2 /\ d = false).
  { split. - intros H. inversion H; subst. eauto. - intros (d2 & H & ->). econstructor; eauto. }
  intros [|] k e1 s p e d; unfold shown.
  - split; [intros H; exists d; auto|]. intros (d2 & H & ->). exact H.
  - destruct k; [apply O|]. destruct e1; try apply O.
    rewrite O. setoid_rewrite O. split; intros (d2 & H & ->); [exists false; eauto|].
    destruct H as (d3 & H & ->); eauto.
Qed.

Definition part_type {t} (L : part t) : ty := projT1 L.
Lemma make_type : forall t s q, option_map part_type (make t (arg_of s)) = Some q <->
  exists e d, leads t [s] e d /\ q = shown d (key_step s) e.
Proof.
  assert (W : forall t (L : part t), part_type (with_opt L) = match part_type L with TOpt u => TOpt u | u => TOpt u end)
    by (intros t [[] l]; reflexivity).
  induction t as [|t IH|b t IH|b t IH|c ms]; intros s q.
  - split; [destruct s; discriminate|]. intros (e & d & H & _). inversion H.
  - assert (E : make (TOpt t) (arg_of s) = option_map with_opt (make t (arg_of s))) by (destruct s; reflexivity).
    rewrite E. clear E. specialize (IH s). destruct (make t (arg_of s)) as [L|]; simpl in *.
    + rewrite W. split.
      * intros H. inversion H. subst q. destruct (proj1 (IH _) eq_refl) as (e & d & A & B).
        exists e, false. split; [econstructor; eauto|]. rewrite B. destruct s; simpl.
        -- inversion A; subst; reflexivity.
        -- destruct d, e; reflexivity.
      * intros (e & d & A & B). inversion A; subst. f_equal.
        match goal with X : leads t [s] e ?d |- _ =>
          assert (Y := proj2 (IH (shown d (key_step s) e)) (ex_intro _ e (ex_intro _ d (conj X eq_refl))));
          inversion Y as [Z]; rewrite Z; destruct s; simpl; [inversion X; subst; reflexivity|];
          destruct d, e; reflexivity end.
    + split; [discriminate|]. intros (e & d & A & B). inversion A; subst.
      match goal with X : leads t [s] e ?d |- _ =>
        assert (Y := proj2 (IH (shown d (key_step s) e)) (ex_intro _ e (ex_intro _ d (conj X eq_refl)))) end.
      discriminate.
  - destruct s as [k|c n].
    + split.
      * intros H. exists t, false. split; [repeat econstructor|]. destruct b; inversion H; reflexivity.
      * intros (e & d & H & ->). inversion H; subst.
        match goal with X : leads t [] _ _ |- _ => inversion X; subst end. destruct b; reflexivity.
    + split; [destruct b; discriminate|]. intros (e & d & H & _). inversion H.
  - destruct s as [k|c n].
    + split.
      * intros H. exists t, false. split; [repeat econstructor|]. destruct b; inversion H; reflexivity.
      * intros (e & d & H & ->). inversion H; subst.
        match goal with X : leads t [] _ _ |- _ => inversion X; subst end. destruct b; reflexivity.
    + split; [destruct b; discriminate|]. intros (e & d & H & _). inversion H.
  - destruct s as [k|c' n].
    + split; [discriminate|]. intros (e & d & H & _). inversion H.
    + simpl. pose proof (member_fits ms n) as M. pose proof (member_none ms n) as N. split.
      * destruct (c' =? c) eqn:E; [|discriminate]. apply Nat.eqb_eq in E. subst c'.
        destruct (member_at ms n) as [[u m]|]; [|discriminate]. intros H. inversion H. subst q.
        destruct (M _ eq_refl) as (A & _). exists u, true. split; [|reflexivity]. econstructor; eauto. constructor.
      * intros (e & d & H & ->). inversion H; subst. rewrite Nat.eqb_refl.
        match goal with X : leads _ [] _ _ |- _ => inversion X; subst end.
        match goal with X : nth_member ms n = Some _ |- _ => rename X into NM end.
        destruct (member_at ms n) as [[u m]|].
        -- destruct (M _ eq_refl) as (A & _). rewrite A in NM. inversion NM. subst u. reflexivity.
        -- destruct N as [N _]. rewrite N in NM by reflexivity. discriminate.
Qed.

Lemma brackets_type : forall t r (L : part t),
  option_map part_type (brackets L r) = option_map part_type (select (part_type L) r).
Proof.
  intros t r. revert t. induction r as [|a r IH]; intros t [q l]; [reflexivity|]. simpl.
  destruct (make q a) as [[u l2]|]; [|reflexivity]. now rewrite !IH.
Qed.
Lemma select_type : forall p t q, option_map part_type (select t (map arg_of p)) = Some q <->
  exists e d, leads t p e d /\ q = shown d (by_key p) e.
Proof.
  induction p as [|s p IH]; intros t q.
  - simpl. split.
    + intros H. inversion H. exists q, true. split; [constructor|reflexivity].
    + intros (e & d & H & ->). inversion H; subst. reflexivity.
  - simpl map. simpl select. pose proof (make_type t s) as M.
    destruct (make t (arg_of s)) as [L|].
    + rewrite brackets_type, IH. simpl in M. destruct (proj1 (M _) eq_refl) as (e1 & d1 & A & B).
      rewrite B. destruct p as [|s' p].
      * split.
        -- intros (e & d & H & ->). inversion H; subst. exists e1, d1. split; [|reflexivity]. assumption.
        -- intros (e & d & H & ->). destruct (leads_fun _ _ _ _ A _ _ H); subst.
           eexists _, true. split; [constructor|reflexivity].
      * setoid_rewrite leads_shown. setoid_rewrite (leads_cons t). rewrite by_key_more. split.
        -- intros (e & d & (d2 & H & ->) & ->). exists e, (d1 && d2). split; auto. exists e1, d1, d2. auto.
        -- intros (e & d & (e1' & d1' & d2 & H & H' & ->) & ->).
           destruct (leads_fun _ _ _ _ A _ _ H); subst. exists e, (d1' && d2). split; eauto.
    + split; [discriminate|]. intros (e & d & H & ->). apply leads_cons in H as (e1 & d1 & d2 & H & _).
      specialize (M (shown d1 (key_step s) e1)). destruct M as [_ M]. discriminate M. eauto.
Qed.

(** ** Trees of values of a type *)
Scheme ty_ind2 := Induction for ty Sort Prop with members_ind2 := Induction for members Sort Prop.
Lemma map_inj : forall A B (f : A -> B), (forall x y, f x = f y -> x = y) -> forall l l', map f l = map f l' -> l = l'.
Proof.
  intros A B f F. induction l as [|x l IH]; intros [|y l'] H; simpl in H; try discriminate; auto.
  inversion H. f_equal; auto.
Qed.
Lemma tree_inj : forall t (x y : den t), tree_of t x = tree_of t y -> x = y.
Proof.
  apply (ty_ind2 (fun t => forall x y : den t, tree_of t x = tree_of t y -> x = y)
                 (fun ms => forall x y : dens ms, trees_of ms x = trees_of ms y -> x = y)); simpl.
  - intros x y H. now inversion H.
  - intros t IH [x|] [y|] H; simpl in H; try discriminate; auto. inversion H. f_equal. auto.
  - intros b t IH x y H. inversion H. eapply map_inj; eauto.
  - intros b t IH x y H. inversion H. eapply map_inj; [|eassumption].
    intros [i x'] [j y'] E. simpl in E. inversion E. f_equal. auto.
  - intros c ms IH x y H. inversion H. auto.
  - intros [] [] _. reflexivity.
  - intros t IH ms IHm [x r] [y r'] H. simpl in H. inversion H. f_equal; auto.
Qed.

Lemma trees_nth : forall ms n m x, nth_member ms n = Some m ->
  exists z, nth_error (trees_of ms x) n = Some (tree_of m z).
Proof.
  induction ms as [|a r IH]; intros [|n] m x H; simpl in H; try discriminate.
  - inversion H; subst. eexists. reflexivity.
  - simpl. now apply IH.
Qed.
Lemma at_key_map : forall A (f : A -> tree) l k w,
  option_map snd (find (fun e => fst e =? k) (map (fun e => (fst e, f (snd e))) l)) = Some w -> exists z, w = f z.
Proof.
  intros A f. induction l as [|[i a] l IH]; intros k w H; simpl in H; [discriminate|].
  destruct (i =? k); simpl in H; eauto. inversion H. eauto.
Qed.
Lemma leads_tree : forall t p e d, leads t p e d -> forall x,
  direct p (tree_of t x) = d /\ forall w, place p (tree_of t x) = Some w -> exists z, w = tree_of e z.
Proof.
  induction 1; intros x.
  - split; [reflexivity|]. intros w H. inversion H. eauto.
  - split. + destruct s; destruct x; reflexivity.
    + intros w. destruct x as [x|]; [|simpl; discriminate]. exact (proj2 (IHleads x) w).
  - split; [reflexivity|]. intros w H'. simpl in H'. rewrite nth_error_map in H'.
    destruct (@nth_error (den t) x k) as [y|]; simpl in H'; [|discriminate]. apply (proj2 (IHleads y) w H').
  - split; [reflexivity|]. intros w H'. simpl in H'.
    match type of H' with match ?a with _ => _ end = _ => destruct a as [v|] eqn:E end; [|discriminate].
    apply at_key_map in E as [z ->]. apply (proj2 (IHleads z) w H').
  - destruct (trees_nth ms n m x H) as [z Z]. split.
    + simpl. rewrite Nat.eqb_refl, Z. apply IHleads.
    + intros w H'. simpl in H'. rewrite Nat.eqb_refl, Z in H'. apply (proj2 (IHleads z) w H').
Qed.

(** ** Laws *)
Section Selected.
Variables (t q : ty) (p : list step) (l : lens (den t) (den q)).
Hypothesis S : select t (map arg_of p) = Some (existT _ q l).
Lemma sel_view : forall x, tree_of q (view l x) = read p (tree_of t x).
Proof. exact (proj1 (proj2 (select_fits _ _ _ S))). Qed.
Lemma sel_set : forall x y, tree_of t (set l x y) = write p (tree_of q y) (tree_of t x).
Proof. exact (proj2 (proj2 (select_fits _ _ _ S))). Qed.
Lemma sel_leads : exists e d, leads t p e d /\ q = shown d (by_key p) e.
Proof. apply select_type. now rewrite S. Qed.

Lemma sel_missing : forall x y, place p (tree_of t x) = None -> set l x y = x.
Proof.
  intros x y H. apply tree_inj. rewrite sel_set. unfold write. apply changed_at_same. congruence.
Qed.
Lemma sel_empty : forall x y, direct p (tree_of t x) = false -> tree_of q y = Opt None -> set l x y = x.
Proof.
  intros x y D H. apply tree_inj. rewrite sel_set. unfold write. rewrite D, H.
  apply changed_at_same. reflexivity.
Qed.
Lemma sel_get_put : forall x, set l x (view l x) = x.
Proof.
  intros x. apply tree_inj. rewrite sel_set, sel_view. unfold write, read.
  apply changed_at_same. intros e E. rewrite E. destruct (direct p (tree_of t x)); [reflexivity|].
  unfold as_opt, new_value. destruct (by_key p); simpl; auto.
  destruct (is_opt e) eqn:O; simpl; rewrite ?O; auto. destruct e as [|[e|]| | |]; simpl; auto; discriminate.
Qed.
Lemma new_value_typed : forall e d, leads t p e d -> q = shown d (by_key p) e -> forall y z,
  (d = false -> tree_of q y <> Opt None) ->
  is_opt (new_value d (by_key p) (tree_of q y) (tree_of e z)) = is_topt e /\
  (if d then new_value d (by_key p) (tree_of q y) (tree_of e z)
   else as_opt (by_key p) (new_value d (by_key p) (tree_of q y) (tree_of e z))) = tree_of q y.
Proof.
  intros e d L Q y z N. destruct d; simpl in *.
  - split; [|reflexivity]. rewrite is_opt_tree. now rewrite Q.
  - unfold shown in Q. destruct (by_key p) eqn:K.
    + subst q. destruct y as [y|]; [|destruct N; auto]. simpl. split; [apply is_opt_tree|reflexivity].
    + rewrite is_opt_tree. destruct e as [|e|b e|b e|c ms]; simpl in Q; subst q; simpl in *;
      (destruct y as [y|]; [|destruct N; auto]); split; reflexivity.
Qed.
Lemma sel_put_get : forall x y, place p (tree_of t x) <> None ->
  (direct p (tree_of t x) = false -> tree_of q y <> Opt None) -> view l (set l x y) = y.
Proof.
  intros x y P N. apply tree_inj. rewrite sel_view, sel_set. unfold read, write.
  rewrite place_changed_at, direct_changed_at.
  destruct sel_leads as (e & d & L & Q). destruct (leads_tree _ _ _ _ L x) as [D T]. rewrite D in *.
  destruct (place p (tree_of t x)) as [w|]; [|congruence]. destruct (T w eq_refl) as [z ->]. simpl.
  apply (new_value_typed _ _ L Q y z N).
Qed.
Lemma sel_put_put : forall x y y', (direct p (tree_of t x) = false -> tree_of q y' <> Opt None) ->
  set l (set l x y) y' = set l x y'.
Proof.
  intros x y y' N. apply tree_inj. rewrite !sel_set. unfold write.
  rewrite direct_changed_at, changed_at_twice. apply changed_at_ext. intros w P.
  destruct sel_leads as (e & d & L & Q). destruct (leads_tree _ _ _ _ L x) as [D T]. rewrite D in *.
  destruct (T w P) as [z ->]. destruct d; [reflexivity|].
  specialize (N eq_refl). unfold new_value at 1. unfold new_value at 2.
  destruct (tree_of q y') as [|[u|]| | |] eqn:Y'; try congruence;
    try (unfold shown in Q; assert (O : is_opt (tree_of q y') = true)
      by (rewrite is_opt_tree, Q; destruct (by_key p); [reflexivity|]; destruct e; reflexivity);
      rewrite Y' in O; discriminate).
  destruct (by_key p) eqn:K; [reflexivity|]. simpl negb. cbn [andb].
  destruct (tree_of q y) as [|[u'|]| | |] eqn:Y; try reflexivity.
  assert (E : is_opt (new_value false false (tree_of q y) (tree_of e z)) = is_topt e).
  { destruct (new_value_typed _ _ L (eq_trans Q (f_equal (fun k => shown false k e) (eq_sym K))) y z) as [X _];
      [now rewrite Y|]. now rewrite K in X. }
  rewrite Y in E. simpl in E. simpl. rewrite is_opt_tree in *. now rewrite E.
Qed.
End Selected.

Lemma sel_elsewhere : forall t p q l r k m,
  select t (map arg_of p) = Some (existT _ q l) -> select t (map arg_of r) = Some (existT _ k m) ->
  part_ways p r -> forall x y, view m (set l x y) = view m x.
Proof.
  intros t p q l r k m L M H x y. apply tree_inj.
  rewrite !(sel_view _ _ _ _ M), (sel_set _ _ _ _ L). unfold read, write.
  now destruct (elsewhere p r (new_value (direct p (tree_of t x)) (by_key p) (tree_of q y)) (tree_of t x) H) as [-> ->].
Qed.

(** ** Lens objects *)
Lemma make_as_is : forall t w L, on w t = Some L -> make t (Obj w) = Some L.
Proof. intros [| | | |] w L H; simpl; auto. now rewrite H. Qed.

Definition lifts (n : nat) (t q : ty) (l : lens (den t) (den q)) (L : part (opts n t)) : Prop :=
  match L with
  | existT _ q' l' =>
      q' = shown false false q /\
      (forall x, deep n t x = None -> tree_of q' (view l' x) = Opt None /\ forall y, set l' x y = x) /\
      (forall v, tree_of q' (view l' (wrap n t v)) = as_opt false (tree_of q (view l v))) /\
      (forall v y, tree_of q' y = Opt None -> set l' (wrap n t v) y = wrap n t v) /\
      (forall v y z, tree_of q' y = as_opt false (tree_of q z) -> tree_of q z <> Opt None ->
         set l' (wrap n t v) y = wrap n t (set l v z))
  end.

Lemma lifts_one : forall t q l, lifts 1 t q l (with_opt (existT _ q l)).
Proof.
  intros t q l. destruct q as [|q|b q|b q|c ms].
  2:{ simpl. repeat split; try (destruct x as [x|]; [discriminate|reflexivity]).
      - intros v [y|] H; [discriminate|reflexivity].
      - intros v [y|] [z|] H N; simpl in *; try congruence.
        unfold as_opt in H. simpl in H. inversion H. apply tree_inj in H1. subst z. reflexivity. }
  all: simpl; repeat split; try (destruct x as [x|]; [discriminate|reflexivity]).
  all: intros v [y|]; try discriminate; try reflexivity; intros z H N; simpl in H; inversion H;
    match goal with |- context [set ?l v z] => match type of l with lens _ (den ?q) =>
      assert (E : y = z) by (apply (tree_inj q); unfold as_opt in H; simpl in *; congruence); subst z; reflexivity end end.
Qed.
Lemma lifts_more : forall n t q l L, lifts (S n) t q l L -> lifts (S (S n)) t q l (with_opt L).
Proof.
  intros n t q l [q' l'] (Q & M & V & E & W).
  assert (O : exists u, q' = TOpt u) by (subst q'; unfold shown; destruct q; eauto).
  destruct O as [u ->]. simpl. split; [exact Q|]. split; [|split; [|split]].
  - intros [x|] D; [|split; reflexivity]. destruct (M x D) as [A B]. split; [exact A|].
    intros [y|]; [|reflexivity]. exact (f_equal Some (B (Some y))).
  - intros v. exact (V v).
  - intros v [y|] H; [discriminate|reflexivity].
  - intros v [y|] z H N.
    + exact (f_equal Some (W v (Some y) z H N)).
    + exfalso. unfold as_opt in H. simpl in H. destruct (tree_of q z) as [|[|]| | |]; simpl in H; congruence.
Qed.

Lemma object_lifted : forall w t q l n, on w t = Some (existT _ q l) -> constrained w = true ->
  (forall k, k <= n -> on w (opts (S k) t) = None) ->
  exists L, make (opts (S n) t) (Obj w) = Some L /\ lifts (S n) t q l L.
Proof.
  intros w t q l n H C N. induction n as [|n IH].
  - exists (with_opt (existT _ q l)). split; [|apply lifts_one].
    cbn [opts make]. assert (N0 := N 0 (le_n 0)). simpl opts in N0. rewrite N0, C.
    now rewrite (make_as_is _ _ _ H).
  - destruct IH as (L & A & B); [auto|]. exists (with_opt L). split; [|now apply lifts_more].
    change (opts (S (S n)) t) with (TOpt (opts (S n) t)). cbn [make].
    assert (N0 := N (S n) (le_n _)). change (opts (S (S n)) t) with (TOpt (opts (S n) t)) in N0.
    rewrite N0, C. now rewrite A.
Qed.

Lemma select_types : forall t p q,
  (exists l, select t (map arg_of p) = Some (existT _ q l)) <->
  exists e d, leads t p e d /\ q = shown d (by_key p) e.
Proof.
  intros t p q. rewrite <- select_type. destruct (select t (map arg_of p)) as [[u l]|]; simpl.
  - split. + intros [m H]. inversion H. reflexivity. + intros H. inversion H. subst u. eexists. reflexivity.
  - split; [intros [m H]; discriminate|discriminate].
Qed.
Lemma object_lifts : forall w t q l n, on w t = Some (existT _ q l) -> constrained w = true ->
  (forall k, k <= n -> on w (opts (S k) t) = None) ->
  exists q' l', make (opts (S n) t) (Obj w) = Some (existT _ q' l') /\
    q' = shown false false q /\
    (forall x, deep (S n) t x = None -> tree_of q' (view l' x) = Opt None /\ forall y, set l' x y = x) /\
    (forall v, tree_of q' (view l' (wrap (S n) t v)) = as_opt false (tree_of q (view l v))) /\
    (forall v y, tree_of q' y = Opt None -> set l' (wrap (S n) t v) y = wrap (S n) t v) /\
    (forall v y z, tree_of q' y = as_opt false (tree_of q z) -> tree_of q z <> Opt None ->
       set l' (wrap (S n) t v) y = wrap (S n) t (set l v z)).
Proof.
  intros w t q l n H C N. destruct (object_lifted w t q l n H C N) as ([q' l'] & A & B).
  exists q', l'. split; [exact A|exact B].
Qed.
