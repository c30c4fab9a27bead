From Coq Require Import List Bool Arith Lia.
From Verif Require Import UtilModel UtilSpec UtilProofs.
Import ListNotations.

Section Types.
Variable conv : nat -> nat -> option conversion.
Notation better := (better conv). Notation viable := (viable conv).

Lemma one : forall a w, ics_of conv (sig_of (ty a) w) [a] =
  match w with
  | T_ | A_ => Some [Ics Exact (ty a) NoRef]
  | TC | AC => Some [Ics Exact (ty a) (Bound true false (rv a))]
  | TL => if negb (cst a) && negb (rv a) then Some [Ics Exact (ty a) (Bound false false false)] else None
  | TR => if rv a && negb (cst a) then Some [Ics Exact (ty a) (Bound false true true)] else None
  | AL => if negb (rv a) || cst a then Some [Ics Exact (ty a) (Bound (cst a) false (rv a))] else None
  | AF => Some [Ics Exact (ty a) (Bound (cst a) (rv a) (rv a))]
  end.
Proof.
  intros [t [|] [|]] []; cbn; rewrite ?Nat.eqb_refl; reflexivity.
Qed.
Ltac compute_one t :=
  unfold UtilModel.better, UtilModel.viable; rewrite ?one; cbn [cst rv ty negb andb orb];
  cbn; rewrite ?Nat.eqb_refl; reflexivity.
Theorem viable_ways : forall a w,
  viable [a] (sig_of (ty a) w) = true <-> w = T_ \/ w = A_ \/ In w (ladder (cst a) (rv a)).
Proof.
  intros [t c r] w. split.
  - unfold UtilModel.viable. rewrite one. destruct c, r, w; cbn; try discriminate; intros _; tauto.
  - intros H. unfold UtilModel.viable. rewrite one. destruct c, r, w; cbn in *; auto; exfalso;
      repeat destruct H as [H|H]; try discriminate; auto.
Qed.
Theorem ladder_better : forall a i j w u, nth_error (ladder (cst a) (rv a)) i = Some w ->
  nth_error (ladder (cst a) (rv a)) j = Some u -> i < j ->
  better [a] (sig_of (ty a) w) (sig_of (ty a) u) = true.
Proof.
  intros [t c r] i j w u. cbn [cst rv ty]. destruct c, r; cbn [ladder];
    destruct i as [|[|[|[|[|i]]]]]; cbn [nth_error]; intros H; try (destruct i; discriminate); try discriminate; injection H as <-;
    destruct j as [|[|[|[|[|j]]]]]; cbn [nth_error]; intros H; try (destruct j; discriminate); try discriminate; injection H as <-;
    intros L; try lia; unfold UtilModel.better; rewrite (one (Arg t _ _)), (one (Arg t _ _)); cbn; rewrite ?Nat.eqb_refl; reflexivity.
Qed.
Theorem by_value : forall a w, w <> T_ -> viable [a] (sig_of (ty a) w) = true ->
  (plain_way w -> better [a] (sig_of (ty a) T_) (sig_of (ty a) w) = false /\ better [a] (sig_of (ty a) w) (sig_of (ty a) T_) = false) /\
  (~ plain_way w -> better [a] (sig_of (ty a) T_) (sig_of (ty a) w) = true).
Proof.
  intros [t c r] w N V. unfold UtilModel.viable in V. rewrite one in V. unfold UtilModel.better. rewrite !(one (Arg t c r)). unfold plain_way.
  destruct c, r, w; cbn in *; try discriminate; try contradiction; (split; [intros H|intros H]); rewrite ?Nat.eqb_refl; auto;
    try (exfalso; repeat destruct H as [H|H]; try discriminate; auto; fail); exfalso; apply H; tauto.
Qed.
Theorem by_auto : forall a w, w <> A_ -> viable [a] (sig_of (ty a) w) = true ->
  (plain_way w -> better [a] (sig_of (ty a) w) (sig_of (ty a) A_) = true) /\
  (~ plain_way w -> better [a] (sig_of (ty a) A_) (sig_of (ty a) w) = false /\ better [a] (sig_of (ty a) w) (sig_of (ty a) A_) = false).
Proof.
  intros [t c r] w N V. unfold UtilModel.viable in V. rewrite one in V. unfold UtilModel.better. rewrite !(one (Arg t c r)). unfold plain_way.
  destruct c, r, w; cbn in *; try discriminate; try contradiction; (split; [intros H|intros H]); rewrite ?Nat.eqb_refl; auto;
    try (exfalso; repeat destruct H as [H|H]; try discriminate; auto; fail); exfalso; apply H; tauto.
Qed.

(** ** Conversions *)
Lemma converted : forall p t a, takes_type p t -> t <> ty a ->
  plain_ics conv p a = option_map (fun c => Ics (By c) t
     match p with ByVal _ => NoRef | CRef _ => Bound true false true | _ => Bound false true true end) (conv (ty a) t).
Proof.
  intros p t a [-> |[-> | ->]] N; cbn; apply Nat.eqb_neq in N; now rewrite N.
Qed.
Theorem unlike : forall p t a, takes_type p t -> t <> ty a ->
  viable [a] (Plain [p]) = match conv (ty a) t with Some _ => true | None => false end.
Proof.
  intros p t a T N. unfold UtilModel.viable. cbn [ics_of all2]. rewrite (converted p t a) by auto. destruct (conv (ty a) t); reflexivity.
Qed.
Theorem exact_first : forall p q t a, takes_type q t -> t <> ty a -> viable [a] (Plain [q]) = true ->
  In p [ByVal (ty a); CRef (ty a); LRef (ty a); RRef (ty a)] -> viable [a] (Plain [p]) = true ->
  better [a] (Plain [p]) (Plain [q]) = true.
Proof.
  intros p q t a T N V I W. unfold UtilModel.viable, UtilModel.better in *. cbn [ics_of all2] in *.
  rewrite (converted q t a) in * by auto. destruct (conv (ty a) t) as [c|]; cbn [option_map] in *; [|discriminate].
  destruct I as [<-|[<-|[<-|[<-|[]]]]]; cbn [plain_ics] in *; rewrite ?Nat.eqb_refl in *; cbn [andb] in *.
  - destruct c, q; reflexivity.
  - destruct c, q; cbn; reflexivity.
  - destruct (negb (cst a) && negb (rv a)); [|discriminate]. destruct c, q; cbn; reflexivity.
  - destruct (rv a && negb (cst a)); [|discriminate]. destruct c, q; cbn; reflexivity.
Qed.
Theorem ranks : forall p q t u a c d, takes_type p t -> takes_type q u -> t <> ty a -> u <> ty a ->
  conv (ty a) t = Some c -> conv (ty a) u = Some d -> worse_than d c ->
  better [a] (Plain [p]) (Plain [q]) = true.
Proof.
  intros p q t u a c d T U N M C D W. unfold UtilModel.better. cbn [ics_of all2].
  rewrite (converted p t a), (converted q u a) by auto. rewrite C, D. cbn [option_map].
  destruct W as [[-> ->]|[[-> ->]|[-> ->]]]; reflexivity.
Qed.
(** Of the same rank: only an rvalue reference is better than an lvalue reference, and for
    conversions of users' only to the same type. *)
Theorem same_rank : forall p q t u a c, takes_type p t -> takes_type q u -> t <> ty a -> u <> ty a ->
  conv (ty a) t = Some c -> conv (ty a) u = Some c ->
  better [a] (Plain [p]) (Plain [q]) = true <->
  p = RRef t /\ q = CRef u /\ (c = User -> t = u).
Proof.
  intros p q t u a c T U N M C D. unfold UtilModel.better. cbn [ics_of all2].
  rewrite (converted p t a), (converted q u a) by auto. rewrite C, D. cbn [option_map].
  destruct T as [-> |[-> | ->]], U as [-> |[-> | ->]]; (split; [|intros (A & B & E); try discriminate]);
   try (destruct c; cbn; rewrite ?andb_false_r; cbn; discriminate).
  - destruct c; cbn; [intros _; repeat split; discriminate|intros _; repeat split; discriminate|].
    destruct (Nat.eqb_spec t u) as [-> |X]; cbn; [auto|].
    destruct (Nat.eqb_spec u t) as [-> |Y]; cbn; [auto|discriminate].
  - destruct c; cbn; rewrite ?andb_false_r; auto. rewrite E by auto. now rewrite Nat.eqb_refl.
Qed.

(** ** Several arguments *)
Lemma all2_nth : forall A B C (f : A -> B -> option C) l k r, all2 f l k = Some r ->
  forall i, match nth_error l i, nth_error k i with
            | Some a, Some b => exists c, f a b = Some c /\ nth_error r i = Some c
            | None, None => nth_error r i = None
            | _, _ => False
            end.
Proof.
  induction l as [|a l IH]; intros [|b k] r H; cbn in H; try discriminate.
  - injection H as <-. intros [|i]; cbn; auto.
  - destruct (f a b) as [c|] eqn:E; [|discriminate]. destruct (all2 f l k) as [r'|] eqn:R; [|discriminate].
    injection H as <-. intros [|i]; cbn; [eauto|]. apply (IH k r' R i).
Qed.
Lemma some_better_nth : forall l k, some_better l k = true <->
  exists i a b, nth_error l i = Some a /\ nth_error k i = Some b /\ better_ics a b = true.
Proof.
  unfold some_better. induction l as [|a l IH]; intros [|b k]; cbn [combine existsb]; (split; [|intros (i & x & y & X & Y & B)]);
    try discriminate; try (destruct i; cbn in *; discriminate).
  - intros H. apply orb_prop in H as [H|H]; [exists 0, a, b; auto|].
    apply IH in H as (i & x & y & X & Y & B). exists (S i), x, y. auto.
  - destruct i as [|i]; cbn in *; [injection X as <-; injection Y as <-; now rewrite B|].
    apply orb_true_iff. right. apply IH. exists i, x, y. auto.
Qed.
Theorem each_position : forall l ps qs, viable l (Plain ps) = true -> viable l (Plain qs) = true ->
  better l (Plain ps) (Plain qs) = true <->
  (forall k a p q, position l ps k a p -> position l qs k a q -> better [a] (Plain [q]) (Plain [p]) = false) /\
  (exists k a p q, position l ps k a p /\ position l qs k a q /\ better [a] (Plain [p]) (Plain [q]) = true).
Proof.
  intros l ps qs V W. unfold UtilModel.viable in V, W. unfold UtilModel.better at 1. cbn [ics_of] in *.
  destruct (all2 (plain_ics conv) ps l) as [k1|] eqn:E1; [|discriminate].
  destruct (all2 (plain_ics conv) qs l) as [k2|] eqn:E2; [|discriminate].
  cbn [is_plain more_special]. rewrite andb_false_r, !orb_false_r.
  assert (O : forall a p q x y, plain_ics conv p a = Some x -> plain_ics conv q a = Some y ->
    better [a] (Plain [p]) (Plain [q]) = negb (better_ics y x) && better_ics x y).
  { intros a p q x y X Y. unfold UtilModel.better. cbn [ics_of all2]. rewrite X, Y. unfold some_better. cbn [combine existsb fst snd is_plain more_special].
    now rewrite !orb_false_r. }
  assert (Ok : forall a p x, plain_ics conv p a = Some x -> bd x <> Bound false false true).
  { intros a p x X. destruct p; cbn in X.
    - destruct (t =? ty a); [injection X as <-; discriminate|]. destruct (conv (ty a) t); [injection X as <-; discriminate|discriminate].
    - destruct (t =? ty a); [injection X as <-; discriminate|]. destruct (conv (ty a) t); [injection X as <-; discriminate|discriminate].
    - destruct ((t =? ty a) && _ && _); [injection X as <-; discriminate|discriminate].
    - destruct (t =? ty a); [destruct (rv a && _); [injection X as <-; discriminate|discriminate]|].
      destruct (conv (ty a) t); [injection X as <-; discriminate|discriminate]. }
  assert (As : forall a p q x y, plain_ics conv p a = Some x -> plain_ics conv q a = Some y ->
    better_ics x y = true -> better_ics y x = false).
  { intros a p q x y X Y. apply Ok in X. apply Ok in Y. revert X Y. destruct x as [r t b], y as [r' t' b']. intros X Y H. unfold better_ics in *. cbn [rk target bd] in *. rewrite (Nat.eqb_sym (rank_no r') (rank_no r)), (Nat.eqb_sym t' t).
    destruct (rank_no r =? rank_no r') eqn:R.
    - apply Nat.eqb_eq in R.
      assert (U : is_user r = is_user r') by (destruct r as [|[]], r' as [|[]]; cbn in R; auto; discriminate).
      rewrite R in H |- *. rewrite Nat.ltb_irrefl in *. cbn [orb andb] in *.
      destruct b as [|c1 r1 v1], b' as [|c2 r2 v2]; auto. rewrite U in *.
      destruct r1, r2, c1, c2, v1, v2, (t =? t'), (is_user r'); cbn in *; auto; try discriminate; congruence.
    - cbn [andb] in *. rewrite orb_false_r in *. apply Nat.ltb_lt in H. apply Nat.ltb_ge. lia. }
  rewrite andb_true_iff, negb_true_iff. split.
  - intros [A B]. split.
    + intros k a p q [La Pa] [_ Qa]. pose proof (all2_nth _ _ _ _ _ _ _ E1 k) as N1. pose proof (all2_nth _ _ _ _ _ _ _ E2 k) as N2.
      rewrite La, Pa in N1. rewrite La, Qa in N2. destruct N1 as (x & X & X'), N2 as (y & Y & Y').
      rewrite (O a q p y x) by auto. destruct (better_ics y x) eqn:D; [|now rewrite andb_false_r].
      exfalso. assert (Z : some_better k2 k1 = true) by (apply some_better_nth; eauto 10). congruence.
    + apply some_better_nth in B as (k & x & y & X & Y & D).
      pose proof (all2_nth _ _ _ _ _ _ _ E1 k) as N1. pose proof (all2_nth _ _ _ _ _ _ _ E2 k) as N2.
      destruct (nth_error ps k) as [p|] eqn:Pk, (nth_error l k) as [a|] eqn:Lk; try contradiction; try congruence.
      destruct (nth_error qs k) as [q|] eqn:Qk; try contradiction.
      destruct N1 as (x' & X1 & X2), N2 as (y' & Y1 & Y2). exists k, a, p, q. unfold position. repeat split; auto.
      assert (x' = x) by congruence. assert (y' = y) by congruence. subst.
      rewrite (O a p q x y) by auto. rewrite D. rewrite (As a p q x y) by auto. reflexivity.
  - intros [A (k & a & p & q & [La Pa] & [_ Qa] & B)]. split.
    + destruct (some_better k2 k1) eqn:Z; auto. exfalso. apply some_better_nth in Z as (m & y & x & Y & X & D).
      pose proof (all2_nth _ _ _ _ _ _ _ E1 m) as N1. pose proof (all2_nth _ _ _ _ _ _ _ E2 m) as N2.
      destruct (nth_error ps m) as [p'|] eqn:Pk, (nth_error l m) as [a'|] eqn:Lk; try contradiction; try congruence.
      destruct (nth_error qs m) as [q'|] eqn:Qk; try contradiction.
      destruct N1 as (x' & X1 & X2), N2 as (y' & Y1 & Y2).
      assert (x' = x) by congruence. assert (y' = y) by congruence. subst.
      assert (F : better [a'] (Plain [q']) (Plain [p']) = false) by (apply (A m); split; auto).
      rewrite (O a' q' p' y x) in F by auto. rewrite D, (As a' q' p' y x) in F by auto. discriminate.
    + pose proof (all2_nth _ _ _ _ _ _ _ E1 k) as N1. pose proof (all2_nth _ _ _ _ _ _ _ E2 k) as N2.
      rewrite La, Pa in N1. rewrite La, Qa in N2. destruct N1 as (x & X & X'), N2 as (y & Y & Y').
      rewrite (O a p q x y) in B by auto. apply andb_prop in B as [_ B]. apply some_better_nth. eauto 10.
Qed.
(** A pack gives way to parameters of the same kind. *)
Theorem pack : forall p a, viable [a] (Generic [p]) = true ->
  better [a] (Generic [p]) (Variadic p) = true.
Proof.
  intros p [t c r] V. unfold UtilModel.viable, UtilModel.better in *.
  destruct p; cbn in *; auto; destruct c, r; cbn in *; auto; try discriminate; rewrite ?Nat.eqb_refl; cbn; auto.
Qed.
End Types.

(** ** Generic handlers of several arguments *)
Lemma as_special_repeat p q n : as_special_all (repeat p (S n)) (repeat q (S n)) = as_special p q.
Proof.
  unfold as_special_all; induction n as [|n IH]; cbn [repeat combine forallb fst snd] in *; [apply andb_true_r|].
  rewrite IH; destruct (as_special p q); reflexivity.
Qed.
Lemma packs conv l p q : l <> [] ->
  better conv l (Variadic p) (Variadic q) =
  better conv l (Generic (repeat p (length l))) (Generic (repeat q (length l))).
Proof.
  destruct l as [|a l]; [congruence|intros _]; unfold better, more_special.
  change (length (a :: l)) with (S (length l)); rewrite !as_special_repeat; reflexivity.
Qed.

Lemma const_ics p a : const_arg a -> ref_auto p -> generic_ics p a = Some (Ics Exact (ty a) (Bound true false false)).
Proof. intros [C R] N; destruct p; cbn; rewrite ?C, ?R; try reflexivity; destruct N; reflexivity. Qed.
Lemma const_all l ps : Forall const_arg l -> Forall ref_auto ps -> length ps = length l ->
  all2 generic_ics ps l = Some (map (fun a => Ics Exact (ty a) (Bound true false false)) l).
Proof.
  intro F; revert ps; induction F as [|a l A _ IH]; intros [|p ps] G E; cbn in E; try discriminate; [reflexivity|].
  inversion G; subst; injection E as E; cbn [all2]; rewrite const_ics, IH by auto; reflexivity.
Qed.
Lemma self_better l : some_better (map (fun a => Ics Exact (ty a) (Bound true false false)) l)
                                  (map (fun a => Ics Exact (ty a) (Bound true false false)) l) = false.
Proof.
  unfold some_better; induction l as [|a l IH]; [reflexivity|].
  cbn [map combine existsb fst snd]; rewrite IH; cbn; rewrite Nat.eqb_refl; reflexivity.
Qed.
Lemma const_better conv l ps qs : Forall const_arg l -> Forall ref_auto ps -> Forall ref_auto qs ->
  length ps = length l -> length qs = length l ->
  better conv l (Generic ps) (Generic qs) = as_special_all ps qs && negb (as_special_all qs ps).
Proof.
  intros L P Q E F; unfold better; cbn [ics_of]; rewrite (const_all _ _ L P E), (const_all _ _ L Q F).
  rewrite self_better; cbn; reflexivity.
Qed.
Lemma const_position conv l ps qs : Forall const_arg l -> Forall ref_auto ps -> Forall ref_auto qs ->
  length ps = length l -> length qs = length l ->
  better conv l (Generic ps) (Generic qs) = true <->
  (forall k a p q, nth_error l k = Some a -> nth_error ps k = Some p -> nth_error qs k = Some q ->
     p = q \/ better conv [a] (Generic [p]) (Generic [q]) = true) /\
  (exists k a p q, nth_error l k = Some a /\ nth_error ps k = Some p /\ nth_error qs k = Some q /\
     better conv [a] (Generic [p]) (Generic [q]) = true).
Proof.
  intros L P Q E F; rewrite (const_better conv _ _ _ L P Q E F).
  assert (One : forall a p q, const_arg a -> ref_auto p -> ref_auto q ->
    (better conv [a] (Generic [p]) (Generic [q]) = true <-> as_special p q = true /\ as_special q p = false) /\
    (as_special p q = true <-> p = q \/ better conv [a] (Generic [p]) (Generic [q]) = true)).
  { intros a p q A Rp Rq; rewrite const_better by (auto; repeat constructor; auto).
    unfold as_special_all; cbn [combine forallb fst snd]; rewrite !andb_true_r.
    destruct p, q; try (exfalso; apply Rp; reflexivity); try (exfalso; apply Rq; reflexivity);
      cbn; intuition (discriminate || congruence). }
  assert (All : forall ps qs l, Forall const_arg l -> Forall ref_auto ps -> Forall ref_auto qs ->
    length ps = length l -> length qs = length l ->
    (as_special_all ps qs = true <->
     forall k a p q, nth_error l k = Some a -> nth_error ps k = Some p -> nth_error qs k = Some q ->
       as_special p q = true)).
  { clear; induction ps as [|p ps IH]; intros qs l L P Q E F.
    - split; [intros _ k a p q _ H; destruct k; discriminate H|reflexivity].
    - destruct l as [|a l]; [discriminate E|]; destruct qs as [|q qs]; [discriminate F|].
      inversion L; inversion P; inversion Q; subst; injection E as E; injection F as F.
      unfold as_special_all; cbn [combine forallb fst snd]; rewrite andb_true_iff.
      fold (as_special_all ps qs); rewrite (IH qs l) by auto; split.
      + intros [A B] [|k] a' p' q' I1 I2 I3; cbn in I1, I2, I3; [congruence|eauto].
      + intro H; split; [apply (H 0 a p q); reflexivity|intros k; apply (H (S k))]. }
  assert (G : forall k a p q, nth_error l k = Some a -> nth_error ps k = Some p -> nth_error qs k = Some q ->
     const_arg a /\ ref_auto p /\ ref_auto q).
  { intros k a p q H1 H2 H3; rewrite Forall_forall in L, P, Q.
    split; [|split]; [apply L|apply P|apply Q]; eapply nth_error_In; eauto. }
  rewrite andb_true_iff, negb_true_iff, (All ps qs l), <- not_true_iff_false, (All qs ps l) by auto; split.
  - intros [A B]; split.
    + intros k a p q H1 H2 H3; destruct (G _ _ _ _ H1 H2 H3) as (X & Y & Z).
      apply (proj2 (One a p q X Y Z)); eauto.
    + assert (D : forall n, (exists k a p q, k < n /\ nth_error l k = Some a /\ nth_error ps k = Some p /\
          nth_error qs k = Some q /\ as_special q p = false) \/
         (forall k a p q, k < n -> nth_error l k = Some a -> nth_error ps k = Some p -> nth_error qs k = Some q ->
            as_special q p = true)).
      { induction n as [|n IH]; [right; intros; lia|].
        destruct IH as [(k & a & p & q & K & R) | IH]; [left; exists k, a, p, q; split; [lia|exact R]|].
        destruct (nth_error l n) as [a|] eqn:H1; [|right; intros k a p q K I1 I2 I3; destruct (Nat.eq_dec k n) as [-> | D]; [congruence|eapply IH; eauto; lia]].
        destruct (nth_error ps n) as [p|] eqn:H2; [|right; intros k a' p q K I1 I2 I3; destruct (Nat.eq_dec k n) as [-> | D]; [congruence|eapply IH; eauto; lia]].
        destruct (nth_error qs n) as [q|] eqn:H3; [|right; intros k a' p' q K I1 I2 I3; destruct (Nat.eq_dec k n) as [-> | D]; [congruence|eapply IH; eauto; lia]].
        destruct (as_special q p) eqn:S1.
        - right; intros k a' p' q' K I1 I2 I3; destruct (Nat.eq_dec k n) as [-> | D]; [congruence|eapply IH; eauto; lia].
        - left; exists n, a, p, q; repeat split; auto; lia. }
      destruct (D (length l)) as [(k & a & p & q & _ & H1 & H2 & H3 & S1) | D'].
      * exists k, a, p, q; destruct (G _ _ _ _ H1 H2 H3) as (X & Y & Z); repeat split; auto.
        apply (proj1 (One a p q X Y Z)); split; eauto.
      * exfalso; apply B; intros k a q p H1 H2 H3; eapply D'; eauto.
        apply nth_error_Some; rewrite H1; discriminate.
  - intros [A (k & a & p & q & H1 & H2 & H3 & H4)]; split.
    + intros k' a' p' q' I1 I2 I3; destruct (G _ _ _ _ I1 I2 I3) as (X & Y & Z).
      apply (proj2 (One a' p' q' X Y Z)); eauto.
    + intro H; destruct (G _ _ _ _ H1 H2 H3) as (X & Y & Z).
      apply (proj1 (One a p q X Y Z)) in H4 as [_ H4]; rewrite (H k a q p H1 H3 H2) in H4; discriminate.
Qed.
