(** Proofs about [operator[]] with value categories. *)
From Coq Require Import List Arith Bool.
From Verif Require Import LensModel LensSpec SmartModel SmartSpec SmartProofs SmartFacts
  MoveModel MoveSpec MoveProofs MoveSmartModel.
Import ListNotations.

Definition forget {t} (l : mpart t) : part t :=
  match l with existT _ p l => existT _ p (plain l) end.

Lemma base_same : forall t s, base_make t (arg_of s) = option_map forget (mbase t (arg_of s)).
Proof.
  intros t [k|c n]; cbn.
  - destruct t as [| |[|] e|[|] e|]; reflexivity.
  - destruct t as [| | | |c' ms]; try reflexivity. destruct (c =? c'); [|reflexivity].
    destruct (member_at ms n) as [[p m]|]; reflexivity.
Qed.

Lemma with_opt_same : forall h t (l : mpart t), with_opt (forget l) = forget (mwith_opt h l).
Proof. intros h t [p l]. destruct p; reflexivity. Qed.

Lemma make_same : forall h t s, make t (arg_of s) = option_map forget (mmake h t (arg_of s)).
Proof.
  induction t as [|t IH|b t IH|b t IH|c ms]; intros s; try apply base_same.
  cbn [make mmake]. specialize (IH s).
  destruct s as [k|c n]; cbn [arg_of] in *; rewrite IH;
    (destruct (mmake h t _) as [l|]; cbn [option_map]; [rewrite (with_opt_same h)|]; reflexivity).
Qed.

Lemma zoom_same : forall h t (l : mpart t) s,
  SmartModel.zoom (forget l) (arg_of s) = option_map forget (mzoom h l (arg_of s)).
Proof.
  intros h t [p l] s. cbn. rewrite (make_same h).
  destruct (mmake h p (arg_of s)) as [[q k]|]; reflexivity.
Qed.

Lemma brackets_same : forall h t p (l : mpart t),
  brackets (forget l) (map arg_of p) = option_map forget (mbrackets h l (map arg_of p)).
Proof.
  induction p as [|s p IH]; intros l; [reflexivity|]. cbn [map brackets mbrackets].
  rewrite (zoom_same h). destruct (mzoom h l (arg_of s)) as [l'|]; [apply IH | reflexivity].
Qed.

Lemma select_same : forall h t p,
  select t (map arg_of p) = option_map forget (mselect h t (map arg_of p)).
Proof.
  intros h t [|s p]; [reflexivity|]. cbn [map select mselect]. rewrite (make_same h).
  destruct (mmake h t (arg_of s)) as [l|]; [apply brackets_same | reflexivity].
Qed.

(** ** What kinds of lenses there are *)

Lemma member_at_ok : forall ms n L, member_at ms n = Some L ->
  match L with existT _ p m => member_ok m end.
Proof.
  induction ms as [|a r IH]; intros [|n] L H; simpl in H; try discriminate.
  - injection H as <-. split; cbn; intros; try destruct s; reflexivity.
  - specialize (IH n). destruct (member_at r n) as [[q m]|]; [|discriminate].
    injection H as <-. specialize (IH _ eq_refl). destruct IH as [G1 G2 G3].
    split; cbn; intros.
    + apply G1.
    + rewrite G2. destruct s; reflexivity.
    + rewrite G3. reflexivity.
Qed.

Definition neat_part {t} (l : mpart t) : Prop := match l with existT _ p l => neat l end.
Definition lifted_part {t} (l : mpart t) : Prop :=
  match l with
  | existT _ p l =>
      match p return lx (den t) (den p) -> Prop with
      | TOpt q => fun l => lifted (den t) (den q) l
      | _ => fun _ => False
      end l
  end.
Definition chain_part {t} (l : mpart t) : Prop :=
  match l with
  | existT _ p l =>
      match p return lx (den t) (den p) -> Prop with
      | TOpt q => fun l => chain (den t) (den q) l
      | _ => fun _ => False
      end l
  end.

Lemma base_neat : forall t s L, mbase t (arg_of s) = Some L -> neat_part L.
Proof.
  intros t [k|c n] L H; cbn in H.
  - destruct t as [| |[|] e|[|] e|]; try discriminate; injection H as <-; exact I.
  - destruct t as [| | | |c' ms]; try discriminate. destruct (c =? c'); [|discriminate].
    pose proof (member_at_ok ms n) as Hm.
    destruct (member_at ms n) as [[p m]|]; [|discriminate].
    injection H as <-. exact (Hm _ eq_refl).
Qed.

Lemma with_opt_lifted : forall h t (L : mpart t), neat_part L \/ lifted_part L ->
  lifted_part (mwith_opt h L).
Proof.
  intros h t [p l] H. destruct p; cbn in *.
  - destruct H as [H|[]]. apply lifted_map, H.
  - apply lifted_bind. destruct H as [H|H]; [apply lifted_neat|]; exact H.
  - destruct H as [H|[]]. apply (lifted_map _ (list (den p))), H.
  - destruct H as [H|[]]. apply (lifted_map _ (list (nat * den p))), H.
  - destruct H as [H|[]]. apply (lifted_map _ (dens ms)), H.
Qed.

Lemma make_kind : forall h t s L, mmake h t (arg_of s) = Some L ->
  neat_part L \/ lifted_part L.
Proof.
  induction t as [|t IH|b t IH|b t IH|c ms]; intros s L H;
    try (left; apply (base_neat _ _ _ H)).
  cbn [mmake] in H. specialize (IH s).
  destruct (mmake h t (arg_of s)) as [l|]; [|discriminate]. injection H as <-.
  right. apply with_opt_lifted, IH. reflexivity.
Qed.

Lemma zoom_kind : forall h t (L L' : mpart t) s, neat_part L \/ chain_part L ->
  mzoom h L (arg_of s) = Some L' -> neat_part L' \/ chain_part L'.
Proof.
  intros h t [p l] L' s HL H. cbn in H.
  destruct (mmake h p (arg_of s)) as [[q k]|] eqn:E; [|discriminate]. injection H as <-.
  destruct p as [|p|b p|b p|c ms];
    try (destruct HL as [HL|[]]; left; split; [exact HL|];
         apply (base_neat _ _ (existT _ q k) E)).
  right.
  assert (C : chain (den t) (den p) l).
  { destruct HL as [HL|HL]; [|exact HL].
    apply (chain_start _ (den p)). intros c. apply neat_tame, HL. }
  cbn [mmake] in E. pose proof (make_kind h p s) as K.
  destruct (mmake h p (arg_of s)) as [[u j]|]; [|discriminate].
  specialize (K _ eq_refl). cbn [option_map] in E.
  assert (E1 : mwith_opt h (existT _ u j) = existT _ q k) by congruence. clear E.
  assert (G : chain_part (an_mpart (projT1 (mwith_opt h (existT _ u j)))
                (XCompose l (projT2 (mwith_opt h (existT _ u j)))))).
  { destruct u; cbn in *.
    - destruct K as [K|[]]. apply (chain_map _ _ nat); assumption.
    - apply (chain_bind _ _ (den u)); [exact C|].
      destruct K as [K|K]; [apply lifted_neat|]; exact K.
    - destruct K as [K|[]]. apply (chain_map _ _ (list (den u))); assumption.
    - destruct K as [K|[]]. apply (chain_map _ _ (list (nat * den u))); assumption.
    - destruct K as [K|[]]. apply (chain_map _ _ (dens ms)); assumption. }
  rewrite E1 in G. exact G.
Qed.

Lemma brackets_kind : forall h t p (L L' : mpart t), neat_part L \/ chain_part L ->
  mbrackets h L (map arg_of p) = Some L' -> neat_part L' \/ chain_part L'.
Proof.
  induction p as [|s p IH]; intros L L' HL H; cbn [map mbrackets] in H.
  - injection H as <-. exact HL.
  - destruct (mzoom h L (arg_of s)) as [L1|] eqn:E; [|discriminate].
    apply (IH L1); [|exact H]. exact (zoom_kind _ _ _ _ _ HL E).
Qed.

Lemma select_kind : forall h t p L, mselect h t (map arg_of p) = Some L ->
  neat_part L \/ chain_part L.
Proof.
  intros h t [|s p] L H; cbn [map mselect] in H.
  - injection H as <-. left. exact I.
  - destruct (mmake h t (arg_of s)) as [l|] eqn:E; [|discriminate].
    apply brackets_kind in H; [exact H|].
    apply make_kind in E. destruct E as [E|E]; [left; exact E|].
    right. destruct l as [q k]. destruct q; try contradiction. cbn in *.
    apply (chain_lifted _ (den q)). exact E.
Qed.

(** ** Paths that can not fail *)

Lemma brackets_direct : forall h t p q (l : lx (den t) (den q)) L',
  neat l -> mbrackets h (existT _ q l) (map arg_of p) = Some L' ->
  forall e : den q, direct p (tree_of q e) = true -> neat_part L'.
Proof.
  induction p as [|s p IH]; intros q l L' N H e D; cbn [map mbrackets] in H.
  - injection H as <-. exact N.
  - destruct s as [k|c n]; [discriminate|]. cbn [direct] in D.
    apply andb_true_iff in D. destruct D as [D1 D2].
    destruct q as [|q|b q|b q|c' ms]; cbn in H; try discriminate.
    destruct (c =? c') eqn:Ec; [|discriminate].
    pose proof (member_at_ok ms n) as Hm. pose proof (member_fits ms n) as Hf.
    destruct (member_at ms n) as [[u m]|]; [|discriminate].
    specialize (Hm _ eq_refl). destruct (Hf _ eq_refl) as (_ & Hg & _). clear Hf.
    cbn in D2. rewrite Ec, Hg in D2.
    apply (IH u (XCompose l (XAttr (S := den (TClass c' ms)) m)) L') with (e := mem_get m e).
    + split; assumption.
    + exact H.
    + exact D2.
Qed.

Lemma select_direct : forall h t p L, mselect h t (map arg_of p) = Some L ->
  forall x, direct p (tree_of t x) = true -> neat_part L.
Proof.
  intros h t [|s p] L H x D; cbn [map mselect] in H.
  - injection H as <-. exact I.
  - destruct s as [k|c n]; [discriminate|]. cbn [direct] in D.
    apply andb_true_iff in D. destruct D as [D1 D2].
    destruct t as [|t|b t|b t|c' ms]; cbn in H; try discriminate.
    destruct (c =? c') eqn:Ec; [|discriminate].
    pose proof (member_at_ok ms n) as Hm. pose proof (member_fits ms n) as Hf.
    destruct (member_at ms n) as [[u m]|]; [|discriminate].
    specialize (Hm _ eq_refl). destruct (Hf _ eq_refl) as (_ & Hg & _). clear Hf.
    cbn in D2. rewrite Ec, Hg in D2.
    exact (brackets_direct h (TClass c' ms) p u (XAttr (S := den (TClass c' ms)) m) L
             Hm H (mem_get m x) D2).
Qed.

(** ** What is written *)

Lemma option_map_none : forall A B (f : A -> B) o, option_map f o = None -> o = None.
Proof. intros A B f [a|]; [discriminate | reflexivity]. Qed.

Lemma select_set : forall h t p q (l : lx (den t) (den q)),
  mselect h t (map arg_of p) = Some (existT _ q l) ->
  forall c x y, (direct p (tree_of t x) = false -> tree_of q y = Opt None ->
                 place p (tree_of t x) = None) ->
  mset (moving l) c x y = set (plain l) x y.
Proof.
  intros h t p q l H c x y Hy.
  assert (SEL : select t (map arg_of p) = Some (existT _ q (plain l)))
    by (rewrite (select_same h), H; reflexivity).
  destruct (select_kind h t p _ H) as [N|C].
  - apply hits_set, tame_hits, neat_tame, N.
  - destruct (direct p (tree_of t x)) eqn:D.
    + apply hits_set, tame_hits, neat_tame. exact (select_direct h t p _ H x D).
    + destruct q as [|q|b q|b q|c' ms]; try contradiction. cbn in C.
      destruct y as [v|].
      * apply chain_set, C.
      * apply chain_clear; [exact C|].
        specialize (Hy eq_refl eq_refl).
        pose proof (sel_view t (TOpt q) p (plain l) SEL x) as V.
        unfold read in V. rewrite Hy in V.
        change (tree_of (TOpt q) (view (plain l) x))
          with (Opt (option_map (tree_of q) (view (plain l) x))) in V.
        injection V as V. exact (option_map_none _ _ _ _ V).
Qed.

Lemma select_write : forall h t p q (l : lx (den t) (den q)),
  mselect h t (map arg_of p) = Some (existT _ q l) ->
  forall c x y, (direct p (tree_of t x) = false -> tree_of q y = Opt None ->
                 place p (tree_of t x) = None) ->
  tree_of t (mset (moving l) c x y) = write p (tree_of q y) (tree_of t x).
Proof.
  intros h t p q l H c x y Hy. rewrite (select_set h t p q l H c x y Hy).
  apply sel_set. rewrite (select_same h), H. reflexivity.
Qed.

Lemma select_read : forall h t p q (l : lx (den t) (den q)),
  mselect h t (map arg_of p) = Some (existT _ q l) ->
  forall g c x, tree_of q (mview g (moving l) c x) = read p (tree_of t x).
Proof.
  intros h t p q l H g c x. rewrite view_moving. apply sel_view.
  rewrite (select_same h), H. reflexivity.
Qed.
