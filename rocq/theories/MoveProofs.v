(** Proofs about lenses on things that are moved from. *)
From Coq Require Import List.
From Verif Require Import LensModel LensSpec LensProofs MoveModel MoveSpec.
Import ListNotations.

Scheme lx_mut := Induction for lx Sort Prop
  with xpack_mut := Induction for xpack Sort Prop
  with xfan_mut := Induction for xfan Sort Prop.
Combined Scheme lx_all from lx_mut, xpack_mut, xfan_mut.

Lemma vmake_vget : forall ts T (i : idx ts T) p t, vget i p = Some t -> vmake i t = p.
Proof.
  induction i; intros p t H; cbn in *.
  - destruct p; [injection H as ->; reflexivity | discriminate].
  - destruct p; [discriminate|]. rewrite (IHi _ _ H). reflexivity.
Qed.
Lemma vget_vmake : forall ts T (i : idx ts T) t, vget i (vmake i t) = Some t.
Proof. induction i; intros; cbn; auto. Qed.

(** ** Without moves: a lens is its [view] and its [set] *)

Lemma plain_const : forall S A (l : lx S A) Q g s,
  plain l (const_functor Q) (const_map Q) g s = g (view (plain l) s).
Proof.
  induction l; intros; try reflexivity.
  - cbn [plain]. unfold map_opt, view. destruct s; reflexivity.
  - cbn [plain]. unfold bind_opt, view. destruct s; reflexivity.
  - cbn [plain]. unfold compose. rewrite IHl1, IHl2.
    unfold view at 3, compose. rewrite IHl1. reflexivity.
Qed.

Lemma plain_id : forall S A (l : lx S A) g s,
  plain l identity_functor identity_map g s = set (plain l) s (g (view (plain l) s)).
Proof.
  induction l; intros; try reflexivity.
  - cbn [plain]. unfold map_opt, view, set. destruct s; reflexivity.
  - cbn [plain]. unfold bind_opt, view, set. destruct s; reflexivity.
  - assert (V : view (plain (XCompose l1 l2)) s = view (plain l2) (view (plain l1) s)).
    { cbn [plain]. unfold view at 1, compose. apply plain_const. }
    rewrite V. cbn [plain]. unfold set at 1, compose. rewrite !IHl1, !IHl2. reflexivity.
Qed.

Lemma view_compose : forall S A B (l1 : lx S A) (l2 : lx A B) s,
  view (plain (XCompose l1 l2)) s = view (plain l2) (view (plain l1) s).
Proof. intros. cbn [plain]. unfold view at 1, compose. apply plain_const. Qed.
Lemma set_compose : forall S A B (l1 : lx S A) (l2 : lx A B) s v,
  set (plain (XCompose l1 l2)) s v =
  set (plain l1) s (set (plain l2) (view (plain l1) s) v).
Proof. intros. cbn [plain]. unfold set at 1, compose. apply plain_id. Qed.

(** ** Reading *)

Lemma reads :
  (forall S A (l : lx S A), forall Q (f : cat -> A -> Q * A) c s,
     fst (moving l (const_functor Q) (const_map Q) f c s)
     = fst (f (handed l c) (view (plain l) s))) /\
  (forall ws ps (ls : xpack ws ps), forall c w,
     zip_look ls c w = zip_view (plain_pack ls) w) /\
  (forall W ps (ls : xfan W ps), forall w,
     fan_look ls w = fan_view (plain_fan ls) w).
Proof.
  apply lx_all.
  - reflexivity.
  - intros S A m Q f c s. change (view (plain (XAttr m)) s) with (mem_get m s). cbn.
    destruct (f c (mem_get m s)); reflexivity.
  - intros ts T i Q f c s. change (view (plain (XElement i)) s) with (tget i s). cbn.
    destruct (f c (tget i s)); reflexivity.
  - intros. change (view (plain XUnbox) s) with (box_get s). cbn.
    destruct (f L (box_get s)); reflexivity.
  - intros S A bv h g st Q f c s.
    change (view (plain (XGetset bv h g st)) s) with (g s). cbn.
    destruct (f R (g s)); reflexivity.
  - intros W K A o st k Q f c s. change (view (plain (XAt o st k)) s) with (o s k). cbn.
    destruct (f R (o s k)); reflexivity.
  - intros W K A o st k d Q f c s. change (view (plain (XAtOr o st k d)) s)
      with (match o s k with Some v => v | None => d end). cbn.
    destruct (f R _); reflexivity.
  - intros ts T h i Q f c s. change (view (plain (XAlternative h i)) s) with (vget i s). cbn.
    destruct (f R (vget i s)); reflexivity.
  - intros W P h l IH Q f c s. cbn [moving handed]. destruct s as [w|].
    + specialize (IH P (look h) c w).
      destruct (moving l (const_functor P) (const_map P) (look h) c w) as [a w1].
      cbn [look fst] in IH. subst a. cbn. destruct (f R _); reflexivity.
    + change (view (plain (XMapOpt h l)) None) with (@None P). cbn.
      destruct (f R None); reflexivity.
  - intros W P h l IH Q f c s. cbn [moving handed]. destruct s as [w|].
    + specialize (IH (option P) (look (option_map h)) c w).
      destruct (moving l (const_functor (option P)) (const_map (option P)) (look (option_map h)) c w)
        as [a w1].
      cbn [look fst] in IH. subst a. cbn. destruct (f R _); reflexivity.
    + change (view (plain (XBindOpt h l)) None) with (@None P). cbn.
      destruct (f R None); reflexivity.
  - intros A h t Q f c s. change (view (plain (XValueOr h t)) s)
      with (match s with Some v => v | None => t end). cbn.
    destruct (f R _); reflexivity.
  - intros A h Q f c s. change (view (plain (XForceOpt h)) s) with (Some s). cbn.
    destruct (f R (Some s)); reflexivity.
  - intros S A l IH Q f c s. cbn [moving handed]. unfold mview.
    rewrite (IH A (look (fun a => a)) L s). cbn [look fst].
    change (view (plain (XErase l)) s) with (view (plain l) s).
    destruct (f R _); reflexivity.
  - intros S A B l1 IH1 l2 IH2 Q f c s. cbn [moving handed]. rewrite view_compose.
    rewrite (IH1 Q (moving l2 (const_functor Q) (const_map Q) f) c s). apply IH2.
  - intros ws ps ls IH Q f c s. cbn [moving handed plain]. rewrite IH.
    change (view (zip (plain_pack ls)) s) with (zip_view (plain_pack ls) s).
    destruct (f R _); reflexivity.
  - intros W ps ls IH Q f c s. cbn [moving handed plain]. rewrite IH.
    change (view (fan (plain_fan ls)) s) with (fan_view (plain_fan ls) s).
    destruct (f R _); reflexivity.
  - reflexivity.
  - intros W P ws ps h l IHl r IHr c w. cbn. rewrite IHr. unfold mview.
    rewrite (IHl P (look h) c (fst w)). reflexivity.
  - reflexivity.
  - intros W P ps l IHl r IHr w. cbn. rewrite IHr. unfold mview.
    rewrite (IHl P (look (fun a => a)) L w). reflexivity.
Qed.

Lemma view_moving : forall S A (l : lx S A) h c s,
  mview h (moving l) c s = view (plain l) s.
Proof. intros. unfold mview. rewrite (proj1 reads S A l). reflexivity. Qed.

(** ** What is left behind *)

Lemma left_inert :
  (forall S A (l : lx S A), inert l -> forall F m (f : cat -> A -> F A * A) c s,
     (forall k a, snd (f k a) = a) -> snd (moving l F m f c s) = s) /\
  (forall ws ps (ls : xpack ws ps), inert_pack ls -> forall c w, zip_left ls c w = w) /\
  (forall W ps (ls : xfan W ps), True).
Proof.
  assert (SP : forall A (h : A -> A) c a, (forall a, h a = a) -> spent h c a = a)
    by (intros A h [|] a H; cbn; auto).
  assert (LK : forall A (h : A -> A), (forall a, h a = a) ->
               forall k a, snd (look h k a) = a)
    by (intros A h H [|] a; cbn; auto).
  assert (OM : forall A (h : A -> A), (forall a, h a = a) -> forall o, option_map h o = o)
    by (intros A h H [a|]; cbn; [rewrite H|]; reflexivity).
  apply lx_all; try (intros; exact I).
  - intros S _ F m f c s Hf. apply Hf.
  - intros S A mb Hm F m f c s Hf. cbn in *. specialize (Hf c (mem_get mb s)).
    destruct (f c (mem_get mb s)) as [fa a]. cbn in *. subst a. apply Hm.
  - intros ts T i _ F m f c s Hf. cbn. specialize (Hf c (tget i s)).
    destruct (f c (tget i s)) as [fa a]. cbn in *. subst a. apply tassign_tget.
  - intros A _ F m f c s Hf. cbn. destruct (f L (box_get s)); reflexivity.
  - intros S A bv h g st Hh F m f c s Hf. cbn in *. destruct (f R (g s)). cbn.
    destruct bv; [apply SP, Hh | reflexivity].
  - intros W K A at_ st k _ F m f c s Hf. cbn. destruct (f R (at_ s k)); reflexivity.
  - intros W K A at_ st k d _ F m f c s Hf. cbn. destruct (f R _); reflexivity.
  - intros ts T h i Hh F m f c s Hf. cbn in *. destruct (f R (vget i s)). cbn.
    destruct (vget i s) as [t|] eqn:E; [|reflexivity].
    rewrite SP by exact Hh. apply vmake_vget, E.
  - intros W P h l IH [Hh Hl] F m f c s Hf. cbn [moving]. destruct s as [w|].
    + specialize (IH Hl _ (const_map P) (look h) c w (LK _ _ Hh)).
      destruct (moving l (const_functor P) (const_map P) (look h) c w) as [a w1].
      cbn in IH. subst w1. destruct (f R (Some a)); reflexivity.
    + destruct (f R None); reflexivity.
  - intros W P h l IH [Hh Hl] F m f c s Hf. cbn [moving]. destruct s as [w|].
    + specialize (IH Hl _ (const_map (option P)) (look (option_map h)) c w
                     (LK _ _ (OM _ _ Hh))).
      destruct (moving l (const_functor (option P)) (const_map (option P))
                       (look (option_map h)) c w) as [a w1].
      cbn in IH. subst w1. destruct (f R a); reflexivity.
    + destruct (f R None); reflexivity.
  - intros A h t Hh F m f c s Hf. cbn in *. destruct (f R _) as [fa b]. cbn.
    destruct s; cbn; [rewrite SP by exact Hh|]; reflexivity.
  - intros A h Hh F m f c s Hf. cbn in *. destruct (f R (Some s)). cbn. apply SP, Hh.
  - intros S A l IH Hl F m f c s Hf. cbn. destruct (f R _); reflexivity.
  - intros S A B l1 IH1 l2 IH2 [H1 H2] F m f c s Hf. cbn [moving].
    apply (IH1 H1). intros k a. apply (IH2 H2). exact Hf.
  - intros ws ps ls IH Hl F m f c s Hf. cbn [moving]. rewrite (IH Hl).
    destruct (f R _); reflexivity.
  - intros W ps ls _ Hl F m f c s Hf. cbn [moving]. destruct (f R _); reflexivity.
  - reflexivity.
  - intros W P ws ps h l IHl r IHr (Hh & Hl & Hr) c [w ws']. cbn.
    rewrite (IHr Hr). unfold after_view. rewrite (IHl Hl) by (apply LK, Hh). reflexivity.
Qed.

Lemma left_L :
  (forall S A (l : lx S A), sane l -> forall F m (f : cat -> A -> F A * A) s,
     (forall a, snd (f L a) = a) -> snd (moving l F m f L s) = s) /\
  (forall ws ps (ls : xpack ws ps), sane_pack ls -> forall w, zip_left ls L w = w) /\
  (forall W ps (ls : xfan W ps), True).
Proof.
  apply lx_all; try (intros; exact I).
  - intros S _ F m f s Hf. apply Hf.
  - intros S A mb Hm F m f s Hf. cbn in *. specialize (Hf (mem_get mb s)).
    destruct (f L (mem_get mb s)) as [fa a]. cbn in *. subst a. apply Hm.
  - intros ts T i _ F m f s Hf. cbn. specialize (Hf (tget i s)).
    destruct (f L (tget i s)) as [fa a]. cbn in *. subst a. apply tassign_tget.
  - intros A _ F m f s Hf. cbn. destruct (f L (box_get s)); reflexivity.
  - intros S A bv h g st _ F m f s Hf. cbn in *. destruct (f R (g s)). cbn.
    destruct bv; reflexivity.
  - intros W K A at_ st k _ F m f s Hf. cbn. destruct (f R (at_ s k)); reflexivity.
  - intros W K A at_ st k d _ F m f s Hf. cbn. destruct (f R _); reflexivity.
  - intros ts T h i _ F m f s Hf. cbn in *. destruct (f R (vget i s)). cbn.
    destruct (vget i s) as [t|] eqn:E; [|reflexivity]. apply vmake_vget, E.
  - intros W P h l IH Hl F m f s Hf. cbn [moving]. destruct s as [w|].
    + specialize (IH Hl _ (const_map P) (look h) w (fun _ => eq_refl)).
      destruct (moving l (const_functor P) (const_map P) (look h) L w) as [a w1].
      cbn in IH. subst w1. destruct (f R (Some a)); reflexivity.
    + destruct (f R None); reflexivity.
  - intros W P h l IH Hl F m f s Hf. cbn [moving]. destruct s as [w|].
    + specialize (IH Hl _ (const_map (option P)) (look (option_map h)) w (fun _ => eq_refl)).
      destruct (moving l (const_functor (option P)) (const_map (option P))
                       (look (option_map h)) L w) as [a w1].
      cbn in IH. subst w1. destruct (f R a); reflexivity.
    + destruct (f R None); reflexivity.
  - intros A h t _ F m f s Hf. cbn in *. destruct (f R _). cbn. destruct s; reflexivity.
  - intros A h _ F m f s Hf. cbn in *. destruct (f R (Some s)). reflexivity.
  - intros S A l IH Hl F m f s Hf. cbn. destruct (f R _); reflexivity.
  - intros S A B l1 IH1 l2 IH2 [H1 H2] F m f s Hf. cbn [moving].
    apply (IH1 H1). intros a. apply (IH2 H2). exact Hf.
  - intros ws ps ls IH Hl F m f s Hf. cbn [moving]. rewrite (IH Hl).
    destruct (f R _); reflexivity.
  - intros W ps ls _ Hl F m f s Hf. cbn [moving]. destruct (f R _); reflexivity.
  - reflexivity.
  - intros W P ws ps h l IHl r IHr (Hl & Hr) [w ws']. cbn.
    rewrite (IHr Hr). unfold after_view. rewrite (IHl Hl) by reflexivity. reflexivity.
Qed.

(** ** Writing, when moves leave no trace *)

Lemma writes_inert :
  (forall S A (l : lx S A), inert l -> forall (f : cat -> A -> A * A) c s,
     (forall k a, snd (f k a) = a) ->
     fst (moving l identity_functor identity_map f c s)
     = set (plain l) s (fst (f (handed l c) (view (plain l) s)))) /\
  (forall ws ps (ls : xpack ws ps), inert_pack ls -> forall c w p,
     zip_put ls c w p = zip_set (plain_pack ls) w p) /\
  (forall W ps (ls : xfan W ps), inert_fan ls -> forall c w p,
     fan_put ls c w p = set_fold (plain_fan ls) w p).
Proof.
  assert (ID : forall A (h : A -> A), (forall a, h a = a) ->
               forall k a, snd (look h k a) = a)
    by (intros A h H [|] a; cbn; auto).
  assert (OM : forall A (h : A -> A), (forall a, h a = a) -> forall o, option_map h o = o)
    by (intros A h H [a|]; cbn; [rewrite H|]; reflexivity).
  apply lx_all.
  - reflexivity.
  - intros S A mb Hm f c s Hf.
    change (view (plain (XAttr mb)) s) with (mem_get mb s). cbn in *.
    specialize (Hf c (mem_get mb s)).
    destruct (f c (mem_get mb s)) as [fa a]. cbn in *. subst a.
    unfold set, attr, identity_map. rewrite (mok_assign_get _ Hm). reflexivity.
  - intros ts T i _ f c s Hf. change (view (plain (XElement i)) s) with (tget i s). cbn.
    specialize (Hf c (tget i s)).
    destruct (f c (tget i s)) as [fa a]. cbn in *. subst a.
    unfold set, element, identity_map. rewrite tassign_tget. reflexivity.
  - intros A _ f c s Hf. change (view (plain XUnbox) s) with (box_get s). cbn.
    destruct (f L (box_get s)); reflexivity.
  - intros S A bv h g st Hh f c s Hf.
    change (view (plain (XGetset bv h g st)) s) with (g s). cbn in *.
    destruct (f R (g s)). cbn. unfold set, getset, identity_map.
    replace (if bv then spent h c s else s) with s; [reflexivity|].
    destruct bv, c; cbn; auto.
  - intros W K A at_ st k _ f c s Hf.
    change (view (plain (XAt at_ st k)) s) with (at_ s k). cbn.
    destruct (f R (at_ s k)); reflexivity.
  - intros W K A at_ st k d _ f c s Hf.
    change (view (plain (XAtOr at_ st k d)) s)
      with (match at_ s k with Some v => v | None => d end). cbn.
    destruct (f R _); reflexivity.
  - intros ts T h i Hh f c s Hf.
    change (view (plain (XAlternative h i)) s) with (vget i s). cbn in *.
    destruct (f R (vget i s)) as [x a]. cbn. unfold set, alternative, identity_map.
    destruct (vget i s) as [t|] eqn:G.
    + rewrite vget_vmake. destruct x; [reflexivity|].
      replace (spent h c t) with t by (destruct c; cbn; auto). apply vmake_vget, G.
    + rewrite G. destruct x; reflexivity.
  - intros W P h l IH [Hh Hl] f c s Hf. cbn [moving]. destruct s as [w|].
    + pose proof (proj1 left_inert _ _ l Hl _ (const_map P) (look h) c w (ID _ _ Hh)) as E1.
      pose proof (proj1 reads _ _ l P (look h) c w) as E2.
      destruct (moving l (const_functor P) (const_map P) (look h) c w) as [a w1].
      cbn in E1, E2. subst w1 a. cbn [handed].
      change (view (plain (XMapOpt h l)) (Some w)) with (Some (view (plain l) w)).
      unfold const_functor. destruct (f R (Some (view (plain l) w))) as [x b]. cbn.
      unfold set, map_opt, identity_map; cbn. destruct x as [v|]; [|reflexivity].
      unfold mset. rewrite (IH Hl) by reflexivity. reflexivity.
    + change (view (plain (XMapOpt h l)) None) with (@None P). cbn.
      destruct (f R None); reflexivity.
  - intros W P h l IH [Hh Hl] f c s Hf. cbn [moving]. destruct s as [w|].
    + pose proof (proj1 left_inert _ _ l Hl _ (const_map (option P)) (look (option_map h)) c w
                        (ID _ _ (OM _ _ Hh))) as E1.
      pose proof (proj1 reads _ _ l (option P) (look (option_map h)) c w) as E2.
      destruct (moving l (const_functor (option P)) (const_map (option P))
                       (look (option_map h)) c w) as [a w1].
      cbn in E1, E2. subst w1 a. cbn [handed].
      change (view (plain (XBindOpt h l)) (Some w)) with (view (plain l) w).
      unfold const_functor. destruct (f R (view (plain l) w)) as [x b]. cbn.
      unfold set, bind_opt, identity_map; cbn. destruct x as [v|]; [|reflexivity].
      unfold mset. rewrite (IH Hl) by reflexivity. reflexivity.
    + change (view (plain (XBindOpt h l)) None) with (@None P). cbn.
      destruct (f R None); reflexivity.
  - intros A h t Hh f c s Hf. change (view (plain (XValueOr h t)) s)
      with (match s with Some v => v | None => t end). cbn in *.
    destruct (f R _); reflexivity.
  - intros A h Hh f c s Hf. change (view (plain (XForceOpt h)) s) with (Some s).
    cbn in *. specialize (Hf R (Some s)).
    destruct (f R (Some s)) as [x o]. cbn in *. subst o. reflexivity.
  - intros S A l IH Hl f c s Hf. cbn [moving handed]. rewrite view_moving.
    change (view (plain (XErase l)) s) with (view (plain l) s).
    destruct (f R (view (plain l) s)) as [x b]. cbn. unfold identity_map, mset.
    rewrite (IH Hl) by reflexivity. reflexivity.
  - intros S A B l1 IH1 l2 IH2 [H1 H2] f c s Hf. cbn [moving].
    rewrite (IH1 H1).
    + rewrite (IH2 H2) by exact Hf. rewrite set_compose, view_compose. reflexivity.
    + intros k a.
      exact (proj1 left_inert _ _ l2 H2 identity_functor identity_map f k a Hf).
  - intros ws ps ls IH Hl f c s Hf. cbn [moving handed].
    rewrite (proj1 (proj2 left_inert) _ _ ls Hl).
    rewrite (proj1 (proj2 reads) _ _ ls).
    change (view (plain (XZip ls)) s) with (zip_view (plain_pack ls) s).
    destruct (f R (zip_view (plain_pack ls) s)) as [x b]. cbn. unfold identity_map.
    rewrite (IH Hl). reflexivity.
  - intros W ps ls IH Hl f c s Hf. cbn [moving handed].
    rewrite (proj2 (proj2 reads) _ _ ls).
    change (view (plain (XFan ls)) s) with (fan_view (plain_fan ls) s).
    destruct (f R (fan_view (plain_fan ls) s)) as [x b]. cbn. unfold identity_map.
    rewrite (IH Hl). reflexivity.
  - reflexivity.
  - intros W P ws ps h l IHl r IHr (Hh & Hl & Hr) c w p. cbn. rewrite (IHr Hr).
    unfold mset. rewrite (IHl Hl) by reflexivity. reflexivity.
  - reflexivity.
  - intros W P ps l IHl r IHr (Hl & Hr) c w p. cbn. rewrite (IHr Hr).
    unfold mset. rewrite (IHl Hl) by reflexivity. reflexivity.
Qed.

(** ** Writing, for all types *)

(** Whatever is left of the part, and whoever writes it. *)
Definition hits {S A} (l : lx S A) (c : cat) (s : S) (x : A) : Prop :=
  forall f : cat -> A -> A * A, fst (f (handed l c) (view (plain l) s)) = x ->
  fst (moving l identity_functor identity_map f c s) = set (plain l) s x.

Lemma hits_set : forall S A (l : lx S A) c s x, hits l c s x ->
  mset (moving l) c s x = set (plain l) s x.
Proof. intros S A l c s x H. apply H. reflexivity. Qed.

Lemma hits_compose : forall S A B (l1 : lx S A) (l2 : lx A B) c s x,
  hits l2 (handed l1 c) (view (plain l1) s) x ->
  hits l1 c s (set (plain l2) (view (plain l1) s) x) ->
  hits (XCompose l1 l2) c s x.
Proof.
  intros S A B l1 l2 c s x H2 H1 f Hf. cbn [moving handed] in *.
  rewrite view_compose in Hf. rewrite set_compose. apply H1. apply H2. exact Hf.
Qed.

(** Viewing a neat lens: what is left of the whole. *)
Lemma neat_left : forall S A (l : lx S A), neat l ->
  forall F m (f : cat -> A -> F A * A) c s,
  let s1 := snd (moving l F m f c s) in
  (forall v, set (plain l) s1 v = set (plain l) s v) /\
  (view (plain l) s1 = snd (f (handed l c) (view (plain l) s)) \/
   view (plain l) s1 = view (plain l) s).
Proof.
  induction l as [ S | S A mb | ts T i | A | S A bv h g st | W K A at_ st k
                 | W K A at_ st k d | ts T h i | W P h l IHl | W P h l IHl | A h t | A h
                 | S A l IHl | S A B l1 IHl1 l2 IHl2 | ws ps ls | W ps ls ];
    intros N F m f c s; try contradiction; cbn zeta.
  - cbn. split; [reflexivity | left; reflexivity].
  - change (view (plain (XAttr mb)) s) with (mem_get mb s). cbn in *.
    unfold view, set, attr, const_map, identity_map. cbn.
    destruct (f c (mem_get mb s)) as [fa a]. cbn. split.
    + intros v. apply (mok_assign_assign _ N).
    + left. apply (mok_get_assign _ N).
  - change (view (plain (XElement i)) s) with (tget i s). cbn in *.
    unfold view, set, element, const_map, identity_map. cbn.
    destruct (f c (tget i s)) as [fa a]. cbn. split.
    + intros v. apply tassign_tassign.
    + left. apply tget_tassign.
  - cbn. destruct (f L (box_get s)). cbn. auto.
  - cbn in N. subst bv. cbn. destruct (f R (g s)). cbn. auto.
  - cbn. destruct (f R (at_ s k)). cbn. auto.
  - cbn. destruct (f R (match at_ s k with Some v => v | None => d end)). cbn. auto.
  - cbn. destruct (f R (mview (fun a : A => a) (moving l) L s)). cbn. auto.
  - destruct N as [N1 N2]. cbn [moving handed].
    destruct (IHl1 N1 F m (moving l2 F m f) c s) as [S1 V1].
    destruct (IHl2 N2 F m f (handed l1 c) (view (plain l1) s)) as [S2 V2].
    cbn zeta in *. split.
    + intros v. rewrite !set_compose, S1. f_equal.
      destruct V1 as [V1 | V1]; rewrite V1; [apply S2 | reflexivity].
    + rewrite !view_compose. destruct V1 as [V1 | V1]; rewrite V1.
      * exact V2.
      * right; reflexivity.
Qed.

(** Nothing is lost when the part itself is left as it was. *)
Lemma neat_intact : forall S A (l : lx S A), neat l ->
  forall F m (f : cat -> A -> F A * A) c s,
  snd (f (handed l c) (view (plain l) s)) = view (plain l) s ->
  snd (moving l F m f c s) = s.
Proof.
  induction l as [ S | S A mb | ts T i | A | S A bv h g st | W K A at_ st k
                 | W K A at_ st k d | ts T h i | W P h l IHl | W P h l IHl | A h t | A h
                 | S A l IHl | S A B l1 IHl1 l2 IHl2 | ws ps ls | W ps ls ];
    intros N F m f c s Hf; try contradiction.
  - exact Hf.
  - change (view (plain (XAttr mb)) s) with (mem_get mb s) in Hf. cbn in *.
    destruct (f c (mem_get mb s)) as [fa a]. cbn in *. rewrite Hf. apply N.
  - change (view (plain (XElement i)) s) with (tget i s) in Hf. cbn in *.
    destruct (f c (tget i s)) as [fa a]. cbn in *. rewrite Hf. apply tassign_tget.
  - cbn. destruct (f L (box_get s)). reflexivity.
  - cbn in N. subst bv. cbn. destruct (f R (g s)). reflexivity.
  - cbn. destruct (f R (at_ s k)). reflexivity.
  - cbn. destruct (f R (match at_ s k with Some v => v | None => d end)). reflexivity.
  - cbn. destruct (f R (mview (fun a : A => a) (moving l) L s)). reflexivity.
  - destruct N as [N1 N2]. cbn [moving handed] in *. rewrite view_compose in Hf.
    apply (IHl1 N1). apply (IHl2 N2). exact Hf.
Qed.

Lemma neat_tame : forall S A (l : lx S A), neat l -> forall c, tame c l.
Proof.
  induction l; intros N c; try contradiction; cbn in *; auto.
  destruct N. split; auto.
Qed.

Lemma tame_sane :
  (forall S A (l : lx S A), (forall c, tame c l -> sane l) /\ (neat l -> sane l)) /\
  (forall ws ps (ls : xpack ws ps), forall c, tame_pack c ls -> sane_pack ls) /\
  (forall W ps (ls : xfan W ps), forall c, tame_fan c ls -> sane_fan ls).
Proof.
  apply lx_all; cbn; try (split; intros; auto; tauto).
  - intros W P h l [I1 I2]. split; [|tauto]. intros c [_ H]. eauto.
  - intros W P h l [I1 I2]. split; [|tauto]. intros c [_ H]. eauto.
  - intros S A l [I1 I2]. split; eauto.
  - intros S A B l1 [I1 I2] l2 [J1 J2]. split; [intros c [H1 H2] | intros [H1 H2]]; eauto.
  - intros ws ps ls I. split; [eauto | tauto].
  - intros W ps ls I. split; [eauto | tauto].
  - intros W P ws ps h l [I1 I2] r J [|] [H1 H2]; split; eauto.
  - intros W P ps l I r J c (H1 & H2 & H3). split; eauto.
Qed.

Lemma tame_hits :
  (forall S A (l : lx S A), forall c, tame c l -> forall s x, hits l c s x) /\
  (forall ws ps (ls : xpack ws ps), forall c, tame_pack c ls -> forall w p,
     zip_put ls c (zip_left ls c w) p = zip_set (plain_pack ls) w p) /\
  (forall W ps (ls : xfan W ps), forall c, tame_fan c ls -> forall w p,
     fan_put ls c w p = set_fold (plain_fan ls) w p).
Proof.
  apply lx_all; unfold hits.
  - intros S c _ s x f Hf. exact Hf.
  - intros S A mb c Hm s x f Hf. change (view (plain (XAttr mb)) s) with (mem_get mb s) in Hf. cbn in *.
    destruct (f c (mem_get mb s)) as [fa a]. cbn in *. subst fa.
    apply (mok_assign_assign _ Hm).
  - intros ts T i c _ s x f Hf. change (view (plain (XElement i)) s) with (tget i s) in Hf. cbn in *.
    destruct (f c (tget i s)) as [fa a]. cbn in *. subst fa. apply tassign_tassign.
  - intros A c _ s x f Hf. change (view (plain XUnbox) s) with (box_get s) in Hf. cbn in *.
    destruct (f L (box_get s)) as [fa a]. cbn in *. subst fa. reflexivity.
  - intros S A bv h g st c Hc s x f Hf.
    change (view (plain (XGetset bv h g st)) s) with (g s) in Hf. cbn in *.
    destruct (f R (g s)) as [fa a]. cbn in *. subst fa.
    destruct Hc as [-> | ->]; [|destruct bv]; reflexivity.
  - intros W K A at_ st k c _ s x f Hf.
    change (view (plain (XAt at_ st k)) s) with (at_ s k) in Hf. cbn in *.
    destruct (f R (at_ s k)) as [fa a]. cbn in *. subst fa. reflexivity.
  - intros W K A at_ st k d c _ s x f Hf.
    change (view (plain (XAtOr at_ st k d)) s)
      with (match at_ s k with Some v => v | None => d end) in Hf. cbn in *.
    destruct (f R _) as [fa a]. cbn in *. subst fa. reflexivity.
  - intros ts T h i c -> s x f Hf.
    change (view (plain (XAlternative h i)) s) with (vget i s) in Hf. cbn in *.
    destruct (f R (vget i s)) as [fa a]. cbn in *. subst fa.
    unfold set, alternative, identity_map. cbn.
    destruct (vget i s) as [t|] eqn:G.
    + rewrite vget_vmake. destruct x; [reflexivity|]. apply vmake_vget, G.
    + rewrite G. reflexivity.
  - intros W P h l IH c [-> Hl] s x f Hf. cbn [moving handed] in *.
    destruct s as [w|].
    + pose proof (proj1 left_L _ _ l (proj1 (proj1 tame_sane _ _ l) _ Hl) _ (const_map P)
                        (look h) w (fun _ => eq_refl)) as E1.
      pose proof (proj1 reads _ _ l P (look h) L w) as E2.
      destruct (moving l (const_functor P) (const_map P) (look h) L w) as [a w1].
      cbn in E1, E2. subst w1 a.
      change (view (plain (XMapOpt h l)) (Some w)) with (Some (view (plain l) w)) in Hf.
      unfold const_functor. destruct (f R (Some (view (plain l) w))) as [fa b]. cbn in *. subst fa.
      unfold set, map_opt, identity_map; cbn. destruct x as [v|]; [|reflexivity].
      unfold mset. rewrite (IH L Hl w v) by reflexivity. reflexivity.
    + cbn. destruct (f R None); reflexivity.
  - intros W P h l IH c [-> Hl] s x f Hf. cbn [moving handed] in *.
    destruct s as [w|].
    + pose proof (proj1 left_L _ _ l (proj1 (proj1 tame_sane _ _ l) _ Hl) _
                        (const_map (option P)) (look (option_map h)) w (fun _ => eq_refl))
        as E1.
      pose proof (proj1 reads _ _ l (option P) (look (option_map h)) L w) as E2.
      destruct (moving l (const_functor (option P)) (const_map (option P))
                       (look (option_map h)) L w) as [a w1].
      cbn in E1, E2. subst w1 a.
      change (view (plain (XBindOpt h l)) (Some w)) with (view (plain l) w) in Hf.
      unfold const_functor. destruct (f R (view (plain l) w)) as [fa b]. cbn in *. subst fa.
      unfold set, bind_opt, identity_map; cbn. destruct x as [v|]; [|reflexivity].
      unfold mset. rewrite (IH L Hl w (Some v)) by reflexivity. reflexivity.
    + cbn. destruct (f R None); reflexivity.
  - intros A h t c _ s x f Hf.
    change (view (plain (XValueOr h t)) s)
      with (match s with Some v => v | None => t end) in Hf. cbn in *.
    destruct (f R _) as [fa a]. cbn in *. subst fa. reflexivity.
  - intros A h c [].
  - intros S A l IH c Hl s x f Hf. cbn [moving handed] in *. rewrite view_moving.
    change (view (plain (XErase l)) s) with (view (plain l) s) in Hf.
    destruct (f R (view (plain l) s)) as [fa b]. cbn in *. subst fa.
    unfold identity_map, mset. rewrite (IH L Hl s x) by reflexivity. reflexivity.
  - intros S A B l1 IH1 l2 IH2 c [H1 H2] s x. apply hits_compose.
    + intros f. apply IH2. exact H2.
    + intros f. apply IH1. exact H1.
  - intros ws ps ls IH c Hl s x f Hf. cbn [moving handed] in *.
    rewrite (proj1 (proj2 reads) _ _ ls).
    change (view (plain (XZip ls)) s) with (zip_view (plain_pack ls) s) in Hf.
    destruct (f R (zip_view (plain_pack ls) s)) as [fa b]. cbn in *. subst fa.
    unfold identity_map. apply (IH c Hl).
  - intros W ps ls IH c Hl s x f Hf. cbn [moving handed] in *.
    rewrite (proj2 (proj2 reads) _ _ ls).
    change (view (plain (XFan ls)) s) with (fan_view (plain_fan ls) s) in Hf.
    destruct (f R (fan_view (plain_fan ls) s)) as [fa b]. cbn in *. subst fa.
    unfold identity_map. apply (IH c Hl).
  - reflexivity.
  - intros W P ws ps h l IHl r IHr c [Hl Hr] [w ws'] p. cbn. rewrite (IHr c Hr). f_equal.
    unfold mset. destruct c.
    + unfold after_view.
      rewrite (proj1 left_L _ _ l (proj1 (proj1 tame_sane _ _ l) _ Hl)) by reflexivity.
      apply (IHl L Hl). reflexivity.
    + rewrite (IHl R (neat_tame _ _ l Hl R) _ (fst p)) by reflexivity.
      apply (neat_left _ _ l Hl).
  - reflexivity.
  - intros W P ps l IHl r IHr c (_ & Hl & Hr) w p. cbn. rewrite (IHr c Hr).
    unfold mset. rewrite (IHl _ Hl _ (fst p)) by reflexivity. reflexivity.
Qed.

(** A neat lens written after it was viewed. *)
Lemma neat_again : forall S A (l : lx S A) F m (f : cat -> A -> F A * A) c s v, neat l ->
  mset (moving l) c (snd (moving l F m f c s)) v = set (plain l) s v.
Proof.
  intros S A l F m f c s v N.
  rewrite (hits_set _ _ l) by (apply tame_hits, neat_tame, N).
  apply neat_left, N.
Qed.

(** ** Chains of operator[] *)

Lemma map_hits : forall A B h (k : lx A B), neat k -> forall c s x,
  (x = None -> view (plain (XMapOpt h k)) s = None) -> hits (XMapOpt h k) c s x.
Proof.
  intros A B h k N c s x Hx f Hf. cbn [moving]. destruct s as [w|].
  - destruct x as [v|]; [|discriminate (Hx eq_refl)].
    pose proof (neat_again _ _ k _ (const_map B) (look h) c w v N) as E1.
    pose proof (proj1 reads _ _ k B (look h) c w) as E2.
    destruct (moving k (const_functor B) (const_map B) (look h) c w) as [a w1].
    cbn in E1, E2. subst a. cbn [handed] in Hf.
    change (view (plain (XMapOpt h k)) (Some w)) with (Some (view (plain k) w)) in Hf.
    unfold const_functor. destruct (f R (Some (view (plain k) w))) as [fa b].
    cbn in *. subst fa. unfold identity_map. rewrite E1. reflexivity.
  - destruct (f R None); reflexivity.
Qed.

(** Viewed first, then written; and written at once. *)
Definition steady {A B} (k : lx A (option B)) : Prop :=
  (forall F m (f : cat -> option B -> F (option B) * option B) c w,
     (forall c, snd (f c None) = None) ->
     (forall v, mset (moving k) c (snd (moving k F m f c w)) (Some v)
                = set (plain k) w (Some v)) /\
     (view (plain k) w = None -> snd (moving k F m f c w) = w)) /\
  (forall c w v, hits k c w (Some v)).

Lemma look_none : forall B (h : B -> B) c, snd (look (option_map h) c (@None B)) = None.
Proof. intros B h [|]; reflexivity. Qed.

Lemma bind_hits : forall A B h (k : lx A (option B)), steady k -> forall c s x,
  (x = None -> view (plain (XBindOpt h k)) s = None) -> hits (XBindOpt h k) c s x.
Proof.
  intros A B h k [N _] c s x Hx f Hf. cbn [moving]. destruct s as [w|].
  - change (view (plain (XBindOpt h k)) (Some w)) with (view (plain k) w) in Hf, Hx.
    pose proof (proj1 reads _ _ k (option B) (look (option_map h)) c w) as E2.
    destruct (N _ (const_map (option B)) (look (option_map h)) c w (look_none B h))
      as [E1 E3].
    destruct (moving k (const_functor (option B)) (const_map (option B))
                     (look (option_map h)) c w) as [a w1].
    cbn in E1, E2, E3. subst a. cbn [handed] in Hf.
    unfold const_functor. destruct (f R (view (plain k) w)) as [fa b].
    cbn in *. subst fa. unfold identity_map. destruct x as [v|].
    + rewrite E1. reflexivity.
    + rewrite (E3 (Hx eq_refl)). reflexivity.
  - destruct (f R None); reflexivity.
Qed.

Lemma after_map : forall A B h (k : lx A B) F m
    (f : cat -> option B -> F (option B) * option B) c w,
  snd (moving (XMapOpt h k) F m f c (Some w))
  = Some (snd (moving k (const_functor B) (const_map B) (look h) c w)).
Proof.
  intros. cbn [moving].
  destruct (moving k (const_functor B) (const_map B) (look h) c w) as [a w1].
  destruct (f R (Some a)). reflexivity.
Qed.
Lemma after_bind : forall A B h (k : lx A (option B)) F m
    (f : cat -> option B -> F (option B) * option B) c w,
  snd (moving (XBindOpt h k) F m f c (Some w))
  = Some (snd (moving k (const_functor (option B)) (const_map (option B))
                      (look (option_map h)) c w)).
Proof.
  intros. cbn [moving].
  destruct (moving k (const_functor (option B)) (const_map (option B))
                   (look (option_map h)) c w) as [a w1].
  destruct (f R a). reflexivity.
Qed.
Lemma set_bind_some : forall A B h (k : lx A (option B)) w v,
  set (plain (XBindOpt h k)) (Some w) (Some v) = Some (set (plain k) w (Some v)).
Proof. reflexivity. Qed.
Lemma set_map_some : forall A B h (k : lx A B) w v,
  set (plain (XMapOpt h k)) (Some w) (Some v) = Some (set (plain k) w v).
Proof. reflexivity. Qed.

Lemma lifted_steady : forall A B (k : lx A (option B)), lifted A B k -> steady k.
Proof.
  induction 1 as [A B l N | A B h l N | A B h l C IH].
  - split.
    + intros F m f c w Hf. split.
      * intros v. apply neat_again, N.
      * intros V. apply neat_intact; [exact N|]. rewrite V. apply Hf.
    + intros c w v. apply tame_hits, neat_tame, N.
  - split.
    + intros F m f c [w|] Hf.
      * rewrite after_map. split; [|discriminate]. intros v.
        rewrite (hits_set _ _ (XMapOpt h l)) by (apply map_hits; [exact N | discriminate]).
        rewrite !set_map_some. f_equal. apply neat_left, N.
      * split; intros; cbn [moving]; destruct (f R None); reflexivity.
    + intros c w v. apply map_hits; [exact N | discriminate].
  - split.
    + intros F m f c [w|] Hf.
      * rewrite after_bind.
        destruct (proj1 IH _ (const_map (option B)) (look (option_map h)) c w (look_none B h))
          as [E1 E2].
        split.
        -- intros v.
           rewrite (hits_set _ _ (XBindOpt h l)) by (apply bind_hits; [exact IH | discriminate]).
           rewrite !set_bind_some. f_equal. rewrite <- E1.
           symmetry. apply hits_set, IH.
        -- intros V. f_equal. apply E2. exact V.
      * split; intros; cbn [moving]; destruct (f R None); reflexivity.
    + intros c w v. apply bind_hits; [exact IH | discriminate].
Qed.

Lemma lifted_hits : forall A B (k : lx A (option B)), lifted A B k ->
  forall c s x, (x = None -> view (plain k) s = None) -> hits k c s x.
Proof.
  intros A B k H c s x Hx. destruct H as [A B l N | A B h l N | A B h l H].
  - apply tame_hits, neat_tame, N.
  - apply map_hits; assumption.
  - apply bind_hits; [apply lifted_steady, H | exact Hx].
Qed.

Lemma chain_hits : forall S A (l : lx S (option A)), chain S A l ->
  forall c s x, (x = None -> view (plain l) s = None) -> hits l c s x.
Proof.
  induction 1 as [S A l T | S A l T | S A B l h k C IH N | S A B l h k C IH N];
    intros c s x Hx.
  - apply tame_hits, T.
  - apply lifted_hits; assumption.
  - rewrite view_compose in Hx. apply hits_compose.
    + apply map_hits; assumption.
    + apply IH. intros E. destruct (view (plain l) s) as [w|]; [|reflexivity].
      destruct x; discriminate.
  - rewrite view_compose in Hx. apply hits_compose.
    + apply bind_hits; [apply lifted_steady, N | exact Hx].
    + apply IH. intros E. destruct (view (plain l) s) as [w|]; [|reflexivity].
      destruct x; discriminate.
Qed.

Lemma chain_set : forall S A (l : lx S (option A)), chain S A l ->
  forall c s v, mset (moving l) c s (Some v) = set (plain l) s (Some v).
Proof. intros. apply hits_set, chain_hits; [assumption | discriminate]. Qed.

Lemma chain_clear : forall S A (l : lx S (option A)), chain S A l ->
  forall c s, view (plain l) s = None -> mset (moving l) c s None = set (plain l) s None.
Proof. intros. apply hits_set, chain_hits; auto. Qed.

(** ** The API *)

Lemma over_plain : forall S A (l : lx S A) s fn,
  over (plain l) s fn = set (plain l) s (fn (view (plain l) s)).
Proof. intros. unfold over. apply plain_id. Qed.

Lemma set_inert : forall S A (l : lx S A), inert l -> forall c s v,
  mset (moving l) c s v = set (plain l) s v.
Proof. intros S A l H c s v. unfold mset. rewrite (proj1 writes_inert _ _ l H); reflexivity. Qed.
Lemma over_inert : forall S A (l : lx S A) h, inert l -> (forall a, h a = a) ->
  forall by_value c s fn, mover by_value h (moving l) c s fn = over (plain l) s fn.
Proof.
  intros S A l h H Hh b c s fn. unfold mover. rewrite over_plain.
  rewrite (proj1 writes_inert _ _ l H); [reflexivity|].
  intros [|] a; destruct b; cbn; auto.
Qed.
Lemma set_tame : forall S A (l : lx S A) c, tame c l -> forall s v,
  mset (moving l) c s v = set (plain l) s v.
Proof. intros. apply hits_set, tame_hits. assumption. Qed.
Lemma over_tame : forall S A (l : lx S A) c, tame c l -> forall by_value h s fn,
  mover by_value h (moving l) c s fn = over (plain l) s fn.
Proof.
  intros S A l c H b h s fn. rewrite over_plain. unfold mover.
  apply (proj1 tame_hits _ _ l c H). reflexivity.
Qed.
Lemma force_opt_set : forall A (h : A -> A) c s v,
  mset (moving (XForceOpt h)) c s v = set force_opt s v.
Proof. intros. destruct v; reflexivity. Qed.
Lemma after_L : forall S A (l : lx S A) h s, sane l ->
  after_view h (moving l) L s = s.
Proof. intros. apply left_L; [assumption | reflexivity]. Qed.

(** Nothing to write, on something that may be moved from: what was read is not there
    any more. *)
Lemma map_opt_none : forall W P h (l : lx W P) w,
  mset (moving (XMapOpt h l)) R (Some w) None = Some (after_view h (moving l) R w).
Proof.
  intros. unfold mset, after_view. cbn [moving].
  destruct (moving l (const_functor P) (const_map P) (look h) R w). reflexivity.
Qed.
Lemma at_map_opt_none : forall W K A P at_ (st : W -> option A -> K -> W) k h (l : lx A P) c s,
  mset (moving (XCompose (XAt at_ st k) (XMapOpt h l))) c s None =
  st s (match at_ s k with
        | Some w => Some (after_view h (moving l) R w)
        | None => None
        end) k.
Proof.
  intros. unfold mset. cbn [moving]. destruct (at_ s k) as [w|]; [|reflexivity].
  unfold after_view.
  destruct (moving l (const_functor P) (const_map P) (look h) R w). reflexivity.
Qed.

(** ** Cursors *)

(** A cursor is as good as one made with all lenses at once. *)
Fixpoint joined {S A} (n : nodes S A) : lx S A :=
  match n in nodes S A return lx S A with
  | NRoot => XId
  | NZoom p l => XCompose (joined p) l
  end.
Lemma route_joined : forall S A (n : nodes S A), route n = plain (joined n).
Proof. induction n; cbn [route joined plain]; [|rewrite IHn]; reflexivity. Qed.
Lemma node_value_view : forall S A (n : nodes S A) x, node_value n x = view (route n) x.
Proof.
  intros S A n; induction n as [S | S A B p IH l]; intros x; [reflexivity|].
  cbn [node_value]. rewrite view_moving, IH, !route_joined. cbn [joined].
  rewrite view_compose. reflexivity.
Qed.
Lemma node_write_set : forall (P : forall A B, lx A B -> Prop),
  (forall A B (l : lx A B), P A B l -> forall x v, mset (moving l) R x v = set (plain l) x v) ->
  forall S A (n : nodes S A), all_lenses P n -> forall x v, node_write n x v = set (route n) x v.
Proof.
  intros P HP S A n; induction n as [S | S A B p IH l]; intros H x v; [reflexivity|].
  destruct H as [H1 H2]. cbn [node_write]. rewrite IH, (HP _ _ _ H2), node_value_view by exact H1.
  rewrite !route_joined. cbn [joined]. rewrite set_compose. reflexivity.
Qed.
Lemma cursor_tame : forall S A (n : nodes S A), all_lenses (fun A B => tame R) n ->
  forall x v, node_write n x v = set (route n) x v.
Proof. apply node_write_set. intros. apply set_tame. assumption. Qed.
Lemma cursor_inert : forall S A (n : nodes S A), all_lenses (@inert) n ->
  forall x v, node_write n x v = set (route n) x v.
Proof. apply node_write_set. intros. apply set_inert. assumption. Qed.
Lemma cursor_chain : forall S W A (p : nodes S W) (l : lx W (option A)),
  all_lenses (fun A B => tame R) p -> chain W A l ->
  forall x v, node_write (NZoom p l) x (Some v) = set (route (NZoom p l)) x (Some v).
Proof.
  intros S W A p l H C x v. cbn [node_write]. rewrite cursor_tame by exact H.
  rewrite (chain_set _ _ l C), node_value_view. rewrite !route_joined. cbn [joined].
  rewrite set_compose. reflexivity.
Qed.
