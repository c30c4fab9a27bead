(** Chains of [with(...)]: what readers show, what cursors write. *)
From Coq Require Import List Arith Bool Lia Permutation.
From Verif Require Import NodesModel NodesSpec WithModel WithSpec.
Import ListNotations.

Section Chains.
Context {V W : Type}.
Variable tup : list V -> V.
Variable untup : V -> list V.
Notation tuplify := (tuplify tup).
Notation make_node := (@make_node V W tup untup).
Notation apply_op := (@apply_op V W tup untup).
Notation chain_nodes := (@chain_nodes V W tup untup).
Notation chain_reads := (chain_reads tup).
Notation chain_writes := (chain_writes tup).
Notation op := (@op V).
Notation expr := (@expr V).
Implicit Types g : graph V W.
Implicit Types e : expr.

Definition bind {A B} (o : option A) (f : A -> option B) : option B :=
  match o with Some a => f a | None => None end.
Definition srcs e : list nat :=
  match e with EWith _ ns | EXform _ ns | EWxform _ _ _ ns | ELens _ _ ns => ns end.
Definition ereads e (xs : list V) : option (list V) :=
  match e with
  | EWith _ _ => Some xs
  | EXform x _ | EWxform _ x _ _ => x xs
  | ELens _ l _ => Some [l_view l (tuplify xs)]
  end.
Definition opx (o : op) (ys : list V) : option (list V) :=
  match o with OXform x | OXform2 x _ => x ys | OZoom l => Some [l_view l (tuplify ys)] end.

Lemma read1_opx : forall o ys, read1 tup o ys = option_map tuplify (opx o ys).
Proof. intros [x|x w|l] ys; reflexivity. Qed.

Lemma make_node_srcs : forall e, snd (make_node e) = srcs e.
Proof. intros [rd ns|x ns|rd x w ns|rd l ns]; reflexivity. Qed.
Lemma make_node_kind : forall e, exists down up, fst (make_node e) = KInner down up /\
  forall xs, down xs = option_map tuplify (ereads e xs).
Proof.
  intros [rd ns|x ns|rd x w ns|rd l ns]; simpl; eexists _, _; (split; [reflexivity|]); reflexivity.
Qed.

(** Nodes made by one method call. *)
Lemma apply_cases : forall next e o ks e', apply_op next e o = Some (ks, e') ->
  (ks = [] /\ srcs e' = srcs e /\ forall xs, ereads e' xs = bind (ereads e xs) (opx o)) \/
  (ks = [make_node e] /\ apply_op next (EWith (is_reader e) [next]) o = Some ([], e') /\
   srcs e' = [next] /\ (forall xs, ereads e' xs = opx o xs) /\
   (forall xs ys, ereads e xs = Some ys -> opx o [tuplify ys] = opx o ys)).
Proof.
  intros next e o ks e' H.
  destruct e as [rd ns|x ns|rd x w ns|rd l ns], o as [y|y w'|l']; simpl in H; try discriminate;
    injection H as <- <-; try (left; repeat split; reflexivity); right; repeat split; try reflexivity.
  simpl. intros xs ys E. injection E as <-. reflexivity.
Qed.

(** ** Shape of the nodes of a chain *)
Lemma chain_shape : forall os next e ks, chain_nodes next e os = Some ks ->
  0 < length ks /\
  forall i k ps, nth_error ks i = Some (k, ps) ->
    (exists down up, k = KInner down up) /\
    match i with 0 => ps = srcs e | S j => ps = [next + j] end.
Proof.
  induction os as [|[o cut] os IH]; intros next e ks H; simpl in H.
  - injection H as <-. split; [simpl; lia|]. intros [|i] k ps E; simpl in E.
    + injection E as E. destruct (make_node_kind e) as (down & up & K & _). rewrite E in K. simpl in K.
      split; eauto. rewrite <- make_node_srcs, E. reflexivity.
    + destruct i; discriminate.
  - destruct (apply_op next e o) as [[ks0 e']|] eqn:EA; [|discriminate].
    assert (N0 : forall e0, exists down up k ps, make_node e0 = (k, ps) /\ k = KInner down up /\ ps = srcs e0).
    { intros e0. destruct (make_node_kind e0) as (down & up & K & _).
      pose proof (make_node_srcs e0) as S0. destruct (make_node e0) as [k ps]. simpl in *. eauto 8. }
    destruct (apply_cases _ _ _ _ _ EA) as [(-> & S1 & _)|(-> & _ & S1 & _)]; simpl in H.
    + rewrite Nat.add_0_r in H. destruct cut.
      * destruct (chain_nodes (next + 1) (EWith (is_reader e') [next]) os) as [rest|] eqn:ER; [|discriminate].
        injection H as <-. destruct (IH _ _ _ ER) as [L R]. split; [simpl; lia|].
        intros [|i] k ps E; simpl in E.
        -- destruct (N0 e') as (down & up & k0 & ps0 & E0 & -> & ->). rewrite E0 in E. injection E as <- <-.
           split; eauto.
        -- destruct (R i k ps E) as [Q1 Q2]. split; auto. destruct i; simpl in *; subst; f_equal; lia.
      * destruct (chain_nodes next e' os) as [rest|] eqn:ER; [|discriminate].
        injection H as <-. destruct (IH _ _ _ ER) as [L R]. split; auto. rewrite <- S1. auto.
    + destruct cut.
      * destruct (chain_nodes (next + 1 + 1) (EWith (is_reader e') [next + 1]) os) as [rest|] eqn:ER; [|discriminate].
        injection H as <-. destruct (IH _ _ _ ER) as [L R]. split; [simpl; lia|].
        intros [|[|i]] k ps E; simpl in E.
        -- destruct (N0 e) as (down & up & k0 & ps0 & E0 & -> & ->). rewrite E0 in E. injection E as <- <-.
           split; eauto.
        -- destruct (N0 e') as (down & up & k0 & ps0 & E0 & -> & ->). rewrite E0 in E. injection E as <- <-.
           split; eauto. rewrite S1. f_equal; lia.
        -- destruct (R i k ps E) as [Q1 Q2]. split; auto. destruct i; simpl in *; subst; f_equal; lia.
      * destruct (chain_nodes (next + 1) e' os) as [rest|] eqn:ER; [|discriminate].
        injection H as <-. destruct (IH _ _ _ ER) as [L R]. split; [simpl; lia|].
        intros [|i] k ps E; simpl in E.
        -- destruct (N0 e) as (down & up & k0 & ps0 & E0 & -> & ->). rewrite E0 in E. injection E as <- <-.
           split; eauto.
        -- destruct (R i k ps E) as [Q1 Q2]. split; auto. destruct i; simpl in *.
           ++ rewrite Q2, S1. f_equal; lia.
           ++ subst; f_equal; lia.
Qed.

Lemma built_tail : forall g next ks0 ks, built g next (ks0 ++ ks) -> built g (next + length ks0) ks.
Proof.
  intros g next ks0 ks H i k ps E. specialize (H (length ks0 + i) k ps).
  rewrite nth_error_app2 in H by lia. replace (length ks0 + i - length ks0) with i in H by lia.
  rewrite <- Nat.add_assoc. auto.
Qed.
Lemma built_head : forall g next ks0 e ks, built g next (ks0 ++ make_node e :: ks) ->
  kind_of g (next + length ks0) = fst (make_node e) /\ parents g (next + length ks0) = srcs e.
Proof.
  intros g next ks0 e ks H. rewrite <- make_node_srcs. apply (H (length ks0)).
  rewrite nth_error_app2, Nat.sub_diag by lia. simpl. now destruct (make_node e).
Qed.

Lemma built_source : forall os next e ks g, chain_nodes next e os = Some ks -> built g next ks ->
  forall i, i < length ks -> source g (next + i) (next + length ks - 1).
Proof.
  intros os next e ks g H B i L. destruct (chain_shape _ _ _ _ H) as [_ R].
  assert (Q : forall j, i + j < length ks -> source g (next + i) (next + (i + j))).
  { induction j as [|j IH]; intros Lj; [rewrite Nat.add_0_r; constructor|].
    destruct (nth_error ks (i + S j)) as [[k ps]|] eqn:E; [|apply nth_error_None in E; lia].
    destruct (R _ _ _ E) as [_ Q]. replace (i + S j) with (S (i + j)) in Q by lia.
    destruct (B _ _ _ E) as [_ P]. subst ps.
    econstructor; [apply IH; lia|]. rewrite P. now left. }
  specialize (Q (length ks - 1 - i)). replace (next + length ks - 1) with (next + (i + (length ks - 1 - i))) by lia.
  apply Q. lia.
Qed.
Lemma source_trans : forall g a b c, source g a b -> source g b c -> source g a c.
Proof. intros g a b c H1 H2. induction H2 as [|b p n H2 IH HI]; auto. eapply source_step; [|exact HI]; auto. Qed.
Lemma built_plain : forall os next e ks g, chain_nodes next e os = Some ks -> built g next ks ->
  (forall p, In p (srcs e) -> plain g p) -> forall i, i < length ks -> plain g (next + i).
Proof.
  intros os next e ks g H B HP. destruct (chain_shape _ _ _ _ H) as [_ R].
  induction i as [|i IH]; intros L.
  - destruct (nth_error ks 0) as [[k ps]|] eqn:E; [|apply nth_error_None in E; lia].
    destruct (R _ _ _ E) as [(down & up & ->) Q]. destruct (B _ _ _ E) as [K P]. subst.
    eapply plain_inner; [exact K|]. rewrite P. auto.
  - destruct (nth_error ks (S i)) as [[k ps]|] eqn:E; [|apply nth_error_None in E; lia].
    destruct (R _ _ _ E) as [(down & up & ->) Q]. destruct (B _ _ _ E) as [K P]. simpl in Q. subst.
    eapply plain_inner; [exact K|]. rewrite P. intros p [<-|[]]. apply IH. lia.
Qed.

(** ** Reading *)
Definition single (ys : list V) : Prop := exists y, ys = [y].
Definition fits e (os : list op) : Prop :=
  Forall op_keeps os /\
  forall vs ys, length vs = length (srcs e) -> ereads e vs = Some ys ->
    single ys \/ match os with o :: _ => op_gives o | [] => True end.

Lemma opx_single : forall o ys zs, op_keeps o -> single ys \/ op_gives o -> opx o ys = Some zs -> single zs.
Proof.
  intros [x|x w|l] ys zs HK HS E; simpl in *.
  - destruct HS as [[y ->]|HG]; [eapply HK; eauto|eapply HG; eauto].
  - destruct HS as [[y ->]|HG]; [eapply HK; eauto|eapply HG; eauto].
  - injection E as <-. red; eauto.
Qed.
Lemma reads_one : forall os z, reads tup os z = chain_reads os [z].
Proof. intros [|o os] z; reflexivity. Qed.

Lemma fits_next : forall next e o os e', fits e (o :: os) -> apply_op next e o = Some ([], e') -> fits e' os.
Proof.
  intros next e o os e' [HK HF] EA. inversion HK as [|? ? K1 K2]; subst. split; auto.
  intros vs ys L E. left. destruct (apply_cases _ _ _ _ _ EA) as [(_ & S1 & R1)|(N & _)]; [|discriminate].
  rewrite R1 in E. destruct (ereads e vs) as [xs|] eqn:EX; [|discriminate]. simpl in E.
  eapply opx_single; eauto. apply (HF vs); auto. now rewrite <- S1.
Qed.
Lemma fits_one : forall rd n os, Forall (@op_keeps V) os -> fits (EWith rd [n]) os.
Proof.
  intros rd n os H. split; auto. intros vs ys L E. simpl in *. injection E as <-.
  left. destruct vs as [|v [|? ?]]; try discriminate. red; eauto.
Qed.
Lemma fits_forced : forall next e o os e', fits e (o :: os) ->
  apply_op next (EWith (is_reader e) [next]) o = Some ([], e') -> fits e' os.
Proof.
  intros next e o os e' [HK _] EA. eapply (fits_next next (EWith (is_reader e) [next])); eauto.
  now apply fits_one.
Qed.

Lemma chain_shows : forall os next e ks g, chain_nodes next e os = Some ks -> built g next ks ->
  (forall i, i < length ks -> agrees g (next + i)) -> fits e (map fst os) ->
  forall ys v, ereads e (map (last g) (srcs e)) = Some ys ->
  chain_reads (map fst os) ys = Some v -> last g (next + length ks - 1) = v.
Proof.
  assert (MK : forall g m e ys, agrees g m -> kind_of g m = fst (make_node e) -> parents g m = srcs e ->
            ereads e (map (last g) (srcs e)) = Some ys -> last g m = tuplify ys).
  { intros g m e ys HA K P ER. destruct (make_node_kind e) as (down & up & K0 & D).
    rewrite K0 in K. apply (HA down up); auto. rewrite P, D, ER. reflexivity. }
  induction os as [|[o cut] os IH]; intros next e ks g H B HA HF ys v ER EC; simpl in H.
  - injection H as <-. simpl in EC. injection EC as <-. simpl. rewrite Nat.add_sub.
    destruct (built_head g next [] e [] B) as [K P]. simpl in K, P. rewrite Nat.add_0_r in K, P.
    eapply MK; eauto. rewrite <- (Nat.add_0_r next). apply HA. simpl. lia.
  - destruct (apply_op next e o) as [[ks0 e']|] eqn:EA; [|discriminate].
    simpl in HF, EC. rewrite read1_opx in EC.
    destruct (opx o ys) as [zs|] eqn:EO; [|discriminate]. simpl in EC.
    destruct HF as [HK HF]. inversion HK as [|? ? K1 K2]; subst.
    assert (SZ : single zs).
    { eapply opx_single; eauto. eapply HF; eauto. now rewrite map_length. }
    destruct SZ as [z ->]. simpl in EC. rewrite reads_one in EC.
    destruct (apply_cases _ _ _ _ _ EA) as [(-> & S1 & R1)|(-> & EA' & S1 & R1 & R2)]; simpl in H.
    + assert (FN : fits e' (map fst os)) by (eapply fits_next; eauto; split; auto).
      assert (E1 : ereads e' (map (last g) (srcs e')) = Some [z]) by (rewrite S1, R1, ER; simpl; auto).
      rewrite Nat.add_0_r in H. destruct cut.
      * destruct (chain_nodes (next + 1) (EWith (is_reader e') [next]) os) as [rest|] eqn:EN; [|discriminate].
        injection H as <-. destruct (built_head g next [] e' rest B) as [K P]. simpl in K, P.
        rewrite Nat.add_0_r in K, P.
        assert (LN : last g next = z).
        { eapply (MK g next e' [z]); eauto. rewrite <- (Nat.add_0_r next). apply HA. simpl. lia. }
        assert (LR : 0 < length rest) by (apply (chain_shape _ _ _ _ EN)).
        replace (next + length (make_node e' :: rest) - 1) with (next + 1 + length rest - 1) by (simpl; lia).
        eapply (IH (next + 1)); eauto.
        -- apply (built_tail g next [make_node e'] rest B).
        -- intros i L. replace (next + 1 + i) with (next + S i) by lia. apply HA. simpl. lia.
        -- now apply fits_one.
        -- simpl. now rewrite LN.
      * destruct (chain_nodes next e' os) as [rest|] eqn:EN; [|discriminate].
        injection H as <-. eapply IH; eauto.
    + assert (FN : fits e' (map fst os)) by (eapply fits_forced; eauto; split; auto).
      assert (LN0 : forall rest, built g next (make_node e :: rest) ->
                (forall i, i < S (length rest) -> agrees g (next + i)) -> last g next = tuplify ys).
      { intros rest B0 HA0. destruct (built_head g next [] e rest B0) as [K P]. simpl in K, P.
        rewrite Nat.add_0_r in K, P. eapply MK; eauto. rewrite <- (Nat.add_0_r next). apply HA0. lia. }
      destruct cut.
      * destruct (chain_nodes (next + 1 + 1) (EWith (is_reader e') [next + 1]) os) as [rest|] eqn:EN; [|discriminate].
        injection H as <-. pose proof (LN0 _ B HA) as LN.
        destruct (built_head g next [make_node e] e' rest B) as [K P]. simpl in K, P.
        assert (LN1 : last g (next + 1) = z).
        { eapply (MK g (next + 1) e' [z]); eauto. { apply HA. simpl. lia. }
          rewrite S1. simpl. rewrite LN, R1, (R2 _ _ ER). auto. }
        assert (LR : 0 < length rest) by (apply (chain_shape _ _ _ _ EN)).
        replace (next + length (make_node e :: make_node e' :: rest) - 1)
          with (next + 1 + 1 + length rest - 1) by (simpl; lia).
        eapply (IH (next + 1 + 1)); eauto.
        -- replace (next + 1 + 1) with (next + 2) by lia. apply (built_tail g next [make_node e; make_node e'] rest B).
        -- intros i L. replace (next + 1 + 1 + i) with (next + S (S i)) by lia. apply HA. simpl. lia.
        -- now apply fits_one.
        -- simpl. now rewrite LN1.
      * destruct (chain_nodes (next + 1) e' os) as [rest|] eqn:EN; [|discriminate].
        injection H as <-. pose proof (LN0 _ B HA) as LN.
        assert (LR : 0 < length rest) by (apply (chain_shape _ _ _ _ EN)).
        replace (next + length (make_node e :: rest) - 1) with (next + 1 + length rest - 1) by (simpl; lia).
        eapply (IH (next + 1)); eauto.
        -- apply (built_tail g next [make_node e] rest B).
        -- intros i L. replace (next + 1 + i) with (next + S i) by lia. apply HA. simpl. lia.
        -- rewrite S1. simpl. rewrite LN, R1, (R2 _ _ ER). auto.
Qed.

(** ** Writing *)
Definition ewr e (vs : list V) (u : V) : option V :=
  match e with
  | EWith _ _ => Some u
  | EXform _ _ => None
  | EWxform _ _ w _ => w_run w vs u
  | ELens _ l _ => Some (l_set l (tuplify vs) u)
  end.
Definition wsound e : Prop := match e with EWxform _ _ w _ => w_ref w = true \/ w_ignores w | _ => True end.
Definition is_wx e : bool := match e with EWxform _ _ _ _ => true | _ => false end.
(** What has no node between. *)
Definition joins e (o : op) : Prop :=
  match o with OXform2 _ w => is_wx e = true -> w_ignores w | _ => True end.
Definition etotal e : Prop := forall xs, ereads e xs <> None.
(** Writes of an expression whose value, if the sources had to be written [K]. *)
Definition T g (env : nat -> V) e (K : list V -> option V) t ws : Prop :=
  exists vs, Forall2 (value_of g env) (srcs e) vs /\
  exists ys, ereads e vs = Some ys /\
  exists l, match bind (K ys) (ewr e vs) with
            | Some u => Permutation (combine (srcs e) (parts untup (srcs e) u)) l
            | None => l = []
            end /\ puts g env (l ++ t) ws.

Lemma forall2_length : forall (A B : Type) (R : A -> B -> Prop) l l', Forall2 R l l' -> length l = length l'.
Proof. intros A B R l l' H. induction H; simpl; congruence. Qed.
Lemma T_ext : forall g env e K K' t ws,
  (forall vs ys, length vs = length (srcs e) -> ereads e vs = Some ys -> K ys = K' ys) ->
  T g env e K t ws <-> T g env e K' t ws.
Proof.
  assert (Q : forall g env e K K' t ws,
    (forall vs ys, length vs = length (srcs e) -> ereads e vs = Some ys -> K ys = K' ys) ->
    T g env e K t ws -> T g env e K' t ws).
  { intros g env e K K' t ws H (vs & F & ys & E & l & M & P). exists vs. split; auto. exists ys. split; auto.
    exists l. split; auto. rewrite <- (H vs ys); auto. symmetry. eapply forall2_length; eauto. }
  intros. split; apply Q; auto. intros. symmetry. eauto.
Qed.

Lemma value_fun : forall g env n v, value_of g env n v -> forall v', value_of g env n v' -> v = v'.
Proof.
  fix IH 5. intros g env n v H v' H'. destruct H as [r a K|n down up vs v K F D].
  - inversion H'; subst; congruence.
  - inversion H' as [|? down' up' vs' ? K' F' D']; subst; try congruence.
    rewrite K in K'. injection K' as <- <-.
    assert (vs = vs').
    { clear - IH F F'. revert vs' F'. induction F as [|p v ps vs H F IHF]; intros vs' F'; inversion F'; subst; auto.
      f_equal; eauto. }
    congruence.
Qed.
Lemma values_fun : forall g env ns vs, Forall2 (value_of g env) ns vs -> forall vs', Forall2 (value_of g env) ns vs' -> vs = vs'.
Proof.
  intros g env ns vs F. induction F as [|p v ps vs H F IHF]; intros vs' F'; inversion F'; subst; auto.
  f_equal; eauto using value_fun.
Qed.

(** A node made from a writable expression. *)
Lemma node_kind : forall e, is_reader e = false ->
  exists down rf up, fst (make_node e) = KInner down (UWrite rf up) /\
  (forall xs, down xs = option_map tuplify (ereads e xs)) /\
  forall vs u, up vs u = match ewr e vs u with Some u' => [parts untup (srcs e) u'] | None => [] end.
Proof.
  intros [[] ns|x ns|[] x w ns|[] l ns] R; simpl in *; try discriminate;
    eexists _, _, _; (split; [reflexivity|]); (split; [reflexivity|]); reflexivity.
Qed.

Lemma node_puts : forall g env e m u t ws, is_reader e = false -> etotal e ->
  kind_of g m = fst (make_node e) -> parents g m = srcs e ->
  puts g env ((m, u) :: t) ws <-> T g env e (fun _ => Some u) t ws.
Proof.
  intros g env e m u t ws R ET K P. destruct (node_kind e R) as (down & rf & up & K0 & D & U).
  rewrite K0 in K. split.
  - intros H. inversion H as [|? ? ? ? ? ? K1|? ? ? ? down1 rf1 up1 vs ls ? K1 F FL HP]; subst; [congruence|].
    rewrite K in K1. injection K1 as <- <- <-. rewrite P in *. exists vs. split; auto.
    destruct (ereads e vs) as [ys|] eqn:EY; [|exfalso; eapply ET; eauto]. exists ys. split; auto.
    exists (concat ls). split; auto. simpl. rewrite U in FL.
    destruct (ewr e vs u).
    + inversion FL as [|? l ? ls' PM FL']; subst. inversion FL'; subst. simpl. now rewrite app_nil_r.
    + inversion FL; reflexivity.
  - intros (vs & F & ys & EY & l & M & HP). simpl in M.
    destruct (ewr e vs u) as [u'|] eqn:EW.
    + eapply (puts_inner g env m u t down rf up vs [l]); eauto.
      * now rewrite P.
      * rewrite U, EW, P. constructor; auto.
      * simpl. now rewrite app_nil_r.
    + subst l. eapply (puts_inner g env m u t down rf up vs []); eauto.
      * now rewrite P.
      * rewrite U, EW. constructor.
Qed.

Lemma node_value : forall g env e m, etotal e ->
  kind_of g m = fst (make_node e) -> parents g m = srcs e -> forall vs ys,
  Forall2 (value_of g env) (srcs e) vs -> ereads e vs = Some ys -> value_of g env m (tuplify ys).
Proof.
  intros g env e m ET K P vs ys F EY. destruct (make_node_kind e) as (down & up & K0 & D). rewrite K0 in K.
  eapply val_inner; eauto. { rewrite P. eauto. } rewrite D, EY. reflexivity.
Qed.
Lemma node_value_inv : forall g env e m y, 
  kind_of g m = fst (make_node e) -> parents g m = srcs e -> value_of g env m y ->
  exists vs ys, Forall2 (value_of g env) (srcs e) vs /\ ereads e vs = Some ys /\ y = tuplify ys.
Proof.
  intros g env e m y K P H. destruct (make_node_kind e) as (down & up & K0 & D). rewrite K0 in K.
  inversion H as [|? down1 up1 vs ? K1 F E]; subst; [congruence|].
  rewrite K in K1. injection K1 as <- <-. rewrite D in E.
  destruct (ereads e vs) as [ys|] eqn:EY; [|discriminate]. injection E as <-. rewrite P in F. eauto.
Qed.

(** Going on from a node made of the expression. *)
Lemma T_node : forall g env e m K t ws, is_reader e = false -> etotal e ->
  kind_of g m = fst (make_node e) -> parents g m = srcs e ->
  T g env (EWith false [m]) K t ws <-> T g env e (fun ys => K [tuplify ys]) t ws.
Proof.
  intros g env e m K t ws R ET KM PM. split.
  - intros (vs' & F' & ys' & E' & l & M & HP). simpl in E', F', M. injection E' as <-.
    inversion F' as [|? y ? r VY FN]; subst. inversion FN; subst.
    destruct (node_value_inv _ _ _ _ _ KM PM VY) as (vs & ys & F & EY & ->).
    destruct (K [tuplify ys]) as [u|] eqn:EK; simpl in M.
    + apply Permutation_length_1_inv in M. subst l. simpl in HP.
      apply (node_puts g env e m u t ws R ET KM PM) in HP.
      destruct HP as (vs1 & F1 & ys1 & E1 & l1 & M1 & HP1).
      assert (vs1 = vs) by (eapply values_fun; eauto). subst vs1.
      assert (ys1 = ys) by congruence. subst ys1.
      exists vs. split; auto. exists ys. split; auto. exists l1. split; auto. rewrite EK. exact M1.
    + subst l. exists vs. split; auto. exists ys. split; auto. exists []. rewrite EK. simpl. auto.
  - intros (vs & F & ys & EY & l & M & HP).
    pose proof (node_value g env e m ET KM PM vs ys F EY) as VM.
    exists [tuplify ys]. split; [simpl; auto|]. exists [tuplify ys]. split; [reflexivity|].
    destruct (K [tuplify ys]) as [u|] eqn:EK; simpl in M |- *.
    + exists [(m, u)]. split; auto. simpl. apply (node_puts g env e m u t ws R ET KM PM).
      exists vs. split; auto. exists ys. split; auto. exists l. split; auto.
    + subst l. exists []. split; auto.
Qed.

(** One method call without a node. *)
Lemma apply_writes : forall next e o e', apply_op next e o = Some ([], e') -> op_writes o -> joins e o ->
  is_reader e = false ->
  is_reader e' = false /\
  forall vs ys zs u, ereads e vs = Some ys -> opx o ys = Some zs ->
    ewr e' vs u = bind (write1 tup o ys u) (ewr e vs).
Proof.
  intros next e o e' H HW J R.
  destruct e as [rd ns|x ns|rd x w ns|rd l ns], o as [y|y w'|l']; simpl in H, HW, R;
    try discriminate; try contradiction; injection H as <-; (split; [exact R|]);
    intros vs ys zs u EY EZ; simpl in *.
  - injection EY as <-. unfold bind. destruct (w_run w' vs u); reflexivity.
  - injection EY as <-. reflexivity.
  - rewrite (J eq_refl ys vs). unfold bind. reflexivity.
  - injection EY as <-. reflexivity.
Qed.
Lemma T_apply : forall g env next e o e' K t ws, apply_op next e o = Some ([], e') -> op_writes o -> joins e o ->
  is_reader e = false -> etotal e ->
  T g env e' K t ws <-> T g env e (fun ys => bind (opx o ys) (fun zs => bind (K zs) (write1 tup o ys))) t ws.
Proof.
  intros g env next e o e' K t ws EA HW J R ET.
  destruct (apply_cases _ _ _ _ _ EA) as [(_ & S1 & R1)|(N & _)]; [|discriminate].
  destruct (apply_writes _ _ _ _ EA HW J R) as [_ W1].
  assert (Q : forall vs ys zs, ereads e vs = Some ys -> opx o ys = Some zs ->
    bind (K zs) (ewr e' vs) =
    bind (bind (opx o ys) (fun zs => bind (K zs) (write1 tup o ys))) (ewr e vs)).
  { intros vs ys zs EY EZ. rewrite EZ. simpl. destruct (K zs) as [u|]; simpl; auto. eapply W1; eauto. }
  assert (TO : forall ys, opx o ys <> None).
  { intros ys. destruct o as [y|y w'|l']; simpl in *; try contradiction; try discriminate. apply HW. }
  split.
  - intros (vs & F & zs & EZ & l & M & HP). rewrite S1 in *. rewrite R1 in EZ.
    destruct (ereads e vs) as [ys|] eqn:EY; [|discriminate]. simpl in EZ.
    exists vs. split; auto. exists ys. split; auto. exists l. split; auto.
    rewrite <- (Q vs ys zs); auto.
  - intros (vs & F & ys & EY & l & M & HP). destruct (opx o ys) as [zs|] eqn:EZ; [|exfalso; eapply TO; eauto].
    exists vs. rewrite S1. split; auto. exists zs. rewrite R1, EY. split; auto. exists l. split; auto.
    rewrite (Q vs ys zs); auto. rewrite EZ. exact M.
Qed.

Lemma etotal_apply : forall next e o e', apply_op next e o = Some ([], e') -> op_writes o -> etotal e -> etotal e'.
Proof.
  intros next e o e' EA HW ET xs.
  destruct (apply_cases _ _ _ _ _ EA) as [(_ & S1 & R1)|(N & _)]; [|discriminate].
  rewrite R1. destruct (ereads e xs) as [ys|] eqn:EY; [|exfalso; eapply ET; eauto]. simpl.
  destruct o as [y|y w'|l']; simpl in *; try contradiction; try discriminate. apply HW.
Qed.
Lemma etotal_with : forall rd ns, etotal (EWith rd ns).
Proof. intros rd ns xs. discriminate. Qed.

Lemma writes_single : forall o os e, fits e (o :: os) -> forall vs ys v,
  length vs = length (srcs e) -> ereads e vs = Some ys ->
  bind (opx o ys) (fun zs => bind (chain_writes os zs v) (write1 tup o ys)) = chain_writes (o :: os) ys v /\
  bind (opx o ys) (fun zs => bind (chain_writes os [tuplify zs] v) (write1 tup o ys)) = chain_writes (o :: os) ys v.
Proof.
  intros o os e [HK HF] vs ys v L EY. inversion HK as [|? ? K1 K2]; subst.
  unfold bind. simpl. rewrite read1_opx. destruct (opx o ys) as [zs|] eqn:EZ; simpl; auto.
  destruct (opx_single o ys zs K1 (HF vs ys L EY) EZ) as [z ->]. simpl.
  destruct (chain_writes os [z] v); auto.
Qed.
Lemma chain_writes_one : forall o os ys v, opx o [tuplify ys] = opx o ys ->
  (forall u, write1 tup o [tuplify ys] u = write1 tup o ys u) ->
  chain_writes (o :: os) [tuplify ys] v = chain_writes (o :: os) ys v.
Proof.
  intros o os ys v H1 H2. simpl. rewrite !read1_opx, H1.
  destruct (option_map _ _); auto. destruct (chain_writes os [v0] v); auto.
Qed.
Lemma forced_write1 : forall next e o e', apply_op next e o = Some ([make_node e], e') ->
  forall xs ys, ereads e xs = Some ys -> forall u, write1 tup o [tuplify ys] u = write1 tup o ys u.
Proof.
  intros next e o e' H xs ys EY u.
  destruct e as [rd ns|x ns|rd x w ns|rd l ns], o as [y|y w'|l']; simpl in *; try discriminate; try reflexivity.
  injection EY as <-. reflexivity.
Qed.

Lemma apart_step : forall next e o cut os ks e', apply_op next e o = Some (ks, e') -> apart (is_wx e) ((o, cut) :: os) ->
  op_writes o -> joins e o /\ (cut = true -> apart false os) /\ (cut = false -> apart (is_wx e') os).
Proof.
  intros next e o cut os ks e' EA HA HW. destruct o as [x|x w|l]; simpl in HW; [contradiction| |].
  - destruct HA as [J HA]. split; [exact J|]. split; intros ->; auto.
    destruct e; simpl in EA; try discriminate; injection EA as <- <-; exact HA.
  - split; [exact I|]. split; auto. intros _. destruct e; simpl in *; try discriminate; injection EA as <- <-; auto;
      try exact HA.
Qed.

Lemma chain_puts : forall os next e ks g env, chain_nodes next e os = Some ks -> built g next ks ->
  is_reader e = false -> etotal e -> fits e (map fst os) -> Forall op_writes (map fst os) -> apart (is_wx e) os ->
  forall v t ws, puts g env ((next + length ks - 1, v) :: t) ws <->
    T g env e (fun ys => chain_writes (map fst os) ys v) t ws.
Proof.
  induction os as [|[o cut] os IH]; intros next e ks g env H B R ET HF HW HA v t ws; simpl in H.
  - injection H as <-. simpl. rewrite Nat.add_sub.
    destruct (built_head g next [] e [] B) as [K P]. simpl in K, P. rewrite Nat.add_0_r in K, P.
    now apply node_puts.
  - destruct (apply_op next e o) as [[ks0 e']|] eqn:EA; [|discriminate].
    simpl map in HF, HW |- *. inversion HW as [|? ? W1 W2]; subst.
    destruct (apart_step _ _ _ _ _ _ _ EA HA W1) as (J & A0 & A1).
    destruct (apply_cases _ _ _ _ _ EA) as [(-> & S1 & R1)|(-> & EA' & S1 & R1 & R2)]; simpl in H.
    + assert (FN : fits e' (map fst os)) by (eapply fits_next; eauto).
      destruct (apply_writes _ _ _ _ EA W1 J R) as [R' _].
      pose proof (etotal_apply _ _ _ _ EA W1 ET) as ET'.
      rewrite Nat.add_0_r in H. destruct cut.
      * rewrite R' in H.
        destruct (chain_nodes (next + 1) (EWith false [next]) os) as [rest|] eqn:EN; [|discriminate].
        injection H as <-. destruct (built_head g next [] e' rest B) as [K P]. simpl in K, P.
        rewrite Nat.add_0_r in K, P.
        assert (LR : 0 < length rest) by (apply (chain_shape _ _ _ _ EN)).
        replace (next + length (make_node e' :: rest) - 1) with (next + 1 + length rest - 1) by (simpl; lia).
        rewrite (IH (next + 1) _ rest g env EN).
        -- rewrite (T_node g env e' next _ t ws R' ET' K P).
           rewrite (T_apply g env next e o e' _ t ws EA W1 J R ET).
           apply T_ext. intros vs ys L E. apply (writes_single o _ e HF vs ys v L E).
        -- apply (built_tail g next [make_node e'] rest B).
        -- reflexivity.
        -- apply etotal_with.
        -- apply fits_one. now inversion FN.
        -- assumption.
        -- apply A0. reflexivity.
      * destruct (chain_nodes next e' os) as [rest|] eqn:EN; [|discriminate].
        injection H as <-. rewrite (IH next e' rest g env EN B R' ET' FN W2 (A1 eq_refl)).
        rewrite (T_apply g env next e o e' _ t ws EA W1 J R ET).
        apply T_ext. intros vs ys L E. apply (writes_single o _ e HF vs ys v L E).
    + pose proof (forced_write1 _ _ _ _ EA) as FW.
      assert (FN : fits e' (map fst os)) by (eapply fits_forced; eauto).
      rewrite R in EA'. assert (J' : joins (EWith false [next]) o) by (destruct o; simpl; auto; discriminate).
      destruct (apply_writes _ _ _ _ EA' W1 J' eq_refl) as [R' _].
      pose proof (etotal_apply _ _ _ _ EA' W1 (etotal_with false [next])) as ET'.
      assert (F1 : fits (EWith false [next]) (o :: map fst os)).
      { apply fits_one. destruct HF as [HK _]. exact HK. }
      assert (FIN : kind_of g next = fst (make_node e) -> parents g next = srcs e ->
        forall KK, (forall vs ys, length vs = 1 -> ereads (EWith false [next]) vs = Some ys ->
                      bind (opx o ys) (fun zs => bind (KK zs) (write1 tup o ys)) = chain_writes (o :: map fst os) ys v) ->
        T g env e' KK t ws <-> T g env e (fun ys => chain_writes (o :: map fst os) ys v) t ws).
      { intros K P KK HKK. rewrite (T_apply g env next _ o e' _ t ws EA' W1 J' eq_refl (etotal_with _ _)).
        rewrite (T_ext g env (EWith false [next]) _ (fun ys => chain_writes (o :: map fst os) ys v)) by
          (intros vs ys L E; apply (HKK vs); auto).
        rewrite (T_node g env e next _ t ws R ET K P).
        apply T_ext. intros vs ys L E. apply chain_writes_one; [eapply R2; eauto|eapply FW; eauto]. }
      destruct cut.
      * rewrite R' in H.
        destruct (chain_nodes (next + 1 + 1) (EWith false [next + 1]) os) as [rest|] eqn:EN; [|discriminate].
        injection H as <-.
        destruct (built_head g next [] e (make_node e' :: rest) B) as [K0 P0]. simpl in K0, P0.
        rewrite Nat.add_0_r in K0, P0.
        destruct (built_head g next [make_node e] e' rest B) as [K P]. simpl in K, P.
        assert (LR : 0 < length rest) by (apply (chain_shape _ _ _ _ EN)).
        replace (next + length (make_node e :: make_node e' :: rest) - 1)
          with (next + 1 + 1 + length rest - 1) by (simpl; lia).
        rewrite (IH (next + 1 + 1) _ rest g env EN).
        -- rewrite (T_node g env e' (next + 1) _ t ws R' ET' K P). apply FIN; auto.
           intros vs ys L E. apply (writes_single o _ _ F1 vs ys v L E).
        -- replace (next + 1 + 1) with (next + 2) by lia. apply (built_tail g next [make_node e; make_node e'] rest B).
        -- reflexivity.
        -- apply etotal_with.
        -- apply fits_one. now inversion FN.
        -- assumption.
        -- apply A0. reflexivity.
      * destruct (chain_nodes (next + 1) e' os) as [rest|] eqn:EN; [|discriminate].
        injection H as <-.
        destruct (built_head g next [] e rest B) as [K0 P0]. simpl in K0, P0.
        rewrite Nat.add_0_r in K0, P0.
        assert (LR : 0 < length rest) by (apply (chain_shape _ _ _ _ EN)).
        replace (next + length (make_node e :: rest) - 1) with (next + 1 + length rest - 1) by (simpl; lia).
        rewrite (IH (next + 1) e' rest g env EN); auto.
        -- apply FIN; auto. intros vs ys L E. apply (writes_single o _ _ F1 vs ys v L E).
        -- apply (built_tail g next [make_node e] rest B).
Qed.
End Chains.
