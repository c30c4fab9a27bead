(** Chains of [with(...)]: what the reader at the end shows when steps reject values. *)
From Coq Require Import List Arith Bool Lia.
From Verif Require Import NodesModel NodesSpec NodesTrackSpec NodesBase NodesInv NodesExec NodesEv
                          NodesRoots NodesNotify NodesTold NodesCount NodesFacts NodesWrite NodesApi
                          NodesTrack NodesTrackFacts NodesSteady NodesThin NodesTwin WithModel WithSpec WithProofs WithFacts.
Import ListNotations.

Section Latest.
Context {V W : Type}.
Variable dv : V.
Variable changed : V -> V -> bool.
Hypothesis changed_sound : forall a b, changed a b = false -> a = b.
Variable ordV : graph V W -> nat -> list (nat * V) -> list (nat * V).
Variable ordN : graph V W -> nat -> list nat -> list nat.
Hypothesis ordN_in : forall g n l x, In x (ordN g n l) -> In x l.
Variable tup : list V -> V.
Variable untup : V -> list V.
Set Default Proof Using "Type".
Implicit Types g : graph V W.
Implicit Types s : st V W.
Notation run := (run dv changed ordV ordN).
Notation reach := (reach dv changed ordN).
Notation chain_nodes := (@chain_nodes V W tup untup).
Notation make_node := (@make_node V W tup untup).
Notation chain_reads := (chain_reads tup).
Notation ereads := (ereads tup).
Notation tuplify := (tuplify tup).

Lemma reach_more : forall w s, reach w s -> NI s /\ SI (gr s) /\ SH s /\ UI changed s /\ WI changed s.
Proof using changed_sound ordN_in.
  intros w s H. unfold NodesRoots.reach in H. remember (init_st dv w) as s0 eqn:E.
  induction H as [s|s s1 s2 H IH H1]; subst.
  - split; [|split; [|split; [|split]]].
    + intros n (_ & A & _). discriminate.
    + intros n. constructor.
    + intros n L. simpl in L. lia.
    + intros n L. simpl in L. lia.
    + intros m n T F TW c a _ L. simpl in L. lia.
  - assert (R1 : reach w s1) by exact H.
    destruct (reach_all dv changed changed_sound ordN ordN_in w s1 R1) as (I1 & I2 & I3 & _).
    destruct IH as (J1 & J2 & J3 & J4 & J5); auto.
    split; [eapply step_NI; eauto|]. split; [eapply step_SI; eauto|]. split; [eapply step_SH; eauto|].
    split; [eapply step_UI; eauto|]. eapply step_WI; eauto.
Qed.
Lemma reach_UI : forall w s, reach w s -> UI changed s.
Proof using changed_sound ordN_in. intros w s H. apply (reach_more w s H). Qed.

Lemma chain_path : forall os next e ks g q, chain_nodes next e os = Some ks -> built g next ks ->
  srcs e = [q] -> (forall i, i < length ks -> alive g (next + i) = true /\ not_reread g (next + i)) ->
  fits tup e (map fst os) ->
  exists F, cpath g q (next + length ks - 1) F /\
    forall v, F v = bind (ereads e [v]) (chain_reads (map fst os)).
Proof.
  assert (MK : forall g m e q, alive g m = true /\ not_reread g m -> kind_of g m = fst (make_node e) ->
      parents g m = [q] -> exists d, follows g m q d /\ forall xs, d xs = option_map tuplify (ereads e xs)).
  { intros g m e q [HA HR] K Pa. destruct (make_node_kind (W := W) tup untup e) as (down & up & K0 & D).
    exists down. split; auto. split; [exists up; congruence|auto]. }
  induction os as [|[o cut] os IH]; intros next e ks g q H B S0 HA HF; simpl in H.
  - injection H as <-. cbn [length]. rewrite Nat.add_sub.
    destruct (built_head tup untup g next [] e [] B) as [K Pa]. simpl in K, Pa. rewrite Nat.add_0_r in K, Pa.
    rewrite S0 in Pa. assert (HA0 := HA 0 (le_n 1)). rewrite Nat.add_0_r in HA0.
    destruct (MK g next e q HA0 K Pa) as (d & Hd & Ed).
    exists (fun v => d [v]). split; [eapply cp_one; eauto|]. intros v. rewrite Ed. now destruct (ereads e [v]).
  - destruct (apply_op _ _ next e o) as [[ks0 e']|] eqn:EA; [|discriminate].
    simpl in HF. pose proof HF as [HK HF0]. inversion HK as [|? ? K1 K2]; subst.
    assert (CR : forall v, bind (bind (ereads e [v]) (opx tup o)) (chain_reads (map fst os)) =
                           bind (ereads e [v]) (chain_reads (map fst ((o, cut) :: os)))).
    { intros v. destruct (ereads e [v]) as [ys|] eqn:EY; simpl; auto. rewrite read1_opx.
      destruct (opx tup o ys) as [zs|] eqn:EZ; simpl; auto.
      destruct (opx_single tup o ys zs K1) as [z ->]; auto.
      - apply (HF0 [v]); auto. now rewrite S0.
      - simpl. now rewrite reads_one. }
    assert (TS : forall v zs, bind (ereads e [v]) (opx tup o) = Some zs -> exists z, zs = [z]).
    { intros v zs. destruct (ereads e [v]) as [ys|] eqn:EY; simpl; [|discriminate]. intros EZ.
      apply (opx_single tup o ys zs K1); auto. apply (HF0 [v]); auto. now rewrite S0. }
    destruct (apply_cases tup untup _ _ _ _ _ EA) as [(-> & S1 & R1)|(-> & EA' & S1 & R1 & R2)]; simpl in H.
    + assert (FN : fits tup e' (map fst os)) by (eapply fits_next; eauto).
      rewrite Nat.add_0_r in H. destruct cut.
      * destruct (chain_nodes (next + 1) (EWith (is_reader e') [next]) os) as [rest|] eqn:EN; [|discriminate].
        injection H as <-. destruct (built_head tup untup g next [] e' rest B) as [K Pa]. simpl in K, Pa.
        rewrite Nat.add_0_r in K, Pa. rewrite S1, S0 in Pa.
        assert (HA0 := HA 0 (Nat.lt_0_succ _)). rewrite Nat.add_0_r in HA0.
        destruct (MK g next e' q HA0 K Pa) as (d & Hd & Ed).
        assert (LR : 0 < length rest) by (apply (chain_shape tup untup _ _ _ _ EN)).
        destruct (IH (next + 1) (EWith (is_reader e') [next]) rest g next EN) as (F & HF1 & EF).
        -- apply (built_tail g next [make_node e'] rest B).
        -- reflexivity.
        -- intros i L. replace (next + 1 + i) with (next + S i) by lia. apply HA. simpl. lia.
        -- now apply fits_one.
        -- replace (next + length (make_node e' :: rest) - 1) with (next + 1 + length rest - 1) by (simpl; lia).
           eexists. split; [eapply cp_cons; eauto; intros v; reflexivity|].
           intros v. cbv beta. rewrite Ed, R1, <- CR.
           destruct (bind (ereads e [v]) (opx tup o)) as [zs|] eqn:EZ; auto.
           destruct (TS v zs EZ) as [z ->]. simpl. now rewrite EF.
      * destruct (chain_nodes next e' os) as [rest|] eqn:EN; [|discriminate].
        injection H as <-. rewrite <- S1 in S0.
        destruct (IH next e' rest g q EN B S0 HA FN) as (F & HF1 & EF).
        exists F. split; auto. intros v. now rewrite EF, R1, <- CR.
    + assert (FN : fits tup e' (map fst os)) by (eapply fits_forced; eauto).
      assert (CR2 : forall v, bind (option_map tuplify (ereads e [v]))
                                   (fun y => bind (opx tup o [y]) (chain_reads (map fst os))) =
                              bind (ereads e [v]) (chain_reads (map fst ((o, cut) :: os)))).
      { intros v. rewrite <- CR. destruct (ereads e [v]) as [ys|] eqn:EY; simpl; auto. now rewrite (R2 [v] ys EY). }
      destruct cut.
      * destruct (chain_nodes (next + 1 + 1) (EWith (is_reader e') [next + 1]) os) as [rest|] eqn:EN; [|discriminate].
        injection H as <-.
        destruct (built_head tup untup g next [] e (make_node e' :: rest) B) as [K Pa]. simpl in K, Pa.
        rewrite Nat.add_0_r in K, Pa. rewrite S0 in Pa.
        destruct (built_head tup untup g next [make_node e] e' rest B) as [K' Pa']. simpl in K', Pa'.
        rewrite S1 in Pa'.
        assert (HA0 := HA 0 (Nat.lt_0_succ _)). rewrite Nat.add_0_r in HA0.
        assert (HA1 := HA 1 (ltac:(simpl; lia))).
        destruct (MK g next e q HA0 K Pa) as (d & Hd & Ed).
        destruct (MK g (next + 1) e' next HA1 K' Pa') as (d' & Hd' & Ed').
        assert (LR : 0 < length rest) by (apply (chain_shape tup untup _ _ _ _ EN)).
        destruct (IH (next + 1 + 1) (EWith (is_reader e') [next + 1]) rest g (next + 1) EN) as (F & HF1 & EF).
        -- replace (next + 1 + 1) with (next + 2) by lia. apply (built_tail g next [make_node e; make_node e'] rest B).
        -- reflexivity.
        -- intros i L. replace (next + 1 + 1 + i) with (next + S (S i)) by lia. apply HA. simpl. lia.
        -- now apply fits_one.
        -- replace (next + length (make_node e :: make_node e' :: rest) - 1)
             with (next + 1 + 1 + length rest - 1) by (simpl; lia).
           eexists. split; [eapply cp_cons; [exact Hd| |intros v; reflexivity];
                            eapply cp_cons; [exact Hd'|exact HF1|intros v; reflexivity]|].
           intros v. cbv beta. rewrite Ed, <- CR2.
           destruct (option_map tuplify (ereads e [v])) as [y|] eqn:EY; simpl; auto.
           rewrite Ed', R1. destruct (opx tup o [y]) as [zs|] eqn:EZ; simpl; auto.
           destruct (opx_single tup o [y] zs K1) as [z ->]; auto; [left; red; eauto|].
           simpl. now rewrite EF.
      * destruct (chain_nodes (next + 1) e' os) as [rest|] eqn:EN; [|discriminate].
        injection H as <-.
        destruct (built_head tup untup g next [] e rest B) as [K Pa]. simpl in K, Pa.
        rewrite Nat.add_0_r in K, Pa. rewrite S0 in Pa.
        assert (HA0 := HA 0 (Nat.lt_0_succ _)). rewrite Nat.add_0_r in HA0.
        destruct (MK g next e q HA0 K Pa) as (d & Hd & Ed).
        assert (LR : 0 < length rest) by (apply (chain_shape tup untup _ _ _ _ EN)).
        destruct (IH (next + 1) e' rest g next EN) as (F & HF1 & EF); auto.
        -- apply (built_tail g next [make_node e] rest B).
        -- intros i L. replace (next + 1 + i) with (next + S i) by lia. apply HA. simpl. lia.
        -- replace (next + length (make_node e :: rest) - 1) with (next + 1 + length rest - 1) by (simpl; lia).
           eexists. split; [eapply cp_cons; eauto; intros v; reflexivity|].
           intros v. cbv beta. rewrite Ed, <- CR2.
           destruct (option_map tuplify (ereads e [v])) as [y|]; simpl; auto. now rewrite EF, R1.
Qed.

(** The first node of a chain reads its sources, the others follow it. *)
Definition fits_all (e : @expr V) (os : list (@op V)) : Prop :=
  Forall op_keeps os /\
  forall vs ys, ereads e vs = Some ys -> single ys \/ match os with o :: _ => op_gives o | [] => True end.

Lemma chain_head : forall os next e ks g, chain_nodes next e os = Some ks -> built g next ks ->
  (forall i, i < length ks -> alive g (next + i) = true /\ not_reread g (next + i)) ->
  fits_all e (map fst os) ->
  exists d up, kind_of g next = KInner d up /\ parents g next = srcs e /\
    ((length ks = 1 /\ forall xs, d xs = bind (ereads e xs) (chain_reads (map fst os))) \/
     exists K, cpath g next (next + length ks - 1) K /\
       forall xs, match d xs with Some y => K y | None => None end = bind (ereads e xs) (chain_reads (map fst os))).
Proof.
  assert (MK : forall g m e, kind_of g m = fst (make_node e) ->
      exists d up, kind_of g m = KInner d up /\ forall xs, d xs = option_map tuplify (ereads e xs)).
  { intros g m e K. destruct (make_node_kind (W := W) tup untup e) as (down & up & K0 & D).
    exists down, up. split; auto. congruence. }
  induction os as [|[o cut] os IH]; intros next e ks g H B HA HF; simpl in H.
  - injection H as <-.
    destruct (built_head tup untup g next [] e [] B) as [K Pa]. simpl in K, Pa. rewrite Nat.add_0_r in K, Pa.
    destruct (MK g next e K) as (d & up & Kd & Ed). exists d, up. split; [exact Kd|]. split; [exact Pa|].
    left. split; [reflexivity|]. intros xs. rewrite Ed. now destruct (ereads e xs).
  - destruct (apply_op _ _ next e o) as [[ks0 e']|] eqn:EA; [|discriminate].
    simpl in HF. pose proof HF as [HK HF0]. inversion HK as [|? ? K1 K2]; subst.
    assert (CR : forall xs, bind (bind (ereads e xs) (opx tup o)) (chain_reads (map fst os)) =
                            bind (ereads e xs) (chain_reads (map fst ((o, cut) :: os)))).
    { intros xs. destruct (ereads e xs) as [ys|] eqn:EY; simpl; auto. rewrite read1_opx.
      destruct (opx tup o ys) as [zs|] eqn:EZ; simpl; auto.
      destruct (opx_single tup o ys zs K1) as [z ->]; auto.
      - now apply (HF0 xs).
      - simpl. now rewrite reads_one. }
    assert (TS : forall xs zs, bind (ereads e xs) (opx tup o) = Some zs -> exists z, zs = [z]).
    { intros xs zs. destruct (ereads e xs) as [ys|] eqn:EY; simpl; [|discriminate]. intros EZ.
      apply (opx_single tup o ys zs K1); auto. now apply (HF0 xs). }
    destruct (apply_cases tup untup _ _ _ _ _ EA) as [(-> & S1 & R1)|(-> & EA' & S1 & R1 & R2)]; simpl in H.
    + rewrite Nat.add_0_r in H. destruct cut.
      * destruct (chain_nodes (next + 1) (EWith (is_reader e') [next]) os) as [rest|] eqn:EN; [|discriminate].
        injection H as <-. destruct (built_head tup untup g next [] e' rest B) as [K Pa]. simpl in K, Pa.
        rewrite Nat.add_0_r in K, Pa. rewrite S1 in Pa.
        destruct (MK g next e' K) as (d & up & Kd & Ed).
        assert (LR : 0 < length rest) by (apply (chain_shape tup untup _ _ _ _ EN)).
        destruct (chain_path os (next + 1) (EWith (is_reader e') [next]) rest g next EN) as (F & HF1 & EF).
        -- apply (built_tail g next [make_node e'] rest B).
        -- reflexivity.
        -- intros i L. replace (next + 1 + i) with (next + S i) by lia. apply HA. simpl. lia.
        -- now apply fits_one.
        -- exists d, up. split; auto. split; auto. right. exists F.
           replace (next + length (make_node e' :: rest) - 1) with (next + 1 + length rest - 1) by (simpl; lia).
           split; auto. intros xs. rewrite Ed, R1, <- CR.
           destruct (bind (ereads e xs) (opx tup o)) as [zs|] eqn:EZ; auto.
           destruct (TS xs zs EZ) as [z ->]. simpl. now rewrite EF.
      * destruct (chain_nodes next e' os) as [rest|] eqn:EN; [|discriminate].
        injection H as <-.
        destruct (IH next e' rest g EN B HA) as (d & up & Kd & Pd & HD).
        { split; auto. intros vs ys E. left. rewrite R1 in E. now apply (TS vs). }
        exists d, up. split; auto. split; [congruence|].
        destruct HD as [(E1 & HD)|(K & HD1 & HD2)]; [left|right].
        -- split; auto. intros xs. now rewrite HD, R1, <- CR.
        -- exists K. split; auto. intros xs. now rewrite HD2, R1, <- CR.
    + assert (CR2 : forall xs, bind (option_map tuplify (ereads e xs))
                                    (fun y => bind (opx tup o [y]) (chain_reads (map fst os))) =
                               bind (ereads e xs) (chain_reads (map fst ((o, cut) :: os)))).
      { intros xs. rewrite <- CR. destruct (ereads e xs) as [ys|] eqn:EY; simpl; auto. now rewrite (R2 xs ys EY). }
      assert (EN : exists rest, ks = make_node e :: rest /\
        chain_nodes (next + 1) (EWith (is_reader e) [next]) ((o, cut) :: os) = Some rest).
      { assert (EB : apply_op tup untup (next + 1) (EWith (is_reader e) [next]) o = Some ([], e'))
          by (rewrite <- EA'; destruct o; reflexivity).
        cbn [WithModel.chain_nodes]. rewrite EB. cbn [length app]. rewrite ?Nat.add_0_r.
        destruct cut; destruct (chain_nodes _ _ os) as [rest|]; try discriminate; injection H as <-; eauto. }
      destruct EN as (rest & -> & EN).
      destruct (built_head tup untup g next [] e rest B) as [K Pa]. simpl in K, Pa.
      rewrite Nat.add_0_r in K, Pa.
      destruct (MK g next e K) as (d & up & Kd & Ed).
      assert (LR : 0 < length rest) by (apply (chain_shape tup untup _ _ _ _ EN)).
      destruct (chain_path ((o, cut) :: os) (next + 1) (EWith (is_reader e) [next]) rest g next EN) as (F & HF1 & EF).
      * apply (built_tail g next [make_node e] rest B).
      * reflexivity.
      * intros i L. replace (next + 1 + i) with (next + S i) by lia. apply HA. simpl. lia.
      * now apply fits_one.
      * exists d, up. split; auto. split; auto. right. exists F.
        replace (next + length (make_node e :: rest) - 1) with (next + 1 + length rest - 1) by (simpl; lia).
        split; auto. intros xs. rewrite Ed, <- CR2.
        destruct (option_map tuplify (ereads e xs)) as [y|] eqn:EY; simpl; auto.
        rewrite EF. simpl. rewrite read1_opx.
        destruct (opx tup o [y]) as [zs|] eqn:EZ; simpl; auto.
        destruct (opx_single tup o [y] zs K1) as [z ->]; auto; [left; red; eauto|].
        simpl. now rewrite reads_one.
Qed.

Lemma chain_alive : forall next e os ks g, wf g -> chain_nodes next e os = Some ks -> built g next ks ->
  alive g (next + length ks - 1) = true -> not_reread g next ->
  forall i, i < length ks -> alive g (next + i) = true /\ not_reread g (next + i).
Proof.
  intros next e os ks g Wf EC HB HA NR i L.
  assert (SR : forall i, i < length ks -> source g next (next + i)).
  { clear i L. destruct (chain_shape tup untup _ _ _ _ EC) as [_ R].
    induction i as [|i IHi]; intros L; [rewrite Nat.add_0_r; constructor|].
    destruct (nth_error ks (S i)) as [[k ps]|] eqn:E; [|apply nth_error_None in E; lia].
    destruct (R _ _ _ E) as [_ Q]. destruct (HB _ _ _ E) as [_ Pa]. simpl in Q. subst ps.
    econstructor; [apply IHi; lia|]. rewrite Pa. now left. }
  split.
  - pose proof (built_source tup untup os next _ ks g EC HB i L) as SI.
    clear -SI HA Wf. induction SI as [|a q n SI IH HQ]; auto. apply IH.
    apply (alive_parent _ (wf_par _ Wf) q n); auto.
  - intros m Hm. apply NR. eapply source_trans; eauto.
Qed.

Lemma chain_latest : forall fuel w p s next rd q os ks, visible (run fuel w p) s ->
  chain_nodes next (EWith rd [q]) os = Some ks -> built (gr s) next ks ->
  alive (gr s) (next + length ks - 1) = true -> not_reread (gr s) next ->
  steps_fit [q] (map fst os) ->
  exists v0, made_with (log s) (next + length ks - 1) = Some v0 /\
    last (gr s) (next + length ks - 1) =
    latest (fun x => chain_reads (map fst os) [x]) (shown_since (log s) q (next + length ks - 1)) v0.
Proof using changed_sound ordN_in.
  intros fuel w p s next rd q os ks HV EC HB HA NR HF.
  apply (visible_reach dv changed changed_sound ordV ordN) in HV.
  destruct (reach_all dv changed changed_sound ordN ordN_in w s HV) as ((Wf & _) & _ & _ & _).
  pose proof (reach_UI w s HV) as HU.
  destruct (chain_path os next (EWith rd [q]) ks (gr s) q EC HB eq_refl) as (F & HF1 & EF).
  - eapply chain_alive; eauto.
  - now apply steps_fit_fits.
  - assert (L : next + length ks - 1 < cnt (gr s)) by (apply alive_cnt; auto; apply (wf_par _ Wf)).
    destruct (cpath_latest changed changed_sound s q _ F Wf (HU _ L) HF1) as (v0 & E1 & E2).
    exists v0. split; auto. rewrite E2. apply latest_ext. intros v. rewrite EF. reflexivity.
Qed.

Lemma chain_latest_many : forall fuel w p s next rd rd' ns m os ks, visible (run fuel w p) s ->
  2 <= length ns -> (forall xs, length xs = length ns -> untup (tup xs) = xs) ->
  chain_nodes next (EWith rd ns) os = Some ks -> built (gr s) next ks ->
  alive (gr s) (next + length ks - 1) = true -> not_reread (gr s) next ->
  steps_fit ns (map fst os) ->
  m < next -> built (gr s) m [make_node (EWith rd' ns)] -> alive (gr s) m = true -> not_reread (gr s) m ->
  exists v0 t0, made_with (log s) (next + length ks - 1) = Some v0 /\
    shown_when (log s) m (next + length ks - 1) = Some t0 /\
    let all x := chain_reads (map fst os) (untup x) in
    let seen := shown_since (log s) m (next + length ks - 1) in
    last (gr s) (next + length ks - 1) = latest all seen v0 \/
    last (gr s) (next + length ks - 1) = latest all (seen ++ [t0]) v0.
Proof using changed_sound ordN_in.
  intros fuel w p s next rd rd' ns m os ks HV L2 UT EC HB HA NR HF Lm HBm HAm NRm.
  apply (visible_reach dv changed changed_sound ordV ordN) in HV.
  destruct (reach_all dv changed changed_sound ordN ordN_in w s HV) as ((Wf & _) & _ & _ & _).
  destruct (reach_more w s HV) as (_ & _ & _ & HU & HW).
  assert (L : next + length ks - 1 < cnt (gr s)) by (apply alive_cnt; auto; apply (wf_par _ Wf)).
  destruct (chain_shape tup untup _ _ _ _ EC) as [LK _].
  pose proof (chain_alive _ _ _ _ _ Wf EC HB HA NR) as CA.
  destruct (chain_head os next (EWith rd ns) ks (gr s) EC HB CA) as (d & up & Kd & Pd & HD).
  { destruct HF as [H1 H2]. split; auto. intros vs ys _. destruct H2 as [H2|H2]; auto. lia. }
  cbn [srcs] in Pd. cbn [WithProofs.ereads] in HD.
  assert (TT : forall xs, length xs = length ns -> tuplify xs = tup xs).
  { intros [|x [|y xs]] E; auto. simpl in E. lia. }
  destruct (built_head tup untup (gr s) m [] (EWith rd' ns) [] HBm) as [Km Pm]. simpl in Pm.
  rewrite Nat.add_0_r in Km, Pm.
  destruct (make_node_kind (W := W) tup untup (EWith rd' ns)) as (dm & um & Km' & Dm). rewrite Km' in Km.
  destruct (HU _ L) as (a & UA).
  destruct (CA 0) as [A0 N0]; [lia|]. rewrite Nat.add_0_r in A0, N0.
  assert (TW : twin (gr s) m next tup (fun v => d (untup v))).
  { constructor; auto.
    - congruence.
    - exists dm, um. split; auto. intros xs Lx. rewrite Dm. simpl. rewrite Pd in Lx. now rewrite TT.
    - exists d, up. split; auto. intros xs Lx. rewrite Pd in Lx. now rewrite UT. }
  exists (a (next + length ks - 1)), (a m). pose proof UA as (U1 & U2 & _).
  split; auto. split; [apply U2; lia|]. cbv zeta.
  apply (beside_latest changed changed_sound s m next _ tup (fun v => d (untup v))); auto.
  destruct HD as [(E1 & HD)|(K & CP & HD)]; [left|right].
  - split; [lia|]. intros v. now rewrite HD.
  - exists K. split; auto. intros v. now rewrite HD.
Qed.
End Latest.
