(** Chains of [with(...)] in executions. *)
From Coq Require Import List Arith Bool Lia Permutation.
From Verif Require Import NodesModel NodesSpec NodesBase NodesInv NodesExec NodesEv
                          NodesRoots NodesNotify NodesTold NodesCount NodesFacts NodesWrite NodesApi
                          WithModel WithSpec WithProofs WithWrites.
Import ListNotations.

Section Facts.
Context {V W : Type}.
Variable dv : V.
Variable changed : V -> V -> bool.
Hypothesis changed_sound : forall a b, changed a b = false -> a = b.
Variable ordV : graph V W -> nat -> list (nat * V) -> list (nat * V).
Hypothesis ordV_perm : forall g n l, Permutation l (ordV g n l).
Variable ordN : graph V W -> nat -> list nat -> list nat.
Hypothesis ordN_perm : forall g n l, Permutation l (ordN g n l).
Variable tup : list V -> V.
Variable untup : V -> list V.

Set Default Proof Using "Type".
Implicit Types g : graph V W.
Implicit Types s : st V W.

Notation ev := (ev changed ordV ordN).
Notation exec := (exec changed ordV ordN).
Notation run := (run dv changed ordV ordN).
Notation chain_nodes := (@chain_nodes V W tup untup).
Notation make_node := (@make_node V W tup untup).
Notation final := (fun next (ks : list (kind V W * list nat)) => next + length ks - 1).

Lemma steps_fit_fits : forall rd ns os, steps_fit ns os -> @fits V tup (EWith rd ns) os.
Proof.
  intros rd ns os [H1 H2]. split; auto. intros vs ys L E. simpl in *. injection E as <-.
  destruct H2 as [H2|H2]; auto. left. rewrite H2 in L.
  destruct vs as [|v [|? ?]]; try discriminate. red; eauto.
Qed.

(** ** Reading *)
Lemma chain_consistent : forall fuel w p s next rd ns os ks v, visible (run fuel w p) s ->
  chain_nodes next (EWith rd ns) os = Some ks -> built (gr s) next ks ->
  (forall q, In q ns -> plain (gr s) q) ->
  alive (gr s) (next + length ks - 1) = true -> clean (gr s) (log s) (next + length ks - 1) ->
  steps_fit ns (map fst os) ->
  chain_reads tup (map fst os) (map (last (gr s)) ns) = Some v ->
  last (gr s) (next + length ks - 1) = v.
Proof using changed_sound.
  intros fuel w p s next rd ns os ks v HV EC HB HP HA HC HF HR.
  assert (RS : reach dv changed ordN w s) by (eapply visible_reach; eauto).
  destruct (reach_Inv dv changed changed_sound ordN w s RS) as [HI _].
  eapply (chain_shows tup untup os next (EWith rd ns) ks (gr s) EC HB).
  - intros i L. pose proof (built_source tup untup os next _ ks (gr s) EC HB i L) as SI.
    assert (AI : alive (gr s) (next + i) = true).
    { clear -SI HA HI. induction SI as [|a q n SI IH HQ]; auto. apply IH.
      apply (alive_parent _ (wf_par _ (proj1 HI)) q n); auto. }
    eapply (consistent_visible dv changed changed_sound ordV ordN fuel w p s); eauto.
    + eapply built_plain; eauto.
    + intros r Sr Rr. apply HC; auto. eapply source_trans; eauto.
  - now apply steps_fit_fits.
  - reflexivity.
  - exact HR.
Qed.

(** ** Writing *)
Lemma chain_writable : forall os next e ks g, chain_nodes next e os = Some ks -> built g next ks ->
  is_reader e = false -> etotal tup e -> wsound e -> Forall op_writes (map fst os) -> apart (is_wx e) os ->
  (forall p, In p (srcs e) -> writable g p) -> writable g (final next ks).
Proof.
  assert (NW : forall g e m, kind_of g m = fst (make_node e) -> parents g m = srcs e ->
    is_reader e = false -> etotal tup e -> wsound e -> (forall p, In p (srcs e) -> writable g p) -> writable g m).
  { intros g e m K P R ET WP HS q Sq.
    assert (Q : q = m \/ exists p, In p (srcs e) /\ source g q p).
    { inversion Sq as [|? p ? Sp Hp]; subst; auto. rewrite P in Hp. eauto. }
    destruct Q as [->|(p & Hp & Sp)]; [|now apply (HS p)].
    rewrite K. destruct e as [[] ns|x ns|[] x wx ns|[] l ns]; simpl in *; try discriminate.
    - split; [discriminate|]. right. reflexivity.
    - split.
      + intros vs E. specialize (ET vs). simpl in ET. destruct (x vs); [discriminate|auto].
      + destruct WP as [WP|WP]; [now left|right]. intros a b v. rewrite (WP a b). reflexivity.
    - split; [discriminate|]. now left. }
  assert (AP : forall next e o e', apply_op (W := W) tup untup next e o = Some ([], e') -> op_writes o -> joins e o ->
            wsound e -> wsound e').
  { intros next e o e' H HW J WP.
    destruct e as [rd ns|x ns|rd x wx ns|rd l ns], o as [y|y wy|l']; simpl in *; try discriminate; try contradiction;
      injection H as <-; simpl; auto; try apply HW.
    destruct WP as [WP|WP]; [left; now rewrite WP, orb_true_r|right].
    intros a b v. simpl. rewrite (J eq_refl a b). destruct (w_run wy b v); auto. }
  induction os as [|[o cut] os IH]; intros next e ks g H B R ET WP HW HA HS; simpl in H.
  - injection H as <-. simpl. rewrite Nat.add_sub.
    destruct (built_head tup untup g next [] e [] B) as [K P]. simpl in K, P. rewrite Nat.add_0_r in K, P.
    eapply NW; eauto.
  - destruct (apply_op tup untup next e o) as [[ks0 e']|] eqn:EA; [|discriminate].
    simpl map in HW. inversion HW as [|? ? W1 W2]; subst.
    destruct (apart_step (W := W) tup untup _ _ _ _ _ _ _ EA HA W1) as (J & A0 & A1).
    destruct (apply_cases tup untup _ _ _ _ _ EA) as [(-> & S1 & R1)|(-> & EA' & S1 & R1 & R2)]; simpl in H.
    + destruct (apply_writes (W := W) tup untup _ _ _ _ EA W1 J R) as [R' _].
      pose proof (etotal_apply (W := W) tup untup _ _ _ _ EA W1 ET) as ET'.
      pose proof (AP _ _ _ _ EA W1 J WP) as WP'.
      rewrite Nat.add_0_r in H. destruct cut.
      * rewrite R' in H.
        destruct (chain_nodes (next + 1) (EWith false [next]) os) as [rest|] eqn:EN; [|discriminate].
        injection H as <-. destruct (built_head tup untup g next [] e' rest B) as [K P]. simpl in K, P.
        rewrite Nat.add_0_r in K, P.
        assert (LR : 0 < length rest) by (apply (chain_shape tup untup _ _ _ _ EN)).
        replace (next + length (make_node e' :: rest) - 1) with (next + 1 + length rest - 1) by (simpl; lia).
        apply (IH (next + 1) _ rest g EN); auto.
        -- apply (built_tail g next [make_node e'] rest B).
        -- apply etotal_with.
        -- simpl. exact I.
        -- simpl. intros p [<-|[]]. eapply NW; eauto. now rewrite S1.
      * destruct (chain_nodes next e' os) as [rest|] eqn:EN; [|discriminate].
        injection H as <-. apply (IH next e' rest g EN); auto. now rewrite S1.
    + rewrite R in EA'. assert (J' : joins (EWith false [next]) o) by (destruct o; simpl; auto; discriminate).
      destruct (apply_writes (W := W) tup untup _ _ _ _ EA' W1 J' eq_refl) as [R' _].
      pose proof (etotal_apply (W := W) tup untup _ _ _ _ EA' W1 (etotal_with tup false [next])) as ET'.
      pose proof (AP _ _ _ _ EA' W1 J' I) as WP'.
      destruct cut.
      * rewrite R' in H.
        destruct (chain_nodes (next + 1 + 1) (EWith false [next + 1]) os) as [rest|] eqn:EN; [|discriminate].
        injection H as <-.
        destruct (built_head tup untup g next [] e (make_node e' :: rest) B) as [K0 P0]. simpl in K0, P0.
        rewrite Nat.add_0_r in K0, P0.
        destruct (built_head tup untup g next [make_node e] e' rest B) as [K P]. simpl in K, P.
        assert (LR : 0 < length rest) by (apply (chain_shape tup untup _ _ _ _ EN)).
        replace (next + length (make_node e :: make_node e' :: rest) - 1)
          with (next + 1 + 1 + length rest - 1) by (simpl; lia).
        apply (IH (next + 1 + 1) _ rest g EN); auto.
        -- replace (next + 1 + 1) with (next + 2) by lia. apply (built_tail g next [make_node e; make_node e'] rest B).
        -- apply etotal_with.
        -- simpl. exact I.
        -- simpl. intros p [<-|[]]. eapply NW; eauto. rewrite S1. intros p [<-|[]].
           eapply NW; eauto.
      * destruct (chain_nodes (next + 1) e' os) as [rest|] eqn:EN; [|discriminate].
        injection H as <-.
        destruct (built_head tup untup g next [] e rest B) as [K0 P0]. simpl in K0, P0.
        rewrite Nat.add_0_r in K0, P0.
        assert (LR : 0 < length rest) by (apply (chain_shape tup untup _ _ _ _ EN)).
        replace (next + length (make_node e :: rest) - 1) with (next + 1 + length rest - 1) by (simpl; lia).
        apply (IH (next + 1) e' rest g EN); auto.
        -- apply (built_tail g next [make_node e] rest B).
        -- rewrite S1. intros p [<-|[]]. eapply NW; eauto.
Qed.

Lemma chain_sets : forall fuel0 w p fuel s s' next ns os ks v env, visible (run fuel0 w p) s ->
  chain_nodes next (EWith false ns) os = Some ks -> built (gr s) next ks ->
  steps_fit ns (map fst os) -> Forall op_writes (map fst os) -> apart false os ->
  (forall q, In q ns -> writable (gr s) q) ->
  (forall r a, kind_of (gr s) r = KState a -> written (log s) r = Some (env r)) ->
  finished (exec fuel (TCmd (CSet (next + length ks - 1) v)) s) s' ->
  exists vs l ws, Forall2 (value_of (gr s) env) ns vs /\
    match chain_writes tup (map fst os) vs v with
    | Some u => Permutation (combine ns (parts untup ns u)) l
    | None => l = []
    end /\ puts (gr s) env l ws /\ log s' = logged ws ++ log s.
Proof using changed_sound ordV_perm ordN_perm.
  intros fuel0 w p fuel s s' next ns os ks v env HV EC HB HF HO HA HW HE HX.
  assert (RS : reach dv changed ordN w s) by (eapply visible_reach; eauto).
  assert (WF : writable (gr s) (next + length ks - 1)).
  { apply (chain_writable os next (EWith false ns) ks (gr s) EC HB); auto.
    - apply etotal_with.
    - exact I. }
  destruct (set_puts dv changed changed_sound ordV ordV_perm ordN ordN_perm w fuel s s' _ v env RS WF HE HX)
    as (ws & HP & EL).
  apply (chain_puts tup untup os next (EWith false ns) ks (gr s) env EC HB) in HP; auto.
  - destruct HP as (vs & F & ys & EY & l & M & HP). simpl in EY, F, M. injection EY as <-.
    rewrite app_nil_r in HP. exists vs, l, ws. split; auto. split; auto.
    destruct (chain_writes tup (map fst os) vs v); auto.
  - apply etotal_with.
  - now apply steps_fit_fits.
Qed.

Lemma chain_sets_same : forall fuel0 w p fuel1 fuel2 s s1 s2 next1 next2 ns os1 os2 ks1 ks2 v,
  visible (run fuel0 w p) s -> map fst os1 = map fst os2 ->
  chain_nodes next1 (EWith false ns) os1 = Some ks1 -> built (gr s) next1 ks1 ->
  chain_nodes next2 (EWith false ns) os2 = Some ks2 -> built (gr s) next2 ks2 ->
  steps_fit ns (map fst os1) -> Forall op_writes (map fst os1) -> apart false os1 -> apart false os2 ->
  (forall q, In q ns -> writable (gr s) q) ->
  length ns <= 1 -> (forall q m, In q ns -> source (gr s) m q -> length (parents (gr s) m) <= 1) ->
  finished (exec fuel1 (TCmd (CSet (next1 + length ks1 - 1) v)) s) s1 ->
  finished (exec fuel2 (TCmd (CSet (next2 + length ks2 - 1) v)) s) s2 ->
  log s1 = log s2.
Proof using changed_sound ordV_perm ordN_perm.
  intros fuel0 w p fuel1 fuel2 s s1 s2 next1 next2 ns os1 os2 ks1 ks2 v HV EO E1 B1 E2 B2 HF HO HA1 HA2 HW HL HN X1 X2.
  set (env := fun r => match written (log s) r with Some x => x | None => dv end).
  assert (HE : forall r a, kind_of (gr s) r = KState a -> written (log s) r = Some (env r)).
  { intros r a K. unfold env.
    destruct (reach_Inv dv changed changed_sound ordN w s (visible_reach dv changed changed_sound ordV ordN _ _ _ _ HV)) as [HI RI].
    assert (L : r < cnt (gr s)) by (apply (noninner_out _ _ (proj1 HI)); rewrite K; discriminate).
    destruct (RI r L) as [[_ Q] _]; [now rewrite K|]. rewrite K in Q. destruct Q as (Q & _). now rewrite Q. }
  destruct (chain_sets _ _ _ _ _ _ _ _ _ _ v env HV E1 B1 HF HO HA1 HW HE X1) as (vs1 & l1 & ws1 & F1 & M1 & P1 & L1).
  rewrite EO in HF, HO.
  destruct (chain_sets _ _ _ _ _ _ _ _ _ _ v env HV E2 B2 HF HO HA2 HW HE X2) as (vs2 & l2 & ws2 & F2 & M2 & P2 & L2).
  assert (vs2 = vs1) by (eapply values_fun; eauto). subst vs2.
  rewrite EO in M1.
  assert (IN : l1 = l2 /\ forall n x, In (n, x) l1 -> In n ns).
  { destruct (chain_writes tup (map fst os2) vs1 v) as [u|].
    - split.
      + eapply perm_short; [|exact M1|exact M2]. rewrite combine_length. lia.
      + intros n x Hn. apply (Permutation_in _ (Permutation_sym M1)) in Hn. now apply in_combine_l in Hn.
    - split; [congruence|]. subst l1. intros n x []. }
  destruct IN as [<- IN].
  assert (ws2 = ws1).
  { eapply (puts_det (gr s) env l1 ws1 P1); [|reflexivity|exact P2].
    intros n x Hn m Hm. apply (HN n); eauto. }
  subst ws2. congruence.
Qed.

(** ** The nodes get made *)
Lemma make_all_built : forall d ks s s', ev (TProg (make_all d ks)) s true s' ->
  built (gr s') (cnt (gr s)) ks /\ cnt (gr s') = cnt (gr s) + length ks /\
  forall m, m < cnt (gr s) -> kind_of (gr s') m = kind_of (gr s) m /\ parents (gr s') m = parents (gr s) m.
Proof using changed_sound.
  induction ks as [|[k ps] ks IH]; intros s s' H; simpl in H.
  - inversion H; subst. split; [|split; auto].
    + intros [|i] k ps E; discriminate.
  - inversion H; subst.
    match goal with X : NodesEv.ev _ _ _ (TCmd _) _ _ _ |- _ => rename X into H1 end.
    match goal with X : NodesEv.ev _ _ _ (TProg (make_all _ _)) _ _ _ |- _ => rename X into H2 end.
    inversion H1; subst.
    match goal with X : forall p, In p _ -> handle _ p = true |- _ => rename X into HH end.
    match goal with X : NoDup _ |- _ => rename X into ND end.
    apply IH in H2. destruct H2 as (B & C & O).
    change (gr (see (new_node k ps v s))) with (add_node k ps v (gr s)) in *.
    destruct (add_rest changed changed_sound (gr s) k ps v HH ND) as (C1 & _). rewrite C1 in *.
    pose proof (add_nd_new changed changed_sound (gr s) k ps v HH ND) as NN.
    split; [|split].
    + intros [|i] k' ps' E; simpl in E.
      * injection E as <- <-. rewrite Nat.add_0_r. destruct (O (cnt (gr s))) as [-> ->]; [lia|].
        unfold kind_of, parents. rewrite NN. auto.
      * replace (cnt (gr s) + S i) with (S (cnt (gr s)) + i) by lia. now apply B.
    + simpl. lia.
    + intros m L. destruct (O m) as [-> ->]; [lia|].
      destruct (add_old_fields changed changed_sound (gr s) k ps v HH ND m) as (-> & -> & _); [lia|auto].
Qed.
Lemma make_all_done : forall fuel d ks s s', exec fuel (TProg (make_all d ks)) s = Done s' ->
  built (gr s') (cnt (gr s)) ks.
Proof using changed_sound.
  intros fuel d ks s s' H. apply (make_all_built d ks s s').
  apply (exec_ev changed ordV ordN fuel). rewrite H. simpl. auto.
Qed.
End Facts.
