(** Following the cursor, settling, waiting: proofs. *)
From Coq Require Import List Bool Arith NArith ZArith Ascii String Lia.
From Verif Require Import StoreModel StoreExtraModel DebuggerModel ServerModel ServerSpec ServerProofs GuiModel GuiSpec GuiBasics GuiShown.
Import ListNotations.
Local Open Scope list_scope.

Section Follow.
Context {M A W : Type}.
Variable encode_action : A -> str.
Variable encode_model : M -> str.
Variable reducer : M -> A -> option (M * option (prog M A W)).
Variables pause_eff resume_eff : prog (dmodel M A) (daction A) W.
Variable bits : N.
Notation happens := (happens encode_action encode_model reducer pause_eff resume_eff bits).
Notation after := (after encode_action encode_model reducer pause_eff resume_eff bits).
Notation showed := (showed encode_action encode_model reducer pause_eff resume_eff bits).
Notation dstep := (dstep reducer pause_eff resume_eff).
Notation bnd := (bounded (M := M) (A := A)).
Notation sys := (sys M A).
Notation gmodel := (gmodel M A).
Notation msg := (msg M A).

(** ** The cursor of the debugger is at a step *)
Lemma act_bounded : forall (d : dmodel M A) a d' e, bounded d -> update_act reducer d a = Some (d', e) -> bounded d'.
Proof.
  intros d a d' e B E. unfold update_act in E. destruct (paused d); [injection E as <- <-; exact B|].
  destruct (shown d); [|discriminate]. destruct (reducer m a) as [[m' x]|]; [|discriminate].
  injection E as <- <-. unfold bounded. cbn. lia.
Qed.
Lemma resume_bounded : forall l (d : dmodel M A) e d' e', bounded d ->
  fold_left (resume1 reducer) l (Some (d, e)) = Some (d', e') -> bounded d'.
Proof.
  induction l as [|a l IH]; intros d e d' e' B E; cbn in E.
  - injection E as <- <-. exact B.
  - destruct (update_act reducer d a) as [[d1 e1]|] eqn:EU.
    + eapply IH; [|exact E]. eapply act_bounded; eauto.
    + exfalso. clear - E. induction l; cbn in E; [discriminate|auto].
Qed.
Lemma dstep_bounded : forall d x, bounded d -> bounded (dstep d x).
Proof.
  intros d x B. unfold DebuggerModel.dstep. destruct (update reducer pause_eff resume_eff d x) as [[d' e]|] eqn:E; [|exact B].
  destruct x as [a|c| | | |]; cbn [update] in E.
  - eapply act_bounded; eauto.
  - injection E as <- <-. destruct (c <=? _) eqn:C; [|exact B]. apply Nat.leb_le in C. exact C.
  - injection E as <- <-. unfold bounded in *. destruct (0 <? cursor d); cbn [cursor history]; lia.
  - injection E as <- <-. destruct (_ <? _) eqn:C; [|exact B]. apply Nat.ltb_lt in C. unfold bounded. cbn. lia.
  - injection E as <- <-. exact B.
  - destruct (fold_left _ _ _) as [[d1 e1]|] eqn:F; [|discriminate]. injection E as <- <-.
    eapply resume_bounded; [|exact F]. exact B.
Qed.
Lemma exec_srv : forall m (s : sys), srv (hear m s) = srv s /\ truth (hear m s) = truth s /\ todo (hear m s) = todo s.
Proof. intros m s. destruct (hear_is m s) as (t & ->). repeat split. Qed.
Lemma bounded_happens : forall s e, bounded (truth s) /\ bounded (model_ (srv s)) ->
  bounded (truth (happens s e)) /\ bounded (model_ (srv (happens s e))).
Proof.
  intros s e [B1 B2]. destruct e as [n|k| | |n|n|n|a| |]; cbn [GuiModel.happens].
  - destruct (nth_error _ n) as [[o m]|]; [|auto]. destruct (exec_srv m s) as (-> & -> & _). auto.
  - destruct (exec_srv (ComboMsg k) s) as (-> & -> & _). auto.
  - destruct (exec_srv Tick s) as (-> & -> & _). auto.
  - destruct (self s) as [|m l]; [auto|].
    match goal with |- context [hear m ?s'] => destruct (exec_srv m s') as (-> & -> & _) end. auto.
  - destruct (nth_error _ n) as [[q x]|]; [|auto]. cbn. rewrite serve_model. auto.
  - destruct (nth_error _ n) as [[q x]|]; auto.
  - destruct (nth_error _ n) as [m|]; [|auto].
    match goal with |- context [hear m ?s'] => destruct (exec_srv m s') as (-> & -> & _) end. auto.
  - auto.
  - destruct (todo s); [auto|]. cbn. split; [apply dstep_bounded|]; auto.
  - cbn. auto.
Qed.
Lemma bounded_after : forall es s, bounded (truth s) /\ bounded (model_ (srv s)) ->
  bounded (truth (after s es)) /\ bounded (model_ (srv (after s es))).
Proof.
  induction es as [|e es IH] using rev_ind; intros s B; [exact B|]. rewrite after_snoc.
  apply bounded_happens, IH, B.
Qed.
Lemma opened_srv : forall origin (sv : server M A), srv (opened origin sv) = sv /\ truth (opened origin sv) = model_ sv /\
  todo (opened origin sv) = [] /\ back (opened origin sv) = [] /\ self (opened origin sv) = [] /\
  wire (opened origin sv) = [(Req Get (lit "/api"), XStatus)] /\ page (opened origin sv) = init_model origin /\
  heard (opened origin sv) = [].
Proof.
  intros. unfold opened. cbn [gui_init fst snd].
  match goal with |- context [exec_all ?p ?cs ?s'] => destruct (exec_all_is p cs s') as (t & ->) end.
  cbn. rewrite skip_server. repeat split.
Qed.
Lemma bounded_run : forall origin sv es d, bounded (model_ sv) -> showed (opened origin sv) es d -> bounded d.
Proof.
  intros origin sv es d B (k & ->). apply bounded_after.
  destruct (opened_srv origin sv) as (-> & -> & _). auto.
Qed.
Lemma inv_bounded : forall origin sv es, bounded (model_ sv) ->
  inv origin (program sv) bnd (was_status (program sv) bnd) (was_step bnd) (after (opened origin sv) es).
Proof. intros. apply inv_run. intros d H1. eapply bounded_run; eauto. Qed.

(** ** Following *)
Lemma follow_hear : forall prog m s, following (page s) \/ pg_detail (page s) = NoStep ->
  recv_ok bnd prog m \/ m = Tick ->
  following (page (hear m s)) \/ pg_detail (page (hear m s)) = NoStep /\ pg_detail (page s) = NoStep.
Proof.
  intros prog m s F R. destruct (hear_is m s) as (t & ->). cbn [page].
  assert (following (page s) \/ pg_detail (page s) = NoStep /\ pg_detail (page s) = NoStep) as F' by tauto.
  destruct m as [[st|]|[dt|]|r|i|i| | | | | | | | | | |k]; try (destruct R as [[]|R]; discriminate R); cbn [gui_update fst]; auto.
  - destruct R as [(d & B & R)|R]; [|discriminate]. destruct R as (_ & R1 & R2 & _). unfold bounded in B.
    assert (0 <= st_cursor st <= st_summary st)%Z as Q by lia.
    assert (following (fst (select_step (with_status st (page s)) (st_cursor st)))) as K.
    { destruct (select_cases (with_status st (page s)) (st_cursor st)) as [[_ N]|(_ & d' & -> & Wt & _)].
      - exfalso. apply N. exact Q.
      - unfold following. cbn. apply waits_index. exact Wt. }
    destruct (_ || _) eqn:E; [left; exact K|]. apply orb_false_iff in E. destruct E as [E1 E2].
    apply Z.eqb_neq in E1. cbn [fst]. left. unfold following in *. cbn.
    destruct F as [F|F]; [|rewrite F in E1; cbn in E1; lia].
    apply andb_false_iff in E2. rewrite negb_false_iff, Z.eqb_eq, Z.eqb_neq in E2. destruct E2; congruence.
  - destruct R as [(d & n & x & _ & -> & _)|R]; [|discriminate]. cbn [detail_index].
    destruct (Z.of_nat n =? detail_index (pg_detail (page s)))%Z eqn:E; cbn [fst]; [|exact F'].
    apply Z.eqb_eq in E. left. unfold following in *. cbn. rewrite E. destruct F as [F|F]; [exact F|].
    rewrite F in E. cbn in E. lia.
Qed.
Lemma follow_happens : forall origin prog St L s e, inv origin prog bnd St L s -> quiet e ->
  following (page s) \/ pg_detail (page s) = NoStep ->
  following (page (happens s e)) \/ pg_detail (page (happens s e)) = NoStep /\ pg_detail (page s) = NoStep.
Proof.
  intros origin prog St L s e V Qe F.
  destruct e as [n|k| | |n|n|n|a| |]; cbn [GuiModel.happens]; try destruct Qe.
  - apply (follow_hear prog); auto.
  - destruct (nth_error _ n) as [[q x]|]; cbn; tauto.
  - destruct (nth_error _ n) as [[q x]|]; cbn; tauto.
  - destruct (nth_error (back s) n) as [m|] eqn:E; [|tauto].
    match goal with |- context [hear m ?s'] => apply (follow_hear prog m s') end; [exact F|].
    left. apply nth_error_In in E. assert (H := i_back _ _ _ _ _ _ V). rewrite Forall_forall in H. auto.
  - cbn; tauto.
  - destruct (todo s); cbn; tauto.
  - cbn; tauto.
Qed.
Theorem stays_following : forall origin sv es fs, bounded (model_ sv) -> Forall quiet fs ->
  following (page (after (opened origin sv) es)) -> following (page (after (opened origin sv) (es ++ fs))).
Proof.
  intros origin sv es fs B Qf F. induction fs as [|f fs IH] using rev_ind; [rewrite app_nil_r; exact F|].
  apply Forall_app in Qf. destruct Qf as [Q1 Q2]. inversion Q2; subst. specialize (IH Q1).
  rewrite app_assoc, after_snoc.
  destruct (follow_happens _ _ _ _ _ f (inv_bounded origin sv (es ++ fs) B)) as [H|[_ H]]; auto.
  exfalso. assert (V := inv_bounded origin sv (es ++ fs) B). apply i_status in V. unfold following in IH. rewrite H in IH.
  cbn [detail_index] in IH. destruct V as [V|(d & _ & _ & _ & V & _)]; rewrite V in IH; [discriminate IH|lia].
Qed.
Theorem starts_following : forall origin sv es, bounded (model_ sv) -> Forall quiet es ->
  let p := page (after (opened origin sv) es) in following p \/ pg_detail p = NoStep.
Proof.
  intros origin sv es B Qe. cbn zeta. induction es as [|e es IH] using rev_ind.
  - right. reflexivity.
  - apply Forall_app in Qe. destruct Qe as [Q1 Q2]. inversion Q2; subst. rewrite after_snoc.
    destruct (follow_happens _ _ _ _ _ e (inv_bounded origin sv es B)) as [H|[H _]]; auto.
Qed.

(** ** Settling *)
Lemma receive_status : forall (sv : server M A),
  reply_msg XStatus (snd (serve bits (Req Get (lit "/api")) sv)) =
  RecvStatus (Some (GStatus (program sv) (Z.of_nat (List.length (history (model_ sv))))
                            (Z.of_nat (cursor (model_ sv))) (paused (model_ sv)))).
Proof. intros sv. rewrite serve_api; [reflexivity|reflexivity|left; reflexivity]. Qed.
Lemma poll_is : forall (s : sys) prog, wire s = [] -> back s = [] -> program (srv s) = prog ->
  exists st t, reports prog (model_ (srv s)) st /\
    let p' := fst (gui_update (RecvStatus (Some st)) (page s)) in
    let cs := snd (gui_update (RecvStatus (Some st)) (page s)) in
    exists h, after s [Ticks; Arrives 0; Delivers 0] =
    Sys p' (self s ++ performs cs) t (reqs (page s) cs) [] (srv s) (truth s) (todo s) h.
Proof.
  intros s prog Ws Bs G.
  exists (GStatus (program (srv s)) (Z.of_nat (List.length (history (model_ (srv s)))))
                  (Z.of_nat (cursor (model_ (srv s)))) (paused (model_ (srv s)))).
  unfold GuiSpec.after, happen_all. cbn [fold_left]. cbn [GuiModel.happens].
  destruct (hear_is Tick s) as (t1 & ->). rewrite Ws, Bs. cbn [gui_update snd fst reqs flat_map app query_status].
  rewrite skip_server. cbn [wire nth_error drop app srv back page self title truth todo heard].
  rewrite receive_status. rewrite (serve_get bits (Req Get (lit "/api")) (srv s) eq_refl).
  cbn [app nth_error drop back].
  match goal with |- context [hear ?m ?s'] => destruct (hear_is m s') as (t & ->) end.
  exists t. split; [repeat split; auto|]. cbn zeta. eexists.
  cbn [page self title wire back srv truth todo heard].
  change (performs [Http Get (pg_server (page s) ++ lit "/api") XStatus]) with (@nil msg). rewrite app_nil_r.
  rewrite skipn_all, app_nil_r. reflexivity.
Qed.
Theorem poll_shows : forall origin sv es, let s := after (opened origin sv) es in
  wire s = [] -> back s = [] ->
  reports (program sv) (model_ (srv s)) (pg_status (page (after s [Ticks; Arrives 0; Delivers 0]))).
Proof.
  intros origin sv es s Ws Bs.
  assert (program (srv s) = program sv) as G by exact (i_prog _ _ _ _ _ _ (inv_run _ _ _ _ _ _ origin sv es _ (fun d H => H))).
  destruct (poll_is s (program sv) Ws Bs G) as (st & t & R & h & ->). cbn [page].
  assert (pg_status (fst (gui_update (RecvStatus (Some st)) (page s))) = st) as ->; [|exact R].
  cbn [gui_update]. destruct (_ || _); [|reflexivity].
  destruct (select_cases (with_status st (page s)) (st_cursor st)) as [[-> _]|(_ & d & -> & _)]; reflexivity.
Qed.

(** A page that waits for a step which the server has gets it. *)
Lemma receive_step : forall (sv : server M A) n s, lookup (model_ sv) n = Some s ->
  (N.of_nat n < 2 ^ bits)%N ->
  reply_msg (XStep (Z.of_nat n)) (snd (serve bits (Req Get (lit "/api/step/" ++ to_string (Z.of_nat n))) sv)) =
  RecvStep (Some (LoadedStep (Z.of_nat n) s)).
Proof.
  intros sv n [a m] E B. destruct (to_string_denotes n) as [Dn Nn]. rewrite (serve_step bits _ _ sv Dn Nn).
  apply N.ltb_lt in B. rewrite B, Nat2N.id, E. reflexivity.
Qed.
End Follow.
