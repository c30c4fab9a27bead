(** Waiting for steps: proofs. *)
From Coq Require Import List Bool Arith NArith ZArith Ascii String Lia.
From Verif Require Import StoreModel StoreExtraModel DebuggerModel ServerModel ServerSpec ServerProofs GuiModel GuiSpec GuiBasics GuiShown GuiFollow.
Import ListNotations.
Local Open Scope list_scope.

Section Wait.
Context {M A W : Type}.
Variable encode_action : A -> str.
Variable encode_model : M -> str.
Variable reducer : M -> A -> option (M * option (prog M A W)).
Variables pause_eff resume_eff : prog (dmodel M A) (daction A) W.
Variable bits : N.
Notation happens := (happens encode_action encode_model reducer pause_eff resume_eff bits).
Notation after := (after encode_action encode_model reducer pause_eff resume_eff bits).
Notation showed := (showed encode_action encode_model reducer pause_eff resume_eff bits).
Notation bnd := (bounded (M := M) (A := A)).
Notation sys := (sys M A).
Notation gmodel := (gmodel M A).
Notation msg := (msg M A).

(** ** The settled page *)
Theorem settles : forall origin sv es, bounded (model_ sv) -> let s := after (opened origin sv) es in
  wire s = [] -> back s = [] ->
  pg_detail (page s) = NoStep \/
    (following (page s) /\ st_cursor (pg_status (page s)) <> Z.of_nat (cursor (model_ (srv s)))) ->
  (N.of_nat (cursor (model_ (srv s))) < 2 ^ bits)%N ->
  let s' := after s [Ticks; Arrives 0; Delivers 0; Arrives 0; Delivers 0] in
  reports (program sv) (model_ (srv s)) (pg_status (page s')) /\
  exists x, lookup (model_ (srv s)) (cursor (model_ (srv s))) = Some x /\
            pg_detail (page s') = LoadedStep (Z.of_nat (cursor (model_ (srv s)))) x.
Proof.
  intros origin sv es Bd s Ws Bs F Hb s'.
  assert (program (srv s) = program sv) as G by exact (i_prog _ _ _ _ _ _ (inv_run _ _ _ _ _ _ origin sv es _ (fun d H => H))).
  assert (bounded (model_ (srv s))) as B.
  { eapply bounded_run; [exact Bd|]. exact (showed_now _ _ _ _ _ _ (opened origin sv) es). }
  destruct (poll_is encode_action encode_model reducer pause_eff resume_eff bits s (program sv) Ws Bs G) as (st & t & R & h & E).
  assert (R' := R). destruct R' as (_ & R1 & R2 & _).
  assert (exists x, lookup (model_ (srv s)) (cursor (model_ (srv s))) = Some x) as (x & Hx).
  { unfold lookup. unfold bounded in B. assert (List.length (history (model_ (srv s))) <? cursor (model_ (srv s)) = false) as -> by (apply Nat.ltb_ge; exact B).
    destruct (cursor (model_ (srv s))) as [|c] eqn:Ec; [eauto|].
    destruct (nth_error (history (model_ (srv s))) c) as [[a m]|] eqn:En; [eauto|]. apply nth_error_None in En. lia. }
  assert (exists d, gui_update (RecvStatus (Some st)) (page s) =
            (with_detail d (with_status st (page s)), query_step (pg_server (page s)) (st_cursor st)) /\
            detail_index d = st_cursor st) as (d & U & Id).
  { cbn [gui_update].
    assert (((detail_index (pg_detail (page s)) =? -1) || (negb (st_cursor st =? st_cursor (pg_status (page s))) &&
             (detail_index (pg_detail (page s)) =? st_cursor (pg_status (page s)))))%Z = true) as ->.
    { destruct F as [->|[F1 F2]]; [reflexivity|]. unfold following in F1. rewrite F1, Z.eqb_refl, andb_true_r.
      apply orb_true_iff. right. apply negb_true_iff, Z.eqb_neq. rewrite R2. congruence. }
    destruct (select_cases (with_status st (page s)) (st_cursor st)) as [[_ N]|(_ & d & -> & Wt & _)].
    - exfalso. apply N. cbn. unfold bounded in B. lia.
    - exists d. split; [reflexivity|apply waits_index; exact Wt]. }
  rewrite U in E. cbn [fst snd] in E.
  assert (s' = after (after s [Ticks; Arrives 0; Delivers 0]) [Arrives 0; Delivers 0]) as Es' by reflexivity.
  rewrite Es'. cbn zeta in E. rewrite E. clear Es'. subst s'. unfold GuiSpec.after, happen_all. cbn [fold_left GuiModel.happens].
  cbn [wire reqs flat_map app query_step nth_error drop back srv page self title truth todo heard].
  rewrite skip_server. cbn [nth_error drop]. rewrite R2.
  rewrite (serve_get bits (Req Get _) (srv s) eq_refl).
  rewrite (receive_step bits _ _ _ Hx Hb).
  cbn [app nth_error drop back page self title wire srv truth todo heard].
  match goal with |- context [hear ?m ?s0] => destruct (hear_is m s0) as (t2 & ->) end.
  cbn [page gui_update detail_index with_detail with_status pg_detail pg_status].
  rewrite Id, R2, Z.eqb_refl. cbn [fst with_detail with_status pg_detail pg_status]. split; [exact R|]. eauto.
Qed.

(** ** A page that waits for a step *)
Definition failed (s : sys) : Prop := In (RecvStep None) (back s) \/ exists p, In (p, RecvStep None) (heard s).
Definition owes (s : sys) (i : Z) : Prop :=
  (exists q, In (q, XStep i) (wire s)) \/ (exists x, In (RecvStep (Some (LoadedStep i x))) (back s)) \/ failed s.

Lemma update_detail : forall (p : gmodel) m,
  pg_detail (fst (gui_update m p)) = pg_detail p \/
  (exists i, waits (pg_detail (fst (gui_update m p))) i /\ (exists q, In (q, XStep i) (reqs p (snd (gui_update m p))))) \/
  (exists d, m = RecvStep (Some d) /\ pg_detail (fst (gui_update m p)) = d).
Proof.
  intros p m.
  assert (forall st i, pg_detail (fst (select_step (with_status st p) i)) = pg_detail p \/
    (exists j, waits (pg_detail (fst (select_step (with_status st p) i))) j /\
       (exists q, In (q, XStep j) (reqs p (snd (select_step (with_status st p) i)))))) as K.
  { intros st i. destruct (select_cases (with_status st p) i) as [[-> _]|(_ & d & -> & Wt & _)]; [left; reflexivity|].
    right. exists i. split; [exact Wt|]. cbn. eauto. }
  assert (with_status (pg_status p) p = p) as WS by (destruct p; reflexivity).
  assert (K1 := K (pg_status p)). rewrite WS in K1.
  assert (forall i, detail_index (pg_detail p) <> i -> pg_detail (fst (select_goto_step p i)) = pg_detail p \/
    (exists j, waits (pg_detail (fst (select_goto_step p i))) j /\
       (exists q, In (q, XStep j) (reqs p (snd (select_goto_step p i)))))) as K2.
  { intros i N. destruct (goto_cases p i) as [[-> _]|[(_ & d & -> & Wt & _)|E]]; [left; reflexivity| |contradiction].
    right. exists i. split; [exact Wt|]. cbn. eauto. }
  destruct m as [[st|]|[dt|]|r|i|i| | | | | | | | | | |k]; cbn [gui_update]; auto.
  - destruct (_ || _); [|left; reflexivity]. destruct (K st (st_cursor st)); auto.
  - destruct (_ =? _)%Z; [|left; reflexivity]. right. right. exists dt. auto.
  - destruct (K1 i); auto.
  - destruct (K1 (detail_index (pg_detail p) - 1)%Z); auto.
  - destruct (K1 (detail_index (pg_detail p) + 1)%Z); auto.
  - destruct (K2 (detail_index (pg_detail p) - 1)%Z); [lia|auto|auto].
  - destruct (K2 (detail_index (pg_detail p) + 1)%Z); [lia|auto|auto].
Qed.
Lemma waits_unique : forall (d : detail M A) i j, waits d i -> waits d j -> i = j.
Proof. intros d i j H1 H2. apply waits_index in H1, H2. congruence. Qed.
(** What hearing does to what is owed: [s0] is the state from which the message was taken. *)
Lemma owes_hear : forall prog m (s : sys) i, recv_ok bnd prog m \/ user_ok (page s) m ->
  waits (pg_detail (page (hear m s))) i ->
  (waits (pg_detail (page s)) i /\ (forall x, m <> RecvStep (Some (LoadedStep i x)))) \/ owes (hear m s) i.
Proof.
  intros prog m s i R Wt. destruct (hear_is m s) as (t & E). rewrite E in *. cbn [page] in Wt.
  destruct (update_detail (page s) m) as [D|[(j & D & q & Q)|(d & -> & D)]].
  - rewrite D in Wt. left. split; [exact Wt|]. intros x ->. cbn [gui_update detail_index] in D.
    rewrite (waits_index _ _ Wt), Z.eqb_refl in D. cbn in D. rewrite <- D in Wt.
    destruct Wt as [Wt|(y & Wt)]; discriminate Wt.
  - right. rewrite (waits_unique _ _ _ Wt D). left. exists q. cbn. apply in_app_iff. auto.
  - destruct R as [(e & n & x & _ & -> & _)|[]]. exfalso. rewrite D in Wt.
    destruct Wt as [Wt|(y & Wt)]; discriminate Wt.
Qed.
Lemma failed_hear : forall m (s : sys), failed s -> failed (hear m s).
Proof.
  intros m s [H|(p & H)]; destruct (hear_is m s) as (t & ->); [left; exact H|].
  right. exists p. cbn. apply in_app_iff. auto.
Qed.
Lemma owes_keep : forall m (s : sys) i, owes s i -> owes (hear m s) i.
Proof.
  intros m s i [(q & H)|[(x & H)|H]].
  - left. exists q. destruct (hear_is m s) as (t & ->). cbn. apply in_app_iff. auto.
  - right. left. exists x. destruct (hear_is m s) as (t & ->). exact H.
  - right. right. apply failed_hear; exact H.
Qed.
Lemma owes_happens : forall origin prog St L s e, inv origin prog bnd St L s ->
  (forall i, waits (pg_detail (page s)) i -> owes s i) ->
  forall i, waits (pg_detail (page (happens s e))) i -> owes (happens s e) i.
Proof.
  intros origin prog St L s e V J i.
  destruct e as [n|k| | |n|n|n|a| |]; cbn [GuiModel.happens].
  - destruct (nth_error _ n) as [[o m]|] eqn:E; [|apply J]. intros Wt.
    destruct (owes_hear prog m s i) as [[H _]|H]; auto.
    + right. apply nth_error_In, handlers_in in E.
      destruct E as [->|[->|[[-> _]|[[-> _]|(j & H & [->| ->])]]]]; cbn; auto.
    + apply owes_keep, J, H.
  - intros Wt. destruct (owes_hear prog (ComboMsg k) s i) as [[H _]|H]; auto; [right; exact I|apply owes_keep, J, H].
  - intros Wt. destruct (owes_hear prog Tick s i) as [[H _]|H]; auto; [right; exact I|apply owes_keep, J, H].
  - destruct (self s) as [|m l] eqn:E; [apply J|]. intros Wt.
    assert (key_ok m) as Km.
    { assert (H := i_self _ _ _ _ _ _ V). rewrite E in H. inversion H; assumption. }
    match type of Wt with context [hear m ?s0] => destruct (owes_hear prog m s0 i) as [[H _]|H]; auto;
      [right; destruct m; try exact I; destruct Km|apply owes_keep; exact (J i H)] end.
  - destruct (nth_error (wire s) n) as [[q x]|] eqn:E; [|apply J]. cbn [page]. intros Wt.
    destruct (drop_split _ _ _ _ E) as (l1 & l2 & E1 & E2).
    destruct (J i Wt) as [(q' & H)|[(y & H)|[H|(p & H)]]].
    + rewrite E1 in H. apply in_app_iff in H. destruct H as [H|[H|H]].
      * left. exists q'. cbn. rewrite E2. apply in_app_iff. auto.
      * injection H as -> ->.
        match goal with |- context [reply_msg (XStep i) ?r] => remember r as rr end.
        assert (reply_msg (XStep i) rr = RecvStep None \/ exists x, reply_msg (XStep i) rr = RecvStep (Some (LoadedStep i x))) as [K|(z & K)].
        { cbn. destruct rr as [[co ct b]|]; cbn; [|auto]. destruct (_ || _); [auto|]. destruct b; cbn; eauto. }
        -- right. right. left. cbn [back]. rewrite K. apply in_app_iff. right. left. reflexivity.
        -- right. left. exists z. cbn [back]. rewrite K. apply in_app_iff. right. left. reflexivity.
      * left. exists q'. cbn. rewrite E2. apply in_app_iff. auto.
    + right. left. exists y. cbn. apply in_app_iff. auto.
    + right. right. left. cbn. apply in_app_iff. auto.
    + right. right. right. exists p. exact H.
  - destruct (nth_error (wire s) n) as [[q x]|] eqn:E; [|apply J]. cbn [page]. intros Wt.
    destruct (drop_split _ _ _ _ E) as (l1 & l2 & E1 & E2).
    destruct (J i Wt) as [(q' & H)|[(y & H)|[H|(p & H)]]].
    + rewrite E1 in H. apply in_app_iff in H. destruct H as [H|[H|H]].
      * left. exists q'. cbn. rewrite E2. apply in_app_iff. auto.
      * injection H as -> ->. right. right. left. cbn. apply in_app_iff. right. left. reflexivity.
      * left. exists q'. cbn. rewrite E2. apply in_app_iff. auto.
    + right. left. exists y. cbn. apply in_app_iff. auto.
    + right. right. left. cbn. apply in_app_iff. auto.
    + right. right. right. exists p. exact H.
  - destruct (nth_error (back s) n) as [m|] eqn:E; [|apply J]. intros Wt.
    assert (recv_ok bnd prog m) as Rm.
    { assert (H := i_back _ _ _ _ _ _ V). rewrite Forall_forall in H. apply H. eapply nth_error_In; eauto. }
    destruct (drop_split _ _ _ _ E) as (l1 & l2 & E1 & E2).
    match type of Wt with context [hear m ?s0] => destruct (owes_hear prog m s0 i) as [[H N]|H]; auto end.
    cbn [page] in H. destruct (J i H) as [(q' & K)|[(y & K)|[K|(p & K)]]].
    + apply owes_keep. left. exists q'. exact K.
    + rewrite E1 in K. apply in_app_iff in K. destruct K as [K|[K|K]].
      * apply owes_keep. right. left. exists y. cbn. rewrite E2. apply in_app_iff. auto.
      * exfalso. exact (N y K).
      * apply owes_keep. right. left. exists y. cbn. rewrite E2. apply in_app_iff. auto.
    + rewrite E1 in K. apply in_app_iff in K. destruct K as [K|[K|K]].
      * apply owes_keep. right. right. left. cbn. rewrite E2. apply in_app_iff. auto.
      * subst m. right. right. right.
        match goal with |- context [hear ?m0 ?s0] => destruct (hear_is m0 s0) as (t & ->) end.
        exists (page s). cbn. apply in_app_iff. right. left. reflexivity.
      * apply owes_keep. right. right. left. cbn. rewrite E2. apply in_app_iff. auto.
    + apply owes_keep. right. right. right. exists p. exact K.
  - apply J.
  - destruct (todo s); apply J.
  - apply J.
Qed.
Theorem waits_owes : forall origin sv es i, bounded (model_ sv) -> let s := after (opened origin sv) es in
  waits (pg_detail (page s)) i -> owes s i.
Proof.
  intros origin sv es i B s. revert i. subst s. induction es as [|e es IH] using rev_ind; intros i.
  - cbn. intros [H|(x & H)]; discriminate H.
  - rewrite after_snoc. eapply owes_happens; [|exact IH]. apply inv_bounded. exact B.
Qed.
End Wait.
