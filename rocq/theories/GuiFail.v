(** Requests that fail: proofs. *)
From Coq Require Import List Bool Arith NArith ZArith Ascii String Lia.
From Verif Require Import StoreModel StoreExtraModel DebuggerModel ServerModel ServerSpec ServerProofs GuiModel GuiSpec GuiBasics GuiShown GuiFollow GuiWait.
Import ListNotations.
Local Open Scope list_scope.

Section Fail.
Context {M A W : Type}.
Variable encode_action : A -> str.
Variable encode_model : M -> str.
Variable reducer : M -> A -> option (M * option (prog M A W)).
Variables pause_eff resume_eff : prog (dmodel M A) (daction A) W.
Variable bits : N.
Notation happens := (happens encode_action encode_model reducer pause_eff resume_eff bits).
Notation after := (after encode_action encode_model reducer pause_eff resume_eff bits).
Notation showed := (showed encode_action encode_model reducer pause_eff resume_eff bits).
Notation bnd := (bounded (M := M) (A := A)).
Notation sys := (sys M A).
Notation gmodel := (gmodel M A).
Notation msg := (msg M A).

Definition len (s : sys) : nat := List.length (history (model_ (srv s))).
Record fine (s : sys) : Prop := {
  f_wire : forall q i, In (q, XStep i) (wire s) -> (i <= Z.of_nat (len s))%Z;
  f_status : (st_summary (pg_status (page s)) <= Z.of_nat (len s))%Z;
  f_back : forall m, In m (back s) -> m <> RecvStep None /\
             forall st, m = RecvStatus (Some st) -> (st_summary st <= Z.of_nat (len s))%Z;
  f_heard : forall p, ~ In (p, RecvStep None) (heard s) }.

Lemma lookup_some : forall (d : dmodel M A) n, n <= List.length (history d) -> exists x, lookup d n = Some x.
Proof.
  intros d n H. unfold lookup. assert (List.length (history d) <? n = false) as -> by (apply Nat.ltb_ge; exact H).
  destruct n as [|c]; [eauto|].
  destruct (nth_error (history d) c) as [[a m]|] eqn:En; [eauto|]. apply nth_error_None in En. lia.
Qed.
Lemma update_status : forall (p : gmodel) m,
  pg_status (fst (gui_update m p)) = pg_status p \/ m = RecvStatus (Some (pg_status (fst (gui_update m p)))).
Proof.
  intros p m.
  assert (forall q i, pg_status (fst (select_step q i)) = pg_status (A := A) (M := M) q) as K.
  { intros q i. destruct (select_cases q i) as [[-> _]|(_ & d & -> & _)]; reflexivity. }
  assert (forall i, pg_status (fst (select_goto_step p i)) = pg_status p) as K2.
  { intros i. unfold select_goto_step. apply K. }
  destruct m as [[st|]|[dt|]|r|i|i| | | | | | | | | | |k]; cbn [gui_update]; auto.
  - right. destruct (_ || _); [rewrite K|]; reflexivity.
  - destruct (_ =? _)%Z; auto.
Qed.
Lemma update_reqs : forall (p : gmodel) m q i, In (q, XStep i) (reqs p (snd (gui_update m p))) ->
  (0 <= i <= st_summary (pg_status (fst (gui_update m p))))%Z.
Proof.
  intros p m q i.
  assert (forall x j, In (q, XStep i) (reqs p (snd (select_step x j))) ->
            (0 <= i <= st_summary (pg_status (fst (select_step x j))))%Z) as K.
  { intros x j. destruct (select_cases x j) as [[-> _]|(H & d & -> & _)]; cbn; [intros []|].
    intros [E|[]]. injection E as _ <-. exact H. }
  assert (forall j, detail_index (pg_detail p) <> j -> In (q, XStep i) (reqs p (snd (select_goto_step p j))) ->
            (0 <= i <= st_summary (pg_status (fst (select_goto_step p j))))%Z) as K2.
  { intros j N. destruct (goto_cases p j) as [[-> _]|[(H & d & -> & _)|E]]; cbn; [intros []| |contradiction].
    intros [E|[E|[]]]; [injection E as _ <-; exact H|discriminate E]. }
  assert (forall v u x, x <> XStep i -> ~ In (q, XStep i) (reqs p [Http v u x])) as K3.
  { intros v u x N [H|[]]. injection H as _ H. congruence. }
  destruct m as [[st|]|[dt|]|r|j|j| | | | | | | | | | |k]; cbn [gui_update]; try (intros []; fail);
    try (intros H; exfalso; revert H; apply K3; discriminate); try apply K.
  - destruct (_ || _); [apply K|intros []].
  - destruct (_ =? _)%Z; intros [].
  - destruct (st_paused (pg_status p)); intros H; exfalso; revert H; apply K3; discriminate.
  - apply K2. lia.
  - apply K2. lia.
  - unfold keys_update. cbn [snd]. destruct (combo_eqb _ _); [intros []|]. destruct (matches_combo _); intros [].
Qed.
Lemma fine_hear : forall m s, m <> RecvStep None ->
  (forall st, m = RecvStatus (Some st) -> (st_summary st <= Z.of_nat (len s))%Z) -> fine s -> fine (hear m s).
Proof.
  intros m s N H [F1 F2 F3 F4].
  assert (st_summary (pg_status (fst (gui_update m (page s)))) <= Z.of_nat (len s))%Z as Q.
  { destruct (update_status (page s) m) as [->|E]; [exact F2|]. apply H. exact E. }
  destruct (hear_is m s) as (t & ->). constructor; unfold len in *; cbn.
  - intros q i I. apply in_app_iff in I. destruct I as [I|I]; [eauto|]. apply update_reqs in I. lia.
  - exact Q.
  - exact F3.
  - intros p I. apply in_app_iff in I. destruct I as [I|[I|[]]]; [exact (F4 p I)|]. injection I as _ ->. congruence.
Qed.
Lemma fine_more : forall s s' : sys, len s <= len s' -> page s' = page s -> wire s' = wire s -> back s' = back s ->
  heard s' = heard s -> fine s -> fine s'.
Proof.
  intros s s' H E1 E2 E3 E4 [F1 F2 F3 F4]. constructor; rewrite ?E1, ?E2, ?E3, ?E4; auto.
  - intros q i I. specialize (F1 q i I). lia.
  - lia.
  - intros m I. destruct (F3 m I) as [G1 G2]. split; [exact G1|]. intros st E. specialize (G2 st E). lia.
Qed.
Lemma fine_happens : forall origin prog St L s e, inv origin prog bnd St L s -> no_loss e ->
  len s <= len (happens s e) -> (N.of_nat (len s) < 2 ^ bits)%N -> fine s -> fine (happens s e).
Proof.
  intros origin prog St L s e V NL Mo Hb F.
  destruct e as [n|k| | |n|n|n|a| |]; cbn [GuiModel.happens] in *.
  - destruct (nth_error _ n) as [[o m]|] eqn:E; [|exact F]. apply nth_error_In, handlers_in in E.
    apply fine_hear; [| |exact F]; destruct E as [->|[->|[[-> _]|[[-> _]|(j & H & [->| ->])]]]]; discriminate.
  - apply fine_hear; [discriminate|discriminate|exact F].
  - apply fine_hear; [discriminate|discriminate|exact F].
  - destruct (self s) as [|m l] eqn:E; [exact F|].
    assert (key_ok m) as Km.
    { assert (H := i_self _ _ _ _ _ _ V). rewrite E in H. inversion H; assumption. }
    apply fine_hear; [intros ->; destruct Km|intros st ->; destruct Km|].
    eapply fine_more; [| | | | |exact F]; reflexivity.
  - destruct (nth_error (wire s) n) as [[q x]|] eqn:E; [|exact F].
    assert (wire_ok (A := A) (q, x)) as WQ.
    { assert (H := i_wire _ _ _ _ _ _ V). rewrite Forall_forall in H. apply H. eapply nth_error_In; eauto. }
    assert (In (q, x) (wire s)) as IW by (eapply nth_error_In; eauto).
    destruct (drop_split _ _ _ _ E) as (l1 & l2 & E1 & E2). destruct F as [F1 F2 F3 F4].
    assert (forall sv' b w t, len (Sys (page s) (self s) (title s) w b (fst (serve bits q (srv s))) sv' t (heard s)) = len s) as LN.
    { intros. unfold len. cbn [srv]. rewrite serve_model. reflexivity. }
    constructor; rewrite ?LN; cbn [wire page back heard].
    + intros q' i I. apply (F1 q' i). rewrite E1. rewrite E2 in I. apply in_app_iff in I. apply in_app_iff. cbn. tauto.
    + exact F2.
    + intros m I. apply in_app_iff in I. destruct I as [I|[<-|[]]]; [auto|].
      unfold wire_ok in WQ. cbn [fst snd] in WQ. destruct x as [|i|].
      * subst q. rewrite receive_status. split; [discriminate|]. intros st Es. injection Es as <-. cbn. unfold len. lia.
      * destruct WQ as (j & -> & ->). specialize (F1 _ _ IW). destruct (lookup_some (model_ (srv s)) j) as (y & Hy); [unfold len in F1; lia|].
        rewrite (receive_step bits _ _ _ Hy) by lia. split; discriminate.
      * split; discriminate.
    + exact F4.
  - destruct NL.
  - destruct (nth_error (back s) n) as [m|] eqn:E; [|exact F].
    destruct (drop_split _ _ _ _ E) as (l1 & l2 & E1 & E2).
    destruct (f_back _ F m) as [G1 G2]; [eapply nth_error_In; eauto|].
    apply fine_hear; [exact G1|exact G2|]. destruct F as [F1 F2 F3 F4]. constructor; auto.
    cbn [back]. intros m' I. apply (F3 m'). rewrite E1. rewrite E2 in I. apply in_app_iff in I. apply in_app_iff. cbn. tauto.
  - eapply fine_more; [| | | | |exact F]; reflexivity.
  - destruct (todo s); [exact F|]. eapply fine_more; [| | | | |exact F]; reflexivity.
  - eapply fine_more; [exact Mo| | | | |exact F]; reflexivity.
Qed.
Theorem no_failures : forall origin sv es, bounded (model_ sv) -> Forall no_loss es ->
  (forall k, len (after (opened origin sv) (firstn k es)) <= len (after (opened origin sv) (firstn (S k) es))) ->
  (forall d, showed (opened origin sv) es d -> (N.of_nat (List.length (history d)) < 2 ^ bits)%N) ->
  let s := after (opened origin sv) es in
  ~ In (RecvStep None) (back s) /\ forall p, ~ In (p, RecvStep None) (heard s).
Proof.
  intros origin sv es B NL Mo Hb s.
  assert (fine s) as F.
  { subst s. induction es as [|e es IH] using rev_ind.
    - constructor; cbn.
      + intros q i [H|[]]. discriminate H.
      + lia.
      + intros m [].
      + intros p [].
    - apply Forall_app in NL. destruct NL as [N1 N2]. inversion N2; subst. rewrite after_snoc.
      assert (fine (after (opened origin sv) es)) as F.
      { apply IH; [exact N1| |].
        - intros k. destruct (Nat.le_gt_cases (S k) (List.length es)) as [K|K].
          + specialize (Mo k). rewrite !firstn_snoc in Mo by lia. exact Mo.
          + rewrite !firstn_all2 by lia. lia.
        - intros d Hd. apply Hb, showed_more, Hd. }
      eapply fine_happens; [apply inv_bounded; exact B|assumption| | |exact F].
      + specialize (Mo (List.length es)). rewrite <- after_snoc. rewrite firstn_snoc, firstn_all in Mo by lia.
        rewrite firstn_all2 in Mo by (rewrite app_length; cbn; lia). exact Mo.
      + apply Hb. apply showed_more, showed_now. }
  split; [|apply F]. intros H. destruct (f_back _ F _ H) as [G _]. congruence.
Qed.
Theorem all_loaded : forall origin sv es i, bounded (model_ sv) -> Forall no_loss es ->
  (forall k, len (after (opened origin sv) (firstn k es)) <= len (after (opened origin sv) (firstn (S k) es))) ->
  (forall d, showed (opened origin sv) es d -> (N.of_nat (List.length (history d)) < 2 ^ bits)%N) ->
  let s := after (opened origin sv) es in
  wire s = [] -> back s = [] -> ~ waits (pg_detail (page s)) i.
Proof.
  intros origin sv es i B NL Mo Hb s Ws Bs Wt.
  destruct (no_failures origin sv es B NL Mo Hb) as [_ F].
  destruct (waits_owes encode_action encode_model reducer pause_eff resume_eff bits origin sv es i B Wt) as [(q & H)|[(x & H)|[H|(p & H)]]].
  - fold s in H. rewrite Ws in H. destruct H.
  - fold s in H. rewrite Bs in H. destruct H.
  - fold s in H. rewrite Bs in H. destruct H.
  - exact (F p H).
Qed.

(** ** Showing the same for ever *)
Record stuck (dt : detail M A) (i : Z) (s : sys) : Prop := {
  k_detail : pg_detail (page s) = dt;
  k_index : detail_index dt = i;
  k_follow : following (page s);
  k_cursor : i = Z.of_nat (cursor (model_ (srv s)));
  k_wire : forall w, In w (wire s) -> snd w = XPost \/ w = (Req Get (lit "/api"), XStatus);
  k_back : forall m, In m (back s) ->
    match m with RecvStatus (Some st) => st_cursor st = i | RecvStatus None | RecvStep None | RecvPost _ => True | _ => False end }.
Lemma stuck_hear : forall dt i m s,
  match m with RecvStatus (Some st) => st_cursor st = i | RecvStatus None | RecvStep None | RecvPost _ | Tick => True | _ => False end ->
  stuck dt i s -> stuck dt i (hear m s).
Proof.
  intros dt i m s H [K1 K0 K2 K3 K4 K5]. destruct (hear_is m s) as (t & ->).
  assert (detail_index (pg_detail (page s)) = i) as Di by congruence.
  assert (st_cursor (pg_status (page s)) = i) as Ci by (unfold following in K2; congruence).
  assert (0 <= i)%Z as Pi by lia.
  destruct m as [[st|]|[d|]|r|j|j| | | | | | | | | | |k]; try destruct H; cbn [gui_update fst snd];
    try (constructor; cbn; rewrite ?app_nil_r; auto; fail).
  - assert (((detail_index (pg_detail (page s)) =? -1) || (negb (st_cursor st =? st_cursor (pg_status (page s))) &&
             (detail_index (pg_detail (page s)) =? st_cursor (pg_status (page s)))))%Z = false) as ->.
    { apply orb_false_iff. split; [apply Z.eqb_neq; lia|]. apply andb_false_iff. left. apply negb_false_iff, Z.eqb_eq. congruence. }
    constructor; cbn; rewrite ?app_nil_r; auto.
  - constructor; cbn; auto. rewrite skip_server. intros w I. apply in_app_iff in I.
    destruct I as [I|[<-|[]]]; auto.
Qed.
Lemma stuck_happens : forall dt i s e, quiet e -> no_commit e -> stuck dt i s -> stuck dt i (happens s e).
Proof.
  intros dt i s e Q N K. assert (K' := K). destruct K' as [K1 K0 K2 K3 K4 K5].
  destruct e as [n|k| | |n|n|n|a| |]; cbn [GuiModel.happens]; try destruct Q; try destruct N.
  - apply stuck_hear; auto.
  - destruct (nth_error (wire s) n) as [[q x]|] eqn:E; [|exact K].
    assert (In (q, x) (wire s)) as IW by (eapply nth_error_In; eauto).
    destruct (drop_split _ _ _ _ E) as (l1 & l2 & E1 & E2). constructor; cbn [page srv wire back]; auto.
    + rewrite serve_model. exact K3.
    + intros w I. apply K4. rewrite E1. rewrite E2 in I. apply in_app_iff in I. apply in_app_iff. cbn. tauto.
    + intros m I. apply in_app_iff in I. destruct I as [I|[<-|[]]]; [exact (K5 m I)|].
      destruct (K4 _ IW) as [P|P]; cbn [snd] in P.
      * subst x. exact Logic.I.
      * injection P as -> ->. rewrite receive_status. cbn. symmetry. exact K3.
  - destruct (nth_error (wire s) n) as [[q x]|] eqn:E; [|exact K].
    assert (In (q, x) (wire s)) as IW by (eapply nth_error_In; eauto).
    destruct (drop_split _ _ _ _ E) as (l1 & l2 & E1 & E2). constructor; cbn [page srv wire back]; auto.
    + intros w I. apply K4. rewrite E1. rewrite E2 in I. apply in_app_iff in I. apply in_app_iff. cbn. tauto.
    + intros m I. apply in_app_iff in I. destruct I as [I|[<-|[]]]; [exact (K5 m I)|].
      destruct (K4 _ IW) as [P|P]; cbn [snd] in P.
      * subst x. exact Logic.I.
      * injection P as -> ->. exact Logic.I.
  - destruct (nth_error (back s) n) as [m|] eqn:E; [|exact K].
    destruct (drop_split _ _ _ _ E) as (l1 & l2 & E1 & E2).
    apply stuck_hear.
    + assert (In m (back s)) as IB by (eapply nth_error_In; eauto). specialize (K5 m IB).
      destruct m as [[st|]|[d|]|r|j|j| | | | | | | | | | |k]; try destruct K5; auto.
    + constructor; cbn [page srv wire back]; auto.
      intros m' I. apply (K5 m'). rewrite E1. rewrite E2 in I. apply in_app_iff in I. apply in_app_iff. cbn. tauto.
  - constructor; auto.
  - destruct (todo s); [exact K|]. constructor; auto.
Qed.
Theorem stuck_for_ever : forall dt i fs s, stuck dt i s -> Forall quiet fs -> Forall no_commit fs ->
  pg_detail (page (after s fs)) = dt.
Proof.
  intros dt i fs s K Q N. apply (k_detail dt i). induction fs as [|f fs IH] using rev_ind; [exact K|].
  apply Forall_app in Q, N. destruct Q as [Q1 Q2], N as [N1 N2]. inversion Q2; inversion N2; subst.
  rewrite after_snoc. apply stuck_happens; auto.
Qed.
End Fail.
