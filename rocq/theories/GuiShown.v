(** What the page shows: proofs. *)
From Coq Require Import List Bool Arith NArith ZArith Ascii String Lia.
From Verif Require Import StoreModel DebuggerModel ServerModel ServerSpec ServerProofs GuiModel GuiSpec GuiBasics.
Import ListNotations.
Local Open Scope list_scope.

Section Shown.
Context {M A W : Type}.
Variable encode_action : A -> str.
Variable encode_model : M -> str.
Variable reducer : M -> A -> option (M * option (prog M A W)).
Variables pause_eff resume_eff : prog (dmodel M A) (daction A) W.
Variable bits : N.
Notation happens := (happens encode_action encode_model reducer pause_eff resume_eff bits).
Notation after := (after encode_action encode_model reducer pause_eff resume_eff bits).
Notation showed := (showed encode_action encode_model reducer pause_eff resume_eff bits).
Notation sys := (sys M A).
Notation gmodel := (gmodel M A).
Notation msg := (msg M A).
Notation gui_view := (gui_view (M := M) (A := A) encode_action encode_model).

(** ** What requests are *)
Definition wire_ok (w : request * expect) : Prop :=
  match snd w with
  | XStatus => fst w = Req Get (lit "/api")
  | XStep i => exists n, i = Z.of_nat n /\ fst w = Req Get (lit "/api/step/" ++ to_string i)
  | XPost => exists x : daction A, fst w = request_of x /\ forall a, x <> Act a
  end.
(** Messages that come from the server or from somebody at the page. *)
Definition recv_ok (P : dmodel M A -> Prop) (prog : str) (m : msg) : Prop :=
  match m with
  | RecvStatus None | RecvStep None | RecvPost _ => True
  | RecvStatus (Some st) => exists d, P d /\ reports prog d st
  | RecvStep (Some dt) => exists d n s, P d /\ dt = LoadedStep (Z.of_nat n) s /\ lookup d n = Some s
  | _ => False
  end.
Definition user_ok (p : gmodel) (m : msg) : Prop :=
  match m with
  | RecvStatus _ | RecvStep _ | RecvPost _ => False
  | SelectStep i | GotoStep i => (0 <= i <= st_summary (pg_status p))%Z
  | _ => True
  end.
(** Those that come from keys. *)
Definition key_ok (m : msg) : Prop :=
  match m with
  | MUndo | MRedo | KeyGoUp | KeyGoDown | KeyUp | KeyDown | TogglePause => True
  | _ => False
  end.

Lemma range_in : forall n i, In i (range n) -> (0 <= i <= n)%Z.
Proof.
  intros n i H. unfold range in H. apply in_map_iff in H. destruct H as (k & <- & H). apply in_seq in H. lia.
Qed.
Lemma handlers_in : forall p o m, In (o, m) (handlers (gui_view p)) ->
  m = MUndo \/ m = MRedo \/ (m = MPause /\ st_paused (pg_status p) = false) \/
  (m = MResume /\ st_paused (pg_status p) = true) \/
  exists i, (0 <= i <= st_summary (pg_status p))%Z /\ (m = SelectStep i \/ m = GotoStep i).
Proof.
  intros p o m H.
  assert (forall h, h = view_detail encode_action encode_model p -> handlers h = []) as D.
  { intros h ->. unfold view_detail. destruct (pg_detail p) as [i s|i s|i|]; cbn; try reflexivity;
      unfold view_step; destruct (fst s); reflexivity. }
  specialize (D _ eq_refl).
  unfold gui_view, GuiModel.gui_view in H. cbn [handlers flat_map app] in H.
  rewrite D in H. cbn [app] in H. rewrite !app_nil_r in H. apply in_app_iff in H. destruct H as [H|H].
  - unfold view_header in H. cbn [handlers flat_map app] in H. unfold view_play in H.
    destruct (st_paused (pg_status p)); cbn in H;
    repeat (destruct H as [H|H]; [injection H; intros; subst; tauto|]); destruct H.
  - unfold view_history in H. cbn [handlers app] in H. apply in_flat_map in H. destruct H as (h & Hh & H).
    apply in_map_iff in Hh. destruct Hh as (i & <- & Hi). apply range_in in Hi.
    cbn in H. right. right. right. right. exists i.
    repeat (destruct H as [H|H]; [injection H; intros; subst; tauto|]). destruct H.
Qed.

(** ** Updates *)
Lemma select_cases : forall (p : gmodel) i,
  (select_step p i = (p, []) /\ ~ (0 <= i <= st_summary (pg_status p))%Z) \/
  ((0 <= i <= st_summary (pg_status p))%Z /\
   exists d, select_step p i = (with_detail d p, query_step (pg_server p) i) /\ waits d i /\
     forall s, d = ChangingStep i s ->
       exists j, pg_detail p = LoadedStep j s \/ pg_detail p = ChangingStep j s).
Proof.
  intros p i. unfold select_step.
  destruct ((i <? 0)%Z || (st_summary (pg_status p) <? i)%Z) eqn:E.
  - left. split; [reflexivity|]. apply orb_true_iff in E. rewrite !Z.ltb_lt in E. lia.
  - right. apply orb_false_iff in E. rewrite !Z.ltb_ge in E. split; [lia|].
    destruct (pg_detail p) as [j s|j s|j|]; eexists; (split; [reflexivity|]); unfold waits;
      (split; [first [left; reflexivity | right; eexists; reflexivity]|]);
      intros s' H; try discriminate; injection H as ->; eauto.
Qed.
Lemma waits_index : forall (d : detail M A) i, waits d i -> detail_index d = i.
Proof. intros d i [->|(s & ->)]; reflexivity. Qed.
Lemma goto_cases : forall (p : gmodel) i,
  (select_goto_step p i = (p, []) /\ ~ (0 <= i <= st_summary (pg_status p))%Z /\ detail_index (pg_detail p) <> i) \/
  ((0 <= i <= st_summary (pg_status p))%Z /\
   exists d, select_goto_step p i = (with_detail d p, query_step (pg_server p) i ++ query_goto (pg_server p) i) /\
     waits d i /\
     forall s, d = ChangingStep i s ->
       exists j, pg_detail p = LoadedStep j s \/ pg_detail p = ChangingStep j s) \/
  detail_index (pg_detail p) = i.
Proof.
  intros p i. destruct (Z.eq_dec (detail_index (pg_detail p)) i) as [E|N]; [right; right; exact E|].
  unfold select_goto_step. destruct (select_cases p i) as [[E H]|(H & d & E & Wt & K)].
  - left. rewrite E. cbn [fst snd]. split; [|split; assumption].
    assert ((i =? detail_index (pg_detail p))%Z = false) as -> by (apply Z.eqb_neq; congruence). reflexivity.
  - right. left. split; [exact H|]. exists d. rewrite E. cbn [fst snd with_detail pg_detail].
    rewrite (waits_index _ _ Wt), Z.eqb_refl. split; [reflexivity|]. split; assumption.
Qed.

(** ** The invariant *)
Section Inv.
Variables (origin prog : str).
Variable P : dmodel M A -> Prop.
Variable St : gstatus -> Prop.
Variable L : Z -> option A * M -> Prop.
Hypothesis PSt : forall d st, P d -> reports prog d st -> St st.
Hypothesis PL : forall d n s, P d -> lookup d n = Some s -> L (Z.of_nat n) s.

Definition index_ok (i : Z) : Prop := (0 <= i)%Z /\ exists st, St st /\ (i <= st_summary st)%Z.
Definition detail_ok (d : detail M A) : Prop :=
  match d with
  | LoadedStep i s => index_ok i /\ L i s
  | ChangingStep i s => index_ok i /\ exists j, L j s
  | LoadingStep i => index_ok i
  | NoStep => True
  end.
Record inv (s : sys) : Prop := {
  i_origin : pg_server (page s) = origin;
  i_prog : program (srv s) = prog;
  i_model : P (model_ (srv s));
  i_wire : Forall wire_ok (wire s);
  i_back : Forall (recv_ok P prog) (back s);
  i_self : Forall key_ok (self s);
  i_status : St (pg_status (page s));
  i_detail : detail_ok (pg_detail (page s)) }.

Definition page_ok (p : gmodel) : Prop := pg_server p = origin /\ St (pg_status p) /\ detail_ok (pg_detail p).
Definition out_ok (r : gmodel * list (cmd M A)) (p : gmodel) : Prop :=
  page_ok (fst r) /\ Forall wire_ok (reqs p (snd r)) /\ Forall key_ok (performs (snd r)).
Definition msg_ok (p : gmodel) (m : msg) : Prop := recv_ok P prog m \/ user_ok p m.

Lemma loaded_or_changing : forall p s, detail_ok (pg_detail p) ->
  (exists j, pg_detail p = LoadedStep j s \/ pg_detail p = ChangingStep j s) -> exists j, L j s.
Proof. intros p s D (j & [E|E]); rewrite E in D; destruct D as [_ D]; eauto. Qed.
Lemma waits_ok : forall p d i, detail_ok (pg_detail p) -> index_ok i -> waits d i ->
  (forall s, d = ChangingStep i s -> exists j, pg_detail p = LoadedStep j s \/ pg_detail p = ChangingStep j s) ->
  detail_ok d.
Proof.
  intros p d i D I Wt K. destruct Wt as [->|(s & ->)]; cbn; [exact I|].
  split; [exact I|]. apply (loaded_or_changing p); auto.
Qed.
Lemma step_wire : forall i, (0 <= i)%Z -> wire_ok (Req Get (lit "/api/step/" ++ to_string i), XStep i).
Proof. intros i H. exists (Z.to_nat i). split; [lia|]. reflexivity. Qed.
Lemma goto_wire : forall i, (0 <= i)%Z -> wire_ok (Req Post (lit "/api/goto/" ++ to_string i), XPost).
Proof.
  intros i H. exists (Goto (Z.to_nat i)). split; [|discriminate]. unfold request_of, path_of. cbn [fst].
  rewrite Z2Nat.id by lia. reflexivity.
Qed.
Lemma select_out : forall p i, page_ok p -> out_ok (select_step p i) p.
Proof.
  intros p i (O & S1 & D). destruct (select_cases p i) as [[-> _]|(H & d & -> & Wt & K)].
  - repeat split; auto; constructor.
  - assert (index_ok i) as I by (split; [lia|]; exists (pg_status p); split; [exact S1|lia]).
    split; [|split; [|constructor]].
    + split; [exact O|]. split; [exact S1|]. cbn. apply (waits_ok p d i); auto.
    + cbn. rewrite skip_server. constructor; [|constructor]. apply step_wire; lia.
Qed.
Lemma goto_out : forall p i, page_ok p -> detail_index (pg_detail p) <> i -> out_ok (select_goto_step p i) p.
Proof.
  intros p i (O & S1 & D) N. destruct (goto_cases p i) as [[-> _]|[(H & d & -> & Wt & K)|E]]; [| |contradiction].
  - repeat split; auto; constructor.
  - assert (index_ok i) as I by (split; [lia|]; exists (pg_status p); split; [exact S1|lia]).
    split; [|split; [|constructor]].
    + split; [exact O|]. split; [exact S1|]. cbn. apply (waits_ok p d i); auto.
    + cbn. rewrite !skip_server. constructor; [apply step_wire; lia|]. constructor; [apply goto_wire; lia|constructor].
Qed.
Lemma keys_find : forall pressed c, matches_combo pressed = Some c -> key_ok (snd c).
Proof.
  intros pressed c H. unfold matches_combo in H. apply find_some in H. destruct H as [I _].
  repeat (destruct I as [<-|I]; [exact Logic.I|]). destruct I.
Qed.
Lemma update_out : forall p m, page_ok p -> msg_ok p m -> out_ok (gui_update m p) p.
Proof.
  intros p m OK MO. assert (OK' := OK). destruct OK' as (O & S1 & D).
  assert (forall v a x, wire_ok (Req v (lit a), x) -> out_ok (p, [Http v (pg_server p ++ lit a) x]) p) as Q.
  { intros v a x H. split; [exact OK|]. split; [|constructor]. cbn. rewrite skip_server. constructor; auto. }
  assert (forall a (x : daction A), lit a = path_of x -> (forall b, x <> Act b) -> wire_ok (Req Post (lit a), XPost)) as R.
  { intros a x E N. exists x. split; [|exact N]. unfold request_of. rewrite <- E. reflexivity. }
  destruct m as [[st|]|[dt|]|r|i|i| | | | | | | | | | |k]; cbn [gui_update].
  - destruct MO as [(d & Pd & Rd)|[]]. assert (St st) as Sst by (eapply PSt; eauto).
    assert (page_ok (with_status st p)) as OK2 by (split; [exact O|]; split; [exact Sst|exact D]).
    destruct (_ || _).
    + exact (select_out (with_status st p) (st_cursor st) OK2).
    + split; [exact OK2|]. split; constructor.
  - repeat split; auto; constructor.
  - destruct MO as [(d & n & s & Pd & -> & Ld)|[]]. cbn [detail_index].
    destruct (Z.of_nat n =? detail_index (pg_detail p))%Z eqn:E.
    + apply Z.eqb_eq in E. split; [|split; constructor]. split; [exact O|]. split; [exact S1|]. cbn. split.
      * destruct (pg_detail p); cbn in E, D; try lia; rewrite E; tauto.
      * eauto.
    + repeat split; auto; constructor.
  - repeat split; auto; constructor.
  - repeat split; auto; constructor.
  - apply select_out; exact OK.
  - destruct MO as [[]|MO]. cbn in MO. split; [exact OK|]. split; [|constructor]. cbn. rewrite skip_server.
    constructor; [apply goto_wire; lia|constructor].
  - apply Q, (R _ Pause); [reflexivity|discriminate].
  - apply Q, (R _ Resume); [reflexivity|discriminate].
  - destruct (st_paused (pg_status p)).
    + apply Q, (R _ Resume); [reflexivity|discriminate].
    + apply Q, (R _ Pause); [reflexivity|discriminate].
  - apply Q, (R _ Undo); [reflexivity|discriminate].
  - apply Q, (R _ Redo); [reflexivity|discriminate].
  - apply select_out; exact OK.
  - apply select_out; exact OK.
  - apply goto_out; [exact OK|lia].
  - apply goto_out; [exact OK|lia].
  - apply Q. reflexivity.
  - split; [|split].
    + split; [exact O|]. split; [exact S1|exact D].
    + unfold keys_update. cbn [snd]. destruct (combo_eqb _ _); [constructor|].
      destruct (matches_combo _); constructor.
    + unfold keys_update. cbn [snd]. destruct (combo_eqb _ _); [constructor|].
      destruct (matches_combo _) eqn:E; [|constructor]. constructor; [|constructor]. eapply keys_find; eauto.
Qed.
Lemma inv_hear : forall m s, inv s -> msg_ok (page s) m -> inv (hear m s).
Proof.
  intros m s [O G Mo Wi B Se S1 D] MO.
  destruct (update_out (page s) m) as ((O' & S' & D') & Wi' & Se'); [repeat split; auto|exact MO|].
  destruct (hear_is m s) as (t & ->). constructor; cbn; auto; apply Forall_app; auto.
Qed.

(** ** Answers *)
Lemma answer_ok : forall q x sv, wire_ok (q, x) -> P (model_ sv) -> program sv = prog ->
  recv_ok P prog (reply_msg x (snd (serve bits q sv))).
Proof.
  intros q x sv H Pm G. unfold wire_ok in H; cbn [fst snd] in H. destruct x as [|i|]; [| |exact I].
  - subst q. rewrite serve_api; [|reflexivity|left; reflexivity]. cbn. exists (model_ sv). split; [exact Pm|].
    repeat split; auto.
  - destruct H as (n & -> & ->). destruct (to_string_denotes n) as [Dn Nn].
    rewrite (serve_step bits _ _ sv Dn Nn). destruct (_ <? _)%N; [|exact I].
    rewrite Nat2N.id. destruct (lookup (model_ sv) n) as [[a m]|] eqn:E; [|exact I].
    cbn. exists (model_ sv), n, (a, m). repeat split; auto.
Qed.
Lemma serve_prog : forall q (sv : server M A), program (fst (serve bits q sv)) = program sv.
Proof.
  intros q s. unfold serve, handle_request.
  destruct (find _ _) as [r|] eqn:E; [|reflexivity].
  apply find_some in E. destruct E as [I _]. rewrite routes_are in I.
  destruct I as [<-|[<-|[<-|[<-|[<-|[<-|[<-|[<-|[]]]]]]]]]; cbn [rhandler r_api r_step r_goto r_action r_file]; try reflexivity.
  - unfold get_step. destruct (stoul bits (after_last_slash (target q))); [|reflexivity].
    destruct (lookup (model_ s) n) as [[a m]|]; reflexivity.
  - unfold post_goto. destruct (stoul bits (after_last_slash (target q))); reflexivity.
  - unfold get_file. destruct (files s (full_path s (target q))); reflexivity.
Qed.

Lemma inv_happens : forall s e, inv s -> P (model_ (srv (happens s e))) -> inv (happens s e).
Proof.
  intros s e V PM. assert (V' := V). destruct V' as [O G Mo Wi B Se S1 D].
  destruct e as [n|k| | |n|n|n|a| |]; cbn [GuiModel.happens] in *.
  - destruct (nth_error _ n) as [[o m]|] eqn:E; [|exact V]. apply inv_hear; [exact V|]. right.
    apply nth_error_In, handlers_in in E.
    destruct E as [->|[->|[[-> _]|[[-> _]|(i & H & [->| ->])]]]]; cbn; auto.
  - apply inv_hear; [exact V|]. right. exact I.
  - apply inv_hear; [exact V|]. right. exact I.
  - destruct (self s) as [|m l] eqn:E; [exact V|]. inversion Se as [|? ? K Se']; subst.
    apply inv_hear.
    + constructor; cbn; auto.
    + right. cbn. destruct m; try exact I; destruct K.
  - destruct (nth_error (wire s) n) as [[q x]|] eqn:E; [|exact V].
    assert (wire_ok (q, x)) as WQ.
    { apply nth_error_In in E. rewrite Forall_forall in Wi. exact (Wi _ E). }
    destruct (drop_split _ _ _ _ E) as (l1 & l2 & E1 & E2).
    constructor; cbn; auto.
    + rewrite serve_prog; exact G.
    + rewrite E2. rewrite E1 in Wi. apply Forall_app in Wi. destruct Wi as [W1 W2].
      inversion W2; subst. apply Forall_app; auto.
    + apply Forall_app. split; [exact B|]. constructor; [|constructor]. apply answer_ok; auto.
  - destruct (nth_error (wire s) n) as [[q x]|] eqn:E; [|exact V].
    destruct (drop_split _ _ _ _ E) as (l1 & l2 & E1 & E2).
    constructor; cbn; auto.
    + rewrite E2. rewrite E1 in Wi. apply Forall_app in Wi. destruct Wi as [W1 W2].
      inversion W2; subst. apply Forall_app; auto.
    + apply Forall_app. split; [exact B|]. constructor; [|constructor]. destruct x; exact I.
  - destruct (nth_error (back s) n) as [m|] eqn:E; [|exact V].
    destruct (drop_split _ _ _ _ E) as (l1 & l2 & E1 & E2).
    rewrite E1 in B. apply Forall_app in B. destruct B as [B1 B2]. inversion B2; subst.
    apply inv_hear.
    + constructor; cbn; auto. rewrite E2. apply Forall_app; auto.
    + left. assumption.
  - constructor; auto.
  - destruct (todo s); [exact V|]. constructor; auto.
  - constructor; auto.
Qed.
End Inv.

(** ** C67: what is shown was so *)
Lemma inv_mono : forall origin prog (P P' : dmodel M A -> Prop) (St St' : gstatus -> Prop) (L L' : Z -> option A * M -> Prop) s,
  (forall d, P d -> P' d) -> (forall st, St st -> St' st) -> (forall i x, L i x -> L' i x) ->
  inv origin prog P St L s -> inv origin prog P' St' L' s.
Proof.
  intros origin prog P P' St St' L L' s HP HS HL [O G Mo Wi B Se S1 D].
  assert (forall i, index_ok St i -> index_ok St' i) as HI.
  { intros i (I1 & st & I2 & I3). split; [exact I1|]. exists st. auto. }
  constructor; auto.
  - eapply Forall_impl; [|exact B]. intros m H. destruct m as [[st|]|[dt|]|r|i|i| | | | | | | | | | |k]; cbn in *; auto.
    + destruct H as (d & H1 & H2). eauto.
    + destruct H as (d & n & x & H1 & H2 & H3). exists d, n, x. auto.
  - destruct (pg_detail (page s)) as [i x|i x|i|]; cbn in *; auto.
    + destruct D; auto.
    + destruct D as (D1 & j & D2). eauto.
Qed.
Lemma after_snoc : forall s es e, after s (es ++ [e]) = happens (after s es) e.
Proof. intros. unfold GuiSpec.after, happen_all. rewrite fold_left_app. reflexivity. Qed.
Lemma after_app : forall s es fs, after s (es ++ fs) = after (after s es) fs.
Proof. intros. unfold GuiSpec.after, happen_all. rewrite fold_left_app. reflexivity. Qed.
Lemma firstn_snoc : forall X k (l : list X) x, k <= List.length l -> firstn k (l ++ [x]) = firstn k l.
Proof. intros X k l x H. rewrite firstn_app. replace (k - List.length l) with 0 by lia. apply app_nil_r. Qed.
Lemma showed_now : forall s es, showed s es (model_ (srv (after s es))).
Proof. intros s es. exists (List.length es). rewrite firstn_all. reflexivity. Qed.
Lemma showed_more : forall s es fs d, showed s es d -> showed s (es ++ fs) d.
Proof.
  intros s es fs d (k & ->). exists (min k (List.length es)). f_equal. f_equal. f_equal.
  rewrite firstn_app. replace (min k (List.length es) - List.length es) with 0 by lia.
  cbn. rewrite app_nil_r. destruct (Nat.le_ge_cases k (List.length es)) as [H|H].
  - rewrite Nat.min_l by exact H. reflexivity.
  - rewrite Nat.min_r, firstn_all by exact H. apply firstn_all2; exact H.
Qed.

(** Runs keep an invariant if the models of the server have [P]. *)
Lemma inv_after : forall origin prog (P : dmodel M A -> Prop) (St : gstatus -> Prop) (L : Z -> option A * M -> Prop),
  (forall d st, P d -> reports prog d st -> St st) ->
  (forall d n s, P d -> lookup d n = Some s -> L (Z.of_nat n) s) ->
  forall es s, inv origin prog P St L s -> (forall d, showed s es d -> P d) -> inv origin prog P St L (after s es).
Proof.
  intros origin prog P St L PSt PL. induction es as [|e es IH] using rev_ind; intros s V H; [exact V|].
  rewrite after_snoc. apply inv_happens; auto.
  - apply IH; auto. intros d Hd. apply H, showed_more, Hd.
  - rewrite <- after_snoc. apply H, showed_now.
Qed.
Definition was_status (prog : str) (P : dmodel M A -> Prop) (st : gstatus) : Prop :=
  st = init_status \/ exists d, P d /\ reports prog d st.
Definition was_step (P : dmodel M A -> Prop) (i : Z) (s : option A * M) : Prop :=
  exists d n, i = Z.of_nat n /\ P d /\ lookup d n = Some s.
Lemma inv_opened : forall origin sv (P : dmodel M A -> Prop), P (model_ sv) ->
  inv origin (program sv) P (was_status (program sv) P) (was_step P) (opened origin sv).
Proof.
  intros origin sv P H. unfold opened. cbn [gui_init fst snd].
  match goal with |- context [exec_all ?p ?cs ?s'] => destruct (exec_all_is p cs s') as (t & ->) end.
  constructor; cbn; auto.
  - constructor; [|constructor]. cbn. rewrite skip_server. reflexivity.
  - left. reflexivity.
Qed.
Lemma inv_run : forall origin sv es (P : dmodel M A -> Prop), (forall d, showed (opened origin sv) es d -> P d) ->
  inv origin (program sv) P (was_status (program sv) P) (was_step P) (after (opened origin sv) es).
Proof.
  intros origin sv es P H. apply inv_after; auto.
  - intros d st Hd R. right. eauto.
  - intros d n s Hd E. exists d, n. auto.
  - apply inv_opened. specialize (H _ (ex_intro _ 0 eq_refl)). cbn in H.
    unfold opened in H. cbn [gui_init fst snd] in H. exact H.
Qed.

Theorem loaded_was : forall origin sv es i s, let r := after (opened origin sv) es in
  pg_detail (page r) = LoadedStep i s ->
  exists d n, i = Z.of_nat n /\ showed (opened origin sv) es d /\ lookup d n = Some s.
Proof.
  intros origin sv es i s r E. assert (V := inv_run origin sv es _ (fun d H => H)). apply i_detail in V.
  fold r in V. rewrite E in V. exact (proj2 V).
Qed.
Theorem changing_was : forall origin sv es i s, let r := after (opened origin sv) es in
  pg_detail (page r) = ChangingStep i s ->
  exists d n, showed (opened origin sv) es d /\ lookup d n = Some s.
Proof.
  intros origin sv es i s r E. assert (V := inv_run origin sv es _ (fun d H => H)). apply i_detail in V.
  fold r in V. rewrite E in V. destruct V as (_ & j & d & n & _ & H1 & H2). eauto.
Qed.
Theorem status_was : forall origin sv es, let r := after (opened origin sv) es in
  pg_status (page r) = init_status \/
  exists d, showed (opened origin sv) es d /\ reports (program sv) d (pg_status (page r)).
Proof.
  intros origin sv es r. exact (i_status _ _ _ _ _ _ (inv_run origin sv es _ (fun d H => H))).
Qed.
Theorem selected_was : forall origin sv es, let r := after (opened origin sv) es in
  pg_detail (page r) = NoStep \/
  exists d n, detail_index (pg_detail (page r)) = Z.of_nat n /\ showed (opened origin sv) es d /\
              n <= List.length (history d).
Proof.
  intros origin sv es r. assert (V := inv_run origin sv es _ (fun d H => H)). apply i_detail in V. fold r in V.
  assert (forall i, index_ok (was_status (program sv) (showed (opened origin sv) es)) i ->
          exists d n, i = Z.of_nat n /\ showed (opened origin sv) es d /\ n <= List.length (history d)) as K.
  { intros i (H & st & [->|(d & Hd & _ & R & _)] & Hi).
    - cbn in Hi. exists (model_ (srv r)), 0. split; [lia|]. split; [apply showed_now|lia].
    - exists d, (Z.to_nat i). split; [lia|]. split; [exact Hd|]. rewrite R in Hi. lia. }
  destruct (pg_detail (page r)) as [i x|i x|i|]; cbn in V.
  - right. apply K. tauto.
  - right. apply K. tauto.
  - right. apply K. exact V.
  - left. reflexivity.
Qed.
End Shown.
