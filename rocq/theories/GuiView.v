(** The view of the page: proofs. *)
From Coq Require Import List Bool Arith NArith ZArith Ascii String Lia.
From Verif Require Import StoreModel StoreExtraModel DebuggerModel ServerModel GuiModel GuiSpec GuiBasics GuiShown.
Import ListNotations.
Local Open Scope list_scope.

Section View.
Context {M A : Type}.
Variable encode_action : A -> str.
Variable encode_model : M -> str.
Notation gmodel := (gmodel M A).
Notation html := (html M A).
Notation gui_view := (gui_view (M := M) (A := A) encode_action encode_model).
Notation view_detail := (view_detail (M := M) (A := A) encode_action encode_model).

Lemma range_nth : forall n k, k <= n -> nth_error (range (Z.of_nat n)) k = Some (Z.of_nat k).
Proof.
  intros n k H. unfold range. rewrite nth_error_map.
  replace (Z.to_nat (Z.of_nat n + 1)) with (S n) by lia.
  assert (nth_error (seq 0 (S n)) k = Some k) as ->; [|reflexivity].
  rewrite (nth_error_nth' _ 0) by (rewrite seq_length; lia). rewrite seq_nth by lia. reflexivity.
Qed.
Lemma range_length : forall n, List.length (range (Z.of_nat n)) = S n.
Proof. intros n. unfold range. rewrite map_length, seq_length. lia. Qed.
Lemma range_iff : forall n i, In i (range n) <-> (0 <= i <= n)%Z.
Proof.
  intros n i. split; [apply range_in|]. intros H. unfold range. apply in_map_iff. exists (Z.to_nat i).
  split; [lia|]. apply in_seq. lia.
Qed.

(** ** What can be clicked *)
Lemma detail_handlers : forall p, handlers (view_detail p) = [].
Proof.
  intros p. unfold GuiModel.view_detail. destruct (pg_detail p) as [i s|i s|i|]; cbn; try reflexivity;
    unfold view_step; destruct (fst s); reflexivity.
Qed.
Theorem offered : forall p o m, In (o, m) (handlers (gui_view p)) <->
  (o = Click /\ (m = (if st_paused (pg_status p) then MResume else MPause) \/ m = MUndo \/ m = MRedo)) \/
  exists i, (0 <= i <= st_summary (pg_status p))%Z /\ ((o = Click /\ m = SelectStep i) \/ (o = DoubleClick /\ m = GotoStep i)).
Proof.
  intros p o m. unfold GuiModel.gui_view. cbn [handlers flat_map app]. rewrite detail_handlers. cbn [app].
  rewrite !app_nil_r, in_app_iff.
  assert (In (o, m) (handlers (view_header p)) <->
    o = Click /\ (m = (if st_paused (pg_status p) then MResume else MPause) \/ m = MUndo \/ m = MRedo)) as ->.
  { unfold view_header, view_play. destruct (st_paused (pg_status p)); cbn; split.
    1, 3: intros H; repeat (destruct H as [H|H]; [injection H; intros; subst; tauto|]); destruct H.
    all: intros [-> [->|[->| ->]]]; auto. }
  apply or_iff_compat_l. unfold view_history. cbn [handlers app]. rewrite in_flat_map. split.
  - intros (h & Hh & H). apply in_map_iff in Hh. destruct Hh as (i & <- & Hi). apply range_iff in Hi.
    exists i. split; [exact Hi|]. cbn in H.
    repeat (destruct H as [H|H]; [injection H; intros; subst; tauto|]). destruct H.
  - intros (i & Hi & H). eexists. split; [apply in_map, range_iff; exact Hi|].
    cbn. destruct H as [[-> ->]|[-> ->]]; auto.
Qed.

(** ** The elements *)
Lemma filter_none : forall X (f : X -> bool) l, (forall x, In x l -> f x = false) -> filter f l = [].
Proof.
  induction l as [|x l IH]; intros H; [reflexivity|]. cbn. rewrite (H x) by (left; reflexivity).
  apply IH. intros y Hy. apply H. right. exact Hy.
Qed.
Lemma detail_classes : forall p c, In c ["step"; "button"]%string -> of_class c (view_detail p) = [].
Proof.
  intros p c H. unfold of_class, GuiModel.view_detail.
  destruct H as [<-|[<-|[]]]; destruct (pg_detail p) as [i s|i s|i|]; try reflexivity;
    unfold view_step; destruct (fst s); reflexivity.
Qed.
Lemma of_class_node : forall c cls evs (ch : list html), has_class c (Node cls evs ch) = false ->
  of_class c (Node cls evs ch) = flat_map (of_class c) ch.
Proof.
  intros c cls evs ch H. unfold of_class. cbn [elements filter]. rewrite H.
  clear H. induction ch as [|h ch IH]; [reflexivity|]. cbn. rewrite filter_app, IH. reflexivity.
Qed.
Lemma item_elements : forall c cur sel i, of_class c (view_item (M := M) (A := A) cur sel i) =
  if has_class c (view_item (M := M) (A := A) cur sel i) then [view_item cur sel i] else [].
Proof.
  intros. unfold of_class. cbn [elements view_item flat_map app filter]. fold (view_item (M := M) (A := A) cur sel i).
  change (has_class c (Node [] [] [Text (to_string i)])) with false.
  destruct (has_class c (view_item cur sel i)); reflexivity.
Qed.
Lemma item_step : forall cur sel i, has_class "step" (view_item (M := M) (A := A) cur sel i) = true.
Proof. intros. unfold view_item. destruct (sel =? i)%Z, (cur =? i)%Z; reflexivity. Qed.
Lemma item_button : forall cur sel i, has_class "button" (view_item (M := M) (A := A) cur sel i) = false.
Proof. intros. unfold view_item. destruct (sel =? i)%Z, (cur =? i)%Z; reflexivity. Qed.
Lemma history_class : forall (p : gmodel) c b, (forall cur sel i, has_class c (view_item (M := M) (A := A) cur sel i) = b) ->
  has_class c (Node (M := M) (A := A) [lit "history"] [] []) = false ->
  of_class c (view_history p) = if b then map (view_item (st_cursor (pg_status p)) (detail_index (pg_detail p))) (range (st_summary (pg_status p))) else [].
Proof.
  intros p c b H1 H2. unfold view_history. rewrite of_class_node by exact H2.
  induction (range (st_summary (pg_status p))) as [|i l IH]; [destruct b; reflexivity|].
  cbn [map flat_map]. rewrite IH, item_elements, H1. destruct b; reflexivity.
Qed.
Lemma header_class : forall p : gmodel, of_class "step" (view_header p) = [] /\
  of_class "button" (view_header p) = [view_play (st_paused (pg_status p)); view_redo (pg_status p); view_undo (M := M) (A := A) (pg_status p)].
Proof.
  intros p. unfold view_header, view_play, view_redo, view_undo.
  destruct (st_paused (pg_status p)), (st_cursor (pg_status p) =? 0)%Z, (st_cursor (pg_status p) =? st_summary (pg_status p))%Z;
    split; reflexivity.
Qed.
Lemma view_class : forall (p : gmodel) c, In c ["step"; "button"]%string ->
  of_class c (gui_view p) = of_class c (view_header p) ++ of_class c (view_history p).
Proof.
  intros p c H. unfold GuiModel.gui_view.
  assert (forall cls, In cls [[]; [lit "main"]] -> forall evs (ch : list html), has_class c (Node cls evs ch) = false) as K.
  { intros cls Hc evs ch. destruct H as [<-|[<-|[]]]; destruct Hc as [<-|[<-|[]]]; reflexivity. }
  rewrite of_class_node by (apply K; cbn; auto). cbn [flat_map]. rewrite app_nil_r. f_equal.
  rewrite of_class_node by (apply K; cbn; auto). cbn [flat_map]. rewrite detail_classes by exact H.
  apply app_nil_r.
Qed.
Theorem items : forall p n, st_summary (pg_status p) = Z.of_nat n ->
  let l := of_class "step" (gui_view p) in List.length l = S n /\
  forall k, k <= n -> exists h, nth_error l k = Some h /\ texts h = [to_string (Z.of_nat k)] /\
    handlers h = [(Click, SelectStep (Z.of_nat k)); (DoubleClick, GotoStep (Z.of_nat k))] /\
    (has_class "selected" h = true <-> detail_index (pg_detail p) = Z.of_nat k) /\
    (has_class "cursor" h = true <-> st_cursor (pg_status p) = Z.of_nat k).
Proof.
  intros p n E l. subst l. rewrite view_class by (cbn; auto).
  rewrite (proj1 (header_class p)), (history_class p "step" true item_step) by reflexivity. cbn [app]. rewrite E.
  split; [rewrite map_length; apply range_length|].
  intros k Hk. eexists. rewrite nth_error_map, range_nth by exact Hk. split; [reflexivity|].
  split; [reflexivity|]. split; [reflexivity|]. unfold view_item.
  destruct (Z.eqb_spec (detail_index (pg_detail p)) (Z.of_nat k)) as [E1|E1],
    (Z.eqb_spec (st_cursor (pg_status p)) (Z.of_nat k)) as [E2|E2];
    (split; split; intros H; try assumption; try reflexivity; try contradiction; discriminate H).
Qed.
Theorem detail_texts : forall p, texts (view_detail p) =
  match pg_detail p with
  | LoadedStep _ (Some a, m) | ChangingStep _ (Some a, m) => [lit "action"; encode_action a; lit "model"; encode_model m]
  | LoadedStep _ (None, m) | ChangingStep _ (None, m) => [lit "initial model"; encode_model m]
  | LoadingStep _ => [lit "Loading..."]
  | NoStep => [lit "No step selected"]
  end.
Proof. intros p. unfold GuiModel.view_detail. destruct (pg_detail p) as [i [[a|] m]|i [[a|] m]|i|]; reflexivity. Qed.
Lemma detail_class : forall p, of_class "detail" (gui_view p) = [view_detail p].
Proof.
  intros p. unfold GuiModel.gui_view.
  rewrite of_class_node by reflexivity. cbn [flat_map]. rewrite app_nil_r.
  assert (of_class "detail" (view_header (M := M) (A := A) p) = []) as ->.
  { unfold view_header, view_play, view_redo, view_undo.
    destruct (st_paused (pg_status p)), (st_cursor (pg_status p) =? 0)%Z, (st_cursor (pg_status p) =? st_summary (pg_status p))%Z; reflexivity. }
  rewrite of_class_node by reflexivity. cbn [flat_map app]. rewrite app_nil_r.
  rewrite (history_class p "detail" false); [|intros cur sel i; unfold view_item; destruct (sel =? i)%Z, (cur =? i)%Z; reflexivity|reflexivity].
  rewrite app_nil_r. unfold of_class, GuiModel.view_detail.
  destruct (pg_detail p) as [i [[a|] m]|i [[a|] m]|i|]; reflexivity.
Qed.

Theorem header_texts : forall p : gmodel, of_class "header" (gui_view p) = [view_header p] /\ texts (view_header p) =
  [st_program (pg_status p); pg_server p; to_string (st_summary (pg_status p)); lit " steps";
   lit (if st_paused (pg_status p) then "play" else "pause"); lit "redo"; lit "undo"].
Proof.
  intros p. split.
  - unfold GuiModel.gui_view. rewrite of_class_node by reflexivity. cbn [flat_map]. rewrite app_nil_r.
    rewrite of_class_node by reflexivity. cbn [flat_map app]. rewrite app_nil_r.
    rewrite (history_class p "header" false); [|intros cur sel i; unfold view_item; destruct (sel =? i)%Z, (cur =? i)%Z; reflexivity|reflexivity].
    rewrite app_nil_r.
    assert (of_class "header" (view_detail p) = []) as ->.
    { unfold of_class, GuiModel.view_detail. destruct (pg_detail p) as [i [[a|] m]|i [[a|] m]|i|]; reflexivity. }
    unfold of_class, view_header, view_play, view_redo, view_undo.
    destruct (st_paused (pg_status p)), (st_cursor (pg_status p) =? 0)%Z, (st_cursor (pg_status p) =? st_summary (pg_status p))%Z; reflexivity.
  - unfold view_header, view_play. destruct (st_paused (pg_status p)); reflexivity.
Qed.

(** ** Buttons *)
Context {W : Type}.
Variable reducer : M -> A -> option (M * option (prog M A W)).
Variables pause_eff resume_eff : prog (dmodel M A) (daction A) W.
Notation dstep := (dstep reducer pause_eff resume_eff).
Lemma undo_nothing : forall d : dmodel M A, dstep d Undo = d <-> cursor d = 0.
Proof.
  intros [c q i h pe]. unfold DebuggerModel.dstep. cbn [update cursor].
  destruct (Nat.ltb_spec 0 c) as [L|L]; cbn [paused init history pending]; split; intros H; try lia; try reflexivity.
  injection H as H. lia.
Qed.
Lemma redo_nothing : forall d : dmodel M A, bounded d -> (dstep d Redo = d <-> cursor d = List.length (history d)).
Proof.
  intros [c q i h pe]. unfold DebuggerModel.dstep, bounded. cbn [update cursor history]. intros B.
  destruct (Nat.ltb_spec c (List.length h)) as [L|L]; cbn [paused init history pending]; split; intros H; try lia; try reflexivity.
  injection H as H. lia.
Qed.
Theorem buttons : forall p prog d, reports prog d (pg_status p) -> bounded d ->
  exists play redo undo, of_class "button" (gui_view p) = [play; redo; undo] /\
    handlers play = [(Click, if paused d then MResume else MPause)] /\
    handlers redo = [(Click, MRedo)] /\ handlers undo = [(Click, MUndo)] /\
    (has_class "disabled" redo = true <-> dstep d Redo = d) /\
    (has_class "disabled" undo = true <-> dstep d Undo = d).
Proof.
  intros p prog d (_ & R1 & R2 & R3) B. rewrite view_class by (cbn; auto).
  rewrite (proj2 (header_class p)), (history_class p "button" false item_button) by reflexivity. rewrite app_nil_r.
  do 3 eexists. split; [reflexivity|]. rewrite R3. split; [unfold view_play; destruct (paused d); reflexivity|].
  split; [reflexivity|]. split; [reflexivity|]. rewrite undo_nothing, (redo_nothing d B).
  unfold view_redo, view_undo. rewrite R1, R2. split.
  - destruct (Z.eqb_spec (Z.of_nat (cursor d)) (Z.of_nat (List.length (history d)))); split; intros H;
      try reflexivity; try lia; discriminate H.
  - destruct (Z.eqb_spec (Z.of_nat (cursor d)) 0); split; intros H; try reflexivity; try lia; discriminate H.
Qed.

(** ** The initial model *)
Variable bits : N.
Notation after := (after encode_action encode_model reducer pause_eff resume_eff bits).
Theorem initial : forall origin sv es i a m, let p := page (after (opened origin sv) es) in
  pg_detail p = LoadedStep i (a, m) -> (a = None <-> i = 0%Z).
Proof.
  intros origin sv es i a m p E. destruct (loaded_was encode_action encode_model reducer pause_eff resume_eff bits origin sv es i (a, m) E) as (d & n & -> & _ & H).
  unfold lookup in H. destruct (_ <? n); [discriminate H|]. destruct n as [|c].
  - injection H as <- _. tauto.
  - destruct (nth_error (history d) c) as [[b x]|]; [|discriminate H]. injection H as <- _.
    split; [discriminate|lia].
Qed.
Definition titles (cs : list (cmd M A)) : list str := flat_map (fun c => match c with Title t => [t] | _ => [] end) cs.
Lemma title_exec : forall p cs (s : sys M A), title (exec_all p cs s) = List.last (titles cs) (title s).
Proof.
  intros p. induction cs as [|c cs IH]; intros s; [reflexivity|].
  unfold exec_all. cbn [fold_left]. fold (exec_all p cs (exec p c s)). rewrite IH.
  destruct c; cbn [exec title titles flat_map app]; fold (titles cs); try reflexivity.
  destruct (titles cs) as [|x l]; [reflexivity|]. cbn [List.last]. clear. revert x. induction l as [|y l IH]; intros x; [reflexivity|].
  apply IH.
Qed.
Lemma title_hear : forall m (s : sys M A), title (hear m s) = title s \/
  exists st, m = RecvStatus (Some st) /\ title (hear m s) = lit "debugging: " ++ st_program st.
Proof.
  intros m s. unfold hear. rewrite title_exec. cbn [title].
  assert (forall p i, titles (snd (select_step (M := M) (A := A) p i)) = []) as K.
  { intros p i. unfold select_step. destruct (_ || _); reflexivity. }
  assert (forall p i, titles (snd (select_goto_step (M := M) (A := A) p i)) = []) as K'.
  { intros p i. unfold select_goto_step. cbn [snd]. destruct (_ =? _)%Z; [|apply K].
    unfold titles. rewrite flat_map_app. fold (titles (snd (select_step p i))). rewrite K. reflexivity. }
  destruct m as [[st|]|[d|]|r|j|j| | | | | | | | | | |k]; cbn [gui_update]; rewrite ?K, ?K'; try (left; reflexivity).
  - destruct (_ || _); [rewrite K; left; reflexivity|]. right. exists st. split; reflexivity.
  - destruct (_ =? _)%Z; left; reflexivity.
  - destruct (st_paused _); left; reflexivity.
  - left. unfold keys_update. cbn [snd]. destruct (combo_eqb _ _); [reflexivity|]. destruct (matches_combo _); reflexivity.
Qed.
Theorem titled : forall origin sv es, let t := title (after (opened origin sv) es) in
  t = [] \/ t = lit "debugging: " ++ program sv.
Proof.
  intros origin sv es t. subst t. induction es as [|e es IH] using rev_ind; [left; reflexivity|].
  rewrite after_snoc.
  assert (V := inv_run encode_action encode_model reducer pause_eff resume_eff bits origin sv es (fun _ => True) (fun _ _ => I)).
  set (s := after (opened origin sv) es) in *.
  assert (forall m (s' : sys M A), title s' = title s -> (forall st, m = RecvStatus (Some st) -> st_program st = program sv) ->
    title (hear m s') = [] \/ title (hear m s') = lit "debugging: " ++ program sv) as K.
  { intros m s' E H. destruct (title_hear m s') as [->|(st & Em & ->)]; [rewrite E; exact IH|]. right. rewrite (H st Em). reflexivity. }
  destruct e as [n|k| | |n|n|n|a| |]; cbn [GuiModel.happens]; try exact IH.
  - destruct (nth_error _ n) as [[o m]|] eqn:E; [|exact IH]. apply K; [reflexivity|]. intros st ->.
    apply nth_error_In, handlers_in in E. destruct E as [E|[E|[[E _]|[[E _]|(j & H & [E|E])]]]]; discriminate E.
  - apply K; [reflexivity|discriminate].
  - destruct (self s) as [|m l] eqn:E; [exact IH|]. apply K; [reflexivity|]. intros st ->.
    assert (H := i_self _ _ _ _ _ _ V). rewrite E in H. inversion H as [|? ? Km _]; subst. destruct Km.
  - destruct (nth_error (wire s) n) as [[q x]|]; exact IH.
  - destruct (nth_error (wire s) n) as [[q x]|]; exact IH.
  - destruct (nth_error (back s) n) as [m|] eqn:E; [|exact IH]. apply K; [reflexivity|]. intros st ->.
    apply nth_error_In in E. assert (H := i_back _ _ _ _ _ _ V). rewrite Forall_forall in H. specialize (H _ E).
    destruct H as (d & _ & H & _). exact H.
  - destruct (todo s); exact IH.
Qed.
End View.
