(** C67, C68, C69, C70: the page of the debugger. *)
From Coq Require Import List Bool Arith NArith ZArith Ascii String Permutation.
From Verif Require Import StoreModel DebuggerModel DebuggerSpec ServerModel GuiModel GuiSpec GuiShown GuiFollow GuiWait GuiFail
  GuiAsk GuiKeys GuiView GuiKept.
Import ListNotations.
Local Open Scope list_scope.

(** A program that adds numbers; its debugger starts with 7. *)
Definition adds (m a : nat) : option (nat * option (prog nat nat unit)) := Some (m + a, None).
Definition none : prog (dmodel nat nat) (daction nat) unit := PRet None.
Definition spell (n : nat) : str := to_string (Z.of_nat n).
Definition adder : server nat nat := Server (lit "adder") [] (dinit 7) (fun _ => None) [].
Definition site : str := lit "http://localhost:8080".
Notation run := (after spell spell adds none none 64).
Notation open := (opened site adder).

(** ** C67 *)
Section C67.
Variables M A W : Type.
Variable encode_action : A -> str.
Variable encode_model : M -> str.
Variable reducer : M -> A -> option (M * option (prog M A W)).
Variables pause_eff resume_eff : prog (dmodel M A) (daction A) W.
Variable bits : N.
Notation after := (after encode_action encode_model reducer pause_eff resume_eff bits).
Notation showed := (showed encode_action encode_model reducer pause_eff resume_eff bits).
(** What is shown was so. *)
Theorem C67_loaded : forall origin sv es i s, let r := after (opened origin sv) es in
  pg_detail (page r) = LoadedStep i s ->
  exists d n, i = Z.of_nat n /\ showed (opened origin sv) es d /\ lookup d n = Some s.
Proof. exact (loaded_was encode_action encode_model reducer pause_eff resume_eff bits). Qed.
Theorem C67_changing : forall origin sv es i s, let r := after (opened origin sv) es in
  pg_detail (page r) = ChangingStep i s ->
  exists d n, showed (opened origin sv) es d /\ lookup d n = Some s.
Proof. exact (changing_was encode_action encode_model reducer pause_eff resume_eff bits). Qed.
Theorem C67_status : forall origin sv es, let r := after (opened origin sv) es in
  pg_status (page r) = GStatus [] 0 0 false \/
  exists d, showed (opened origin sv) es d /\ reports (program sv) d (pg_status (page r)).
Proof. exact (status_was encode_action encode_model reducer pause_eff resume_eff bits). Qed.
Theorem C67_selected : forall origin sv es, let r := after (opened origin sv) es in
  pg_detail (page r) = NoStep \/
  exists d n, detail_index (pg_detail (page r)) = Z.of_nat n /\ showed (opened origin sv) es d /\
              n <= List.length (history d).
Proof. exact (selected_was encode_action encode_model reducer pause_eff resume_eff bits). Qed.
(** What is shown is shown until another step arrives. *)
Theorem C67_kept : forall origin sv es e x, let p := page (after (opened origin sv) es) in
  let q := page (after (opened origin sv) (es ++ [e])) in
  shows (pg_detail p) x ->
  shows (pg_detail q) x \/ exists n i y, e = Delivers n /\ pg_detail q = LoadedStep i y.
Proof. exact (kept encode_action encode_model reducer pause_eff resume_eff bits). Qed.
(** The selection follows the cursor. *)
Theorem C67_follows : forall origin sv es fs, bounded (model_ sv) -> Forall quiet fs ->
  following (page (after (opened origin sv) es)) -> following (page (after (opened origin sv) (es ++ fs))).
Proof. exact (stays_following encode_action encode_model reducer pause_eff resume_eff bits). Qed.
Theorem C67_follows_first : forall origin sv es, bounded (model_ sv) -> Forall quiet es ->
  let p := page (after (opened origin sv) es) in following p \/ pg_detail p = NoStep.
Proof. exact (starts_following encode_action encode_model reducer pause_eff resume_eff bits). Qed.
(** A poll shows the status, and the step at the cursor if the cursor has moved. *)
Theorem C67_poll : forall origin sv es, let s := after (opened origin sv) es in
  wire s = [] -> back s = [] ->
  reports (program sv) (model_ (srv s)) (pg_status (page (after s [Ticks; Arrives 0; Delivers 0]))).
Proof. exact (poll_shows encode_action encode_model reducer pause_eff resume_eff bits). Qed.
Theorem C67_settles : forall origin sv es, bounded (model_ sv) -> let s := after (opened origin sv) es in
  wire s = [] -> back s = [] ->
  pg_detail (page s) = NoStep \/
    (following (page s) /\ st_cursor (pg_status (page s)) <> Z.of_nat (cursor (model_ (srv s)))) ->
  (N.of_nat (cursor (model_ (srv s))) < 2 ^ bits)%N ->
  let s' := after s [Ticks; Arrives 0; Delivers 0; Arrives 0; Delivers 0] in
  reports (program sv) (model_ (srv s)) (pg_status (page s')) /\
  exists x, lookup (model_ (srv s)) (cursor (model_ (srv s))) = Some x /\
            pg_detail (page s') = LoadedStep (Z.of_nat (cursor (model_ (srv s)))) x.
Proof. exact (settles encode_action encode_model reducer pause_eff resume_eff bits). Qed.
(** A step that is waited for is asked for or on its way, unless something failed. *)
Theorem C67_owed : forall origin sv es i, bounded (model_ sv) -> let s := after (opened origin sv) es in
  waits (pg_detail (page s)) i ->
  (exists q, In (q, XStep i) (wire s)) \/ (exists x, In (RecvStep (Some (LoadedStep i x))) (back s)) \/
  In (RecvStep None) (back s) \/ exists p, In (p, RecvStep None) (heard s).
Proof. exact (waits_owes encode_action encode_model reducer pause_eff resume_eff bits). Qed.
Theorem C67_none_fails : forall origin sv es, bounded (model_ sv) -> Forall no_loss es ->
  (forall k, List.length (history (model_ (srv (after (opened origin sv) (firstn k es))))) <=
             List.length (history (model_ (srv (after (opened origin sv) (firstn (S k) es)))))) ->
  (forall d, showed (opened origin sv) es d -> (N.of_nat (List.length (history d)) < 2 ^ bits)%N) ->
  let s := after (opened origin sv) es in
  ~ In (RecvStep None) (back s) /\ forall p, ~ In (p, RecvStep None) (heard s).
Proof. exact (no_failures encode_action encode_model reducer pause_eff resume_eff bits). Qed.
Theorem C67_all_loaded : forall origin sv es i, bounded (model_ sv) -> Forall no_loss es ->
  (forall k, List.length (history (model_ (srv (after (opened origin sv) (firstn k es))))) <=
             List.length (history (model_ (srv (after (opened origin sv) (firstn (S k) es)))))) ->
  (forall d, showed (opened origin sv) es d -> (N.of_nat (List.length (history d)) < 2 ^ bits)%N) ->
  let s := after (opened origin sv) es in
  wire s = [] -> back s = [] -> ~ waits (pg_detail (page s)) i.
Proof. exact (all_loaded encode_action encode_model reducer pause_eff resume_eff bits). Qed.
End C67.
Print Assumptions C67_loaded.
Print Assumptions C67_changing.
Print Assumptions C67_status.
Print Assumptions C67_kept.
Print Assumptions C67_selected.
Print Assumptions C67_follows.
Print Assumptions C67_follows_first.
Print Assumptions C67_poll.
Print Assumptions C67_settles.
Print Assumptions C67_owed.
Print Assumptions C67_none_fails.
Print Assumptions C67_all_loaded.

(** The program acts, and the page shows the step. *)
Definition act (a : nat) : list (happening nat) := [Dispatches a; Performs; Commits].
Definition look : list (happening nat) := [Arrives 0; Delivers 0; Arrives 0; Delivers 0].
Example shows_it : let s := run open (act 5 ++ look) in
  pg_detail (page s) = LoadedStep 1 (Some 5, 12) /\ pg_status (page s) = GStatus (lit "adder") 1 1 false /\
  following (page s) /\ idle s /\ Forall quiet (act 5 ++ look) /\ bounded (model_ adder).
Proof.
  split; [vm_compute; reflexivity|]. split; [vm_compute; reflexivity|].
  split; [vm_compute; reflexivity|]. split; [vm_compute; auto 10|]. split; [repeat constructor|]. apply le_n.
Qed.
(** While it loads the second step it shows the first one. *)
Example changes : let s := run open (act 5 ++ look ++ act 6 ++ [Ticks; Arrives 0; Delivers 0]) in
  pg_detail (page s) = ChangingStep 2 (Some 5, 12) /\
  wire s = [(Req Get (lit "/api/step/2"), XStep 2%Z)] /\
  pg_detail (page (run s [Arrives 0; Delivers 0])) = LoadedStep 2 (Some 6, 18).
Proof. vm_compute. auto. Qed.
(** And by two arrow keys: the first step is shown while the one before the one before it is loaded. *)
Example keeps : let es := act 5 ++ act 6 ++ look ++ [Presses (KDown 38); Selfs; Presses (KUp 38); Presses (KDown 38)] in
  pg_detail (page (run open es)) = ChangingStep 1 (Some 6, 18) /\
  pg_detail (page (run open (es ++ [Selfs]))) = ChangingStep 0 (Some 6, 18).
Proof. vm_compute. auto. Qed.
(** "What is shown is current": not after the history was replaced at the same cursor. *)
Theorem C67_stale_refuted : exists es x, let s := run open es in
  idle s /\ reports (lit "adder") (truth s) (pg_status (page s)) /\
  pg_detail (page s) = LoadedStep (Z.of_nat (cursor (truth s))) x /\ lookup (truth s) (cursor (truth s)) <> Some x /\
  forall fs, Forall quiet fs -> Forall no_commit fs ->
    pg_detail (page (run s fs)) = LoadedStep (Z.of_nat (cursor (truth s))) x.
Proof.
  exists (act 5 ++ look ++ [Clicks 2; Arrives 0; Delivers 0; Performs] ++ act 6 ++ [Ticks; Arrives 0; Delivers 0]), (Some 5, 12).
  split; [vm_compute; auto 10|]. split; [vm_compute; auto|]. split; [vm_compute; reflexivity|].
  split; [vm_compute; discriminate|]. intros fs Q N.
  apply (stuck_for_ever spell spell adds none none 64 _ 1%Z); [|exact Q|exact N]. constructor; try (vm_compute; reflexivity).
  - intros w H. vm_compute in H. destruct H.
  - intros m H. vm_compute in H. destruct H.
Qed.
Print Assumptions C67_stale_refuted.
(** "The selected step exists": not if the history gets shorter. *)
Theorem C67_exists_refuted : exists es n x, let s := run open es in
  idle s /\ reports (lit "adder") (truth s) (pg_status (page s)) /\
  pg_detail (page s) = LoadedStep (Z.of_nat n) x /\ List.length (history (truth s)) < n.
Proof.
  exists (act 5 ++ act 6 ++ look ++ [Clicks 4; Arrives 0; Delivers 0; Performs; Commits; Ticks] ++ look ++
          [Clicks 7; Arrives 0; Delivers 0] ++ act 8 ++ [Ticks; Arrives 0; Delivers 0]), 2, (Some 6, 18).
  split; [vm_compute; auto 10|]. split; [vm_compute; auto|]. split; [vm_compute; reflexivity|]. vm_compute. repeat constructor.
Qed.
Print Assumptions C67_exists_refuted.
(** "Not older than before": answers may overtake each other. *)
Theorem C67_order_refuted : exists es, let s := run open es in let s' := run s [Delivers 0] in
  reports (lit "adder") (model_ (srv s)) (pg_status (page s)) /\ model_ (srv s') = model_ (srv s) /\
  ~ reports (lit "adder") (model_ (srv s')) (pg_status (page s')).
Proof.
  exists ([Arrives 0] ++ act 5 ++ [Ticks; Arrives 0; Delivers 1]).
  split; [vm_compute; auto|]. split; [vm_compute; reflexivity|]. vm_compute. intros (_ & H & _). discriminate H.
Qed.
Print Assumptions C67_order_refuted.
(** A page which waits gets nothing after a loss, though all other requests are answered. *)
Theorem C67_stuck_refuted : exists es, let s := run open es in
  idle s /\ waits (pg_detail (page s)) 0 /\
  forall fs, Forall quiet fs -> Forall no_commit fs -> pg_detail (page (run s fs)) = pg_detail (page s).
Proof.
  exists [Arrives 0; Delivers 0; Loses 0; Delivers 0].
  split; [vm_compute; auto 10|]. split; [left; vm_compute; reflexivity|]. intros fs Q N.
  apply (stuck_for_ever spell spell adds none none 64 _ 0%Z); [|exact Q|exact N]. constructor; try (vm_compute; reflexivity).
  - intros w H. vm_compute in H. destruct H.
  - intros m H. vm_compute in H. destruct H.
Qed.
Print Assumptions C67_stuck_refuted.

(** ** C68 *)
Section C68.
Variables M A W : Type.
Variable encode_action : A -> str.
Variable encode_model : M -> str.
Variable reducer : M -> A -> option (M * option (prog M A W)).
Variables pause_eff resume_eff : prog (dmodel M A) (daction A) W.
Variable bits : N.
Notation after := (after encode_action encode_model reducer pause_eff resume_eff bits).
Notation showed := (showed encode_action encode_model reducer pause_eff resume_eff bits).
Notation dstep := (dstep reducer pause_eff resume_eff).
(** The server does what a request of the page is for. *)
Theorem C68_routes : forall (x : daction A) (sv : server M A),
  match x with Act _ => False | Goto n => (N.of_nat n < 2 ^ bits)%N | _ => True end ->
  serve bits (request_of x) sv = (set_sent (sent sv ++ [x]) sv, Some (Res 200 (lit "text/html") (Plain []))).
Proof. exact (serve_request bits). Qed.
Theorem C68_distinct : forall x y : daction A, (forall a, x <> Act a) -> (forall a, y <> Act a) ->
  request_of x = request_of y -> x = y.
Proof. exact request_injective. Qed.
(** The wanted actions are dispatched, under way or lost. *)
Theorem C68_asked : forall origin sv es, let s := after (opened origin sv) es in
  (forall d, showed (opened origin sv) es d -> (N.of_nat (List.length (history d)) < 2 ^ bits)%N) ->
  exists done under gone, sent (srv s) = sent sv ++ done /\ posts (wire s) = map request_of under /\
    lost encode_action encode_model reducer pause_eff resume_eff bits (opened origin sv) es = map request_of gone /\
    Permutation (flat_map wants (heard s)) (done ++ under ++ gone).
Proof. exact (asked encode_action encode_model reducer pause_eff resume_eff bits). Qed.
(** The debugger performs what was dispatched by the server and by the program. *)
Theorem C68_performed : forall origin sv es, let s := after (opened origin sv) es in
  exists perf, truth s = fold_left dstep perf (model_ sv) /\
    sent (srv s) = sent sv ++ moves (perf ++ todo s) /\ acts (perf ++ todo s) = dispatches es.
Proof. exact (performed encode_action encode_model reducer pause_eff resume_eff bits). Qed.
Theorem C68_round_trip : forall origin sv es n o m x, let s := after (opened origin sv) es in
  self s = [] -> wire s = [] -> back s = [] -> todo s = [] ->
  (forall d, showed (opened origin sv) es d -> (N.of_nat (List.length (history d)) < 2 ^ bits)%N) ->
  nth_error (handlers (gui_view encode_action encode_model (page s))) n = Some (o, m) ->
  wants (page s, m) = [x] ->
  let s' := after s [Clicks n; Arrives 0; Delivers 0; Performs; Commits; Ticks; Arrives 0; Delivers 0] in
  truth s' = dstep (truth s) x /\ reports (program sv) (dstep (truth s) x) (pg_status (page s')).
Proof. exact (round_trip encode_action encode_model reducer pause_eff resume_eff bits). Qed.
End C68.
Print Assumptions C68_routes.
Print Assumptions C68_distinct.
Print Assumptions C68_asked.
Print Assumptions C68_performed.
Print Assumptions C68_round_trip.

Example requests : request_of (A := nat) (Goto 120) = Req Post (lit "/api/goto/120") /\
  sent (fst (serve 64 (request_of (A := nat) (Goto 120)) adder)) = [Goto 120].
Proof. vm_compute. auto. Qed.
(** Undo, and a pause that is lost, and a redo that is under way. *)
Example asks : let es := act 5 ++ look ++ [Clicks 2; Clicks 0; Clicks 1; Arrives 0; Loses 0] in let s := run open es in
  flat_map wants (heard s) = [Undo; Pause; Redo] /\ sent (srv s) = [Undo] /\ posts (wire s) = [request_of (A := nat) Redo] /\
  lost spell spell adds none none 64 open es = [request_of (A := nat) Pause] /\ todo s = [Undo].
Proof. vm_compute. auto. Qed.
(** "In the order": two requests may arrive in the other order. *)
Theorem C68_order_refuted : exists es, let s := run open es in
  flat_map wants (heard s) = [Undo; Redo] /\ sent (srv s) = [Redo; Undo] /\
  truth s = dstep adds none none (dstep adds none none (truth (run open (firstn 7 es))) Redo) Undo /\
  truth s <> dstep adds none none (dstep adds none none (truth (run open (firstn 7 es))) Undo) Redo.
Proof.
  exists (act 5 ++ look ++ [Clicks 2; Clicks 1; Arrives 1; Arrives 0; Performs; Performs]).
  vm_compute. repeat split. discriminate.
Qed.
Print Assumptions C68_order_refuted.
(** "Pressed twice": both pause if no status comes in between. *)
Theorem C68_toggle_refuted : exists es, let s := run open es in
  map snd (heard s) = [ComboMsg (KDown 32); TogglePause; ComboMsg (KUp 32); ComboMsg (KDown 32); TogglePause] /\
  sent (srv s) = [Pause; Pause] /\ todo s = [] /\ paused (truth open) = false /\ paused (truth s) = true.
Proof.
  exists [Presses (KDown 32); Selfs; Presses (KUp 32); Presses (KDown 32); Selfs; Arrives 1; Arrives 1; Performs; Performs].
  vm_compute. auto.
Qed.
Print Assumptions C68_toggle_refuted.

(** ** C69 *)
Theorem C69_fires : forall M A ks k (m : msg M A),
  fires ks k = [PerformMsg m] <-> chord (held (ks ++ [k])) m /\ ~ chord (held ks) m.
Proof. exact (fun M A => @fires_iff M A). Qed.
Print Assumptions C69_fires.
Theorem C69_at_most_one : forall M A ks k, fires (M := M) (A := A) ks k = [] \/ exists m : msg M A, fires ks k = [PerformMsg m].
Proof. exact (fun M A => @fires_one M A). Qed.
Print Assumptions C69_at_most_one.
Theorem C69_repeats : forall M A ks c, held ks c -> fires (M := M) (A := A) ks (KDown c) = [].
Proof. exact (fun M A => @repeats M A). Qed.
Print Assumptions C69_repeats.
(** In every run, whatever happens between the keys. *)
Theorem C69_in_runs : forall M A W (encode_action : A -> str) (encode_model : M -> str)
    (reducer : M -> A -> option (M * option (prog M A W))) pause_eff resume_eff bits origin sv es k,
  let after := after encode_action encode_model reducer pause_eff resume_eff bits in
  self (after (opened origin sv) (es ++ [Presses k])) =
  self (after (opened origin sv) es) ++
  flat_map (fun c => match c with PerformMsg m => [m] | _ => [] end) (fires (presses es) k).
Proof. exact (fun M A W ea em r p q b => @run_fires M A W ea em r p q b). Qed.
Print Assumptions C69_in_runs.
Example undo_keys : fires (M := nat) (A := nat) [KDown 17] (KDown 90) = [PerformMsg MUndo] /\ held [KDown 17] 17 /\
  fires (M := nat) (A := nat) [KDown 17; KDown 90] (KDown 90) = [].
Proof. split; [reflexivity|]. split; [|reflexivity]. exists [], []. split; [reflexivity|]. intros []. Qed.
(** "Releasing a key does nothing": the release of shift leaves another chord. *)
Theorem C69_release_refuted : exists ks c, fires (M := nat) (A := nat) ks (KUp c) = [PerformMsg KeyUp].
Proof. exists [KDown 16; KDown 38], 16. reflexivity. Qed.
Print Assumptions C69_release_refuted.
(** "Each press does something": not of the down key while the up key is held. *)
Theorem C69_press_refuted : exists ks, ~ held ks 40 /\ fires (M := nat) (A := nat) ks (KDown 40) = [] /\
  fires (M := nat) (A := nat) [] (KDown 40) = [PerformMsg KeyDown].
Proof.
  exists [KDown 38]. split; [|split; reflexivity].
  intros (l1 & l2 & H & _). destruct l1 as [|x [|y l1]]; discriminate H.
Qed.
Print Assumptions C69_press_refuted.

(** ** C70 *)
Theorem C70_items : forall M A (encode_action : A -> str) (encode_model : M -> str) p n,
  st_summary (pg_status p) = Z.of_nat n ->
  let l := of_class "step" (gui_view encode_action encode_model p) in List.length l = S n /\
  forall k, k <= n -> exists h, nth_error l k = Some h /\ texts h = [to_string (Z.of_nat k)] /\
    handlers h = [(Click, SelectStep (Z.of_nat k)); (DoubleClick, GotoStep (Z.of_nat k))] /\
    (has_class "selected" h = true <-> detail_index (pg_detail p) = Z.of_nat k) /\
    (has_class "cursor" h = true <-> st_cursor (pg_status p) = Z.of_nat k).
Proof. exact (fun M A => @items M A). Qed.
Print Assumptions C70_items.
Theorem C70_detail : forall M A (encode_action : A -> str) (encode_model : M -> str) p,
  exists h, of_class "detail" (gui_view encode_action encode_model p) = [h] /\ texts h =
  match pg_detail p with
  | LoadedStep _ (Some a, m) | ChangingStep _ (Some a, m) => [lit "action"; encode_action a; lit "model"; encode_model m]
  | LoadedStep _ (None, m) | ChangingStep _ (None, m) => [lit "initial model"; encode_model m]
  | LoadingStep _ => [lit "Loading..."]
  | NoStep => [lit "No step selected"]
  end.
Proof. exact (fun M A ea em p => ex_intro _ _ (conj (@detail_class M A ea em p) (@detail_texts M A ea em p))). Qed.
Print Assumptions C70_detail.
Theorem C70_initial : forall M A W (encode_action : A -> str) (encode_model : M -> str)
    (reducer : M -> A -> option (M * option (prog M A W))) pause_eff resume_eff bits origin sv es i a m,
  pg_detail (page (after encode_action encode_model reducer pause_eff resume_eff bits (opened origin sv) es)) = LoadedStep i (a, m) ->
  (a = None <-> i = 0%Z).
Proof. exact (fun M A W ea em r p q b => @initial M A ea em W r p q b). Qed.
Print Assumptions C70_initial.
Theorem C70_offered : forall M A (encode_action : A -> str) (encode_model : M -> str) p o m,
  In (o, m) (handlers (gui_view encode_action encode_model p)) <->
  (o = Click /\ (m = (if st_paused (pg_status p) then MResume else MPause) \/ m = MUndo \/ m = MRedo)) \/
  exists i, (0 <= i <= st_summary (pg_status p))%Z /\ ((o = Click /\ m = SelectStep i) \/ (o = DoubleClick /\ m = GotoStep i)).
Proof. exact (fun M A => @offered M A). Qed.
Print Assumptions C70_offered.
Theorem C70_header : forall M A (encode_action : A -> str) (encode_model : M -> str) p,
  exists h, of_class "header" (gui_view encode_action encode_model p) = [h] /\ texts h =
  [st_program (pg_status p); pg_server p; to_string (st_summary (pg_status p)); lit " steps";
   lit (if st_paused (pg_status p) then "play" else "pause"); lit "redo"; lit "undo"].
Proof. exact (fun M A ea em p => ex_intro _ _ (@header_texts M A ea em p)). Qed.
Print Assumptions C70_header.
Theorem C70_title : forall M A W (encode_action : A -> str) (encode_model : M -> str)
    (reducer : M -> A -> option (M * option (prog M A W))) pause_eff resume_eff bits origin sv es,
  let t := title (after encode_action encode_model reducer pause_eff resume_eff bits (opened origin sv) es) in
  t = [] \/ t = lit "debugging: " ++ program sv.
Proof. exact (fun M A W ea em r p q b => @titled M A ea em W r p q b). Qed.
Print Assumptions C70_title.
(** The title is set by the second status. *)
Example second_title : title (run open (act 5 ++ look)) = [] /\
  title (run open (act 5 ++ look ++ [Ticks; Arrives 0; Delivers 0])) = lit "debugging: adder".
Proof. vm_compute. auto. Qed.
Theorem C70_buttons : forall M A (encode_action : A -> str) (encode_model : M -> str) W
    (reducer : M -> A -> option (M * option (prog M A W))) pause_eff resume_eff p prog d,
  reports prog d (pg_status p) -> bounded d ->
  exists play redo undo, of_class "button" (gui_view encode_action encode_model p) = [play; redo; undo] /\
    handlers play = [(Click, if paused d then MResume else MPause)] /\
    handlers redo = [(Click, MRedo)] /\ handlers undo = [(Click, MUndo)] /\
    (has_class "disabled" redo = true <-> dstep reducer pause_eff resume_eff d Redo = d) /\
    (has_class "disabled" undo = true <-> dstep reducer pause_eff resume_eff d Undo = d).
Proof. exact (fun M A ea em W => @buttons M A ea em W). Qed.
Print Assumptions C70_buttons.
Example shows_three : let p := page (run open (act 5 ++ act 6 ++ look)) in
  map texts (of_class "step" (gui_view spell spell p)) = [[lit "0"]; [lit "1"]; [lit "2"]] /\
  map texts (of_class "detail" (gui_view spell spell p)) = [[lit "action"; lit "6"; lit "model"; lit "18"]] /\
  map texts (of_class "button" (gui_view spell spell p)) = [[lit "pause"]; [lit "redo"]; [lit "undo"]] /\
  map (has_class "disabled") (of_class "button" (gui_view spell spell p)) = [false; true; false].
Proof. vm_compute. auto. Qed.
(** "Disabled buttons send nothing": only their class differs. *)
Theorem C70_disabled_refuted : exists es h m, let s := run open es in
  In h (of_class "button" (gui_view spell spell (page s))) /\ has_class "disabled" h = true /\ In (Click, m) (handlers h) /\
  wants (page s, m) = [Undo].
Proof.
  exists look. eexists. exists MUndo. vm_compute. split; [right; right; left; reflexivity|]. auto.
Qed.
Print Assumptions C70_disabled_refuted.
