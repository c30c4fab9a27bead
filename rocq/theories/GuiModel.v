(** The page of the debugger, /repo/resources/gui/gui.elm (and what it uses of the packages
    compiled into /repo/resources/gui/gui.js), together with the browser, the debug server
    that answers it (ServerModel) and the debugged program (DebuggerModel).

    Elm's [Int] is a number of JavaScript; here a [Z].  JSON values are the values that they
    show: an action of type [A], a model of type [M].  [Debug.log] writes to the console,
    which is left out.  Colours and sizes (gui.scss) are not modelled. *)
From Coq Require Import List Bool Arith NArith ZArith Ascii String.
From Verif Require Import StoreModel DebuggerModel ServerModel.
Import ListNotations.
Local Open Scope list_scope.

(** [toString] of an Int; gui.js:1562-1578.  JavaScript writes numbers from 10^21 on
    with an exponent, which is left out. *)
Fixpoint decimal (fuel : nat) (n : N) (acc : str) : str :=
  match fuel with
  | 0 => acc
  | S fuel => let acc := ascii_of_N (48 + n mod 10) :: acc in
              if (n <? 10)%N then acc else decimal fuel (n / 10) acc
  end.
Definition to_string (i : Z) : str :=
  let d := decimal (S (N.size_nat (Z.abs_N i))) (Z.abs_N i) [] in
  if (i <? 0)%Z then "-"%char :: d else d.

(** ** Keyboard.Extra and Keyboard.Combo, gui.js:9425-10662 *)
Inductive keymsg := KDown (code : nat) | KUp (code : nat).
(** gui.js:9434-9453, 9475-9487; keys are given by their codes, gui.js:9709-10317 *)
Definition remove (code : nat) (l : list nat) : list nat := filter (fun k => negb (code =? k)) l.
Definition insert (code : nat) (l : list nat) : list nat := code :: remove code l.
Definition key_update (m : keymsg) (l : list nat) : list nat :=
  match m with KDown c => insert c l | KUp c => remove c l end.
(** gui.js:10352-10359 *)
Definition is_pressed (code : nat) (l : list nat) : bool := existsb (Nat.eqb code) l.
Definition shift := 16.
Definition control := 17.
Definition space := 32.
Definition up := 38.
Definition down := 40.
Definition key_y := 89.
Definition key_z := 90.

Section Page.
Context {M A : Type}.

(** ** Data model, gui.elm:42-114 *)
Record gstatus := GStatus { st_program : str; st_summary : Z; st_cursor : Z; st_paused : bool }.
Definition step : Type := option A * M.
Inductive detail :=
| LoadedStep (i : Z) (s : step)
| ChangingStep (i : Z) (s : step)
| LoadingStep (i : Z)
| NoStep.
(** gui.elm:99-114; of a [Result Http.Error x] the error is left out *)
Inductive msg :=
| RecvStatus (r : option gstatus)
| RecvStep (r : option detail)
| RecvPost (r : option unit)
| SelectStep (i : Z)
| GotoStep (i : Z)
| MPause | MResume | TogglePause | MUndo | MRedo
| KeyUp | KeyDown | KeyGoUp | KeyGoDown
| Tick
| ComboMsg (k : keymsg).
Definition combo : Type := list nat * msg.
(** Keyboard.Combo.Model, gui.js:10639-10646; [combos] and [toMsg] do not change *)
Record kmodel := KModel { k_keys : list nat; k_active : option combo }.
(** gui.elm:60-65 *)
Record gmodel := GModel { pg_server : str; pg_status : gstatus; pg_detail : detail; pg_keys : kmodel }.
Definition with_status (x : gstatus) (p : gmodel) : gmodel := GModel (pg_server p) x (pg_detail p) (pg_keys p).
Definition with_detail (x : detail) (p : gmodel) : gmodel := GModel (pg_server p) (pg_status p) x (pg_keys p).
Definition with_keys (x : kmodel) (p : gmodel) : gmodel := GModel (pg_server p) (pg_status p) (pg_detail p) x.

(** gui.elm:67-68 *)
Definition init_status : gstatus := GStatus [] 0 0 false.
Definition init_model (server : str) : gmodel := GModel server init_status NoStep (KModel [] None).
(** gui.elm:75-81 *)
Definition detail_index (d : detail) : Z :=
  match d with
  | LoadedStep i _ => i
  | LoadingStep i => i
  | ChangingStep i _ => i
  | NoStep => -1
  end.

(** ** Commands *)
(** Which decoder and message a request is sent with. *)
Inductive expect := XStatus | XStep (i : Z) | XPost.
(** [Cmd.none] is [[]], [Cmd.batch] is [++]. *)
Inductive cmd :=
| Http (v : verb) (url : str) (x : expect)
| Title (s : str)
| PerformMsg (m : msg).
(** gui.elm:315-350 *)
Definition query_status (server : str) : list cmd := [Http Get (server ++ lit "/api") XStatus].
Definition query_step (server : str) (i : Z) : list cmd :=
  [Http Get (server ++ lit "/api/step/" ++ to_string i) (XStep i)].
Definition query_goto (server : str) (i : Z) : list cmd :=
  [Http Post (server ++ lit "/api/goto/" ++ to_string i) XPost].
Definition query_undo (server : str) : list cmd := [Http Post (server ++ lit "/api/undo") XPost].
Definition query_redo (server : str) : list cmd := [Http Post (server ++ lit "/api/redo") XPost].
Definition query_pause (server : str) : list cmd := [Http Post (server ++ lit "/api/pause") XPost].
Definition query_resume (server : str) : list cmd := [Http Post (server ++ lit "/api/resume") XPost].

(** gui.elm:70-73 *)
Definition gui_init (server : str) : gmodel * list cmd := (init_model server, query_status server).

(** ** Keys, gui.elm:295-302 *)
Definition keys : list combo :=
  [([control; key_z], MUndo);
   ([control; key_y], MRedo);
   ([shift; up], KeyGoUp);
   ([shift; down], KeyGoDown);
   ([up], KeyUp);
   ([down], KeyDown);
   ([space], TogglePause)].
(** gui.js:10510-10528 *)
Definition matches_combo (pressed : list nat) : option combo :=
  find (fun c => forallb (fun k => is_pressed k pressed) (fst c)) keys.
(** [==] of combos; those of [keys] are told apart by their keys, which are compared. *)
Definition combo_eqb (a b : option combo) : bool :=
  match a, b with
  | None, None => true
  | Some a, Some b => if list_eq_dec Nat.eq_dec (fst a) (fst b) then true else false
  | _, _ => false
  end.
(** gui.js:10539-10563, 10627-10635 *)
Definition keys_update (m : keymsg) (k : kmodel) : kmodel * list cmd :=
  let pressed := key_update m (k_keys k) in
  let c := matches_combo pressed in
  (KModel pressed c,
   if combo_eqb c (k_active k) then []
   else match c with Some c => [PerformMsg (snd c)] | None => [] end).

(** ** Reducer, gui.elm:116-187 *)
Definition select_step (p : gmodel) (i : Z) : gmodel * list cmd :=
  if ((i <? 0) || (st_summary (pg_status p) <? i))%Z then (p, [])
  else let d := match pg_detail p with
                | LoadedStep _ s => ChangingStep i s
                | ChangingStep _ s => ChangingStep i s
                | LoadingStep _ => LoadingStep i
                | NoStep => LoadingStep i
                end in
       (with_detail d p, query_step (pg_server p) i).
Definition select_goto_step (p : gmodel) (i : Z) : gmodel * list cmd :=
  let r := select_step p i in
  (fst r, if (i =? detail_index (pg_detail (fst r)))%Z then snd r ++ query_goto (pg_server p) i else snd r).
Definition gui_update (m : msg) (p : gmodel) : gmodel * list cmd :=
  match m with
  | RecvStatus (Some st) =>
      let i := detail_index (pg_detail p) in
      let p' := with_status st p in
      if ((i =? -1) || (negb (st_cursor st =? st_cursor (pg_status p)) && (i =? st_cursor (pg_status p))))%Z
      then select_step p' (st_cursor st)
      else (p', [Title (lit "debugging: " ++ st_program st)])
  | RecvStatus None => (p, [])
  | RecvStep (Some d) =>
      if (detail_index d =? detail_index (pg_detail p))%Z then (with_detail d p, []) else (p, [])
  | RecvStep None => (p, [])
  | RecvPost _ => (p, [])
  | SelectStep i => select_step p i
  | GotoStep i => (p, query_goto (pg_server p) i)
  | MPause => (p, query_pause (pg_server p))
  | MResume => (p, query_resume (pg_server p))
  | TogglePause => (p, if st_paused (pg_status p) then query_resume (pg_server p) else query_pause (pg_server p))
  | MUndo => (p, query_undo (pg_server p))
  | MRedo => (p, query_redo (pg_server p))
  | KeyUp => select_step p (detail_index (pg_detail p) - 1)
  | KeyDown => select_step p (detail_index (pg_detail p) + 1)
  | KeyGoUp => select_goto_step p (detail_index (pg_detail p) - 1)
  | KeyGoDown => select_goto_step p (detail_index (pg_detail p) + 1)
  | ComboMsg k => let r := keys_update k (pg_keys p) in (with_keys (fst r) p, snd r)
  | Tick => (p, query_status (pg_server p))
  end.

(** ** View, gui.elm:194-288 *)
(** An element with its classes, the messages of its events, and its children.  The
    characters on the buttons, which are no ASCII, are given by names. *)
Inductive on := Click | DoubleClick.
Inductive html :=
| Text (s : str)
| Node (cls : list str) (evs : list (on * msg)) (ch : list html).
Variable encode_action : A -> str.
Variable encode_model : M -> str.
Definition classes (l : list (bool * str)) : list str := map snd (filter fst l).
Definition view_play (paused : bool) : html :=
  if paused then Node [lit "button"] [(Click, MResume)] [Text (lit "play")]
  else Node [lit "button"] [(Click, MPause)] [Text (lit "pause")].
Definition view_undo (st : gstatus) : html :=
  Node (classes [(true, lit "button"); ((st_cursor st =? 0)%Z, lit "disabled")]) [(Click, MUndo)] [Text (lit "undo")].
Definition view_redo (st : gstatus) : html :=
  Node (classes [(true, lit "button"); ((st_cursor st =? st_summary st)%Z, lit "disabled")]) [(Click, MRedo)]
       [Text (lit "redo")].
Definition view_header (p : gmodel) : html :=
  Node [lit "header"] []
    [Node [lit "left-side"] []
       [Node [lit "block"; lit "tt"; lit "hl"] [] [Text (st_program (pg_status p))];
        Node [lit "block"] [] [Text (pg_server p)];
        Node [lit "block"] [] [Node [lit "hl"] [] [Text (to_string (st_summary (pg_status p)))]; Text (lit " steps")]];
     Node [lit "right-side"] []
       [view_play (st_paused (pg_status p)); view_redo (pg_status p); view_undo (pg_status p)]].
Definition info (s : string) : html := Node [lit "info"] [] [Text (lit s)].
Definition code (s : str) : html := Node [lit "code"] [] [Text s].
Definition view_step (s : step) : html :=
  Node [] [] match fst s with
             | Some a => [info "action"; code (encode_action a); info "model"; code (encode_model (snd s))]
             | None => [info "initial model"; code (encode_model (snd s))]
             end.
Definition view_detail (p : gmodel) : html :=
  Node [lit "detail"] []
    [match pg_detail p with
     | LoadedStep _ s => view_step s
     | ChangingStep _ s => view_step s
     | LoadingStep _ => info "Loading..."
     | NoStep => info "No step selected"
     end].
Definition view_item (cursor selected i : Z) : html :=
  Node (classes [(true, lit "step"); ((selected =? i)%Z, lit "selected"); ((cursor =? i)%Z, lit "cursor")])
       [(Click, SelectStep i); (DoubleClick, GotoStep i)]
       [Node [] [] [Text (to_string i)]].
(** [List.range 0 n] *)
Definition range (n : Z) : list Z := map Z.of_nat (seq 0 (Z.to_nat (n + 1))).
Definition view_history (p : gmodel) : html :=
  Node [lit "history"] []
    (map (view_item (st_cursor (pg_status p)) (detail_index (pg_detail p))) (range (st_summary (pg_status p)))).
Definition gui_view (p : gmodel) : html :=
  Node [] [] [view_header p; Node [lit "main"] [] [view_detail p; view_history p]].
(** What can be clicked. *)
Fixpoint handlers (h : html) : list (on * msg) :=
  match h with
  | Text _ => []
  | Node _ evs ch => evs ++ flat_map handlers ch
  end.

(** ** The browser: requests and answers *)
(** The decoders, gui.elm:83-93.  Http.send, gui.js:8892-9058, 9138-9142: an answer with another status than 2xx and one
    that the decoder rejects are errors.  The decoder is run on what [JSON.parse] gives
    (gui.js:5735-5747).  [Plain] texts are those of errors and the empty one, which are no
    JSON.  [None]: there is no answer. *)
Definition decode_status (b : dbody M A) : option gstatus :=
  match b with
  | Info p s c q => Some (GStatus p (Z.of_nat s) (Z.of_nat c) q)
  | _ => None
  end.
Definition decode_step (i : Z) (b : dbody M A) : option detail :=
  match b with Step a m => Some (LoadedStep i (a, m)) | _ => None end.
Definition decode_post (b : dbody M A) : option unit :=
  match b with Plain _ => None | _ => Some tt end.
Definition receive {X} (decode : dbody M A -> option X) (r : option (response (dbody M A))) : option X :=
  match r with
  | Some x => if (status x <? 200) || (300 <=? status x) then None else decode (body x)
  | None => None
  end.
Definition reply_msg (x : expect) (r : option (response (dbody M A))) : msg :=
  match x with
  | XStatus => RecvStatus (receive decode_status r)
  | XStep i => RecvStep (receive (decode_step i) r)
  | XPost => RecvPost (receive decode_post r)
  end.

(** ** The whole: page, network, server, program *)
Section System.
Context {W : Type}.
Variable reducer : M -> A -> option (M * option (prog M A W)).
Variables pause_eff resume_eff : prog (dmodel M A) (daction A) W.
Variable bits : N.
(** [self]: messages that the page sent to itself; [wire]: requests that have not reached
    the server; [back]: answers that have not reached the page; [truth]: the model in the
    store; [todo]: actions in the queue of the program's event loop; [heard]: the messages
    that the page has received, with the page before. *)
Record sys := Sys {
  page : gmodel;
  self : list msg;
  title : str;
  wire : list (request * expect);
  back : list msg;
  srv : server M A;
  truth : dmodel M A;
  todo : list (daction A);
  heard : list (gmodel * msg)
}.
(** The target of a request is its URL without the origin, which is what the page is given
    as server (index.html:14). *)
Definition exec (p : gmodel) (c : cmd) (s : sys) : sys :=
  match c with
  | Http v url x =>
      Sys (page s) (self s) (title s) (wire s ++ [(Req v (skipn (List.length (pg_server p)) url), x)])
          (back s) (srv s) (truth s) (todo s) (heard s)
  | Title t => Sys (page s) (self s) t (wire s) (back s) (srv s) (truth s) (todo s) (heard s)
  | PerformMsg m =>
      Sys (page s) (self s ++ [m]) (title s) (wire s) (back s) (srv s) (truth s) (todo s) (heard s)
  end.
Definition exec_all (p : gmodel) (cs : list cmd) (s : sys) : sys := fold_left (fun s c => exec p c s) cs s.
Definition hear (m : msg) (s : sys) : sys :=
  let r := gui_update m (page s) in
  exec_all (page s) (snd r)
    (Sys (fst r) (self s) (title s) (wire s) (back s) (srv s) (truth s) (todo s) (heard s ++ [(page s, m)])).

Fixpoint drop {X} (n : nat) (l : list X) : list X :=
  match n, l with
  | _, [] => []
  | 0, _ :: l => l
  | S n, x :: l => x :: drop n l
  end.
(** Requests go over several connections: they arrive and are answered in any order, or
    are lost. *)
Inductive happening :=
| Clicks (n : nat)     (** on one of the handlers of the view *)
| Presses (k : keymsg)
| Ticks
| Selfs                (** the first of [self] *)
| Arrives (n : nat)
| Loses (n : nat)
| Delivers (n : nat)
| Dispatches (a : A)   (** by the program *)
| Performs             (** the next action of the queue *)
| Commits.             (** the server is told of the model *)
Definition happens (s : sys) (e : happening) : sys :=
  match e with
  | Clicks n => match nth_error (handlers (gui_view (page s))) n with
                | Some (_, m) => hear m s
                | None => s
                end
  | Presses k => hear (ComboMsg k) s
  | Ticks => hear Tick s
  | Selfs => match self s with
             | m :: l => hear m (Sys (page s) l (title s) (wire s) (back s) (srv s) (truth s) (todo s) (heard s))
             | [] => s
             end
  | Arrives n => match nth_error (wire s) n with
                 | Some (q, x) =>
                     let r := serve bits q (srv s) in
                     Sys (page s) (self s) (title s) (drop n (wire s)) (back s ++ [reply_msg x (snd r)])
                         (fst r) (truth s)
                         (todo s ++ skipn (List.length (sent (srv s))) (sent (fst r))) (heard s)
                 | None => s
                 end
  | Loses n => match nth_error (wire s) n with
               | Some (_, x) =>
                   Sys (page s) (self s) (title s) (drop n (wire s)) (back s ++ [reply_msg x None])
                       (srv s) (truth s) (todo s) (heard s)
               | None => s
               end
  | Delivers n => match nth_error (back s) n with
                  | Some m => hear m (Sys (page s) (self s) (title s) (wire s) (drop n (back s)) (srv s)
                                          (truth s) (todo s) (heard s))
                  | None => s
                  end
  | Dispatches a => Sys (page s) (self s) (title s) (wire s) (back s) (srv s) (truth s) (todo s ++ [Act a]) (heard s)
  | Performs => match todo s with
                | x :: l => Sys (page s) (self s) (title s) (wire s) (back s) (srv s)
                                (dstep reducer pause_eff resume_eff (truth s) x) l (heard s)
                | [] => s
                end
  | Commits => Sys (page s) (self s) (title s) (wire s) (back s) (set_model (truth s) (srv s)) (truth s) (todo s) (heard s)
  end.
(** The page is opened while the server knows the model of the program. *)
Definition opened (origin : str) (sv : server M A) : sys :=
  let r := gui_init origin in
  exec_all (fst r) (snd r) (Sys (fst r) [] [] [] [] sv (model_ sv) [] []).
Definition happen_all (s : sys) (es : list happening) : sys := fold_left happens es s.
End System.
End Page.
Arguments detail : clear implicits. Arguments msg : clear implicits. Arguments gmodel : clear implicits.
Arguments cmd : clear implicits. Arguments html : clear implicits. Arguments sys : clear implicits.
Arguments happening : clear implicits. Arguments combo : clear implicits. Arguments kmodel : clear implicits.
