(** What is said of the page of the debugger. *)
From Coq Require Import List Bool Arith NArith ZArith Ascii String.
From Verif Require Import StoreModel DebuggerModel ServerModel GuiModel.
Import ListNotations.
Local Open Scope list_scope.

Section Spec.
Context {M A : Type}.

(** The status of a debugger. *)
Definition reports (prog : str) (d : dmodel M A) (st : gstatus) : Prop :=
  st_program st = prog /\ st_summary st = Z.of_nat (List.length (history d)) /\
  st_cursor st = Z.of_nat (cursor d) /\ st_paused st = paused d.
(** The cursor of a debugger is at a step. *)
Definition bounded (d : dmodel M A) : Prop := cursor d <= List.length (history d).

(** The page waits for the step [i]. *)
Definition waits (d : detail M A) (i : Z) : Prop :=
  d = LoadingStep i \/ exists s, d = ChangingStep i s.
(** The page shows this step. *)
Definition shows (d : detail M A) (x : option A * M) : Prop :=
  exists i, d = LoadedStep i x \/ d = ChangingStep i x.
(** The selected step is the one at the cursor. *)
Definition following (p : gmodel M A) : Prop := detail_index (pg_detail p) = st_cursor (pg_status p).

(** Nothing that somebody does at the page. *)
Definition quiet (e : happening A) : Prop :=
  match e with Clicks _ | Presses _ | Selfs => False | _ => True end.
Definition no_loss (e : happening A) : Prop := match e with Loses _ => False | _ => True end.
Definition no_commit (e : happening A) : Prop := match e with Commits => False | _ => True end.

(** The requests for the debugger's actions. *)
Definition path_of (x : daction A) : str :=
  match x with
  | Undo => lit "/api/undo"
  | Redo => lit "/api/redo"
  | Pause => lit "/api/pause"
  | Resume => lit "/api/resume"
  | Goto n => lit "/api/goto/" ++ to_string (Z.of_nat n)
  | Act _ => []
  end.
Definition request_of (x : daction A) : request := Req Post (path_of x).
Definition is_post (x : expect) : bool := match x with XPost => true | _ => false end.
(** The posts among requests. *)
Definition posts (l : list (request * expect)) : list request := map fst (filter (fun w => is_post (snd w)) l).

(** What somebody wants by a message, of the debugger. *)
Definition steps_to (p : gmodel M A) (i : Z) : list (daction A) :=
  if ((0 <=? i) && (i <=? st_summary (pg_status p)))%Z then [Goto (Z.to_nat i)] else [].
Definition wants (pm : gmodel M A * msg M A) : list (daction A) :=
  match snd pm with
  | MUndo => [Undo]
  | MRedo => [Redo]
  | MPause => [Pause]
  | MResume => [Resume]
  | TogglePause => [if st_paused (pg_status (fst pm)) then Resume else Pause]
  | GotoStep i => [Goto (Z.to_nat i)]
  | KeyGoUp => steps_to (fst pm) (detail_index (pg_detail (fst pm)) - 1)
  | KeyGoDown => steps_to (fst pm) (detail_index (pg_detail (fst pm)) + 1)
  | _ => []
  end.

(** ** Keys *)
(** After these messages the key is held. *)
Definition held (ks : list keymsg) (c : nat) : Prop :=
  exists l1 l2, ks = l1 ++ KDown c :: l2 /\ ~ In (KUp c) l2.
(** Ctrl-Z and Ctrl-Y come before shifted arrows, those before arrows and those before
    the space bar; up comes before down, and Z before Y. *)
Inductive chord (h : nat -> Prop) : msg M A -> Prop :=
| C_undo : h 17 -> h 90 -> chord h MUndo
| C_redo : h 17 -> ~ h 90 -> h 89 -> chord h MRedo
| C_go_up : ~ (h 17 /\ (h 90 \/ h 89)) -> h 16 -> h 38 -> chord h KeyGoUp
| C_go_down : ~ (h 17 /\ (h 90 \/ h 89)) -> h 16 -> ~ h 38 -> h 40 -> chord h KeyGoDown
| C_up : ~ (h 17 /\ (h 90 \/ h 89)) -> ~ h 16 -> h 38 -> chord h KeyUp
| C_down : ~ (h 17 /\ (h 90 \/ h 89)) -> ~ h 16 -> ~ h 38 -> h 40 -> chord h KeyDown
| C_space : ~ (h 17 /\ (h 90 \/ h 89)) -> ~ h 38 -> ~ h 40 -> h 32 -> chord h TogglePause.
(** The keyboard after these messages. *)
Definition keyboard (ks : list keymsg) : kmodel M A :=
  fold_left (fun s k => fst (keys_update k s)) ks (KModel [] None).
(** What the page sends to itself by a further one. *)
Definition fires (ks : list keymsg) (k : keymsg) : list (cmd M A) := snd (keys_update k (keyboard ks)).
Definition presses (es : list (happening A)) : list keymsg :=
  flat_map (fun e => match e with Presses k => [k] | _ => [] end) es.

(** ** View *)
(** An element and those in it. *)
Fixpoint elements (h : html M A) : list (html M A) :=
  match h with
  | Text _ => []
  | Node _ _ ch => h :: flat_map elements ch
  end.
Definition has_class (c : string) (h : html M A) : bool :=
  match h with
  | Text _ => false
  | Node cls _ _ => existsb (fun x => if list_eq_dec ascii_dec (lit c) x then true else false) cls
  end.
Fixpoint texts (h : html M A) : list str :=
  match h with
  | Text s => [s]
  | Node _ _ ch => flat_map texts ch
  end.
Definition of_class (c : string) (h : html M A) : list (html M A) := filter (has_class c) (elements h).

(** ** Runs *)
Section Runs.
Context {W : Type}.
Variable encode_action : A -> str.
Variable encode_model : M -> str.
Variable reducer : M -> A -> option (M * option (prog M A W)).
Variables pause_eff resume_eff : prog (dmodel M A) (daction A) W.
Variable bits : N.
Definition after (s : sys M A) (es : list (happening A)) : sys M A :=
  happen_all encode_action encode_model reducer pause_eff resume_eff bits s es.
(** At some time the server had this model. *)
Definition showed (s : sys M A) (es : list (happening A)) (d : dmodel M A) : Prop :=
  exists k, d = model_ (srv (after s (firstn k es))).
(** The posts that were lost. *)
Fixpoint lost (s : sys M A) (es : list (happening A)) : list request :=
  match es with
  | [] => []
  | e :: es =>
      match e with
      | Loses n => match nth_error (wire s) n with Some w => posts [w] | None => [] end
      | _ => []
      end ++ lost (happens encode_action encode_model reducer pause_eff resume_eff bits s e) es
  end.
(** The actions that the program dispatched. *)
Definition dispatches (es : list (happening A)) : list A :=
  flat_map (fun e => match e with Dispatches a => [a] | _ => [] end) es.
(** Nothing is under way, and the server knows the model of the program. *)
Definition idle (s : sys M A) : Prop :=
  self s = [] /\ wire s = [] /\ back s = [] /\ todo s = [] /\ truth s = model_ (srv s).
End Runs.
End Spec.
