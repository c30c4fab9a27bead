(** C49, C51, C52: the debug server. *)
From Coq Require Import List Bool NArith Ascii String.
From Verif Require Import StoreModel DebuggerModel ServerModel ServerSpec ServerProofs.
Import ListNotations.
Local Open Scope list_scope.

(** ** C49 *)

(** The first resource for the request answers it; its exception gives a response 500. *)
Theorem C49_first : forall B W (plain : str -> B) (rs : list (resource B W)) q r w, answers rs q r ->
  match rhandler r q w with
  | (w', Returns x) => handle_request plain rs q w = (w', Some x)
  | (w', Throws what) => handle_request plain rs q w = (w', Some (Res 500 (lit "text/html") (plain what)))
  | (w', ThrowsOther) => handle_request plain rs q w = (w', None)
  end.
Proof. exact (fun B W => @first_answers B W). Qed.
Print Assumptions C49_first.
Theorem C49_nobody : forall B W (plain : str -> B) (rs : list (resource B W)) q w,
  (forall r, In r rs -> ~ meant_for q r) ->
  handle_request plain rs q w = (w, Some (Res 404 (lit "text/html") (plain (lit "Not found")))).
Proof. exact (fun B W => @nobody_answers B W). Qed.
Print Assumptions C49_nobody.
(** There is exactly one such resource, or the request is for none. *)
Theorem C49_exactly_one : forall B W (rs : list (resource B W)) q,
  (exists r, answers rs q r /\ forall r', answers rs q r' -> r' = r) \/
  ((forall r, In r rs -> ~ meant_for q r) /\ forall r, ~ answers rs q r).
Proof. exact (fun B W => @one_or_none B W). Qed.
Print Assumptions C49_exactly_one.
Theorem C49_order : forall B W (rs : list (resource B W)), fold_left route rs [] = rs.
Proof. exact (fun B W rs => @route_all B W rs []). Qed.
Print Assumptions C49_order.
Theorem C49_patterns : forall s r, regex_match r s = true <-> lang r s.
Proof. exact regex_match_iff. Qed.
Print Assumptions C49_patterns.
(** On a connection the responses are in the order of the requests, one for each. *)
Theorem C49_connection : forall B W (plain : str -> B) (rs : list (resource B W)) i w w' xs e,
  session plain rs w i = (w', xs, e) <-> conversation (handle_request plain rs) w i w' xs e.
Proof. exact (fun B W => @session_conversation B W). Qed.
Print Assumptions C49_connection.
(** "Never none": not if the handler throws something that is not a [std::exception]. *)
Theorem C49_always_refuted : exists (rs : list (resource str nat)) q w,
  snd (handle_request (fun s => s) rs q w) = None.
Proof. exists [Rsc Get Eps (fun _ w => (w, ThrowsOther))], (Req Get []), 0. reflexivity. Qed.
Print Assumptions C49_always_refuted.

(** Two resources for the same requests, and one before them for others. *)
Definition count (n : nat) (q : request) (w : nat) : nat * result str :=
  (n + w, if Ascii.eqb (hd slash (rev (target q))) "!"%char then Throws (lit "what") else Returns (Res 200 (lit "t") (target q))).
Definition table : list (resource str nat) :=
  [Rsc Post (Star (Class dot)) (count 1); Rsc Get (Cat (word_re (lit "/a")) (Star (Class dot))) (count 10);
   Rsc Get (Star (Class dot)) (count 100)].
Example second_answers : answers table (Req Get (lit "/ab!")) (Rsc Get (Cat (word_re (lit "/a")) (Star (Class dot))) (count 10)).
Proof.
  apply find_first. vm_compute. reflexivity.
Qed.
Example table_cases :
  handle_request (fun s => s) table (Req Get (lit "/ab!")) 5 = (15, Some (Res 500 (lit "text/html") (lit "what"))) /\
  handle_request (fun s => s) table (Req Get (lit "/ba")) 5 = (105, Some (Res 200 (lit "t") (lit "/ba"))) /\
  handle_request (fun s => s) table (Req (Other 3) (lit "/ba")) 5 = (5, Some (Res 404 (lit "text/html") (lit "Not found"))).
Proof. vm_compute. auto. Qed.
Example table_session :
  session (fun s => s) table 5 [Some (Req Get (lit "/ab!"), true); Some (Req Get (lit "/c"), false); Some (Req Get (lit "/d"), true)]
  = (115, [Res 500 (lit "text/html") (lit "what"); Res 200 (lit "t") (lit "/c")], Closed).
Proof. vm_compute. reflexivity. Qed.

(** ** C51 *)

(** GET /api shows the program and where the debugger is. *)
Theorem C51_api : forall M A bits q (s : server M A), method q = Get ->
  target q = lit "/api" \/ target q = lit "/api/" ->
  serve bits q s = (s, Some (Res 200 (lit "application/json")
    (Info (program s) (List.length (history (model_ s))) (cursor (model_ s)) (paused (model_ s))))).
Proof. exact (fun M A => @serve_api M A). Qed.
Print Assumptions C51_api.
(** GET /api/step/n shows the action and the model of step n. *)
Theorem C51_step : forall M A bits t n (s : server M A), denotes t n -> t <> [] ->
  serve bits (Req Get (lit "/api/step/" ++ t)) s =
  if (n <? 2 ^ bits)%N
  then match lookup (model_ s) (N.to_nat n) with
       | Some (a, m) => (s, Some (Res 200 (lit "application/json") (Step a m)))
       | None => (s, Some (Res 500 (lit "text/html") (Plain (lit "bad cursor"))))
       end
  else (s, Some (Res 500 (lit "text/html") (Plain (lit "stoul")))).
Proof. exact (fun M A => @serve_step M A). Qed.
Print Assumptions C51_step.
(** POST /api/goto/n dispatches "go to n", once. *)
Theorem C51_goto : forall M A bits t n (s : server M A), denotes t n -> t <> [] ->
  serve bits (Req Post (lit "/api/goto/" ++ t)) s =
  if (n <? 2 ^ bits)%N
  then (set_sent (sent s ++ [Goto (N.to_nat n)]) s, Some (Res 200 (lit "text/html") (Plain [])))
  else (s, Some (Res 500 (lit "text/html") (Plain (lit "stoul")))).
Proof. exact (fun M A => @serve_goto M A). Qed.
Print Assumptions C51_goto.
Theorem C51_action : forall M A bits p a (s : server M A),
  In (p, a) [("/api/undo", Undo); ("/api/redo", Redo); ("/api/pause", Pause); ("/api/resume", Resume)]%string ->
  serve bits (Req Post (lit p)) s = (set_sent (sent s ++ [a]) s, Some (Res 200 (lit "text/html") (Plain []))).
Proof. exact (fun M A => @serve_action M A). Qed.
Print Assumptions C51_action.
(** Nothing else is understood; reading changes nothing; there always is a response. *)
Theorem C51_unknown : forall M A bits q (s : server M A), method q <> Get ->
  (method q = Post -> ~ (In (target q) (map lit ["/api/undo"; "/api/redo"; "/api/pause"; "/api/resume"]%string) \/
                         exists d, target q = lit "/api/goto/" ++ d /\ digits d)) ->
  serve bits q s = (s, Some (Res 404 (lit "text/html") (Plain (lit "Not found")))).
Proof. exact (fun M A => @serve_unknown M A). Qed.
Print Assumptions C51_unknown.
Theorem C51_get : forall M A bits q (s : server M A), method q = Get -> fst (serve bits q s) = s.
Proof. exact (fun M A => @serve_get M A). Qed.
Print Assumptions C51_get.
Theorem C51_responds : forall M A bits q (s : server M A), exists x, snd (serve bits q s) = Some x.
Proof. exact (fun M A => @serve_responds M A). Qed.
Print Assumptions C51_responds.
(** The model is that of the last change, if there was one. *)
Theorem C51_model : forall M A bits (es : list (event M A)) s,
  model_ (fst (runs bits s es)) =
  List.last (flat_map (fun e => match e with Changed m => [m] | Asked _ => [] end) es) (model_ s).
Proof. exact (fun M A => @runs_model M A). Qed.
Print Assumptions C51_model.
Theorem C51_responses : forall M A bits (es : list (event M A)) s,
  List.length (snd (runs bits s es)) =
    List.length (flat_map (fun e => match e with Changed _ => [] | Asked q => [q] end) es) /\
  forall x, In x (snd (runs bits s es)) -> x <> None.
Proof. exact (fun M A => @runs_responses M A). Qed.
Print Assumptions C51_responses.
(** Each response is what the server says at that moment. *)
Theorem C51_in_turn : forall M A bits (es1 es2 : list (event M A)) q s,
  exists x, snd (serve bits q (fst (runs bits s es1))) = Some x /\
    nth_error (snd (runs bits s (es1 ++ Asked q :: es2)))
      (List.length (flat_map (fun e => match e with Changed _ => [] | Asked q => [q] end) es1)) = Some (Some x).
Proof. exact runs_in_turn. Qed.
Print Assumptions C51_in_turn.
(** At first: the given program and directory, nothing dispatched. *)
Theorem C51_start : forall M A prog res fs (default current : dmodel M A),
  let s := start prog res fs default current in
  program s = prog /\ resources_path s = res /\ files s = fs /\ sent s = [] /\ model_ s = default.
Proof. cbn. auto. Qed.
Print Assumptions C51_start.
(** The number is what is behind the last slash. *)
Theorem C51_last : forall s, ~ In slash (after_last_slash s) /\
  (after_last_slash s = s \/ exists p, s = p ++ slash :: after_last_slash s).
Proof. exact last_name. Qed.
Print Assumptions C51_last.
(** Before the first change it is not the one that the store has. *)
Definition at_start : dmodel nat nat := D 0 false 7 [] [].
Definition no_files : str -> option str := fun _ => None.
Theorem C51_current_refuted : exists (default current : dmodel nat nat),
  init default <> init current /\
  let s := start (lit "prog") [] no_files default current in
  snd (serve 64 (Req Get (lit "/api/step/0")) s) =
    Some (Res 200 (lit "application/json") (Step None (init default))).
Proof. exists (D 0 false 0 [] []), at_start. split; [discriminate|]. vm_compute. reflexivity. Qed.
Print Assumptions C51_current_refuted.

Definition shown : server nat nat :=
  Server (lit "prog") (lit "/srv") (D 1 true 7 [(4, 11); (5, 16)] []) no_files [].
Example twelve : denotes (lit "12") 12 /\ digits (lit "12").
Proof.
  assert (denotes (lit "12") 12) as H.
  { apply (N_digit (lit "1") 1 "2"%char 2); [|reflexivity|reflexivity].
    apply (N_digit [] 0 "1"%char 1); [constructor|reflexivity|reflexivity]. }
  split; [exact H|]. split; [discriminate|]. exists 12%N. exact H.
Qed.
Example served :
  serve 64 (Req Get (lit "/api/step/2")) shown = (shown, Some (Res 200 (lit "application/json") (Step (Some 5) 16))) /\
  snd (serve 64 (Req Get (lit "/api/step/12")) shown) = Some (Res 500 (lit "text/html") (Plain (lit "bad cursor"))) /\
  sent (fst (serve 64 (Req Post (lit "/api/goto/12")) shown)) = [Goto 12] /\
  serve 64 (Req Post (lit "/api/goto/18446744073709551616")) shown =
    (shown, Some (Res 500 (lit "text/html") (Plain (lit "stoul")))) /\
  snd (serve 64 (Req Post (lit "/api/goto/")) shown) = Some (Res 404 (lit "text/html") (Plain (lit "Not found"))).
Proof. vm_compute. repeat split. Qed.

(** ** C52 *)

(** Any other GET request is for the file of that name, with the type of its name; names
    with line terminators are not understood. *)
Theorem C52_file : forall M A bits t (s : server M A),
  ~ (t = lit "/api" \/ t = lit "/api/" \/ exists d, t = lit "/api/step/" ++ d /\ digits d) ->
  ~ In (ascii_of_nat 10) t -> ~ In (ascii_of_nat 13) t ->
  serve bits (Req Get t) s =
  (s, Some match files s (full_path s t) with
           | Some content => Res 200 (mime_type (full_path s t)) (Plain content)
           | None => Res 404 (lit "text/html") (Plain (lit "Not found"))
           end).
Proof. exact serve_file_chars. Qed.
Print Assumptions C52_file.
Theorem C52_newline : forall M A bits t (s : server M A), In (ascii_of_nat 10) t \/ In (ascii_of_nat 13) t ->
  serve bits (Req Get t) s = (s, Some (Res 404 (lit "text/html") (Plain (lit "Not found")))).
Proof. exact serve_newline. Qed.
Print Assumptions C52_newline.
Theorem C52_path : forall M A (s : server M A) t,
  full_path s (lit "/") = resources_path s ++ lit "/gui/index.html" /\
  (t <> lit "/" -> full_path s t = resources_path s ++ lit "/gui/" ++ t).
Proof. exact (fun M A => @full_path_is M A). Qed.
Print Assumptions C52_path.
(** It is in the directory of the interface, unless the name has two dots. *)
Theorem C52_below : forall M A (s : server M A) t, ~ In (lit "..") (segments t) ->
  below (resources_path s ++ lit "/gui") (full_path s t).
Proof. exact path_below. Qed.
Print Assumptions C52_below.
Theorem C52_confined_refuted : exists (s : server nat nat) t content,
  snd (serve 64 (Req Get t) s) = Some (Res 200 (lit "application/text") (Plain content)) /\
  ~ below (resources_path s ++ lit "/gui") (full_path s t).
Proof.
  exists (Server [] (lit "/srv") at_start (fun p => if list_eq_dec ascii_dec p (lit "/srv/gui//../../etc/passwd") then Some (lit "root") else None) []),
    (lit "/../../etc/passwd"), (lit "root").
  split; [vm_compute; reflexivity|]. intros (rest & H). vm_compute in H. discriminate H.
Qed.
Print Assumptions C52_confined_refuted.
(** The type depends on the ending, without regard to case. *)
Theorem C52_type : forall path e ty, In (e, ty) known_types -> ends_with path e -> mime_type path = lit ty.
Proof. exact mime_ending. Qed.
Print Assumptions C52_type.
Theorem C52_no_type : forall path, (forall e ty, In (e, ty) known_types -> ~ ends_with path e) ->
  mime_type path = lit "application/text".
Proof. exact mime_unknown. Qed.
Print Assumptions C52_no_type.
(** A name that ends with letters of both cases. *)
Example ending : In (".jpg", "image/jpeg")%string known_types /\ ends_with (lit "/a.b/c.JpG") ".jpg".
Proof.
  split; [cbn; tauto|]. exists (lit "/a.b/c"), (lit ".JpG"). split; [reflexivity|].
  constructor; [left; reflexivity|]. constructor; [right; exists 9; split; [repeat constructor|left; split; reflexivity]|].
  constructor; [left; reflexivity|]. constructor; [right; exists 6; split; [repeat constructor|left; split; reflexivity]|].
  constructor.
Qed.
Example no_ending : mime_type (lit "/a.jpg/c") = lit "application/text".
Proof. vm_compute. reflexivity. Qed.

Definition site : server nat nat := 
  Server [] (lit "/srv") at_start (fun p => if list_eq_dec ascii_dec p (lit "/srv/gui//a/b.SVG") then Some (lit "<svg/>") else None) [].
Example served_file :
  serve 64 (Req Get (lit "/a/b.SVG")) site = (site, Some (Res 200 (lit "image/svg+xml") (Plain (lit "<svg/>")))) /\
  ~ In (lit "..") (segments (lit "/a/b.SVG")) /\
  leads_to (full_path site (lit "/a/b.SVG")) = [lit "srv"; lit "gui"; lit "a"; lit "b.SVG"] /\
  leads_to (lit "/srv/gui//../../etc/passwd") = [lit "etc"; lit "passwd"].
Proof. repeat split; try (vm_compute; reflexivity). cbn. intuition discriminate. Qed.
