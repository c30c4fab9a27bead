(** The debug server: lager/debug/http_server.hpp.

    Strings are lists of characters.  Regular expressions are given by their syntax
    trees.  Reading requests from and writing responses to the socket is done by
    boost::beast; here it is part of the input.  The server has one thread, so handlers
    run one after the other (http_server.hpp:224, 231).  Bodies in JSON are given by the values that they
    show. *)
From Coq Require Import List Bool Arith NArith Ascii String.
From Verif Require Import StoreModel DebuggerModel.
Import ListNotations.
Local Open Scope list_scope.

Definition str := list ascii.
Definition lit (s : string) : str := list_ascii_of_string s.

(** ** std::regex and std::regex_match *)
Inductive re : Type :=
| Nothing
| Eps
| Chr (c : ascii)
| Class (p : ascii -> bool)
| Cat (a b : re)
| Alt (a b : re)
| Star (a : re).
Fixpoint nullable (r : re) : bool :=
  match r with
  | Nothing => false
  | Eps => true
  | Chr _ => false
  | Class _ => false
  | Cat a b => nullable a && nullable b
  | Alt a b => nullable a || nullable b
  | Star _ => true
  end.
Fixpoint deriv (c : ascii) (r : re) : re :=
  match r with
  | Nothing => Nothing
  | Eps => Nothing
  | Chr d => if Ascii.eqb c d then Eps else Nothing
  | Class p => if p c then Eps else Nothing
  | Cat a b => if nullable a then Alt (Cat (deriv c a) b) (deriv c b) else Cat (deriv c a) b
  | Alt a b => Alt (deriv c a) (deriv c b)
  | Star a => Cat (deriv c a) (Star a)
  end.
Fixpoint regex_match (r : re) (s : str) : bool :=
  match s with
  | [] => nullable r
  | c :: s => regex_match (deriv c r) s
  end.
Definition opt (r : re) : re := Alt r Eps.
Definition plus (r : re) : re := Cat r (Star r).
Fixpoint word_re (s : str) : re :=
  match s with [] => Eps | c :: s => Cat (Chr c) (word_re s) end.
Definition is_digit (c : ascii) : bool := (48 <=? nat_of_ascii c) && (nat_of_ascii c <=? 57).
(** [.] of ECMAScript: no line terminators. *)
Definition dot (c : ascii) : bool := negb (nat_of_ascii c =? 10) && negb (nat_of_ascii c =? 13).

(** ** Requests, responses, router *)
Inductive verb := Get | Post | Other (n : nat).
Definition verb_eqb (a b : verb) : bool :=
  match a, b with
  | Get, Get => true
  | Post, Post => true
  | Other n, Other m => n =? m
  | _, _ => false
  end.
Record request := Req { method : verb; target : str }.

Section Router.
(** [B]: bodies of responses; [W]: what handlers change. *)
Context {B W : Type}.
Variable plain : str -> B.
Record response := Res { status : nat; content_type : str; body : B }.
(** What a handler does: it returns, or throws an exception derived from
    [std::exception], with a text, or another one. *)
Inductive result := Returns (r : response) | Throws (what : str) | ThrowsOther.
(** http_server.hpp:54-59 *)
Record resource := Rsc { rmethod : verb; rtarget : re; rhandler : request -> W -> W * result }.

(** http_server.hpp:64-70; the router is the list of resources. *)
Definition route (rs : list resource) (r : resource) : list resource := rs ++ [r].

(** http_server.hpp:72-93.  [None]: an exception leaves the function. *)
Definition handle_request (rs : list resource) (q : request) (w : W) : W * option response :=
  match find (fun r => verb_eqb (rmethod r) (method q) && regex_match (rtarget r) (target q)) rs with
  | Some r => match rhandler r q w with
              | (w, Returns x) => (w, Some x)
              | (w, Throws what) => (w, Some (Res 500 (lit "text/html") (plain what)))
              | (w, ThrowsOther) => (w, None)
              end
  | None => (w, Some (Res 404 (lit "text/html") (plain (lit "Not found"))))
  end.

(** A connection, http_server.hpp:108-165: what is read, and for each response whether
    writing it works and the connection is kept ([need_eof] or an error closes it).
    [Closed]: by an error or at the end of what is read; [Escaped]: by an exception, which
    ends the thread of the server (221). *)
Inductive session_end := Closed | Escaped.
Fixpoint session (rs : list resource) (w : W) (input : list (option (request * bool))) :
  W * list response * session_end :=
  match input with
  | [] => (w, [], Closed)
  | None :: _ => (w, [], Closed)                                (** on_read_, 140-141 *)
  | Some (q, keep) :: input =>
      match handle_request rs q w with
      | (w, None) => (w, [], Escaped)
      | (w, Some x) => if keep                                  (** on_write_, 153-158 *)
                       then match session rs w input with (w, xs, e) => (w, x :: xs, e) end
                       else (w, [x], Closed)
      end
  end.
End Router.
Arguments response : clear implicits.
Arguments result : clear implicits.
Arguments resource : clear implicits.

(** ** The routes of the debug server, http_server.hpp:257-357 *)
Section Debug.
Context {M A : Type}.
(** [bits]: of an [unsigned long]. *)
Variable bits : N.
Inductive dbody : Type :=
| Plain (s : str)
| Info (program : str) (summary : nat) (cursor : nat) (paused : bool)
| Step (a : option A) (m : M).

(** The server: its program, resources path and model (http_server.hpp:362-367), the files
    (a file's content by its path), the actions that it dispatched. *)
Record server := Server {
  program : str;
  resources_path : str;
  model_ : dmodel M A;
  files : str -> option str;
  sent : list (daction A)
}.
Definition set_sent (l : list (daction A)) (s : server) : server :=
  Server (program s) (resources_path s) (model_ s) (files s) l.
Definition set_model (m : dmodel M A) (s : server) : server :=
  Server (program s) (resources_path s) m (files s) (sent s).

(** [target.substr(target.rfind('/') + 1)]; without a slash this is the whole. *)
Definition slash : ascii := "/"%char.
Fixpoint after_last_slash (s : str) : str :=
  match s with
  | [] => []
  | c :: s => if existsb (Ascii.eqb slash) s then after_last_slash s
              else if Ascii.eqb slash c then s else c :: s
  end.
(** [std::stoul] of digits: [unsigned long] has [bits] bits; else [out_of_range]. *)
Definition digit (c : ascii) : N := N_of_ascii c - 48.
Definition numeral (s : str) : N := fold_left (fun n c => 10 * n + digit c)%N s 0%N.
Definition stoul (s : str) : option nat :=
  if (numeral s <? 2 ^ bits)%N then Some (N.to_nat (numeral s)) else None.

Definition reply (s : server) (code : nat) (ct : str) (b : dbody) : server * result dbody :=
  (s, Returns (Res code ct b)).
Definition okay (s : server) : server * result dbody := reply s 200 (lit "text/html") (Plain []).

(** 265-279; [summary] is the size of the history, debugger.hpp:106 *)
Definition get_api (q : request) (s : server) : server * result dbody :=
  reply s 200 (lit "application/json")
    (Info (program s) (List.length (history (model_ s))) (cursor (model_ s)) (paused (model_ s))).
(** 281-298; [lookup] throws "bad cursor", debugger.hpp:98-99 *)
Definition get_step (q : request) (s : server) : server * result dbody :=
  match stoul (after_last_slash (target q)) with
  | None => (s, Throws (lit "stoul"))
  | Some c => match lookup (model_ s) c with
              | None => (s, Throws (lit "bad cursor"))
              | Some (a, m) => reply s 200 (lit "application/json") (Step a m)
              end
  end.
(** [context_.dispatch(...)] *)
Definition dispatch (a : daction A) (s : server) : server := set_sent (sent s ++ [a]) s.
(** 300-309 *)
Definition post_goto (q : request) (s : server) : server * result dbody :=
  match stoul (after_last_slash (target q)) with
  | None => (s, Throws (lit "stoul"))
  | Some c => okay (dispatch (Goto c) s)
  end.
(** 311-337 *)
Definition post_action (a : daction A) (q : request) (s : server) : server * result dbody :=
  okay (dispatch a s).

(** [mime_type_], 383-435; [iequals] compares without regard to case. *)
Definition lower (c : ascii) : ascii :=
  if (65 <=? nat_of_ascii c) && (nat_of_ascii c <=? 90) then ascii_of_nat (nat_of_ascii c + 32) else c.
Definition iequals (a b : str) : bool :=
  if list_eq_dec ascii_dec (map lower a) (map lower b) then true else false.
Fixpoint from_last_dot (s : str) : str :=
  match s with
  | [] => []
  | c :: s => if existsb (Ascii.eqb "."%char) s then from_last_dot s
              else if Ascii.eqb "."%char c then c :: s else []
  end.
Definition mime_types : list (str * str) := map (fun p => (lit (fst p), lit (snd p)))
  [(".htm", "text/html"); (".html", "text/html"); (".php", "text/html"); (".css", "text/css");
   (".txt", "text/plain"); (".js", "application/javascript"); (".json", "application/json");
   (".xml", "application/xml"); (".swf", "application/x-shockwave-flash"); (".flv", "video/x-flv");
   (".png", "image/png"); (".jpe", "image/jpeg"); (".jpeg", "image/jpeg"); (".jpg", "image/jpeg");
   (".gif", "image/gif"); (".bmp", "image/bmp"); (".ico", "image/vnd.microsoft.icon");
   (".tiff", "image/tiff"); (".tif", "image/tiff"); (".svg", "image/svg+xml"); (".svgz", "image/svg+xml")]%string.
Definition mime_type (path : str) : str :=
  match find (fun p => iequals (from_last_dot path) (fst p)) mime_types with
  | Some p => snd p
  | None => lit "application/text"
  end.

(** 339-354; a directory opens too, which is left out: [files] says what opens *)
Definition full_path (s : server) (t : str) : str :=
  resources_path s ++
  (if list_eq_dec ascii_dec t (lit "/") then lit "/gui/index.html" else lit "/gui/" ++ t).
Definition get_file (q : request) (s : server) : server * result dbody :=
  match files s (full_path s (target q)) with
  | None => reply s 404 (lit "text/html") (Plain (lit "Not found"))
  | Some content => reply s 200 (mime_type (full_path s (target q))) (Plain content)
  end.

(** The router that [init] builds, 263-354. *)
Definition routes : list (resource dbody server) :=
  fold_left route
  [Rsc Get (Cat (word_re (lit "/api")) (opt (Chr slash))) get_api;
   Rsc Get (Cat (word_re (lit "/api/step/")) (plus (Class is_digit))) get_step;
   Rsc Post (Cat (word_re (lit "/api/goto/")) (plus (Class is_digit))) post_goto;
   Rsc Post (word_re (lit "/api/undo")) (post_action Undo);
   Rsc Post (word_re (lit "/api/redo")) (post_action Redo);
   Rsc Post (word_re (lit "/api/pause")) (post_action Pause);
   Rsc Post (word_re (lit "/api/resume")) (post_action Resume);
   Rsc Get (Cat (opt (Chr slash)) (Star (Class dot))) get_file] [].
Definition serve (q : request) (s : server) : server * option (response dbody) :=
  handle_request Plain routes q s.

(** The server from its construction on: [model_] is default constructed (367) and set
    by the callback that the constructor registers (254), which is called when the reader
    given to [init] changes; [init] (257-261) does not set it.  So the value [current]
    that the reader has in [init] is not used. *)
Definition start (prog res : str) (fs : str -> option str) (default current : dmodel M A) : server :=
  Server prog res default fs [].
Inductive event := Changed (m : dmodel M A) | Asked (q : request).
Definition happen (x : server * list (option (response dbody))) (e : event) :
  server * list (option (response dbody)) :=
  match e with
  | Changed m => (set_model m (fst x), snd x)
  | Asked q => let r := serve q (fst x) in (fst r, snd x ++ [snd r])
  end.
Definition runs (s : server) (es : list event) : server * list (option (response dbody)) :=
  fold_left happen es (s, []).
End Debug.
Arguments server : clear implicits. Arguments dbody : clear implicits. Arguments event : clear implicits.
