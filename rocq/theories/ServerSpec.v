(** What is said of the debug server. *)
From Coq Require Import List Bool NArith Ascii String.
From Verif Require Import ServerModel.
Import ListNotations.
Local Open Scope list_scope.

(** The strings that a regular expression describes. *)
Inductive lang : re -> str -> Prop :=
| L_eps : lang Eps []
| L_chr c : lang (Chr c) [c]
| L_class (p : ascii -> bool) c : p c = true -> lang (Class p) [c]
| L_cat a b s t : lang a s -> lang b t -> lang (Cat a b) (s ++ t)
| L_left a b s : lang a s -> lang (Alt a b) s
| L_right a b s : lang b s -> lang (Alt a b) s
| L_none a : lang (Star a) []
| L_more a s t : lang a s -> lang (Star a) t -> lang (Star a) (s ++ t).

Section Router.
Context {B W : Type}.
(** The resource is for this request. *)
Definition meant_for (q : request) (r : resource B W) : Prop :=
  rmethod r = method q /\ lang (rtarget r) (target q).
(** It is the first one. *)
Definition answers (rs : list (resource B W)) (q : request) (r : resource B W) : Prop :=
  exists pre post, rs = pre ++ r :: post /\ meant_for q r /\ forall p, In p pre -> ~ meant_for q p.

(** A conversation: each request is answered before the next one is read.  [done]: how
    many were answered. *)
Inductive conversation (handle : request -> W -> W * option (response B)) :
  W -> list (option (request * bool)) -> W -> list (response B) -> session_end -> Prop :=
| V_end w : conversation handle w [] w [] Closed
| V_error w i : conversation handle w (None :: i) w [] Closed
| V_escape w q k i w' : handle q w = (w', None) -> conversation handle w (Some (q, k) :: i) w' [] Escaped
| V_last w q i w' x : handle q w = (w', Some x) -> conversation handle w (Some (q, false) :: i) w' [x] Closed
| V_next w q i w' x w'' xs e : handle q w = (w', Some x) -> conversation handle w' i w'' xs e ->
    conversation handle w (Some (q, true) :: i) w'' (x :: xs) e.
End Router.

(** Decimal numerals. *)
Inductive denotes : str -> N -> Prop :=
| N_none : denotes [] 0
| N_digit s n c d : denotes s n -> (d < 10)%N -> c = ascii_of_N (48 + d) -> denotes (s ++ [c]) (10 * n + d).
Definition digits (s : str) : Prop := s <> [] /\ exists n, denotes s n.

(** Paths: the names between the slashes, and where they lead if there are no links. *)
Fixpoint segments (s : str) : list str :=
  match s with
  | [] => [[]]
  | c :: s => if Ascii.eqb c "/"%char then [] :: segments s
              else match segments s with
                   | n :: ns => (c :: n) :: ns
                   | [] => [[c]]
                   end
  end.
Definition enter (at_ : list str) (n : str) : list str :=
  if list_eq_dec ascii_dec n [] then at_
  else if list_eq_dec ascii_dec n (lit ".") then at_
  else if list_eq_dec ascii_dec n (lit "..") then removelast at_
  else at_ ++ [n].
Definition leads_to (path : str) : list str := fold_left enter (segments path) [].
(** The file is in the directory or in one below it. *)
Definition below (dir path : str) : Prop := exists rest, leads_to path = leads_to dir ++ rest.

(** Characters that are equal but for the case. *)
Definition same_letter (a b : ascii) : Prop :=
  a = b \/ exists k, k < 26 /\ (a = ascii_of_nat (65 + k) /\ b = ascii_of_nat (97 + k) \/
                                a = ascii_of_nat (97 + k) /\ b = ascii_of_nat (65 + k)).
(** The types of files by their endings. *)
Definition known_types : list (string * string) :=
  [(".htm", "text/html"); (".html", "text/html"); (".php", "text/html");
   (".css", "text/css"); (".txt", "text/plain");
   (".js", "application/javascript"); (".json", "application/json"); (".xml", "application/xml");
   (".swf", "application/x-shockwave-flash"); (".flv", "video/x-flv");
   (".png", "image/png"); (".gif", "image/gif"); (".bmp", "image/bmp");
   (".jpe", "image/jpeg"); (".jpeg", "image/jpeg"); (".jpg", "image/jpeg");
   (".ico", "image/vnd.microsoft.icon"); (".tiff", "image/tiff"); (".tif", "image/tiff");
   (".svg", "image/svg+xml"); (".svgz", "image/svg+xml")]%string.
Definition ends_with (path : str) (e : string) : Prop :=
  exists p e', path = p ++ e' /\ Forall2 same_letter e' (lit e).
