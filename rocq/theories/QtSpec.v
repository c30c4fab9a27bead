(** What is said of the Qt properties: which node each object shows, what the nodes hold,
    and what each object has to say.  There are no readers, callbacks or observers here. *)
From Coq Require Import List Arith Bool.
From Verif Require Import QtModel.
Import ListNotations.

Section Spec.
Context {V : Type}.
Variable veq : V -> V -> bool.
Notation qop := (qop V).

Record story := S_ {
  shows : list (option (option nat));           (* [None]: destroyed; [Some None]: no node *)
  holds : nat -> V;
  said : nat -> list V }.
Definition shown (k : nat) (s : story) : option (option nat) := nth k (shows s) None.
Definition change (n : nat) (v : V) (s : story) : story :=
  S_ (shows s) (fun m => if m =? n then v else holds s m)
     (fun k => said s k ++ match shown k s with Some (Some m) => if m =? n then [v] else [] | _ => [] end).
Definition now (k : nat) (o : option (option nat)) (l : list (option (option nat))) :=
  firstn k l ++ o :: skipn (S k) l.
Definition tell (s : story) (x : qop) : story :=
  match x with
  | QNew n => S_ (shows s ++ [Some n]) (holds s) (said s)
  | QAssign k n => S_ (now k (Some n) (shows s)) (holds s) (said s)
  | QSet k v =>
      match shown k s with
      | Some (Some n) => if veq v (holds s n) then s else change n v s
      | _ => s
      end
  | QChange n v => change n v s
  | QDelete k => S_ (now k None (shows s)) (holds s) (said s)
  end.
Definition told (val : nat -> V) (l : list qop) : story :=
  fold_left tell l (S_ [] val (fun _ => [])).

(** A step that makes sense: on an object that exists; to write, it has to have a node. *)
Definition sensible (x : qop) (s : story) : Prop :=
  match x with
  | QNew _ | QChange _ _ => True
  | QAssign k _ | QDelete k => shown k s <> None
  | QSet k _ => exists n, shown k s = Some (Some n)
  end.
Definition all_sensible (val : nat -> V) (l : list qop) : Prop :=
  forall a x b, l = a ++ x :: b -> sensible x (told val a).

(** What READ has to give for what is shown *)
Definition seen (o : option (option nat)) (s : story) : reading V :=
  match o with None => Gone | Some None => Null | Some (Some n) => Value (holds s n) end.

(** No step of [l] assigns the member of object [k] or destroys the object. *)
Definition kept_as (k : nat) (l : list qop) : Prop :=
  Forall (fun x => match x with QAssign j _ | QDelete j => j <> k | _ => True end) l.
End Spec.
