(** Vocabulary for the properties of the example program "todo". *)
From Coq Require Import List Arith Bool.
From Verif Require Import TodoModel.
Import ListNotations.

(** Where an item is after the actions [l], and whether it is done, if it is at place [p]
    before them; [None]: it was removed. *)
Fixpoint follow (l : list model_action) (p : nat) (d : bool) : option (nat * bool) :=
  match l with
  | [] => Some (p, d)
  | Add [] :: r => follow r p d
  | Add _ :: r => follow r (S p) d
  | At i Toggle :: r => follow r p (if i =? p then negb d else d)
  | At i Remove :: r => if i =? p then None else follow r (if i <? p then pred p else p) d
  end.

(** The actions that have been applied so far, in order. *)
Fixpoint applied (w : world) (ls : list label) : list app_action :=
  match ls with
  | [] => []
  | l :: r =>
      (match l, queue w with LRun _, Act a :: _ => [a] | _, _ => [] end) ++
      match act l w with Some w1 => applied w1 r | None => [] end
  end.
Definition user (a : app_action) : bool := match a with LoadResult _ _ => false | _ => true end.
(** The actions that the user interface dispatched, in order; it has no load results. *)
Definition asked (ls : list label) : list app_action :=
  flat_map (fun l => match l with LUser a => [a] | _ => [] end) ls.
Definition waiting (w : world) : list app_action :=
  flat_map (fun t => match t with Act a => [a] | _ => [] end) (queue w).
(** What a document is after edits; the edits among the actions. *)
Definition edits (m : model) (l : list model_action) : model := fold_left update l m.
Definition edits_of (l : list app_action) : list model_action :=
  flat_map (fun a => match a with Edit e => [e] | _ => [] end) l.
Definition no_load (l : list app_action) : Prop := forall f m, ~ In (LoadResult f m) l.
(** The same name with the extension "todo" *)
Definition dot_todo (f : path) : path := Path (stem f) (Some [116; 111; 100; 111]).
(** The file that the document is said to be from. *)
Definition names (a : app_action) : option path :=
  match a with Save f => Some (dot_todo f) | LoadResult f _ => Some f | _ => None end.
