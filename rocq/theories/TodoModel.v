(** Model of the example program "todo"
      /repo/example/todo/item.cpp, model.cpp, app.cpp and their headers

    The program is run by a store with an event loop (qml-redux/main.cpp:93-97): tasks are
    executed one after the other, in the order in which they were posted (what the store
    does is the subject of the Store files).  A task applies an action or runs an effect.

    Simplifications: a file holds a document or nothing that can be loaded; what was saved
    is what is loaded (the subject of C45 and C50); saving or loading may fail at any
    time, and a file whose saving failed may hold anything.  A path is its extension and
    the rest.  Texts are lists of numbers.  What is printed to the console is left out. *)
From Coq Require Import List Arith Bool.
Import ListNotations.

Definition text := list nat.

(** * item.hpp, item.cpp *)
Record item := Item { done : bool; what : text }.
Inductive item_action := Toggle | Remove.
(** item.cpp:18-26 *)
Definition item_update (s : item) (a : item_action) : item :=
  match a with
  | Toggle => Item (negb (done s)) (what s)
  | Remove => s
  end.

(** * model.hpp, model.cpp: the items of immer::flex_vector *)
Definition model := list item.
Inductive model_action := Add (t : text) | At (i : nat) (a : item_action).
(** erase, update of immer::flex_vector, for an index that is valid *)
Definition erase (i : nat) (l : model) : model := firstn i l ++ skipn (S i) l.
Definition update_at (i : nat) (f : item -> item) (l : model) : model :=
  firstn i l ++ map f (firstn 1 (skipn i l)) ++ skipn (S i) l.
(** model.cpp:26-49 *)
Definition update (s : model) (a : model_action) : model :=
  match a with
  | Add t => match t with [] => s | _ => Item false t :: s end
  | At i b =>
      if length s <=? i then s
      else match b with
           | Remove => erase i s
           | Toggle => update_at i (fun t => item_update t b) s
           end
  end.

(** * app.hpp, app.cpp *)
Record path := Path { stem : text; ext : option text }.
(** The extension "todo" *)
Definition todo : text := [116; 111; 100; 111].
(** path::replace_extension("todo") *)
Definition with_todo (p : path) : path := Path (stem p) (Some todo).

Record app := App { doc : model; file : path }.
Inductive app_action :=
| Edit (a : model_action)
| Save (f : path)
| Load (f : path)
| LoadResult (f : path) (m : model).
Inductive effect := ESave (f : path) (m : model) | ELoad (f : path).
(** app.cpp:20-61 *)
Definition app_update (s : app) (a : app_action) : app * option effect :=
  match a with
  | Save f => let s' := App (doc s) (with_todo f) in (s', Some (ESave (file s') (doc s')))
  | Load f => (s, Some (ELoad f))
  | LoadResult f m => (App m f, None)
  | Edit e => (App (update (doc s) e) (file s), None)
  end.

(** * The program running *)
Inductive task := Act (a : app_action) | Eff (e : effect).
Record world := World {
  state : app;
  queue : list task;
  disk : path -> option model;       (* [None]: no file that can be loaded *)
  errors : list path }.              (* told to the logger, newest first *)
Definition path_eq_dec : forall p q : path, {p = q} + {p <> q}.
Proof. repeat (decide equality). Defined.
Definition write (d : path -> option model) (f : path) (m : option model) : path -> option model :=
  fun g => if path_eq_dec g f then m else d g.

(** A task that saves or loads may fail; [left]: what is then in the file to be saved. *)
Inductive outcome := Fine | Fails (left : option model).
Inductive label :=
| LUser (a : app_action)             (* the user interface dispatches an action *)
| LRun (o : outcome)                 (* the first task is executed *)
| LFile (f : path) (m : option model). (* another program changes a file *)

(** app.cpp:24-33, 38-49 *)
Definition run_effect (e : effect) (o : outcome) (w : world) : world :=
  match e with
  | ESave f m =>
      match o with
      | Fine => World (state w) (queue w) (write (disk w) f (Some m)) (errors w)
      | Fails l => World (state w) (queue w) (write (disk w) f l) (f :: errors w)
      end
  | ELoad f =>
      match o, disk w f with
      | Fine, Some m => World (state w) (queue w ++ [Act (LoadResult f m)]) (disk w) (errors w)
      | _, _ => World (state w) (queue w) (disk w) (f :: errors w)
      end
  end.
Definition act (l : label) (w : world) : option world :=
  match l with
  | LUser a => Some (World (state w) (queue w ++ [Act a]) (disk w) (errors w))
  | LFile f m => Some (World (state w) (queue w) (write (disk w) f m) (errors w))
  | LRun o =>
      match queue w with
      | [] => None
      | Act a :: q =>
          let (s, e) := app_update (state w) a in
          Some (World s (q ++ match e with Some e => [Eff e] | None => [] end) (disk w) (errors w))
      | Eff e :: q => Some (run_effect e o (World (state w) q (disk w) (errors w)))
      end
  end.
Fixpoint acts (ls : list label) (w : world) : option world :=
  match ls with
  | [] => Some w
  | l :: r => match act l w with Some w1 => acts r w1 | None => None end
  end.
(** todo::app{} *)
Definition init (d : path -> option model) : world := World (App [] (Path [] None)) [] d [].
