(** The window of the example program "snake":
      /repo/example/snake/qml/main.qml              (timer, dialog, keys)
      /repo/example/snake/qml/main.cpp              (store and watcher)
    on SnakeModel (model.cpp, qmodel.cpp).

    The queue is that of Qt: an action that is dispatched posts the reducer (store.hpp:157-160),
    which posts the notification (186-190).  The timer, the keys and the user's answers to the dialog come
    at any time.

    Simplified: keys are accepted while the dialog is open too (it is modal, so they are not); drawing,
    the colours of the apple and the time between two ticks other than the interval asked for are left out;
    other entries of Qt's queue are not seen; the window is not closed. *)
From Coq Require Import List ZArith Bool.
From Verif Require Import SnakeModel.
Import ListNotations.
Local Open Scope Z_scope.

(** main.qml:16-25; Math.floor of a quotient *)
Definition interval (count : Z) : Z := Z.max (100 - 10 * ((count - 3) / 5)) 10.

(** main.qml:64-81 *)
Inductive key := KLeft | KRight | KUp | KDown | KOther.
Definition pressed (k : key) : option action :=
  match k with
  | KLeft => Some GoLeft | KRight => Some GoRight | KUp => Some GoUp | KDown => Some GoDown
  | KOther => None
  end.

Inductive entry := Reduce (a : action) | Notify.
Record st := St {
  queue : list entry;
  model : app;                 (* current_ of the store *)
  dirty : bool;                (* needs_send_down_ of the store *)
  shown : view;                (* the object game, qmodel.hpp:75-80 *)
  dialog : bool }.             (* overDialog is open *)

(** main.qml:39-45: the handler of overChanged *)
Definition opens (v : view) (es : list signal) (d : bool) : bool :=
  if existsb (fun e => match e with OverChanged => true | _ => false end) es && v_over v then true else d.
(** main.qml:27 *)
Definition running (s : st) : bool := negb (v_over (shown s)).
(** qmodel.cpp:70-80 *)
Definition dispatch (a : action) (s : st) : st :=
  St (queue s ++ [Reduce a]) (model s) (dirty s) (shown s) (dialog s).

Section Rnd.
Variable rnd : nat -> Z.

(** main.cpp:33-40; the window is loaded after that (47) *)
Definition init : st := St [] (make_initial rnd) false (fst (show blank (the (make_initial rnd)))) false.

(** Qt takes the first entry of its queue. *)
Definition take (s : st) : option st :=
  match queue s with
  | [] => None
  (* store.hpp:160-190; app_model has no ==, so it always counts as changed (nodes.hpp:109-113, 207) *)
  | Reduce a :: r =>
      match update rnd (model s) a with
      | Some m => Some (St (r ++ [Notify]) m true (shown s) (dialog s))
      | None => None
      end
  (* store.hpp:188-189, main.cpp:39 *)
  | Notify :: r =>
      if dirty s
      then let (v, es) := show (shown s) (the (model s)) in
           Some (St r (model s) false v (opens v es (dialog s)))
      else Some (St r (model s) false (shown s) (dialog s))
  end.

(** The timer fires; a key is pressed; the dialog is accepted; it is dismissed
    (closed, or escape is pressed: [rejected] is emitted, for which there is no handler); the loop goes on. *)
Inductive label := LTimer | LKey (k : key) | LAccept | LReject | LTake.
Definition step (l : label) (s : st) : option st :=
  match l with
  (* main.qml:22-29 *)
  | LTimer => if running s then Some (dispatch Tick s) else None
  | LKey k => match pressed k with Some a => Some (dispatch a s) | None => Some s end
  (* main.qml:31-37 *)
  | LAccept => if dialog s then Some (dispatch Reset_ (St (queue s) (model s) (dirty s) (shown s) false)) else None
  | LReject => if dialog s then Some (St (queue s) (model s) (dirty s) (shown s) false) else None
  | LTake => take s
  end.
Fixpoint steps (ls : list label) (s : st) : option st :=
  match ls with
  | [] => Some s
  | l :: r => match step l s with Some s' => steps r s' | None => None end
  end.
End Rnd.
