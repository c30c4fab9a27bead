(** The counter in a window: example/counter/counter.hpp and example/counter/sdl2/main.cpp.

    One queue (that of SDL, sdl.hpp:123-139) holds what the user does and what the store posts:
    dispatching posts the reducer (store.hpp:157-160), which posts the notification (186-190).
    The loop takes one entry after the other, those of the user come at any time (what
    the loop does is the subject of C53: here it is neither paused nor finished, and the queue
    never refuses an entry).

    Simplified: the counter does not overflow; drawing is noting the number. *)
From Coq Require Import List Bool ZArith.
From Verif Require Import CounterModel.
Import ListNotations.
Local Open Scope Z_scope.

(** What SDL reports. *)
Inductive key := KUp | KDown | KSpace | KOther.
Inductive report := Down (k : key) | Other | Quit.
(** main.cpp:70-85 *)
Definition intent (e : report) : option action :=
  match e with
  | Down KUp => Some Increment
  | Down KDown => Some Decrement
  | Down KSpace => Some (Reset 0)
  | _ => None
  end.
(** Entries of the queue: a report, the reducer of an action, a notification. *)
Inductive entry := Ev (e : report) | Reduce (a : action) | Notify.
Inductive event :=
| EReport (e : report)         (* SDL puts it into the queue *)
| EDispatch (a : action)       (* main.cpp:104 *)
| EApply (a : action)          (* the reducer is called *)
| EDraw (v : Z).               (* main.cpp:99, 100 *)
Record st := St {
  queue : list entry;
  value : Z;                   (* current_ of the store *)
  dirty : bool;                (* needs_send_down_ of the store *)
  over : bool;                 (* run has returned *)
  log : list event }.          (* newest first *)
(** main.cpp:94-100 *)
Definition init : st := St [] 0 false false [EDraw 0].

(** counter.hpp:37-46 *)
Definition next (v : Z) (a : action) : Z :=
  match CounterModel.update v a with Some (w, _) => w | None => v end.
(** The loop takes the first entry. *)
Definition take (s : st) : option st :=
  if over s then None
  else match queue s with
       | [] => None
       (* main.cpp:102-106 *)
       | Ev e :: r =>
           let s' := match intent e with
                     | Some a => St (r ++ [Reduce a]) (value s) (dirty s) false (EDispatch a :: log s)
                     | None => St r (value s) (dirty s) false (log s)
                     end in
           Some (match e with Quit => St (queue s') (value s') (dirty s') true (log s') | _ => s' end)
       (* store.hpp:160-190, push_down of nodes.hpp:204-211 *)
       | Reduce a :: r =>
           let v := next (value s) a in
           Some (St (r ++ [Notify]) v (if v =? value s then dirty s else true) false (EApply a :: log s))
       (* store.hpp:188-189: draw is called if the model was changed since the last time *)
       | Notify :: r =>
           Some (St r (value s) false false (if dirty s then EDraw (value s) :: log s else log s))
       end.
Inductive label := LReport (e : report) | LTake.
Definition step (l : label) (s : st) : option st :=
  match l with
  | LReport e => Some (St (queue s ++ [Ev e]) (value s) (dirty s) (over s) (EReport e :: log s))
  | LTake => take s
  end.
Fixpoint steps (ls : list label) (s : st) : option st :=
  match ls with
  | [] => Some s
  | l :: r => match step l s with Some s' => steps r s' | None => None end
  end.
