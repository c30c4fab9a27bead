(** Model of the QML event loop
      /repo/lager/event_loop/qml.hpp  (event_loop_quick_item, with_qml_event_loop)

    The queue inside it is [queue_event_loop] as modelled in LoopModel.v; posted
    functions and code of the thread of the item are programs as there.

    Qt is the environment: it decides when to deliver events of the thread, when to
    polish, when to paint and when the timer fires.  What is assumed of it:
    - events posted to the item (invokeMethod with a queued connection, postEvent)
      are delivered on its thread, each once, in the order in which they were posted;
    - polish() asks for one later call of updatePolish(), asking again before the
      call changes nothing, asking during the call asks for another one;
    - update() asks for a call of updatePaintNode() if the item has contents (the flag
      QQuickItem::ItemHasContents), and without that flag updatePaintNode() is never
      called; Qt may also call it unasked;
    - the timer fires only after start(), and goes on until stopped (never done here);
    - updatePaintNode() runs while the thread of the item is blocked, so it is one
      step here although another thread may call it;
    - an exception leaving a handler leaves everything as it is.

    Not modelled: overriding of the virtual functions by derived classes,
    destruction of the item, finish(), pause(), resume(), async() (they throw,
    l. 83-90), how long anything takes. *)
From Coq Require Import List Arith Bool.
From Verif Require Import LoopModel.
Import ListNotations.

Section Qml.

Variable J : Type.
Variable W : Type.
Variable code : J -> prog J W.
(** The flag ItemHasContents. *)
Variable contents : bool.

(** Events waiting to be delivered to the item. *)
Inductive msg :=
| MPost (r : nat) (j : J)                 (* the lambda of l. 75-78; [r] numbers them (ghost) *)
| MPolish.                                (* QEvent::PolishRequest, l. 45 *)

(** What happened, newest first. *)
Inductive qev :=
| QSent (r : nat) (j : J)                 (* post() by another thread *)
| QEnter (r : nat) (id : nat)             (* it was delivered, as function [id] of the queue *)
| QPolishStep                             (* step() called by updatePolish() *)
| QPolishFail                             (* and left by an exception *)
| QPaint.                                 (* updatePaintNode() *)

Record qst := Q {
  loop : st J W;                          (* queue_, l. 18 *)
  inbox : list msg;                       (* events of the thread that are for the item *)
  pend : bool;                            (* polish() was called *)
  polished : bool;                        (* polished_, l. 20 *)
  timer : bool;                           (* timer_ is running, l. 21 *)
  dirty : bool;                           (* update() asked for a paint *)
  sent : nat;                             (* number of posts by other threads *)
  hist : list qev }.

Inductive action :=
| Code (p : prog J W)                     (* code of the thread of the item: posts, step() *)
| Remote (j : J)                          (* another thread posts *)
| Deliver                                 (* Qt delivers the next event *)
| Polish                                  (* Qt calls updatePolish() *)
| Paint                                   (* Qt calls updatePaintNode() *)
| Timeout.                                (* Qt fires the timer *)

Inductive qres :=
| QDone (s : qst)
| QNot                                    (* Qt does not do this now *)
| QMoved                                  (* a moved-out function was called *)
| QFuel.

(** Code on the thread of the item.  [post] there is l. 69-71: [queue_.post(fn)]
    and [polish()].  polish() is seen only when control is back in Qt, so it is
    added here after the code: asked for if any function was posted meanwhile. *)
Definition on_thread (fuel : nat) (p : prog J W) (s : qst) (k : qst -> bool -> qst) : qres :=
  let into l b :=
    QDone (k (Q l (inbox s) (pend s || (next (loop s) <? next l)) (polished s) (timer s)
                (dirty s) (sent s) (hist s)) b) in
  match exec code false fuel (TProg p) (loop s) with
  | Done l => into l true
  | Thrown l => into l false
  | Moved => QMoved
  | NoSuch => QNot
  | OutOfFuel => QFuel
  end.

(** [step()], l. 30 *)
Definition step_prog : prog J W := PStep PRet.

(** [QCoreApplication::postEvent(this, PolishRequest)], l. 45 *)
Definition post_request (s : qst) : qst :=
  Q (loop s) (inbox s ++ [MPolish]) (pend s) (polished s) (timer s) (dirty s) (sent s) (hist s).
(** [update()], l. 43 *)
Definition update (s : qst) : qst :=
  Q (loop s) (inbox s) (pend s) (polished s) (timer s) (dirty s || contents) (sent s) (hist s).
Definition note (e : qev) (s : qst) : qst :=
  Q (loop s) (inbox s) (pend s) (polished s) (timer s) (dirty s) (sent s) (e :: hist s).

Definition act (fuel : nat) (a : action) (s : qst) : qres :=
  match a with
  | Code p => on_thread fuel p s (fun s' _ => s')
  (* l. 72-80 *)
  | Remote j =>
      QDone (Q (loop s) (inbox s ++ [MPost (sent s) j]) (pend s) (polished s) (timer s)
               (dirty s) (S (sent s)) (QSent (sent s) j :: hist s))
  | Deliver =>
      match inbox s with
      | [] => QNot
      (* l. 76-77 *)
      | MPost r j :: rest =>
          QDone (Q (do_push j (loop s)) rest true (polished s) (timer s) (dirty s) (sent s)
                   (QEnter r (next (loop s)) :: hist s))
      (* l. 57-59 *)
      | MPolish :: rest =>
          QDone (Q (loop s) rest true (polished s) (timer s) (dirty s) (sent s) (hist s))
      end
  (* l. 32-46 *)
  | Polish =>
      if pend s then
        if polished s then
          QDone (post_request (Q (loop s) (inbox s) false true (timer s) (dirty s) (sent s) (hist s)))
        else
          on_thread fuel step_prog
            (Q (loop s) (inbox s) false true true (dirty s) (sent s) (QPolishStep :: hist s))
            (fun s' ok => if ok then post_request (update s') else note QPolishFail s')
      else QNot
  (* l. 48-52 *)
  | Paint =>
      if contents then
        QDone (Q (loop s) (inbox s) (pend s) false (timer s) false (sent s) (QPaint :: hist s))
      else QNot
  (* l. 27, 30 *)
  | Timeout => if timer s then on_thread fuel step_prog s (fun s' _ => s') else QNot
  end.

(** A new item, l. 18-28. *)
Definition qinit (w : W) : qst := Q (init w) [] false false false false 0 [].

End Qml.

Arguments MPost {J}. Arguments MPolish {J}.
Arguments QSent {J}. Arguments QEnter {J}. Arguments QPolishStep {J}. Arguments QPolishFail {J}.
Arguments QPaint {J}.
Arguments Q {J W}. Arguments loop {J W}. Arguments inbox {J W}. Arguments pend {J W}.
Arguments polished {J W}. Arguments timer {J W}. Arguments dirty {J W}. Arguments sent {J W}.
Arguments hist {J W}.
Arguments Code {J W}. Arguments Remote {J W}. Arguments Deliver {J W}. Arguments Polish {J W}.
Arguments Paint {J W}. Arguments Timeout {J W}.
Arguments QDone {J W}. Arguments QNot {J W}. Arguments QMoved {J W}. Arguments QFuel {J W}.
Arguments on_thread {J W}. Arguments step_prog {J W}. Arguments post_request {J W}.
Arguments update {J W}. Arguments note {J W}. Arguments act {J W}. Arguments qinit {J W}.
