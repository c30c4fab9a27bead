(** Model of /repo/lager/event_loop/qt.hpp (with_qt_event_loop).

    The loop forwards to Qt: a transition system of the main thread (that of the
    application and of the object), the threads of the thread pool, and all other
    threads.  Functions are known by number only; what they do is left open: while
    one runs it may do anything that has a label below.

    What is assumed of Qt:
    - functions posted to an object by a queued invokeMethod() are called on its thread
      by an event loop of that thread, in the order in which they were posted; those
      still waiting when the object is destroyed are dropped;
    - event loops may be run inside of functions that are called by one; quit() makes
      all event loops of the main thread that are running return when they are back in
      control, has no effect on one that is started later on its own, and lets one that
      is started inside of another that was told to quit return at once;
    - a thread pool takes functions in the order in which they were given, runs at most
      [most] at a time, and waitForDone() returns when none waits or runs.
    Simplified: an application exists; pause() and resume() throw and change nothing
    (l. 51-52, not in the model); functions do not throw. *)
From Coq Require Import List Arith Bool.
Import ListNotations.

(** Who does something: the main thread, the function [a] run by the pool, another thread. *)
Inductive who := Main | Task (a : nat) | Other (t : nat).

(** What the main thread is in: an event loop ([true]: told to quit), a posted function. *)
Inductive frame := Exec (told : bool) | Call (id : nat).

Inductive event :=
| EPost (w : who) (k id : nat)     (* posted through loop object [k] *)
| EAsync (w : who) (k id : nat)    (* given to async of loop object [k] *)
| EOther (id : nat)                (* given to the pool by others *)
| ECopy (k : nat)                  (* a loop object is made *)
| EDie (w : who) (k : nat)         (* its destructor is called *)
| EDead (k : nat)                  (* its destructor returns *)
| EBegin (id : nat)                (* posted function is called *)
| EEnd (id : nat)                  (* it returned *)
| EStart (id : nat)                (* function given to the pool is called *)
| EDone (id : nat)                 (* it returned *)
| EExec | EExecRet                 (* an event loop is started, returns *)
| EFinish (w : who)                (* finish() *)
| EObjGone.                        (* the object is destroyed *)

(** [Undefined]: a loop object or the object was used after its end. *)
Inductive fate := Going | Undefined.

Record st := St {
  inbox : list nat;                (* posted functions that wait *)
  obj : bool;                      (* the object exists *)
  stack : list frame;              (* main thread, innermost first *)
  quitting : bool;                 (* quit() was called, since exec() *)
  tasks : list (nat * nat);        (* functions that wait for the pool; through which loop object *)
  active : list (nat * nat);       (* functions that the pool runs *)
  loops : list nat;                (* loop objects that exist *)
  dying : list (who * nat);        (* destructors that wait *)
  next : nat;                      (* ghost: number of the next function or loop object *)
  fated : fate;
  log : list event }.              (* newest first *)

(** The first loop object has number 0; functions of others are noted with loop
    object 0, of which nothing is claimed for them. *)
Definition init : st := St [] true [] false [] [] [0] [] 1 Going [ECopy 0].

Definition note (e : event) (s : st) : st :=
  St (inbox s) (obj s) (stack s) (quitting s) (tasks s) (active s) (loops s) (dying s) (next s) (fated s)
     (e :: log s).
Definition set_inbox x (s : st) : st :=
  St x (obj s) (stack s) (quitting s) (tasks s) (active s) (loops s) (dying s) (next s) (fated s) (log s).
Definition set_obj x (s : st) : st :=
  St (inbox s) x (stack s) (quitting s) (tasks s) (active s) (loops s) (dying s) (next s) (fated s) (log s).
Definition set_stack x q (s : st) : st :=
  St (inbox s) (obj s) x q (tasks s) (active s) (loops s) (dying s) (next s) (fated s) (log s).
Definition set_pool x y (s : st) : st :=
  St (inbox s) (obj s) (stack s) (quitting s) x y (loops s) (dying s) (next s) (fated s) (log s).
Definition set_loops x y (s : st) : st :=
  St (inbox s) (obj s) (stack s) (quitting s) (tasks s) (active s) x y (next s) (fated s) (log s).
Definition bump (s : st) : st :=
  St (inbox s) (obj s) (stack s) (quitting s) (tasks s) (active s) (loops s) (dying s) (S (next s)) (fated s)
     (log s).
Definition set_fate x (s : st) : st :=
  St (inbox s) (obj s) (stack s) (quitting s) (tasks s) (active s) (loops s) (dying s) (next s) x (log s).

Definition who_eqb (a b : who) : bool :=
  match a, b with
  | Main, Main => true
  | Task x, Task y => x =? y
  | Other x, Other y => x =? y
  | _, _ => false
  end.

(** [w] can do something: it is not inside of a destructor that waits; a function of the
    pool runs; the main thread is not in the hands of an event loop. *)
Definition present (w : who) (s : st) : bool :=
  negb (existsb (fun d => who_eqb (fst d) w) (dying s)) &&
  match w with
  | Main => match stack s with Exec _ :: _ => false | _ => true end
  | Task a => existsb (fun t => fst t =? a) (active s)
  | Other _ => true
  end.
(** The main thread is in an event loop. *)
Definition looping (s : st) : bool := match stack s with Exec _ :: _ => true | _ => false end.

Inductive use := UPost | UAsync | UFinish.

Inductive label :=
| LUse (w : who) (k : nat) (u : use)   (* through loop object [k] *)
| LCopy (w : who) (k : nat)            (* loop object [k] is copied: also where it seems to be
                                          moved, as the destructor is user-defined (l. 33) *)
| LDie (w : who) (k : nat)             (* its destructor is called *)
| LDead (k : nat)                      (* its destructor returns *)
| LTask                                (* others give a function to the pool *)
| LStart                               (* the pool calls the next function *)
| LDone (a : nat)                      (* it returns *)
| LExec                                (* the main thread starts an event loop *)
| LExecRet                             (* which returns *)
| LDeliver                             (* the event loop calls the next posted function *)
| LRet                                 (* which returns *)
| LObjGone.                            (* the object is destroyed, by the main thread *)

Definition is_in (k : nat) (l : list nat) : bool := existsb (Nat.eqb k) l.

Definition do_use (w : who) (k : nat) (u : use) (s : st) : st :=
  match u with
  (* l. 42-46 *)
  | UPost =>
      if obj s then note (EPost w k (next s)) (bump (set_inbox (inbox s ++ [next s]) s))
      else set_fate Undefined s
  (* l. 36-39 *)
  | UAsync => note (EAsync w k (next s)) (bump (set_pool (tasks s ++ [(next s, k)]) (active s) s))
  (* l. 48 *)
  | UFinish =>
      note (EFinish w)
        (set_stack (map (fun f => match f with Exec _ => Exec true | x => x end) (stack s)) true s)
  end.

Definition go (most : nat) (l : label) (s : st) : option st :=
  match l with
  | LUse w k u =>
      if present w s then
        if is_in k (loops s) then Some (do_use w k u s) else Some (set_fate Undefined s)
      else None
  | LCopy w k =>
      if present w s then
        if is_in k (loops s)
        then Some (note (ECopy (next s)) (bump (set_loops (loops s ++ [next s]) (dying s) s)))
        else Some (set_fate Undefined s)
      else None
  (* l. 33 *)
  | LDie w k =>
      if present w s && is_in k (loops s) && negb (existsb (fun d => snd d =? k) (dying s))
      then Some (note (EDie w k) (set_loops (loops s) (dying s ++ [(w, k)]) s))
      else None
  (* waitForDone() returns *)
  | LDead k =>
      if existsb (fun d => snd d =? k) (dying s) then
        match tasks s, active s with
        | [], [] =>
            Some (note (EDead k) (set_loops (filter (fun x => negb (x =? k)) (loops s))
                                            (filter (fun d => negb (snd d =? k)) (dying s)) s))
        | _, _ => None
        end
      else None
  | LTask => Some (note (EOther (next s)) (bump (set_pool (tasks s ++ [(next s, 0)]) (active s) s)))
  | LStart =>
      match tasks s with
      | [] => None
      | t :: r =>
          if length (active s) <? most
          then Some (note (EStart (fst t)) (set_pool r (active s ++ [t]) s)) else None
      end
  | LDone a =>
      if present (Task a) s
      then Some (note (EDone a)
                   (set_pool (tasks s) (filter (fun t => negb (fst t =? a)) (active s)) s))
      else None
  | LExec =>
      if present Main s then
        match stack s with
        | [] => Some (note EExec (set_stack [Exec false] false s))
        | _ => if quitting s then Some (note EExecRet (note EExec s))
               else Some (note EExec (set_stack (Exec false :: stack s) false s))
        end
      else None
  | LExecRet =>
      match stack s with
      | Exec true :: r => Some (note EExecRet (set_stack r (quitting s) s))
      | _ => None
      end
  | LDeliver =>
      if looping s then
        match inbox s with
        | [] => None
        | i :: r => Some (note (EBegin i) (set_stack (Call i :: stack s) (quitting s) (set_inbox r s)))
        end
      else None
  | LRet =>
      if present Main s then
        match stack s with
        | Call i :: r => Some (note (EEnd i) (set_stack r (quitting s) s))
        | _ => None
        end
      else None
  | LObjGone =>
      if present Main s && obj s then Some (note EObjGone (set_obj false (set_inbox [] s))) else None
  end.

Definition step (most : nat) (l : label) (s : st) : option st :=
  match fated s with Going => go most l s | _ => None end.

Fixpoint steps (most : nat) (ls : list label) (s : st) : option st :=
  match ls with
  | [] => Some s
  | l :: r => match step most l s with Some s' => steps most r s' | None => None end
  end.
