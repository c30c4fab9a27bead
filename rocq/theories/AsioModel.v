(** Model of /repo/lager/event_loop/boost_asio.hpp (with_boost_asio_event_loop).

    The loop forwards to a Boost.Asio executor, so what matters is what the
    executor does: a transition system of one io_context, the threads that call
    its run(), the strand if there is one, the detached threads made by [async],
    and all the rest of the program ([Outside]).  Functions are known by number
    only; what they do is left open: while one runs it may do anything that has a
    label below, and it may return or throw at any time.

    What is assumed of Boost.Asio:
    - an io_context (made without a concurrency hint) keeps its handlers in the
      order in which they were posted, and counts its work: the handlers that wait,
      those that run, and the work guards; run() returns when the context is stopped;
      the context is stopped by stop(), and when the count of work becomes zero or
      run() is called while it is zero; it stays stopped until restart(), which is
      only called while no thread is in run(); an exception of a handler leaves
      run() of its thread;
    - a strand is a queue of its own that is run by one handler of the context, the
      invoker: it runs all functions that were ready when it was begun, without
      asking whether the context was stopped; functions posted meanwhile wait for
      the next invoker.
    Simplified: the return of a function given to [async] and the end of the thread
    that destroys its work guard are one step.  Handlers do not call run() or poll()
    themselves.  Other users of the context are a number of pieces of work. *)
From Coq Require Import List Arith Bool.
Import ListNotations.

Record cfg := Cfg {
  strand : bool;               (* the executor is a strand (doc of l. 29-34) *)
  stops : bool }.              (* the second constructor, l. 46, with a function that stops
                                  the context; otherwise l. 40, [stop] does nothing *)

(** A function object passed as rvalue, or as an lvalue: variable [v] of the caller. *)
Inductive arg := Temp | Var (v : nat).
(** Who calls: a handler run by thread [t], the function [a] given to [async], others. *)
Inductive who := Outside | InHandler (t : nat) | InFn (a : nat).
(** A function that was posted or given to [async]; [full]: it can be called, it was
    not made from an object that had been moved from. *)
Record item := It { num : nat; full : bool }.

(** A thread that is in run(): waiting, running a handler, running the invoker of the
    strand, possibly in one of its functions. *)
Inductive worker := Idle | Run (h : item) | Inv (h : option item).

Inductive event :=
| EPost (w : who) (id : nat)   (* function posted *)
| EAsync (w : who) (id : nat)  (* function given to async *)
| EEnter (t : nat)             (* thread calls run() *)
| EReturn (t : nat)            (* run() returns *)
| ELeave (t : nat)             (* run() is left by an exception *)
| EBegin (t id : nat)          (* posted function is called *)
| EEnd (t id : nat)            (* it returned or threw *)
| EFnBegin (id : nat)          (* function given to async is called *)
| EFnEnd (id : nat)            (* it returned *)
| ERanOut                      (* no work is left *)
| EStop                        (* stop() of the context *)
| ERestart                     (* restart() of the context *)
| EFinish (w : who) | EPause | EResume   (* members of the loop have returned *)
| EDestroy.                    (* the loop object is destroyed *)

(** [Terminated]: std::terminate, by an exception in a detached thread.
    [Undefined]: the loop object was used after its end. *)
Inductive fate := Going | Terminated | Undefined.

Record st := St {
  que : list item;             (* handlers of the loop that wait in the context *)
  ready : list item;           (* strand: of the next or current invoker *)
  waiting : list item;         (* strand: of the one after it *)
  locked : bool;               (* strand: an invoker waits or runs *)
  sched : bool;                (* strand: the invoker waits in the context *)
  ws : list (option worker);   (* threads that called run(), by number; None: not in it *)
  fns : list (item * bool);    (* threads of async; whether the function was called *)
  other : nat;                 (* work of others *)
  stopped : bool;
  alive : bool;                (* the loop object *)
  vars : list bool;            (* variables of the caller that hold functions; false: moved from *)
  next : nat;                  (* ghost: number of the next function *)
  fated : fate;
  log : list event }.          (* newest first *)

Definition init : st := St [] [] [] false false [] [] 0 false true [] 0 Going [].

(** Setters. *)
Definition set_queues (q r wt : list item) (lk sc : bool) (s : st) : st :=
  St q r wt lk sc (ws s) (fns s) (other s) (stopped s) (alive s) (vars s) (next s) (fated s) (log s).
Definition set_ws (x : list (option worker)) (s : st) : st :=
  St (que s) (ready s) (waiting s) (locked s) (sched s) x (fns s) (other s) (stopped s) (alive s)
     (vars s) (next s) (fated s) (log s).
Definition set_fns (x : list (item * bool)) (s : st) : st :=
  St (que s) (ready s) (waiting s) (locked s) (sched s) (ws s) x (other s) (stopped s) (alive s)
     (vars s) (next s) (fated s) (log s).
Definition set_other (x : nat) (s : st) : st :=
  St (que s) (ready s) (waiting s) (locked s) (sched s) (ws s) (fns s) x (stopped s) (alive s)
     (vars s) (next s) (fated s) (log s).
Definition set_stopped (x : bool) (s : st) : st :=
  St (que s) (ready s) (waiting s) (locked s) (sched s) (ws s) (fns s) (other s) x (alive s)
     (vars s) (next s) (fated s) (log s).
Definition set_alive (x : bool) (s : st) : st :=
  St (que s) (ready s) (waiting s) (locked s) (sched s) (ws s) (fns s) (other s) (stopped s) x
     (vars s) (next s) (fated s) (log s).
Definition set_vars (x : list bool) (s : st) : st :=
  St (que s) (ready s) (waiting s) (locked s) (sched s) (ws s) (fns s) (other s) (stopped s) (alive s)
     x (next s) (fated s) (log s).
Definition bump (s : st) : st :=
  St (que s) (ready s) (waiting s) (locked s) (sched s) (ws s) (fns s) (other s) (stopped s) (alive s)
     (vars s) (S (next s)) (fated s) (log s).
Definition set_fate (x : fate) (s : st) : st :=
  St (que s) (ready s) (waiting s) (locked s) (sched s) (ws s) (fns s) (other s) (stopped s) (alive s)
     (vars s) (next s) x (log s).
Definition note (e : event) (s : st) : st :=
  St (que s) (ready s) (waiting s) (locked s) (sched s) (ws s) (fns s) (other s) (stopped s) (alive s)
     (vars s) (next s) (fated s) (e :: log s).

Fixpoint upd {A} (n : nat) (x : A) (l : list A) : list A :=
  match l, n with
  | [], _ => []
  | _ :: r, 0 => x :: r
  | y :: r, S k => y :: upd k x r
  end.

(** The count of work of the context. *)
Definition busy (w : option worker) : nat :=
  match w with Some (Run _) | Some (Inv _) => 1 | _ => 0 end.
Definition load (s : st) : nat :=
  length (que s) + (if sched s then 1 else 0) + list_sum (map busy (ws s)) + length (fns s) + other s.
(** After a piece of work is finished, and when run() is called: without work the
    context stops. *)
Definition settle (s : st) : st :=
  if load s =? 0 then note ERanOut (set_stopped true s) else s.

(** [boost::asio::post(executor, f)], l. 63, for both kinds of executors. *)
Definition enqueue (c : cfg) (h : item) (s : st) : st :=
  if strand c then
    if locked s then set_queues (que s) (ready s) (waiting s ++ [h]) true (sched s) s
    else set_queues (que s) (ready s ++ [h]) (waiting s) true true s
  else set_queues (que s ++ [h]) (ready s) (waiting s) (locked s) (sched s) s.

(** End of the invoker, also by an exception: what was posted meanwhile gets ready,
    for another invoker. *)
Definition on_exit (s : st) : st :=
  match ready s ++ waiting s with
  | [] => set_queues (que s) [] [] false false s
  | r => set_queues (que s) r [] true true s
  end.

(** Whether [w] is doing something. *)
Definition present (w : who) (s : st) : bool :=
  match w with
  | Outside => true
  | InHandler t =>
      match nth_error (ws s) t with Some (Some (Run _)) | Some (Some (Inv (Some _))) => true | _ => false end
  | InFn a => existsb (fun f => (num (fst f) =? a) && snd f) (fns s)
  end.

(** [std::forward<Fn>(fn)], l. 63: an lvalue is copied. *)
Definition copied (a : arg) (s : st) : option bool :=
  match a with Temp => Some true | Var v => nth_error (vars s) v end.
(** [fn = std::move(fn)], l. 55: an lvalue is moved from as well. *)
Definition robbed (a : arg) (s : st) : st :=
  match a with Temp => s | Var v => set_vars (upd v false (vars s)) s end.

(** post, l. 60-64 *)
Definition do_post (c : cfg) (w : who) (a : arg) (s : st) : option st :=
  match copied a s with
  | None => None
  | Some b => Some (note (EPost w (next s)) (bump (enqueue c (It (next s) b) s)))
  end.
(** async, l. 50-58: the guard is made by the caller, before the thread is. *)
Definition do_async (w : who) (a : arg) (s : st) : option st :=
  match copied a s with
  | None => None
  | Some b =>
      Some (note (EAsync w (next s)) (bump (set_fns (fns s ++ [(It (next s) b, false)]) (robbed a s))))
  end.
(** finish, l. 69 *)
Definition do_finish (c : cfg) (w : who) (s : st) : st :=
  note (EFinish w) (if stops c then note EStop (set_stopped true s) else s).

(** Uses of the loop object. *)
Inductive use := UPost (a : arg) | UAsync (a : arg) | UFinish | UPause | UResume.

Inductive label :=
| LUse (w : who) (u : use)
| LVar                         (* the caller makes a variable with a function *)
| LEnter (t : nat)             (* thread calls run() *)
| LBegin (t : nat)             (* it takes a handler of the context *)
| LNext (t : nat)              (* the invoker calls a function *)
| LRet (t : nat)               (* the function returns *)
| LThrow (t : nat)             (* the function throws *)
| LExit (t : nat)              (* the invoker is done *)
| LLeave (t : nat)             (* run() returns *)
| LFnBegin (a : nat)           (* the thread of async calls its function *)
| LFnRet (a : nat)             (* it returns *)
| LFnThrow (a : nat)           (* it throws *)
| LWork | LWorkDone            (* others *)
| LStop | LRestart             (* of the context, by others *)
| LDestroy.                    (* the end of the loop object *)

Definition do_use (c : cfg) (w : who) (u : use) (s : st) : option st :=
  if present w s then
    if alive s then
      match u with
      | UPost a => do_post c w a s
      | UAsync a => do_async w a s
      | UFinish => Some (do_finish c w s)
      | UPause => Some (note EPause s)         (* l. 66 *)
      | UResume => Some (note EResume s)       (* l. 67 *)
      end
    else Some (set_fate Undefined s)
  else None.

Definition worker_of (t : nat) (s : st) : option worker :=
  match nth_error (ws s) t with Some w => w | None => None end.
Definition set_worker (t : nat) (w : option worker) (s : st) : st := set_ws (upd t w (ws s)) s.

(** The function of thread [a] of async. *)
Definition fn_at (a : nat) (s : st) : option (item * bool) :=
  find (fun f => num (fst f) =? a) (fns s).

Definition go (c : cfg) (l : label) (s : st) : option st :=
  match l with
  | LUse w u => do_use c w u s
  | LVar => Some (set_vars (vars s ++ [true]) s)
  | LEnter t =>
      let enter x := Some (settle (note (EEnter t) (set_ws x s))) in
      if t =? length (ws s) then enter (ws s ++ [Some Idle])
      else match nth_error (ws s) t with
           | Some None => enter (upd t (Some Idle) (ws s))
           | _ => None
           end
  | LBegin t =>
      match worker_of t s with
      | Some Idle =>
          if stopped s then None
          else if strand c then
            if sched s then
              Some (set_worker t (Some (Inv None))
                      (set_queues (que s) (ready s) (waiting s) (locked s) false s))
            else None
          else match que s with
               | [] => None
               | h :: q =>
                   Some (note (EBegin t (num h)) (set_worker t (Some (Run h))
                           (set_queues q (ready s) (waiting s) (locked s) (sched s) s)))
               end
      | _ => None
      end
  | LNext t =>
      match worker_of t s, ready s with
      | Some (Inv None), h :: r =>
          Some (note (EBegin t (num h)) (set_worker t (Some (Inv (Some h)))
                  (set_queues (que s) r (waiting s) (locked s) (sched s) s)))
      | _, _ => None
      end
  | LRet t =>
      match worker_of t s with
      | Some (Run h) =>
          if full h then Some (settle (note (EEnd t (num h)) (set_worker t (Some Idle) s))) else None
      | Some (Inv (Some h)) =>
          if full h then Some (note (EEnd t (num h)) (set_worker t (Some (Inv None)) s)) else None
      | _ => None
      end
  | LThrow t =>
      match worker_of t s with
      | Some (Run h) =>
          Some (settle (note (ELeave t) (note (EEnd t (num h)) (set_worker t None s))))
      | Some (Inv (Some h)) =>
          Some (settle (note (ELeave t) (note (EEnd t (num h)) (set_worker t None (on_exit s)))))
      | _ => None
      end
  | LExit t =>
      match worker_of t s, ready s with
      | Some (Inv None), [] => Some (settle (set_worker t (Some Idle) (on_exit s)))
      | _, _ => None
      end
  | LLeave t =>
      match worker_of t s with
      | Some Idle => if stopped s then Some (note (EReturn t) (set_worker t None s)) else None
      | _ => None
      end
  | LFnBegin a =>
      match fn_at a s with
      | Some (_, false) =>
          Some (note (EFnBegin a)
                  (set_fns (map (fun f => if num (fst f) =? a then (fst f, true) else f) (fns s)) s))
      | _ => None
      end
  | LFnRet a =>
      match fn_at a s with
      | Some (f, true) =>
          if full f
          then Some (settle (note (EFnEnd a)
                       (set_fns (filter (fun f => negb (num (fst f) =? a)) (fns s)) s)))
          else None
      | _ => None
      end
  | LFnThrow a =>
      match fn_at a s with Some (_, true) => Some (set_fate Terminated s) | _ => None end
  | LWork => Some (set_other (S (other s)) s)
  | LWorkDone => match other s with 0 => None | S n => Some (settle (set_other n s)) end
  | LStop => Some (note EStop (set_stopped true s))
  | LRestart =>
      if forallb (fun w => match w with None => true | _ => false end) (ws s)
      then Some (note ERestart (set_stopped false s)) else None
  | LDestroy => if alive s then Some (note EDestroy (set_alive false s)) else None
  end.

Definition step (c : cfg) (l : label) (s : st) : option st :=
  match fated s with Going => go c l s | _ => None end.

Fixpoint steps (c : cfg) (ls : list label) (s : st) : option st :=
  match ls with
  | [] => Some s
  | l :: r => match step c l s with Some s' => steps c r s' | None => None end
  end.
