(** Model of sdl_event_loop in the browser: /repo/lager/event_loop/sdl.hpp, what is compiled
    if __EMSCRIPTEN__ is defined (l. 80-120, 171-180).  SdlModel has the rest.

    What is assumed of Emscripten and of the browser: there is one thread; the functions of
    timers that are due and that of the main loop are called one after the other, each when
    nothing else is running; timers of 0 ms are called in the order in which they were set;
    emscripten_set_main_loop_arg, with simulate_infinite_loop, does not return, it leaves
    main without destroying its variables; without it, it returns.  The function is then
    called for every frame.  SDL gives its events one after the other.

    Simplified: functions, the handler and the tick do not throw, and what they do is left
    open; functions and events are known by number; times are exact; [run] is called once (its
    guard, l. 107-109, is one for each type of the arguments); no one else pushes events of the
    loop's own type, [post] does not either, so l. 90-93 are left out. *)
From Coq Require Import List Arith Bool.
Import ListNotations.

(** Where the thread is: in main; in nothing; in a posted function; in [step]: before
    SDL_PollEvent (l. 89), in the handler (95), after the loop (98), in the tick, with [ticks]
    (100). *)
Inductive place :=
| Main | Idle | Fn (id : nat) | Poll | Hand (id : nat) | Polled | Tick (ticks : nat).

(** What happened *)
Inductive event :=
| EPost (id : nat)                (* function posted *)
| ECall (id : nat)                (* it is called *)
| EEnd (id : nat)                 (* it returned and is deleted *)
| EArrive (id : nat)              (* an event entered the queue of SDL *)
| EFrame (now : nat)              (* [step] is called *)
| EHandle (id : nat)              (* the handler is called with an event *)
| EHandled (id : nat)             (* it returned *)
| ETick (now dt : nat)            (* the tick is called with [dt] *)
| ETicked.                        (* it returned *)

Record st := St {
  timers : list nat;              (* functions posted, in the order of their timers *)
  que : list nat;                 (* events in the queue of SDL *)
  clock : nat;                    (* SDL_GetTicks *)
  last_ticks : nat;               (* l. 83 *)
  looping : bool;                 (* the main loop is set *)
  there : bool;                   (* the loop object exists *)
  done : bool; paused : bool;     (* l. 190-191 *)
  at_ : place;
  next : nat;                     (* ghost: number of the next function or event *)
  log : list event }.             (* ghost: newest first *)

Definition init : st := St [] [] 0 0 false true false false Main 0 [].

Inductive label :=
| LPost | LFinish | LPause | LResume     (* by main, a function, the handler or the tick *)
| LRun (infinite : bool)                 (* by main *)
| LLeave (destroy : bool)                (* main returns; the loop is its variable, or not *)
| LArrive | LTime (ms : nat)             (* by others *)
| LTimer | LFrame                        (* the browser calls the next timer, or [step] *)
| LGo                                    (* [step] goes on *)
| LRet (b : bool).                       (* function, handler or tick returns; [b]: result *)

Inductive res := Next (s : st) | Undefined | Not.

Definition client (p : place) : bool :=
  match p with Main | Fn _ | Hand _ | Tick _ => true | _ => false end.

Definition go_to (p : place) (e : list event) (s : st) : st :=
  St (timers s) (que s) (clock s) (last_ticks s) (looping s) (there s) (done s) (paused s) p
     (next s) (e ++ log s).
Definition flags (d p : bool) (s : st) : st :=
  St (timers s) (que s) (clock s) (last_ticks s) (looping s) (there s) d p (at_ s) (next s)
     (log s).

Definition step (s : st) (l : label) : res :=
  match l with
  (* l. 172-179 *)
  | LPost =>
      if client (at_ s) && there s
      then Next (St (timers s ++ [next s]) (que s) (clock s) (last_ticks s) (looping s) (there s)
                    (done s) (paused s) (at_ s) (S (next s)) (EPost (next s) :: log s))
      else Not
  (* l. 183-185 *)
  | LFinish => if client (at_ s) && there s then Next (flags true (paused s) s) else Not
  | LPause => if client (at_ s) && there s then Next (flags (done s) true s) else Not
  | LResume => if client (at_ s) && there s then Next (flags (done s) false s) else Not
  (* l. 105-120 *)
  | LRun infinite =>
      match at_ s with
      | Main => if looping s then Not else
          Next (St (timers s) (que s) (clock s) (last_ticks s) true (there s) (done s) (paused s)
                   (if infinite then Idle else Main) (next s) (log s))
      | _ => Not
      end
  | LLeave destroy =>
      match at_ s with
      | Main => Next (St (timers s) (que s) (clock s) (last_ticks s) (looping s) (negb destroy)
                         (done s) (paused s) Idle (next s) (log s))
      | _ => Not
      end
  | LArrive =>
      Next (St (timers s) (que s ++ [next s]) (clock s) (last_ticks s) (looping s) (there s)
               (done s) (paused s) (at_ s) (S (next s)) (EArrive (next s) :: log s))
  | LTime ms =>
      Next (St (timers s) (que s) (clock s + ms) (last_ticks s) (looping s) (there s) (done s)
               (paused s) (at_ s) (next s) (log s))
  (* l. 173-177 *)
  | LTimer =>
      match at_ s, timers s with
      | Idle, id :: r =>
          Next (St r (que s) (clock s) (last_ticks s) (looping s) (there s) (done s) (paused s)
                   (Fn id) (next s) (ECall id :: log s))
      | _, _ => Not
      end
  (* l. 113-116, 88 *)
  | LFrame =>
      match at_ s with
      | Idle =>
          if looping s
          then if there s
               then Next (St (timers s) (que s) (clock s) (clock s) true true (done s) (paused s)
                             Poll (next s) (EFrame (clock s) :: log s))
               else Undefined
          else Not
      | _ => Not
      end
  | LGo =>
      match at_ s with
      | Poll =>                                               (* l. 89, 95 *)
          match que s with
          | id :: r =>
              Next (St (timers s) r (clock s) (last_ticks s) (looping s) (there s) (done s)
                       (paused s) (Hand id) (next s) (EHandle id :: log s))
          | [] => Next (go_to Polled [] s)
          end
      | Polled =>                                             (* l. 98-100 *)
          Next (go_to (Tick (clock s)) [ETick (clock s) (clock s - last_ticks s)] s)
      | _ => Not
      end
  | LRet b =>
      match at_ s with
      | Fn id => Next (go_to Idle [EEnd id] s)                (* l. 176-177 *)
      | Hand id => Next (go_to Poll [EHandled id] s)          (* l. 95, 89 *)
      | Tick ticks =>                                         (* l. 101-102 *)
          Next (St (timers s) (que s) (clock s) ticks (looping s) (there s) (done s) (paused s)
                   Idle (next s) (ETicked :: log s))
      | _ => Not
      end
  end.

Fixpoint run (ls : list label) (s : st) : res :=
  match ls with
  | [] => Next s
  | l :: r => match step s l with Next s' => run r s' | x => x end
  end.
