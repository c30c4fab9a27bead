(** Model of /repo/lager/event_loop/sdl.hpp (sdl_event_loop, constant_fps_step),
    the variant that is not for Emscripten.

    The SDL event queue is shared with every other thread: a transition system
    in which each read or write of shared data (the SDL queue, [done_],
    [paused_]) is one step, and steps of other threads come between any two
    steps of the thread that runs the loop.  Events and posted functions are
    known by number only.  What functions, handlers and ticks do is left open:
    while one runs, anything may be posted, [finish], [pause], [resume] may be
    called, the loop may be run again (hence a stack of calls), and it may
    return any result or throw at any time; an exception is caught or passed on
    by whatever called [run].

    Simplified: SDL itself is a first-in first-out queue that may refuse a
    function (SDL_PushEvent failing, e.g. the queue is full) and whose wait may
    fail; events pushed from outside that do not get into the queue are not
    seen at all; other users of the same SDL event type are left out (the type
    is the loop's own, l. 192).  The Emscripten variant (l. 80-120, 171-180) is
    in WebModel.  Not modelled: with_sdl_event_loop::async (throws, l. 199-203); the other members
    of with_sdl_event_loop only forward (l. 205-213). *)
From Coq Require Import List Arith Bool ZArith QArith Qround.
Import ListNotations.
Local Open Scope nat_scope.

(** [run(handler)] (l. 123-139) and [run(handler, tick)] (l. 141-160) *)
Inductive mode := Plain | Ticking.

(** An entry of the SDL queue: a posted function or another event. *)
Inductive entry := Fn (id : nat) | Ev (id : nat).

(** Where one call of [run] is. *)
Inductive frame :=
| Top (m : mode) (c : bool)   (* before the outer condition, l. 127, 146; [c]: continue_ *)
| WaitP                       (* in SDL_WaitEvent, l. 129 *)
| BodyP (id : nat)            (* in the function, l. 132 *)
| HandP (id : nat)            (* in the handler, l. 135 *)
| Inner (c : bool)            (* before the inner condition, first read of paused_, l. 148 *)
| Poll                        (* in SDL_PollEvent, l. 148 *)
| Again                       (* before the second read of paused_, l. 149 *)
| WaitT                       (* in SDL_WaitEvent, l. 149 *)
| BodyT (id : nat)            (* in the function, l. 153 *)
| Got (id : nat)              (* event taken, before paused_ is read, l. 155 *)
| HandCall (id : nat)         (* paused_ was false, before the call of handler, l. 155 *)
| HandT (id : nat)            (* in the handler, l. 155 *)
| TickTest (c : bool)         (* before l. 158 *)
| TickCall                    (* paused_ was false, before the call of tick, l. 158 *)
| Tick.                       (* in tick, l. 158 *)

(** What happened; newest first. *)
Inductive event :=
| EPost (id : nat)            (* function posted *)
| ERefuse (id : nat)          (* function posted, but SDL_PushEvent failed *)
| EArrive (id : nat)          (* another event entered the queue *)
| ETake (x : entry)           (* taken out of the queue *)
| ERun (id : nat)             (* posted function starts *)
| EEnd (id : nat)             (* it returned *)
| EFail (m : mode) (id : nat) (* it threw; in which kind of run *)
| EFree (id : nat)            (* the function object is deleted *)
| EHandle (m : mode) (id : nat) (* handler called with the event *)
| ESwallow (id : nat)         (* event dropped without calling the handler *)
| ETick                       (* tick called *)
| EReturn (m : mode).         (* run returned *)

Record st := St {
  que : list entry;           (* the SDL queue *)
  heap : list nat;            (* function objects allocated and not deleted *)
  done : bool;                (* done_, l. 190 *)
  paused : bool;              (* paused_, l. 191 *)
  stack : list frame;         (* the calls of run, innermost first *)
  next : nat;                 (* ghost: number of the next function or event *)
  log : list event }.

Definition init : st := St [] [] false false [] 0 [].

(** One step. *)
Inductive label :=
| LPost                       (* any thread: post(), accepted *)
| LRefuse                     (* any thread: post(), SDL_PushEvent fails *)
| LArrive                     (* any thread: an event enters the SDL queue *)
| LFinish | LPause | LResume  (* any thread *)
| LRun (m : mode)             (* run() is called *)
| LGo                         (* the loop itself takes a step *)
| LErr                        (* SDL_WaitEvent fails *)
| LRet (b : bool)             (* function, handler or tick returns; [b]: its result *)
| LThrow.                     (* function, handler or tick throws *)

Definition delete (id : nat) (h : list nat) : list nat := remove Nat.eq_dec id h.

Definition set (q : list entry) (h : list nat) (fs : list frame) (es : list event) (s : st) : st :=
  St q h (done s) (paused s) fs (next s) (es ++ log s).

(** In client code: function, handler or tick. *)
Definition in_body (f : frame) : bool :=
  match f with BodyP _ | HandP _ | BodyT _ | HandT _ | Tick => true | _ => false end.

(** The next step of the loop; [None]: it is in client code, or waiting for an event. *)
Definition go (s : st) : option st :=
  match stack s with
  | [] => None
  | f :: r =>
    let move f' := Some (set (que s) (heap s) (f' :: r) [] s) in
    match f with
    (* l. 127, 146: while (continue_ && !done_) *)
    | Top m c =>
        if c && negb (done s)
        then move (match m with Plain => WaitP | Ticking => Inner true end)
        else Some (set (que s) (heap s) r [EReturn m] s)
    (* l. 129-136 *)
    | WaitP =>
        match que s with
        | [] => None
        | Fn id :: q => Some (set q (heap s) (BodyP id :: r) [ERun id; ETake (Fn id)] s)
        | Ev id :: q => Some (set q (heap s) (HandP id :: r) [EHandle Plain id; ETake (Ev id)] s)
        end
    (* l. 148: continue_ && ((!paused_ && ...) || ... *)
    | Inner false => move (TickTest false)
    | Inner true => if paused s then move Again else move Poll
    (* l. 148-153, 154 *)
    | Poll =>
        match que s with
        | [] => move Again
        | Fn id :: q => Some (set q (heap s) (BodyT id :: r) [ERun id; ETake (Fn id)] s)
        | Ev id :: q => Some (set q (heap s) (Got id :: r) [ETake (Ev id)] s)
        end
    (* l. 149: (paused_ && ...) *)
    | Again => if paused s then move WaitT else move (TickTest true)
    | WaitT =>
        match que s with
        | [] => None
        | Fn id :: q => Some (set q (heap s) (BodyT id :: r) [ERun id; ETake (Fn id)] s)
        | Ev id :: q => Some (set q (heap s) (Got id :: r) [ETake (Ev id)] s)
        end
    (* l. 155: continue_ && (paused_ || handler(event)) *)
    | Got id =>
        if paused s
        then Some (set (que s) (heap s) (Inner true :: r) [ESwallow id] s)
        else move (HandCall id)
    | HandCall id => Some (set (que s) (heap s) (HandT id :: r) [EHandle Ticking id] s)
    (* l. 158: continue_ && (paused_ || tick(step())) *)
    | TickTest false => move (Top Ticking false)
    | TickTest true => if paused s then move (Top Ticking true) else move TickCall
    | TickCall => Some (set (que s) (heap s) (Tick :: r) [ETick] s)
    | BodyP _ | HandP _ | BodyT _ | HandT _ | Tick => None
    end
  end.

(** Client code returns: l. 133 ([delete fnp]), 135, 153-154 (the unique_ptr
    goes out of scope), 155, 158. *)
Definition ret (b : bool) (s : st) : option st :=
  match stack s with
  | BodyP id :: r =>
      Some (set (que s) (delete id (heap s)) (Top Plain true :: r) [EFree id; EEnd id] s)
  | HandP _ :: r => Some (set (que s) (heap s) (Top Plain b :: r) [] s)
  | BodyT id :: r =>
      Some (set (que s) (delete id (heap s)) (Inner true :: r) [EFree id; EEnd id] s)
  | HandT _ :: r => Some (set (que s) (heap s) (Inner b :: r) [] s)
  | Tick :: r => Some (set (que s) (heap s) (Top Ticking b :: r) [] s)
  | _ => None
  end.

(** Client code throws and [run] is left: at l. 132 before [delete fnp], at
    l. 153 the unique_ptr deletes the function object. *)
Definition throw (s : st) : option st :=
  match stack s with
  | BodyP id :: r => Some (set (que s) (heap s) r [EFail Plain id] s)
  | BodyT id :: r => Some (set (que s) (delete id (heap s)) r [EFree id; EFail Ticking id] s)
  | HandP _ :: r | HandT _ :: r | Tick :: r => Some (set (que s) (heap s) r [] s)
  | _ => None
  end.

Definition act (l : label) (s : st) : option st :=
  match l with
  (* l. 163-170 *)
  | LPost => Some (St (que s ++ [Fn (next s)]) (next s :: heap s) (done s) (paused s) (stack s)
                      (S (next s)) (EPost (next s) :: log s))
  | LRefuse => Some (St (que s) (next s :: heap s) (done s) (paused s) (stack s)
                        (S (next s)) (ERefuse (next s) :: log s))
  | LArrive => Some (St (que s ++ [Ev (next s)]) (heap s) (done s) (paused s) (stack s)
                        (S (next s)) (EArrive (next s) :: log s))
  (* l. 183-185 *)
  | LFinish => Some (St (que s) (heap s) true (paused s) (stack s) (next s) (log s))
  | LPause => Some (St (que s) (heap s) (done s) true (stack s) (next s) (log s))
  | LResume => Some (St (que s) (heap s) (done s) false (stack s) (next s) (log s))
  | LRun m =>
      match stack s with
      | f :: _ => if in_body f then Some (set (que s) (heap s) (Top m true :: stack s) [] s) else None
      | [] => Some (set (que s) (heap s) [Top m true] [] s)
      end
  | LGo => go s
  | LErr =>
      match stack s with
      | WaitP :: r => Some (set (que s) (heap s) (Top Plain true :: r) [] s)
      | WaitT :: r => Some (set (que s) (heap s) (TickTest true :: r) [] s)
      | _ => None
      end
  | LRet b => ret b s
  | LThrow => throw s
  end.

(** [s'] after the steps [ls]. *)
Fixpoint acts (ls : list label) (s : st) : option st :=
  match ls with
  | [] => Some s
  | l :: r => match act l s with Some s1 => acts r s1 | None => None end
  end.

(** * constant_fps_step

    Milliseconds.  [SDL_GetTicks()] is an unsigned number of 32 bits, [ticks_]
    and [last_ticks_] are signed ones; a value that does not fit is reduced
    modulo 2^32 (implementation-defined before C++20, but every compiler does
    it).  Float arithmetic is exact here (rational numbers); [SDL_Delay] takes
    an integer, so the delay is rounded down. *)
Definition two31 : Z := 2147483648.
Definition two32 : Z := 4294967296.
Definition to_int (x : Z) : Z := ((x + two31) mod two32 - two31)%Z.

Record fps := Fps {
  per_frame : Q;              (* ticks_per_frame_ *)
  max_frame : Q;              (* max_ticks_per_frame_ *)
  ticks : Z;                  (* ticks_ *)
  frames : nat;               (* frame_count_ *)
  last : Z }.                 (* last_ticks_ *)

(** l. 47-55; [now]: SDL_GetTicks() *)
Definition fps_new (rate min_rate : positive) (now : Z) : fps :=
  Fps (1000 # rate) (1000 # min_rate) (to_int now) 0 0.

Definition qmin (x y : Q) : Q := if Qle_bool x y then x else y.

(** l. 57-71.  [now]: SDL_GetTicks() at l. 59, [later]: at l. 66.  Result: how long
    SDL_Delay is called for (if it is), the value returned, the new state. *)
Definition fps_step (now later : Z) (f : fps) : option Z * Q * fps :=
  let delta := ((now - ticks f) mod two32)%Z in
  let target := (inject_Z (last f) + per_frame f * inject_Z (Z.of_nat (frames f)))%Q in
  let dt := qmin (inject_Z delta) (max_frame f) in
  if Qle_bool (inject_Z now) target
  then (Some (Qfloor (target - inject_Z now)), dt,
        Fps (per_frame f) (max_frame f) (to_int now) (S (frames f)) (last f))
  else (None, dt, Fps (per_frame f) (max_frame f) (to_int now) 1 (to_int later)).
