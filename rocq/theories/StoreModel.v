(** Model of the store, its futures and its effects
      /repo/lager/store.hpp         (store_node::dispatch, 149-198)
      /repo/lager/effect.hpp        (invoke_reducer 207-235)
      /repo/lager/future.hpp        (promise, future)
    running on a first-in first-out event loop
      /repo/lager/event_loop/manual.hpp, /repo/lager/event_loop/queue.hpp.

    Simplifications:
    - The loop is a list of jobs.  That the vectors with indices and moved-out
      elements of manual.hpp and queue.hpp behave like this is C28, C29.
    - The functions posted by the store are closures in C++; here they are data
      ([job]), run by [exec] task [TJob].
    - Only the store's own node is modelled, with its watchers; readers derived
      from it are the subject of the Nodes files.
    - The context passed to effects is implicit: every program may dispatch,
      post, etc.
    - A callback or effect returning void is one returning the empty future:
      [fn(); p();] and [fn().then(p)] do the same for it (future.hpp:193-199,
      207-212).
    - Promises and futures are numbers of cells.  A client can only fulfil
      promises it created; futures can be copied (future.hpp:73-80), so a
      client may use one twice. *)
From Coq Require Import List Arith Bool.
Import ListNotations.

Section Store.

Variables M A W : Type.

(** Client code: the main program, watchers, effects, future callbacks, posted
    functions.  It ends by returning a future ([None]: the empty one) or with an
    exception. *)
Inductive prog :=
| PRet (f : option nat)
| PThrow
| PGet (k : M -> prog)                          (* store.get() *)
| PWorld (k : W -> prog)                        (* anything else the program looks at *)
| PSet (w : W) (k : prog)
| PMark (n : nat) (k : prog)                    (* something observable *)
| PDispatch (a : A) (k : option nat -> prog)    (* ctx.dispatch(a) *)
| PThen (f : option nat) (cb : prog) (k : option nat -> prog) (* std::move(f).then(cb) *)
| PPost (p : prog) (k : prog)                   (* ctx.loop().post(p) *)
| PPromise (k : nat -> prog)                    (* promise::with_loop(loop) *)
| PFulfil (n : nat) (k : prog)                  (* p() on a copy of that promise *)
| PCommit (k : prog)                            (* commit(store) *)
| PWatch (w : M -> prog) (k : nat -> prog)      (* watch(store, w) *)
| PUnwatch (i : nat) (k : prog)                 (* disconnect *)
| PStep (k : prog)                              (* step() of the queue loop *)
| PTry (p : prog) (k : bool -> prog).           (* [false]: p threw *)

(** The reducer; [None]: it throws; [(m, None)]: no or empty effect. *)
Variable reducer : M -> A -> option (M * option prog).
(** operator== of the model; constantly [false] if there is none (nodes.hpp:103-113). *)
Variable eqb : M -> M -> bool.
Variable trans : bool.                          (* is_transactional, store.hpp:132 *)
Variable futures : bool.                        (* has_futures, store.hpp:134 *)
Variable manual : bool.                         (* manual.hpp or queue.hpp *)
(** Actions dispatched by other threads: [ext n] arrives at the [n]-th moment.
    None on the manual loop, which is not thread safe. *)
Variable ext : nat -> list A.

(** A callback chained to a future: client code, or [std::move(p)]. *)
Inductive callback :=
| CBUser (p : prog)
| CBFulfil (n : nat).

(** Functions posted to the loop.  [id] numbers the dispatches and is ghost. *)
Inductive job :=
| JReduce (id : nat) (p : option nat) (a : A)      (* store.hpp:156-196 *)
| JEffect (id : nat) (p : option nat) (e : prog)   (* store.hpp:165-182 *)
| JNotify (id : nat) (p : option nat)              (* store.hpp:186-191 *)
| JUser (p : prog)
| JCb (src : nat) (c : callback) (p : nat).        (* future.hpp:205-213; [src] is ghost *)

(** What a cell is for; ghost, except that clients can only fulfil [KUser]. *)
Inductive ckind := KUser | KDisp | KThen | KLink.

(** promise_state, future.hpp:28-38 *)
Record cell := Cell { kind : ckind; done : bool; locked : bool; cb : option job }.

(** What happened; newest first. *)
Inductive event :=
| EDisp (id : nat) (a : A) (p : option nat)     (* dispatch number [id], its future *)
| ERed (id : nat) (m : M) (e : bool)            (* reducer returned [m], and an effect or not *)
| ERedFail (id : nat)                           (* reducer threw *)
| EBegin (id : nat) (e : prog)                  (* the job with effect [e] starts *)
| ETold (id : nat)                              (* watchers notified after dispatch [id] *)
| EEff (id : nat) (m : M) (e : prog)            (* effect [e] starts; get() would return [m] *)
| ELost (id : nat)                              (* a watcher threw before the effect *)
| EEffEnd (id : nat) (f : option nat)           (* effect returned future [f] *)
| EConn (i : nat) (m : M)                       (* watcher [i] connected when get() was [m] *)
| EDisc (i : nat)
| ESee (i : nat) (m : M)                        (* watcher [i] called with [m] *)
| ECommit
| EProm (n : nat)                               (* client creates promise [n] *)
| EDone (n : nat)                               (* promise [n] fulfilled *)
| EThen (f n : nat) (c : prog)                  (* callback chained to [f]; [n] is the new future *)
| ELink (f m n : nat)                           (* promise [m] chained to [f] *)
| ECb (n : nat) (c : prog)                      (* callback [c] with new future [n] starts *)
| ECbEnd (n : nat) (f : option nat)             (* it returned future [f] *)
| EMark (n : nat)
| EFail.                                        (* an exception left a job or a watcher *)

Record st := St {
  cur : M; last : M; nsd : bool; nn : bool;     (* nodes.hpp:186-190, reader_node *)
  slots : list (option (M -> prog));
  heap : list cell;
  q : list job;
  busy : bool;                                  (* the loop is running a function *)
  clock : nat;
  ndisp : nat;
  world : W;
  log : list event }.

Definition emit (e : event) (s : st) : st :=
  St (cur s) (last s) (nsd s) (nn s) (slots s) (heap s) (q s) (busy s) (clock s) (ndisp s)
     (world s) (e :: log s).
Definition set_q (x : list job) (s : st) : st :=
  St (cur s) (last s) (nsd s) (nn s) (slots s) (heap s) x (busy s) (clock s) (ndisp s)
     (world s) (log s).
Definition set_heap (x : list cell) (s : st) : st :=
  St (cur s) (last s) (nsd s) (nn s) (slots s) x (q s) (busy s) (clock s) (ndisp s)
     (world s) (log s).
Definition set_slots (x : list (option (M -> prog))) (s : st) : st :=
  St (cur s) (last s) (nsd s) (nn s) x (heap s) (q s) (busy s) (clock s) (ndisp s)
     (world s) (log s).
Definition set_busy (x : bool) (s : st) : st :=
  St (cur s) (last s) (nsd s) (nn s) (slots s) (heap s) (q s) x (clock s) (ndisp s)
     (world s) (log s).
Definition set_world (x : W) (s : st) : st :=
  St (cur s) (last s) (nsd s) (nn s) (slots s) (heap s) (q s) (busy s) (clock s) (ndisp s)
     x (log s).
Definition set_nn (x : bool) (s : st) : st :=
  St (cur s) (last s) (nsd s) x (slots s) (heap s) (q s) (busy s) (clock s) (ndisp s)
     (world s) (log s).
Definition tick (s : st) : st :=
  St (cur s) (last s) (nsd s) (nn s) (slots s) (heap s) (q s) (busy s) (S (clock s)) (ndisp s)
     (world s) (log s).

(** reader_node::push_down, nodes.hpp:204-211 *)
Definition push_down (m : M) (s : st) : st :=
  if eqb m (cur s) then s
  else St m (last s) true (nn s) (slots s) (heap s) (q s) (busy s) (clock s) (ndisp s)
          (world s) (log s).
(** reader_node::send_down, nodes.hpp:213-227; recompute() of a store does
    nothing (store.hpp:43) and there are no children here *)
Definition send_down (s : st) : st :=
  if nsd s then St (cur s) (cur s) false true (slots s) (heap s) (q s) (busy s) (clock s)
                   (ndisp s) (world s) (log s)
  else s.

Fixpoint set_nth {X} (n : nat) (x : X) (l : list X) : list X :=
  match l, n with
  | [], _ => []
  | _ :: r, 0 => x :: r
  | y :: r, S n' => y :: set_nth n' x r
  end.
Definition upd_cell (n : nat) (c : cell) (s : st) : st := set_heap (set_nth n c (heap s)) s.
(** promise::with_post, future.hpp:136-141 *)
Definition new_cell (k : ckind) (s : st) : st := set_heap (heap s ++ [Cell k false false None]) s.
Definition push_job (j : job) (s : st) : st := set_q (q s ++ [j]) s.

(** The first half of dispatch, store.hpp:151-155: the promise/future pair and the
    job; the job is not posted yet. *)
Definition new_dispatch (a : A) (s : st) : st * option nat * job :=
  let p := if futures then Some (length (heap s)) else None in
  let s1 := if futures then new_cell KDisp s else s in
  (emit (EDisp (ndisp s) a p)
     (St (cur s1) (last s1) (nsd s1) (nn s1) (slots s1) (heap s1) (q s1) (busy s1) (clock s1)
         (S (ndisp s1)) (world s1) (log s1)),
   p, JReduce (ndisp s) p a).

(** Dispatches of other threads; their posts only queue the job. *)
Definition arrive1 (s : st) (a : A) : st :=
  let '(s1, _, j) := new_dispatch a s in push_job j s1.
Definition arrive (s : st) : st :=
  if manual then s else tick (fold_left arrive1 (ext (clock s)) s).

Inductive res :=
| Done (f : option nat) (s : st)
| Thrown (s : st)
| Misuse                                        (* client error; see where it is used *)
| Deadlock                                      (* a mutex is locked twice by one thread *)
| OutOfFuel.
Definition andthen (r : res) (k : option nat -> st -> res) : res :=
  match r with Done f s => k f s | r => r end.
(** Exceptions: something to be done on the way out. *)
Definition on_throw (r : res) (h : st -> st) : res :=
  match r with Thrown s => Thrown (h s) | r => r end.

Inductive task :=
| TProg (p : prog)
| TPost (j : job)
| TRun
| TDrain
| TJob (j : job)
| TNotify
| TSlots (i : nat)
| TFulfil (n : nat)
| TThen (f : option nat) (c : callback).

Fixpoint exec (fuel : nat) (t : task) (s : st) : res :=
  match fuel with
  | 0 => OutOfFuel
  | S fl =>
    match t with
    | TProg p =>
        let s := arrive s in
        match p with
        | PRet f => Done f s
        | PThrow => Thrown s
        | PGet k => exec fl (TProg (k (last s))) s
        | PWorld k => exec fl (TProg (k (world s))) s
        | PSet w k => exec fl (TProg k) (set_world w s)
        | PMark n k => exec fl (TProg k) (emit (EMark n) s)
        | PDispatch a k =>
            let '(s1, f, j) := new_dispatch a s in
            andthen (exec fl (TPost j) s1) (fun _ s2 => exec fl (TProg (k f)) s2)
        | PThen f c k =>
            andthen (exec fl (TThen f (CBUser c)) s) (fun f' s1 => exec fl (TProg (k f')) s1)
        | PPost p k => andthen (exec fl (TPost (JUser p)) s) (fun _ s1 => exec fl (TProg k) s1)
        | PPromise k =>
            let n := length (heap s) in
            exec fl (TProg (k n)) (emit (EProm n) (new_cell KUser s))
        | PFulfil n k =>
            match nth_error (heap s) n with
            | Some (Cell KUser _ _ _) =>
                andthen (exec fl (TFulfil n) s) (fun _ s1 => exec fl (TProg k) s1)
            | _ => Misuse
            end
        (* commit.hpp: send_down and notify of the root *)
        | PCommit k =>
            andthen (exec fl TNotify (send_down (emit ECommit s))) (fun _ s1 => exec fl (TProg k) s1)
        | PWatch w k =>
            let i := length (slots s) in
            exec fl (TProg (k i)) (emit (EConn i (last s)) (set_slots (slots s ++ [Some w]) s))
        | PUnwatch i k =>
            match nth_error (slots s) i with
            | Some (Some _) => exec fl (TProg k) (emit (EDisc i) (set_slots (set_nth i None (slots s)) s))
            | _ => exec fl (TProg k) s
            end
        (* the manual loop has no step(); calling it from a posted function calls
           moved-out functions, see C29_nested_step_refuted *)
        | PStep k =>
            if manual || busy s then Misuse
            else andthen (exec fl TRun s) (fun _ s1 => exec fl (TProg k) s1)
        | PTry p k =>
            match exec fl (TProg p) s with
            | Done _ s1 => exec fl (TProg (k true)) s1
            | Thrown s1 => exec fl (TProg (k false)) s1
            | r => r
            end
        end
    (* manual.hpp:33-52, queue.hpp:28 *)
    | TPost j =>
        if manual && negb (busy s) then exec fl TRun (push_job j s)
        else Done None (push_job j s)
    (* manual.hpp:38-51, queue.hpp:40-52 *)
    | TRun =>
        match exec fl TDrain (set_busy true s) with
        | Done _ s1 => Done None (set_busy false s1)
        | Thrown s1 => Thrown (set_busy false s1)
        | r => r
        end
    | TDrain =>
        let s := arrive s in
        match q s with
        | [] => Done None s
        | j :: r =>
            andthen (on_throw (exec fl (TJob j) (set_q r s)) (emit EFail))
                    (fun _ s1 => exec fl TDrain s1)
        end
    (* store.hpp:158-195, effect.hpp:207-235 *)
    | TJob (JReduce id p a) =>
        match reducer (cur s) a with
        | None => Thrown (emit (ERedFail id) s)
        | Some (m, Some e) =>
            andthen (exec fl (TPost (JEffect id p e)) (emit (ERed id m true) s))
                    (fun _ s1 => Done None (push_down m s1))
        | Some (m, None) =>
            let s1 := emit (ERed id m false) s in
            andthen
              (if trans then match p with Some n => exec fl (TFulfil n) s1 | None => Done None s1 end
               else exec fl (TPost (JNotify id p)) s1)
              (fun _ s2 => Done None (push_down m s2))
        end
    (* store.hpp:168-181 *)
    | TJob (JEffect id p e) =>
        let s0 := emit (EBegin id e) s in
        andthen (if trans then Done None s0
                 else on_throw (exec fl TNotify (send_down s0)) (emit (ELost id))) (fun _ s1 =>
        andthen (exec fl (TProg e) (emit (EEff id (last s1) e) s1)) (fun f s2 =>
        let s3 := emit (EEffEnd id f) s2 in
        match p with
        | Some n => exec fl (TThen f (CBFulfil n)) s3
        | None => Done None s3
        end))
    (* store.hpp:187-190 *)
    | TJob (JNotify id p) =>
        andthen (exec fl TNotify (send_down s)) (fun _ s1 =>
        let s2 := emit (ETold id) s1 in
        match p with Some n => exec fl (TFulfil n) s2 | None => Done None s2 end)
    | TJob (JUser p) => exec fl (TProg p) s
    (* future.hpp:206-212 *)
    | TJob (JCb _ (CBUser c) n) =>
        andthen (exec fl (TProg c) (emit (ECb n c) s)) (fun f s1 =>
        exec fl (TThen f (CBFulfil n)) (emit (ECbEnd n f) s1))
    | TJob (JCb _ (CBFulfil m) n) =>
        andthen (exec fl (TFulfil m) s) (fun _ s1 => exec fl (TFulfil n) s1)
    (* reader_node::notify, nodes.hpp:229-260 *)
    | TNotify =>
        if nn s && negb (nsd s) then exec fl (TSlots 0) (set_nn false s) else Done None s
    (* signal.hpp:73-78 *)
    | TSlots i =>
        match nth_error (slots s) i with
        | None => Done None s
        | Some None => exec fl (TSlots (S i)) s
        | Some (Some w) =>
            andthen (on_throw (exec fl (TProg (w (last s))) (emit (ESee i (last s)) s)) (emit EFail))
                    (fun _ s1 => exec fl (TSlots (S i)) s1)
        end
    (* promise::operator(), future.hpp:156-180; a copy is used, so [state_] is set *)
    | TFulfil n =>
        match nth_error (heap s) n with
        | None => Misuse
        | Some (Cell _ _ true _) => Deadlock
        | Some (Cell k true false _) => Done None (upd_cell n (Cell k true false None) s)
        | Some (Cell k false false None) =>
            Done None (emit (EDone n) (upd_cell n (Cell k true false None) s))
        | Some (Cell k false false (Some j)) =>
            (* the callback is posted while the mutex is held, l. 172 *)
            match exec fl (TPost j) (emit (EDone n) (upd_cell n (Cell k false true None) s)) with
            | Done _ s1 => Done None (upd_cell n (Cell k true false None) s1)
            | Thrown s1 => Thrown (upd_cell n (Cell k false false None) s1)
            | r => r
            end
        end
    (* future::then, future.hpp:190-227 *)
    | TThen None (CBUser c) => exec fl (TProg c) s
    | TThen None (CBFulfil n) => exec fl (TFulfil n) s
    | TThen (Some f) c =>
        match nth_error (heap s) f with
        | None => Misuse
        | Some (Cell _ _ true _) => Deadlock
        | Some (Cell _ _ false (Some _)) => Misuse   (* assert(!state_->callback), l. 203 *)
        | Some (Cell k d false None) =>
            let n := length (heap s) in
            let s1 := emit (match c with CBUser c => EThen f n c | CBFulfil m => ELink f m n end)
                           (new_cell (match c with CBUser _ => KThen | CBFulfil _ => KLink end) s) in
            if d then
              match exec fl (TPost (JCb f c n)) (upd_cell f (Cell k true true None) s1) with
              | Done _ s2 => Done (Some n) (upd_cell f (Cell k true false None) s2)
              | Thrown s2 => Thrown (upd_cell f (Cell k true false None) s2)
              | r => r
              end
            else Done (Some n) (upd_cell f (Cell k false false (Some (JCb f c n))) s1)
        end
    end
  end.

Definition init (m : M) (w : W) : st := St m m false false [] [] [] false 0 0 w [].
(** A whole client program with a new store. *)
Definition run (fuel : nat) (m : M) (w : W) (p : prog) : res := exec fuel (TProg p) (init m w).

End Store.

Arguments PRet {M A W}. Arguments PThrow {M A W}. Arguments PGet {M A W}. Arguments PWorld {M A W}.
Arguments PSet {M A W}. Arguments PMark {M A W}. Arguments PDispatch {M A W}. Arguments PThen {M A W}.
Arguments PPost {M A W}. Arguments PPromise {M A W}. Arguments PFulfil {M A W}. Arguments PCommit {M A W}.
Arguments PWatch {M A W}. Arguments PUnwatch {M A W}. Arguments PStep {M A W}. Arguments PTry {M A W}.
Arguments CBUser {M A W}. Arguments CBFulfil {M A W}.
Arguments JReduce {M A W}. Arguments JEffect {M A W}. Arguments JNotify {M A W}. Arguments JUser {M A W}.
Arguments JCb {M A W}. Arguments Cell {M A W}. Arguments kind {M A W}. Arguments done {M A W}.
Arguments locked {M A W}. Arguments cb {M A W}.
Arguments EDisp {M A W}. Arguments ERed {M A W}. Arguments ERedFail {M A W}. Arguments EBegin {M A W}.
Arguments ETold {M A W}. Arguments EEff {M A W}. Arguments ELost {M A W}. Arguments EEffEnd {M A W}.
Arguments EConn {M A W}. Arguments EDisc {M A W}. Arguments ESee {M A W}. Arguments ECommit {M A W}.
Arguments EProm {M A W}. Arguments EDone {M A W}. Arguments EThen {M A W}. Arguments ELink {M A W}.
Arguments ECb {M A W}. Arguments ECbEnd {M A W}. Arguments EMark {M A W}. Arguments EFail {M A W}.
Arguments St {M A W}. Arguments cur {M A W}. Arguments last {M A W}. Arguments nsd {M A W}.
Arguments nn {M A W}. Arguments slots {M A W}. Arguments heap {M A W}. Arguments q {M A W}.
Arguments busy {M A W}. Arguments clock {M A W}. Arguments ndisp {M A W}. Arguments world {M A W}.
Arguments log {M A W}.
Arguments emit {M A W}. Arguments set_q {M A W}. Arguments set_heap {M A W}. Arguments set_slots {M A W}.
Arguments set_busy {M A W}. Arguments set_world {M A W}. Arguments set_nn {M A W}. Arguments tick {M A W}.
Arguments push_down {M A W}. Arguments send_down {M A W}. Arguments upd_cell {M A W}.
Arguments new_cell {M A W}. Arguments push_job {M A W}. Arguments new_dispatch {M A W}.
Arguments arrive1 {M A W}. Arguments arrive {M A W}.
Arguments Done {M A W}. Arguments Thrown {M A W}. Arguments Misuse {M A W}. Arguments Deadlock {M A W}.
Arguments OutOfFuel {M A W}. Arguments andthen {M A W}. Arguments on_throw {M A W}.
Arguments TProg {M A W}. Arguments TPost {M A W}. Arguments TRun {M A W}. Arguments TDrain {M A W}.
Arguments TJob {M A W}. Arguments TNotify {M A W}. Arguments TSlots {M A W}. Arguments TFulfil {M A W}.
Arguments TThen {M A W}. Arguments exec {M A W}. Arguments init {M A W}. Arguments run {M A W}.
