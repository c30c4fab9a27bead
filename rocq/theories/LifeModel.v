(** Model of the lifetime of a store
      /repo/lager/store.hpp         (store_node: 118-199; who owns it: 205-209)
      /repo/lager/context.hpp       (dispatcher_ and loop_ refer to the store node:
                                     142, 205-220, 306-320)
      /repo/lager/future.hpp        (promise::with_loop keeps a reference to the loop: 128-131)
      /repo/lager/commit.hpp        (commit: 22-45)
      /repo/lager/event_loop/manual.hpp, /repo/lager/event_loop/queue.hpp.

    The node of a store is owned by [std::shared_ptr]s: that of the store object,
    those of readers made from it, of watching copies, and of [commit] while it
    runs (store.hpp:65 returns a copy).  Nothing else owns it: the posted functions
    and the context have [this] and promises a reference to the member [loop].  Every
    use of the node here asks whether it still exists.

    StoreModel.v says what a store does; here the same functions are followed for what
    they touch.  Simplifications:
    - what is said in StoreModel.v of jobs, loops, promises and futures holds here;
      there are no other threads;
    - readers made from the store only count as owners; watchers (those of the store
      object are like those of a reader that is made when they are) are those of the
      node itself (WatchModel.v and NodesModel.v have the rest);
    - functions own no reader: an effect or a posted function that has one would keep
      the node as long as it exists itself. *)
From Coq Require Import List Arith Bool.
Import ListNotations.

Section Life.

Variables M A W : Type.

(** Client code, as in StoreModel.v *)
Inductive prog :=
| PRet (f : option nat)
| PThrow
| PGet (k : M -> prog)                          (* get() of the store or of a reader *)
| PWorld (k : W -> prog)
| PSet (w : W) (k : prog)
| PDispatch (a : A) (k : option nat -> prog)    (* ctx.dispatch(a), store.dispatch(a) *)
| PPost (p : prog) (k : prog)                   (* ctx.loop().post(p) *)
| PQueue (p : prog) (k : prog)                  (* queue.post(p), queue.hpp:28 *)
| PThen (f : option nat) (cb : prog) (k : option nat -> prog)
| PPromise (mine : bool) (k : nat -> prog)      (* with_loop(ctx.loop()) or with_loop(queue) *)
| PFulfil (n : nat) (k : prog)
| PCommit (k : prog)                            (* commit(store) *)
| PHold (k : prog)                              (* one more reader *)
| PDrop (k : prog)                              (* the store, or a reader, is destroyed *)
| PWatch (w : M -> prog) (k : nat -> prog)      (* one more reader, with a callback *)
| PUnwatch (i : nat) (k : prog)                 (* it is destroyed *)
| PStep (k : prog)                              (* step() of the queue loop *)
| PTry (p : prog) (k : bool -> prog).

Variable reducer : M -> A -> option (M * option prog).
Variable eqb : M -> M -> bool.
Variable trans : bool.                          (* is_transactional, store.hpp:132 *)
Variable futures : bool.                        (* has_futures, store.hpp:134 *)
(** [true]: manual.hpp, a member of the node; [false]: with_queue_event_loop,
    queue.hpp:58-79, that refers to a queue outside. *)
Variable manual : bool.

Inductive callback :=
| CBUser (p : prog)
| CBFulfil (n : nat).

Inductive job :=
| JReduce (p : option nat) (a : A)              (* store.hpp:156-196 *)
| JEffect (p : option nat) (e : prog)           (* store.hpp:165-182 *)
| JNotify (p : option nat)                      (* store.hpp:186-191 *)
| JUser (p : prog)
| JCb (c : callback) (p : nat).                 (* future.hpp:205-213 *)

(** promise_state, future.hpp:28-38.  [mine]: its [post] refers to the loop of the node. *)
Record cell := Cell { mine : bool; done : bool; locked : bool; cb : option job }.

(** What happened; newest first. *)
Inductive event :=
| EFree (inside : bool) (waiting : nat)         (* the node is destroyed; see [release] *)
| EReduce (a : A)                               (* the reducer is called *)
| EEffect                                       (* an effect is called *)
| ESee (i : nat) (m : M)                        (* watcher [i] is called *)
| EPromise (mine : bool).                       (* the client makes a promise *)

Record st := St {
  alive : bool;                                 (* the node exists *)
  objects : nat;                                (* store and readers *)
  pins : nat;                                   (* copies of the pointer in commit *)
  inside : bool;                                (* ghost: the loop of the node is running *)
  calling : list nat;                           (* the watchers that are being called *)
  cur : M; last : M; nsd : bool; nn : bool;     (* nodes.hpp:186-190 *)
  slots : list (option (M -> prog));
  heap : list cell;
  q : list job;
  busy : bool;
  world : W;
  log : list event }.

Definition emit (e : event) (s : st) : st :=
  St (alive s) (objects s) (pins s) (inside s) (calling s) (cur s) (last s) (nsd s) (nn s) (slots s)
     (heap s) (q s) (busy s) (world s) (e :: log s).
Definition set_objects (x : nat) (s : st) : st :=
  St (alive s) x (pins s) (inside s) (calling s) (cur s) (last s) (nsd s) (nn s) (slots s)
     (heap s) (q s) (busy s) (world s) (log s).
Definition set_pins (x : nat) (s : st) : st :=
  St (alive s) (objects s) x (inside s) (calling s) (cur s) (last s) (nsd s) (nn s) (slots s)
     (heap s) (q s) (busy s) (world s) (log s).
Definition set_inside (x : bool) (s : st) : st :=
  St (alive s) (objects s) (pins s) x (calling s) (cur s) (last s) (nsd s) (nn s) (slots s)
     (heap s) (q s) (busy s) (world s) (log s).
Definition set_calling (x : list nat) (s : st) : st :=
  St (alive s) (objects s) (pins s) (inside s) x (cur s) (last s) (nsd s) (nn s) (slots s)
     (heap s) (q s) (busy s) (world s) (log s).
Definition set_slots (x : list (option (M -> prog))) (s : st) : st :=
  St (alive s) (objects s) (pins s) (inside s) (calling s) (cur s) (last s) (nsd s) (nn s) x
     (heap s) (q s) (busy s) (world s) (log s).
Definition set_heap (x : list cell) (s : st) : st :=
  St (alive s) (objects s) (pins s) (inside s) (calling s) (cur s) (last s) (nsd s) (nn s) (slots s)
     x (q s) (busy s) (world s) (log s).
Definition set_q (x : list job) (s : st) : st :=
  St (alive s) (objects s) (pins s) (inside s) (calling s) (cur s) (last s) (nsd s) (nn s) (slots s)
     (heap s) x (busy s) (world s) (log s).
Definition set_busy (x : bool) (s : st) : st :=
  St (alive s) (objects s) (pins s) (inside s) (calling s) (cur s) (last s) (nsd s) (nn s) (slots s)
     (heap s) (q s) x (world s) (log s).
Definition set_world (x : W) (s : st) : st :=
  St (alive s) (objects s) (pins s) (inside s) (calling s) (cur s) (last s) (nsd s) (nn s) (slots s)
     (heap s) (q s) (busy s) x (log s).
Definition set_nn (x : bool) (s : st) : st :=
  St (alive s) (objects s) (pins s) (inside s) (calling s) (cur s) (last s) (nsd s) x (slots s)
     (heap s) (q s) (busy s) (world s) (log s).

(** reader_node::push_down, nodes.hpp:204-211 *)
Definition push_down (m : M) (s : st) : st :=
  if eqb m (cur s) then s
  else St (alive s) (objects s) (pins s) (inside s) (calling s) m (last s) true (nn s) (slots s)
          (heap s) (q s) (busy s) (world s) (log s).
(** reader_node::send_down, nodes.hpp:213-226 *)
Definition send_down (s : st) : st :=
  if nsd s then
    St (alive s) (objects s) (pins s) (inside s) (calling s) (cur s) (cur s) false true (slots s)
       (heap s) (q s) (busy s) (world s) (log s)
  else s.

Fixpoint set_nth {X} (n : nat) (x : X) (l : list X) : list X :=
  match l, n with
  | [], _ => []
  | _ :: r, 0 => x :: r
  | y :: r, S n' => y :: set_nth n' x r
  end.
Definition upd_cell (n : nat) (c : cell) (s : st) : st := set_heap (set_nth n c (heap s)) s.
(** promise::with_post, future.hpp:136-141 *)
Definition new_cell (b : bool) (s : st) : st := set_heap (heap s ++ [Cell b false false None]) s.
Definition push_job (j : job) (s : st) : st := set_q (q s ++ [j]) s.

(** A posted function that uses [this]. *)
Definition own (j : job) : bool :=
  match j with JReduce _ _ | JEffect _ _ | JNotify _ => true | _ => false end.

(** Some object to read from. *)
Definition some_object (s : st) : bool :=
  (0 <? objects s) || existsb (fun w => match w with Some _ => true | None => false end) (slots s).

(** The [shared_ptr] count after an owner is gone.  The manual loop is a member and takes
    its functions along.  The event says whether that loop was running just then and
    how many functions of the node were waiting. *)
Definition release (s : st) : st :=
  if alive s && negb (some_object s) && (pins s =? 0) then
    let s1 := emit (EFree (inside s) (length (filter own (q s)))) s in
    St false (objects s1) (pins s1) (inside s1) (calling s1) (cur s1) (last s1) (nsd s1) (nn s1)
       (slots s1) (heap s1) (if manual then [] else q s1) (busy s1) (world s1) (log s1)
  else s.

(** Who used the node when it did not exist any more: a function of the store that the
    loop calls or that is still running; a promise or future of the store that posts its
    callback; the client through a context. *)
Inductive why := RLoop | RFuture | RContext.

Inductive res :=
| Done (f : option nat) (s : st)
| Thrown (s : st)
| Freed (w : why) (s : st)                      (* use after free *)
| Misuse                                        (* client error; see where it is used *)
| Deadlock                                      (* a mutex is locked twice by one thread *)
| OutOfFuel.
Definition andthen (r : res) (k : option nat -> st -> res) : res :=
  match r with Done f s => k f s | r => r end.
Definition touch (w : why) (s : st) (r : res) : res := if alive s then r else Freed w s.
(** At the end of something, by an exception or not *)
Definition finally (r : res) (h : st -> st) : res :=
  match r with Done f s => Done f (h s) | Thrown s => Thrown (h s) | r => r end.
(** ... that uses the node *)
Definition leave (r : res) (h : st -> st) : res :=
  match r with
  | Done f s => touch RLoop s (Done f (h s))
  | Thrown s => touch RLoop s (Thrown (h s))
  | r => r
  end.

Inductive task :=
| TProg (p : prog)
| TPost (w : why) (j : job)                     (* loop.post() on the member of the node *)
| TQueue (j : job)                              (* post() of the queue outside *)
| TDrain
| TJob (j : job)
| TNotify
| TSlots (i : nat)
| TFulfil (n : nat)
| TThen (f : option nat) (c : callback).

Fixpoint exec (fuel : nat) (t : task) (s : st) : res :=
  match fuel with
  | 0 => OutOfFuel
  | S fl =>
    match t with
    | TProg p =>
        match p with
        | PRet f => Done f s
        | PThrow => Thrown s
        | PGet k => if some_object s then exec fl (TProg (k (last s))) s else Misuse
        | PWorld k => exec fl (TProg (k (world s))) s
        | PSet w k => exec fl (TProg k) (set_world w s)
        (* context.hpp:307-311, store.hpp:141, 149-155, 197 *)
        | PDispatch a k =>
            touch RContext s
              (let f := if futures then Some (length (heap s)) else None in
               let s1 := if futures then new_cell true s else s in
               andthen (exec fl (TPost RContext (JReduce f a)) s1)
                       (fun _ s2 => exec fl (TProg (k f)) s2))
        (* context.hpp:214, 313 *)
        | PPost p k =>
            andthen (exec fl (TPost RContext (JUser p)) s) (fun _ s1 => exec fl (TProg k) s1)
        | PQueue p k =>
            andthen (exec fl (TQueue (JUser p)) s) (fun _ s1 => exec fl (TProg k) s1)
        | PThen f c k =>
            andthen (exec fl (TThen f (CBUser c)) s) (fun f' s1 => exec fl (TProg (k f')) s1)
        (* with the manual loop there is no other one *)
        | PPromise b k =>
            if manual && negb b then Misuse
            else exec fl (TProg (k (length (heap s)))) (emit (EPromise b) (new_cell b s))
        | PFulfil n k =>
            andthen (exec fl (TFulfil n) s) (fun _ s1 => exec fl (TProg k) s1)
        (* commit.hpp:22-33, 40-45; store.hpp:65 *)
        | PCommit k =>
            if some_object s then
              andthen (finally (exec fl TNotify (set_pins (S (pins s)) (send_down s)))
                               (fun s1 => release (set_pins (pred (pins s1)) s1)))
                      (fun _ s2 => exec fl (TProg k) s2)
            else Misuse
        | PHold k =>
            if some_object s then exec fl (TProg k) (set_objects (S (objects s)) s) else Misuse
        | PDrop k =>
            match objects s with
            | 0 => Misuse
            | S o => exec fl (TProg k) (release (set_objects o s))
            end
        | PWatch w k =>
            if some_object s then
              exec fl (TProg (k (length (slots s)))) (set_slots (slots s ++ [Some w]) s)
            else Misuse
        (* destroying a reader in its own callback: see C17 *)
        | PUnwatch i k =>
            match nth_error (slots s) i with
            | Some (Some _) =>
                if existsb (Nat.eqb i) (calling s) then Misuse
                else exec fl (TProg k) (release (set_slots (set_nth i None (slots s)) s))
            | _ => Misuse
            end
        (* calling it from a posted function: see C29_nested_step_refuted *)
        | PStep k =>
            if manual || busy s then Misuse
            else andthen (finally (exec fl TDrain (set_busy true s)) (set_busy false))
                         (fun _ s1 => exec fl (TProg k) s1)
        | PTry p k =>
            match exec fl (TProg p) s with
            | Done _ s1 => exec fl (TProg (k true)) s1
            | Thrown s1 => exec fl (TProg (k false)) s1
            | r => r
            end
        end
    (* manual.hpp:33-52; queue.hpp:67-71 *)
    | TPost w j =>
        touch w s
          (if manual && negb (busy s) then
             leave (exec fl TDrain (set_inside true (set_busy true (push_job j s))))
                   (fun s1 => set_inside (inside s) (set_busy false s1))
           else Done None (push_job j s))
    | TQueue j => if manual then Misuse else Done None (push_job j s)
    (* manual.hpp:40-47, queue.hpp:42-51 *)
    | TDrain =>
        if manual && negb (alive s) then Freed RLoop s
        else match q s with
             | [] => Done None s
             | j :: r => andthen (exec fl (TJob j) (set_q r s)) (fun _ s1 => exec fl TDrain s1)
             end
    (* store.hpp:158-195, effect.hpp:207-235 *)
    | TJob (JReduce p a) =>
        touch RLoop s
          (let s0 := emit (EReduce a) s in
           match reducer (cur s0) a with
           | None => Thrown s0
           | Some (m, Some e) =>
               andthen (exec fl (TPost RLoop (JEffect p e)) s0)
                       (fun _ s1 => touch RLoop s1 (Done None (push_down m s1)))
           | Some (m, None) =>
               andthen
                 (if trans then match p with Some n => exec fl (TFulfil n) s0 | None => Done None s0 end
                  else exec fl (TPost RLoop (JNotify p)) s0)
                 (fun _ s1 => touch RLoop s1 (Done None (push_down m s1)))
           end)
    (* store.hpp:168-181; the effect is part of the function, [ctx] of the node *)
    | TJob (JEffect p e) =>
        touch RLoop s
          (andthen (if trans then Done None s else exec fl TNotify (send_down s)) (fun _ s1 =>
           touch RLoop s1
             (andthen (exec fl (TProg e) (emit EEffect s1)) (fun f s2 =>
              match p with
              | Some n => exec fl (TThen f (CBFulfil n)) s2
              | None => Done None s2
              end))))
    (* store.hpp:187-190 *)
    | TJob (JNotify p) =>
        touch RLoop s
          (andthen (exec fl TNotify (send_down s)) (fun _ s1 =>
           match p with Some n => exec fl (TFulfil n) s1 | None => Done None s1 end))
    | TJob (JUser p) => exec fl (TProg p) s
    (* future.hpp:206-212 *)
    | TJob (JCb (CBUser c) n) =>
        andthen (exec fl (TProg c) s) (fun f s1 => exec fl (TThen f (CBFulfil n)) s1)
    | TJob (JCb (CBFulfil m) n) =>
        andthen (exec fl (TFulfil m) s) (fun _ s1 => exec fl (TFulfil n) s1)
    (* reader_node::notify, nodes.hpp:228-256; the guard is left at the end, l. 234 *)
    | TNotify =>
        if nn s && negb (nsd s) then
          leave (exec fl (TSlots 0) (set_nn false s)) (fun s1 => s1)
        else Done None s
    (* signal.hpp:73-78 *)
    | TSlots i =>
        touch RLoop s
          (match nth_error (slots s) i with
           | None => Done None s
           | Some None => exec fl (TSlots (S i)) s
           | Some (Some w) =>
               andthen (finally (exec fl (TProg (w (last s))) (set_calling (i :: calling s) (emit (ESee i (last s)) s)))
                                (set_calling (calling s)))
                       (fun _ s1 => exec fl (TSlots (S i)) s1)
           end)
    (* promise::operator(), future.hpp:156-180 *)
    | TFulfil n =>
        match nth_error (heap s) n with
        | None => Misuse
        | Some (Cell _ _ true _) => Deadlock
        | Some (Cell b true false _) => Done None (upd_cell n (Cell b true false None) s)
        | Some (Cell b false false None) => Done None (upd_cell n (Cell b true false None) s)
        | Some (Cell b false false (Some j)) =>
            let s1 := upd_cell n (Cell b false true None) s in
            match exec fl (if b then TPost RFuture j else TQueue j) s1 with
            | Done _ s2 => Done None (upd_cell n (Cell b true false None) s2)
            | Thrown s2 => Thrown (upd_cell n (Cell b false false None) s2)
            | r => r
            end
        end
    (* future::then, future.hpp:190-227 *)
    | TThen None (CBUser c) => exec fl (TProg c) s
    | TThen None (CBFulfil n) => exec fl (TFulfil n) s
    | TThen (Some f) c =>
        match nth_error (heap s) f with
        | None => Misuse
        | Some (Cell _ _ true _) => Deadlock
        | Some (Cell _ _ false (Some _)) => Misuse   (* assert(!state_->callback), l. 203 *)
        | Some (Cell b d false None) =>
            let n := length (heap s) in
            let s1 := new_cell b s in
            if d then
              match exec fl (if b then TPost RFuture (JCb c n) else TQueue (JCb c n))
                            (upd_cell f (Cell b true true None) s1) with
              | Done _ s2 => Done (Some n) (upd_cell f (Cell b true false None) s2)
              | Thrown s2 => Thrown (upd_cell f (Cell b true false None) s2)
              | r => r
              end
            else Done (Some n) (upd_cell f (Cell b false false (Some (JCb c n))) s1)
        end
    end
  end.

(** A new store *)
Definition init (m : M) (w : W) : st :=
  St true 1 0 false [] m m false false [] [] [] false w [].
Definition run (fuel : nat) (m : M) (w : W) (p : prog) : res := exec fuel (TProg p) (init m w).

End Life.

Arguments PRet {M A W}. Arguments PThrow {M A W}. Arguments PGet {M A W}. Arguments PWorld {M A W}.
Arguments PSet {M A W}. Arguments PDispatch {M A W}. Arguments PPost {M A W}. Arguments PQueue {M A W}.
Arguments PThen {M A W}. Arguments PPromise {M A W}. Arguments PFulfil {M A W}. Arguments PCommit {M A W}.
Arguments PHold {M A W}. Arguments PDrop {M A W}. Arguments PWatch {M A W}. Arguments PUnwatch {M A W}.
Arguments PStep {M A W}. Arguments PTry {M A W}.
Arguments CBUser {M A W}. Arguments CBFulfil {M A W}.
Arguments JReduce {M A W}. Arguments JEffect {M A W}. Arguments JNotify {M A W}. Arguments JUser {M A W}.
Arguments JCb {M A W}. Arguments Cell {M A W}. Arguments mine {M A W}. Arguments done {M A W}.
Arguments locked {M A W}. Arguments cb {M A W}.
Arguments EFree {M A}. Arguments EReduce {M A}. Arguments EEffect {M A}. Arguments ESee {M A}.
Arguments EPromise {M A}.
Arguments St {M A W}. Arguments alive {M A W}. Arguments objects {M A W}. Arguments pins {M A W}.
Arguments inside {M A W}. Arguments calling {M A W}. Arguments cur {M A W}. Arguments last {M A W}.
Arguments nsd {M A W}. Arguments nn {M A W}. Arguments slots {M A W}. Arguments heap {M A W}.
Arguments q {M A W}. Arguments busy {M A W}. Arguments world {M A W}. Arguments log {M A W}.
Arguments emit {M A W}. Arguments set_objects {M A W}. Arguments set_pins {M A W}.
Arguments set_inside {M A W}. Arguments set_calling {M A W}. Arguments set_slots {M A W}.
Arguments set_heap {M A W}. Arguments set_q {M A W}. Arguments set_busy {M A W}.
Arguments set_world {M A W}. Arguments set_nn {M A W}. Arguments push_down {M A W}.
Arguments send_down {M A W}. Arguments upd_cell {M A W}. Arguments new_cell {M A W}.
Arguments push_job {M A W}. Arguments own {M A W}. Arguments some_object {M A W}.
Arguments release {M A W}. Arguments Done {M A W}. Arguments Thrown {M A W}. Arguments Freed {M A W}.
Arguments Misuse {M A W}. Arguments Deadlock {M A W}. Arguments OutOfFuel {M A W}.
Arguments andthen {M A W}. Arguments touch {M A W}. Arguments finally {M A W}. Arguments leave {M A W}.
Arguments TProg {M A W}. Arguments TPost {M A W}. Arguments TQueue {M A W}. Arguments TDrain {M A W}.
Arguments TJob {M A W}. Arguments TNotify {M A W}. Arguments TSlots {M A W}. Arguments TFulfil {M A W}.
Arguments TThen {M A W}. Arguments exec {M A W}. Arguments init {M A W}. Arguments run {M A W}.
