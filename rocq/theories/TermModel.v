(** The counter in a terminal: example/counter/counter.hpp,
    example/counter/ncurses/terminal.{hpp,cpp} and main.cpp.

    The program runs in [serv.run()] (main.cpp:111), which calls the functions that are
    ready, first come first served; the terminal and the store have all of theirs there.
    What is assumed of Boost.Asio: an [async_read_some] with [null_buffers] is complete
    when there is something to read, all that are waiting at once; an [async_wait] of a
    signal set is complete when the signal comes, all that are waiting at once, and at once
    if the signal came while none was waiting; [cancel] completes those that are waiting,
    with an error, and not those that are complete already; [run] returns when nothing is
    ready and nothing is waiting.  What is assumed of ncurses: [wget_wch] gives the keys
    that were typed one after the other, and ERR when there is none (nodelay, terminal.cpp:39).

    Simplified: the counter does not overflow; of what is drawn only the number; initialising the terminal is left out. *)
From Coq Require Import List Arith Bool ZArith.
Import ListNotations.
Local Open Scope Z_scope.

(** ** counter.hpp:22-43 *)
Inductive action := Increment | Decrement | Reset (new_value : Z).
Definition update (c : Z) (a : action) : Z :=
  match a with
  | Increment => c + 1
  | Decrement => c - 1
  | Reset v => v
  end.

(** The keys as main.cpp:96-105 tells them apart *)
Inductive key := KUp | KDown | KSpace | KQ | KEsc | KOther (n : nat).

(** What a key does: an action (main.cpp:96-102; [reset_action] has the value 0), stopping
    the terminal (103-105), or nothing. *)
Inductive intent := Dispatch (a : action) | Stop | Ignore.
Definition intent_of (k : key) : intent :=
  match k with
  | KUp => Dispatch Increment
  | KDown => Dispatch Decrement
  | KSpace => Dispatch (Reset 0)
  | KQ | KEsc => Stop
  | KOther _ => Ignore
  end.

(** Functions that are ready: of [next_key_] (terminal.cpp:83-96), of [next_resize_]
    (67-81), each with or without an error; of the store: the reducer of an action and the
    notification (store.hpp:157-164, 186-191, no futures, no effects). *)
Inductive job := JKey (ok : bool) | JResize (ok : bool) | JReduce (a : action) | JNotify.

Record st := St {
  typed : list key;            (** typed and not yet read *)
  reads : nat;                 (** reads that are waiting *)
  waits : nat;                 (** waits for SIGWINCH that are waiting *)
  signals : nat;               (** signals that came while none was *)
  ready : list job;            (** the functions that are ready *)
  looping : bool;              (** a function of [next_key_] is in its loop (90-93) *)
  handler : bool;              (** [handler_] is not empty *)
  current : Z; last : Z; dirty : bool;   (** the node of the store, nodes.hpp:204-219 *)
  screen : list Z;             (** what was drawn, newest first *)
  handed : list key;           (** keys that were given to [handler_], newest first *)
  finished : bool              (** [run] has returned *)
}.

(** terminal.cpp:83-86 *)
Definition next_key (s : st) : st :=
  St (typed s) (S (reads s)) (waits s) (signals s) (ready s) (looping s) (handler s)
     (current s) (last s) (dirty s) (screen s) (handed s) (finished s).

(** terminal.cpp:67-69 *)
Definition next_resize (s : st) : st :=
  match signals s with
  | O => St (typed s) (reads s) (S (waits s)) O (ready s) (looping s) (handler s)
            (current s) (last s) (dirty s) (screen s) (handed s) (finished s)
  | S n => St (typed s) (reads s) (waits s) n (ready s ++ [JResize true]) (looping s)
              (handler s) (current s) (last s) (dirty s) (screen s) (handed s) (finished s)
  end.

(** terminal.cpp:60-65 *)
Definition stop (s : st) : st :=
  St (typed s) O O (signals s)
     (ready s ++ repeat (JKey false) (reads s) ++ repeat (JResize false) (waits s))
     (looping s) false (current s) (last s) (dirty s) (screen s) (handed s) (finished s).

Definition post (j : job) (s : st) : st :=
  St (typed s) (reads s) (waits s) (signals s) (ready s ++ [j]) (looping s) (handler s)
     (current s) (last s) (dirty s) (screen s) (handed s) (finished s).

Definition draw (v : Z) (s : st) : st :=
  St (typed s) (reads s) (waits s) (signals s) (ready s) (looping s) (handler s)
     (current s) (last s) (dirty s) (v :: screen s) (handed s) (finished s).

(** main.cpp:92-108: the function that was given to [start], for a key *)
Definition on_key (k : key) (s : st) : st :=
  match intent_of k with
  | Dispatch a => post (JReduce a) s
  | Stop => stop s
  | Ignore => s
  end.

(** main.cpp:89-111, terminal.cpp:52-58: when [run] is called.  The first read and the first
    wait are waiting; the number was drawn. *)
Definition start : st := St [] 1 1 O [] false true 0 0 false [0] [] false.

(** What can happen next.  By others: a key is typed, the size of the terminal changes, there
    is something to read that is no key (the end of the input, a part of a character).
    By the program: the reads are complete as there is something to read; the next
    function is called (for the size: [ioctl] works or does not); the loop of [next_key_] reads a key,
    or ends as there is none; [run] returns. *)
Inductive label :=
| Type_ (k : key) | Winch | Noise
| Complete | Call (ioctl : bool) | ReadKey | LoopEnd | Return.

(** [Fails]: an empty [handler_] is called; std::bad_function_call leaves [run] and main. *)
Inductive res := Next (s : st) | Fails (s : st) | Not.

Definition complete_reads (s : st) : st :=
  St (typed s) O (waits s) (signals s) (ready s ++ repeat (JKey true) (reads s)) (looping s)
     (handler s) (current s) (last s) (dirty s) (screen s) (handed s) (finished s).

(** A function is called; it was taken from the front. *)
Definition call (ioctl : bool) (j : job) (s : st) : res :=
  match j with
  | JKey false => Next s
  | JKey true =>                                        (* terminal.cpp:86-90 *)
      Next (St (typed s) (reads s) (waits s) (signals s) (ready s) true (handler s)
               (current s) (last s) (dirty s) (screen s) (handed s) (finished s))
  | JResize false => Next s
  | JResize true =>                                     (* terminal.cpp:70-79 *)
      let s1 := next_resize s in
      if ioctl
      then if handler s1 then Next (draw (last s1) s1)  (* main.cpp:107 *)
           else Fails s1
      else Next s1
  | JReduce a =>                                        (* store.hpp:160-164, 186-191 *)
      let v := update (current s) a in
      Next (St (typed s) (reads s) (waits s) (signals s) (ready s ++ [JNotify]) (looping s)
               (handler s) v (last s) (dirty s || negb (v =? current s)) (screen s) (handed s)
               (finished s))
  | JNotify =>                                          (* store.hpp:188-189, nodes.hpp:213-219 *)
      Next (if dirty s
            then St (typed s) (reads s) (waits s) (signals s) (ready s) (looping s) (handler s)
                    (current s) (current s) false (current s :: screen s) (handed s) (finished s)
            else s)
  end.

Definition step (s : st) (l : label) : res :=
  if finished s then Not else
  match l with
  | Type_ k =>
      Next (St (typed s ++ [k]) (reads s) (waits s) (signals s) (ready s) (looping s) (handler s)
               (current s) (last s) (dirty s) (screen s) (handed s) (finished s))
  | Winch =>
      match waits s with
      | O => Next (St (typed s) (reads s) O (S (signals s)) (ready s) (looping s) (handler s)
                      (current s) (last s) (dirty s) (screen s) (handed s) (finished s))
      | n => Next (St (typed s) (reads s) O (signals s) (ready s ++ repeat (JResize true) n)
                      (looping s) (handler s) (current s) (last s) (dirty s) (screen s) (handed s)
                      (finished s))
      end
  | Noise => Next (complete_reads s)
  | Complete =>
      match typed s, reads s with
      | [], _ | _, O => Not
      | _, _ => Next (complete_reads s)
      end
  | Call ioctl =>
      if looping s then Not
      else match ready s with
           | [] => Not
           | j :: r => call ioctl j
                         (St (typed s) (reads s) (waits s) (signals s) r false (handler s)
                             (current s) (last s) (dirty s) (screen s) (handed s) (finished s))
           end
  | ReadKey =>                                          (* terminal.cpp:90-93 *)
      if looping s
      then match typed s with
           | [] => Not
           | k :: r =>
               let s1 := next_key
                 (St r (reads s) (waits s) (signals s) (ready s) true (handler s)
                     (current s) (last s) (dirty s) (screen s) (handed s) (finished s)) in
               if handler s1
               then Next (on_key k
                      (St (typed s1) (reads s1) (waits s1) (signals s1) (ready s1) (looping s1)
                          (handler s1) (current s1) (last s1) (dirty s1) (screen s1)
                          (k :: handed s1) (finished s1)))
               else Fails s1
           end
      else Not
  | LoopEnd =>
      if looping s
      then match typed s with
           | [] => Next (St [] (reads s) (waits s) (signals s) (ready s) false (handler s)
                            (current s) (last s) (dirty s) (screen s) (handed s) (finished s))
           | _ => Not
           end
      else Not
  | Return =>
      if looping s then Not
      else match ready s, reads s, waits s with
           | [], O, O => Next (St (typed s) O O (signals s) [] false (handler s)
                                  (current s) (last s) (dirty s) (screen s) (handed s) true)
           | _, _, _ => Not
           end
  end.

Fixpoint run (ls : list label) (s : st) : res :=
  match ls with
  | [] => Next s
  | l :: r => match step s l with Next s' => run r s' | x => x end
  end.

(** main.cpp:31-33: what the screen says that the keys do *)
Definition instructions : list (key * action) :=
  [(KUp, Decrement); (KDown, Increment); (KSpace, Reset 0)].
