(** Objects that own others through [std::shared_ptr], and a store with a debugger.

    Everything that the library keeps on the heap is made by [std::make_shared] and owned by
    shared pointers: the nodes (lager/detail/nodes.hpp:288 [parents_], lager/watch.hpp:31
    [node_], lager/store.hpp:205-208), the dependencies given by value
    (lager/deps.hpp:474-477), and the object that serves the debugger
    (lager/debug/http_server.hpp:465-470).  A shared pointer destroys its object when it is
    the last one, which destroys the shared pointers inside of the object, and so on.

    Simplified: an object is only the list of the objects that its shared pointers point to;
    weak pointers (lager/detail/nodes.hpp: [children_]) and plain pointers do not count.  The
    objects are numbered in the order in which they are made and a number is not used again.
    Moving a pointer is copying it and dropping the old one. *)
From Coq Require Import List Arith Bool.
Import ListNotations.

(** An object: is it there, and the objects that it owns *)
Record obj := Obj { there : bool; members : list nat }.

(** All objects that were ever made, and the shared pointers in the hands of the program:
    locals, members of objects that are not counted themselves, ... *)
Record heap := Heap { objs : list obj; held : list nat }.

Definition mem (x : nat) (l : list nat) : bool := existsb (Nat.eqb x) l.

Fixpoint remove1 (x : nat) (l : list nat) : list nat :=
  match l with
  | [] => []
  | y :: r => if x =? y then r else y :: remove1 x r
  end.

Fixpoint set_nth (n : nat) (a : obj) (l : list obj) : list obj :=
  match l, n with
  | [], _ => []
  | _ :: r, 0 => a :: r
  | b :: r, S m => b :: set_nth m a r
  end.

Definition members_of (h : heap) (o : nat) : list nat :=
  match nth_error (objs h) o with
  | Some (Obj true ms) => ms
  | _ => []
  end.

Definition is_there (h : heap) (o : nat) : bool :=
  match nth_error (objs h) o with
  | Some (Obj b _) => b
  | None => false
  end.

(** Is there a shared pointer to [x]?  (The use count of [x] is not zero.) *)
Definition owned (h : heap) (x : nat) : bool :=
  mem x (held h)
  || existsb (fun o => if there o then mem x (members o) else false) (objs h).

(** An object to which there is no shared pointer any more *)
Definition unowned (h : heap) : option nat :=
  find (fun x => is_there h x && negb (owned h x)) (seq 0 (length (objs h))).

Definition destroy (x : nat) (h : heap) : heap :=
  Heap (set_nth x (Obj false []) (objs h)) (held h).

(** Destroying objects as long as there are any without an owner; no more can be destroyed
    than were made. *)
Fixpoint settle_with (n : nat) (h : heap) : heap :=
  match n with
  | 0 => h
  | S m => match unowned h with
           | Some x => settle_with m (destroy x h)
           | None => h
           end
  end.
Definition settle (h : heap) : heap := settle_with (length (objs h)) h.

(** What a program does with shared pointers.  It uses only the ones that it has, and those
    inside of the objects that it has a pointer to. *)
Inductive op :=
| Make (ms : list nat)     (** [std::make_shared] of an object with these members *)
| Copy (x : nat)           (** copies a pointer *)
| Get (o x : nat)          (** copies a pointer that is a member of the object *)
| Assign (o x : nat)       (** gives the object a further member *)
| Clear (o x : nat)        (** takes a member away *)
| Drop (x : nat).          (** a pointer goes out of scope *)

Definition step (h : heap) (p : op) : option heap :=
  match p with
  | Make ms =>
      if forallb (fun m => mem m (held h)) ms
      then Some (Heap (objs h ++ [Obj true ms]) (length (objs h) :: held h))
      else None
  | Copy x => if mem x (held h) then Some (Heap (objs h) (x :: held h)) else None
  | Get o x =>
      if mem o (held h) && mem x (members_of h o)
      then Some (Heap (objs h) (x :: held h)) else None
  | Assign o x =>
      if mem o (held h) && mem x (held h)
      then Some (Heap (set_nth o (Obj true (x :: members_of h o)) (objs h)) (held h))
      else None
  | Clear o x =>
      if mem o (held h) && mem x (members_of h o)
      then Some (settle (Heap (set_nth o (Obj true (remove1 x (members_of h o))) (objs h))
                              (held h)))
      else None
  | Drop x =>
      if mem x (held h)
      then Some (settle (Heap (objs h) (remove1 x (held h)))) else None
  end.

Fixpoint run (ps : list op) (h : heap) : option heap :=
  match ps with
  | [] => Some h
  | p :: r => match step h p with Some h' => run r h' | None => None end
  end.

Definition nothing : heap := Heap [] [].

(** lager/store.hpp:205-209 and make_store: a store whose dependencies own [deps].  The node
    owns them through its context (store.hpp:130, 137-146).  The store object holds the node;
    it also holds a copy of the dependencies (store.hpp:206), left out here: more pointers
    in the hands of the program. *)
Definition make_store (deps : list nat) : list op := [Make deps].

(** lager/debug/debugger.hpp:204-218, where [k] objects were made before:
    204 the object that serves the debugger, [handle]; 205-214 the store, with [handle] among
    its dependencies (213); 215-217 a node made from the node of the store (xform), which
    owns it as parent; http_server.hpp:261 [data_], a member of the served object, gets that
    node; 218 the local [handle] goes out of scope.  What stays is the store. *)
Definition with_debugger (k : nat) (deps : list nat) : list op :=
  [Make []]                          (* 204 *)
  ++ make_store (k :: deps)          (* 205-214: object k+1 *)
  ++ [Make [k + 1];                  (* 215-217: object k+2 *)
      Assign k (k + 2); Drop (k + 2) (* http_server.hpp:261 *);
      Drop k].                       (* 218 *)

(** The program with a store that has a debugger, the loop of the store, and the thread of
    the server (http_server.hpp:204-230), that runs from 356 until the object that serves is
    destroyed ([server_], 368, is a member). *)
Record world := World {
  ofheap : heap;
  first : nat;              (** the number of the object that serves *)
  loop_there : bool;        (** the loop outside of the store: an io_context, an
                                sdl_event_loop ... *)
  answers : list bool       (** requests answered, newest first; [true] when it was dispatched *)
}.

Definition served (w : world) : nat := first w.
Definition store_of (w : world) : nat := first w + 1.
Definition data_of (w : world) : nat := first w + 2.

(** What the thread of the server does with a request: GET reads [model_], a member of the
    object that serves (http_server.hpp:265-299, or a file, 339); POST dispatches to the store
    (300-338), which posts to the loop (store.hpp:149-157).
    The context has a plain pointer to the node; the loop is referred to by the node. *)
Inductive request := Look | Act.

Inductive used := NodeGone | LoopGone.

Inductive wop :=
| Client (p : op)           (** the program *)
| EndLoop                   (** the program destroys its loop *)
| Ask (q : request).        (** the server's thread handles a request *)

Inductive wres := Fine (w : world) | Freed (u : used) | Stuck.

(** The members of the three objects are private; they are not changed by the program. *)
Definition private (w : world) (o : nat) : bool :=
  (o =? served w) || (o =? store_of w) || (o =? data_of w).

Definition allowed (w : world) (p : op) : bool :=
  match p with
  | Assign o _ | Clear o _ => negb (private w o)
  | _ => true
  end.

Definition wstep (w : world) (p : wop) : wres :=
  match p with
  | Client p =>
      if allowed w p
      then match step (ofheap w) p with
           | Some h => Fine (World h (first w) (loop_there w) (answers w))
           | None => Stuck
           end
      else Stuck
  | EndLoop => Fine (World (ofheap w) (first w) false (answers w))
  | Ask q =>
      if is_there (ofheap w) (served w)
      then match q with
           | Look => Fine (World (ofheap w) (first w) (loop_there w) (false :: answers w))
           | Act =>
               if is_there (ofheap w) (store_of w)
               then if loop_there w
                    then Fine (World (ofheap w) (first w) true (true :: answers w))
                    else Freed LoopGone
               else Freed NodeGone
           end
      else Fine w          (* ~server stopped the thread and waited for it *)
  end.

Fixpoint wrun (ps : list wop) (w : world) : wres :=
  match ps with
  | [] => Fine w
  | p :: r => match wstep w p with Fine w' => wrun r w' | x => x end
  end.

(** A world after a program [before] made the store with a debugger *)
Definition start (before : list op) (deps : list nat) : option world :=
  match run before nothing with
  | Some h =>
      match run (with_debugger (length (objs h)) deps) h with
      | Some h' => Some (World h' (length (objs h)) true [])
      | None => None
      end
  | None => None
  end.
