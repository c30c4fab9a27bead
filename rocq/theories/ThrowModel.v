(** Model of exceptions that are thrown by the computations of the graph: by the functions
    of lenses and transducers, by sensors, and by what is computed to write through a
    cursor.
      /repo/lager/detail/nodes.hpp:103-340, xform_nodes.hpp:95-142, lens_nodes.hpp:63-99,
      merge_nodes.hpp:52-68, state.hpp:30-59, sensor.hpp:44, commit.hpp:41-45

    NodesModel has the same functions with computations that do not throw, and callbacks
    that do; here it is the other way round: watchers do nothing but being called.
    Simplified: the graph is given and does not change (a node whose first value cannot be
    computed is not made, nothing else changes); transducers have no state and give at most
    one value for each value; all values are in one type, which has an operator==; nodes are
    numbered such that parents come first. *)
From Coq Require Import List Arith Bool.
Import ListNotations.

Section Graph.
Variable V : Type.
Variable changed : V -> V -> bool.            (* has_changed, nodes.hpp:104-107: new, old *)

(** State roots (with the tag automatic or transactional), sensors, inner nodes; of these
    only lens cursors refresh before they write (lens_nodes.hpp:87-98), those of transducers
    and merged ones do not (xform_nodes.hpp:140-141, merge_nodes.hpp:67-68). *)
Inductive kind := Root (automatic : bool) | Sensor | Inner (refreshes : bool).

Record graph := Graph {
  size : nat;
  kind_of : nat -> kind;
  parents : nat -> list nat;
  children : nat -> list nat;                 (* in the order in which they were linked *)
  fn : nat -> list V -> option V;             (* from the values of the parents; None: the
                                                 transducer rejects them *)
  put : nat -> list V -> V -> option (list V) }.  (* writing: what the parents are given *)

(** What computations do at run time: the [k]th one throws; the [k]th one, if it is that of
    a sensor, gives this; the order in which parents are refreshed and written to when
    [k] computations were made (it is not specified by C++). *)
Record world := World {
  throws : nat -> bool;
  sense : nat -> V;
  refreshed : nat -> list nat -> list nat;
  written : nat -> list (nat * V) -> list (nat * V) }.

Inductive event :=
| EPush (n : nat)      (* the node got a new value, which is not yet sent down *)
| EDown (n : nat)      (* its function returned, on the way down *)
| ESent (n : nat)      (* its value is shown to readers, and being sent down *)
| ESeen (n : nat)      (* its function returned in refresh *)
| EFail (n : nat)      (* something that was computed for it threw *)
| ECall (n : nat).     (* its watchers are called *)

Record st := St {
  cur : nat -> V;
  last : nat -> V;                            (* what readers show *)
  pending : nat -> bool;                      (* needs_send_down_ *)
  calling : nat -> bool;                      (* needs_notify_ *)
  clock : nat;                                (* ghost: number of computations *)
  log : list event }.                         (* ghost: newest first *)

Inductive outcome := Done (s : st) | Threw (s : st) | OutOfFuel.
Definition bind (o : outcome) (f : st -> outcome) : outcome :=
  match o with Done s => f s | _ => o end.
Fixpoint each {A} (f : A -> st -> outcome) (l : list A) (s : st) : outcome :=
  match l with [] => Done s | n :: r => bind (f n s) (each f r) end.

Definition at_ {A} (f : nat -> A) (n : nat) (x : A) : nat -> A := fun m => if m =? n then x else f m.
Definition note (e : event) (s : st) : st :=
  St (cur s) (last s) (pending s) (calling s) (clock s) (e :: log s).
Definition tick (s : st) : st :=
  St (cur s) (last s) (pending s) (calling s) (S (clock s)) (log s).

(** nodes.hpp:205-211 *)
Definition push_down (n : nat) (v : V) (s : st) : st :=
  if changed v (cur s n)
  then note (EPush n) (St (at_ (cur s) n v) (last s) (at_ (pending s) n true) (calling s) (clock s) (log s))
  else s.
(** xform_nodes.hpp:34-44: called with nothing if the transducer rejects the values *)
Definition maybe_down (n : nat) (v : option V) (s : st) : st :=
  match v with Some v => push_down n v s | None => s end.

Variable g : graph.
Variable w : world.

(** Something is computed for [n]. *)
Definition compute (n : nat) (s : st) (k : st -> outcome) : outcome :=
  if throws w (clock s) then Threw (note (EFail n) (tick s)) else k (tick s).
Definition seen_by (n : nat) (s : st) : list V := map (cur s) (parents g n).
(** recompute: state.hpp:40, sensor.hpp:44, lens_nodes.hpp:63-66, xform_nodes.hpp:98-102;
    [e]: what to note *)
Definition recompute (e : event) (n : nat) (s : st) : outcome :=
  match kind_of g n with
  | Root _ => Done (note e s)
  | Sensor => compute n s (fun s' => Done (push_down n (sense w (clock s)) (note e s')))
  | Inner _ => compute n s (fun s' => Done (maybe_down n (fn g n (seen_by n s)) (note e s')))
  end.

(** nodes.hpp:213-226 *)
Definition sent (n : nat) (s : st) : st :=
  note (ESent n) (St (cur s) (at_ (last s) n (cur s n)) (at_ (pending s) n false)
                     (at_ (calling s) n true) (clock s) (log s)).
Fixpoint send_down (fuel : nat) (n : nat) (s : st) : outcome :=
  match fuel with
  | 0 => OutOfFuel
  | S f =>
      bind (recompute (EDown n) n s) (fun s1 =>
        if pending s1 n then each (send_down f) (children g n) (sent n s1) else Done s1)
  end.

(** nodes.hpp:228-256, without garbage *)
Definition called (n : nat) (s : st) : st :=
  note (ECall n) (St (cur s) (last s) (pending s) (at_ (calling s) n false) (clock s) (log s)).
Fixpoint notify (fuel : nat) (n : nat) (s : st) : outcome :=
  match fuel with
  | 0 => OutOfFuel
  | S f =>
      if calling s n && negb (pending s n)
      then each (notify f) (children g n) (called n s) else Done s
  end.

(** nodes.hpp:296-301; the parents are refreshed in any order.  Roots: 338. *)
Fixpoint refresh (fuel : nat) (n : nat) (s : st) : outcome :=
  match fuel with
  | 0 => OutOfFuel
  | S f =>
      match kind_of g n with
      | Inner _ => bind (each (refresh f) (refreshed w (clock s) (parents g n)) s) (recompute (ESeen n) n)
      | _ => Done s
      end
  end.

(** State: state.hpp:42-58.  Lenses: lens_nodes.hpp:87-98; transducers:
    xform_nodes.hpp:140-141; push_up: nodes.hpp:309-329, to the parents in any order, and not
    called if the transducer rejects the value.  Sensors are no cursors: nothing writes to
    them. *)
Fixpoint send_up (fuel : nat) (n : nat) (v : V) (s : st) : outcome :=
  match fuel with
  | 0 => OutOfFuel
  | S f =>
      match kind_of g n with
      | Root automatic =>
          let s1 := push_down n v s in
          if automatic
          then bind (send_down (S (size g)) n s1) (notify (S (size g)) n)
          else Done s1
      | Sensor => Done s
      | Inner refreshes =>
          bind (if refreshes then refresh (S n) n s else Done s) (fun s1 =>
            compute n s1 (fun s2 =>
              match put g n (seen_by n s1) v with
              | Some vs => each (fun pv => send_up f (fst pv) (snd pv))
                             (written w (clock s2) (combine (parents g n) vs)) s2
              | None => Done s2
              end))
      end
  end.

(** commit.hpp:41-45 *)
Definition commit (rs : list nat) (s : st) : outcome :=
  bind (each (send_down (S (size g))) rs s) (each (notify (S (size g))) rs).

(** A program sets cursors and commits roots, and goes on after exceptions. *)
Inductive op := Set_ (n : nat) (v : V) | Commit (rs : list nat).
Definition do (o : op) (s : st) : outcome :=
  match o with
  | Set_ n v => send_up (S n) n v s
  | Commit rs => commit rs s
  end.
Fixpoint run (ops : list op) (s : st) : option st :=
  match ops with
  | [] => Some s
  | o :: r => match do o s with Done s' | Threw s' => run r s' | OutOfFuel => None end
  end.

(** All nodes have just been made. *)
Definition init (iv : nat -> V) : st := St iv iv (fun _ => false) (fun _ => false) 0 [].
End Graph.
Arguments size {V}. Arguments kind_of {V}. Arguments parents {V}. Arguments children {V}.
Arguments fn {V}. Arguments put {V}. Arguments throws {V}. Arguments sense {V}.
Arguments refreshed {V}. Arguments written {V}. Arguments maybe_down {V}.
Arguments cur {V}. Arguments last {V}. Arguments pending {V}. Arguments calling {V}.
Arguments clock {V}. Arguments log {V}. Arguments St {V}. Arguments Graph {V}. Arguments World {V}.
Arguments Done {V}. Arguments Threw {V}. Arguments OutOfFuel {V}. Arguments bind {V}.
Arguments each {V A}. Arguments note {V}. Arguments tick {V}.
Arguments push_down {V}. Arguments compute {V}. Arguments seen_by {V}. Arguments recompute {V}.
Arguments sent {V}. Arguments send_down {V}. Arguments called {V}. Arguments notify {V}.
Arguments refresh {V}. Arguments send_up {V}. Arguments commit {V}. Arguments Set_ {V}.
Arguments Commit {V}. Arguments do {V}. Arguments run {V}. Arguments init {V}.
