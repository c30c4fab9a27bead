(** Vocabulary for readers made from a single source (filters, transducers,
    with_setter), in terms of what the source showed. *)
From Coq Require Import List Arith Bool.
From Verif Require Import NodesModel NodesSpec.
Import ListNotations.

Section Track.
Context {V W : Type}.
Implicit Types g : graph V W.
Implicit Types l : list (event V W).          (* newest event first *)

(** New values shown by [p], newest first. *)
Fixpoint shown l (p : nat) : list V :=
  match l with
  | [] => []
  | ESend m v :: l' => if m =? p then v :: shown l' p else shown l' p
  | _ :: l' => shown l' p
  end.

(** New values shown by [p] since [n] was made, newest first. *)
Fixpoint shown_since l (p n : nat) : list V :=
  match l with
  | [] => []
  | ESend m v :: l' => if m =? p then v :: shown_since l' p n else shown_since l' p n
  | ENew m _ _ :: l' => if m =? n then [] else shown_since l' p n
  | _ :: l' => shown_since l' p n
  end.

(** The value shown by [n]. *)
Fixpoint showing l (n : nat) : option V :=
  match l with
  | [] => None
  | ESend m v :: l' | ENew m v _ :: l' => if m =? n then Some v else showing l' n
  | _ :: l' => showing l' n
  end.

(** The value shown by [n] when [c] was made. *)
Fixpoint shown_when l (n c : nat) : option V :=
  match l with
  | [] => None
  | ENew m _ _ :: l' => if m =? c then showing l' n else shown_when l' n c
  | _ :: l' => shown_when l' n c
  end.

(** Value with which [n] was made. *)
Fixpoint made_with l (n : nat) : option V :=
  match l with
  | [] => None
  | ENew m v _ :: l' => if m =? n then Some v else made_with l' n
  | _ :: l' => made_with l' n
  end.

(** [p] showed a new value after [n] was made and after [n] last propagated a
    value of its own. *)
Fixpoint source_newer l (p n : nat) : bool :=
  match l with
  | [] => false
  | ESend m _ :: l' => if m =? p then true else source_newer l' p n
  | ECommit ns _ :: l' => if mem n ns then false else source_newer l' p n
  | ENew m _ _ :: l' => if m =? n then false else source_newer l' p n
  | _ :: l' => source_newer l' p n
  end.

(** Values with which the with_setter function of [n] was called, newest first. *)
Fixpoint asked l (n : nat) : list V :=
  match l with
  | [] => []
  | ESetter m v _ :: l' => if m =? n then v :: asked l' n else asked l' n
  | _ :: l' => asked l' n
  end.

(** Some API call made by a callback or a setter function returned. *)
Definition client_ran l : bool :=
  existsb (fun e => match e with ESee _ => true | _ => false end) l.

(** Cursors that read their source again before they write: zoomed cursors and
    cursors through an [update] transducer. *)
Definition rereads g (m : nat) : Prop :=
  match kind_of g m with
  | KInner _ (UWrite true _) | KXform _ (UWrite true _) => True
  | _ => False
  end.

(** No such cursor is made from [n] (nor is it [n]). *)
Definition not_reread g (n : nat) : Prop := forall m, source g n m -> ~ rereads g m.

(** The last output of a transducer fed with [vs] (newest first), [v0] if none.
    [step h x] are its outputs for [x] after the inputs [h] (newest first). *)
Fixpoint transduced (step : list V -> V -> list V) (vs : list V) (v0 : V) : V :=
  match vs with
  | [] => v0
  | v :: vs' => List.last (step vs' v) (transduced step vs' v0)
  end.

(** [n] is a reader (or cursor) filtered from [p]. *)
Definition filter_node g (n p : nat) (pred : V -> bool) : Prop :=
  exists down up, kind_of g n = KInner down up /\ parents g n = [p] /\
    forall x, down [x] = if pred x then Some x else None.

(** The most recent value accepted by [pred], [v0] if none. *)
Definition accepted (pred : V -> bool) (vs : list V) (v0 : V) : V :=
  match find pred vs with Some v => v | None => v0 end.


(** The output of [f] for the most recent value of [vs] (newest first) for which it has
    one, [v0] if none. *)
Fixpoint latest (f : V -> option V) (vs : list V) (v0 : V) : V :=
  match vs with
  | [] => v0
  | v :: vs' => match f v with Some y => y | None => latest f vs' v0 end
  end.

(** The value with which a node is made, whose sources have the values [l] then; [w] is
    what sensors sample, [d] the default value of the type, if it has one. *)
Definition starts_as (k : kind V W) (l : list V) (w : W) (d : option V) (v0 : V) : Prop :=
  match k with
  | KState _ | KConst | KStore => d = Some v0
  | KSensor f => v0 = f w
  | KInner down _ => down l = Some v0 \/ down l = None /\ d = Some v0
  | KXform f _ => (exists l0 : list V, f [] l = (l0 ++ [v0])%list) \/ f [] l = [] /\ d = Some v0
  | KSetter _ _ => l = [v0]
  end.
End Track.
