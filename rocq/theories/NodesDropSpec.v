(** What C16 asks for: dropping a reader is invisible to everybody else.

    Two client programs are compared.  They are the same, except that the left
    one destroys, at any points it likes (also inside callbacks, setter functions
    and try blocks), reader objects on one node [n] that the right one keeps. *)
From Coq Require Import List Arith Bool.
From Verif Require Import NodesModel.
Import ListNotations.

Section DropSpec.
Context {V W : Type}.
Variable n : nat.                      (* the reader that is dropped *)

(** What the two programs can read: the same, except that the left one may not
    have the reader [n] any more. *)
Definition obs_le (o o' : obs V) : Prop :=
  o_cnt o = o_cnt o' /\ o_sid o = o_sid o' /\
  (forall m, m <> n -> o_get o m = o_get o' m) /\
  (o_get o n = o_get o' n \/ o_get o n = None).

(** A callback which does nothing. The watchers of [n] are such: what they do is
    obviously not done any more when the reader is gone. *)
Definition quiet (cb : V -> obs V -> prog V W) : Prop := forall v o, cb v o = PRet.

(** [drops c]: [c] destroys a reader object on [n]. *)
Inductive drops : cmd V W -> Prop :=
| drops_reader : drops (CDrop n)
| drops_watcher sid : drops (CUnwatch n sid).

(** [psame o p p']: [p] is [p'] with some destructions of readers of [n] added;
    [o] is what the right program sees at this point. *)
Inductive psame : obs V -> prog V W -> prog V W -> Prop :=
| same_ret o : psame o PRet PRet
| same_throw o : psame o PThrow PThrow
| same_do o c c' k k' : csame c c' ->
    (forall x x', obs_le x x' -> psame x' (k x) (k' x')) ->
    psame o (PDo c k) (PDo c' k')
| same_try o p p' k k' : psame o p p' ->
    (forall b x x', obs_le x x' -> psame x' (k b x) (k' b x')) ->
    psame o (PTry p k) (PTry p' k')
| same_drop o c k p' : drops c ->
    (forall x, obs_le x o -> psame o (k x) p') ->
    psame o (PDo c k) p'
with csame : cmd V W -> cmd V W -> Prop :=
| same_set m v : csame (CSet m v) (CSet m v)
| same_update m f : csame (CUpdate m f) (CUpdate m f)
| same_commit ms : csame (CCommit ms) (CCommit ms)
| same_push m v : csame (CPush m v) (CPush m v)
| same_new k k' ps d : ksame k k' -> csame (CNew k ps d) (CNew k' ps d)
| same_cdrop m : csame (CDrop m) (CDrop m)
| same_watch m cb cb' :
    (forall v x x', obs_le x x' -> psame x' (cb v x) (cb' v x')) ->
    (m = n -> quiet cb /\ quiet cb') ->
    csame (CWatch m cb) (CWatch m cb')
| same_unwatch m sid : csame (CUnwatch m sid) (CUnwatch m sid)
| same_world w : csame (CWorld w) (CWorld w)
with ksame : kind V W -> kind V W -> Prop :=
| same_state a : ksame (KState a) (KState a)
| same_sensor f : ksame (KSensor f) (KSensor f)
| same_const : ksame KConst KConst
| same_store : ksame KStore KStore
| same_inner down up : ksame (KInner down up) (KInner down up)
| same_xform st up : ksame (KXform st up) (KXform st up)
| same_setter a fn fn' :
    (forall v x x', obs_le x x' -> psame x' (fn v x) (fn' v x')) ->
    ksame (KSetter a fn) (KSetter a fn').

(** What can be told from outside about an execution.  [rd] is what the readers
    other than [n] show when a callback is entered. *)
Inductive shown :=
| Called (m sid : nat) (v : V) (rd : list (option V))
| Watched (m sid : nat) (v : V)
| Written (m : nat) (v : V)
| Committed (ms : list nat) (w : W)
| Created (m : nat) (v : V) (w : W)
| Threw
| Escaped (m sid : nat)
| Asked (m : nat) (v : V) (rd : list (option V))
| Sampled (m : nat) (v : V).

Definition readings (g : graph V W) : list (option V) :=
  map (fun m => if negb (m =? n) && handle g m then Some (last g m) else None)
      (seq 0 (cnt g)).

(** The calls of the watchers of [n] are left out; so are the values assigned to
    nodes ([ESend]), which are visible through [readings] only. *)
Definition show (e : event V W) : list shown :=
  match e with
  | ECall m sid v g => if m =? n then [] else [Called m sid v (readings g)]
  | ESee _ => []
  | EWatch m sid v => [Watched m sid v]
  | EWrite m v => [Written m v]
  | ECommit ms w => [Committed ms w]
  | ESend _ _ => []
  | ENew m v w => [Created m v w]
  | EThrow => [Threw]
  | EEscape m sid => [Escaped m sid]
  | ESetter m v g => [Asked m v (readings g)]
  | ESample m v => [Sampled m v]
  end.
Definition trace (l : list (event V W)) : list shown := flat_map show l.

(** Ended the same way, the same things were seen on the way, and what exists on
    the left shows the same value on the right. *)
Definition same_end (r r' : res V W) : Prop :=
  match r, r' with
  | Done s, Done s' | Thrown s, Thrown s' =>
      trace (log s) = trace (log s') /\
      readings (gr s) = readings (gr s') /\
      (forall m, alive (gr s) m = true ->
         alive (gr s') m = true /\ last (gr s) m = last (gr s') m /\
         cur (gr s) m = cur (gr s') m)
  | _, _ => False
  end.

Definition finished (r : res V W) : Prop :=
  match r with Done _ | Thrown _ => True | _ => False end.

End DropSpec.
