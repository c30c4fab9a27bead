(** C78: which clients and effects come to an end. *)
From Coq Require Import List Arith Bool.
From Verif Require Import StoreModel.
Import ListNotations.

Section Spec.
Context {M A W : Type}.
(** Watchers that only look: they neither dispatch, post, use promises and futures,
    commit, watch nor step. *)
Inductive looks : prog M A W -> Prop :=
| L_ret f : looks (PRet f)
| L_throw : looks PThrow
| L_get k : (forall m, looks (k m)) -> looks (PGet k)
| L_world k : (forall w, looks (k w)) -> looks (PWorld k)
| L_set w k : looks k -> looks (PSet w k)
| L_mark n k : looks k -> looks (PMark n k)
| L_unwatch i k : looks k -> looks (PUnwatch i k)
| L_try p k : looks p -> (forall b, looks (k b)) -> looks (PTry p k).

(** Programs of which every part, whatever is posted or chained included, dispatches only
    actions of a rank less than [n], and whose watchers only look. *)
Variable rank : A -> nat.
Inductive below (n : nat) : prog M A W -> Prop :=
| B_ret f : below n (PRet f)
| B_throw : below n PThrow
| B_get k : (forall m, below n (k m)) -> below n (PGet k)
| B_world k : (forall w, below n (k w)) -> below n (PWorld k)
| B_set w k : below n k -> below n (PSet w k)
| B_mark i k : below n k -> below n (PMark i k)
| B_dispatch a k : rank a < n -> (forall f, below n (k f)) -> below n (PDispatch a k)
| B_then f c k : below n c -> (forall f', below n (k f')) -> below n (PThen f c k)
| B_post p k : below n p -> below n k -> below n (PPost p k)
| B_promise k : (forall i, below n (k i)) -> below n (PPromise k)
| B_fulfil i k : below n k -> below n (PFulfil i k)
| B_commit k : below n k -> below n (PCommit k)
| B_watch w k : (forall m, looks (w m)) -> (forall i, below n (k i)) -> below n (PWatch w k)
| B_unwatch i k : below n k -> below n (PUnwatch i k)
| B_step k : below n k -> below n (PStep k)
| B_try p k : below n p -> (forall b, below n (k b)) -> below n (PTry p k).

(** The effect of an action dispatches only actions of smaller rank. *)
Definition falling (reducer : M -> A -> option (M * option (prog M A W))) : Prop :=
  forall m a m' e, reducer m a = Some (m', Some e) -> below (rank a) e.
End Spec.
