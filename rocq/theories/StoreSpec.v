(** Vocabulary for the properties of the store, in terms of the log of what
    happened.  Lists extracted from a log are oldest first. *)
From Coq Require Import List Arith Bool.
From Verif Require Import StoreModel.
Import ListNotations.

Section Spec.
Variables M A W : Type.
Notation prog := (prog M A W).
Notation event := (event M A W).
Notation st := (st M A W).

(** ** Actions and models *)

(** The model after a list of actions; an action whose reducer throws has no effect. *)
Definition reduce1 (reducer : M -> A -> option (M * option prog)) (m : M) (a : A) : M :=
  match reducer m a with Some (m', _) => m' | None => m end.
Definition fold (reducer : M -> A -> option (M * option prog)) (m : M) (l : list A) : M :=
  fold_left (reduce1 reducer) l m.

(** The models that reducers returned and that effects and watchers saw. *)
Fixpoint all_models (l : list event) : list M :=
  match l with
  | [] => []
  | ERed _ m _ :: r | EEff _ m _ :: r | EConn _ m :: r | ESee _ m :: r => m :: all_models r
  | _ :: r => all_models r
  end.
(** Actions dispatched. *)
Fixpoint actions (l : list event) : list A :=
  match l with [] => [] | EDisp _ a _ :: r => actions r ++ [a] | _ :: r => actions r end.
(** Dispatches whose reducer was called. *)
Fixpoint reduced (l : list event) : list nat :=
  match l with
  | [] => [] | ERed id _ _ :: r | ERedFail id :: r => reduced r ++ [id] | _ :: r => reduced r
  end.
(** Models returned by the reducer. *)
Fixpoint models (l : list event) : list M :=
  match l with [] => [] | ERed _ m _ :: r => models r ++ [m] | _ :: r => models r end.

(** ** Effects *)
Fixpoint with_effect (l : list event) : list nat :=
  match l with [] => [] | ERed id _ true :: r => with_effect r ++ [id] | _ :: r => with_effect r end.
Fixpoint effects_run (l : list event) : list nat :=
  match l with [] => [] | EEff id _ _ :: r => effects_run r ++ [id] | _ :: r => effects_run r end.
Fixpoint effects_lost (l : list event) : list nat :=
  match l with [] => [] | ELost id :: r => effects_lost r ++ [id] | _ :: r => effects_lost r end.
(** Run or lost, in the order it happened. *)
Fixpoint effects_over (l : list event) : list nat :=
  match l with
  | [] => [] | EEff id _ _ :: r | ELost id :: r => effects_over r ++ [id] | _ :: r => effects_over r
  end.

(** ** Watchers *)
Fixpoint seen (i : nat) (l : list event) : list M :=
  match l with
  | [] => []
  | ESee j m :: r => if i =? j then seen i r ++ [m] else seen i r
  | _ :: r => seen i r
  end.
(** The last model watcher [i] knows: the one it was last called with, or what
    get() returned when it was connected; [None] if it is not connected. *)
Fixpoint knows (i : nat) (l : list event) : option M :=
  match l with
  | [] => None
  | ESee j m :: r => if i =? j then Some m else knows i r
  | EConn j m :: r => if i =? j then Some m else knows i r
  | EDisc j :: r => if i =? j then None else knows i r
  | _ :: r => knows i r
  end.
Definition no_failure (l : list event) : Prop := ~ In EFail l.
Definition no_commit (l : list event) : Prop := ~ In ECommit l.
Fixpoint commits (l : list event) : nat :=
  match l with [] => 0 | ECommit :: r => S (commits r) | _ :: r => commits r end.

Inductive subseq {X} : list X -> list X -> Prop :=
| sub_nil l : subseq [] l
| sub_take x a b : subseq a b -> subseq (x :: a) (x :: b)
| sub_skip x a b : subseq a b -> subseq a (x :: b).
(** The same, but an element may be seen several times in a row. *)
Inductive subseq_rep {X} : list X -> list X -> Prop :=
| subr_nil l : subseq_rep [] l
| subr_take x a b : subseq_rep a (x :: b) -> subseq_rep (x :: a) (x :: b)
| subr_skip x a b : subseq_rep a b -> subseq_rep a (x :: b).

(** ** Futures *)
(** A future that is empty or completed. *)
Definition completed (l : list event) (f : option nat) : Prop :=
  match f with None => True | Some n => In (EDone n) l end.
Fixpoint callbacks_run (l : list event) : list nat :=
  match l with [] => [] | ECb n _ :: r => callbacks_run r ++ [n] | _ :: r => callbacks_run r end.
(** Futures [ks] were made by a chain f.then(..).then(..)... *)
Fixpoint linked (l : list event) (f : nat) (ks : list nat) : Prop :=
  match ks with [] => True | k :: r => (exists c, In (EThen f k c) l) /\ linked l k r end.

(** Everything dispatch [id] entails has happened. *)
Definition settled (trans : bool) (id : nat) (l : list event) : Prop :=
  (exists m, In (ERed id m false) l /\ (trans = false -> In (ETold id) l)) \/
  (exists m m' e f, In (ERed id m true) l /\ In (EEff id m' e) l /\ In (EEffEnd id f) l /\ completed l f).

(** ** Runs *)
Definition finished (r : res M A W) (s : st) : Prop := (exists f, r = Done f s) \/ r = Thrown s.

(** States between two pieces of client code, or two calls of step(), starting
    from a new store with model [m0].  What client code does is arbitrary. *)
Inductive reach (reducer : M -> A -> option (M * option prog)) (eqb : M -> M -> bool)
    (trans futures manual : bool) (ext : nat -> list A) (m0 : M) : st -> Prop :=
| reach_init w : reach reducer eqb trans futures manual ext m0 (init m0 w)
| reach_prog fuel p s s' : reach reducer eqb trans futures manual ext m0 s ->
    finished (exec reducer eqb trans futures manual ext fuel (TProg p) s) s' ->
    reach reducer eqb trans futures manual ext m0 s'
| reach_step fuel s s' : reach reducer eqb trans futures manual ext m0 s ->
    finished (exec reducer eqb trans futures manual ext fuel TRun s) s' ->
    reach reducer eqb trans futures manual ext m0 s'.

End Spec.

Arguments reduce1 {M A W}. Arguments fold {M A W}. Arguments all_models {M A W}. Arguments actions {M A W}. Arguments reduced {M A W}.
Arguments models {M A W}. Arguments with_effect {M A W}. Arguments effects_run {M A W}.
Arguments effects_lost {M A W}. Arguments effects_over {M A W}. Arguments seen {M A W}.
Arguments knows {M A W}. Arguments no_failure {M A W}. Arguments no_commit {M A W}.
Arguments completed {M A W}. Arguments callbacks_run {M A W}. Arguments settled {M A W}.
Arguments finished {M A W}. Arguments linked {M A W}. Arguments commits {M A W}. Arguments reach {M A W}.
