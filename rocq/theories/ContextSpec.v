(** What is said of contexts and lists of actions. *)
From Coq Require Import List Bool Arith.
From Verif Require Import DepsModel ContextModel.
Import ListNotations.

Section Lists.
Context {ty : Type} (is_convertible : ty -> ty -> bool).

(** A context for actions [l] accepts an [x]. *)
Definition accepts (l : list ty) (x : ty) : Prop := exists y, In y l /\ is_convertible x y = true.

(** Nothing in the list is convertible to something earlier in it. *)
Definition irredundant (l : list ty) : Prop :=
  forall pre x mid y post, l = pre ++ x :: mid ++ y :: post -> is_convertible y x = false.

(** Some of a list, in the same order. *)
Inductive some_of : list ty -> list ty -> Prop :=
| S_nil : some_of [] []
| S_keep x l l' : some_of l l' -> some_of (x :: l) (x :: l')
| S_skip x l l' : some_of l l' -> some_of l (x :: l').
End Lists.

Section Chains.
Context {ty : Type} (val : ty -> Type) (conv : forall a b : ty, option (val a -> val b)).
Context {W : Type}.
Notation step := (@step ty val W).
Notation converter := (@converter ty val).

(** The actions of a context that a store with action [root] was converted to, the last
    conversion first. *)
Definition actions_after (root : ty) (back : list step) : list ty :=
  match back with
  | [] => [root]
  | s :: _ => sactions s
  end.

(** The composition of the conversions, the last first: the function for action [a] of
    the context after the conversions [back] makes of [x : val a] the action [y] of the
    store. *)
Inductive carries (root : ty) : list step -> forall a, val a -> val root -> Prop :=
| C_store c x : conv root root = Some c -> carries root [] root x (c x)
| C_copy s back a x y : sconv s = None -> sactions s = actions_after root back ->
    carries root back a x y -> carries root (s :: back) a x y
| C_direct s back a b c x y : sconv s = None -> In a (sactions s) ->
    In b (actions_after root back) -> conv a b = Some c -> carries root back b (c x) y ->
    carries root (s :: back) a x y
| C_with s back k a r g b c x y : sconv s = Some k -> In a (sactions s) ->
    k a = Some (existT _ r g) -> In b (actions_after root back) -> conv r b = Some c ->
    carries root back b (c (g x)) y -> carries root (s :: back) a x y.

(** An [x : val a] dispatched after the conversions [back] is the action [y] of the
    store: as one of the actions listed, if it is one. *)
Definition arrives (root : ty) (back : list step) (a : ty) (x : val a) (y : val root) : Prop :=
  (In a (actions_after root back) /\ carries root back a x y) \/
  (~ In a (actions_after root back) /\ exists b c, In b (actions_after root back) /\
     conv a b = Some c /\ carries root back b (c x) y).

(** Every action for which the context is made can be given to one of those of the other, perhaps
    by way of the converter. *)
Definition fitting (s : step) (have : list ty) : Prop :=
  forall a, In a (sactions s) ->
  match sconv s with
  | None => exists b, In b have /\ conv a b <> None
  | Some k => exists r g b, k a = Some (existT _ r g) /\ In b have /\ conv r b <> None
  end.

(** A meaning of actions which conversions keep. *)
Definition kept_by_conversion {M} (mean : forall a, val a -> M) : Prop :=
  forall a b c x, conv a b = Some c -> mean b (c x) = mean a x.

(** What a step does to the meaning of actions. *)
Definition acts_as {M} (mean : forall a, val a -> M) (s : step) (m : M -> M) : Prop :=
  match sconv s with
  | None => forall x, m x = x
  | Some k => forall a r g x, k a = Some (existT _ r g) -> mean r (g x) = m (mean a x)
  end.
End Chains.
