(** What is said of bags of dependencies. *)
From Coq Require Import List Bool.
From Verif Require Import DepsModel.
Import ListNotations.

Section Spec.
Context {ty : Type}.
Context {V L W : Type} (deref : W -> L -> V).
Notation spec := (spec ty).
Notation sty := (sty ty).
Notation stor := (stor V L W).
Notation res := (res V L).
Notation bag := (list (spec * stor)).

(** An object has the type it is said to have. *)
Inductive fits : sty -> stor -> Prop :=
| F_val t v : fits (TVal t) (SVal v)
| F_ref t l : fits (TRef t) (SRef l)
| F_none s : fits (TOpt s) (SOpt None)
| F_some s x : fits s x -> fits (TOpt s) (SOpt (Some x))
| F_empty s : fits (TFn s) (SFn None)
| F_fn s f : (forall w, fits s (f w)) -> fits (TFn s) (SFn (Some f)).

(** A bag as the constructors make it: keys are distinct and objects have their type. *)
Definition proper (b : bag) : Prop :=
  NoDup (map (fun e => key_of (fst e)) b) /\
  forall s x, In (s, x) b -> fits (storage s) x.

(** Two ways to obtain a dependency agree in a world: the same value or reference, the
    same exception, or a value that is a copy of what is referred to. *)
Definition same (w : W) (was now : res) : Prop :=
  now = was \/ exists l, was = RRef l /\ now = RVal (deref w l).

(** A specification is asked for by its type, unless a key was given; what the
    innermost keys say does not matter. *)
Inductive keyed : spec -> ty -> Prop :=
| K_val t : keyed (Val t) t
| K_ref t : keyed (Ref t) t
| K_opt s k : keyed s k -> keyed (Opt s) k
| K_fn s k : keyed s k -> keyed (Fn s) k
| K_key s k : keyed (Key k s) k.
(** It may be left out if it is optional, in whatever way it is provided. *)
Inductive optional : spec -> Prop :=
| O_opt s : optional (Opt s)
| O_fn s : optional s -> optional (Fn s)
| O_key k s : optional s -> optional (Key k s).

(** The bag declares key [k] with specification [s]. *)
Definition declares (b : bag) (k : ty) (s : spec) : Prop :=
  exists x, In (s, x) b /\ key_of s = k.

(** No [opt] inside another [opt] or inside [fn]. *)
Fixpoint no_opt (s : spec) : Prop :=
  match s with
  | Val _ | Ref _ => True
  | Opt _ => False
  | Fn s => no_opt s
  | Key _ s => no_opt s
  end.
Fixpoint tidy (s : spec) : Prop :=
  match s with
  | Opt s => no_opt s
  | Key _ s => tidy s
  | _ => no_opt s
  end.

(** The bag declares key [k]. *)
Definition declared (k : ty) (b : bag) : Prop := exists s, declares b k s.

(** The dependency is provided by a function. *)
Fixpoint by_fn (s : spec) : bool :=
  match s with
  | Fn _ => true
  | Key _ s => by_fn s
  | _ => false
  end.

(** It was not provided: [get] throws. *)
Definition lost (r : res) : Prop := r = Missing \/ r = BadCall.

(** ** Which conversions compile, and which throw *)

(** An object of one type becomes one of another. *)
Inductive becomes : sty -> sty -> Prop :=
| B_same s : becomes s s
| B_put s d : becomes s d -> becomes s (TOpt d)
| B_opt s d : becomes s d -> becomes (TOpt s) (TOpt d)
| B_fn s d : becomes s d -> becomes (TFn s) (TFn d).
(** Or a function gives a reference. *)
Inductive calling : sty -> sty -> Prop :=
| G_val t : calling (TFn (TRef t)) (TVal t)
| G_ref t : calling (TFn (TRef t)) (TRef t).

(** What can be had from a bag, given by what is found for its keys: what is required
    must be provided, and if an optional one is provided it must become what is wanted. *)
Definition available (found : ty -> spec -> stor -> Prop) (d : spec) : Prop :=
  (~ optional d -> exists s x, found (key_of d) s x /\
     (becomes (storage s) (storage d) \/ calling (storage s) (storage d))) /\
  (optional d -> forall s x, found (key_of d) s x -> becomes (storage s) (storage d)).
Definition in_bag (b : bag) (k : ty) (s : spec) (x : stor) : Prop := In (s, x) b /\ keyed s k.
(** Of two bags the second is asked first. *)
Definition in_bags (b1 b2 : bag) (k : ty) (s : spec) (x : stor) : Prop :=
  in_bag b2 k s x \/ (~ declared k b2 /\ in_bag b1 k s x).
(** Something required is provided under the key. *)
Definition firm (b : bag) (k : ty) : Prop := exists s x, in_bag b k s x /\ ~ optional s.
(** There is an empty function to be called. *)
Definition calls_empty (found : ty -> spec -> stor -> Prop) (ds : list spec) : Prop :=
  exists d s, In d ds /\ ~ optional d /\ found (key_of d) s (SFn None) /\
              ~ becomes (storage s) (storage d).
End Spec.
