(** Specification vocabulary for lenses on things that are moved from. *)
From Coq Require Import List.
From Verif Require Import LensModel LensSpec MoveModel.
Import ListNotations.

(** Moving from the parts of this lens leaves them as they were: numbers, pointers to
    const, aggregates of such; everything in a program that only copies. *)
Fixpoint inert {S A} (l : lx S A) : Prop :=
  match l with
  | XId | XElement _ | XUnbox | XAt _ _ _ | XAtOr _ _ _ _ => True
  | XAttr mb => member_ok mb
  | XGetset _ h _ _ => forall s, h s = s
  | XAlternative h _ => forall t, h t = t
  | XMapOpt h l => (forall a, h a = a) /\ inert l
  | XBindOpt h l => (forall a, h a = a) /\ inert l
  | XValueOr h _ => forall a, h a = a
  | XForceOpt h => forall a, h a = a
  | XErase l => inert l
  | XCompose l1 l2 => inert l1 /\ inert l2
  | XZip ls => inert_pack ls
  | XFan ls => inert_fan ls
  end
with inert_pack {ws ps} (ls : xpack ws ps) : Prop :=
  match ls with
  | XPnil => True
  | XPcons h l r => (forall a, h a = a) /\ inert l /\ inert_pack r
  end
with inert_fan {W ps} (ls : xfan W ps) : Prop :=
  match ls with
  | XFnil => True
  | XFcons l r => inert l /\ inert_fan r
  end.

(** Pointers to members are what C++ makes them. *)
Fixpoint sane {S A} (l : lx S A) : Prop :=
  match l with
  | XAttr mb => member_ok mb
  | XMapOpt _ l => sane l
  | XBindOpt _ l => sane l
  | XErase l => sane l
  | XCompose l1 l2 => sane l1 /\ sane l2
  | XZip ls => sane_pack ls
  | XFan ls => sane_fan ls
  | _ => True
  end
with sane_pack {ws ps} (ls : xpack ws ps) : Prop :=
  match ls with
  | XPnil => True
  | XPcons _ l r => sane l /\ sane_pack r
  end
with sane_fan {W ps} (ls : xfan W ps) : Prop :=
  match ls with
  | XFnil => True
  | XFcons l r => sane l /\ sane_fan r
  end.

(** Whether the next lens of a composition is given something that stays or a temporary *)
Fixpoint handed {S A} (l : lx S A) (c : cat) : cat :=
  match l with
  | XId | XAttr _ | XElement _ => c
  | XUnbox => L
  | XCompose l1 l2 => handed l2 (handed l1 c)
  | _ => R
  end.

(** A lens, applied to a [c], that writes the same as without moves whatever it is
    composed with, and whatever is written: it refers to its part, or copies it; or it
    overwrites what it moved from.  Lenses that move from a part and may then keep it are
    used only on what stays.  force_opt is not among them. *)
Fixpoint tame {S A} (c : cat) (l : lx S A) : Prop :=
  match l with
  | XId | XElement _ | XUnbox | XAt _ _ _ | XAtOr _ _ _ _ | XValueOr _ _ => True
  | XAttr mb => member_ok mb
  | XGetset by_value _ _ _ => by_value = false \/ c = L
  | XAlternative _ _ => c = L
  | XMapOpt _ l => c = L /\ tame L l
  | XBindOpt _ l => c = L /\ tame L l
  | XForceOpt _ => False
  | XErase l => tame L l
  | XCompose l1 l2 => tame c l1 /\ tame (handed l1 c) l2
  | XZip ls => tame_pack c ls
  | XFan ls => tame_fan c ls
  end
with neat {S A} (l : lx S A) : Prop :=
(** ... and viewing it first leaves everything else in its place. *)
  match l with
  | XId | XElement _ | XUnbox | XAt _ _ _ | XAtOr _ _ _ _ => True
  | XAttr mb => member_ok mb
  | XGetset by_value _ _ _ => by_value = false
  | XErase l => tame L l
  | XCompose l1 l2 => neat l1 /\ neat l2
  | _ => False
  end
with tame_pack {ws ps} (c : cat) (ls : xpack ws ps) : Prop :=
  match ls with
  | XPnil => True
  | XPcons _ l r => match c with L => tame L l | R => neat l end /\ tame_pack c r
  end
with tame_fan {W ps} (c : cat) (ls : xfan W ps) : Prop :=
  match ls with
  | XFnil => True
  | XFcons l r => sane l /\ tame (if is_last r then c else R) l /\ tame_fan c r
  end.

(** A lens that leads to an optional: a neat one, or neat lenses lifted any number of times *)
Inductive lifted : forall A B, lx A (option B) -> Prop :=
| lifted_neat : forall A B (l : lx A (option B)), neat l -> lifted A B l
| lifted_map : forall A B h (l : lx A B), neat l -> lifted (option A) B (XMapOpt h l)
| lifted_bind : forall A B h (l : lx A (option B)), lifted A B l ->
    lifted (option A) B (XBindOpt h l).

(** What [operator[]] makes of keys and members, with.hpp:166-173 and smart_lens.hpp: a
    first lens to something that may be missing, then any number of lenses lifted to
    optionals. *)
Inductive chain : forall S A, lx S (option A) -> Prop :=
| chain_start : forall S A (l : lx S (option A)), (forall c, tame c l) -> chain S A l
| chain_lifted : forall S A (l : lx S (option A)), lifted S A l -> chain S A l
| chain_map : forall S A B (l : lx S (option A)) h (k : lx A B),
    chain S A l -> neat k -> chain S B (XCompose l (XMapOpt h k))
| chain_bind : forall S A B (l : lx S (option A)) h (k : lx A (option B)),
    chain S A l -> lifted A B k -> chain S B (XCompose l (XBindOpt h k)).

(** The lens from the root to a cursor, on values that are never moved *)
Fixpoint route {S A} (n : nodes S A) : lens S A :=
  match n in nodes S A return lens S A with
  | NRoot => id_lens
  | NZoom p l => compose (route p) (plain l)
  end.
(** All lenses on the way *)
Fixpoint all_lenses (P : forall A B, lx A B -> Prop) {S A} (n : nodes S A) : Prop :=
  match n with
  | NRoot => True
  | NZoom p l => all_lenses P p /\ P _ _ l
  end.
