(** Model of the lenses of /repo/lager/lenses.hpp, /repo/lager/lens.hpp and
    /repo/lager/lenses/*.hpp with value categories: what is moved from, and what it is
    afterwards.  LensModel.v has the same functions on values that are never moved; it is
    what the lenses are compared with here ([plain]).

    A lens is applied to a reference, [LAGER_FWD(whole)] (util.hpp:21): to something that
    stays ([L]) or to something that may be moved from ([R]: temporaries, and what is
    passed with std::move).  A reference to a part of the whole is of the same kind.
    Whoever is given an [R] may leave another value there: a moved-from object.

    Simplifications:
    - What a moved-from object is, is not specified by C++ for most types ("valid but
      unspecified").  Each lens is given, for the type of its part, a function
      [h : A -> A]: what is left of a value.  The theorems are for all such functions.
      For numbers it is the identity, for strings and vectors mostly the empty one.  An
      optional or variant that was moved from still has a value, a moved-from one.
    - The setter moves out of the whole when it is the last to look at it: not tracked,
      as nothing can read the whole after that.
    - const rvalues and getters that return references are left out. *)
From Coq Require Import List Arith Bool.
From Verif Require Import LensModel.
Import ListNotations.

Inductive cat := L | R.

(** lenses.hpp:71-96, how lenses are invoked.  [f] is given a reference to the part; it
    returns the functor value and what the part is afterwards.  So does the lens. *)
Definition mlens (S A : Type) : Type :=
  forall F : Type -> Type, fmap_op F -> (cat -> A -> F A * A) -> cat -> S -> F S * S.

(** lenses.hpp:73-75, [make_const_functor(std::forward<decltype(v)>(v))]: a [const_functor<T&>]
    to what stays (27-31), a [const_functor<T>] made by moving from what may be moved. *)
Definition look {A} (h : A -> A) (c : cat) (a : A) : const_functor A A * A :=
  (a, match c with L => a | R => h a end).

(** lenses.hpp:83: the part is not looked at *)
Definition put {A} (v : A) (c : cat) (a : A) : identity_functor A * A := (v, a).

(** lenses.hpp:88-96; the function takes its argument by value ([by_value], moved from if
    it may be) or by reference to const. *)
Definition change {A} (by_value : bool) (h : A -> A) (fn : A -> A) (c : cat) (a : A)
  : identity_functor A * A :=
  (fn a, match c, by_value with R, true => h a | _, _ => a end).

(** lenses.hpp:71-78, 80-86, 88-96 *)
Definition mview {S A} (h : A -> A) (l : mlens S A) (c : cat) (x : S) : A :=
  fst (l (const_functor A) (const_map A) (look h) c x).
Definition mset {S A} (l : mlens S A) (c : cat) (x : S) (v : A) : S :=
  fst (l identity_functor identity_map (put v) c x).
Definition mover {S A} (by_value : bool) (h : A -> A) (l : mlens S A) (c : cat) (x : S)
    (fn : A -> A) : S :=
  fst (l identity_functor identity_map (change by_value h fn) c x).
(** What is left of the whole after [view] *)
Definition after_view {S A} (h : A -> A) (l : mlens S A) (c : cat) (x : S) : S :=
  snd (l (const_functor A) (const_map A) (look h) c x).

(** What is left of an object that was read from a reference of kind [c] into a value *)
Definition spent {A} (h : A -> A) (c : cat) (a : A) : A :=
  match c with L => a | R => h a end.

(** The lenses of lager, as they are written in a program.  Arguments [h] say what is left
    of a part that was moved from. *)
Inductive lx : Type -> Type -> Type :=
(** zug::identity *)
| XId : forall S, lx S S
(** attr.hpp:17-29 *)
| XAttr : forall S A, member S A -> lx S A
(** tuple.hpp:116-130 *)
| XElement : forall ts T, idx ts T -> lx (tup ts) T
(** unbox.hpp:17-22 *)
| XUnbox : forall A, lx (box A) A
(** lenses.hpp:105-116; [by_value]: the getter takes its argument by value *)
| XGetset : forall S A (by_value : bool) (h : S -> S), (S -> A) -> (S -> A -> S) -> lx S A
(** at.hpp:123-140 *)
| XAt : forall W K A, (W -> K -> option A) -> (W -> option A -> K -> W) -> K ->
        lx W (option A)
(** at_or.hpp:64-103 *)
| XAtOr : forall W K A, (W -> K -> option A) -> (W -> A -> K -> W) -> K -> A -> lx W A
(** variant.hpp:16-40 *)
| XAlternative : forall ts T, (T -> T) -> idx ts T -> lx (variant ts) (option T)
(** optional.hpp:89-93, 98-102; 107-111 is one of these, by the type of the part *)
| XMapOpt : forall W P, (P -> P) -> lx W P -> lx (option W) (option P)
| XBindOpt : forall W P, (P -> P) -> lx W (option P) -> lx (option W) (option P)
(** optional.hpp:116-144 *)
| XValueOr : forall A, (A -> A) -> A -> lx (option A) A
(** optional.hpp:149-160 *)
| XForceOpt : forall A, (A -> A) -> lx A (option A)
(** lens.hpp:42-68 *)
| XErase : forall S A, lx S A -> lx S A
(** [l1 | l2] *)
| XCompose : forall S A B, lx S A -> lx A B -> lx S B
(** tuple.hpp:142-159 *)
| XZip : forall ws ps, xpack ws ps -> lx (tup ws) (tup ps)
(** tuple.hpp:167-183 *)
| XFan : forall W ps, xfan W ps -> lx W (tup ps)
with xpack : list Type -> list Type -> Type :=
| XPnil : xpack [] []
| XPcons : forall W P ws ps, (P -> P) -> lx W P -> xpack ws ps -> xpack (W :: ws) (P :: ps)
with xfan : Type -> list Type -> Type :=
| XFnil : forall W, xfan W []
| XFcons : forall W P ps, lx W P -> xfan W ps -> xfan W (P :: ps).

Arguments XId {S}.
Arguments XAttr {S A}.
Arguments XElement {ts T}.
Arguments XUnbox {A}.
Arguments XGetset {S A}.
Arguments XAt {W K A}.
Arguments XAtOr {W K A}.
Arguments XAlternative {ts T}.
Arguments XMapOpt {W P}.
Arguments XBindOpt {W P}.
Arguments XValueOr {A}.
Arguments XForceOpt {A}.
Arguments XErase {S A}.
Arguments XCompose {S A B}.
Arguments XZip {ws ps}.
Arguments XFan {W ps}.
Arguments XPcons {W P ws ps}.
Arguments XFnil {W}.
Arguments XFcons {W P ps}.

(** The same lens on values that are never moved *)
Fixpoint plain {S A} (l : lx S A) : lens S A :=
  match l in lx S A return lens S A with
  | XId => id_lens
  | XAttr mb => attr mb
  | XElement i => element i
  | XUnbox => unbox
  | XGetset _ _ g s => getset g s
  | XAt a s k => at_with a s k
  | XAtOr a s k d => at_or_with a s k d
  | XAlternative _ i => alternative i
  | XMapOpt _ l => map_opt (plain l)
  | XBindOpt _ l => bind_opt (plain l)
  | XValueOr _ t => value_or t
  | XForceOpt _ => force_opt
  | XErase l => erase (plain l)
  | XCompose l1 l2 => compose (plain l1) (plain l2)
  | XZip ls => zip (plain_pack ls)
  | XFan ls => fan (plain_fan ls)
  end
with plain_pack {ws ps} (ls : xpack ws ps) : lens_pack ws ps :=
  match ls in xpack ws ps return lens_pack ws ps with
  | XPnil => LPnil
  | XPcons _ l r => LPcons (plain l) (plain_pack r)
  end
with plain_fan {W ps} (ls : xfan W ps) : fan_pack W ps :=
  match ls in xfan W ps return fan_pack W ps with
  | XFnil => FPnil
  | XFcons l r => FPcons (plain l) (plain_fan r)
  end.

Definition is_last {W ps} (ls : xfan W ps) : bool :=
  match ls with XFnil => true | XFcons _ _ => false end.

(** What each lens does to the references it is given *)
Fixpoint moving {S A} (l : lx S A) : mlens S A :=
  match l in lx S A return mlens S A with
  | XId => fun F m f c p => f c p
  (* attr.hpp:22-25: a reference to the member, of the kind of [p] *)
  | XAttr mb => fun F m f c p =>
      let (fa, a) := f c (mem_get mb p) in
      let p1 := mem_assign mb p a in
      (m _ _ (fun x => mem_assign mb p1 x) fa, p1)
  (* tuple.hpp:123-126 *)
  | XElement i => fun F m f c p =>
      let (fa, a) := f c (tget i p) in
      let p1 := tassign i p a in
      (m _ _ (fun x => tassign i p1 x) fa, p1)
  (* unbox.hpp:19-20; immer::box::get returns a reference to const *)
  | XUnbox => fun F m f c p =>
      let (fa, _) := f L (box_get p) in (m _ _ (fun x => Box x) fa, p)
  (* lenses.hpp:109-113: the getter makes a value; [p] is forwarded twice *)
  | XGetset by_value h getter setter => fun F m f c p =>
      let p1 := if by_value then spent h c p else p in
      let (fa, _) := f R (getter p) in
      (m _ _ (fun x => setter p1 x) fa, p1)
  (* at.hpp:128-137: [.at()] returns a reference to what stays; the optional is made by
     copying and is a temporary *)
  | XAt at_ setter key => fun F m f c whole =>
      let (fa, _) := f R (at_ whole key) in
      (m _ _ (fun part => setter whole part key) fa, whole)
  (* at_or.hpp:69-78, 91-100 *)
  | XAtOr at_ setter key def => fun F m f c whole =>
      let (fa, _) := f R (match at_ whole key with Some v => v | None => def end) in
      (m _ _ (fun part => setter whole part key) fa, whole)
  (* variant.hpp:25-37: std::get<T>(LAGER_FWD(p)) moves into the optional *)
  | XAlternative h i => fun F m f c p =>
      let p1 := match vget i p with Some t => vmake i (spent h c t) | None => p end in
      let (fa, _) := f R (vget i p) in
      (m _ _ (fun x => match x, vget i p1 with
                       | Some v, Some _ => vmake i v
                       | _, _ => p1
                       end) fa, p1)
  (* optional.hpp:28-43: [LAGER_FWD(whole).value()] is viewed, then set *)
  | XMapOpt h l => fun F m f c whole =>
      match whole with
      | Some w =>
          let (a, w1) := moving l (const_functor _) (const_map _) (look h) c w in
          let (fa, _) := f R (Some a) in
          (m _ _ (fun part => match part with
                              | Some v => Some (mset (moving l) c w1 v)
                              | None => Some w1
                              end) fa, Some w1)
      | None => let (fa, _) := f R None in (m _ _ (fun _ => None) fa, None)
      end
  | XBindOpt h l => fun F m f c whole =>
      match whole with
      | Some w =>
          let (a, w1) := moving l (const_functor _) (const_map _)
                                (look (option_map h)) c w in
          let (fa, _) := f R a in
          (m _ _ (fun part => match part with
                              | Some v => Some (mset (moving l) c w1 (Some v))
                              | None => Some w1
                              end) fa, Some w1)
      | None => let (fa, _) := f R None in (m _ _ (fun _ => None) fa, None)
      end
  (* optional.hpp:121-122: value_or of an rvalue moves out of it *)
  | XValueOr h t => fun F m f c whole =>
      let (fa, _) := f R (match whole with Some v => v | None => t end) in
      (m _ _ (fun x => Some x) fa, option_map (spent h c) whole)
  (* optional.hpp:151-158: [opt] is made from [p], passed on as an rvalue, and used
     again when there is nothing to write *)
  | XForceOpt h => fun F m f c p =>
      let (fa, opt) := f R (Some p) in
      (m _ _ (fun x => match x with
                       | Some v => v
                       | None => match opt with Some q => q | None => p end
                       end) fa, spent h c p)
  (* lens.hpp:26-34, 58-66: references to const inside *)
  | XErase l => fun F m f c p =>
      let (fa, _) := f R (mview (fun a => a) (moving l) L p) in
      (m _ _ (fun x => mset (moving l) L p x) fa, p)
  | XCompose l1 l2 => fun F m f c p => moving l1 F m (moving l2 F m f) c p
  (* tuple.hpp:146-157: the elements of the tuple are forwarded to view and to set *)
  | XZip ls => fun F m f c w =>
      let w1 := zip_left ls c w in
      let (fa, _) := f R (zip_look ls c w) in
      (m _ _ (fun parts => zip_put ls c w1 parts) fa, w1)
  (* tuple.hpp:173-181: viewed by reference to const (96-102) *)
  | XFan ls => fun F m f c w =>
      let (fa, _) := f R (fan_look ls w) in
      (m _ _ (fun parts => fan_put ls c w parts) fa, w)
  end
with zip_look {ws ps} (ls : xpack ws ps) : cat -> tup ws -> tup ps :=
  match ls in xpack ws ps return cat -> tup ws -> tup ps with
  | XPnil => fun _ _ => tt
  | XPcons h l r => fun c w => (mview h (moving l) c (fst w), zip_look r c (snd w))
  end
with zip_left {ws ps} (ls : xpack ws ps) : cat -> tup ws -> tup ws :=
  match ls in xpack ws ps return cat -> tup ws -> tup ws with
  | XPnil => fun _ w => w
  | XPcons h l r => fun c w => (after_view h (moving l) c (fst w), zip_left r c (snd w))
  end
with zip_put {ws ps} (ls : xpack ws ps) : cat -> tup ws -> tup ps -> tup ws :=
  match ls in xpack ws ps return cat -> tup ws -> tup ps -> tup ws with
  | XPnil => fun _ w _ => w
  | XPcons h l r => fun c w p =>
      (mset (moving l) c (fst w) (fst p), zip_put r c (snd w) (snd p))
  end
with fan_look {W ps} (ls : xfan W ps) : W -> tup ps :=
  match ls in xfan W ps return W -> tup ps with
  | XFnil => fun _ => tt
  | XFcons l r => fun w => (mview (fun a => a) (moving l) L w, fan_look r w)
  end
(* tuple.hpp:59-73: the innermost call has the whole itself, the others a temporary *)
with fan_put {W ps} (ls : xfan W ps) : cat -> W -> tup ps -> W :=
  match ls in xfan W ps return cat -> W -> tup ps -> W with
  | XFnil => fun _ w _ => w
  | XFcons l r => fun c w p =>
      mset (moving l) (if is_last r then c else R) (fan_put r c w (snd p)) (fst p)
  end.

(** ** Cursors *)

(** A state and cursors made from each other by [zoom], one node for each lens; several
    lenses of one expression are one lens (with.hpp:419-426).  Cursors on several nodes are
    left out (their whole is a tuple of copies). *)
Inductive nodes : Type -> Type -> Type :=
| NRoot : forall S, nodes S S
| NZoom : forall S A B, nodes S A -> lx A B -> nodes S B.
Arguments NRoot {S}.
Arguments NZoom {S A B}.

(** lens_nodes.hpp:63-66.  [current_from] (nodes.hpp:341-348) returns a copy of the value of
    the parent: the lambda in it returns by value.  So the lens is given a temporary. *)
Fixpoint node_value {S A} (n : nodes S A) : S -> A :=
  match n in nodes S A return S -> A with
  | NRoot => fun x => x
  | NZoom p l => fun x => mview (fun a => a) (moving l) R (node_value p x)
  end.
(** lens_nodes.hpp:87-98, after [refresh]; state.hpp:42-58 *)
Fixpoint node_write {S A} (n : nodes S A) : S -> A -> S :=
  match n in nodes S A return S -> A -> S with
  | NRoot => fun _ v => v
  | NZoom p l => fun x v => node_write p x (mset (moving l) R (node_value p x) v)
  end.
