(** Model of lager's lenses: /repo/lager/lenses.hpp, /repo/lager/lens.hpp and
    /repo/lager/lenses/*.hpp.

    A C++ lens is a polymorphic function object [lens(f)(whole)] where [f] maps
    a part to a "functor value" that is itself callable with a function (its
    [operator()] is the functor's map).  We keep exactly that shape: a lens is
    polymorphic in the functor [F], given by its map operation.

    Simplifications: value categories (lvalue/rvalue, moves) are not modelled,
    every part is a value; [std::out_of_range] thrown by [.at()] is [None]. *)
From Coq Require Import List Arith Bool.
Import ListNotations.

(** lenses.hpp:38-42 and 59-64: what [operator()] of a functor value does. *)
Definition fmap_op (F : Type -> Type) : Type :=
  forall A B : Type, (A -> B) -> F A -> F B.

(** The van Laarhoven lens type, lenses.hpp:71-96 (how lenses are invoked). *)
Definition lens (S A : Type) : Type :=
  forall F : Type -> Type, fmap_op F -> (A -> F A) -> S -> F S.

(** lenses.hpp:33-43, struct const_functor: calling it ignores the function. *)
Definition const_functor (R : Type) : Type -> Type := fun _ => R.
Definition const_map (R : Type) : fmap_op (const_functor R) :=
  fun _ _ _ x => x.

(** lenses.hpp:54-65, struct identity_functor: calling it applies it. *)
Definition identity_functor : Type -> Type := fun A => A.
Definition identity_map : fmap_op identity_functor :=
  fun _ _ h x => h x.

(** lenses.hpp:71-78 *)
Definition view {S A} (l : lens S A) (x : S) : A :=
  l (const_functor A) (const_map A) (fun v => v) x.

(** lenses.hpp:80-86 *)
Definition set {S A} (l : lens S A) (x : S) (v : A) : S :=
  l identity_functor identity_map (fun _ => v) x.

(** lenses.hpp:88-96 *)
Definition over {S A} (l : lens S A) (x : S) (fn : A -> A) : S :=
  l identity_functor identity_map (fun v => fn v) x.

(** lenses.hpp:105-116, lenses::getset *)
Definition getset {S A} (getter : S -> A) (setter : S -> A -> S) : lens S A :=
  fun F m f p => m _ _ (fun x => setter p x) (f (getter p)).

(** zug::comp / operator| of lenses: [(l1 | l2)(f) = l1(l2(f))];
    used throughout, e.g. with.hpp:423-428. *)
Definition compose {S A B} (l1 : lens S A) (l2 : lens A B) : lens S B :=
  fun F m f p => l1 F m (l2 F m f) p.

(** The identity function used as a lens (tuple.hpp:140). *)
Definition id_lens {S} : lens S S := fun F m f p => f p.

(** attr.hpp:17-29.  A pointer to member is the pair of the member's read and
    the effect of assigning it on a copy of the whole. *)
Record member (S A : Type) := Member {
  mem_get : S -> A;                (* [p.*member] *)
  mem_assign : S -> A -> S         (* [r = p; r.*member = x; return r] *)
}.
Arguments Member {S A}. Arguments mem_get {S A}. Arguments mem_assign {S A}.

Definition attr {S A} (mb : member S A) : lens S A :=
  fun F m f p => m _ _ (fun x => mem_assign mb p x) (f (mem_get mb p)).

(** unbox.hpp:17-22 over immer::box *)
Inductive box (A : Type) : Type := Box (a : A).
Arguments Box {A}.
Definition box_get {A} (b : box A) : A := match b with Box a => a end.
Definition unbox {A} : lens (box A) A :=
  fun F m f p => m _ _ (fun x => Box x) (f (box_get p)).

(** ** Tuples, tuple.hpp *)

(** [std::tuple<ts...>]; pairs and arrays are the same shape. *)
Fixpoint tup (ts : list Type) : Type :=
  match ts with
  | [] => unit
  | t :: r => (t * tup r)%type
  end.

(** Compile-time index [N] of [element<N>] with the type it selects. *)
Inductive idx : list Type -> Type -> Type :=
| IZ : forall T ts, idx (T :: ts) T
| IS : forall T U ts, idx ts T -> idx (U :: ts) T.
Arguments IZ {T ts}. Arguments IS {T U ts}.

(** [std::get<N>] *)
Fixpoint tget {ts T} (i : idx ts T) : tup ts -> T :=
  match i in idx ts T return tup ts -> T with
  | IZ => fun w => fst w
  | IS j => fun w => tget j (snd w)
  end.

(** [std::get<N>(res) = part] *)
Fixpoint tassign {ts T} (i : idx ts T) : tup ts -> T -> tup ts :=
  match i in idx ts T return tup ts -> T -> tup ts with
  | IZ => fun w x => (x, snd w)
  | IS j => fun w x => (fst w, tassign j (snd w) x)
  end.

(** tuple.hpp:116-130, element_t *)
Definition element {ts T} (i : idx ts T) : lens (tup ts) T :=
  fun F m f w => m _ _ (fun part => tassign i w part) (f (tget i w)).

(** The pack of lenses passed to zip (tuple.hpp:143). *)
Inductive lens_pack : list Type -> list Type -> Type :=
| LPnil : lens_pack [] []
| LPcons : forall W P ws ps, lens W P -> lens_pack ws ps ->
                             lens_pack (W :: ws) (P :: ps).
Arguments LPcons {W P ws ps}.

(** tuple.hpp:40-48 apply_zip with fobj_view (111). All packs have the same
    length here, so the [std::min] of lengths is that length. *)
Fixpoint zip_view {ws ps} (ls : lens_pack ws ps) : tup ws -> tup ps :=
  match ls in lens_pack ws ps return tup ws -> tup ps with
  | LPnil => fun _ => tt
  | LPcons l r => fun w => (view l (fst w), zip_view r (snd w))
  end.

(** tuple.hpp:40-48 apply_zip with fobj_set (112). *)
Fixpoint zip_set {ws ps} (ls : lens_pack ws ps) : tup ws -> tup ps -> tup ws :=
  match ls in lens_pack ws ps return tup ws -> tup ps -> tup ws with
  | LPnil => fun w _ => w
  | LPcons l r => fun w p => (set l (fst w) (fst p), zip_set r (snd w) (snd p))
  end.

(** tuple.hpp:142-159 *)
Definition zip {ws ps} (ls : lens_pack ws ps) : lens (tup ws) (tup ps) :=
  fun F m f w => m _ _ (fun parts => zip_set ls w parts) (f (zip_view ls w)).

(** The pack of lenses passed to fan (tuple.hpp:168), all on one whole. *)
Inductive fan_pack (W : Type) : list Type -> Type :=
| FPnil : fan_pack W []
| FPcons : forall P ps, lens W P -> fan_pack W ps -> fan_pack W (P :: ps).
Arguments FPnil {W}. Arguments FPcons {W P ps}.

(** tuple.hpp:175-176: apply_zip of view over the duplicated whole. *)
Fixpoint fan_view {W ps} (ls : fan_pack W ps) (w : W) : tup ps :=
  match ls in fan_pack _ ps return tup ps with
  | FPnil => tt
  | FPcons l r => (view l w, fan_view r w)
  end.

(** tuple.hpp:59-73 set_fold_iteration: the tail is folded first, the head
    lens is applied last. *)
Fixpoint set_fold {W ps} (ls : fan_pack W ps) : W -> tup ps -> W :=
  match ls in fan_pack _ ps return W -> tup ps -> W with
  | FPnil => fun w _ => w
  | FPcons l r => fun w p => set l (set_fold r w (snd p)) (fst p)
  end.

(** tuple.hpp:167-183 *)
Definition fan {W ps} (ls : fan_pack W ps) : lens W (tup ps) :=
  fun F m f w => m _ _ (fun parts => set_fold ls w parts) (f (fan_view ls w)).

(** ** at / at_or, at.hpp and at_or.hpp *)

(** at.hpp:56-74: containers with a mutable [at] (std::vector, std::map).
    [assign w k v = None] is [std::out_of_range] from [r.at(k)]. *)
Definition at_setter_mutable {W K A} (assign : W -> K -> A -> option W)
    (w : W) (part : option A) (k : K) : W :=
  match part with
  | Some v => match assign w k v with Some r => r | None => w end
  | None => w
  end.

(** at.hpp:76-94: immer-style [set]; [at] is called first and may throw. *)
Definition at_setter_immer {W K A} (at_ : W -> K -> option A)
    (set_ : W -> K -> A -> W) (w : W) (part : option A) (k : K) : W :=
  match part with
  | Some v => match at_ w k with Some _ => set_ w k v | None => w end
  | None => w
  end.

(** at.hpp:96-113: immer-style [insert] of the element (immer::table); the key
    of the lens is not used. *)
Definition at_setter_insert {W K A} (insert_ : W -> A -> W)
    (w : W) (part : option A) (k : K) : W :=
  match part with
  | Some v => insert_ w v
  | None => w
  end.

(** at.hpp:123-140 for a given choice of at_setter_impl. *)
Definition at_with {W K A} (at_ : W -> K -> option A)
    (setter : W -> option A -> K -> W) (key : K) : lens W (option A) :=
  fun F m f whole =>
    m _ _ (fun part => setter whole part key) (f (at_ whole key)).

(** at_or.hpp:23-37 and 39-57 *)
Definition at_or_setter_mutable {W K A} (assign : W -> K -> A -> option W)
    (w : W) (part : A) (k : K) : W :=
  match assign w k part with Some r => r | None => w end.
Definition at_or_setter_immer {W K A} (at_ : W -> K -> option A)
    (set_ : W -> K -> A -> W) (w : W) (part : A) (k : K) : W :=
  match at_ w k with Some _ => set_ w k part | None => w end.

(** at_or.hpp:86-103 ([def] = the default; 64-81 is [def = Part{}]). *)
Definition at_or_with {W K A} (at_ : W -> K -> option A)
    (setter : W -> A -> K -> W) (key : K) (def : A) : lens W A :=
  fun F m f whole =>
    m _ _ (fun part => setter whole part key)
          (f (match at_ whole key with Some v => v | None => def end)).

(** at.hpp:34-54, [maybe_has_key] is [true] when exceptions are enabled, which
    is the configuration of the definitions above.  With LAGER_NO_EXCEPTIONS
    the key is tested first and an out-of-range [.at()] would abort: [None]
    below.  [has] is [count(k) > 0] for maps and [k < size()] for vectors. *)
Definition noexc_view {W K A} (has : W -> K -> bool) (at_ : W -> K -> option A)
    (w : W) (k : K) : option (option A) :=
  if has w k then match at_ w k with Some v => Some (Some v) | None => None end
  else Some None.
(** at.hpp:56-74 in the same configuration *)
Definition noexc_set_mutable {W K A} (has : W -> K -> bool)
    (assign : W -> K -> A -> option W) (w : W) (part : option A) (k : K)
  : option W :=
  match has w k, part with
  | true, Some v => assign w k v
  | _, _ => Some w
  end.
(** at.hpp:76-94 in the same configuration *)
Definition noexc_set_immer {W K A} (has : W -> K -> bool)
    (at_ : W -> K -> option A) (set_ : W -> K -> A -> W) (w : W)
    (part : option A) (k : K) : option W :=
  match has w k, part with
  | true, Some v => match at_ w k with Some _ => Some (set_ w k v) | None => None end
  | _, _ => Some w
  end.

(** Containers.  std::vector / immer::vector: [.at(k)], [.at(k) = v]. *)
Definition vec_at {A} (w : list A) (k : nat) : option A := nth_error w k.
Fixpoint vec_assign {A} (w : list A) (k : nat) (v : A) : option (list A) :=
  match w, k with
  | [], _ => None
  | _ :: r, 0 => Some (v :: r)
  | x :: r, S k' => match vec_assign r k' v with
                    | Some r' => Some (x :: r')
                    | None => None
                    end
  end.
(** immer::vector::set; out of range indices are undefined behaviour there, so
    the value on that branch is irrelevant: at.hpp:87 rules it out. *)
Definition vec_set {A} (w : list A) (k : nat) (v : A) : list A :=
  match vec_assign w k v with Some r => r | None => w end.

(** Map-like containers as association lists with a key test. *)
Fixpoint amap_at {K A} (eqk : K -> K -> bool) (w : list (K * A)) (k : K)
  : option A :=
  match w with
  | [] => None
  | (k', a) :: r => if eqk k k' then Some a else amap_at eqk r k
  end.
Fixpoint amap_assign {K A} (eqk : K -> K -> bool) (w : list (K * A)) (k : K)
    (v : A) : option (list (K * A)) :=
  match w with
  | [] => None
  | (k', a) :: r =>
      if eqk k k' then Some ((k', v) :: r)
      else match amap_assign eqk r k v with
           | Some r' => Some ((k', a) :: r')
           | None => None
           end
  end.
(** [count(k) > 0] on maps, [k < size()] on vectors (at.hpp:40-45). *)
Definition amap_count {K A} (eqk : K -> K -> bool) (w : list (K * A)) (k : K)
  : bool := existsb (fun e => eqk k (fst e)) w.
Definition vec_has {A} (w : list A) (k : nat) : bool := k <? length w.

(** immer::map::set inserts or updates. *)
Definition amap_set {K A} (eqk : K -> K -> bool) (w : list (K * A)) (k : K)
    (v : A) : list (K * A) :=
  match amap_assign eqk w k v with Some r => r | None => w ++ [(k, v)] end.

(** immer::table: elements keyed by their own id. *)
Definition table_at {K A} (eqk : K -> K -> bool) (idof : A -> K) (w : list A)
    (k : K) : option A := find (fun a => eqk k (idof a)) w.
Fixpoint table_insert {K A} (eqk : K -> K -> bool) (idof : A -> K) (w : list A)
    (v : A) : list A :=
  match w with
  | [] => [v]
  | a :: r => if eqk (idof v) (idof a) then v :: r
              else a :: table_insert eqk idof r v
  end.

(** The lenses actually obtained from [lenses::at] on each container. *)
Definition at_vector {A} (k : nat) : lens (list A) (option A) :=
  at_with vec_at (at_setter_mutable vec_assign) k.
Definition at_immer_vector {A} (k : nat) : lens (list A) (option A) :=
  at_with vec_at (at_setter_immer vec_at vec_set) k.
Definition at_map {K A} (eqk : K -> K -> bool) (k : K)
  : lens (list (K * A)) (option A) :=
  at_with (amap_at eqk) (at_setter_mutable (amap_assign eqk)) k.
Definition at_immer_map {K A} (eqk : K -> K -> bool) (k : K)
  : lens (list (K * A)) (option A) :=
  at_with (amap_at eqk) (at_setter_immer (amap_at eqk) (amap_set eqk)) k.
Definition at_immer_table {K A} (eqk : K -> K -> bool) (idof : A -> K) (k : K)
  : lens (list A) (option A) :=
  at_with (table_at eqk idof) (at_setter_insert (table_insert eqk idof)) k.
Definition at_or_vector {A} (k : nat) (def : A) : lens (list A) A :=
  at_or_with vec_at (at_or_setter_mutable vec_assign) k def.
Definition at_or_immer_vector {A} (k : nat) (def : A) : lens (list A) A :=
  at_or_with vec_at (at_or_setter_immer vec_at vec_set) k def.
Definition at_or_map {K A} (eqk : K -> K -> bool) (k : K) (def : A)
  : lens (list (K * A)) A :=
  at_or_with (amap_at eqk) (at_or_setter_mutable (amap_assign eqk)) k def.
Definition at_or_immer_map {K A} (eqk : K -> K -> bool) (k : K) (def : A)
  : lens (list (K * A)) A :=
  at_or_with (amap_at eqk) (at_or_setter_immer (amap_at eqk) (amap_set eqk))
             k def.

(** ** Variants, variant.hpp:16-40.
    [std::variant<ts...>] as a sum over the type list; alternative<T> names one
    position (types are assumed distinct, as C++ requires for std::get<T>). *)
Fixpoint variant (ts : list Type) : Type :=
  match ts with
  | [] => Empty_set
  | t :: r => (t + variant r)%type
  end.

(** holds_alternative / get *)
Fixpoint vget {ts T} (i : idx ts T) : variant ts -> option T :=
  match i in idx ts T return variant ts -> option T with
  | IZ => fun v => match v with inl x => Some x | inr _ => None end
  | IS j => fun v => match v with inl _ => None | inr r => vget j r end
  end.
(** construction of the variant from a T *)
Fixpoint vmake {ts T} (i : idx ts T) : T -> variant ts :=
  match i in idx ts T return T -> variant ts with
  | IZ => fun x => inl x
  | IS j => fun x => inr (vmake j x)
  end.

Definition alternative {ts T} (i : idx ts T) : lens (variant ts) (option T) :=
  fun F m f p =>
    m _ _ (fun x => match x, vget i p with
                    | Some v, Some _ => vmake i v
                    | _, _ => p
                    end)
          (f (vget i p)).

(** ** Optionals, optional.hpp *)

(** optional.hpp:19-46 with PartMeta = add_opt (89-93): map_opt.  Note the lens
    is used through [view] and [set], not composed. *)
Definition map_opt {W P} (l : lens W P) : lens (option W) (option P) :=
  fun F m f whole =>
    match whole with
    | Some w =>
        m _ _ (fun part => match part with
                           | Some v => Some (set l w v)
                           | None => whole
                           end)
              (f (Some (view l w)))
    | None => m _ _ (fun _ => whole) (f None)
    end.

(** optional.hpp:98-102: bind_opt, Part is the lens's own optional part;
    [set] receives the contained value, converted back to an optional. *)
Definition bind_opt {W P} (l : lens W (option P))
  : lens (option W) (option P) :=
  fun F m f whole =>
    match whole with
    | Some w =>
        m _ _ (fun part => match part with
                           | Some v => Some (set l w (Some v))
                           | None => whole
                           end)
              (f (view l w))
    | None => m _ _ (fun _ => whole) (f None)
    end.
(** with_opt (107-111) selects bind_opt when the part is an optional and
    map_opt otherwise; the selection is by type. *)

(** optional.hpp:116-125 (and 130-144 with [t = T{}]): value_or.  The setter
    returns the plain part, which converts to an engaged optional. *)
Definition value_or {A} (t : A) : lens (option A) A :=
  fun F m f whole =>
    m _ _ (fun x => Some x)
          (f (match whole with Some v => v | None => t end)).

(** optional.hpp:149-160: force_opt *)
Definition force_opt {A} : lens A (option A) :=
  fun F m f p =>
    m _ _ (fun x => match x with Some v => v | None => p end) (f (Some p)).

(** lens.hpp:22-35, 42-68: the type-erased lens holds view/set of the wrapped
    lens and presents them as a lens again. *)
Definition erase {S A} (l : lens S A) : lens S A :=
  fun F m f p => m _ _ (fun x => set l p x) (f (view l p)).
