(** Model of [lager::match] and [lager::visitor]
      /repo/lager/util.hpp:41-156

    What a variant holds is handed to one of several functions; which, is found by the
    compiler, by overload resolution between the call operators that [visitor] puts side
    by side.  Overload resolution is therefore part of the model, as in [over.match.best],
    [over.ics.rank] and [temp.deduct.partial] of the C++17 standard.

    Simplifications:
    - Types are numbers; implicit conversions between different types, with their rank, are
      given by a function.  A converted value is a temporary, so that a reference to
      non-const does not take it; there are no references to base classes.
    - Handlers are functions of plain parameters, or generic ones all of whose parameters
      are [auto], perhaps a pack.  There are no templates that mix both.
    - The variants are copied and moved without exceptions. *)
From Coq Require Import List Bool Arith.
Import ListNotations.

(** * Overload resolution *)
Inductive conversion := Promotion | Conversion | User.
Inductive rank := Exact | By (c : conversion).
Definition rank_no (r : rank) : nat :=
  match r with Exact => 0 | By Promotion => 1 | By Conversion => 2 | By User => 3 end.

(** An argument: its type, whether it is const, whether it is an rvalue *)
Record arg := Arg { ty : nat; cst : bool; rv : bool }.
(** T, const T&, T&, T&& *)
Inductive param := ByVal (t : nat) | CRef (t : nat) | LRef (t : nat) | RRef (t : nat).
(** auto, const auto&, auto&, auto&& *)
Inductive gparam := Auto | AutoCRef | AutoLRef | AutoFwd.
Inductive sig := Plain (ps : list param) | Generic (ps : list gparam) | Variadic (p : gparam).

(** An implicit conversion sequence: its rank, the type it leads to and, if it binds a
    reference: to const?, an rvalue reference?, to an rvalue? *)
Inductive bound := NoRef | Bound (to_const rref to_rvalue : bool).
Record ics := Ics { rk : rank; target : nat; bd : bound }.

Section Types.
Variable conv : nat -> nat -> option conversion.   (* between different types *)

Definition plain_ics (p : param) (a : arg) : option ics :=
  match p with
  | ByVal t =>
      if t =? ty a then Some (Ics Exact t NoRef)
      else option_map (fun c => Ics (By c) t NoRef) (conv (ty a) t)
  | CRef t =>
      if t =? ty a then Some (Ics Exact t (Bound true false (rv a)))
      else option_map (fun c => Ics (By c) t (Bound true false true)) (conv (ty a) t)
  | LRef t =>
      if (t =? ty a) && negb (cst a) && negb (rv a) then Some (Ics Exact t (Bound false false false))
      else None
  | RRef t =>
      if t =? ty a
      then (if rv a && negb (cst a) then Some (Ics Exact t (Bound false true true)) else None)
      else option_map (fun c => Ics (By c) t (Bound false true true)) (conv (ty a) t)
  end.
Definition generic_ics (p : gparam) (a : arg) : option ics :=
  match p with
  | Auto => Some (Ics Exact (ty a) NoRef)
  | AutoCRef => Some (Ics Exact (ty a) (Bound true false (rv a)))
  | AutoLRef =>
      if negb (rv a) || cst a then Some (Ics Exact (ty a) (Bound (cst a) false (rv a))) else None
  | AutoFwd => Some (Ics Exact (ty a) (Bound (cst a) (rv a) (rv a)))
  end.
Fixpoint all2 {A B C} (f : A -> B -> option C) (l : list A) (k : list B) : option (list C) :=
  match l, k with
  | [], [] => Some []
  | a :: l', b :: k' =>
      match f a b, all2 f l' k' with Some c, Some r => Some (c :: r) | _, _ => None end
  | _, _ => None
  end.
(** The conversions for all arguments, if the function is viable *)
Definition ics_of (s : sig) (l : list arg) : option (list ics) :=
  match s with
  | Plain ps => all2 plain_ics ps l
  | Generic ps => all2 generic_ics ps l
  | Variadic p => all2 generic_ics (repeat p (length l)) l
  end.

(** [over.ics.rank]; two conversions of rank [User] compare only if they lead to the same
    type *)
Definition is_user (r : rank) : bool := match r with By User => true | _ => false end.
Definition better_ics (a b : ics) : bool :=
  (rank_no (rk a) <? rank_no (rk b)) ||
  ((rank_no (rk a) =? rank_no (rk b)) &&
   match bd a, bd b with
   | Bound ca ra va, Bound cb rb vb =>
       (ra && va && vb && negb rb && (negb (is_user (rk a)) || (target a =? target b))) ||
       ((target a =? target b) && negb ca && cb)
   | _, _ => false
   end).
(** [temp.deduct.partial]: is the parameter [p] at least as specialized as [q]? *)
Definition is_ref (p : gparam) : bool := match p with Auto => false | _ => true end.
Definition is_lref (p : gparam) : bool := match p with AutoCRef | AutoLRef => true | _ => false end.
Definition is_cref (p : gparam) : bool := match p with AutoCRef => true | _ => false end.
Definition as_special (p q : gparam) : bool :=
  negb (is_ref p && is_ref q &&
        ((is_lref q && negb (is_lref p)) || (is_cref q && negb (is_cref p)))).
Definition as_special_all (l k : list gparam) : bool :=
  forallb (fun pq => as_special (fst pq) (snd pq)) (combine l k).
Definition more_special (n : nat) (s1 s2 : sig) : bool :=
  match s1, s2 with
  | Generic l, Generic k => as_special_all l k && negb (as_special_all k l)
  | Generic l, Variadic p => as_special_all l (repeat p n)
  | Variadic p, Variadic q => as_special p q && negb (as_special q p)
  | _, _ => false
  end.
Definition is_plain (s : sig) : bool := match s with Plain _ => true | _ => false end.

(** [over.match.best], for two viable functions *)
Definition some_better (l k : list ics) : bool :=
  existsb (fun ab => better_ics (fst ab) (snd ab)) (combine l k).
Definition better (l : list arg) (s1 s2 : sig) : bool :=
  match ics_of s1 l, ics_of s2 l with
  | Some k1, Some k2 =>
      negb (some_better k2 k1) &&
      (some_better k1 k2 ||
       (is_plain s1 && negb (is_plain s2)) ||
       more_special (length l) s1 s2)
  | _, _ => false
  end.
Definition viable (l : list arg) (s : sig) : bool :=
  match ics_of s l with Some _ => true | None => false end.
(** The number of the one that is better than all other viable ones *)
Definition others {A} (i : nat) (l : list A) : list A := firstn i l ++ skipn (S i) l.
Definition wins (ss : list sig) (l : list arg) (i : nat) : bool :=
  match nth_error ss i with
  | Some s => viable l s && forallb (fun s' => negb (viable l s') || better l s s') (others i ss)
  | None => false
  end.
Definition resolve (ss : list sig) (l : list arg) : option nat :=
  find (wins ss l) (seq 0 (length ss)).

(** * Variants and handlers *)
Variable value : Type.
(** What a handler returns: a value or a reference to one of its arguments *)
Inductive result := RVal (v : value) | RRefTo (k : nat).
(** The type of that; [None] is void *)
Inductive rtype := TVal (t : nat) | TRef (t : nat) | TVoid.
Record handler := Handler {
  takes : sig;
  gives : list nat -> rtype;             (* by the types of the arguments *)
  does : list value -> result }.

(** An expression given to [match]: the alternatives of the variant, as what it is given,
    and what it holds: the number of the alternative and the value, nothing if it is
    valueless *)
Inductive shape := IsVariant | InheritsVariant | NoVariant.
Record vexpr := Vexpr { form : shape; alts : list nat; vcst : bool; vrv : bool; held : option (nat * value) }.

(** util.hpp:72-76, 86-128: the base std::variant, as const and as much of an rvalue as
    what inherits from it; [None]: static_assert *)
Definition forward_variant (v : vexpr) : option vexpr :=
  match form v with
  | NoVariant => None
  | _ => Some (Vexpr IsVariant (alts v) (vcst v) (vrv v) (held v))
  end.
Fixpoint forward_all (vs : list vexpr) : option (list vexpr) :=
  match vs with
  | [] => Some []
  | v :: r => match forward_variant v, forward_all r with
              | Some v', Some r' => Some (v' :: r') | _, _ => None end
  end.

(** std::visit: the function must be found for all combinations of alternatives, and
    return the same type for all of them. *)
Fixpoint combos (vs : list vexpr) : list (list arg) :=
  match vs with
  | [] => [[]]
  | v :: r => flat_map (fun t => map (cons (Arg t (vcst v) (vrv v))) (combos r)) (alts v)
  end.
Definition rtype_eqb (a b : rtype) : bool :=
  match a, b with
  | TVal t, TVal u => t =? u
  | TRef t, TRef u => t =? u
  | TVoid, TVoid => true
  | _, _ => false
  end.
Definition rtype_of (hs : list handler) (l : list arg) : option rtype :=
  match resolve (map takes hs) l with
  | Some i => option_map (fun h => gives h (map ty l)) (nth_error hs i)
  | None => None
  end.
Definition same_rtype (a b : option rtype) : bool :=
  match a, b with Some x, Some y => rtype_eqb x y | _, _ => false end.
Definition visitable (hs : list handler) (vs : list vexpr) : bool :=
  match combos vs with
  | [] => false
  | l :: r => forallb (fun k => same_rtype (rtype_of hs l) (rtype_of hs k)) (l :: r)
  end.

Inductive outcome :=
| IllFormed
| Threw                                        (* std::bad_variant_access *)
| Called (i : nat) (vals : list value) (r : result).

Fixpoint holds (vs : list vexpr) : option (list (arg * value)) :=
  match vs with
  | [] => Some []
  | v :: r =>
      match held v, holds r with
      | Some (n, x), Some l =>
          match nth_error (alts v) n with
          | Some t => Some ((Arg t (vcst v) (vrv v), x) :: l)
          | None => None
          end
      | _, _ => None
      end
  end.
Definition visit (hs : list handler) (vs : list vexpr) : outcome :=
  if visitable hs vs then
    match holds vs with
    | None => Threw
    | Some l =>
        match resolve (map takes hs) (map fst l) with
        | Some i =>
            match nth_error hs i with
            | Some h => Called i (map snd l) (does h (map snd l))
            | None => IllFormed
            end
        | None => IllFormed
        end
    end
  else IllFormed.
(** util.hpp:54-67: the lambda in between returns [auto], so that a reference is copied
    from.  util.hpp:151-156 *)
Definition decay (vals : list value) (r : result) : result :=
  match r with
  | RVal v => RVal v
  | RRefTo k => match nth_error vals k with Some v => RVal v | None => RRefTo k end
  end.
Definition match_ (vs : list vexpr) (hs : list handler) : outcome :=
  match forward_all vs with
  | None => IllFormed
  | Some vs' =>
      match visit hs vs' with
      | Called i vals r => Called i vals (decay vals r)
      | o => o
      end
  end.
End Types.
Arguments RVal {value}. Arguments RRefTo {value}. Arguments Handler {value}.
Arguments takes {value}. Arguments gives {value}. Arguments does {value}.
Arguments Vexpr {value}. Arguments form {value}. Arguments alts {value}. Arguments vcst {value}.
Arguments vrv {value}. Arguments held {value}.
Arguments IllFormed {value}. Arguments Threw {value}. Arguments Called {value}.
Arguments holds {value}. Arguments combos {value}. Arguments forward_all {value}.
Arguments forward_variant {value}. Arguments decay {value}.
Arguments visit conv {value}. Arguments match_ conv {value}. Arguments visitable conv {value}. Arguments rtype_of conv {value}.
