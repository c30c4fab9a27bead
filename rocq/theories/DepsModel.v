(** Bags of dependencies: lager/deps.hpp.

    Types are the elements of any set with decidable equality: the type [T] of a
    dependency also is its key unless [dep::key] says otherwise.  Values have no
    structure.  References are locations; what is found at a location, and what a
    function given as a dependency returns, depends on the world in which they are
    used.  Type-level computations are ordinary functions here; where the code does not
    compile they give [None].

    Simplifications: a type converts only to itself, so conversions between different
    stored types are those that [std::optional], [std::function] and
    [std::reference_wrapper] provide; functions given as dependencies have no effects;
    a moved-from bag is not used again; [boost::hana::map] is a list of pairs, of which
    the order is never observed. *)
From Coq Require Import List Bool.
Import ListNotations.

(** deps.hpp:84-208, the specifications in namespace [dep]. *)
Inductive spec (ty : Type) : Type :=
| Val (t : ty)
| Ref (t : ty)
| Opt (s : spec ty)
| Fn (s : spec ty)
| Key (k : ty) (s : spec ty).
Arguments Val {ty}. Arguments Ref {ty}. Arguments Opt {ty}. Arguments Fn {ty}. Arguments Key {ty}.

(** The types [storage] of the specifications: deps.hpp:92-100 a struct with one member,
    122 [std::reference_wrapper], 160 [std::optional], 189 [std::function]; [dep::key]
    (203-208) inherits it. *)
Inductive sty (ty : Type) : Type :=
| TVal (t : ty)
| TRef (t : ty)
| TOpt (s : sty ty)
| TFn (s : sty ty).
Arguments TVal {ty}. Arguments TRef {ty}. Arguments TOpt {ty}. Arguments TFn {ty}.

(** Objects of these types.  [SFn None] is an empty [std::function]. *)
Inductive stor (V L W : Type) : Type :=
| SVal (v : V)
| SRef (l : L)
| SOpt (o : option (stor V L W))
| SFn (f : option (W -> stor V L W)).
Arguments SVal {V L W}. Arguments SRef {V L W}. Arguments SOpt {V L W}. Arguments SFn {V L W}.

(** What [get()] does: it returns a value or a reference, or throws. *)
Inductive res (V L : Type) : Type :=
| RVal (v : V)
| RRef (l : L)
| Missing   (** throws [missing_dependency_error] *)
| BadCall   (** throws [std::bad_function_call] *)
| Mistyped. (** the object is not of the type that the specification says *)
Arguments RVal {V L}. Arguments RRef {V L}. Arguments Missing {V L}. Arguments BadCall {V L}. Arguments Mistyped {V L}.

Section Model.
Context {ty : Type} (ty_dec : forall a b : ty, {a = b} + {a <> b}).
Context {V L W : Type} (deref : W -> L -> V).
Notation spec := (spec ty).
Notation sty := (sty ty).
Notation stor := (stor V L W).
Notation res := (res V L).

Definition ty_eqb (a b : ty) : bool := if ty_dec a b then true else false.

(** [key_type]: deps.hpp:90, 121, inherited by [opt] (157) and [fn] (186), 207. *)
Fixpoint key_of (s : spec) : ty :=
  match s with
  | Val t => t
  | Ref t => t
  | Opt s => key_of s
  | Fn s => key_of s
  | Key k _ => k
  end.

(** [is_required]: deps.hpp:66, 161; inherited by [fn] and [key]. *)
Fixpoint required (s : spec) : bool :=
  match s with
  | Val _ => true
  | Ref _ => true
  | Opt _ => false
  | Fn s => required s
  | Key _ s => required s
  end.

(** [storage]: deps.hpp:92-100, 122, 160, 189; inherited by [key]. *)
Fixpoint storage (s : spec) : sty :=
  match s with
  | Val t => TVal t
  | Ref t => TRef t
  | Opt s => TOpt (storage s)
  | Fn s => TFn (storage s)
  | Key _ s => storage s
  end.

Fixpoint sty_eqb (a b : sty) : bool :=
  match a, b with
  | TVal x, TVal y => ty_eqb x y
  | TRef x, TRef y => ty_eqb x y
  | TOpt x, TOpt y => sty_eqb x y
  | TFn x, TFn y => sty_eqb x y
  | _, _ => false
  end.

(** [get]: deps.hpp:102-106, 124-128, 163-170, 191-195; inherited by [key]. *)
Fixpoint get_of (s : spec) (w : W) (x : stor) : res :=
  match s, x with
  | Val _, SVal v => RVal v
  | Ref _, SRef l => RRef l
  | Opt s, SOpt (Some x) => get_of s w x
  | Opt _, SOpt None => Missing
  | Fn s, SFn (Some f) => get_of s w (f w)
  | Fn _, SFn None => BadCall
  | Key _ s, _ => get_of s w x
  | _, _ => Mistyped
  end.

(** [bool{x}] in [opt::has], deps.hpp:172-176, of a [std::optional], or of the
    [std::function] that a specification [fn<opt<T>>] inheriting it stores. *)
Definition engaged (x : stor) : bool :=
  match x with
  | SOpt o => match o with Some _ => true | None => false end
  | SFn f => match f with Some _ => true | None => false end
  | _ => true
  end.

(** [has]: deps.hpp:68-72, 172-176; inherited by [fn] and [key]. *)
Fixpoint has_of (s : spec) (x : stor) : bool :=
  match s with
  | Val _ => true
  | Ref _ => true
  | Opt _ => engaged x
  | Fn s => has_of s x
  | Key _ s => has_of s x
  end.

(** Implicit conversion of an object of one storage type to another: the same type;
    [std::optional] from a value or from another [std::optional]; [std::function] from
    another one (an empty one gives an empty one).  The constructor of [optional<d>] from
    [optional<s>] is not considered when [d] itself can be made from [optional<s>]. *)
Fixpoint implicit (dst src : sty) : option (W -> stor -> stor) :=
  if sty_eqb src dst then Some (fun _ x => x)
  else match dst with
  | TOpt d =>
      match implicit d src with
      | Some c => Some (fun w x => SOpt (Some (c w x)))
      | None =>
          match src with
          | TOpt s =>
              match implicit d s with
              | Some c => Some (fun w x => match x with
                                           | SOpt (Some y) => SOpt (Some (c w y))
                                           | _ => SOpt None
                                           end)
              | None => None
              end
          | _ => None
          end
      end
  | TFn d =>
      match src with
      | TFn s =>
          match implicit d s with
          | Some c => Some (fun _ x => match x with
                                       | SFn (Some f) => SFn (Some (fun w => c w (f w)))
                                       | _ => SFn None
                                       end)
          | None => None
          end
      | _ => None
      end
  | _ => None
  end.

(** The second overloads of [extract], deps.hpp:109 and 131: from a [std::function<T()>]
    or [std::function<T&()>], which a [std::function<std::reference_wrapper<T>()>]
    converts to (a [std::function] that returns the [storage] of a [val] does not).  The
    function is called. *)
Definition from_function (dst src : sty) : option (W -> stor -> option stor) :=
  match dst, src with
  | TVal t, TFn (TRef t') =>
      if ty_eqb t t' then Some (fun w x => match x with
                                           | SFn (Some f) => match f w with
                                                             | SRef l => Some (SVal (deref w l))
                                                             | _ => None
                                                             end
                                           | _ => None
                                           end) else None
  | TRef t, TFn (TRef t') =>
      if ty_eqb t t' then Some (fun w x => match x with
                                           | SFn (Some f) => Some (f w)
                                           | _ => None
                                           end) else None
  | _, _ => None
  end.

(** [Spec::extract]: deps.hpp:108-109, 130-131, 178, 197; inherited by [key].  The inner
    [None]: the function is empty and calling it throws. *)
Definition extract (dst src : sty) : option (W -> stor -> option stor) :=
  match implicit dst src with
  | Some c => Some (fun w x => Some (c w x))
  | None => from_function dst src
  end.

(** An object of type [deps<Deps...>]: its storage (deps.hpp:423-426) with the
    specification that belongs to each entry. *)
Definition bag : Type := list (spec * stor).

Definition keys (b : bag) : list ty := map (fun e => key_of (fst e)) b.

(** [storage_\[key\]] and [spec_map\[key\]]; [boost::hana::find]. *)
Fixpoint lookup (k : ty) (b : bag) : option (spec * stor) :=
  match b with
  | [] => None
  | e :: b => if ty_eqb (key_of (fst e)) k then Some e else lookup k b
  end.

(** deps.hpp:307-313. *)
Definition required_keys (ds : list spec) : list ty := map key_of (filter required ds).

Definition mem (k : ty) (l : list ty) : bool := existsb (ty_eqb k) l.

Fixpoint distinct (l : list ty) : bool :=
  match l with
  | [] => true
  | k :: l => negb (mem k l) && distinct l
  end.

(** Result of an expression that may not compile, and may throw. *)
Inductive outcome (A : Type) : Type :=
| Rejected          (** does not compile *)
| Thrown            (** [std::bad_function_call] *)
| Made (a : A).
Arguments Rejected {A}. Arguments Thrown {A}. Arguments Made {A}.

(** [get_storage_t<Spec>{}], a default constructed storage, deps.hpp:460: an empty
    [std::optional] or [std::function]. *)
Definition blank (t : sty) : option stor :=
  match t with
  | TOpt _ => Some (SOpt None)
  | TFn _ => Some (SFn None)
  | _ => None
  end.

(** [extract_from_storage_], deps.hpp:447-461. *)
Definition extract_from (w : W) (d : spec) (b : bag) : outcome stor :=
  if required d then
    match lookup (key_of d) b with
    | None => Rejected
    | Some (s, x) =>
        match extract (storage d) (storage s) with
        | None => Rejected
        | Some c => match c w x with Some y => Made y | None => Thrown end
        end
    end
  else
    match lookup (key_of d) b with
    | None => match blank (storage d) with Some y => Made y | None => Rejected end
    | Some (s, x) =>
        match implicit (storage d) (storage s) with
        | None => Rejected
        | Some c => Made (c w x)
        end
    end.

(** [make_storage_from_], deps.hpp:437-445. *)
Fixpoint make_storage_from (w : W) (ds : list spec) (b : bag) : outcome bag :=
  match ds with
  | [] => Made []
  | d :: ds =>
      match extract_from w d b, make_storage_from w ds b with
      | Made x, Made r => Made ((d, x) :: r)
      | Rejected, _ | _, Rejected => Rejected
      | _, _ => Thrown
      end
  end.

Definition subset (a b : list ty) : bool := forallb (fun k => mem k b) a.

(** The converting constructor, deps.hpp:339-350, with the static assertion of 318-320. *)
Definition convert (w : W) (ds : list spec) (b : bag) : outcome bag :=
  if distinct (map key_of ds) && subset (required_keys ds) (required_keys (map fst b))
  then make_storage_from w ds b else Rejected.

(** [boost::hana::union_] of two maps: the second has precedence. *)
Definition union (b1 b2 : bag) : bag :=
  b2 ++ filter (fun e => negb (mem (key_of (fst e)) (keys b2))) b1.

(** The constructor from two bags, deps.hpp:357-373. *)
Definition convert2 (w : W) (ds : list spec) (b1 b2 : bag) : outcome bag :=
  if distinct (map key_of ds) &&
     subset (required_keys ds) (required_keys (map fst b1) ++ required_keys (map fst b2))
  then make_storage_from w ds (union b1 b2) else Rejected.

(** [merge], deps.hpp:408-418: the same [union_] taken of the specifications. *)
Definition merge (w : W) (b1 b2 : bag) : outcome bag :=
  convert2 w (map fst (union b1 b2)) b1 b2.

(** [with], deps.hpp:328-334, given the objects constructed from its arguments. *)
Definition with_ (ds : list spec) (xs : list stor) : option bag :=
  if distinct (map key_of ds) && Nat.eqb (length ds) (length xs)
  then Some (combine ds xs) else None.

(** [get] and [has], deps.hpp:384-401; asking for a key that is not declared does not
    compile. *)
Definition get (w : W) (k : ty) (b : bag) : option res :=
  match lookup k b with
  | Some (s, x) => Some (get_of s w x)
  | None => None
  end.
Definition has (k : ty) (b : bag) : option bool :=
  match lookup k b with
  | Some (s, x) => Some (has_of s x)
  | None => None
  end.

(** The dependencies of a store: [make_store], store.hpp:354-381, passes [deps<>{}]
    through the enhancers, first to last; [with_deps], store.hpp:243-262. *)
Fixpoint enhance (w : W) (b : bag) (news : list bag) : outcome bag :=
  match news with
  | [] => Made b
  | n :: news =>
      match merge w b n with
      | Made m => enhance w m news
      | r => r
      end
  end.

(** Conversion from bag to bag, as contexts are passed on, each with the types it is
    converted to and the world in which it happens. *)
Fixpoint pass_on (b : bag) (steps : list (W * list spec)) : outcome bag :=
  match steps with
  | [] => Made b
  | (w, ds) :: steps =>
      match convert w ds b with
      | Made m => pass_on m steps
      | r => r
      end
  end.

End Model.
Arguments Rejected {A}. Arguments Thrown {A}. Arguments Made {A}.
