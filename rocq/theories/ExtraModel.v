(** Enumerations with names, derived equality and hash: lager/extra/enum.hpp,
    lager/extra/derive/eq.hpp, lager/extra/derive/hash.hpp. *)
From Coq Require Import List Bool NArith.
Import ListNotations.

(** ** Enumerations *)
Section Enum.
(** [E]: the values of an enumeration; [Name]: the strings that name enumerators. *)
Context {E Name : Type} (eqb : E -> E -> bool) (name_eqb : Name -> Name -> bool).

(** What [LAGER_ENUM] makes of the names listed, enum.hpp:80-95: each with the value that
    the enumeration gives to the enumerator of this name ([value_of]). *)
Definition apply (value_of : Name -> E) (names : list Name) : list (E * Name) :=
  map (fun n => (value_of n, n)) names.

(** [to_string], enum.hpp:48-61: the loop is left by an exception at the first match;
    [None]: the exception "unknown enum value". *)
Fixpoint to_string (t : list (E * Name)) (v : E) : option Name :=
  match t with
  | [] => None
  | (x, n) :: t => if eqb x v then Some n else to_string t v
  end.

(** [to_enum], enum.hpp:63-76. *)
Fixpoint to_enum (t : list (E * Name)) (s : Name) : option E :=
  match t with
  | [] => None
  | (x, n) :: t => if name_eqb n s then Some x else to_enum t s
  end.
End Enum.

(** ** Structs *)
Section Derive.
Context {S : Type}.
(** A member listed in [LAGER_DERIVE]: its type, how it is accessed, its [==] and its
    [std::hash]. *)
Record member : Type := Member {
  mtype : Type;
  mget : S -> mtype;
  meq : mtype -> mtype -> bool;
  mhash : mtype -> N
}.

(** [operator==], eq.hpp:18-26 (38-42, 53-57): [true && a.x == b.x && ...], from the
    left. *)
Definition derived_eq (ms : list member) (a b : S) : bool :=
  fold_left (fun acc m => acc && meq m (mget m a) (mget m b)) ms true.
(** [operator!=], eq.hpp:27-30. *)
Definition derived_ne (ms : list member) (a b : S) : bool := negb (derived_eq ms a b).

(** Arithmetic of [std::size_t], which has [bits] bits. *)
Variable bits : N.
Definition wrap (x : N) : N := N.modulo x (2 ^ bits).

(** hash.hpp:24-26; the constant is 0x9e3779b9. *)
Definition hash_iter (seed h : N) : N :=
  N.lxor seed (wrap (h + 2654435769 + wrap (N.shiftl seed 6) + N.shiftr seed 2)).

(** [std::hash], hash.hpp:28-41: the seed starts as 0; for a template, 44-58, as the
    hash of the type of the object. *)
Definition derived_hash (seed : S -> N) (ms : list member) (x : S) : N :=
  fold_left (fun s m => hash_iter s (mhash m (mget m x))) ms (seed x).
Definition plain_seed (_ : S) : N := 0.
End Derive.
Arguments member : clear implicits.
Arguments Member {S}.
