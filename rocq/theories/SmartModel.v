(** Model of [operator[]] of readers, writers and cursors
      /repo/lager/detail/smart_lens.hpp
      /repo/lager/with.hpp:166-173, reader.hpp:39-43, writer.hpp:43-47

    Which lens is taken depends on the types alone, so the types are data here.

    Simplifications:
    - Types are numbers, optionals, vectors and maps (of the standard library or of
      immer), and classes with public data members.  Keys are numbers, for maps too;
      immer::table is left out.
    - A program that the compiler does not accept has no meaning: [None].
    - A pointer to member is given by the class and the position of the member. *)
From Coq Require Import List Arith Bool.
From Verif Require Import LensModel.
Import ListNotations.

Inductive ty :=
| TNum
| TOpt (t : ty)                                 (* std::optional *)
| TVec (immer : bool) (t : ty)                  (* std::vector, immer::vector *)
| TMap (immer : bool) (t : ty)                  (* std::map, immer::map *)
| TClass (c : nat) (ms : members)
with members := MNil | MCons (t : ty) (ms : members).

(** The values of a type *)
Fixpoint den (t : ty) : Type :=
  match t with
  | TNum => nat
  | TOpt a => option (den a)
  | TVec _ a => list (den a)
  | TMap _ a => list (nat * den a)
  | TClass _ ms => dens ms
  end
with dens (ms : members) : Type :=
  match ms with
  | MNil => unit
  | MCons a r => (den a * dens r)%type
  end.

(** A lens on [t], with the type of the part that it shows *)
Definition part (t : ty) : Type := {p : ty & lens (den t) (den p)}.
Definition a_part {t} (p : ty) (l : lens (den t) (den p)) : part t := existT _ p l.

(** [x.*member], and assigning to it *)
Fixpoint member_at (ms : members) (n : nat) : option {p : ty & member (dens ms) (den p)} :=
  match ms with
  | MNil => None
  | MCons a r =>
      match n with
      | 0 => Some (existT _ a (Member (S := dens (MCons a r)) fst (fun w x => (x, snd w))))
      | S k =>
          match member_at r k with
          | None => None
          | Some (existT _ p m) =>
              Some (existT _ p (Member (S := dens (MCons a r)) (fun w => mem_get m (snd w))
                                       (fun w x => (fst w, mem_assign m (snd w) x))))
          end
      end
  end.

(** What is passed to [operator[]]: a key, a pointer to member, or a lens.  A lens is
    mostly made of generic lambdas and works for several types: [on t] is what it is
    for the type [t], nothing if its code does not compile for [t].  [constrained]: the
    compiler can tell so from its declaration; otherwise even asking (is_detected,
    smart_lens.hpp:67) makes it reject the program, as the return types of generic
    lambdas are deduced from their bodies.  The lenses of lager are not constrained. *)
Record lens_object := Lens { on : forall t, option (part t); constrained : bool }.
Inductive arg :=
| Key (k : nat)
| Ptr (c n : nat)
| Obj (w : lens_object).

(** smart_lens.hpp:28-48, smart_lens_base<T>.  [.at(key)] is what containers have.  A key
    for anything else is returned as if it was a lens (31-35): it does not compile when
    it is used. *)
Definition base_make (t : ty) (a : arg) : option (part t) :=
  match a with
  | Key k =>
      match t with
      | TVec false e => Some (a_part (t := TVec false e) (TOpt e) (at_vector k))
      | TVec true e => Some (a_part (t := TVec true e) (TOpt e) (at_immer_vector k))
      | TMap false e => Some (a_part (t := TMap false e) (TOpt e) (at_map Nat.eqb k))
      | TMap true e => Some (a_part (t := TMap true e) (TOpt e) (at_immer_map Nat.eqb k))
      | _ => None
      end
  | Ptr c n =>
      match t with
      | TClass c' ms =>
          if c =? c' then
            match member_at ms n with
            | Some (existT _ p m) => Some (a_part (t := TClass c' ms) p (attr m))
            | None => None
            end
          else None
      | _ => None
      end
  | Obj w => on w t
  end.

(** lenses/optional.hpp:104-111, with_opt: optional parts do not become optional twice *)
Definition with_opt {t} (l : part t) : part (TOpt t) :=
  match l with
  | existT _ p l =>
      match p return lens (den t) (den p) -> part (TOpt t) with
      | TOpt q => fun l => a_part (t := TOpt t) (TOpt q) (bind_opt l)
      | p => fun l => a_part (t := TOpt t) (TOpt p) (map_opt l)
      end l
  end.

(** smart_lens.hpp:50-76, smart_lens<T> and smart_lens<std::optional<T>> *)
Fixpoint make (t : ty) (a : arg) : option (part t) :=
  match t with
  | TOpt t' =>
      match a with
      | Obj w =>
          match on w (TOpt t') with
          | Some l => Some l
          | None => if constrained w then option_map with_opt (make t' a) else None
          end
      | _ => option_map with_opt (make t' a)
      end
  | t => base_make t a
  end.

(** with.hpp:166-173 with zoom (269-274 and 419-426): [x[a][b]...] is one lens, that of
    all arguments so far followed by the next one.  (If there is a reader in between, the
    lens of the next expression is composed with the lens node by C18.) *)
Definition zoom {t} (l : part t) (a : arg) : option (part t) :=
  match l with
  | existT _ p l1 =>
      match make p a with
      | Some (existT _ q l2) => Some (a_part q (compose l1 l2))
      | None => None
      end
  end.
Fixpoint brackets {t} (l : part t) (args : list arg) : option (part t) :=
  match args with
  | [] => Some l
  | a :: r => match zoom l a with Some l' => brackets l' r | None => None end
  end.
(** x[a][b]... for [x] with values of type [t]: [with(x)] starts with no lens, the first
    [zoom] (269-274) takes the lens as it is. *)
Definition select (t : ty) (args : list arg) : option (part t) :=
  match args with
  | [] => Some (a_part t id_lens)
  | a :: r => match make t a with Some l => brackets l r | None => None end
  end.
