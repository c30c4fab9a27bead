(** Model of [operator[]] (SmartModel.v) with value categories (MoveModel.v):
      /repo/lager/detail/smart_lens.hpp
      /repo/lager/with.hpp:166-173

    The same choices as in SmartModel, of lens expressions.  [h t] is what is left of a
    value of type [t] that was moved from.  Arguments are keys and pointers to members;
    lens objects are left out. *)
From Coq Require Import List Arith Bool.
From Verif Require Import LensModel SmartModel MoveModel.
Import ListNotations.

Definition husks := forall t : ty, den t -> den t.
Definition mpart (t : ty) : Type := {p : ty & lx (den t) (den p)}.
Definition an_mpart {t} (p : ty) (l : lx (den t) (den p)) : mpart t := existT _ p l.

(** smart_lens.hpp:28-48 with at.hpp:56-94, 123-140 and attr.hpp:17-29 *)
Definition mbase (t : ty) (a : arg) : option (mpart t) :=
  match a with
  | Key k =>
      match t with
      | TVec false e =>
          Some (an_mpart (t := TVec false e) (TOpt e)
                  (XAt vec_at (at_setter_mutable vec_assign) k))
      | TVec true e =>
          Some (an_mpart (t := TVec true e) (TOpt e)
                  (XAt vec_at (at_setter_immer vec_at vec_set) k))
      | TMap false e =>
          Some (an_mpart (t := TMap false e) (TOpt e)
                  (XAt (amap_at Nat.eqb) (at_setter_mutable (amap_assign Nat.eqb)) k))
      | TMap true e =>
          Some (an_mpart (t := TMap true e) (TOpt e)
                  (XAt (amap_at Nat.eqb)
                       (at_setter_immer (amap_at Nat.eqb) (amap_set Nat.eqb)) k))
      | _ => None
      end
  | Ptr c n =>
      match t with
      | TClass c' ms =>
          if c =? c' then
            match member_at ms n with
            | Some (existT _ p m) => Some (an_mpart (t := TClass c' ms) p (XAttr m))
            | None => None
            end
          else None
      | _ => None
      end
  | Obj _ => None
  end.

(** optional.hpp:104-111 *)
Definition mwith_opt (h : husks) {t} (l : mpart t) : mpart (TOpt t) :=
  match l with
  | existT _ p l =>
      match p return lx (den t) (den p) -> mpart (TOpt t) with
      | TOpt q => fun l => an_mpart (t := TOpt t) (TOpt q) (XBindOpt (h q) l)
      | p => fun l => an_mpart (t := TOpt t) (TOpt p) (XMapOpt (h p) l)
      end l
  end.

(** smart_lens.hpp:50-76 *)
Fixpoint mmake (h : husks) (t : ty) (a : arg) : option (mpart t) :=
  match t with
  | TOpt t' => option_map (mwith_opt h) (mmake h t' a)
  | t => mbase t a
  end.

(** with.hpp:166-173 with zoom (269-274 and 419-426) *)
Definition mzoom (h : husks) {t} (l : mpart t) (a : arg) : option (mpart t) :=
  match l with
  | existT _ p l1 =>
      match mmake h p a with
      | Some (existT _ q l2) => Some (an_mpart q (XCompose l1 l2))
      | None => None
      end
  end.
Fixpoint mbrackets (h : husks) {t} (l : mpart t) (args : list arg) : option (mpart t) :=
  match args with
  | [] => Some l
  | a :: r => match mzoom h l a with Some l' => mbrackets h l' r | None => None end
  end.
Definition mselect (h : husks) (t : ty) (args : list arg) : option (mpart t) :=
  match args with
  | [] => Some (an_mpart t XId)
  | a :: r => match mmake h t a with Some l => mbrackets h l r | None => None end
  end.
