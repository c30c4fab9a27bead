(** What is said of serialization with names. *)
From Coq Require Import List.
From Verif Require Import CerealModel CerealSpec JsonModel.
Import ListNotations.

Section Spec.
Context {Name : Type}.

(** Saving [a] and loading into [x] gives a value that is the same as [a]. *)
Definition treturns {A} (same : A -> A -> Prop) (c : tcodec Name A) (x a : A) : Prop :=
  exists a', tload c x (tsave c a) = (a', true) /\ same a' a.

Fixpoint field_names {ts : list Type} : fields Name ts -> list Name :=
  match ts with
  | [] => fun _ => []
  | t :: ts => fun fs => fst (fst fs) :: field_names (snd fs)
  end.
Fixpoint tall_return {ts : list Type} : relations ts -> fields Name ts -> members ts -> members ts -> Prop :=
  match ts with
  | [] => fun _ _ _ _ => True
  | t :: ts => fun same fs x y => treturns (fst same) (snd (fst fs)) (fst x) (fst y) /\
                                  tall_return (snd same) (snd fs) (snd x) (snd y)
  end.

(** [y] is [x] with the members loaded whose names are in [l]. *)
Fixpoint by_name {ts : list Type} : fields Name ts -> list (Name * node Name) -> members ts -> members ts -> Prop :=
  match ts with
  | [] => fun _ _ _ _ => True
  | t :: ts => fun fs l x y =>
      (forall n, In (fst (fst fs), n) l -> tload (snd (fst fs)) (fst x) n = (fst y, true)) /\
      (~ In (fst (fst fs)) (map fst l) -> fst y = fst x) /\
      by_name (snd fs) l (snd x) (snd y)
  end.
(** All those can be loaded. *)
Fixpoint loadable {ts : list Type} : fields Name ts -> list (Name * node Name) -> members ts -> Prop :=
  match ts with
  | [] => fun _ _ _ => True
  | t :: ts => fun fs l x =>
      (forall n, In (fst (fst fs), n) l -> snd (tload (snd (fst fs)) (fst x) n) = true) /\
      loadable (snd fs) l (snd x)
  end.

Definition ttypes_of (l : list (talternative Name)) : list Type := map tatype l.
Fixpoint tsame_variant {l : list (talternative Name)} : relations (ttypes_of l) -> tvariant_of l -> tvariant_of l -> Prop :=
  match l with
  | [] => fun _ _ _ => True
  | a :: l => fun same v w =>
      match v, w with
      | inl x, inl y => fst same x y
      | inr v, inr w => tsame_variant (l := l) (snd same) v w
      | _, _ => False
      end
  end.
Fixpoint theld_returns {l : list (talternative Name)} : relations (ttypes_of l) -> tvariant_of l -> Prop :=
  match l with
  | [] => fun _ _ => True
  | a :: l => fun same v =>
      match v with
      | inl x => treturns (fst same) (tacodec a) (tafresh a) x
      | inr v => theld_returns (l := l) (snd same) v
      end
  end.

(** ** Which files can be loaded, and what they contain *)
Definition reads {A} (c : tcodec Name A) (x : A) (n : node Name) (y : A) : Prop := tload c x n = (y, true).
(** No object has two members with one name. *)
Definition clear (n : node Name) : Prop := match n with Object l => NoDup (map fst l) | _ => True end.
Definition clear_items (n : node Name) : Prop := match n with Array l => Forall clear l | _ => True end.

(** An object with members [key] and [value]. *)
Definition item_is {K A} (ck : tcodec Name K) (c : tcodec Name A) fresh_key fresh (key value : Name)
  (n : node Name) (kx : K * A) : Prop :=
  exists l nk na, n = Object l /\ In (key, nk) l /\ reads ck fresh_key nk (fst kx) /\
                  In (value, na) l /\ reads c fresh na (snd kx).
(** [m'] is [m] where [x] belongs to [k] now. *)
Definition put {K A} (k : K) (x : A) (m m' : list (K * A)) : Prop :=
  (exists a y b, m = a ++ (k, y) :: b /\ ~ In k (map fst a) /\ m' = a ++ (k, x) :: b) \/
  (~ In k (map fst m) /\ m' = m ++ [(k, x)]).
Fixpoint puts {K A} (v m m' : list (K * A)) : Prop :=
  match v with
  | [] => m' = m
  | (k, x) :: v => exists m1, put k x m m1 /\ puts v m1 m'
  end.
(** [m'] is [m] with [x] in it. *)
Fixpoint adds {A} (v m m' : list A) : Prop :=
  match v with
  | [] => m' = m
  | x :: v => exists m1, (In x m /\ m1 = m \/ ~ In x m /\ m1 = m ++ [x]) /\ adds v m1 m'
  end.

(** The members of a tuple, one after the other. *)
Fixpoint all_read {ts : list Type} : tcodecs Name ts -> members ts -> list (node Name) -> members ts -> Prop :=
  match ts with
  | [] => fun _ _ _ _ => True
  | t :: ts => fun cs x l y =>
      exists n r, l = n :: r /\ reads (fst cs) (fst x) n (fst y) /\ all_read (snd cs) (snd x) r (snd y)
  end.
Fixpoint tall_return_tuple {ts : list Type} : relations ts -> tcodecs Name ts -> members ts -> members ts -> Prop :=
  match ts with
  | [] => fun _ _ _ _ => True
  | t :: ts => fun same cs x y => treturns (fst same) (fst cs) (fst x) (fst y) /\
                                  tall_return_tuple (snd same) (snd cs) (snd x) (snd y)
  end.
(** The first alternative named [s] can be read from [n]. *)
Fixpoint reads_alternative {l : list (talternative Name)} (s : Name) (n : node Name) : tvariant_of l -> Prop :=
  match l with
  | [] => fun _ => False
  | a :: l => fun v =>
      match v with
      | inl x => taname a = s /\ reads (tacodec a) (tafresh a) n x
      | inr v => taname a <> s /\ reads_alternative (l := l) s n v
      end
  end.
End Spec.
