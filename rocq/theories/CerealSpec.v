(** What is said of saving and loading. *)
From Coq Require Import List Permutation.
From Verif Require Import CerealModel.
Import ListNotations.

Section Spec.
Context {Name : Type}.

(** Saving the value [a] and loading into the object [x] gives a value that is the same
    as [a], and reads exactly what was saved. *)
Definition returns {A} (same : A -> A -> Prop) (c : codec Name A) (x : A) (a : A) : Prop :=
  forall rest, exists a', load c x (save c a ++ rest) = (a', Some rest) /\ same a' a.

(** When the members of a struct or tuple are the same. *)
Fixpoint relations (ts : list Type) : Type :=
  match ts with [] => unit | t :: ts => ((t -> t -> Prop) * relations ts)%type end.
Fixpoint same_members {ts : list Type} : relations ts -> members ts -> members ts -> Prop :=
  match ts with
  | [] => fun _ _ _ => True
  | t :: ts => fun same x y => fst same (fst x) (fst y) /\ same_members (snd same) (snd x) (snd y)
  end.
(** Each member returns. *)
Fixpoint all_return {ts : list Type} : relations ts -> codecs Name ts -> members ts -> members ts -> Prop :=
  match ts with
  | [] => fun _ _ _ _ => True
  | t :: ts => fun same cs x y => returns (fst same) (fst cs) (fst x) (fst y) /\
                                  all_return (snd same) (snd cs) (snd x) (snd y)
  end.

(** Variants: the same alternative with values that are the same. *)
Definition types_of (l : list (alternative Name)) : list Type := map atype l.
Fixpoint same_variant {l : list (alternative Name)} : relations (types_of l) -> variant_of l -> variant_of l -> Prop :=
  match l with
  | [] => fun _ _ _ => True
  | a :: l => fun same v w =>
      match v, w with
      | inl x, inl y => fst same x y
      | inr v, inr w => same_variant (l := l) (snd same) v w
      | _, _ => False
      end
  end.
(** The value that it holds returns, when loaded into a fresh object. *)
Fixpoint held_returns {l : list (alternative Name)} : relations (types_of l) -> variant_of l -> Prop :=
  match l with
  | [] => fun _ _ => True
  | a :: l => fun same v =>
      match v with
      | inl x => returns (fst same) (acodec a) (afresh a) x
      | inr v => held_returns (l := l) (snd same) v
      end
  end.

(** Maps: the same keys, with values that are the same. *)
Definition same_map {K A} (same : A -> A -> Prop) (m m' : list (K * A)) : Prop :=
  length m = length m' /\
  (forall k x, In (k, x) m -> exists y, In (k, y) m' /\ same x y) /\
  (forall k y, In (k, y) m' -> exists x, In (k, x) m /\ same x y).
(** Map [r] is [m] with the contents of [v] assigned to their keys. *)
Definition loaded {K A} (same : A -> A -> Prop) (m v r : list (K * A)) : Prop :=
  NoDup (map fst r) /\
  (forall k, In k (map fst r) <-> In k (map fst m) \/ In k (map fst v)) /\
  (forall k y, In (k, y) v -> exists x, In (k, x) r /\ same x y) /\
  (forall k x, ~ In k (map fst v) -> (In (k, x) r <-> In (k, x) m)).
Definition same_set {A} (m m' : list A) : Prop :=
  length m = length m' /\ forall x, In x m <-> In x m'.

(** The archive starts with these elements, one after the other. *)
Inductive elements {A} (c : codec Name A) (fresh : A) : list A -> list (token Name) -> list (token Name) -> Prop :=
| el_none ts : elements c fresh [] ts ts
| el_more x l ts ts1 rest : load c fresh ts = (x, Some ts1) -> elements c fresh l ts1 rest ->
    elements c fresh (x :: l) ts rest.
Inductive pairs {K A} (ck : codec Name K) (c : codec Name A) (fresh_key : K) (fresh : A)
  : list (K * A) -> list (token Name) -> list (token Name) -> Prop :=
| pa_none ts : pairs ck c fresh_key fresh [] ts ts
| pa_more k x l ts ts1 ts2 rest : load ck fresh_key ts = (k, Some ts1) ->
    load c fresh ts1 = (x, Some ts2) -> pairs ck c fresh_key fresh l ts2 rest ->
    pairs ck c fresh_key fresh ((k, x) :: l) ts rest.
(** [u] lists what is in [x] or in [l], each once. *)
Definition union {A} (x l u : list A) : Prop := NoDup u /\ forall y, In y u <-> In y x \/ In y l.
(** [x] is the last one with key [k]. *)
Definition last_of {K A} (k : K) (x : A) (l : list (K * A)) : Prop :=
  exists l1 l2, l = l1 ++ (k, x) :: l2 /\ ~ In k (map fst l2).
(** Map [r] is [m] with those of [l] assigned in turn. *)
Definition assigned {K A} (m l r : list (K * A)) : Prop :=
  union (map fst m) (map fst l) (map fst r) /\
  forall k x, In (k, x) r <-> last_of k x l \/ (~ In k (map fst l) /\ In (k, x) m).
(** The archive starts with the members [r], each read into the one of [x]. *)
Fixpoint members_read {ts : list Type} : codecs Name ts -> members ts -> members ts ->
    list (token Name) -> list (token Name) -> Prop :=
  match ts with
  | [] => fun _ _ _ i rest => i = rest
  | t :: ts => fun cs x r i rest => exists i1,
      load (fst cs) (fst x) i = (fst r, Some i1) /\ members_read (snd cs) (snd x) (snd r) i1 rest
  end.
(** The variant [v] holds the first alternative of that name, with a value that is read. *)
Fixpoint held_read {l : list (alternative Name)} : variant_of l -> Name ->
    list (token Name) -> list (token Name) -> Prop :=
  match l with
  | [] => fun _ _ _ _ => False
  | a :: l => fun v s i rest =>
      match v with
      | inl x => aname a = s /\ load (acodec a) (afresh a) i = (x, Some rest)
      | inr v => aname a <> s /\ held_read (l := l) v s i rest
      end
  end.
End Spec.
