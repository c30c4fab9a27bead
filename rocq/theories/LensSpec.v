(** Specification vocabulary for lens properties: stated only through the API
    functions [view], [set] and [over]. *)
From Coq Require Import List.
From Verif Require Import LensModel.
Import ListNotations.

Definition put_get {S A} (l : lens S A) : Prop :=
  forall x v, view l (set l x v) = v.
Definition get_put {S A} (l : lens S A) : Prop :=
  forall x, set l x (view l x) = x.
Definition put_put {S A} (l : lens S A) : Prop :=
  forall x v w, set l (set l x v) w = set l x w.
Definition over_law {S A} (l : lens S A) : Prop :=
  forall x f, over l x f = set l x (f (view l x)).

(** A functor worth the name: mapping preserves the
    identity, composes and is extensional. *)
Record lawful_functor (F : Type -> Type) (m : fmap_op F) : Prop := {
  lf_id : forall A (x : F A), m _ _ (fun a => a) x = x;
  lf_comp : forall A B C (g : B -> C) (h : A -> B) (x : F A),
      m _ _ g (m _ _ h x) = m _ _ (fun a => g (h a)) x;
  lf_ext : forall A B (g h : A -> B) (x : F A),
      (forall a, g a = h a) -> m _ _ g x = m _ _ h x
}.

(** The lens behaves uniformly in the functor: invoking it with any functor is
    determined by its [view] and [set].  (Parametricity guarantees this for
    every C++ lens written as one generic lambda; we prove it per lens.) *)
Definition uniform {S A} (l : lens S A) : Prop :=
  forall F m, lawful_functor F m ->
  forall (f : A -> F A) (p : S),
    l F m f p = m _ _ (fun a => set l p a) (f (view l p)).

Record lawful {S A} (l : lens S A) : Prop := {
  law_uniform : uniform l;
  law_put_get : put_get l;
  law_get_put : get_put l;
  law_put_put : put_put l;
  law_over : over_law l
}.

(** Laws of a pointer to member (C++ guarantees them for any member). *)
Record member_ok {S A} (mb : member S A) : Prop := {
  mok_get_assign : forall s a, mem_get mb (mem_assign mb s a) = a;
  mok_assign_get : forall s, mem_assign mb s (mem_get mb s) = s;
  mok_assign_assign : forall s a b,
      mem_assign mb (mem_assign mb s a) b = mem_assign mb s b
}.

(** All lenses of a zip pack are lawful. *)
Fixpoint pack_lawful {ws ps} (ls : lens_pack ws ps) : Prop :=
  match ls with
  | LPnil => True
  | LPcons l r => lawful l /\ pack_lawful r
  end.

(** Two lenses on one whole look at unrelated parts. *)
Definition independent {W A B} (l1 : lens W A) (l2 : lens W B) : Prop :=
  (forall w b, view l1 (set l2 w b) = view l1 w) /\
  (forall w a, view l2 (set l1 w a) = view l2 w) /\
  (forall w a b, set l1 (set l2 w b) a = set l2 (set l1 w a) b).

Fixpoint indep_of_pack {W A ps} (l : lens W A) (ls : fan_pack W ps) : Prop :=
  match ls with
  | FPnil => True
  | FPcons l2 r => independent l l2 /\ indep_of_pack l r
  end.
Fixpoint fan_lawful {W ps} (ls : fan_pack W ps) : Prop :=
  match ls with
  | FPnil => True
  | FPcons l r => lawful l /\ indep_of_pack l r /\ fan_lawful r
  end.

(** Everything one can write with attr, element, unbox, a lawful getset, the
    identity, zip, type erasure and [|]. *)
Inductive builtin : forall S A, lens S A -> Prop :=
| B_attr : forall S A (mb : member S A), member_ok mb -> builtin S A (attr mb)
| B_element : forall ts T (i : idx ts T), builtin _ _ (element i)
| B_unbox : forall A, builtin _ _ (@unbox A)
| B_getset : forall S A (g : S -> A) (s : S -> A -> S),
    (forall x v, g (s x v) = v) -> (forall x, s x (g x) = x) ->
    (forall x v w, s (s x v) w = s x w) -> builtin S A (getset g s)
| B_id : forall S, builtin S S id_lens
| B_zip : forall ws ps (ls : lens_pack ws ps), builtin_pack ws ps ls ->
    builtin _ _ (zip ls)
| B_comp : forall S A B (l1 : lens S A) (l2 : lens A B),
    builtin S A l1 -> builtin A B l2 -> builtin S B (compose l1 l2)
| B_erase : forall S A (l : lens S A), builtin S A l -> builtin S A (erase l)
with builtin_pack : forall ws ps, lens_pack ws ps -> Prop :=
| BP_nil : builtin_pack [] [] LPnil
| BP_cons : forall W P ws ps (l : lens W P) (r : lens_pack ws ps),
    builtin W P l -> builtin_pack ws ps r -> builtin_pack _ _ (LPcons l r).
