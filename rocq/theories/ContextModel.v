(** Contexts and lists of actions: lager/context.hpp.

    C++ types are the elements of a set with decidable equality; each has its values, and
    a partial conversion to each other type ([std::is_convertible] says whether there is
    one, [conv] what it does).  Type-level computations are functions; [None] where the
    code does not compile.

    Simplifications: value categories and references are not distinguished; of the rules
    of overload resolution only "an exact match is better than a conversion, two
    conversions are ambiguous" is kept; an [std::function] that is empty (that of a
    default constructed context) is not modelled. *)
From Coq Require Import List Bool Arith.
From Verif Require Import DepsModel.
Import ListNotations.

Section Actions.
Context {ty : Type} (is_convertible : ty -> ty -> bool).

(** The parameter [Actions] of a context: context.hpp:38-68. *)
Inductive aty : Type :=
| AVoid
| AOne (a : ty)
| AMany (l : list ty).

(** [as_actions]: context.hpp:49-68. *)
Definition as_actions (a : aty) : list ty :=
  match a with
  | AVoid => []
  | AOne a => [a]
  | AMany l => l
  end.

(** [find_convertible_action_aux], context.hpp:72-84. *)
Definition find_convertible (a : ty) (candidates : list ty) : option ty :=
  find (fun t => is_convertible a t) candidates.

(** [merge_actions_aux], context.hpp:107-142: the two lambdas, the step of the fold, and
    the whole.  [remove_convertibles] is as written: it removes what the new action is
    convertible to. *)
Definition has_convertible (seq : list ty) (x : ty) : bool :=
  match find (fun t => is_convertible x t) seq with Some _ => true | None => false end.
Definition remove_convertibles (seq : list ty) (x : ty) : list ty :=
  filter (fun t => negb (is_convertible x t)) seq.
Definition merge_step (acc : list ty) (x : ty) : list ty :=
  if has_convertible acc x then acc else remove_convertibles acc x ++ [x].
Definition merge_lists (a1 a2 : list ty) : list ty := fold_left merge_step a2 a1.
Definition merge_actions (t1 t2 : aty) : option aty :=
  let a1 := as_actions t1 in
  let a2 := as_actions t2 in
  if (length a1 =? 0) || (length a2 =? 0) then None
  else match merge_lists a1 a2 with
       | [x] => Some (AOne x)
       | l => Some (AMany l)
       end.
End Actions.
Arguments AVoid {ty}. Arguments AOne {ty}. Arguments AMany {ty}.

Section Contexts.
Context {ty : Type} (ty_dec : forall a b : ty, {a = b} + {a <> b}).
Context (val : ty -> Type) (conv : forall a b : ty, option (val a -> val b)).
(** [R]: what calling the dispatch function of a store does. *)
Context {R : Type}.

Definition convertible (a b : ty) : bool := match conv a b with Some _ => true | None => false end.

(** A function that can be called with some types of actions, giving another: the
    parameter [Converter]. *)
Definition converter : Type := forall a : ty, option {r : ty & val a -> val r}.

(** [are_compatible_actions_aux], context.hpp:86-105, for [identity_t] and for a
    converter. *)
Definition are_compatible (a1 a2 : list ty) : bool :=
  forallb (fun t1 => existsb (fun t2 => convertible t1 t2) a2) a1.
Definition are_compatible_with (k : converter) (a1 a2 : list ty) : bool :=
  forallb (fun t1 => match k t1 with
                     | Some (existT _ r _) => existsb (fun t2 => convertible r t2) a2
                     | None => false
                     end) a1.

(** [dispatcher<actions<As...>>], context.hpp:152-155: one [std::function] for each. *)
Definition disp : Type := list {a : ty & val a -> R}.
Definition types (d : disp) : list ty := map (fun e => projT1 e) d.

(** The base class [std::function<future(find_convertible_action_t<a, As...>)>], called
    with an [a]: context.hpp:159-163 (and 174-176). *)
Fixpoint entry_for (a : ty) (d : disp) : option (val a -> R) :=
  match d with
  | [] => None
  | existT _ b f :: d =>
      match conv a b with
      | Some c => Some (fun x => f (c x))
      | None => entry_for a d
      end
  end.

Fixpoint all_some {A B} (f : A -> option B) (l : list A) : option (list B) :=
  match l with
  | [] => Some []
  | a :: l => match f a, all_some f l with
              | Some b, Some r => Some (b :: r)
              | _, _ => None
              end
  end.

(** The constructor from a dispatcher for other actions, context.hpp:159-163; from one
    for the same actions the copy constructor is chosen. *)
Definition convert_disp (l : list ty) (d : disp) : option disp :=
  if list_eq_dec ty_dec l (types d) then Some d
  else all_some (fun a => match entry_for a d with
                          | Some f => Some (existT (fun a => val a -> R) a f)
                          | None => None
                          end) l.

(** With a converter: context.hpp:170-185. *)
Definition convert_disp_with (k : converter) (l : list ty) (d : disp) : option disp :=
  all_some (fun a => match k a with
                     | Some (existT _ r g) =>
                         match entry_for r d with
                         | Some f => Some (existT (fun a => val a -> R) a (fun x => f (g x)))
                         | None => None
                         end
                     | None => None
                     end) l.

(** From a function, context.hpp:165-168: that of a store takes a [root], store.hpp:144
    and 149. *)
Definition root_disp (root : ty) (deliver : val root -> R) (l : list ty) : option disp :=
  all_some (fun a => match conv a root with
                     | Some c => Some (existT (fun a => val a -> R) a (fun x => deliver (c x)))
                     | None => None
                     end) l.

(** Calling the dispatcher, context.hpp:307-311 and 155: the overloaded [operator()]. *)
Fixpoint exact_entry (a : ty) (d : disp) : option (val a -> R) :=
  match d with
  | [] => None
  | existT _ b f :: d =>
      match ty_dec b a with
      | left e => Some (fun x => f (match e in _ = a' return val a' -> val b with eq_refl => fun x => x end x))
      | right _ => exact_entry a d
      end
  end.
Definition viable (a : ty) (d : disp) : disp := filter (fun e => convertible a (projT1 e)) d.
Definition call (d : disp) (a : ty) : option (val a -> R) :=
  match exact_entry a d with
  | Some f => Some f
  | None => match viable a d with
            | [_] => entry_for a d
            | _ => None
            end
  end.

(** A context: its dependencies, dispatcher and event loop, context.hpp:266-321.  [LP]:
    the event loops; the shared pointer refers to the same one after copying. *)
Context {V L W LP : Type} (deref : W -> L -> V).
Record context : Type := Ctx {
  cdeps : list (spec ty * stor V L W);
  cdisp : disp;
  cloop : LP
}.

(** The context of a store, context.hpp:300-305, store.hpp:144-146. *)
Definition store_context (root : ty) (deliver : val root -> R) (loop : LP)
                         (d : list (spec ty * stor V L W)) : option context :=
  match root_disp root deliver [root] with
  | Some f => Some (Ctx d f loop)
  | None => None
  end.

(** A conversion: to which dependencies and actions, in which world, and perhaps with a
    converter. *)
Record step : Type := Step {
  sworld : W;
  sdeps : list (spec ty);
  sactions : list ty;
  sconv : option converter
}.

(** The constructors from other contexts, context.hpp:274-298. *)
Definition convert_context (s : step) (c : context) : outcome context :=
  match sconv s with
  | None =>
      if are_compatible (sactions s) (types (cdisp c)) then
        match convert ty_dec deref (sworld s) (sdeps s) (cdeps c) with
        | Made d => match convert_disp (sactions s) (cdisp c) with
                    | Some f => Made (Ctx d f (cloop c))
                    | None => Rejected
                    end
        | Rejected => Rejected
        | Thrown => Thrown
        end
      else Rejected
  | Some k =>
      if are_compatible_with k (sactions s) (types (cdisp c)) then
        match convert ty_dec deref (sworld s) (sdeps s) (cdeps c) with
        | Made d => match convert_disp_with k (sactions s) (cdisp c) with
                    | Some f => Made (Ctx d f (cloop c))
                    | None => Rejected
                    end
        | Rejected => Rejected
        | Thrown => Thrown
        end
      else Rejected
  end.

Fixpoint hand_down (c : context) (steps : list step) : outcome context :=
  match steps with
  | [] => Made c
  | s :: steps =>
      match convert_context s c with
      | Made c' => hand_down c' steps
      | r => r
      end
  end.

(** [dispatch], context.hpp:307-311. *)
Definition dispatch (c : context) (a : ty) : option (val a -> R) := call (cdisp c) a.

End Contexts.
Arguments cdeps {ty val R V L W LP}. Arguments cdisp {ty val R V L W LP}. Arguments cloop {ty val R V L W LP}.
Arguments Ctx {ty val R V L W LP}.
Arguments Step {ty val W}. Arguments sworld {ty val W}. Arguments sdeps {ty val W}.
Arguments sactions {ty val W}. Arguments sconv {ty val W}.
