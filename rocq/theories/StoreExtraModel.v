(** Effects in sequence, and actions that are effects
      /repo/lager/effect.hpp       (is_empty_effect 187-197, sequence 240-263)
      /repo/lager/future.hpp       (future::also, 90-94)
      /repo/lager/extra/thunk.hpp  (with_thunk, 33-83) *)
From Coq Require Import List Bool.
From Verif Require Import StoreModel.
Import ListNotations.

Section Extra.
Variables M A W : Type.
Notation prog := (prog M A W).

(** Client code followed by something using the future it returns.  The look at
    the model in the first case has no effect; it is there because actions of
    other threads may arrive between the two, see [arrive]. *)
Fixpoint pbind (p : prog) (g : option nat -> prog) : prog :=
  match p with
  | PRet f => PGet (fun _ => g f)
  | PThrow => PThrow
  | PGet k => PGet (fun m => pbind (k m) g)
  | PWorld k => PWorld (fun w => pbind (k w) g)
  | PSet w k => PSet w (pbind k g)
  | PMark n k => PMark n (pbind k g)
  | PDispatch a k => PDispatch a (fun f => pbind (k f) g)
  | PThen f c k => PThen f c (fun f' => pbind (k f') g)
  | PPost p k => PPost p (pbind k g)
  | PPromise k => PPromise (fun n => pbind (k n) g)
  | PFulfil n k => PFulfil n (pbind k g)
  | PCommit k => PCommit (pbind k g)
  | PWatch w k => PWatch w (fun i => pbind (k i) g)
  | PUnwatch i k => PUnwatch i (pbind k g)
  | PStep k => PStep (pbind k g)
  | PTry p k => PTry p (fun b => pbind (k b) g)
  end.

(** An effect is a std::function (effect.hpp:24), [None] if it holds nothing.
    [lager::noop] as an effect (util.hpp:158-165): it returns void, so the constructor
    (effect.hpp:58-67) puts it into a function that returns the empty future. *)
Definition noop : option prog := Some (PRet None).
(** is_empty_effect, effect.hpp:187-197.  [target] gives the address of what the
    std::function holds, which is its own copy (here moreover the function around it):
    never the address of the global [noop].  So only functions that hold nothing are empty. *)
Definition is_empty_effect (e : option prog) : bool :=
  match e with None => true | Some _ => false end.
(** sequence, effect.hpp:240-256; merging the action and dependency types is not
    modelled here. *)
Definition sequence (a b : option prog) : option prog :=
  if is_empty_effect a && is_empty_effect b then noop
  else if is_empty_effect a then b
  else if is_empty_effect b then a
  else match a, b with
       | Some a, Some b => Some (pbind a (fun f => PThen f b (fun f' => PRet f')))
       | _, _ => None                           (* not empty, see above *)
       end.
(** sequence of three or more, effect.hpp:258-263 *)
Definition sequence_all (a : option prog) (l : list (option prog)) : option prog :=
  fold_left sequence l a.

(** f.also(g), future.hpp:90-94, then something with the resulting future *)
Definition also (f g : option nat) (k : option nat -> prog) : prog := PThen f (PRet g) k.

(** ** Thunks *)
(** An action of a store with thunks: std::variant<effect_t, action_t>, thunk.hpp:43-45.
    The effect's context only takes plain actions. *)
Definition thunk : Type := (option prog + A)%type.
End Extra.

Arguments pbind {M A W}. Arguments noop {M A W}. Arguments is_empty_effect {M A W}. Arguments sequence {M A W}. Arguments sequence_all {M A W}. Arguments also {M A W}.

Section Thunk.
Variables M A W : Type.
Notation prog := (prog M A W).
Notation tprog := (StoreModel.prog M (thunk M A W) W).
Notation thunk := (thunk M A W).

(** Code written for plain actions, run by a store with thunks: contexts convert,
    wrapping actions in the variant (context.hpp:149-193). *)
Fixpoint lift (p : prog) : tprog :=
  match p with
  | PRet f => PRet f
  | PThrow => PThrow
  | PGet k => PGet (fun m => lift (k m))
  | PWorld k => PWorld (fun w => lift (k w))
  | PSet w k => PSet w (lift k)
  | PMark n k => PMark n (lift k)
  | PDispatch a k => PDispatch (inr a) (fun f => lift (k f))
  | PThen f c k => PThen f (lift c) (fun f' => lift (k f'))
  | PPost p k => PPost (lift p) (lift k)
  | PPromise k => PPromise (fun n => lift (k n))
  | PFulfil n k => PFulfil n (lift k)
  | PCommit k => PCommit (lift k)
  | PWatch w k => PWatch (fun m => lift (w m)) (fun i => lift (k i))
  | PUnwatch i k => PUnwatch i (lift k)
  | PStep k => PStep (lift k)
  | PTry p k => PTry (lift p) (fun b => lift (k b))
  end.

(** The reducer installed by with_thunk, thunk.hpp:51-76 *)
Definition thunk_reducer (reducer : M -> A -> option (M * option prog))
    (m : M) (t : thunk) : option (M * option tprog) :=
  match t with
  | inl e => Some (m, option_map lift e)
  | inr a =>
      match reducer m a with
      | Some (m', e) => Some (m', option_map lift e)
      | None => None
      end
  end.
End Thunk.
Arguments lift {M A W}. Arguments thunk_reducer {M A W}.
