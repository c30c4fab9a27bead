(** C77: which callbacks, setters and clients come to an end. *)
From Coq Require Import List Arith Bool.
From Verif Require Import NodesModel.
Import ListNotations.

Section Spec.
Context {V W : Type}.
(** Code that only looks: it neither writes through a cursor, nor commits, nor watches.
    It may read, throw and catch, create readers with such setters, destroy readers and
    change the outside world. *)
Inductive looks : prog V W -> Prop :=
| L_ret : looks PRet
| L_throw : looks PThrow
| L_do c k : quiet c -> (forall o, looks (k o)) -> looks (PDo c k)
| L_try p k : looks p -> (forall b o, looks (k b o)) -> looks (PTry p k)
with quiet : cmd V W -> Prop :=
| Q_push n v : quiet (CPush n v)
| Q_new k ps d : calm k -> quiet (CNew k ps d)
| Q_drop n : quiet (CDrop n)
| Q_unwatch n i : quiet (CUnwatch n i)
| Q_world w : quiet (CWorld w)
with calm : kind V W -> Prop :=
| K_setter auto fn : (forall v o, looks (fn v o)) -> calm (KSetter auto fn)
| K_other k : match k with KSetter _ _ => False | _ => True end -> calm k.

(** Clients whose watchers and setters only look. *)
Definition tame_cmd (c : cmd V W) : Prop :=
  match c with
  | CWatch _ cb => forall v o, looks (cb v o)
  | CNew k _ _ => calm k
  | _ => True
  end.
Inductive tame : prog V W -> Prop :=
| T_ret : tame PRet
| T_throw : tame PThrow
| T_do c k : tame_cmd c -> (forall o, tame (k o)) -> tame (PDo c k)
| T_try p k : tame p -> (forall b o, tame (k b o)) -> tame (PTry p k).
End Spec.
