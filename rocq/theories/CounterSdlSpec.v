(** C81: vocabulary. *)
From Coq Require Import List Bool ZArith.
From Verif Require Import CounterModel CounterSdlModel.
Import ListNotations.
Local Open Scope Z_scope.

Definition reach (s : st) : Prop := exists ls, steps ls init = Some s.
(** What a list of keys (and others) counts to. *)
Fixpoint counts (from : Z) (es : list report) : Z :=
  match es with
  | [] => from
  | Down KUp :: r => counts (from + 1) r
  | Down KDown :: r => counts (from - 1) r
  | Down KSpace :: r => counts 0 r
  | _ :: r => counts from r
  end.
(** Keys that count. *)
Definition counting (e : report) : bool := match e with Down KOther | Other | Quit => false | _ => true end.
(** Oldest first: what was reported and counts; what was drawn. *)
Fixpoint reported (l : list event) : list report :=
  match l with [] => [] | EReport e :: r => reported r ++ (if counting e then [e] else []) | _ :: r => reported r end.
Fixpoint drawn (l : list event) : list Z :=
  match l with [] => [] | EDraw v :: r => drawn r ++ [v] | _ :: r => drawn r end.
(** How many keys were handled: an action was dispatched. *)
Fixpoint handled (l : list event) : nat :=
  match l with [] => 0 | EDispatch _ :: r => S (handled r) | _ :: r => handled r end%nat.
(** How many were applied. *)
Fixpoint made (l : list event) : nat :=
  match l with [] => 0 | EApply _ :: r => S (made r) | _ :: r => made r end%nat.
