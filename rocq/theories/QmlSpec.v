(** Vocabulary for the properties of the QML event loop. *)
From Coq Require Import List Arith Bool.
From Verif Require Import LoopModel LoopSpec QmlModel.
Import ListNotations.

Section Spec.
Variables (J W : Type) (code : J -> prog J W) (contents : bool).
Notation qst := (qst J W).
Notation action := (action J W).

(** States after any history that [ok] allows. *)
Inductive later (ok : action -> Prop) (s0 : qst) : qst -> Prop :=
| l_none : later ok s0 s0
| l_act s a fuel s' : later ok s0 s -> ok a -> act code contents fuel a s = QDone s' ->
    later ok s0 s'.
Definition any (a : action) : Prop := True.
Definition reach (w : W) : qst -> Prop := later any (qinit w).

(** Histories in which Qt does not polish and nobody calls [step()] directly. *)
Definition unpolished (a : action) : Prop :=
  match a with Polish => False | Code p => no_step p | _ => True end.

(** Functions sent by other threads, oldest first; those of them that reached the
    queue, with the number they have there, and those on their way. *)
Fixpoint sent_by (l : list (qev J)) : list (nat * J) :=
  match l with [] => [] | QSent r j :: l => sent_by l ++ [(r, j)] | _ :: l => sent_by l end.
Fixpoint entered (l : list (qev J)) : list (nat * nat) :=
  match l with [] => [] | QEnter r id :: l => entered l ++ [(r, id)] | _ :: l => entered l end.
Definition on_way (l : list (msg J)) : list nat :=
  flat_map (fun m => match m with MPost r _ => [r] | MPolish => [] end) l.

(** How often polishing called [step()] and no paint yet after it; how often in all. *)
Fixpoint since_paint (l : list (qev J)) : nat :=
  match l with
  | [] => 0
  | QPaint :: _ => 0
  | QPolishStep :: l => S (since_paint l)
  | _ :: l => since_paint l
  end.
Fixpoint polish_steps (l : list (qev J)) : nat :=
  match l with [] => 0 | QPolishStep :: l => S (polish_steps l) | _ :: l => polish_steps l end.
(** [step()] was called: everything ran, or one function threw (its number is added
    to the failed ones) and the rest is left. *)
Definition drains (r : qres J W) (s : qst) : Prop :=
  match r with
  | QDone s' =>
      let l := loop s in let l' := loop s' in
      (q l' = [] /\ ran (log l') = posted (log l') /\ failed (log l') = failed (log l)) \/
      (exists id, failed (log l') = id :: failed (log l))
  | QFuel => True
  | _ => False
  end.
End Spec.
Arguments later {J W}. Arguments any {J W}. Arguments reach {J W}. Arguments unpolished {J W}.
Arguments sent_by {J}. Arguments entered {J}. Arguments on_way {J}.
Arguments since_paint {J}. Arguments polish_steps {J}. Arguments drains {J W}.
