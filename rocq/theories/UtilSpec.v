(** What is said of [match]. *)
From Coq Require Import List Bool Arith.
From Verif Require Import UtilModel.
Import ListNotations.

Section Types.
Variable conv : nat -> nat -> option conversion.
Context {value : Type}.

(** The [i]th handler takes these arguments, and better than any other that does. *)
Definition best (hs : list (handler value)) (l : list arg) (i : nat) (h : handler value) : Prop :=
  nth_error hs i = Some h /\ viable conv l (takes h) = true /\
  forall j h', nth_error hs j = Some h' -> j <> i -> viable conv l (takes h') = true ->
    better conv l (takes h) (takes h') = true.

(** The arguments are of alternatives of the variants, const and rvalues as these are. *)
Definition alternatives (vs : list (vexpr value)) (l : list arg) : Prop :=
  Forall2 (fun v a => In (ty a) (alts v) /\ cst a = vcst v /\ rv a = vrv v) vs l.
(** They are of the alternatives that the variants hold, with these values. *)
Definition holding (vs : list (vexpr value)) (l : list arg) (vals : list value) : Prop :=
  Forall2 (fun v ax => exists n, held v = Some (n, snd ax) /\ nth_error (alts v) n = Some (ty (fst ax)) /\
                                 cst (fst ax) = vcst v /\ rv (fst ax) = vrv v) vs (combine l vals) /\
  length l = length vals.
Definition sound (v : vexpr value) : Prop :=
  alts v <> [] /\ forall n x, held v = Some (n, x) -> n < length (alts v).
Definition variant (v : vexpr value) : Prop := form v <> NoVariant.
Definition as_base (v : vexpr value) : vexpr value :=
  match form v with
  | InheritsVariant => Vexpr IsVariant (alts v) (vcst v) (vrv v) (held v)
  | _ => v
  end.

(** The value that a result stands for *)
Definition stands_for (vals : list value) (r : result value) (x : value) : Prop :=
  match r with RVal v => v = x | RRefTo k => nth_error vals k = Some x end.

(** A handler made for these alternatives: it takes exactly them, by value or by reference
    to const *)
Definition own_param (p : param) (t : nat) : Prop := p = ByVal t \/ p = CRef t.
Definition made_for (h : handler value) (ts : list nat) : Prop :=
  exists ps, takes h = Plain ps /\ Forall2 own_param ps ts.
(** Parameters by value or by reference to const *)
Definition modest_sig (s : sig) : Prop :=
  match s with
  | Plain ps => Forall (fun p => exists t, own_param p t) ps
  | Generic ps => Forall (fun p => p = Auto \/ p = AutoCRef) ps
  | Variadic p => p = Auto \/ p = AutoCRef
  end.
End Types.

(** ** What takes one argument better
    Ways to take an argument: of its type, plainly or with [auto] *)
Inductive way := T_ | TC | TL | TR | A_ | AC | AL | AF.
Definition sig_of (t : nat) (w : way) : sig :=
  match w with
  | T_ => Plain [ByVal t] | TC => Plain [CRef t] | TL => Plain [LRef t] | TR => Plain [RRef t]
  | A_ => Generic [Auto] | AC => Generic [AutoCRef] | AL => Generic [AutoLRef] | AF => Generic [AutoFwd]
  end.
(** References, the better first, for arguments that are const or rvalues or both *)
Definition ladder (cst rv : bool) : list way :=
  match cst, rv with
  | false, false => [TL; AL; AF; TC; AC]
  | true, false => [TC; AC; AL; AF]
  | false, true => [TR; AF; TC; AC]
  | true, true => [AF; TC; AC; AL]
  end.
Definition plain_way (w : way) : Prop := In w [T_; TC; TL; TR].
(** One position of a plain handler *)
Definition position (l : list arg) (ps : list param) (k : nat) (a : arg) (p : param) : Prop :=
  nth_error l k = Some a /\ nth_error ps k = Some p.
Definition worse_than (c d : conversion) : Prop :=
  (c = Conversion /\ d = Promotion) \/ (c = User /\ d = Promotion) \/ (c = User /\ d = Conversion).
(** Parameters that take converted arguments *)
Definition takes_type (p : param) (t : nat) : Prop := p = ByVal t \/ p = CRef t \/ p = RRef t.
(** Generic parameters by reference, for arguments that are const and no rvalues *)
Definition const_arg (a : arg) : Prop := cst a = true /\ rv a = false.
Definition ref_auto (p : gparam) : Prop := p <> Auto.
