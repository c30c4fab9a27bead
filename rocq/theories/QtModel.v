(** Model of the Qt properties
      /repo/lager/extra/qt.hpp  (LAGER_QT_READER, LAGER_QT_CURSOR)

    The macros declare, in a class derived from QObject, a member that is a reader or a
    cursor; a property that READs it with get(), WRITEs it with set() (cursors only) and
    NOTIFYs with a signal; and a member whose initialiser watches the reader with a
    callback that emits the signal.

    Simplifications:
    - Each object has one property.  (The properties of an object have members of their
      own and are independent.)
    - The slots connected to the signals do nothing to objects and readers.
    - A cursor here is one of an automatic state: what is written is there, and its
      observers notified, if it differs.  What other nodes do is in the Nodes files.
    - LAGER_QT_CONST is a plain member. *)
From Coq Require Import List Arith Bool.
From Verif Require Import WatchModel.
Import ListNotations.

Section Qt.
Variable V : Type.
Variable veq : V -> V -> bool.                  (* operator== *)

Inductive qop :=
| QNew (n : option nat)                         (* an object whose member is a reader of [n], or a default constructed one *)
| QAssign (k : nat) (n : option nat)            (* LAGER_QT(name) = …, of object [k] *)
| QSet (k : nat) (v : V)                        (* set##name, qt.hpp:73 *)
| QChange (n : nat) (v : V)                     (* the node changes *)
| QDelete (k : nat).                            (* object [k] is destroyed *)

Record qst := Q {
  under : st V;
  members : list (option nat) }.                (* the reader object that is the member of each object; [None]: destroyed *)
Inductive qres :=
| Fine (s : qst)
| Bad (r : res V).                              (* what went wrong below *)

Definition member (k : nat) (s : qst) : option nat :=
  match nth_error (members s) k with Some o => o | None => None end.

(** Steps on reader objects *)
Definition below (fuel : nat) (l : list (op V)) (ms : list (option nat)) (s : qst) : qres :=
  match exec fuel (TOps l) (under s) with
  | Done u => Fine (Q u ms)
  | r => Bad r
  end.
(** qt.hpp:44-51: lager::watch returns a copy of the reader, watch.hpp:114-118, that is
    discarded.  The callback emits the signal; it is the only one that is ever
    connected, so that callback [k] is that of object [k]. *)
Definition construct (fuel : nat) (n : option nat) (s : qst) : qres :=
  let r := length (readers (under s)) in
  below fuel [New n; Watch r (fun _ => []); Copy r; Destroy (S r)] (members s ++ [Some r]) s.
(** The right hand side is a temporary. *)
Definition assign (fuel : nat) (r : nat) (n : option nat) (s : qst) : qres :=
  let t := length (readers (under s)) in
  below fuel [New n; MoveAssign r t; Destroy t] (members s) s.

Definition qstep (fuel : nat) (x : qop) (s : qst) : qres :=
  match x with
  | QNew n => construct fuel n s
  | QAssign k n =>
      match member k s with Some r => assign fuel r n s | None => Bad Misuse end
  | QSet k v =>
      match member k s with
      | Some r =>
          match get r (under s) with
          | Some (R (Some n) _) =>
              if veq v (value (under s) n) then Fine s
              else below fuel [Notify n v] (members s) s
          | Some (R None _) => Bad (Undefined (under s) NoNode)
          | None => Bad Misuse
          end
      | None => Bad Misuse
      end
  | QChange n v => below fuel [Notify n v] (members s) s
  | QDelete k =>
      match member k s with
      | Some r => below fuel [Destroy r] (set_nth k None (members s)) s
      | None => Bad Misuse
      end
  end.
Fixpoint qrun (fuel : nat) (l : list qop) (s : qst) : qres :=
  match l with
  | [] => Fine s
  | x :: r => match qstep fuel x s with Fine s1 => qrun fuel r s1 | b => b end
  end.
Definition qinit (val : nat -> V) : qst := Q (init val) [].

(** READ, qt.hpp:61 and 72 *)
Inductive reading :=
| Value (v : V)
| Null                                          (* undefined behaviour: there is no node *)
| Gone.
Definition read (k : nat) (s : qst) : reading :=
  match member k s with
  | Some r =>
      match get r (under s) with
      | Some (R (Some n) _) => Value (value (under s) n)
      | Some (R None _) => Null
      | None => Gone
      end
  | None => Gone
  end.
(** The signals that object [k] emitted, in order *)
Definition signals (k : nat) (s : qst) : list V :=
  flat_map (fun e => match e with ECall _ c v => if c =? k then [v] else [] | _ => [] end) (rev (log (under s))).
End Qt.
Arguments QNew {V}. Arguments QAssign {V}. Arguments QSet {V}. Arguments QChange {V}. Arguments QDelete {V}.
Arguments Q {V}. Arguments under {V}. Arguments members {V}. Arguments Fine {V}. Arguments Bad {V}.
Arguments member {V}. Arguments below {V}. Arguments construct {V}. Arguments assign {V}. Arguments qstep {V}.
Arguments qrun {V}. Arguments qinit {V}. Arguments Value {V}. Arguments Null {V}. Arguments Gone {V}.
Arguments read {V}. Arguments signals {V}.
