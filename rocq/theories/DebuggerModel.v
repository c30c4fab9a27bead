(** Model of the time-travelling debuggers
      /repo/lager/debug/debugger.hpp       (debugger, with_debugger)
      /repo/lager/debug/tree_debugger.hpp  (tree_debugger)

    Exceptions thrown by the reducer and by lookup() are [None].  The effects of
    pause_action and resume_action, [ctx.loop().pause()] and [ctx.loop().resume()],
    depend on the event loop and are arbitrary programs.

    Not modelled: the debug server which shows the history and sends the debugger's
    actions (debugger.hpp:182-186, 204, 213-217), serialisation. *)
From Coq Require Import List Arith Bool.
From Verif Require Import StoreModel StoreExtraModel.
Import ListNotations.

(** Client code written for a store of [M] and [A], run by a store of [M'] and [A']:
    contexts convert actions (context.hpp:149-193), [static_cast<const Model&>] the
    model ([view]; it may throw). *)
Section Adapt.
Variables M A M' A' W : Type.
Variable view : M' -> option M.
Variable inj : A -> A'.
Fixpoint adapt (p : prog M A W) : prog M' A' W :=
  match p with
  | PRet f => PRet f
  | PThrow => PThrow
  | PGet k => PGet (fun m => match view m with Some m => adapt (k m) | None => PThrow end)
  | PWorld k => PWorld (fun w => adapt (k w))
  | PSet w k => PSet w (adapt k)
  | PMark n k => PMark n (adapt k)
  | PDispatch a k => PDispatch (inj a) (fun f => adapt (k f))
  | PThen f c k => PThen f (adapt c) (fun f' => adapt (k f'))
  | PPost p k => PPost (adapt p) (adapt k)
  | PPromise k => PPromise (fun n => adapt (k n))
  | PFulfil n k => PFulfil n (adapt k)
  | PCommit k => PCommit (adapt k)
  | PWatch w k => PWatch (fun m => match view m with Some m => adapt (w m) | None => PThrow end)
                         (fun i => adapt (k i))
  | PUnwatch i k => PUnwatch i (adapt k)
  | PStep k => PStep (adapt k)
  | PTry p k => PTry (adapt p) (fun b => adapt (k b))
  end.
End Adapt.
Arguments adapt {M A M' A' W}.

Section Debugger.
Variables M A W : Type.
Notation prog := (prog M A W).
Variable reducer : M -> A -> option (M * option prog).

(** * debugger *)

(** debugger.hpp:44-71 *)
Inductive daction :=
| Act (a : A)
| Goto (c : nat)
| Undo
| Redo
| Pause
| Resume.

(** debugger.hpp:80-92; a step is its action and model (73-78) *)
Record dmodel := D {
  cursor : nat;
  paused : bool;
  init : M;
  history : list (A * M);
  pending : list A }.
Definition dinit (m : M) : dmodel := D 0 false m [] [].

(** debugger.hpp:96-104 *)
Definition lookup (d : dmodel) (c : nat) : option (option A * M) :=
  if length (history d) <? c then None
  else match c with
       | 0 => Some (None, init d)
       | S c' => match nth_error (history d) c' with
                 | Some (a, m) => Some (Some a, m)
                 | None => None
                 end
       end.
(** operator const Model&, debugger.hpp:108 *)
Definition shown (d : dmodel) : option M := option_map snd (lookup d (cursor d)).

Notation dprog := (StoreModel.prog dmodel daction W).
Definition dlift : prog -> dprog := adapt shown Act.
(** [eff] in debugger.hpp:128-133: noop unless the reducer's effect is assigned to it *)
Definition deff (e : option prog) : option dprog :=
  match e with Some e => Some (dlift e) | None => noop end.

(** ctx.loop().pause(), ctx.loop().resume(), debugger.hpp:158, 162 *)
Variables pause_eff resume_eff : dprog.

(** debugger.hpp:123-140 *)
Definition update_act (d : dmodel) (a : A) : option (dmodel * option dprog) :=
  if paused d then
    Some (D (cursor d) (paused d) (init d) (history d) (pending d ++ [a]), noop)
  else
    match shown d with
    | None => None
    | Some m =>
        match reducer m a with
        | None => None
        | Some (m', e) =>
            let h := firstn (cursor d) (history d) ++ [(a, m')] in
            Some (D (length h) (paused d) (init d) h (pending d), deff e)
        end
    end.
(** One step of the accumulate, debugger.hpp:170-175 *)
Definition resume1 (acc : option (dmodel * option dprog)) (a : A) : option (dmodel * option dprog) :=
  match acc with
  | None => None
  | Some (d, e) =>
      match update_act d a with
      | None => None
      | Some (d', e') => Some (d', sequence e e')
      end
  end.
(** debugger.hpp:118-180 *)
Definition update (d : dmodel) (x : daction) : option (dmodel * option dprog) :=
  match x with
  | Act a => update_act d a
  | Goto c =>
      Some (if c <=? length (history d)
            then D c (paused d) (init d) (history d) (pending d) else d, noop)
  | Undo =>
      Some (if 0 <? cursor d
            then D (cursor d - 1) (paused d) (init d) (history d) (pending d) else d, noop)
  | Redo =>
      Some (if cursor d <? length (history d)
            then D (S (cursor d)) (paused d) (init d) (history d) (pending d) else d, noop)
  | Pause => Some (D (cursor d) true (init d) (history d) (pending d), Some pause_eff)
  | Resume =>
      match fold_left resume1 (pending d)
              (Some (D (cursor d) false (init d) (history d) [], noop)) with
      | None => None
      | Some (d', e) => Some (d', sequence (Some resume_eff) e)
      end
  end.

(** What a dispatched action does to the model in the store: an exception leaves it
    as it is.  (If operator== finds no change it is also left as it is, see
    StoreModel.push_down.) *)
Definition dstep (d : dmodel) (x : daction) : dmodel :=
  match update d x with Some (d', _) => d' | None => d end.

(** * tree_debugger *)

(** tree_debugger.hpp:42-47 *)
Record pos := Pos { branch : nat; index : nat }.
(** tree_debugger.hpp:80-89 *)
Inductive tstep := TStep (a : A) (m : M) (branches : list (list tstep)).
Notation hist := (list tstep).

Inductive taction :=
| TAct (a : A)
| TGoto (c : list pos)
| TUndo
| TRedo
| TPause
| TResume.

(** tree_debugger.hpp:103-115 *)
Record tmodel := T {
  tcursor : list pos;
  tpaused : bool;
  tinit : M;
  tbranches : list hist;
  tpending : list A }.
Definition tinit_model (m : M) : tmodel := T [] false m [] [].

(** tree_debugger.hpp:119-134; [c] is the rest of the cursor, from cursor_index on.
    [None] is the exception "bad cursor". *)
Fixpoint do_lookup (bs : list hist) (c : list pos) : option (A * M) :=
  match c with
  | [] => None (* cursor[cursor_index] out of range: never called so *)
  | p :: c' =>
      match nth_error bs (branch p) with
      | None => None
      | Some h =>
          match nth_error h (index p) with
          | None => None
          | Some (TStep a m bs') =>
              match c' with [] => Some (a, m) | _ => do_lookup bs' c' end
          end
      end
  end.
(** tree_debugger.hpp:136-140 *)
Definition tlookup (d : tmodel) (c : list pos) : option (option A * M) :=
  match c with
  | [] => Some (None, tinit d)
  | _ => match do_lookup (tbranches d) c with Some (a, m) => Some (Some a, m) | None => None end
  end.
Definition tshown (d : tmodel) : option M := option_map snd (tlookup d (tcursor d)).

Inductive ares (X : Type) := Fine (x : X) | Undefined.
Arguments Fine {X}. Arguments Undefined {X}.
(** immer::vector::update(n, f): undefined behaviour out of range. *)
Fixpoint update_at {X Y} (n : nat) (f : X -> ares (X * Y)) (l : list X) : ares (list X * Y) :=
  match l, n with
  | [], _ => Undefined
  | x :: l, 0 => match f x with Fine (x', y) => Fine (x' :: l, y) | Undefined => Undefined end
  | x :: l, S n => match update_at n f l with Fine (l', y) => Fine (x :: l', y) | Undefined => Undefined end
  end.
(** tree_debugger.hpp:142-179; [cur] is the whole cursor, [i] is cursor_index, [c] the
    rest of the cursor from there *)
Fixpoint do_append (bs : list hist) (cur : list pos) (i : nat) (c : list pos) (a : A) (m : M)
    : ares (list hist * list pos) :=
  match c with
  | [] => Undefined
  | p :: c' =>
      update_at (branch p) (fun h =>
        match c' with
        | _ :: _ =>
            update_at (index p) (fun s =>
              match s with
              | TStep a0 m0 bs0 =>
                  match do_append bs0 cur (S i) c' a m with
                  | Fine (bs1, nc) => Fine (TStep a0 m0 bs1, nc)
                  | Undefined => Undefined
                  end
              end) h
        | [] =>
            if index p + 1 =? length h then
              Fine (h ++ [TStep a m []], set_nth i (Pos (branch p) (index p + 1)) cur)
            else
              (* the new branch is the last one, yet the new cursor is that of the first: l. 168 *)
              update_at (index p) (fun s =>
                match s with
                | TStep a0 m0 bs0 => Fine (TStep a0 m0 (bs0 ++ [[TStep a m []]]), cur ++ [Pos 0 0])
                end) h
        end) bs
  end.
(** tree_debugger.hpp:181-190 *)
Definition append (d : tmodel) (a : A) (m : M) : ares tmodel :=
  match tcursor d with
  | [] =>
      let bs := tbranches d ++ [[TStep a m []]] in
      Fine (T [Pos (length bs - 1) 0] (tpaused d) (tinit d) bs (tpending d))
  | _ =>
      match do_append (tbranches d) (tcursor d) 0 (tcursor d) a m with
      | Fine (bs, c) => Fine (T c (tpaused d) (tinit d) bs (tpending d))
      | Undefined => Undefined
      end
  end.
(** tree_debugger.hpp:192-200 *)
Definition check (d : tmodel) (c : list pos) : bool :=
  match tlookup d c with Some _ => true | None => false end.
(** tree_debugger.hpp:260-270 *)
Definition tundo (c : list pos) : list pos :=
  match rev c with
  | [] => []
  | p :: r => match index p with
              | S n => rev (Pos (branch p) n :: r)
              | 0 => rev r
              end
  end.

Notation tprog := (StoreModel.prog tmodel taction W).
Definition tlift : prog -> tprog := adapt tshown TAct.
(** [eff] in tree_debugger.hpp:244-250 *)
Definition teff (e : option prog) : option tprog :=
  match e with Some e => Some (tlift e) | None => noop end.
Variables tpause_eff tresume_eff : tprog.
Definition tresult : Type := ares (option (tmodel * option tprog)).

(** tree_debugger.hpp:239-254; a result of a model alone has the effect noop,
    effect.hpp:101-103 *)
Definition tupdate_act (d : tmodel) (a : A) : tresult :=
  if tpaused d then
    Fine (Some (T (tcursor d) (tpaused d) (tinit d) (tbranches d) (tpending d ++ [a]), noop))
  else
    match tshown d with
    | None => Fine None
    | Some m =>
        match reducer m a with
        | None => Fine None
        | Some (m', e) =>
            match append d a m' with
            | Fine d' => Fine (Some (d', teff e))
            | Undefined => Undefined
            end
        end
    end.
Definition tresume1 (acc : tresult) (a : A) : tresult :=
  match acc with
  | Fine (Some (d, e)) =>
      match tupdate_act d a with
      | Fine (Some (d', e')) => Fine (Some (d', sequence e e'))
      | r => r
      end
  | r => r
  end.
(** tree_debugger.hpp:234-301; redo throws *)
Definition tupdate (d : tmodel) (x : taction) : tresult :=
  match x with
  | TAct a => tupdate_act d a
  | TGoto c =>
      Fine (Some (if check d c then T c (tpaused d) (tinit d) (tbranches d) (tpending d) else d, noop))
  | TUndo => Fine (Some (T (tundo (tcursor d)) (tpaused d) (tinit d) (tbranches d) (tpending d), noop))
  | TRedo => Fine None
  | TPause => Fine (Some (T (tcursor d) true (tinit d) (tbranches d) (tpending d), Some tpause_eff))
  | TResume =>
      match fold_left tresume1 (tpending d)
              (Fine (Some (T (tcursor d) false (tinit d) (tbranches d) [], noop))) with
      | Fine (Some (d', e)) => Fine (Some (d', sequence (Some tresume_eff) e))
      | r => r
      end
  end.
Definition tstep_model (d : tmodel) (x : taction) : ares tmodel :=
  match tupdate d x with
  | Fine (Some (d', _)) => Fine d'
  | Fine None => Fine d
  | Undefined => Undefined
  end.

(** As the reducer of a store.  Undefined behaviour never occurs (C40_never_undefined). *)
Definition treducer (d : tmodel) (x : taction) : option (tmodel * option tprog) :=
  match tupdate d x with Fine r => r | Undefined => None end.

(** do_summary, tree_debugger.hpp:91-101, 202-222 *)
Inductive sstep := SStep (steps : nat) (branches : list (list sstep)).
Fixpoint summary_step (s : tstep) : option (list (list sstep)) :=
  let histories := fix histories (bs : list hist) : list (list sstep) :=
    match bs with
    | [] => []
    | h :: bs =>
        (fix steps (n : nat) (h : hist) : list sstep :=
           match h with
           | [] => [SStep n []]
           | s :: h => match summary_step s with
                       | None => steps (S n) h
                       | Some b => SStep n b :: steps 0 h
                       end
           end) 0 h :: histories bs
    end in
  match s with
  | TStep _ _ [] => None
  | TStep _ _ bs => Some (histories bs)
  end.
Fixpoint summary_history (n : nat) (h : hist) : list sstep :=
  match h with
  | [] => [SStep n []]
  | s :: h => match summary_step s with
              | None => summary_history (S n) h
              | Some b => SStep n b :: summary_history 0 h
              end
  end.
Definition summary (d : tmodel) : list (list sstep) := map (summary_history 0) (tbranches d).
End Debugger.
Arguments Fine {X}. Arguments Undefined {X}.
Arguments Act {A}. Arguments Goto {A}. Arguments Undo {A}. Arguments Redo {A}. Arguments Pause {A}. Arguments Resume {A}.
Arguments D {M A}. Arguments cursor {M A}. Arguments paused {M A}. Arguments init {M A}. Arguments history {M A}.
Arguments pending {M A}. Arguments dinit {M A}. Arguments lookup {M A}. Arguments shown {M A}. Arguments dlift {M A W}. Arguments deff {M A W}. Arguments teff {M A W}.
Arguments update_act {M A W}. Arguments update {M A W}. Arguments resume1 {M A W}. Arguments dstep {M A W}.
Arguments TStep {M A}. Arguments TAct {A}. Arguments TGoto {A}. Arguments TUndo {A}. Arguments TRedo {A}.
Arguments TPause {A}. Arguments TResume {A}. Arguments T {M A}. Arguments tcursor {M A}. Arguments tpaused {M A}.
Arguments tinit {M A}. Arguments tbranches {M A}. Arguments tpending {M A}. Arguments tinit_model {M A}.
Arguments do_lookup {M A}. Arguments tlookup {M A}. Arguments tshown {M A}. Arguments do_append {M A}.
Arguments append {M A}. Arguments check {M A}. Arguments tlift {M A W}. Arguments tupdate_act {M A W}.
Arguments tresume1 {M A W}. Arguments tupdate {M A W}. Arguments tstep_model {M A W}. Arguments treducer {M A W}.
Arguments summary_step {M A}. Arguments summary_history {M A}. Arguments summary {M A}.
