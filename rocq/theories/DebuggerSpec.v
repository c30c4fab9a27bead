(** Vocabulary for the properties of the debuggers (C36-C41, C57). *)
From Coq Require Import List Arith Bool.
From Verif Require Import StoreModel StoreExtraModel DebuggerModel.
Import ListNotations.

(** Client code that connects no watcher. *)
Fixpoint unwatched {M A W} (p : prog M A W) : Prop :=
  match p with
  | PRet _ | PThrow => True
  | PGet k => forall m, unwatched (k m)
  | PWorld k => forall w, unwatched (k w)
  | PSet _ k | PMark _ k | PFulfil _ k | PCommit k | PUnwatch _ k | PStep k => unwatched k
  | PDispatch _ k => forall f, unwatched (k f)
  | PThen _ c k => unwatched c /\ forall f, unwatched (k f)
  | PPost p k => unwatched p /\ unwatched k
  | PPromise k => forall n, unwatched (k n)
  | PWatch _ _ => False
  | PTry p k => unwatched p /\ forall b, unwatched (k b)
  end.

(** An effect that does nothing. *)
Definition quiet {M A W} (p : prog M A W) : bool := match p with PRet None => true | _ => false end.
(** What a client sees: not whether there was no effect or one that does nothing. *)
Definition visible {M A W} (e : event M A W) : bool :=
  match e with
  | EBegin _ p | EEff _ _ p => negb (quiet p)
  | EEffEnd _ None | ETold _ | ELost _ => false
  | _ => true
  end.
(** Arrivals from other threads at the points of another run: at each point nothing, or what
    arrives at some point of the first.  (Which, and in which order, the events tell.) *)
Definition regrouped {A A'} (inj : A -> A') (ext : nat -> list A) (ext' : nat -> list A') : Prop :=
  forall n, ext' n = [] \/ exists i, ext' n = map inj (ext i).
(** The same event in two stores whose models and actions correspond. *)
Definition same_event {M A M' A' W} (view : M' -> option M) (inj : A -> A') (same : M -> M' -> Prop)
    (e : event M A W) (e' : event M' A' W) : Prop :=
  match e with
  | EDisp id a p => e' = EDisp id (inj a) p
  | ERed id m _ => exists m' b, e' = ERed id m' b /\ same m m'
  | ERedFail id => e' = ERedFail id
  | EBegin id p => e' = EBegin id (adapt view inj p)
  | ETold id => e' = ETold id
  | EEff id m p => exists m', e' = EEff id m' (adapt view inj p) /\ same m m'
  | ELost id => e' = ELost id
  | EEffEnd id f => e' = EEffEnd id f
  | EConn i m => exists m', e' = EConn i m' /\ same m m'
  | EDisc i => e' = EDisc i
  | ESee i m => exists m', e' = ESee i m' /\ same m m'
  | ECommit => e' = ECommit
  | EProm n => e' = EProm n
  | EDone n => e' = EDone n
  | EThen f n c => e' = EThen f n (adapt view inj c)
  | ELink f m n => e' = ELink f m n
  | ECb n c => e' = ECb n (adapt view inj c)
  | ECbEnd n f => e' = ECbEnd n f
  | EMark n => e' = EMark n
  | EFail => e' = EFail
  end.
(** Two runs that end the same way, with the same visible events and the same models. *)
Definition same_run {M A M' A' W} (view : M' -> option M) (inj : A -> A') (r : res M A W) (r' : res M' A' W) : Prop :=
  let same m m' := view m' = Some m in
  let same_st (s : st M A W) (s' : st M' A' W) :=
    same (cur s) (cur s') /\ same (last s) (last s') /\ world s' = world s /\
    Forall2 (same_event view inj same) (filter visible (log s)) (filter visible (log s')) in
  match r with
  | Done f s => exists s', r' = Done f s' /\ same_st s s'
  | Thrown s => exists s', r' = Thrown s' /\ same_st s s'
  | Misuse => r' = Misuse
  | Deadlock => r' = Deadlock
  | OutOfFuel => True
  end.

Section Spec.
Variables M A W : Type.
Notation prog := (prog M A W).
Variable reducer : M -> A -> option (M * option prog).

(** The reducer applied to one action after the other, its effects in
    order; [None] if it throws. *)
Fixpoint replay (m : M) (l : list A) : option (M * list (option prog)) :=
  match l with
  | [] => Some (m, [])
  | a :: l =>
      match reducer m a with
      | None => None
      | Some (m', e) =>
          match replay m' l with
          | None => None
          | Some (m'', es) => Some (m'', e :: es)
          end
      end
  end.
(** The model that a list of recorded actions leads to. *)
Definition replays (m : M) (l : list A) : option M := option_map fst (replay m l).
(** The models after each action. *)
Fixpoint models_of (m : M) (l : list A) : list M :=
  match l with
  | [] => []
  | a :: l => match reducer m a with Some (m', _) => m' :: models_of m' l | None => [] end
  end.

(** A debugger whose history is what replaying the recorded actions from [m0] gives,
    and which shows the model at its cursor. *)
Definition consistent (m0 : M) (d : dmodel M A) : Prop :=
  cursor d <= length (history d) /\
  (forall k, k <= length (history d) ->
     exists a m, lookup d k = Some (a, m) /\ replays m0 (firstn k (map fst (history d))) = Some m) /\
  (forall k, length (history d) < k -> lookup d k = None) /\
  exists m, shown d = Some m /\ replays m0 (firstn (cursor d) (map fst (history d))) = Some m.

(** The ordinary actions in a list of debugger actions, and the others. *)
Fixpoint acts (l : list (daction A)) : list A :=
  match l with [] => [] | Act a :: l => a :: acts l | _ :: l => acts l end.
Fixpoint moves (l : list (daction A)) : list (daction A) :=
  match l with [] => [] | Act _ :: l => moves l | x :: l => x :: moves l end.
Definition is_pause (x : daction A) : bool := match x with Pause | Resume => true | _ => false end.

(** ** Trees *)

(** One debugger action after the other. *)
Fixpoint tsteps (pause_eff resume_eff : StoreModel.prog (tmodel M A) (taction A) W) (xs : list (taction A))
    (d : tmodel M A) : ares (tmodel M A) :=
  match xs with
  | [] => Fine d
  | x :: xs => match tstep_model reducer pause_eff resume_eff d x with
               | Fine d' => tsteps pause_eff resume_eff xs d'
               | Undefined => Undefined
               end
  end.
(** How many branches start after the step [c]. *)
Fixpoint branches_at (bs : list (list (tstep M A))) (c : list pos) : nat :=
  match c with
  | [] => length bs
  | p :: c' =>
      match nth_error bs (branch p) with
      | None => 0
      | Some h => match nth_error h (index p) with
                  | None => 0
                  | Some (TStep _ _ bs') => branches_at bs' c'
                  end
      end
  end.
(** The place of the step after [c] on the same branch. *)
Definition follower (c : list pos) : list pos :=
  match rev c with [] => [] | p :: r => rev (Pos (branch p) (index p + 1) :: r) end.

(** ** Summaries *)

(** A history without actions and models. *)
Inductive shape := Shape (branches : list (list shape)).
Fixpoint shape_of (s : tstep M A) : shape :=
  match s with TStep _ _ bs => Shape (map (map shape_of) bs) end.
(** How a summary is read: so many steps after which nothing branches off, then, if there
    are branches, one step with these. *)
Fixpoint expand1 (s : sstep) : list shape :=
  match s with
  | SStep n bs => repeat (Shape []) n ++ match bs with [] => [] | _ => [Shape (map (flat_map expand1) bs)] end
  end.
Definition expand (l : list sstep) : list shape := flat_map expand1 l.
(** No entry more than needed: the last one of a history has no branches, the others have. *)
Inductive tidy : list sstep -> Prop :=
| tidy_end n : tidy [SStep n []]
| tidy_fork n bs r : bs <> [] -> Forall tidy bs -> tidy r -> tidy (SStep n bs :: r).
(** The cursors with a step in a history of this shape. *)
Inductive place : list (list shape) -> list pos -> Prop :=
| place_here bs p h x : nth_error bs (branch p) = Some h -> nth_error h (index p) = Some x -> place bs [p]
| place_in bs p h bs' c : nth_error bs (branch p) = Some h -> nth_error h (index p) = Some (Shape bs') ->
    place bs' c -> place bs (p :: c).
End Spec.
Arguments replay {M A W}. Arguments replays {M A W}. Arguments models_of {M A W}. Arguments consistent {M A W}.
Arguments acts {A}. Arguments moves {A}. Arguments is_pause {A}.
Arguments tsteps {M A W}. Arguments branches_at {M A}. Arguments shape_of {M A}.
