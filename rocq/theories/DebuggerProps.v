(** Properties of the debuggers: C36-C41, C57.

    [dstep d x]: the model of the debugger in the store after action [x]; see
    DebuggerSpec.v for the vocabulary.  All states of the debugger reachable from the
    start are [fold_left dstep xs (dinit m0)] for some list [xs] of actions. *)
From Coq Require Import List Arith Bool Lia.
From Verif Require Import StoreModel StoreSpec StoreExtraModel.
From Verif Require Import DebuggerModel DebuggerSpec DebuggerLine DebuggerTree DebuggerPlain DebuggerSummary.
Import ListNotations.

Section Line.
Variables M A W : Type.
Notation prog := (prog M A W).
Notation dmodel := (dmodel M A).
Notation dprog := (StoreModel.prog dmodel (daction A) W).
Variable reducer : M -> A -> option (M * option prog).
Variables pause_eff resume_eff : dprog.
Notation update := (update reducer pause_eff resume_eff).
Notation dstep := (dstep reducer pause_eff resume_eff).
Variable m0 : M.
Notation reached := (fun xs => fold_left dstep xs (dinit m0)).

(** ** C36 *)

(** The history is what replaying it gives, the cursor is in range, the model at the
    cursor is shown, lookup fails exactly past the end. *)
Theorem C36_history_replays : forall xs, consistent reducer m0 (reached xs).
Proof. exact (reached_consistent M A W reducer pause_eff resume_eff m0). Qed.
(** Also in a store, at any time, whatever the program does and whatever operator==
    is: for the current model, the one get() returns, those that effects and watchers
    were given. *)
Theorem C36_in_store : forall deqb trans futures manual ext s,
  reach update deqb trans futures manual ext (dinit m0) s ->
  consistent reducer m0 (cur s) /\ consistent reducer m0 (last s) /\
  forall d, In d (all_models (log s)) -> consistent reducer m0 d.
Proof.
  exact (fun deqb trans futures manual ext =>
    store_consistent M A W reducer trans futures manual pause_eff resume_eff deqb ext m0).
Qed.

(** ** C37 *)
Theorem C37_undo_redo : forall xs, let d := reached xs in 0 < cursor d -> dstep (dstep d Undo) Redo = d.
Proof.
  exact (fun xs => undo_redo M A W reducer pause_eff resume_eff m0 _ (reached_valid M A W reducer pause_eff resume_eff m0 xs)).
Qed.
Theorem C37_redo_undo : forall xs, let d := reached xs in cursor d < length (history d) -> dstep (dstep d Redo) Undo = d.
Proof. exact (fun xs => redo_undo M A W reducer pause_eff resume_eff (reached xs)). Qed.
Theorem C37_goto : forall xs c, let d := reached xs in c <= length (history d) ->
  cursor (dstep d (Goto c)) = c /\
  exists m, shown (dstep d (Goto c)) = Some m /\ replays reducer m0 (firstn c (map fst (history d))) = Some m.
Proof.
  exact (fun xs c => goto_ok M A W reducer pause_eff resume_eff m0 _ c (reached_valid M A W reducer pause_eff resume_eff m0 xs)).
Qed.
Theorem C37_goto_past : forall xs c, let d := reached xs in length (history d) < c -> dstep d (Goto c) = d.
Proof. exact (fun xs c => goto_past M A W reducer pause_eff resume_eff (reached xs) c). Qed.
(** They have no effect and change nothing but the cursor. *)
Theorem C37_only_cursor : forall xs x, let d := reached xs in
  match x with Goto _ | Undo | Redo => True | _ => False end ->
  exists d', update d x = Some (d', noop) /\ history d' = history d /\ DebuggerModel.init d' = DebuggerModel.init d /\
             paused d' = paused d /\ pending d' = pending d.
Proof. exact (fun xs x => moves_keep M A W reducer pause_eff resume_eff (reached xs) x). Qed.
(** A new action: the steps up to the cursor stay, the ones after it go. *)
Theorem C37_act_discards : forall xs a m m' e, let d := reached xs in
  paused d = false -> shown d = Some m -> reducer m a = Some (m', e) ->
  exists d', update d (Act a) = Some (d', deff e) /\
    history d' = firstn (cursor d) (history d) ++ [(a, m')] /\ cursor d' = S (cursor d) /\ shown d' = Some m'.
Proof.
  exact (fun xs a m m' e HP HS HR => act_discards M A W reducer pause_eff resume_eff m0 _ a m' e
    (reached_valid M A W reducer pause_eff resume_eff m0 xs) HP
    (fun m1 E => eq_trans (f_equal (fun x => match x with Some x => reducer x a | None => None end) (eq_trans (eq_sym E) HS)) HR)).
Qed.

(** ** C38 *)

(** While paused nothing but undo, redo and goto shows; nothing is recorded; the
    ordinary actions are kept, in order; no effect. *)
Theorem C38_paused : forall xs l, let d := reached xs in
  paused d = true -> existsb is_pause l = false ->
  let d' := fold_left dstep l d in
  shown d' = shown (fold_left dstep (moves l) d) /\ history d' = history d /\
  pending d' = pending d ++ acts l.
Proof. exact (fun xs l => paused_shows M A W reducer pause_eff resume_eff l (reached xs)). Qed.
Theorem C38_paused_no_effect : forall xs x, let d := reached xs in
  paused d = true -> is_pause x = false -> exists d', update d x = Some (d', noop).
Proof.
  exact (fun xs x HP HX => proj2 (proj2 (proj2 (paused_step M A W reducer pause_eff resume_eff (reached xs) x HP HX)))).
Qed.
(** Resuming applies what was kept one by one, from the model shown then: the same
    debugger as if they had been dispatched then, unpaused; the effects are those of
    the reducer, in order. *)
Theorem C38_resume : forall xs m m' es, let d := reached xs in
  shown d = Some m -> replay reducer m (pending d) = Some (m', es) ->
  exists d', update d Resume =
      Some (d', sequence (Some resume_eff) (sequence_all noop (map deff es))) /\
    d' = fold_left dstep (map Act (pending d)) (D (cursor d) false (DebuggerModel.init d) (history d) []) /\
    shown d' = Some m' /\ pending d' = [] /\ paused d' = false /\
    history d' = match pending d with
                 | [] => history d
                 | l => firstn (cursor d) (history d) ++ combine l (models_of reducer m l)
                 end.
Proof.
  exact (fun xs m m' es => resume_ok M A W reducer pause_eff resume_eff m0 _ m m' es
    (reached_valid M A W reducer pause_eff resume_eff m0 xs)).
Qed.
(** If the reducer throws for one of them, nothing happens at all: still paused, all
    still kept. *)
Theorem C38_resume_throws : forall xs m, let d := reached xs in
  shown d = Some m -> replay reducer m (pending d) = None ->
  update d Resume = None /\ dstep d Resume = d.
Proof.
  exact (fun xs m => resume_throws M A W reducer pause_eff resume_eff m0 _ m
    (reached_valid M A W reducer pause_eff resume_eff m0 xs)).
Qed.
(** The whole from pause to resume, without moves: as if the actions had come without
    the pause. *)
Theorem C38_pause_resume : forall xs l m', let d := reached xs in
  paused d = false -> match shown d with Some m => replays reducer m l = Some m' | None => False end ->
  fold_left dstep (Pause :: map Act l ++ [Resume]) d = fold_left dstep (map Act l) d.
Proof.
  exact (fun xs l m' HP HR => pause_resume M A W reducer pause_eff resume_eff m0 _ l m'
    (reached_valid M A W reducer pause_eff resume_eff m0 xs) HP HR).
Qed.

(** ** C39 *)

(** With ordinary actions only, a store with the debugger does the same as one
    without, if operator== compares the models shown, or does not exist for both.
    (Model a number or enumeration: the debugger's model is compared as such.)
    An action without effect has an effect that does nothing; so there are more
    functions to run and more points where other threads may dispatch; and stores with
    both transactions and futures are excepted: C39_late_future_refuted. *)
Theorem C39_same : forall eqb deqb trans futures manual ext,
  (forall m n d d', shown d = Some m -> shown d' = Some n -> deqb d d' = eqb m n) ->
  (trans = true -> futures = false) ->
  forall fuel m w p, run reducer eqb trans futures manual ext fuel m w p <> OutOfFuel ->
  exists ext' enough, regrouped Act ext ext' /\ forall fuel', enough <= fuel' ->
  same_run shown Act (run reducer eqb trans futures manual ext fuel m w p)
    (run update deqb trans futures manual ext' fuel' (dinit m) w (dlift p)).
Proof.
  exact (fun eqb deqb trans futures manual ext =>
    plain_strict M A W reducer eqb trans futures manual ext pause_eff resume_eff deqb).
Qed.
(** The same without other threads. *)
Theorem C39_same_alone : forall eqb deqb trans futures manual ext,
  (forall m n d d', shown d = Some m -> shown d' = Some n -> deqb d d' = eqb m n) ->
  (trans = true -> futures = false) -> (forall n, ext n = []) ->
  forall fuel m w p, run reducer eqb trans futures manual ext fuel m w p <> OutOfFuel ->
  exists enough, forall fuel', enough <= fuel' ->
  same_run shown Act (run reducer eqb trans futures manual ext fuel m w p)
    (run update deqb trans futures manual (fun _ => []) fuel' (dinit m) w (dlift p)).
Proof.
  exact (fun eqb deqb trans futures manual ext =>
    plain_strict_alone M A W reducer eqb trans futures manual ext pause_eff resume_eff deqb).
Qed.
(** In general (a model of a class with operator==: then there is none for the
    debugger's model) if there is no watcher. *)
Theorem C39_same_unwatched : forall eqb deqb trans futures manual ext,
  (forall m n, eqb m n = true -> m = n) ->
  (forall d d', deqb d d' = true -> shown d = shown d' /\ paused d = paused d') ->
  (forall m a n e, reducer m a = Some (n, Some e) -> unwatched e) ->
  (trans = true -> futures = false) ->
  forall fuel m w p, unwatched p -> run reducer eqb trans futures manual ext fuel m w p <> OutOfFuel ->
  exists ext' enough, regrouped Act ext ext' /\ forall fuel', enough <= fuel' ->
  same_run shown Act (run reducer eqb trans futures manual ext fuel m w p)
    (run update deqb trans futures manual ext' fuel' (dinit m) w (dlift p)).
Proof.
  exact (fun eqb deqb trans futures manual ext =>
    plain_loose M A W reducer eqb trans futures manual ext pause_eff resume_eff deqb).
Qed.
Theorem C39_same_unwatched_alone : forall eqb deqb trans futures manual ext,
  (forall m n, eqb m n = true -> m = n) ->
  (forall d d', deqb d d' = true -> shown d = shown d' /\ paused d = paused d') ->
  (forall m a n e, reducer m a = Some (n, Some e) -> unwatched e) ->
  (trans = true -> futures = false) -> (forall n, ext n = []) ->
  forall fuel m w p, unwatched p -> run reducer eqb trans futures manual ext fuel m w p <> OutOfFuel ->
  exists enough, forall fuel', enough <= fuel' ->
  same_run shown Act (run reducer eqb trans futures manual ext fuel m w p)
    (run update deqb trans futures manual (fun _ => []) fuel' (dinit m) w (dlift p)).
Proof.
  exact (fun eqb deqb trans futures manual ext =>
    plain_loose_alone M A W reducer eqb trans futures manual ext pause_eff resume_eff deqb).
Qed.
(** And at any rate the models and the recorded history are the right ones. *)
Theorem C39_models : forall l m es, replay reducer m0 l = Some (m, es) ->
  shown (reached (map Act l)) = Some m /\ history (reached (map Act l)) = combine l (models_of reducer m0 l).
Proof. exact (plain_models M A W reducer pause_eff resume_eff m0). Qed.
End Line.

Section Tree.
Variables M A W : Type.
Notation prog := (prog M A W).
Notation tmodel := (tmodel M A).
Notation tprog := (StoreModel.prog tmodel (taction A) W).
Variable reducer : M -> A -> option (M * option prog).
Variables pause_eff resume_eff : tprog.
Notation tupdate := (tupdate reducer pause_eff resume_eff).
Notation tstep_model := (tstep_model reducer pause_eff resume_eff).
Notation tsteps := (tsteps reducer pause_eff resume_eff).
Variable m0 : M.
(** [d] is the debugger's model after the actions [xs]. *)
Notation after := (fun xs d => tsteps xs (tinit_model m0) = Fine d).

Theorem C39_tree_same : forall eqb teqb trans futures manual ext,
  (forall m n d d', tshown d = Some m -> tshown d' = Some n -> teqb d d' = eqb m n) ->
  (trans = true -> futures = false) ->
  forall fuel m w p, run reducer eqb trans futures manual ext fuel m w p <> OutOfFuel ->
  exists ext' enough, regrouped TAct ext ext' /\ forall fuel', enough <= fuel' ->
  same_run tshown TAct (run reducer eqb trans futures manual ext fuel m w p)
    (run (treducer reducer pause_eff resume_eff) teqb trans futures manual ext' fuel' (tinit_model m) w (tlift p)).
Proof.
  exact (fun eqb teqb trans futures manual ext =>
    tree_strict M A W reducer eqb trans futures manual ext pause_eff resume_eff teqb).
Qed.
Theorem C39_tree_same_alone : forall eqb teqb trans futures manual ext,
  (forall m n d d', tshown d = Some m -> tshown d' = Some n -> teqb d d' = eqb m n) ->
  (trans = true -> futures = false) -> (forall n, ext n = []) ->
  forall fuel m w p, run reducer eqb trans futures manual ext fuel m w p <> OutOfFuel ->
  exists enough, forall fuel', enough <= fuel' ->
  same_run tshown TAct (run reducer eqb trans futures manual ext fuel m w p)
    (run (treducer reducer pause_eff resume_eff) teqb trans futures manual (fun _ => []) fuel' (tinit_model m) w (tlift p)).
Proof.
  exact (fun eqb teqb trans futures manual ext =>
    tree_strict_alone M A W reducer eqb trans futures manual ext pause_eff resume_eff teqb).
Qed.
Theorem C39_tree_same_unwatched : forall eqb teqb trans futures manual ext,
  (forall m n, eqb m n = true -> m = n) ->
  (forall d d', teqb d d' = false) ->
  (forall m a n e, reducer m a = Some (n, Some e) -> unwatched e) ->
  (trans = true -> futures = false) ->
  forall fuel m w p, unwatched p -> run reducer eqb trans futures manual ext fuel m w p <> OutOfFuel ->
  exists ext' enough, regrouped TAct ext ext' /\ forall fuel', enough <= fuel' ->
  same_run tshown TAct (run reducer eqb trans futures manual ext fuel m w p)
    (run (treducer reducer pause_eff resume_eff) teqb trans futures manual ext' fuel' (tinit_model m) w (tlift p)).
Proof.
  exact (fun eqb teqb trans futures manual ext =>
    tree_loose M A W reducer eqb trans futures manual ext pause_eff resume_eff teqb).
Qed.
Theorem C39_tree_same_unwatched_alone : forall eqb teqb trans futures manual ext,
  (forall m n, eqb m n = true -> m = n) ->
  (forall d d', teqb d d' = false) ->
  (forall m a n e, reducer m a = Some (n, Some e) -> unwatched e) ->
  (trans = true -> futures = false) -> (forall n, ext n = []) ->
  forall fuel m w p, unwatched p -> run reducer eqb trans futures manual ext fuel m w p <> OutOfFuel ->
  exists enough, forall fuel', enough <= fuel' ->
  same_run tshown TAct (run reducer eqb trans futures manual ext fuel m w p)
    (run (treducer reducer pause_eff resume_eff) teqb trans futures manual (fun _ => []) fuel' (tinit_model m) w (tlift p)).
Proof.
  exact (fun eqb teqb trans futures manual ext =>
    tree_loose_alone M A W reducer eqb trans futures manual ext pause_eff resume_eff teqb).
Qed.

(** ** C40 *)

(** No action leads to undefined behaviour and the cursor always designates a step
    or the start. *)
Theorem C40_never_undefined : forall xs, exists d, after xs d /\ exists r, tlookup d (tcursor d) = Some r.
Proof. exact (tree_defined M A W reducer pause_eff resume_eff m0). Qed.
(** What is at a place stays there. *)
Theorem C40_never_lost : forall xs ys d d', after xs d -> after (xs ++ ys) d' ->
  forall c r, tlookup d c = Some r -> tlookup d' c = Some r.
Proof. exact (tree_grows M A W reducer pause_eff resume_eff m0). Qed.
(** An ordinary action adds exactly one step; undo leads back. *)
Theorem C40_one_step : forall xs d a m m' e, after xs d -> tpaused d = false -> tshown d = Some m ->
  reducer m a = Some (m', e) ->
  exists d' new, tupdate d (TAct a) = Fine (Some (d', teff e)) /\
    tlookup d new = None /\ tlookup d' new = Some (Some a, m') /\
    (forall c, c <> new -> tlookup d' c = tlookup d c) /\
    tundo new = tcursor d /\
    exists d'', tstep_model d' TUndo = Fine d'' /\ tcursor d'' = tcursor d.
Proof. exact (tree_one_step M A W reducer pause_eff resume_eff m0). Qed.
(** Goto, undo and pause add none. *)
Theorem C40_moves_keep : forall xs d x, after xs d -> match x with TGoto _ | TUndo | TPause => True | _ => False end ->
  exists d', tstep_model d x = Fine d' /\ forall c, tlookup d' c = tlookup d c.
Proof. exact (tree_moves M A W reducer pause_eff resume_eff m0). Qed.
(** Undo moves to the predecessor: the place whose model, with the action at the
    cursor, gives the model at the cursor.  At the start it stays. *)
Theorem C40_undo : forall xs d, after xs d -> exists d', tstep_model d TUndo = Fine d' /\
  match tlookup d (tcursor d) with
  | Some (Some a, m) => exists m1 e, tshown d' = Some m1 /\ reducer m1 a = Some (m, e)
  | _ => d' = d
  end.
Proof. exact (tree_undo M A W reducer pause_eff resume_eff m0). Qed.
(** Every recorded step is the reducer's result on the step before it. *)
Theorem C40_consistent : forall xs d, after xs d -> forall c a m, tlookup d c = Some (Some a, m) ->
  exists x m1 e, tlookup d (tundo c) = Some (x, m1) /\ reducer m1 a = Some (m, e).
Proof. exact (fun xs d H => tv_tree _ _ _ _ _ _ (reached_tvalid M A W reducer pause_eff resume_eff m0 xs d H)). Qed.
(** Goto is exact; to a place that is not recorded it does nothing. *)
Theorem C40_goto : forall xs d c, after xs d -> exists d', tstep_model d (TGoto c) = Fine d' /\
  match tlookup d c with
  | Some (_, m) => tcursor d' = c /\ tshown d' = Some m
  | None => d' = d
  end.
Proof. exact (tree_goto M A W reducer pause_eff resume_eff m0). Qed.
(** Pausing, as in C38. *)
Theorem C38_tree_paused : forall xs d a, after xs d -> tpaused d = true ->
  tupdate d (TAct a) = Fine (Some (T (tcursor d) true (tinit d) (tbranches d) (tpending d ++ [a]), noop)).
Proof. exact (fun xs d a _ => tpaused_act M A W reducer pause_eff resume_eff d a). Qed.
Theorem C38_tree_resume : forall xs d d' e, after xs d -> tupdate d TResume = Fine (Some (d', e)) ->
  tsteps (map TAct (tpending d)) (T (tcursor d) false (tinit d) (tbranches d) []) = Fine d'.
Proof.
  exact (fun xs d d' e H => tresume M A W reducer pause_eff resume_eff m0 d d' e
    (reached_tvalid M A W reducer pause_eff resume_eff m0 xs d H)).
Qed.

(** ** C41 *)

(** The result of the action is shown if the cursor is at the start, or at the last
    step of its branch, or at a step where no branch starts yet. *)
Theorem C41_shows_result : forall xs d a m m' e, after xs d -> tpaused d = false -> tshown d = Some m ->
  reducer m a = Some (m', e) ->
  tcursor d = [] \/ tlookup d (follower (tcursor d)) = None \/ branches_at (tbranches d) (tcursor d) = 0 ->
  exists d', tupdate d (TAct a) = Fine (Some (d', teff e)) /\
    tlookup d (tcursor d') = None /\ tlookup d' (tcursor d') = Some (Some a, m') /\ tshown d' = Some m'.
Proof. exact (tree_shows M A W reducer pause_eff resume_eff m0). Qed.
(** Otherwise the first step of the first branch is shown. *)
Theorem C41_shows_first_branch : forall xs d a m m' e, after xs d -> tpaused d = false -> tshown d = Some m ->
  reducer m a = Some (m', e) ->
  tcursor d <> [] -> tlookup d (follower (tcursor d)) <> None ->
  exists d', tupdate d (TAct a) = Fine (Some (d', teff e)) /\ tcursor d' = tcursor d ++ [Pos 0 0].
Proof. exact (tree_first_branch M A W reducer pause_eff resume_eff m0). Qed.
End Tree.

(** ** Cases *)
Section Cases.
(** Models are numbers, actions add a number, odd ones have an effect, 100 throws. *)
Definition red (m a : nat) : option (nat * option (prog nat nat unit)) :=
  if a =? 100 then None else Some (m + a, if Nat.odd a then Some (PMark a (PRet None)) else None).
Notation nop := (PRet None).
Notation dst := (dstep red nop nop).
Definition ops : list (daction nat) := [Act 1; Act 2; Act 3; Undo; Undo; Act 10; Act 100; Undo; Redo; Goto 1].
Example C36_case : let d := fold_left dst ops (dinit 5) in
  history d = [(1, 6); (10, 16)] /\ cursor d = 1 /\ shown d = Some 6 /\ lookup d 2 = Some (Some 10, 16) /\ lookup d 3 = None.
Proof. vm_compute. repeat split. Qed.
(** A store that gets there. *)
Definition dispatch_all (l : list (daction nat)) : prog (dmodel nat nat) (daction nat) unit :=
  fold_right (fun a k => PTry (PDispatch a (fun _ => nop)) (fun _ => k)) nop l.
Example C36_store_case :
  match run (update red nop nop) (fun _ _ => false) false false true (fun _ => []) 100 (dinit 5) tt (dispatch_all ops) with
  | Done _ s => cur s = fold_left dst ops (dinit 5) /\ length (all_models (log s)) = 18
  | _ => False
  end.
Proof. vm_compute. auto. Qed.
Example C37_case : let d := fold_left dst ops (dinit 5) in
  0 < cursor d /\ cursor d < length (history d) /\
  history (dst d (Act 7)) = [(1, 6); (7, 13)] /\ dst (dst d Undo) Redo = d /\ dst d (Goto 3) = d.
Proof. vm_compute. repeat split; auto. Qed.
Definition paused_ops : list (daction nat) := ops ++ [Pause; Act 1; Redo; Act 2; Act 3; Undo].
Example C38_case : let d := fold_left dst paused_ops (dinit 5) in
  paused d = true /\ shown d = Some 6 /\ pending d = [1; 2; 3] /\
  replay red 6 [1; 2; 3] = Some (12, [Some (PMark 1 nop); None; Some (PMark 3 nop)]) /\
  history (dst d Resume) = [(1, 6); (1, 7); (2, 9); (3, 12)] /\ shown (dst d Resume) = Some 12.
Proof. vm_compute. repeat split. Qed.
Example C38_resume_throws_case : let d := fold_left dst (paused_ops ++ [Act 100]) (dinit 5) in
  replay red 6 (pending d) = None /\ dst d Resume = d.
Proof. vm_compute. auto. Qed.
(** The effects on resume are marked in order. *)
Definition marks {M A W} (l : list (event M A W)) : list nat :=
  fold_left (fun r e => match e with EMark n => n :: r | _ => r end) l [].
Example C38_effects_case :
  match run (update red (PMark 50 nop) (PMark 60 nop)) (fun _ _ => false) false false true (fun _ => []) 200 (dinit 5) tt
          (dispatch_all [Act 1; Pause; Act 1; Act 2; Act 3; Resume; Act 7]) with
  | Done _ s => marks (log s) = [1; 50; 60; 1; 3; 7]
  | _ => False
  end.
Proof. vm_compute. auto. Qed.

(** If the model is a number, operator== of the debugger's model compares only the
    model shown (nodes.hpp:103-113 with debugger.hpp:108) and the store drops a
    change of anything else: pausing is lost, although its effect runs. *)
Definition compare_shown (d d' : dmodel nat nat) : bool :=
  match shown d, shown d' with Some m, Some n => m =? n | _, _ => false end.
Theorem C38_pause_lost_refuted :
  exists l, match run (update red (PMark 50 nop) nop) compare_shown false false true (fun _ => []) 100 (dinit 5) tt
              (dispatch_all (Pause :: l)) with
  | Done _ s => marks (log s) = [50; 1] /\ paused (cur s) = false /\ shown (cur s) = Some 6
  | _ => False
  end.
Proof. exists [Act 1]. vm_compute. repeat split. Qed.
(** In the same way undo is lost if the models are equal. *)
Theorem C37_undo_lost_refuted :
  exists l, match run (update red nop nop) compare_shown false false true (fun _ => []) 100 (dinit 5) tt
              (dispatch_all l) with
  | Done _ s => history (cur s) = [(1, 6)] /\ history (fold_left dst l (dinit 5)) = [(1, 6); (0, 6)]
  | _ => False
  end.
Proof. exists [Act 1; Act 0; Undo; Undo]. vm_compute. repeat split. Qed.

(** C39: hypotheses are met, with watchers. *)
Definition client : prog nat nat unit :=
  PWatch (fun m => PMark m nop) (fun _ => PDispatch 1 (fun _ => PDispatch 2 (fun _ => PDispatch 0 (fun _ => PGet (fun m => PMark (100 + m) nop))))).
Example C39_case :
  (forall m n d d', shown d = Some m -> shown d' = Some n -> compare_shown d d' = (m =? n)) /\
  match run red Nat.eqb false false true (fun _ => []) 100 5 tt client,
        run (update red nop nop) compare_shown false false true (fun _ => []) 101 (dinit 5) tt (dlift client) with
  | Done _ s, Done _ s' => marks (log s) = [6; 1; 8; 108] /\ marks (log s') = [6; 1; 8; 108]
  | _, _ => False
  end.
Proof.
  split; [|vm_compute; auto]. intros m n d d' E1 E2. unfold compare_shown. now rewrite E1, E2.
Qed.
Example C39_unwatched_case :
  unwatched (PDispatch 1 (fun _ => PGet (fun m => PMark m nop)) : prog nat nat unit) /\
  (forall m a n e, red m a = Some (n, Some e) -> unwatched e).
Proof.
  split; [simpl; auto|]. intros m a n e. unfold red. destruct (a =? 100); [discriminate|].
  destruct (Nat.odd a); intros E; [|discriminate]. injection E as _ E. subst e. simpl. auto.
Qed.
(** Without operator== for the debugger's model watchers are called too often. *)
Theorem C39_extra_notification_refuted : exists p : prog nat nat unit,
  match run red Nat.eqb false false true (fun _ => []) 100 5 tt p,
        run (update red nop nop) (fun _ _ => false) false false true (fun _ => []) 101 (dinit 5) tt (dlift p) with
  | Done _ s, Done _ s' => marks (log s) = [6; 1; 8; 108] /\ marks (log s') = [6; 1; 8; 8; 108]
  | _, _ => False
  end.
Proof. exists client. vm_compute. repeat split. Qed.

(** With transactions and futures: the future of an action without effect is ready
    only after the effect that does nothing has run. *)
Theorem C39_late_future_refuted : exists p : prog nat nat unit,
  match run red Nat.eqb true true true (fun _ => []) 100 5 tt p,
        run (update red nop nop) compare_shown true true true (fun _ => []) 101 (dinit 5) tt (dlift p) with
  | Done _ s, Done _ s' => marks (log s) = [1; 2; 3] /\ marks (log s') = [1; 3; 2]
  | _, _ => False
  end.
Proof.
  exists (PPost (PDispatch 2 (fun f => PThen f (PMark 2 nop) (fun _ =>
            PPost (PMark 1 (PPost (PMark 3 nop) nop)) nop))) nop).
  vm_compute. repeat split.
Qed.

(** * C57: summaries of histories *)
Section Summaries.
Context {M A : Type}.
Implicit Types d : tmodel M A.
(** The summary, read as is usual, gives the whole history but for actions and models. *)
Theorem C57_reads : forall d, map expand (summary d) = map (map shape_of) (tbranches d).
Proof. exact summary_reads. Qed.
(** Histories of the same shape have the same summary, others have others. *)
Theorem C57_exact : forall d d', summary d = summary d' <->
  map (map shape_of) (tbranches d) = map (map shape_of) (tbranches d').
Proof. exact summary_exact. Qed.
(** No empty entries but at the end of a branch. *)
Theorem C57_form : forall d, Forall tidy (summary d).
Proof. exact summary_tidy. Qed.
(** The cursors one can go to are those of the steps in the summary, and the start. *)
Theorem C57_cursors : forall d c, check d c = true <-> c = [] \/ place (map expand (summary d)) c.
Proof. exact summary_cursors. Qed.
End Summaries.
Print Assumptions C57_reads.
Print Assumptions C57_exact.
Print Assumptions C57_form.
Print Assumptions C57_cursors.

(** Trees. *)
Notation tst := (tsteps red nop nop).
Definition tops : list (taction nat) := [TAct 1; TAct 2; TGoto [Pos 0 0]; TAct 3; TAct 5; TGoto []; TAct 8; TGoto [Pos 0 0; Pos 0 0]].
Example C40_case : exists d, tst tops (tinit_model 5) = Fine d /\
  tlookup d [Pos 0 1] = Some (Some 2, 8) /\ tlookup d [Pos 0 0; Pos 0 1] = Some (Some 5, 14) /\
  tlookup d [Pos 1 0] = Some (Some 8, 13) /\ tshown d = Some 9 /\ tpaused d = false /\ red 9 4 = Some (13, None) /\
  exists d', tst [TAct 4] d = Fine d' /\ tcursor d' = [Pos 0 0; Pos 0 0; Pos 0 0] /\ tshown d' = Some 13.
Proof. eexists. split; [vm_compute; reflexivity|]. vm_compute. repeat split. eexists. split; [vm_compute; reflexivity|]. repeat split. Qed.
Example C38_tree_case : exists d, tst (tops ++ [TPause; TAct 4; TAct 6]) (tinit_model 5) = Fine d /\
  tpaused d = true /\ tpending d = [4; 6] /\ tshown d = Some 9 /\
  exists d', tst [TResume] d = Fine d' /\ tcursor d' = [Pos 0 0; Pos 0 0; Pos 0 1] /\ tshown d' = Some 19.
Proof. eexists. split; [vm_compute; reflexivity|]. vm_compute. repeat split. eexists. split; [vm_compute; reflexivity|]. repeat split. Qed.
(** Two branches from the start; a branch of two steps after the first step of the first. *)
Example C57_case : exists d, tst tops (tinit_model 5) = Fine d /\
  summary d = [[SStep 0 [[SStep 2 []]]; SStep 1 []]; [SStep 1 []]] /\
  map expand (summary d) = [[Shape [[Shape []; Shape []]]; Shape []]; [Shape []]] /\
  check d [Pos 0 0; Pos 0 1] = true /\ check d [Pos 0 1; Pos 0 0] = false /\
  place (map expand (summary d)) [Pos 0 0; Pos 0 1].
Proof.
  eexists. split; [vm_compute; reflexivity|]. do 4 (split; [vm_compute; reflexivity|]).
  eapply place_in; [reflexivity|reflexivity|]. eapply place_here; reflexivity.
Qed.
(** A second branch at the same step: the first one is shown. *)
Theorem C41_second_branch_refuted : exists xs d a m m' e d', tst xs (tinit_model 5) = Fine d /\
  tpaused d = false /\ tshown d = Some m /\ red m a = Some (m', e) /\
  tst [TAct a] d = Fine d' /\ tlookup d' (tcursor d') = Some (Some 3, 9) /\ tshown d' <> Some m'.
Proof.
  exists [TAct 1; TAct 2; TGoto [Pos 0 0]; TAct 3; TGoto [Pos 0 0]]. eexists. exists 7, 6, 13, (Some (PMark 7 nop)). eexists.
  split; [vm_compute; reflexivity|]. split; [vm_compute; reflexivity|]. split; [vm_compute; reflexivity|]. split; [vm_compute; reflexivity|]. split; [vm_compute; reflexivity|].
  split; [vm_compute; reflexivity|]. vm_compute. discriminate.
Qed.
(** Redo is not there: it throws. *)
Theorem C37_tree_redo_refuted : exists xs d d', tst xs (tinit_model 5) = Fine d /\
  tupdate red nop nop d TUndo = Fine (Some (d', noop)) /\ tcursor d' <> tcursor d /\
  tupdate red nop nop d' TRedo = Fine None.
Proof.
  exists [TAct 1]. do 2 eexists. split; [vm_compute; reflexivity|]. split; [vm_compute; reflexivity|]. split; [discriminate|reflexivity].
Qed.
End Cases.

Print Assumptions C36_history_replays.
Print Assumptions C36_in_store.
Print Assumptions C37_undo_redo.
Print Assumptions C37_redo_undo.
Print Assumptions C37_goto.
Print Assumptions C37_goto_past.
Print Assumptions C37_only_cursor.
Print Assumptions C37_act_discards.
Print Assumptions C37_undo_lost_refuted.
Print Assumptions C37_tree_redo_refuted.
Print Assumptions C38_paused.
Print Assumptions C38_paused_no_effect.
Print Assumptions C38_resume.
Print Assumptions C38_resume_throws.
Print Assumptions C38_pause_resume.
Print Assumptions C38_pause_lost_refuted.
Print Assumptions C38_tree_paused.
Print Assumptions C38_tree_resume.
Print Assumptions C39_same.
Print Assumptions C39_same_alone.
Print Assumptions C39_same_unwatched.
Print Assumptions C39_same_unwatched_alone.
Print Assumptions C39_models.
Print Assumptions C39_tree_same.
Print Assumptions C39_tree_same_alone.
Print Assumptions C39_tree_same_unwatched.
Print Assumptions C39_tree_same_unwatched_alone.
Print Assumptions C39_late_future_refuted.
Print Assumptions C39_extra_notification_refuted.
Print Assumptions C40_never_undefined.
Print Assumptions C40_never_lost.
Print Assumptions C40_one_step.
Print Assumptions C40_moves_keep.
Print Assumptions C40_undo.
Print Assumptions C40_consistent.
Print Assumptions C40_goto.
Print Assumptions C41_shows_result.
Print Assumptions C41_shows_first_branch.
Print Assumptions C41_second_branch_refuted.
