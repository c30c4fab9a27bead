(** Properties of the store: C20-C24, C26, C27, C48.

    [reach ... s]: [s] is the state between two pieces of client code, or two calls
    of step(), of any program using a new store; see StoreSpec.v for the vocabulary.
    Everything is about the log of what happened so far, so it also holds of every
    moment of the past in the form "[log s = l1 ++ event :: l2]". *)
From Coq Require Import List Arith Bool Lia.
From Verif Require Import StoreModel StoreSpec StoreSteps StoreInv StoreTold StoreQuiet StoreMain.
From Verif Require Import StoreExtraModel StoreSeq StoreThunk StoreLast StoreRuns.
Import ListNotations.

Section Props.
Variables M A W : Type.
Notation prog := (prog M A W).
Notation event := (event M A W).
Notation st := (st M A W).
Variable reducer : M -> A -> option (M * option prog).
Variable eqb : M -> M -> bool.
Variables trans futures manual : bool.
Variable ext : nat -> list A.
Variable m0 : M.
Notation exec := (exec reducer eqb trans futures manual ext).
Notation reach := (reach reducer eqb trans futures manual ext m0).
Notation arrive := (arrive futures manual ext).

(** ** C20 *)

(** Reducers run in the order of dispatch, once for each dispatch; all of them once
    the loop is empty. *)
Theorem C20_reduced_in_order : forall s, reach s -> exists rest,
  reduced (log s) ++ rest = seq 0 (length (actions (log s))) /\ (q s = [] -> rest = []).
Proof. exact (order M A W reducer eqb trans futures manual ext m0). Qed.

(** get() is the fold, if operator== is equality (or there is none). *)
Theorem C20_get_is_fold : (forall a b, eqb a b = true -> a = b) ->
  forall s, reach s -> trans = false -> q s = [] -> last s = fold reducer m0 (actions (log s)).
Proof.
  exact (fun H => get_fold M A W reducer eqb trans futures manual ext m0 eq (@eq_refl M) (@eq_sym M) (@eq_trans M)
           H (fun a b x E => f_equal (fun m => reduce1 reducer m x) E)).
Qed.

(** If operator== is coarser than equality, it is up to any equivalence that it
    implies and the reducer respects. *)
Theorem C20_get_is_fold_up_to : forall eqv : M -> M -> Prop,
  (forall a, eqv a a) -> (forall a b, eqv a b -> eqv b a) ->
  (forall a b c, eqv a b -> eqv b c -> eqv a c) ->
  (forall a b, eqb a b = true -> eqv a b) ->
  (forall a b x, eqv a b -> eqv (reduce1 reducer a x) (reduce1 reducer b x)) ->
  forall s, reach s -> trans = false -> q s = [] -> eqv (last s) (fold reducer m0 (actions (log s))).
Proof. exact (get_fold M A W reducer eqb trans futures manual ext m0). Qed.

(** When the loop is empty: always, between two pieces of client code, on the manual
    loop; after step() on the others. *)
Theorem C20_manual_drains : manual = true -> forall s, reach s -> no_failure (log s) -> q s = [].
Proof. exact (manual_drained M A W reducer eqb trans futures manual ext m0). Qed.
Theorem C20_step_drains : forall s fuel f s', exec fuel TRun s = Done f s' -> q s' = [].
Proof. exact (step_drained M A W reducer eqb trans futures manual ext). Qed.

(** ** C21 *)

(** What runs as an effect is what the reducer returned, for the action of that
    number, in the model all the actions before it lead to. *)
Theorem C21_effect_of_action : (forall a b, eqb a b = true -> a = b) ->
  forall s, reach s -> forall id m e, In (EEff id m e) (log s) -> exists m', exists a m1,
  nth_error (actions (log s)) id = Some a /\ m1 = fold reducer m0 (firstn id (actions (log s))) /\
  reducer m1 a = Some (m', Some e).
Proof.
  exact (fun H s R => p_eff _ _ _ _ _ _ _ (reach_IProg M A W reducer eqb trans futures manual ext m0 eq
    (@eq_refl M) (@eq_sym M) (@eq_trans M) H (fun a b x E => f_equal (fun m => reduce1 reducer m x) E) s R)).
Qed.

(** In the order of dispatch, each at most once, all of them once the loop is empty.
    [effects_over] also has those lost because a watcher threw just before. *)
Theorem C21_effects_in_order : forall s, reach s -> exists rest,
  with_effect (log s) = effects_over (log s) ++ rest /\ (q s = [] -> rest = []).
Proof. exact (effects_once M A W reducer eqb trans futures manual ext m0). Qed.
Theorem C21_dispatch_order : forall l : list event, subseq (with_effect l) (reduced l).
Proof. exact (with_effect_sub M A W). Qed.
Theorem C21_at_most_once : forall s, reach s -> NoDup (effects_over (log s)).
Proof. exact (nodup_effects M A W reducer eqb trans futures manual ext m0). Qed.
Theorem C21_nothing_lost : forall s, reach s -> no_failure (log s) -> effects_over (log s) = effects_run (log s).
Proof. exact (effects_ok M A W reducer eqb trans futures manual ext m0). Qed.
Theorem C21_exactly_once : forall s, reach s -> no_failure (log s) -> q s = [] ->
  forall id m, In (ERed id m true) (log s) ->
  exists l1 l2, effects_run (log s) = l1 ++ id :: l2 /\ ~ In id (l1 ++ l2).
Proof. exact (once_in M A W reducer eqb trans futures manual ext m0). Qed.

(** When it runs, its own action has been reduced, get() is the fold of everything
    reduced so far, and every connected watcher has been told. *)
Theorem C21_own_action_reduced : forall s, reach s -> forall l1 id m e l2, log s = l1 ++ EEff id m e :: l2 ->
  id < length (reduced l2).
Proof. exact (effect_own M A W reducer eqb trans futures manual ext m0). Qed.
Theorem C21_model_visible : (forall a b, eqb a b = true -> a = b) ->
  forall s, reach s -> trans = false -> forall l1 id m e l2, log s = l1 ++ EEff id m e :: l2 ->
  m = fold reducer m0 (firstn (length (reduced l2)) (actions l2)).
Proof.
  exact (fun H => effect_model M A W reducer eqb trans futures manual ext m0 eq (@eq_refl M) (@eq_sym M) (@eq_trans M)
           H (fun a b x E => f_equal (fun m => reduce1 reducer m x) E)).
Qed.
Theorem C21_watchers_told : forall s, reach s -> trans = false ->
  forall l1 id m e l2, log s = l1 ++ EEff id m e :: l2 ->
  no_failure l2 -> no_commit l2 -> forall i m', knows i l2 = Some m' -> m' = m.
Proof. exact (effect_told M A W reducer eqb trans futures manual ext m0). Qed.

(** dispatch() of a queued loop only queues: it returns at once, and nothing happened
    but dispatches (this one and those of other threads). *)
Theorem C21_not_inside_dispatch : manual = false -> forall fuel a k s, exists s' f l,
  exec (S (S fuel)) (TProg (PDispatch a k)) s = exec (S fuel) (TProg (k f)) s' /\
  log s' = l ++ log s /\ Forall (fun e : event => exists i b g, e = EDisp i b g) l.
Proof. exact (dispatch_queued M A W reducer eqb trans futures manual ext). Qed.

(** An effect that is run is really executed: if it begins by printing [n], then [n]
    is printed next (other threads may dispatch meanwhile). *)
Theorem C21_effect_executed : forall s, reach s -> forall l1 id m n k l2,
  log s = l1 ++ EEff id m (PMark n k) :: l2 ->
  exists l3 ds, l1 = l3 ++ EMark n :: ds /\ Forall (fun e => exists i a f, e = EDisp i a f) ds.
Proof. exact (effect_starts M A W reducer eqb trans futures manual ext m0). Qed.

(** ** C22 *)
Theorem C22_subsequence : forall s, reach s -> no_commit (log s) ->
  forall i, subseq (seen i (log s)) (models (log s)).
Proof. exact (seen_sub M A W reducer eqb trans futures manual ext m0). Qed.
(** With commit() called on the store, a watcher may be called again with the same model. *)
Theorem C22_subsequence_commit : forall s, reach s -> forall i, subseq_rep (seen i (log s)) (models (log s)).
Proof. exact (seen_sub_rep M A W reducer eqb trans futures manual ext m0). Qed.
(** The last value seen is what get() returns; with C20 it is the final model. *)
Theorem C22_last : forall s, reach s -> no_failure (log s) -> forall i,
  (forall m, knows i (log s) = Some m -> m = last s) /\
  (knows i (log s) = None <-> ~ exists w, nth_error (slots s) i = Some (Some w)).
Proof. exact (last_known M A W reducer eqb trans futures manual ext m0). Qed.

(** ** C23 *)
Theorem C23_done_after : forall s, reach s -> forall id a n l1 l2, In (EDisp id a (Some n)) (log s) ->
  log s = l1 ++ EDone n :: l2 -> In (EDisp id a (Some n)) l2 /\ settled trans id l2.
Proof. exact (done_settled M A W reducer eqb trans futures manual ext m0). Qed.
Theorem C23_callback_after : forall s, reach s -> forall id a n k c c' l1 l2, In (EDisp id a (Some n)) (log s) ->
  In (EThen n k c) (log s) -> log s = l1 ++ ECb k c' :: l2 -> settled trans id l2.
Proof. exact (cb_settled M A W reducer eqb trans futures manual ext m0). Qed.
Theorem C23_callback_at_most_once : forall s, reach s -> NoDup (callbacks_run (log s)).
Proof. exact (cb_once M A W reducer eqb trans futures manual ext m0). Qed.
Theorem C23_done_once : forall s, reach s -> no_failure (log s) -> forall n l1 l2, log s = l1 ++ EDone n :: l2 ->
  ~ In (EDone n) l1 /\ ~ In (EDone n) l2.
Proof. exact (done_once M A W reducer eqb trans futures manual ext m0). Qed.
(** Once the loop is empty the future is completed, unless the effect returned a
    future that is not. *)
Theorem C23_done : forall s, reach s -> no_failure (log s) -> q s = [] -> forall id a n,
  In (EDisp id a (Some n)) (log s) ->
  In (EDone n) (log s) \/ exists f, In (EEffEnd id (Some f)) (log s) /\ ~ In (EDone f) (log s).
Proof. exact (disp_done M A W reducer eqb trans futures manual ext m0). Qed.
Theorem C23_callback_runs : forall s, reach s -> no_failure (log s) -> q s = [] -> forall f k c,
  In (EThen f k c) (log s) -> In (EDone f) (log s) -> In k (callbacks_run (log s)).
Proof. exact (cb_runs M A W reducer eqb trans futures manual ext m0). Qed.

(** ** C24 *)
Theorem C24_quiet : trans = true -> forall s, reach s -> forall fuel t s',
  (exists p, t = TProg p) \/ t = TRun -> finished (exec fuel t s) s' ->
  commits (log s') = commits (log s) -> last s' = last s /\ forall i, seen i (log s') = seen i (log s).
Proof. exact (quiet M A W reducer eqb trans futures manual ext m0). Qed.
Theorem C24_quiet_from_the_start : trans = true -> forall s, reach s -> no_commit (log s) ->
  last s = m0 /\ forall i, seen i (log s) = [].
Proof. exact (quiet_init M A W reducer eqb trans futures manual ext m0). Qed.
Theorem C24_seen_after_commit : trans = true -> forall s, reach s -> forall i m,
  In (ESee i m) (log s) -> In ECommit (log s).
Proof. exact (quiet_effects M A W reducer eqb trans futures manual ext m0). Qed.
(** What commit publishes: everything reduced so far ([send_down] is the first half
    of commit, the other half calls the watchers with it). *)
Theorem C24_commit_publishes : (forall a b, eqb a b = true -> a = b) -> forall s, reach s ->
  last (send_down s) = fold reducer m0 (firstn (length (reduced (log s))) (actions (log s))).
Proof.
  exact (fun H => commit_model M A W reducer eqb trans futures manual ext m0 eq (@eq_refl M) (@eq_sym M) (@eq_trans M)
           H (fun a b x E => f_equal (fun m => reduce1 reducer m x) E)).
Qed.

(** ** C26 *)
(** A callback runs after the future it is chained to; the future of then() is done
    after the callback and the future it returned. *)
Theorem C26_callback_after : forall s, reach s -> forall f k c c' l1 l2, In (EThen f k c) (log s) ->
  log s = l1 ++ ECb k c' :: l2 -> c' = c /\ In (EThen f k c) l2 /\ In (EDone f) l2.
Proof. exact (cb_of M A W reducer eqb trans futures manual ext m0). Qed.
Theorem C26_then_done_after : forall s, reach s -> forall f k c l1 l2, In (EThen f k c) (log s) ->
  log s = l1 ++ EDone k :: l2 ->
  In (EDone f) l2 /\ In (ECb k c) l2 /\
  exists g, In (ECbEnd k g) l2 /\ completed l2 g /\ (forall h, c = PRet h -> g = h).
Proof. exact (then_after M A W reducer eqb trans futures manual ext m0). Qed.
(** A chain of any length: when the last callback runs, all those before it ran, in
    order. *)
Theorem C26_chain_order : forall s, reach s -> forall ks f k c l1 l2, linked (log s) f (ks ++ [k]) ->
  log s = l1 ++ ECb k c :: l2 -> subseq ks (callbacks_run l2) /\ In (EDone f) l2.
Proof. exact (chain_order M A W reducer eqb trans futures manual ext m0). Qed.
(** And the chain does not get stuck. *)
Theorem C26_then_done : forall s, reach s -> no_failure (log s) -> q s = [] -> forall f k c,
  In (EThen f k c) (log s) ->
  In (EDone k) (log s) \/ ~ In (EDone f) (log s) \/
  exists g, In (ECbEnd k (Some g)) (log s) /\ ~ In (EDone g) (log s).
Proof. exact (then_done M A W reducer eqb trans futures manual ext m0). Qed.
(** What f.also(g) returns: g if f is empty, otherwise the future of f.then([g] { return g; }). *)
Theorem C26_also_call : forall f g s h s',
  ends reducer eqb trans futures manual ext (TProg (also f g (fun h => PRet h))) s (Done h s') ->
  match f with Some f' => exists n, h = Some n /\ In (EThen f' n (PRet g)) (log s') | None => h = g end.
Proof. exact (also_call M A W reducer eqb trans futures manual ext). Qed.
(** A callback that is run is really executed: if it begins by printing [n], then
    [n] is printed next (other threads may dispatch meanwhile). *)
Theorem C26_callback_executed : forall s, reach s -> forall l1 j n k l2,
  log s = l1 ++ ECb j (PMark n k) :: l2 ->
  exists l3 ds, l1 = l3 ++ EMark n :: ds /\ Forall (fun e => exists i a f, e = EDisp i a f) ds.
Proof. exact (callback_starts M A W reducer eqb trans futures manual ext m0). Qed.
(** f.also(g), that is f.then([g] { return g; }), is done after both. *)
Theorem C26_also : forall s, reach s -> forall f g k l1 l2, In (EThen f k (PRet g)) (log s) ->
  log s = l1 ++ EDone k :: l2 -> In (EDone f) l2 /\ completed l2 g.
Proof.
  exact (fun s H f g k l1 l2 HT E =>
    match then_after M A W reducer eqb trans futures manual ext m0 s H f k (PRet g) l1 l2 HT E with
    | conj D (conj _ (ex_intro _ g' (conj _ (conj C R)))) =>
        conj D (eq_ind g' (completed l2) C g (R g eq_refl))
    end).
Qed.
(** On the empty future the callback runs immediately. *)
Theorem C26_empty : forall b (s : st) r,
  ends reducer eqb trans futures manual ext (TThen None (CBUser b)) s r <->
  ends reducer eqb trans futures manual ext (TProg b) s r.
Proof. exact (after_none M A W reducer eqb trans futures manual ext). Qed.

(** ** C27 *)
(** [a] runs first.  If it is over when it returns, [b] runs next; otherwise [b]
    becomes a callback of its future, see C26. *)
Theorem C27_order : forall a b e (s : st) g s', sequence (Some a) (Some b) = Some e ->
  ends reducer eqb trans futures manual ext (TProg e) s (Done g s') ->
  exists f s1, ends reducer eqb trans futures manual ext (TProg a) s (Done f s1) /\
    match f with
    | None => exists s2, ends reducer eqb trans futures manual ext (TProg b) (arrive s1) (Done g s2) /\ s' = arrive s2
    | Some f' => exists n, g = Some n /\ In (EThen f' n b) (log s')
    end.
Proof. exact (sequence_order M A W reducer eqb trans futures manual ext). Qed.
Theorem C27_throw : forall a b e (s : st) s', sequence (Some a) (Some b) = Some e ->
  ends reducer eqb trans futures manual ext (TProg a) s (Thrown s') ->
  ends reducer eqb trans futures manual ext (TProg e) s (Thrown s').
Proof. exact (sequence_throws M A W reducer eqb trans futures manual ext). Qed.

End Props.

(** An empty effect before or after an effect makes no difference, on the manual loop. *)
Theorem C27_neutral : forall M A W (reducer : M -> A -> option (M * option (prog M A W))) eqb trans futures ext
  (a : option (prog M A W)) s r,
  (runs M A W reducer eqb trans futures ext (sequence None a) s r <-> runs M A W reducer eqb trans futures ext a s r) /\
  (runs M A W reducer eqb trans futures ext (sequence a None) s r <-> runs M A W reducer eqb trans futures ext a s r).
Proof. exact sequence_none. Qed.
(** [noop] does not count as empty.  Before an effect it makes no difference either; after
    an effect, none if that one is over when it returns. *)
Theorem C27_noop_before : forall M A W (reducer : M -> A -> option (M * option (prog M A W))) eqb trans futures ext
  (a : option (prog M A W)) s r,
  runs M A W reducer eqb trans futures ext (sequence noop a) s r <-> runs M A W reducer eqb trans futures ext a s r.
Proof. exact sequence_noop_l. Qed.
Theorem C27_noop_after_partial : forall M A W (reducer : M -> A -> option (M * option (prog M A W))) eqb trans futures ext
  (a : prog M A W) s r, sync M A W reducer eqb trans futures ext a ->
  (runs M A W reducer eqb trans futures ext (sequence (Some a) noop) s r <->
   runs M A W reducer eqb trans futures ext (Some a) s r).
Proof. exact sequence_noop_r. Qed.
(** Any number of effects, on the manual loop: one after the other, each when the
    future of the one before is there. *)
Theorem C27_all : forall M A W (reducer : M -> A -> option (M * option (prog M A W))) eqb trans futures ext
  (bs : list (option (prog M A W))) a s r,
  runs M A W reducer eqb trans futures ext (sequence_all a bs) s r <->
  chain M A W reducer eqb trans futures ext (present M A W (a :: bs)) None s r.
Proof. exact sequence_all_runs. Qed.
(** The bracketing does not matter, and neither do empty effects, provided all
    effects but the last two are over when they return, and empty effects are not put in
    sequence with each other first; see [C27_bracketing_refuted] and
    [C27_empty_pair_refuted] for the others. *)
Theorem C27_bracketing_partial : forall M A W (reducer : M -> A -> option (M * option (prog M A W))) eqb trans futures ext
  (t : tree M A W) s r,
  some_at_each M A W t ->
  all_sync M A W reducer eqb trans futures ext (present M A W (leaves M A W t)) ->
  (runs M A W reducer eqb trans futures ext (build M A W t) s r <->
   chain M A W reducer eqb trans futures ext (present M A W (leaves M A W t)) None s r).
Proof. exact tree_runs. Qed.

(** ** C48 *)
(** A program without thunks does the same on both stores, step by step. *)
Theorem C48_plain_programs : forall M A W (reducer : M -> A -> option (M * option (prog M A W)))
  eqb trans futures manual (ext : nat -> list A) fl t s,
  exec (thunk_reducer reducer) eqb trans futures manual (fun n => map inr (ext n)) fl
    (lift_task M A W t) (lift_st M A W s) =
  lift_res M A W (exec reducer eqb trans futures manual ext fl t s).
Proof. exact exec_lift. Qed.
(** With any mix: the model is the fold of the plain actions. *)
Theorem C48_model : forall M A W (reducer : M -> A -> option (M * option (prog M A W)))
  eqb trans futures manual ext m0, (forall a b, eqb a b = true -> a = b) ->
  forall s, reach (thunk_reducer reducer) eqb trans futures manual ext m0 s ->
  trans = false -> q s = [] ->
  last s = fold reducer m0 (plain M A W (actions (log s))).
Proof.
  exact (fun M A W reducer eqb trans futures manual ext m0 H =>
    thunk_get M A W reducer eqb trans futures manual ext m0 eq (@eq_refl M) (@eq_sym M) (@eq_trans M)
           H (fun a b x E => f_equal (fun m => reduce1 reducer m x) E)).
Qed.
(** A plain action's effect is the one it has without thunks. *)
Theorem C48_plain_effect : forall M A W (reducer : M -> A -> option (M * option (prog M A W)))
  eqb trans futures manual ext m0, (forall a b, eqb a b = true -> a = b) ->
  forall s, reach (thunk_reducer reducer) eqb trans futures manual ext m0 s ->
  forall id a m e, nth_error (actions (log s)) id = Some (inr a) -> In (EEff id m e) (log s) ->
  exists m1 m2 e0, m1 = fold reducer m0 (plain M A W (firstn id (actions (log s)))) /\
    reducer m1 a = Some (m2, Some e0) /\ e = lift e0.
Proof.
  exact (fun M A W reducer eqb trans futures manual ext m0 H =>
    plain_effect M A W reducer eqb trans futures manual ext m0 eq (@eq_refl M) (@eq_sym M) (@eq_trans M)
           H (fun a b x E => f_equal (fun m => reduce1 reducer m x) E)).
Qed.
(** A thunk runs exactly once. *)
Theorem C48_thunk_once : forall M A W (reducer : M -> A -> option (M * option (prog M A W)))
  eqb trans futures manual ext m0 s,
  reach (thunk_reducer reducer) eqb trans futures manual ext m0 s ->
  no_failure (log s) -> q s = [] -> forall id e,
  nth_error (actions (log s)) id = Some (inl (Some e)) ->
  (exists l1 l2, effects_run (log s) = l1 ++ id :: l2 /\ ~ In id (l1 ++ l2)) /\
  (exists m, In (EEff id m (lift e)) (log s)) /\
  (forall m e', In (EEff id m e') (log s) -> e' = lift e).
Proof. exact thunk_once. Qed.

(** ** Cases *)
Section Cases.
Definition final {M A W} (d : st M A W) (r : res M A W) : st M A W :=
  match r with Done _ s | Thrown s => s | _ => d end.
Definition halts {M A W} (r : res M A W) : bool :=
  match r with Done _ _ | Thrown _ => true | _ => false end.
Lemma final_reach : forall M A W (reducer : M -> A -> option (M * option (prog M A W))) eqb trans futures manual ext m0 s fuel p,
  reach reducer eqb trans futures manual ext m0 s ->
  halts (exec reducer eqb trans futures manual ext fuel (TProg p) s) = true ->
  reach reducer eqb trans futures manual ext m0 (final s (exec reducer eqb trans futures manual ext fuel (TProg p) s)).
Proof.
  intros M A W reducer eqb trans futures manual ext m0 s fuel p H E. eapply reach_prog with (p := p) (fuel := fuel); [exact H|].
  destruct (exec reducer eqb trans futures manual ext fuel (TProg p) s); try discriminate; [left; eauto|now right].
Qed.
Fixpoint marks {M A W} (l : list (event M A W)) : list nat :=
  match l with [] => [] | EMark n :: r => marks r ++ [n] | _ :: r => marks r end.
Fixpoint dones {M A W} (l : list (event M A W)) : list nat :=
  match l with [] => [] | EDone n :: r => dones r ++ [n] | _ :: r => dones r end.
Fixpoint fails {M A W} (l : list (event M A W)) : nat :=
  match l with [] => 0 | EFail :: r => S (fails r) | _ :: r => fails r end.
Lemma fails_0 : forall M A W (l : list (event M A W)), fails l = 0 -> no_failure l.
Proof.
  unfold no_failure. induction l as [|e l IH]; simpl; intros H H0; [contradiction|]. destruct H0 as [H0|H0].
  - subst e. discriminate.
  - destruct e; try discriminate; now apply IH.
Qed.

Notation P := (prog nat nat unit).
(** 0 throws, 1 adds one, 2 adds ten and dispatches 1 from its effect, 3 has an effect
    completed later, 4 subtracts one. *)
Definition red (m a : nat) : option (nat * option P) :=
  match a with
  | 0 => None
  | 1 => Some (S m, None)
  | 2 => Some (m + 10, Some (PMark 5 (PDispatch 1 (fun _ => PRet None))))
  | 3 => Some (m, Some (PMark 6 (PPromise (fun n => PPost (PFulfil n (PRet None)) (PRet (Some n))))))
  | _ => Some (m - 1, None)
  end.
Definition none : nat -> list nat := fun _ => [].

(** Manual loop, futures: a watcher; 2, with a chain of callbacks, the first of which
    dispatches; 3, with a callback. *)
Definition prog1 : P :=
  PWatch (fun _ => PRet None) (fun _ =>
  PDispatch 2 (fun f =>
  PThen f (PMark 7 (PDispatch 1 (fun g => PRet g))) (fun f' =>
  PThen f' (PMark 8 (PRet None)) (fun _ =>
  PDispatch 3 (fun f =>
  PThen f (PMark 9 (PRet None)) (fun f' => PRet f')))))).
Definition s1 : st nat nat unit :=
  final (init 0 tt) (exec red Nat.eqb false true true none 60 (TProg prog1) (init 0 tt)).
Lemma s1_reach : reach red Nat.eqb false true true none 0 s1.
Proof. apply (final_reach _ _ _ red Nat.eqb false true true none 0 (init 0 tt) 60 prog1); [constructor|]. vm_compute. reflexivity. Qed.
Example s1_facts :
  no_failure (log s1) /\ length (q s1) = 0 /\ actions (log s1) = [2; 1; 1; 3] /\
  reduced (log s1) = [0; 1; 2; 3] /\ last s1 = 12 /\ fold red 0 [2; 1; 1; 3] = 12 /\
  with_effect (log s1) = [0; 3] /\ effects_run (log s1) = [0; 3] /\
  seen 0 (log s1) = [10; 11; 12] /\ models (log s1) = [10; 11; 12; 12] /\ knows 0 (log s1) = Some 12 /\
  marks (log s1) = [5; 7; 8; 6; 9] /\ length (callbacks_run (log s1)) = 3.
Proof. split; [apply fails_0|]; vm_compute; repeat split. Qed.

(** The queue loop: nothing happens before step(); then two actions are coalesced. *)
Definition prog2 : P :=
  PWatch (fun _ => PRet None) (fun _ =>
  PDispatch 1 (fun _ => PDispatch 2 (fun _ => PRet None))).
Definition s2 : st nat nat unit :=
  final (init 0 tt) (exec red Nat.eqb false false false none 60 (TProg prog2) (init 0 tt)).
Definition s2' : st nat nat unit :=
  final s2 (exec red Nat.eqb false false false none 60 (TProg (PStep (PRet None))) s2).
Lemma s2'_reach : reach red Nat.eqb false false false none 0 s2'.
Proof.
  apply (final_reach _ _ _ red Nat.eqb false false false none 0 s2 60 (PStep (PRet None))); [|vm_compute; reflexivity].
  apply (final_reach _ _ _ red Nat.eqb false false false none 0 (init 0 tt) 60 prog2); [constructor|vm_compute; reflexivity].
Qed.
Example s2_facts :
  reduced (log s2) = [] /\ length (q s2) = 2 /\ seen 0 (log s2) = [] /\
  length (q s2') = 0 /\ actions (log s2') = [1; 2; 1] /\ last s2' = 12 /\
  models (log s2') = [1; 11; 12] /\ seen 0 (log s2') = [11; 12] /\ effects_run (log s2') = [1].
Proof. vm_compute. repeat split. Qed.
(** Actions of another thread, arriving while the program runs. *)
Example threads_facts :
  let e n := match n with 1 => [1] | 5 => [4; 1] | _ => [] end in
  let s := final (init 0 tt) (exec red Nat.eqb false true false e 60 (TProg (PDispatch 2 (fun f => PStep (PRet f)))) (init 0 tt)) in
  length (q s) = 0 /\ actions (log s) = [2; 1; 4; 1; 1] /\ last s = 12 /\ dones (log s) <> [] /\
  reduced (log s) = [0; 1; 2; 3; 4].
Proof. vm_compute. repeat split. discriminate. Qed.

(** A transactional store, before and after commit. *)
Definition prog3 : P :=
  PWatch (fun _ => PRet None) (fun _ => PDispatch 1 (fun _ => PDispatch 2 (fun _ => PGet (fun m => PMark m (PRet None))))).
Definition s3 : st nat nat unit :=
  final (init 0 tt) (exec red Nat.eqb true true true none 60 (TProg prog3) (init 0 tt)).
Definition s3' : st nat nat unit :=
  final s3 (exec red Nat.eqb true true true none 60 (TProg (PCommit (PRet None))) s3).
Lemma s3_reach : reach red Nat.eqb true true true none 0 s3.
Proof. apply (final_reach _ _ _ red Nat.eqb true true true none 0 (init 0 tt) 60 prog3); [constructor|vm_compute; reflexivity]. Qed.
Example s3_facts :
  last s3 = 0 /\ seen 0 (log s3) = [] /\ commits (log s3) = 0 /\ effects_run (log s3) = [1] /\
  reduced (log s3) = [0; 1; 2] /\ marks (log s3) = [5; 0] /\
  last s3' = 12 /\ seen 0 (log s3') = [12] /\ commits (log s3') = 1.
Proof. vm_compute. repeat split. Qed.

(** f.also(g) *)
Definition prog4 : P :=
  PPromise (fun f => PPromise (fun g => also (Some f) (Some g) (fun h =>
  PThen h (PMark 3 (PRet None)) (fun _ => PFulfil f (PMark 1 (PFulfil g (PMark 2 (PRet None)))))))).
Example also_facts :
  let s := final (init 0 tt) (exec red Nat.eqb false true true none 60 (TProg prog4) (init 0 tt)) in
  marks (log s) = [1; 3; 2] /\ length (callbacks_run (log s)) = 2 /\ length (q s) = 0.
Proof. vm_compute. repeat split. Qed.

(** sequence: two effects that return at once around one completed later; twice, once
    bracketed to the left and once to the right *)
Definition ea : P := PMark 1 (PPromise (fun n => PPost (PFulfil n (PRet None)) (PRet (Some n)))).
Definition eb : P := PMark 2 (PPost (PMark 9 (PRet None)) (PRet None)).
Definition ec : P := PMark 3 (PRet None).
Definition run_effect (e : option P) : list nat :=
  match e with
  | Some e => marks (log (final (init 0 tt)
      (exec red Nat.eqb false true true none 60 (TProg (PPost e (PRet None))) (init 0 tt))))
  | None => []
  end.
Example sequence_facts :
  run_effect (sequence_all (Some ec) [None; Some ea; Some ec]) = [3; 1; 3] /\
  run_effect (sequence (Some ec) (sequence (Some eb) (Some ec))) = [3; 2; 3; 9] /\
  run_effect (sequence (sequence (Some ec) (Some eb)) (Some ec)) = [3; 2; 3; 9].
Proof. vm_compute. repeat split. Qed.

(** *** What is not the case *)

(** C21: an effect is not run if a watcher called just before it throws. *)
Theorem C21_effect_lost_refuted : exists s : st nat nat unit,
  reach red Nat.eqb false false true none 0 s /\ length (q s) = 0 /\
  with_effect (log s) = [0] /\ effects_run (log s) = [].
Proof.
  set (p := PWatch (fun _ => PThrow) (fun _ => PDispatch 2 (fun _ => PRet None)) : P).
  exists (final (init 0 tt) (exec red Nat.eqb false false true none 60 (TProg p) (init 0 tt))).
  split; [apply final_reach; [constructor|vm_compute; reflexivity]|]. vm_compute. repeat split.
Qed.
(** C22: a watcher may be called with the model it was last called with: the
    actions reduced in between cancelled out. *)
Theorem C22_no_repeats_refuted : exists s : st nat nat unit,
  reach red Nat.eqb false false false none 0 s /\ length (q s) = 0 /\ fails (log s) = 0 /\
  models (log s) = [1; 2; 1] /\ seen 0 (log s) = [1; 1].
Proof.
  set (p := PWatch (fun _ => PRet None) (fun _ =>
    PDispatch 1 (fun _ => PStep (PDispatch 1 (fun _ => PDispatch 4 (fun _ => PStep (PRet None)))))) : P).
  exists (final (init 0 tt) (exec red Nat.eqb false false false none 60 (TProg p) (init 0 tt))).
  split; [apply final_reach; [constructor|vm_compute; reflexivity]|]. vm_compute. repeat split.
Qed.
(** C27: with an effect completed later, the bracketing decides whether other
    functions of the loop may run between the second and the third effect. *)
Theorem C27_bracketing_refuted : exists a b c : P,
  run_effect (sequence (sequence (Some a) (Some b)) (Some c)) <>
  run_effect (sequence (Some a) (sequence (Some b) (Some c))).
Proof. exists ea, eb, ec. vm_compute. discriminate. Qed.
(** Two empty effects in sequence are [noop], which is not empty: after an effect that is
    completed later it takes one more turn of the loop. *)
Definition ed : P := PMark 1 (PPromise (fun n => PPost (PFulfil n (PPost (PMark 9 (PRet None)) (PRet None))) (PRet (Some n)))).
Theorem C27_empty_pair_refuted : exists a b : P,
  is_empty_effect (sequence (sequence None None) None : option P) = false /\
  run_effect (sequence (sequence (Some a) (sequence None None)) (Some b)) <>
  run_effect (sequence (sequence (Some a) None) (Some b)).
Proof. exists ed, ec. split; [reflexivity|]. vm_compute. discriminate. Qed.
Example empty_pair_facts :
  run_effect (sequence (sequence (Some ed) (sequence None None)) (Some ec)) = [1; 9; 3] /\
  run_effect (sequence (sequence (Some ed) None) (Some ec)) = [1; 3; 9] /\
  run_effect (sequence noop (sequence (Some ec) noop)) = run_effect (Some ec).
Proof. vm_compute. repeat split. Qed.

(** *** Thunks *)
Notation T := (thunk nat nat unit).
Definition progt : prog nat T unit :=
  PDispatch (inl (Some (PMark 4 (PDispatch 1 (fun _ => PRet None)) : P))) (fun _ =>
  PDispatch (inr 2) (fun _ => PDispatch (inl None) (fun f => PRet f))).
Definition st' : StoreModel.st nat T unit :=
  final (init 0 tt) (exec (thunk_reducer red) Nat.eqb false true true (fun _ => []) 60 (TProg progt) (init 0 tt)).
Lemma st'_reach : reach (thunk_reducer red) Nat.eqb false true true (fun _ => []) 0 st'.
Proof.
  apply (final_reach _ _ _ (thunk_reducer red) Nat.eqb false true true (fun _ => []) 0 (init 0 tt) 60 progt);
    [constructor|vm_compute; reflexivity].
Qed.
Example thunk_facts :
  plain nat nat unit (actions (log st')) = [1; 2; 1] /\ last st' = 12 /\ effects_run (log st') = [0; 2] /\
  marks (log st') = [4; 5] /\ length (q st') = 0 /\ no_failure (log st').
Proof. repeat split; try (apply fails_0); vm_compute; reflexivity. Qed.
End Cases.

Print Assumptions C20_reduced_in_order.
Print Assumptions C20_get_is_fold.
Print Assumptions C20_get_is_fold_up_to.
Print Assumptions C20_manual_drains.
Print Assumptions C20_step_drains.
Print Assumptions C21_effect_of_action.
Print Assumptions C21_effects_in_order.
Print Assumptions C21_dispatch_order.
Print Assumptions C21_at_most_once.
Print Assumptions C21_nothing_lost.
Print Assumptions C21_exactly_once.
Print Assumptions C21_own_action_reduced.
Print Assumptions C21_model_visible.
Print Assumptions C21_watchers_told.
Print Assumptions C21_not_inside_dispatch.
Print Assumptions C22_subsequence.
Print Assumptions C22_subsequence_commit.
Print Assumptions C22_last.
Print Assumptions C23_done_after.
Print Assumptions C23_callback_after.
Print Assumptions C23_callback_at_most_once.
Print Assumptions C23_done_once.
Print Assumptions C23_done.
Print Assumptions C23_callback_runs.
Print Assumptions C24_quiet.
Print Assumptions C24_quiet_from_the_start.
Print Assumptions C24_seen_after_commit.
Print Assumptions C24_commit_publishes.
Print Assumptions C26_callback_after.
Print Assumptions C26_then_done_after.
Print Assumptions C26_chain_order.
Print Assumptions C26_then_done.
Print Assumptions C26_also.
Print Assumptions C26_also_call.
Print Assumptions C26_callback_executed.
Print Assumptions C21_effect_executed.
Print Assumptions C26_empty.
Print Assumptions C27_neutral.
Print Assumptions C27_noop_before.
Print Assumptions C27_noop_after_partial.
Print Assumptions C27_empty_pair_refuted.
Print Assumptions C27_order.
Print Assumptions C27_throw.
Print Assumptions C27_all.
Print Assumptions C27_bracketing_partial.
Print Assumptions C48_plain_programs.
Print Assumptions C48_model.
Print Assumptions C48_plain_effect.
Print Assumptions C48_thunk_once.
Print Assumptions C21_effect_lost_refuted.
Print Assumptions C22_no_repeats_refuted.
Print Assumptions C27_bracketing_refuted.
