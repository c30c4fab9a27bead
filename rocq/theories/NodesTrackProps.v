(** Properties C14 and C19: with_setter cursors, filters and transducers.

    Executions as in NodesProps.v: [run fuel w p] executes an arbitrary client
    program [p], [visible r s] says that client code observes [s] during or at
    the end of [r].  [changed] is the negation of [==], sound for equality;
    [ordN] is the unspecified order in which a node reads its parents again. *)
From Coq Require Import List Arith Bool Permutation.
From Verif Require Import NodesModel NodesSpec NodesTrackSpec NodesTrackFacts NodesProps.
Import ListNotations.

Section Props.
Context {V W : Type}.
Variable dv : V.
Variable changed : V -> V -> bool.
Hypothesis changed_sound : forall a b, changed a b = false -> a = b.
Variable ordV : graph V W -> nat -> list (nat * V) -> list (nat * V).
Variable ordN : graph V W -> nat -> list nat -> list nat.
Hypothesis ordN_perm : forall g n l, Permutation (ordN g n l) l.

Notation exec := (exec changed ordV ordN).
Notation run := (run dv changed ordV ordN).
Let ordN_in g n l x : In x (ordN g n l) -> In x l := Permutation_in x (ordN_perm g n l).

(** * C14 *)

(** The setter function is called first, with the value and in the state the
    caller sees; no other call of it comes from this [set], that is, none unless
    the setter function itself or a callback calls the API again. *)
Theorem C14_called_once : forall fuel w p0 fuel' n v s s' auto fn, visible (run fuel w p0) s ->
  kind_of (gr s) n = KSetter auto fn -> finished (exec fuel' (TCmd (CSet n v)) s) s' ->
  exists l g, log s' = l ++ ESetter n v g :: log s /\ (forall m, last g m = last (gr s) m) /\
    (exec fuel' (TCmd (CSet n v)) s = Done s' -> client_ran l = false -> asked l n = []).
Proof. exact (set_setter dv changed changed_sound ordV ordN). Qed.

(** Automatic: the cursor propagates after the setter function returned, and
    shows the value, unless something is committed by the callbacks then run. *)
Theorem C14_automatic_shows : forall fuel w p0 fuel' n v s s' fn, visible (run fuel w p0) s ->
  kind_of (gr s) n = KSetter true fn -> exec fuel' (TCmd (CSet n v)) s = Done s' ->
  exists l2 w' l1 g, log s' = l2 ++ ECommit [n] w' :: l1 ++ ESetter n v g :: log s /\
    (propagations l2 = 0 -> last (gr s') n = v).
Proof. exact (set_setter_auto dv changed changed_sound ordV ordN ordN_in). Qed.

(** Once the source showed a new value, the cursor shows the source's value, up
    to the next value it propagates of its own. *)
Theorem C14_tracks_source : forall fuel w p0 s n p auto fn, visible (run fuel w p0) s ->
  kind_of (gr s) n = KSetter auto fn -> parents (gr s) n = [p] -> alive (gr s) n = true ->
  source_newer (log s) p n = true -> last (gr s) n = last (gr s) p.
Proof. exact (setter_tracks dv changed changed_sound ordV ordN ordN_in). Qed.

(** * C19 *)

(** A filtered reader shows the last value shown by its source, since it was
    made, that satisfies the predicate, or else the value it was made with. *)
Theorem C19_last_accepted : forall fuel w p0 s n p pred, visible (run fuel w p0) s ->
  filter_node (gr s) n p pred -> alive (gr s) n = true -> not_reread (gr s) n ->
  exists v0, made_with (log s) n = Some v0 /\
    last (gr s) n = accepted pred (shown_since (log s) p n) v0.
Proof. exact (filter_shows dv changed changed_sound ordV ordN ordN_in). Qed.

(** It is made with the value of its source, or else with the default value. *)
Theorem C19_initial : forall fuel w p0 fuel' s s' p (pred : V -> bool) down up d,
  visible (run fuel w p0) s ->
  (forall x : V, down [x] = if pred x then Some x else None) ->
  exec fuel' (TCmd (CNew (KInner down up) [p] d)) s = Done s' ->
  exists v0, made_with (log s') (cnt (gr s)) = Some v0 /\ last (gr s') (cnt (gr s)) = v0 /\
    filter_node (gr s') (cnt (gr s)) p pred /\
    (if pred (cur (gr s) p) then v0 = cur (gr s) p else d = Some v0).
Proof. exact (filter_initial dv changed changed_sound ordV ordN). Qed.

(** Every node is made with what it computes from the current values of its sources; a
    transducer makes its first step, and its last output counts; where there is none,
    the default value is taken. *)
Theorem C19_made : forall fuel w p0 fuel' s s' k ps d, visible (run fuel w p0) s ->
  exec fuel' (TCmd (CNew k ps d)) s = Done s' ->
  exists v0, made_with (log s') (cnt (gr s)) = Some v0 /\ last (gr s') (cnt (gr s)) = v0 /\
    kind_of (gr s') (cnt (gr s)) = k /\ parents (gr s') (cnt (gr s)) = ps /\
    starts_as k (map (cur (gr s)) ps) (world (gr s)) d v0.
Proof. exact (new_starts dv changed changed_sound ordV ordN). Qed.

(** No other value is ever shown than accepted ones and the first. *)
Theorem C19_never_rejected : forall fuel w p0 s n p pred, visible (run fuel w p0) s ->
  filter_node (gr s) n p pred -> n < cnt (gr s) ->
  pred (last (gr s) n) = true \/ made_with (log s) n = Some (last (gr s) n).
Proof. exact (filter_never dv changed changed_sound ordV ordN ordN_in). Qed.

(** Any transducer, stateful or not: the reader shows its last output when fed
    with the values shown by the source. *)
Theorem C19_transducer : forall fuel w p0 s n p f up, visible (run fuel w p0) s ->
  kind_of (gr s) n = KXform f up -> parents (gr s) n = [p] ->
  alive (gr s) n = true -> not_reread (gr s) n ->
  exists v0, made_with (log s) n = Some v0 /\
    last (gr s) n = transduced (fun h x => f (map (fun y => [y]) h) [x])
                               (shown_since (log s) p n) v0.
Proof. exact (xform_shows dv changed changed_sound ordV ordN ordN_in). Qed.
End Props.
Print Assumptions C14_called_once.
Print Assumptions C14_automatic_shows.
Print Assumptions C14_tracks_source.
Print Assumptions C19_last_accepted.
Print Assumptions C19_initial.
Print Assumptions C19_made.
Print Assumptions C19_never_rejected.
Print Assumptions C19_transducer.

(** * Concrete cases *)

(** C14: state 0; 1 = automatic with_setter over 0, whose function writes twice
    the value to 0; a watcher on 1. *)
Definition doubler : kind nat nat := KSetter true (fun v _ => seq_of [CSet 0 (2 * v)] PRet).
Definition prgW := seq_of [CNew (KState false) [] (Some 1); CNew doubler [0] None;
  CWatch 1 (fun _ _ => PRet)] PRet.
Definition sW := st_of (nrun 30 0 prgW).
Example W_run : nrun 30 0 prgW = Done sW. Proof. runs. Qed.
Example C14_case : exists s s2, nexec 30 (TCmd (CSet 1 5)) sW = Done s /\
  nexec 30 (TCmd (CCommit [0])) s = Done s2 /\
  asked (log s) 1 = [5] /\ last (gr s) 1 = 5 /\ last (gr s) 0 = 1 /\
  source_newer (log s) 0 1 = false /\ source_newer (log s2) 0 1 = true /\
  last (gr s2) 0 = 10 /\ last (gr s2) 1 = 10 /\ alive (gr s2) 1 = true.
Proof. eexists _, _. split; [runs|]. split; [runs|]. now_vm. Qed.
(** The setter function makes no API call: nothing else can ask again. *)
Definition sW0 := st_of (nrun 30 0 (seq_of [CNew (KState false) [] (Some 1);
  CNew (KSetter true (fun _ _ => PRet)) [0] None; CWatch 1 (fun _ _ => PRet)] PRet)).
Example C14_case_quiet : exists s, nexec 30 (TCmd (CSet 1 5)) sW0 = Done s /\
  client_ran (since sW0 s) = false /\ asked (since sW0 s) 1 = [5] /\ last (gr s) 1 = 5 /\
  calls (since sW0 s) 1 0 = 1.
Proof. ends. now_vm. Qed.

(** C19: the even values of a state, with a default of 100. *)
Definition evens (up : upk nat) : kind nat nat :=
  KInner (fun l => match l with [x] => if Nat.even x then Some x else None | _ => None end) up.
Definition prgF := seq_of [CNew (KState false) [] (Some 1); CNew (evens UNone) [0] (Some 100);
  CSet 0 4; CCommit [0]; CSet 0 6; CSet 0 7; CCommit [0]; CSet 0 9; CCommit [0]] PRet.
Definition sF := st_of (nrun 30 0 prgF).
Lemma F_filter : filter_node (gr sF) 1 0 Nat.even.
Proof. eexists _, _. split; [vm_compute; reflexivity|]. split; [vm_compute; reflexivity|]. reflexivity. Qed.
Lemma F_not_reread : not_reread (gr sF) 1.
Proof. intros m _. do 2 (destruct m as [|m]; [vm_compute; tauto|]). vm_compute. tauto. Qed.
Example C19_case : nrun 30 0 prgF = Done sF /\ shown_since (log sF) 0 1 = [9; 7; 4] /\
  made_with (log sF) 1 = Some 100 /\ last (gr sF) 0 = 9 /\ last (gr sF) 1 = 4 /\
  alive (gr sF) 1 = true.
Proof. split; [runs|]. now_vm. Qed.

(** A transducer that gives two values for the first; a copy of the state written to but
    not committed; none and a default value. *)
Example C19_case_made : exists s, nrun 30 0 (seq_of [CNew (KState false) [] (Some 1); CSet 0 7;
  CNew (KXform (fun _ x => match x with [v] => [v; v + 1] | _ => [] end) UNone) [0] None;
  CNew (KSetter false (fun _ _ => PRet)) [0] None;
  CNew (KXform (fun _ _ => []) UNone) [0] (Some 9)] PRet) = Done s /\
  last (gr s) 0 = 1 /\ last (gr s) 1 = 8 /\ last (gr s) 2 = 7 /\ last (gr s) 3 = 9.
Proof. ends. now_vm. Qed.

(** A transducer with state: every second value. *)
Definition every2 : kind nat nat :=
  KXform (fun h x => match x with [v] => if Nat.even (length h) then [] else [v] | _ => [] end) UNone.
Example C19_case_transducer : exists s, nrun 30 0 (seq_of [CNew (KState true) [] (Some 1);
  CNew every2 [0] (Some 100); CSet 0 2; CSet 0 3; CSet 0 4; CSet 0 5; CSet 0 6] PRet) = Done s /\
  shown_since (log s) 0 1 = [6; 5; 4; 3; 2] /\ last (gr s) 1 = 5.
Proof. ends. now_vm. Qed.

(** Without [not_reread] C19 fails: write 4 to the state (not committed), then 5
    through a cursor zoomed from the filtered cursor, and commit.  Reading again
    before the write made the filtered cursor take 4; it shows 4 in the end,
    though the state never showed it. *)
Definition prgX := seq_of [CNew (KState false) [] (Some 2);
  CNew (evens (UWrite false (fun _ v => [[v]]))) [0] (Some 100);
  CNew (zoom (fun x => x) (fun _ v => v)) [1] None;
  CSet 0 4; CSet 2 5; CCommit [0]] PRet.
Theorem C19_uncommitted_refuted : exists p0 s, nrun 30 0 p0 = Done s /\
  filter_node (gr s) 1 0 Nat.even /\ alive (gr s) 1 = true /\
  shown_since (log s) 0 1 = [5] /\ made_with (log s) 1 = Some 2 /\ last (gr s) 1 = 4.
Proof.
  exists prgX. ends. split.
  { eexists _, _. split; [vm_compute; reflexivity|]. split; [vm_compute; reflexivity|]. reflexivity. }
  now_vm.
Qed.
Print Assumptions C19_uncommitted_refuted.
