(** C75: the counter in a terminal. *)
From Coq Require Import List Arith Bool ZArith Lia.
Import ListNotations.
From Verif Require Import TermModel TermSpec TermProofs TermRuns.
Local Open Scope Z_scope.

(** Every key that is typed is handed over once, in order, or is still to be read. *)
Theorem C75_order : forall ls s, run ls start = Next s ->
  typed_in ls = rev (handed s) ++ typed s.
Proof. exact order. Qed.
Print Assumptions C75_order.

(** Nothing is handed over after a key that quits, and the handler is set until then. *)
Theorem C75_until_quit : forall ls s, run ls start = Next s ->
  (forall k l x, handed s = k :: l -> In x l -> ~ quits x) /\
  (handler s = false <-> exists k l, handed s = k :: l /\ quits k).
Proof. exact (fun ls s E => conj (fun k l x => until_quit ls s k l x E) (off_quit ls s E)). Qed.
Print Assumptions C75_until_quit.

(** When the store has nothing left to do, the number on the screen is how often up and not
    down was typed since the last space, of the keys that were handed over. *)
Theorem C75_value : forall ls s, run ls start = Next s -> idle s ->
  counts (rev (handed s)) (last s) /\ hd_error (screen s) = Some (last s).
Proof. exact value. Qed.
Print Assumptions C75_value.

(** [counts] determines the number. *)
Theorem C75_counts : forall l v w, counts l v -> counts l w -> v = w.
Proof. exact counts_one. Qed.
Print Assumptions C75_counts.

(** A key that was typed can always be reached by the program alone.  Partial: as long as
    there is never something to read that is no key, see [C75_deaf_refuted]. *)
Theorem C75_hears_partial : forall ls s k r,
  run ls start = Next s -> ~ In Noise ls -> handler s = true -> typed s = k :: r ->
  exists ls' s', Forall own ls' /\ run ls' s = Next s' /\
                 handed s' = k :: handed s /\ typed s' = r.
Proof. exact hears. Qed.
Print Assumptions C75_hears_partial.

(** The program does not end before it is told to. *)
Theorem C75_runs_on : forall ls s,
  run ls start = Next s -> ~ In Noise ls -> handler s = true -> step s Return = Not.
Proof. exact runs_on. Qed.
Print Assumptions C75_runs_on.

(** When the program dies of an exception, a key that quits was handed over, and after it a
    key was typed or the size of the terminal changed at some time. *)
Theorem C75_fails : forall ls s, run ls start = Fails s ->
  exists k, hd_error (handed s) = Some k /\ quits k /\
    (In Winch ls \/ exists k' l, typed_in ls = rev (handed s) ++ k' :: l).
Proof. exact fails. Qed.
Print Assumptions C75_fails.

(** Quitting works.  Partial: if the key that quits is the last one that is typed, and the
    size does not change; see [C75_quits_refuted] and [C75_resize_refuted]. *)
Theorem C75_quits_partial : forall ls a q s,
  typed_in ls = a ++ [q] -> (forall x, In x a -> ~ quits x) -> ~ In Winch ls ->
  run ls start <> Fails s.
Proof. exact quits_cleanly. Qed.
Print Assumptions C75_quits_partial.

(** And then [run] can return by steps of the program alone, with the right number on the
    screen. *)
Theorem C75_returns_partial : forall ls s,
  run ls start = Next s -> ~ In Winch ls -> handler s = false -> typed s = [] ->
  finished s = false ->
  exists ls' s', Forall own ls' /\ run ls' s = Next s' /\ finished s' = true /\
    counts (typed_in ls) (last s') /\ hd_error (screen s') = Some (last s').
Proof. exact returns. Qed.
Print Assumptions C75_returns_partial.

(** And no other way: while it has not returned, some step of the program is possible, and
    each one that is brings it nearer; it can not go on for ever. *)
Theorem C75_returns_always_partial : forall ls s,
  run ls start = Next s -> ~ In Winch ls -> handler s = false -> typed s = [] ->
  exists n, forall ls' s', Forall own ls' -> run ls' s = Next s' ->
    (List.length ls' <= n)%nat /\
    (finished s' = false -> exists l s'', own l /\ step s' l = Next s'').
Proof. exact returns_always. Qed.
Print Assumptions C75_returns_always_partial.

(** ** What does not hold *)

(** Quitting and typing on: the loop of next_key_ goes on after the handler is gone. *)
Theorem C75_quits_refuted : exists ls s,
  typed_in ls = [KQ; KUp] /\ ~ In Winch ls /\ run ls start = Fails s.
Proof.
  exists [Type_ KQ; Type_ KUp; Complete; Call true; ReadKey; ReadKey]. eexists.
  split; [reflexivity|]. split; [cbn; intuition discriminate|]. vm_compute. reflexivity.
Qed.
Print Assumptions C75_quits_refuted.

(** A change of the size that is ready when the terminal is stopped is not cancelled; its
    function calls the handler that is gone. *)
Theorem C75_resize_refuted : exists ls s, typed_in ls = [KQ] /\ run ls start = Fails s.
Proof.
  exists [Type_ KQ; Complete; Winch; Call true; ReadKey; LoopEnd; Call true]. eexists.
  split; [reflexivity|]. vm_compute. reflexivity.
Qed.
Print Assumptions C75_resize_refuted.

(** Once there is something to read that is no key, the program is deaf: whatever is typed,
    it is never handed over, in no continuation, and the program does not end. *)
Theorem C75_deaf_refuted : exists ls s,
  typed_in ls = [] /\ run ls start = Next s /\ handler s = true /\
  forall ls' s', run ls' s = Next s' -> handed s' = [] /\ finished s' = false.
Proof.
  exists [Noise; Call true; LoopEnd].
  exists (St [] O 1 O [] false true 0 0 false [0] [] false).
  split; [reflexivity|]. split; [reflexivity|]. split; [reflexivity|]. exact deaf.
Qed.
Print Assumptions C75_deaf_refuted.

(** The instructions on the screen say the opposite of what the arrows do. *)
Theorem C75_instructions_refuted : exists k a, In (k, a) instructions /\
  exists ls s v, typed_in ls = [k] /\ run ls start = Next s /\ hd_error (screen s) = Some v /\
    v = 1 /\ update 0 a = -1.
Proof.
  exists KUp, Decrement. split; [left; reflexivity|].
  exists [Type_ KUp; Complete; Call true; ReadKey; LoopEnd; Call true; Call true].
  eexists _, 1. split; [reflexivity|]. split; [vm_compute; reflexivity|].
  split; [reflexivity|]. split; reflexivity.
Qed.
Print Assumptions C75_instructions_refuted.

(** ** Cases *)
Definition demo : list label :=
  [Type_ KUp; Type_ KUp; Type_ KSpace; Type_ KDown; Complete; Call true; ReadKey; ReadKey;
   Winch; ReadKey; Type_ KUp; ReadKey; ReadKey; LoopEnd; Type_ KDown; Complete;
   Call true; Call true; Call true; Call true; Call true; Call true].

Example C75_demo : exists s,
  run demo start = Next s /\ ~ In Noise demo /\ handler s = true /\
  typed s = [KDown] /\ rev (handed s) = [KUp; KUp; KSpace; KDown; KUp] /\
  ready s <> [] /\ current s = 0.
Proof.
  eexists. split; [vm_compute; reflexivity|]. split; [cbn; intuition discriminate|].
  split; [reflexivity|]. split; [reflexivity|]. split; [reflexivity|].
  split; [discriminate|reflexivity].
Qed.

Example C75_idle_demo : exists s,
  run [Type_ KUp; Type_ KDown; Type_ KDown; Complete; Call true; ReadKey; ReadKey; ReadKey;
       LoopEnd; Call true; Call true; Call true; Call true; Call true; Call true] start = Next s /\
  idle s /\ handler s = true /\ last s = -1 /\ screen s = [-1; 0].
Proof.
  eexists. split; [vm_compute; reflexivity|]. split; [split; [intros a []|intros []]|].
  split; [reflexivity|]. split; reflexivity.
Qed.

(** Quitting while actions wait: they are applied before [run] returns. *)
Example C75_quit_demo : exists s s',
  run [Type_ KUp; Type_ KUp; Type_ KEsc; Complete; Call true; ReadKey; ReadKey; ReadKey] start
    = Next s /\ handler s = false /\ typed s = [] /\ finished s = false /\ last s = 0 /\
  run (LoopEnd :: repeat (Call true) 8 ++ [Return]) s = Next s' /\
  finished s' = true /\ last s' = 2 /\ counts [KUp; KUp; KEsc] 2.
Proof.
  eexists. eexists. split; [vm_compute; reflexivity|]. split; [reflexivity|].
  split; [reflexivity|]. split; [reflexivity|]. split; [reflexivity|].
  split; [vm_compute; reflexivity|]. split; [reflexivity|]. split; [reflexivity|].
  exists [], [KUp; KUp; KEsc]. split; [reflexivity|]. split; [left; reflexivity|].
  split; [cbn; intuition discriminate|reflexivity].
Qed.
