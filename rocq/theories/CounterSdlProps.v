(** Property C81: the example program "counter" in an SDL window. *)
From Coq Require Import List Bool ZArith Sorted.
From Verif Require Import CounterModel CounterSdlModel CounterSdlSpec CounterSdlProofs.
Import ListNotations.

(** The counter is what a first part of the reported keys counts to. *)
Theorem C81_value : forall s, reach s -> exists n, value s = counts 0 (firstn n (reported (log s))).
Proof. exact value_counts. Qed.
Print Assumptions C81_value.
(** So is each number that is drawn, and no drawn number is older than one drawn before. *)
Theorem C81_drawn : forall s, reach s -> exists ns, StronglySorted le ns /\
  drawn (log s) = map (fun n => counts 0 (firstn n (reported (log s)))) ns.
Proof. exact drawn_counts. Qed.
Print Assumptions C81_drawn.
(** After the first time, the number is drawn only if a key changed it since it was last drawn. *)
Theorem C81_changed : forall s l1 v l2, reach s -> log s = l1 ++ EDraw v :: l2 -> l2 <> [] ->
  exists l3 a l4, l2 = l3 ++ EApply a :: l4 /\ (forall w, ~ In (EDraw w) l3) /\
    counts 0 (firstn (S (made l4)) (reported (log s))) <> counts 0 (firstn (made l4) (reported (log s))).
Proof. exact draw_changed. Qed.
Print Assumptions C81_changed.
(** Nothing is left in the queue: all reported keys are counted, and the window shows it. *)
Theorem C81_settled : forall s, reach s -> queue s = [] ->
  value s = counts 0 (reported (log s)) /\ exists d, drawn (log s) = d ++ [value s].
Proof. exact settled. Qed.
Print Assumptions C81_settled.
(** If SDL reports nothing more, the queue becomes empty or the program ends. *)
Theorem C81_runs : forall s, exists k s', steps (repeat LTake k) s = Some s' /\ (queue s' = [] \/ over s' = true).
Proof. exact catches_up. Qed.
Print Assumptions C81_runs.
(** It ends if the window was closed. *)
Theorem C81_ends : forall s, reach s -> In (EReport Quit) (log s) ->
  exists k s', steps (repeat LTake k) s = Some s' /\ over s' = true.
Proof. exact quit_ends. Qed.
Print Assumptions C81_ends.
(** It ends only then, and the keys counted are those that were handled before the window
    was first reported to be closed. *)
Theorem C81_quit : forall s, reach s -> over s = true -> exists l1 l2,
  log s = l1 ++ EReport Quit :: l2 /\ ~ In (EReport Quit) l2 /\
  value s = counts 0 (firstn (handled l2) (reported (log s))).
Proof. exact quit_exact. Qed.
Print Assumptions C81_quit.
(** A key that was reported before that need not be counted. *)
Theorem C81_quit_refuted : exists s, reach s /\ over s = true /\ reported (log s) <> [] /\ value s <> counts 0 (reported (log s)).
Proof. exact quit_drops. Qed.
Print Assumptions C81_quit_refuted.

(** Three keys, one after the others are counted; the window is closed while the last one waits. *)
Example C81_demo :
  option_map (fun s => (over s, value s, drawn (log s), log s))
    (steps [LReport (Down KUp); LReport (Down KUp); LTake; LTake; LTake; LTake; LTake; LTake;
            LReport (Down KDown); LReport Quit; LTake; LTake] init) =
  Some (true, 2%Z, [0; 2]%Z,
    [EDispatch Decrement] ++ EReport Quit ::
    [EReport (Down KDown); EDraw 2; EApply Increment; EApply Increment; EDispatch Increment; EDispatch Increment;
     EReport (Down KUp); EReport (Down KUp); EDraw 0]).
Proof. vm_compute. reflexivity. Qed.
Example C81_demo_settled :
  option_map (fun s => (queue s, value s, drawn (log s)))
    (steps [LReport (Down KUp); LReport (Down KSpace); LReport (Down KOther);
            LTake; LTake; LTake; LTake; LTake; LTake; LTake] init) =
  Some ([], 0%Z, [0; 0]%Z).
Proof. vm_compute. reflexivity. Qed.
