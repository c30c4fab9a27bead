(** Property C82: the window of the example program "snake". *)
From Coq Require Import List ZArith Bool.
From Verif Require Import SnakeModel SnakeSpec SnakeQmlModel SnakeQmlSpec SnakeQmlProofs.
Import ListNotations.

(** The game is where a first part of all that was asked leads, in order; if Qt's queue is empty, all. *)
Theorem C82_order : forall rnd ls s, steps rnd ls (init rnd) = Some s ->
  exists l1 l2, asked ls = l1 ++ l2 /\ after rnd l1 = Some (model s) /\ (queue s = [] -> l2 = []).
Proof. exact in_order. Qed.
Print Assumptions C82_order.
(** While the dialog is open the game is over, and its timer does not run. *)
Theorem C82_dialog : forall rnd ls s, steps rnd ls (init rnd) = Some s -> dialog s = true ->
  running s = false /\ over (the (model s)) = true.
Proof. exact dialog_over. Qed.
Print Assumptions C82_dialog.
(** If nothing happens outside, Qt's queue becomes empty: no step is undefined. *)
Theorem C82_runs : forall rnd ls s, steps rnd ls (init rnd) = Some s ->
  exists k s', steps rnd (repeat LTake k) s = Some s' /\ queue s' = [].
Proof. exact runs. Qed.
Print Assumptions C82_runs.
(** Then the window shows the game, and the timer runs or the dialog is open, unless that was
    dismissed once. *)
Theorem C82_settled : forall rnd ls s, steps rnd ls (init rnd) = Some s -> queue s = [] ->
  shown s = View (body (the (model s))) (apple (the (model s))) (over (the (model s))) /\
  (running s = true \/ dialog s = true \/ In LReject ls).
Proof. exact settled. Qed.
Print Assumptions C82_settled.
(** Accepting the dialog starts a new game, whatever is in the queue. *)
Theorem C82_restart : forall rnd ls s, steps rnd ls (init rnd) = Some s -> dialog s = true ->
  exists k s', steps rnd (LAccept :: repeat LTake k) s = Some s' /\ queue s' = [] /\
    running s' = true /\ dialog s' = false /\ v_body (shown s') = [(12, 12); (11, 12); (10, 12)]%Z.
Proof. exact restarts. Qed.
Print Assumptions C82_restart.
(** Dismissing it ends the game for good. *)
Theorem C82_dismissed : forall rnd ls s s1, steps rnd ls (init rnd) = Some s -> step rnd LReject s = Some s1 ->
  forall ls2 s2, steps rnd ls2 s1 = Some s2 ->
  v_over (shown s2) = true /\ over (the (model s2)) = true /\
  step rnd LTimer s2 = None /\ step rnd LAccept s2 = None.
Proof. exact dismissed. Qed.
Print Assumptions C82_dismissed.
(** The time between two ticks: from 100 down to 10, which is reached with 48 cells. *)
Theorem C82_interval : forall n, (3 <= n -> 10 <= interval n <= 100 /\ (interval n = 10 <-> 48 <= n) /\ interval (n + 1) <= interval n)%Z.
Proof. exact intervals. Qed.
Print Assumptions C82_interval.

(** The snake runs into the wall; a turn and a tick are still in the queue. *)
Definition far (_ : nat) : Z := 0%Z.
Definition to_the_wall : list label := concat (repeat [LTimer; LTake; LTake] 12) ++ [LTimer; LTimer; LKey KUp; LTake; LTake; LTake; LTake].
Example C82_demo : option_map (fun s => (queue s, dialog s, running s, over (the (model s)), hd_error (v_body (shown s))))
    (steps far to_the_wall (init far)) = Some ([Notify; Notify], true, false, true, Some (24, 12)%Z).
Proof. vm_compute. reflexivity. Qed.
Example C82_demo_order : asked [LTimer; LKey KLeft; LTake; LKey KOther; LKey KDown; LAccept; LTimer] = [Tick; GoLeft; GoDown; Reset_; Tick].
Proof. reflexivity. Qed.
Example C82_demo_again : option_map (fun s => (queue s, dialog s, running s, v_body (shown s)))
    (steps far (to_the_wall ++ [LAccept] ++ repeat LTake 4) (init far)) = Some ([], false, true, [(12, 12); (11, 12); (10, 12)]%Z).
Proof. vm_compute. reflexivity. Qed.
(** So it is false that the game can always go on. *)
Theorem C82_settled_refuted : exists rnd ls s, steps rnd ls (init rnd) = Some s /\ queue s = [] /\ running s = false /\ dialog s = false.
Proof.
  exists far, (to_the_wall ++ [LReject; LTake; LTake]). destruct (steps far (to_the_wall ++ [LReject; LTake; LTake]) (init far)) as [s|] eqn:E.
  - exists s. split; [reflexivity|]. vm_compute in E. injection E as <-. repeat split.
  - vm_compute in E. discriminate E.
Qed.
Print Assumptions C82_settled_refuted.
Example C82_demo_interval : map interval [3; 7; 8; 47; 48; 200]%Z = [100; 100; 90; 20; 10; 10]%Z.
Proof. vm_compute. reflexivity. Qed.
