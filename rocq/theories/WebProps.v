(** C76: the SDL loop in the browser. *)
From Coq Require Import List Arith Bool Lia.
Import ListNotations.
From Verif Require Import WebModel WebSpec WebProofs.

(** Functions are called in the order in which they were posted, each once. *)
Theorem C76_posted : forall ls s, run ls init = Next s ->
  posted (rev (log s)) = called (rev (log s)) ++ timers s /\ NoDup (posted (rev (log s))).
Proof. exact posts. Qed.
Print Assumptions C76_posted.

(** So are the events given to the handler. *)
Theorem C76_events : forall ls s, run ls init = Next s ->
  arrived (rev (log s)) = handled (rev (log s)) ++ que s /\ NoDup (arrived (rev (log s))).
Proof. exact events. Qed.
Print Assumptions C76_events.

(** Functions, the handler and the tick are never called from within each other. *)
Theorem C76_alone : forall ls s, run ls init = Next s -> alone (rev (log s)).
Proof. exact (fun ls s E => good_alone _ (i_good _ (reached _ _ E))). Qed.
Print Assumptions C76_alone.

(** Every tick is in a frame of its own, after all events that were there when it began. *)
Theorem C76_framed : forall ls s, run ls init = Next s -> framed (rev (log s)).
Proof. exact (fun ls s E => good_framed _ (i_good _ (reached _ _ E))). Qed.
Print Assumptions C76_framed.

Theorem C76_complete : forall ls s h r, run ls init = Next s -> rev (log s) = h ++ r -> complete h.
Proof. exact (fun ls s h r E => good_complete _ (i_good _ (reached _ _ E)) h r). Qed.
Print Assumptions C76_complete.

(** A frame handles what is there and comes to its end. *)
Theorem C76_frame : forall s, at_ s = Idle -> looping s = true -> there s = true ->
  exists ls s', Forall own ls /\ run (LFrame :: ls) s = Next s' /\ at_ s' = Idle /\ que s' = [] /\
    timers s' = timers s /\ handled (rev (log s')) = handled (rev (log s)) ++ que s.
Proof. exact frame. Qed.
Print Assumptions C76_frame.

(** What the tick is told is only the time since the events of its own frame were first looked
    for, not that since the last tick ([C76_paced_refuted]). *)
Theorem C76_within : forall ls s, run ls init = Next s -> within (rev (log s)).
Proof. exact (fun ls s E => good_within _ (i_good _ (reached _ _ E))). Qed.
Print Assumptions C76_within.

(** finish, pause, resume and what the handler returns have no effect at all: without them
    the same happens. *)
Theorem C76_ignored : forall ls s, run ls init = Next s ->
  exists s', run (flat_map plain ls) init = Next s' /\ log s' = log s /\ at_ s' = at_ s.
Proof. exact ignored. Qed.
Print Assumptions C76_ignored.

(** The loop is not used after it is destroyed.  Partial: if run is not told to return. *)
Theorem C76_valid_partial : forall ls, ~ In (LRun false) ls -> run ls init <> Undefined.
Proof. exact valid. Qed.
Print Assumptions C76_valid_partial.

(** ** What does not hold *)

(** 16 ms after the last tick, the next one is told that no time has passed. *)
Theorem C76_paced_refuted : exists ls s, run ls init = Next s /\ ~ paced (rev (log s)).
Proof.
  exists [LRun true; LFrame; LGo; LGo; LRet true; LTime 16; LFrame; LGo; LGo]. eexists.
  split; [vm_compute; reflexivity|]. cbn. intro P.
  assert (0 = 16 - 0) as X; [|discriminate].
  apply (P [EFrame 0] 0 0 [ETicked; EFrame 16] 16 0 []); [reflexivity|].
  intros e [<- | [<- | []]] m x; discriminate.
Qed.
Print Assumptions C76_paced_refuted.

(** After finish, handler and tick are called as before. *)
Theorem C76_finish_refuted : exists a b s s' i now dt,
  run a init = Next s /\ done s = true /\ run b s = Next s' /\
  In (EHandle i) (log s') /\ ~ In (EHandle i) (log s) /\ log s' = ETick now dt :: tl (log s').
Proof.
  exists [LPost; LRun true; LTimer; LFinish; LRet true], [LArrive; LFrame; LGo; LRet true; LGo; LGo].
  eexists _, _, 1, 0, 0. split; [vm_compute; reflexivity|]. split; [reflexivity|].
  split; [vm_compute; reflexivity|]. split; [cbn; tauto|]. split; [|reflexivity].
  cbn. intuition discriminate.
Qed.
Print Assumptions C76_finish_refuted.

(** So are they while the loop is paused. *)
Theorem C76_pause_refuted : exists a b s s' i now dt,
  run a init = Next s /\ paused s = true /\ run b s = Next s' /\ paused s' = true /\
  In (EHandle i) (log s') /\ ~ In (EHandle i) (log s) /\ log s' = ETick now dt :: tl (log s').
Proof.
  exists [LPost; LRun true; LTimer; LPause; LRet true], [LArrive; LFrame; LGo; LRet true; LGo; LGo].
  eexists _, _, 1, 0, 0. split; [vm_compute; reflexivity|]. split; [reflexivity|].
  split; [vm_compute; reflexivity|]. split; [reflexivity|]. split; [cbn; tauto|].
  split; [|reflexivity]. cbn. intuition discriminate.
Qed.
Print Assumptions C76_pause_refuted.

(** And when the handler has returned false. *)
Theorem C76_quit_refuted : exists a b s s' i now dt,
  run (a ++ [LRet false]) init = Next s /\ run b s = Next s' /\
  (exists j l, log s = EHandled j :: l) /\
  In (EHandle i) (log s') /\ ~ In (EHandle i) (log s) /\ log s' = ETick now dt :: tl (log s').
Proof.
  exists [LRun true; LArrive; LFrame; LGo], [LArrive; LGo; LRet true; LGo; LGo].
  eexists _, _, 1, 0, 0. split; [vm_compute; reflexivity|]. split; [vm_compute; reflexivity|].
  split; [eexists _, _; reflexivity|]. split; [cbn; tauto|]. split; [|reflexivity].
  cbn. intuition discriminate.
Qed.
Print Assumptions C76_quit_refuted.

(** If run returns, a loop that is a variable of main is used after main has returned. *)
Theorem C76_valid_refuted : exists ls, run ls init = Undefined.
Proof. exists [LRun false; LLeave true; LFrame]. reflexivity. Qed.
Print Assumptions C76_valid_refuted.

(** ** A case: functions posted by main, by a function and by the handler; events that arrive
    during a frame; time that passes. *)
Definition demo : list label :=
  [LPost; LPost; LRun true; LArrive; LTimer; LPost; LTime 3; LRet true; LFrame; LGo; LTime 5; LArrive;
   LPost; LRet false; LGo; LRet true; LGo; LTime 1; LGo; LFinish; LRet true; LTimer].
Example C76_demo : exists s, run demo init = Next s /\ ~ In (LRun false) demo /\
  rev (log s) = [EPost 0; EPost 1; EArrive 2; ECall 0; EPost 3; EEnd 0; EFrame 3; EHandle 2;
                 EArrive 4; EPost 5; EHandled 2; EHandle 4; EHandled 4; ETick 9 6; ETicked; ECall 1] /\
  timers s = [3; 5] /\ que s = [] /\ at_ s = Fn 1.
Proof.
  eexists. split; [vm_compute; reflexivity|]. split; [cbn; intuition discriminate|].
  split; [reflexivity|]. split; [reflexivity|]. split; reflexivity.
Qed.
Example C76_frame_demo : exists s, run [LRun true; LArrive; LArrive] init = Next s /\
  at_ s = Idle /\ looping s = true /\ there s = true /\ que s = [0; 1].
Proof. eexists. split; [vm_compute; reflexivity|]. split; [|split; [|split]]; reflexivity. Qed.
