(** Properties C53, C54: the SDL event loop and its frame pacing. *)
From Coq Require Import List Arith Bool ZArith QArith Lia.
From Verif Require Import SdlModel SdlSpec SdlProofs SdlFps SdlStop SdlModes.
Import ListNotations.
Local Open Scope nat_scope.

(** * C53 *)

(** Functions and events leave the SDL queue in the order in which they entered
    it, none twice, none lost; everything taken is dealt with at once and in that
    order, except that an event may be just about to be passed to the handler. *)
Theorem C53_order : forall ls s, acts ls init = Some s ->
  NoDup (entered (log s)) /\
  entered (log s) = taken (log s) ++ que s /\
  exists p, dealt (log s) ++ p = taken (log s) /\
    (p = [] \/ exists id f r, p = [Ev id] /\ stack s = f :: r /\ (f = Got id \/ f = HandCall id)).
Proof. exact order. Qed.
Print Assumptions C53_order.

(** The function objects: deleted at most once, after the call; while it is called
    it exists; what is left allocated is in the queue, running, was refused by SDL
    or has thrown in run(handler). *)
Theorem C53_memory : forall ls s, acts ls init = Some s ->
  NoDup (heap s) /\ NoDup (freed (log s)) /\
  (forall id, In id (freed (log s)) -> ~ In id (heap s) /\ In (ERun id) (log s)) /\
  (forall id, In id (heap s) <->
     In (Fn id) (que s) \/ (exists f, In f (stack s) /\ runs f id) \/
     In (ERefuse id) (log s) \/ In id (threw_plain init ls)).
Proof. exact memory_run. Qed.
Print Assumptions C53_memory.

(** Events are dropped only because of a pause. *)
Theorem C53_dropped_only_paused :
  (forall l s s' id, act l s = Some s' -> In (ESwallow id) (log s') ->
     In (ESwallow id) (log s) \/ paused s = true) /\
  (forall ls s, acts ls init = Some s -> ~ In LPause ls -> forall id, ~ In (ESwallow id) (log s)).
Proof. exact (conj swallow_paused never_paused). Qed.
Print Assumptions C53_dropped_only_paused.

(** After finish(), run(handler) takes one more entry at most, whatever the
    functions and other threads do; run(handler, tick) calls tick once more at most. *)
Theorem C53_finish_plain : forall ls1 s1 ls2 s2,
  acts ls1 init = Some s1 -> done s1 = true ->
  Forall (fun f => plain f = true) (stack s1) -> ~ In (LRun Ticking) ls2 -> acts ls2 s1 = Some s2 ->
  length (taken (log s2)) <= S (length (taken (log s1))).
Proof. exact finish_plain. Qed.
Print Assumptions C53_finish_plain.

Theorem C53_finish_ticks : forall s1 ls s2, done s1 = true -> acts ls s1 = Some s2 ->
  ticked (log s2) <= ticked (log s1) + length (stack s1).
Proof. exact finish_ticks. Qed.
Print Assumptions C53_finish_ticks.

(** After finish(), unless paused: the loop is never stuck except in client code or
    waiting for an event, and after finitely many steps of its own (in terms of what
    is in the queue and what is put there meanwhile) the innermost run has returned. *)
Theorem C53_finish_returns :
  (forall s f r, stack s = f :: r ->
     in_body f = true \/ ((f = WaitP \/ f = WaitT) /\ que s = []) \/ exists s', act LGo s = Some s') /\
  (forall ls s s' f r, Forall calm ls -> done s = true -> paused s = false -> stack s = f :: r ->
     acts ls s = Some s' -> 10 + 5 * (length (que s) + pushes ls) <= owns ls ->
     exists ls1 ls2 s1, ls = ls1 ++ ls2 /\ acts ls1 s = Some s1 /\ stack s1 = r).
Proof. exact (conj progress finish_returns). Qed.
Print Assumptions C53_finish_returns.

(** run goes on until its own handler or tick returns false, finish() is called or an
    exception is thrown - whatever nested runs and functions return. *)
Theorem C53_goes_on : forall m s0 s ls s', act (LRun m) s0 = Some s -> acts ls s = Some s' ->
  told (length (stack s0)) s ls = false -> ~ In LThrow ls -> done s' = false ->
  exists g f, stack s' = g ++ f :: stack s0.
Proof. exact run_goes_on. Qed.
Print Assumptions C53_goes_on.
(** When its handler or tick has returned false it returns without taking, calling or
    ticking anything more. *)
Theorem C53_stops : forall s0 f r s ls s', stack s0 = f :: r -> asked f = true ->
  act (LRet false) s0 = Some s -> acts ls s = Some s' -> 3 <= goes ls ->
  exists ls1 ls2 s1, ls = ls1 ++ ls2 /\ acts ls1 s = Some s1 /\ stack s1 = r /\
    taken (log s1) = taken (log s) /\ dealt (log s1) = dealt (log s) /\ ticked (log s1) = ticked (log s).
Proof. exact stops. Qed.
Print Assumptions C53_stops.

(** Unless paused, tick is called only after all that was in the queue was taken. *)
Theorem C53_tick_empty : forall ls0 s ls s', acts ls0 init = Some s -> paused s = false ->
  match stack s with [] => True | f :: _ => in_body f = true end ->
  ~ In LPause ls -> acts ls s = Some s' -> ticked (log s') > ticked (log s) ->
  exists ls1 ls2 s1, ls = ls1 ++ ls2 /\ acts ls1 s = Some s1 /\ que s1 = [].
Proof. exact tick_empty. Qed.
Print Assumptions C53_tick_empty.

(** If in run(handler, tick) the handler or a function is running it does not return before
    tick is called, finish() or not; so (C53_tick_empty) what is in the queue is dealt with. *)
Theorem C53_drains : forall s f r ls s', stack s = f :: r ->
  (exists id, f = BodyT id \/ f = HandT id) -> paused s = false -> ~ In LPause ls -> ~ In LThrow ls ->
  told (length r) s ls = false -> acts ls s = Some s' -> length (stack s') <= length r ->
  ticked (log s') > ticked (log s).
Proof. exact drains. Qed.
Print Assumptions C53_drains.
(** Functions, handlers and ticks can return and throw; an exception leaves their run.  A
    call of run(handler) stays one, and one of run(handler, tick) too. *)
Theorem C53_client : forall s f r, stack s = f :: r -> in_body f = true ->
  (forall b, exists s', act (LRet b) s = Some s' /\ que s' = que s /\ exists f', stack s' = f' :: r) /\
  exists s', act LThrow s = Some s' /\ que s' = que s /\ stack s' = r.
Proof. exact client. Qed.
Print Assumptions C53_client.
Theorem C53_mode : forall m s0 s ls s', act (LRun m) s0 = Some s -> acts ls s = Some s' ->
  (forall ls1 ls2 s1, ls = ls1 ++ ls2 -> acts ls1 s = Some s1 -> length (stack s1) > length (stack s0)) ->
  exists g f, stack s' = g ++ f :: stack s0 /\ plain f = match m with Plain => true | Ticking => false end.
Proof. exact run_mode. Qed.
Print Assumptions C53_mode.

(** While paused neither handler nor tick is called by run(handler, tick); a call
    for which paused_ was read before the pause may still begin. *)
Theorem C53_pause_silent : forall ls0 s ls s', acts ls0 init = Some s -> paused s = true ->
  ~ In LResume ls -> acts ls s = Some s' ->
  called (log s') <= called (log s) +
    match stack s with HandCall _ :: _ | TickCall :: _ => 1 | _ => 0 end.
Proof. exact pause_silent. Qed.
Print Assumptions C53_pause_silent.

(** ** What does not hold *)

(** A paused run(handler, tick) does not return, however often finish() is called
    and whatever is posted. *)
Theorem C53_paused_goes_on : forall ls0 s ls s' f r, acts ls0 init = Some s ->
  paused s = true -> stack s = f :: r -> looping f = true ->
  Forall undisturbed ls -> acts ls s = Some s' ->
  exists g f', stack s' = g ++ f' :: r /\ looping f' = true.
Proof. exact paused_goes_on. Qed.
Print Assumptions C53_paused_goes_on.
Theorem C53_finish_paused_refuted : exists ls s, acts ls init = Some s /\ done s = true /\
  length (stack s) = 1 /\
  forall ls' s', Forall undisturbed ls' -> acts ls' s = Some s' -> stack s' <> [].
Proof. exact finish_paused. Qed.
Print Assumptions C53_finish_paused_refuted.

(** finish() from another thread does not wake a waiting loop. *)
Theorem C53_finish_wakes_refuted : exists ls s, acts ls init = Some s /\
  done s = true /\ paused s = false /\ stack s = [WaitP] /\ act LGo s = None.
Proof. exists [LRun Plain; LGo; LFinish]. eexists. repeat split. Qed.
Print Assumptions C53_finish_wakes_refuted.

(** resume() from another thread does not either: no tick is called until an event comes. *)
Theorem C53_resume_wakes_refuted : exists ls s, acts ls init = Some s /\
  done s = false /\ paused s = false /\ stack s = [WaitT] /\ act LGo s = None.
Proof. exists [LPause; LRun Ticking; LGo; LGo; LGo; LResume]. eexists. repeat split. Qed.
Print Assumptions C53_resume_wakes_refuted.

(** run(handler) calls its handler although paused. *)
Theorem C53_pause_plain_refuted : exists ls s ls' s', acts ls init = Some s /\ paused s = true /\
  stack s = [WaitP] /\ ~ In LResume ls' /\ acts ls' s = Some s' /\ In (EHandle Plain 0) (log s').
Proof.
  exists [LRun Plain; LPause; LGo]. eexists. exists [LArrive; LGo]. eexists.
  repeat split; simpl; auto. intros [A|[A|[]]]; discriminate.
Qed.
Print Assumptions C53_pause_plain_refuted.

(** A function that throws out of run(handler) is never deleted. *)
Theorem C53_leak_refuted : exists ls s, acts ls init = Some s /\ ~ In LRefuse ls /\
  que s = [] /\ stack s = [] /\ heap s <> [].
Proof.
  exists [LPost; LRun Plain; LGo; LGo; LThrow]. eexists. repeat split; simpl; [|discriminate].
  intros A. repeat destruct A as [A|A]; try discriminate; auto.
Qed.
Print Assumptions C53_leak_refuted.

(** ** Concrete cases *)

(** Two functions and an event; the second function is posted by the first one,
    which also pauses; the event is dropped; later a function resumes and finishes,
    meanwhile another event arrives, which is handled; one tick, then run returns. *)
Definition ex_run : list label :=
  [LPost; LArrive; LRun Ticking; LGo; LGo; LGo; LPost; LPause; LRet true;
   LGo; LGo; LGo; LGo; LGo; LGo; LGo; LResume; LFinish; LArrive; LRet true;
   LGo; LGo; LGo; LGo; LRet true; LGo; LGo; LGo; LGo; LGo; LRet true; LGo].
Definition ex_view (s : st) :=
  (stack s, que s, heap s, dealt (log s), freed (log s), ticked (log s),
   filter (fun e => match e with ESwallow _ | EHandle _ _ | EReturn _ => true | _ => false end) (log s)).
Example C53_ex : option_map ex_view (acts ex_run init) =
  Some ([], [], [], [Fn 0; Ev 1; Fn 2; Ev 3], [2; 0], 1, [EReturn Ticking; EHandle Ticking 3; ESwallow 1]).
Proof. reflexivity. Qed.
(** The hypotheses of the theorems on finish() (one loop is run in a function of
    another one) ... *)
Definition ex_fin : list label :=
  [LPost; LRun Ticking; LGo; LGo; LGo; LRun Ticking; LGo; LFinish].
Definition ex_rest : list label :=
  [LGo; LGo; LGo; LGo; LGo; LRet true; LGo; LRet true; LGo; LGo; LGo; LGo; LGo; LRet true; LGo].
Definition from (o : option st) : st := match o with Some s => s | None => init end.
Example C53_ex_finish : let s := from (acts ex_fin init) in
  done s = true /\ paused s = false /\ stack s = [Inner true; BodyT 0] /\
  option_map stack (acts (firstn 7 ex_rest) s) = Some [BodyT 0] /\
  option_map stack (acts ex_rest s) = Some [] /\ Forall calm ex_rest /\
  (length (que s), pushes ex_rest, owns ex_rest) = (0, 0, 15).
Proof.
  cbv zeta. do 5 (split; [vm_compute; reflexivity|]).
  split; [repeat constructor|vm_compute; reflexivity].
Qed.
Example C53_ex_plain : let s := from (acts [LPost; LPost; LRun Plain; LGo; LFinish] init) in
  done s = true /\ stack s = [WaitP] /\
  option_map (fun s' => (taken (log s'), que s', stack s'))
    (acts [LGo; LRun Plain; LGo; LRet true; LGo] s) = Some ([Fn 0], [Fn 1], []).
Proof. cbv zeta. split; [vm_compute; reflexivity|]. split; vm_compute; reflexivity. Qed.
(** A run whose function runs another loop, the handler of which says stop: the inner
    one returns, the outer one goes on. *)
Definition ex_nested : list label :=
  [LPost; LGo; LGo; LGo; LRun Ticking; LArrive; LGo; LGo; LGo; LGo; LGo; LRet false].
Example C53_ex_stop : let s := from (act (LRun Ticking) init) in
  let s1 := from (acts ex_nested s) in
  let s2 := from (acts [LGo; LArrive; LGo; LGo; LRet true; LGo; LGo; LGo; LGo; LRet true; LGo] s1) in
  told 0 s ex_nested = false /\ told 1 s ex_nested = true /\ ~ In LThrow ex_nested /\
  stack s1 = [Inner false; BodyT 0] /\ option_map stack (acts [LGo; LArrive; LGo; LGo] s1) = Some [BodyT 0] /\
  stack s2 = [Poll] /\ done s2 = false.
Proof.
  cbv zeta. split; [vm_compute; reflexivity|]. split; [vm_compute; reflexivity|].
  split; [intros A; repeat destruct A as [A|A]; try discriminate; exact A|].
  repeat split; vm_compute; reflexivity.
Qed.
Example C53_ex_tick : let s := from (acts [LPost; LPost; LRun Ticking; LGo; LGo; LGo] init) in
  let ls := [LRet true; LGo; LGo; LRet true; LGo; LGo; LGo; LGo; LGo] in
  paused s = false /\ stack s = [BodyT 0] /\ que s = [Fn 1] /\ ~ In LPause ls /\
  option_map (fun s' => (stack s', ticked (log s'))) (acts ls s) = Some ([Tick], 1).
Proof.
  cbv zeta. do 3 (split; [vm_compute; reflexivity|]). split; [|vm_compute; reflexivity].
  intros A. repeat destruct A as [A|A]; try discriminate; exact A.
Qed.
(** The handler calls finish() while a function is in the queue: it is called, then tick. *)
Example C53_ex_drains : let s := from (acts [LArrive; LRun Ticking; LGo; LGo; LGo; LGo; LGo; LPost] init) in
  let ls := [LFinish; LRet true; LGo; LGo; LRet true; LGo; LGo; LGo; LGo; LGo; LRet true; LGo] in
  stack s = [HandT 0] /\ paused s = false /\ ~ In LPause ls /\ ~ In LThrow ls /\ told 0 s ls = false /\
  option_map (fun s' => (stack s', ticked (log s'), dealt (log s'))) (acts ls s) = Some ([], 1, [Ev 0; Fn 1]).
Proof.
  cbv zeta. do 2 (split; [vm_compute; reflexivity|]).
  do 2 (split; [intros A; repeat destruct A as [A|A]; try discriminate; exact A|]).
  split; vm_compute; reflexivity.
Qed.
(** A function that throws in run(handler) and one that does in run(handler, tick) *)
Example C53_ex_memory :
  let ls := [LPost; LPost; LRun Plain; LGo; LGo; LThrow; LRun Ticking; LGo; LGo; LGo; LThrow] in
  threw_plain init ls = [0] /\ option_map heap (acts ls init) = Some [0] /\
  option_map (fun s => freed (log s)) (acts ls init) = Some [1].
Proof. repeat split. Qed.
(** ... and on pauses. *)
Example C53_ex_pause : let s := from (acts (firstn 8 ex_run) init) in
  let ls := [LRet true; LFinish; LGo; LGo; LGo; LGo] in
  paused s = true /\ stack s = [BodyT 0] /\ Forall undisturbed ls /\ ~ In LResume ls /\
  option_map (fun s' => (stack s', called (log s'))) (acts ls s) = Some ([Inner true], 0).
Proof.
  cbv zeta. split; [vm_compute; reflexivity|]. split; [vm_compute; reflexivity|]. split; [repeat constructor|].
  split; [|vm_compute; reflexivity]. simpl. intros A. repeat destruct A as [A|A]; try discriminate A; exact A.
Qed.

(** * C54: frame pacing *)
Local Open Scope Z_scope.

(** As long as the time in milliseconds fits into an int (24.8 days): between the
    ends of two calls there is the time of the frames between them, up to one
    millisecond; so no window of time contains more frames than the rate allows
    (and one more at its border). *)
Theorem C54_rate : forall rate min_rate start cs i j ci cj, 0 <= start ->
  calls start (fps_new rate min_rate (start mod two32)) cs ->
  Forall (fun c => c_end c < two31) cs ->
  nth_error cs i = Some ci -> nth_error cs j = Some cj -> (i < j)%nat ->
  ((1000 # rate) * inject_Z (Z.of_nat (j - i - 1)) - 1 < inject_Z (c_end cj - c_end ci))%Q.
Proof. exact rate_bound. Qed.
Print Assumptions C54_rate.

(** It never sleeps longer than one frame (and a millisecond). *)
Theorem C54_delay : forall rate min_rate start cs c d, 0 <= start ->
  calls start (fps_new rate min_rate (start mod two32)) cs ->
  Forall (fun c => c_end c < two31) cs ->
  In c cs -> c_delay c = Some d -> 0 <= d /\ (inject_Z d < (1000 # rate) + 1)%Q.
Proof. exact delay_bound. Qed.
Print Assumptions C54_delay.

(** The value passed to tick is the time since the last frame began, cut off at
    the longest simulated frame; also across the wrap-around of the clock. *)
Theorem C54_delta : forall rate min_rate start cs,
  calls start (fps_new rate min_rate (start mod two32)) cs -> deltas (1000 # min_rate) start cs.
Proof. exact dt_new. Qed.
Print Assumptions C54_delta.

(** Later than that the rate is not kept: the time read does not fit into last_ticks_. *)
Definition late : Z := two31 + 1000.
Definition now_call : call := Call late late late None 0%Q.
Theorem C54_rate_refuted : exists start cs i j ci cj, 0 <= start /\
  calls start (fps_new 120 15 (start mod two32)) cs /\
  nth_error cs i = Some ci /\ nth_error cs j = Some cj /\ (i < j)%nat /\
  ~ ((1000 # 120) * inject_Z (Z.of_nat (j - i - 1)) - 1 < inject_Z (c_end cj - c_end ci))%Q.
Proof.
  exists late, [now_call; now_call; now_call], 0%nat, 2%nat, now_call, now_call.
  split; [discriminate|]. split; [vm_compute; repeat split; discriminate|].
  repeat split; auto. discriminate.
Qed.
Print Assumptions C54_rate_refuted.

(** 50 frames per second; the first call only takes the time, then the calls wait;
    after a long frame the pacing starts anew; its length is cut off. *)
Definition ex_calls : list call :=
  [Call 5000 5000 5000 None 0; Call 5003 5003 5020 (Some 17%Z) 3; Call 5021 5021 5040 (Some 19%Z) 18;
   Call 5100 5101 5101 None (1000 # 15); Call 5110 5110 5121 (Some 11%Z) 10]%Q.
Example C54_ex : calls 5000 (fps_new 50 15 (5000 mod two32)) ex_calls /\
  Forall (fun c => c_end c < two31) ex_calls.
Proof. split; [vm_compute; repeat split; discriminate|repeat constructor]. Qed.
