(** Properties C55 and C56: the QML event loop. *)
From Coq Require Import List Arith Bool.
From Verif Require Import LoopModel LoopSpec QmlModel QmlSpec QmlProofs.
Import ListNotations.

(** A history run with the same fuel for every action. *)
Fixpoint acts (c : bool) (code : nat -> prog nat nat) (l : list (action nat nat))
    (s : qst nat nat) : option (qst nat nat) :=
  match l with
  | [] => Some s
  | a :: l => match act code c 20 a s with QDone s' => acts c code l s' | _ => None end
  end.
Lemma acts_reach : forall c code w l s s', reach code c w s -> acts c code l s = Some s' ->
  reach code c w s'.
Proof.
  induction l as [|a l IH]; simpl; intros s s' H E; [congruence|].
  destruct (act code c 20 a s) as [s1| | |] eqn:EA; try discriminate.
  apply (IH s1); auto. exact (l_act _ _ _ _ _ _ s a 20 s1 H I EA).
Qed.
(** 0: nothing; 1: posts 0; 2: throws. *)
Definition fns (j : nat) : prog nat nat :=
  match j with 0 => PRet | 1 => PPost 0 PRet | _ => PThrow end.
Lemma fns_no_step : forall j, no_step (fns j).
Proof. intros [|[|j]]; repeat constructor. Qed.

(** * C55: everything posted runs once, in order

    Whatever Qt, the other threads and the functions do: no function is called
    twice; the functions started so far are the first ones that entered the queue, in
    that order; the others are in the queue; none runs inside another one. *)
Theorem C55_order : forall (J W : Type) (code : J -> prog J W) contents,
  (forall j, no_step (code j)) -> forall w s, reach code contents w s ->
  (forall fuel a, act code contents fuel a s <> QMoved) /\
  let l := loop s in
  posted (log l) = seq 0 (next l) /\
  ran (log l) ++ map fst (q l) = posted (log l) /\
  (forall newer older, log l = newer ++ older ->
     running older <> None /\ exists rest, ran older ++ rest = posted older) /\
  running (log l) = Some None.
Proof. exact order. Qed.
Print Assumptions C55_order.

(** Functions posted by other threads enter the queue in the order in which they
    were posted, each once, and it is the function sent that waits there. *)
Theorem C55_remote : forall (J W : Type) (code : J -> prog J W) contents,
  (forall j, no_step (code j)) -> forall w s, reach code contents w s ->
  map fst (sent_by (hist s)) = seq 0 (sent s) /\
  map fst (entered (hist s)) ++ on_way (inbox s) = map fst (sent_by (hist s)) /\
  NoDup (map snd (entered (hist s))) /\
  (forall r id, In (r, id) (entered (hist s)) -> In id (posted (log (loop s)))) /\
  (forall r id j, In (r, id) (entered (hist s)) -> In (id, Some j) (q (loop s)) ->
     In (r, j) (sent_by (hist s))).
Proof. exact remote. Qed.
Print Assumptions C55_remote.

(** Two threads post; one function posts another one; everything runs. *)
Definition case_run : qst nat nat := Eval vm_compute in
  match acts true fns
    [Remote 1; Code (PPost 0 PRet); Remote 0; Deliver; Polish; Deliver; Paint; Deliver; Polish] (qinit 7) with
  | Some s => s | None => qinit 0 end.
Example C55_case : reach fns true 7 case_run /\ entered (hist case_run) = [(0, 1); (1, 3)] /\
  ran (log (loop case_run)) = [0; 1; 2; 3] /\ q (loop case_run) = [].
Proof.
  split; [|repeat split].
  refine (acts_reach true fns 7 [Remote 1; Code (PPost 0 PRet); Remote 0; Deliver; Polish; Deliver; Paint; Deliver; Polish]
    _ _ (l_none _ _ _ _ _ _) _). vm_compute. reflexivity.
Qed.

(** Functions never wait for something that Qt was not asked for: the timer runs, or
    Qt has been asked to polish and polishing will call [step()]; and then [step()]
    runs everything that waits, or the first function that throws ends it. *)
Theorem C55_runs : forall (J W : Type) (code : J -> prog J W) contents,
  (forall j, no_step (code j)) -> forall w s, reach code contents w s ->
  (q (loop s) <> [] -> timer s = true \/ pend s = true /\ polished s = false) /\
  (timer s = true -> forall fuel, drains (act code contents fuel Timeout s) s) /\
  (pend s = true -> polished s = false -> forall fuel, drains (act code contents fuel Polish s) s).
Proof. exact runs. Qed.
Print Assumptions C55_runs.

(** A function throws; the next ones wait for the timer, which runs. *)
Definition case_throw : qst nat nat := Eval vm_compute in
  match acts true fns
    [Code (PPost 2 (PPost 0 PRet)); Polish] (qinit 7) with
  | Some s => s | None => qinit 0 end.
Lemma case_throw_reach : reach fns true 7 case_throw.
Proof.
  refine (acts_reach true fns 7 [Code (PPost 2 (PPost 0 PRet)); Polish]
    _ _ (l_none _ _ _ _ _ _) _). vm_compute. reflexivity.
Qed.
Example C55_case_throw : reach fns true 7 case_throw /\
  failed (log (loop case_throw)) = [0] /\ map fst (q (loop case_throw)) = [1] /\
  timer case_throw = true /\
  match act fns true 20 Timeout case_throw with
  | QDone s' => ran (log (loop s')) = [0; 1]
  | _ => False
  end.
Proof. split; [exact case_throw_reach|]. vm_compute. repeat split. Qed.

(** * C56: polishing keeps pace with painting

    Between two paints polishing calls [step()] at most once.  An item without
    contents is never painted: there it does so once in all. *)
Theorem C56_pace : forall (J W : Type) (code : J -> prog J W) contents,
  (forall j, no_step (code j)) -> forall w s, reach code contents w s ->
  (forall newer older, hist s = newer ++ older -> since_paint older <= 1) /\
  (contents = false -> polish_steps (hist s) <= 1).
Proof. exact pace. Qed.
Print Assumptions C56_pace.

(** From the first post on polishing goes on forever, and the paint it waits for has
    been asked for - as long as no function threw while polishing. *)
Theorem C56_chain_partial : forall (J W : Type) (code : J -> prog J W) contents,
  (forall j, no_step (code j)) -> forall w s, reach code contents w s ->
  ~ In QPolishFail (hist s) ->
  (next (loop s) > 0 -> pend s = true \/ In MPolish (inbox s)) /\
  (polished s = true -> contents = true -> dirty s = true).
Proof. exact chain. Qed.
Print Assumptions C56_chain_partial.

Definition case_chain : qst nat nat := Eval vm_compute in
  match acts true fns
    [Code (PPost 1 PRet); Polish; Deliver; Polish; Deliver; Paint; Polish] (qinit 7) with
  | Some s => s | None => qinit 0 end.
Example C56_case : reach fns true 7 case_chain /\
  ~ In QPolishFail (hist case_chain) /\ next (loop case_chain) > 0 /\ pend case_chain = false /\
  In MPolish (inbox case_chain) /\ hist case_chain = [QPolishStep; QPaint; QPolishStep] /\
  polished case_chain = true.
Proof.
  split; [|split; [|split; [|split; [|split; [|split]]]]]; try reflexivity.
  - refine (acts_reach true fns 7 [Code (PPost 1 PRet); Polish; Deliver; Polish; Deliver; Paint; Polish]
      _ _ (l_none _ _ _ _ _ _) _). vm_compute. reflexivity.
  - intros [E|[E|[E|[]]]]; discriminate.
  - repeat constructor.
  - now left.
Qed.

(** After an exception it does not: nothing asks Qt to polish or to paint any more,
    and what waits has to wait for the timer (C55_runs). *)
Theorem C56_chain_refuted : exists (code : nat -> prog nat nat) w s,
  (forall j, no_step (code j)) /\ reach code true w s /\ q (loop s) <> [] /\
  pend s = false /\ inbox s = [] /\ polished s = true /\ dirty s = false.
Proof.
  exists fns, 7, case_throw. split; [exact fns_no_step|]. split; [exact case_throw_reach|].
  split; [discriminate|]. repeat split.
Qed.
Print Assumptions C56_chain_refuted.

(** The comment in l. 37-40 says that the timer makes the loop go on while the window
    is not visible, where Qt may never polish.  It does so only if Qt polished
    once before: until then the timer does not run, and without polishing nothing runs. *)
Theorem C56_hidden : forall (J W : Type) (code : J -> prog J W) contents,
  (forall j, no_step (code j)) -> forall w s s', reach code contents w s -> timer s = false ->
  later code contents unpolished s s' ->
  ran (log (loop s')) = ran (log (loop s)) /\ timer s' = false.
Proof. exact (fun J W code contents _ => @hidden J W code contents). Qed.
Print Assumptions C56_hidden.
Definition case_hidden : qst nat nat := Eval vm_compute in
  match acts true fns
    [Code (PPost 0 PRet)] (qinit 7) with
  | Some s => s | None => qinit 0 end.
Lemma case_hidden_reach : reach fns true 7 case_hidden.
Proof.
  refine (acts_reach true fns 7 [Code (PPost 0 PRet)] _ _ (l_none _ _ _ _ _ _) _). vm_compute. reflexivity.
Qed.
Theorem C56_hidden_refuted : exists (code : nat -> prog nat nat) w s,
  (forall j, no_step (code j)) /\ reach code true w s /\ q (loop s) <> [] /\
  forall s', later code true unpolished s s' -> ran (log (loop s')) = [].
Proof.
  exists fns, 7, case_hidden. split; [exact fns_no_step|]. split; [exact case_hidden_reach|].
  split; [discriminate|]. intros s' L.
  exact (proj1 (C56_hidden _ _ _ _ fns_no_step _ _ _ case_hidden_reach eq_refl L)).
Qed.
Print Assumptions C56_hidden_refuted.
