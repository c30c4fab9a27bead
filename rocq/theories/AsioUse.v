(** C64: who uses the loop, what uses are undefined, what can return. *)
From Coq Require Import List Arith Bool Lia Permutation.
From Verif Require Import AsioModel AsioSpec AsioProofs AsioThreads.
Import ListNotations.

Definition busy_with (w : option worker) : option nat :=
  match w with Some (Run h) | Some (Inv (Some h)) => Some (num h) | _ => None end.
Lemma on_settle : forall t s, on t (log (settle s)) = on t (log s).
Proof. intros t s. unfold settle. destruct (load s =? 0); reflexivity. Qed.
Lemma worker_settle : forall t s, worker_of t (settle s) = worker_of t s.
Proof. intros t s. unfold worker_of. rewrite settle_ws. reflexivity. Qed.
Lemma nth_upd : forall A t (x y : A) l, nth_error l t = Some y -> nth_error (upd t x l) t = Some x.
Proof. intros A t x y l. revert t. induction l as [|z l IH]; intros [|t] E; try discriminate E; [reflexivity|]. exact (IH t E). Qed.
(** Thread [t] becomes [w]. *)
Lemma worker_set : forall t u (w v : option worker) l, nth_error l t = Some v ->
  match nth_error (upd t w l) u with Some x => x | None => None end =
  if t =? u then w else match nth_error l u with Some x => x | None => None end.
Proof.
  intros t u w v l E. destruct (Nat.eqb_spec t u) as [<- | N]; [rewrite (nth_upd _ _ _ _ _ E)|rewrite upd_other by exact N]; reflexivity.
Qed.
Definition runs (s : st) : Prop := forall t, on t (log s) = busy_with (worker_of t s).
Lemma runs_step : forall c l s s', runs s -> step c l s = Some s' -> runs s'.
Proof.
  intros c l s s' I H u. specialize (I u). unfold worker_of in *.
  unfold step, go, do_use, do_post, do_async, do_finish, enqueue, robbed, on_exit, set_worker in H.
  case_step H; subst; rewrite ?on_settle, ?settle_ws;
    cbn [que ready waiting locked sched ws fns other stopped alive vars next fated log
         set_queues set_ws set_fns set_other set_stopped set_alive set_vars bump set_fate note on]; try exact I;
    try (match goal with E : worker_of ?t s = Some _ |- _ => apply worker_in in E;
           rewrite (worker_set _ u _ _ _ E); destruct (Nat.eqb_spec t u) as [<- | N]; [rewrite E in I|]; try exact I; try reflexivity end).
  - apply Nat.eqb_eq in Heqb. subst t. destruct (Nat.eq_dec u (length (ws s))) as [-> | N].
    + rewrite nth_error_app2, Nat.sub_diag by lia. cbn. rewrite I.
      assert (nth_error (ws s) (length (ws s)) = None) as -> by (apply nth_error_None; lia). reflexivity.
    + rewrite I. destruct (Nat.lt_ge_cases u (length (ws s))) as [L | L]; [rewrite nth_error_app1 by exact L; reflexivity|].
      assert (nth_error (ws s) u = None) as -> by (apply nth_error_None; lia).
      assert (nth_error (ws s ++ [Some Idle]) u = None) as -> by (apply nth_error_None; rewrite app_length; cbn; lia). reflexivity.
  - rewrite (worker_set _ u _ _ _ Heqo). destruct (Nat.eqb_spec t u) as [<- | N]; [rewrite Heqo in I|]; exact I.
Qed.
Lemma runs_reach : forall c s, reach c s -> runs s.
Proof.
  intros c. apply reach_ind; [|intros; eapply runs_step; eauto]. intros t. unfold worker_of. cbn. destruct t; reflexivity.
Qed.

Lemma acting : forall c s w, reach c s -> (present w s = true <-> acts w (log s)).
Proof.
  intros c s [|t|a] R; cbn [present acts].
  - split; auto.
  - rewrite (runs_reach _ _ R t). unfold worker_of.
    destruct (nth_error (ws s) t) as [[[|h|[h|]]|]|]; cbn; split; intros E; try discriminate E; try reflexivity;
      try discriminate; destruct (E eq_refl).
  - destruct (threads_reach _ _ R) as [T1 T2]. destruct (async_once _ _ R) as (_ & N & _). split.
    + intros E. apply existsb_exists in E. destruct E as (f & I & E). apply andb_true_iff in E. destruct E as [E F].
      apply Nat.eqb_eq in E. assert (J : In a (names (filter snd (fns s)))).
      { unfold names. apply in_map_iff. exists f. split; [exact E|]. apply filter_In. auto. }
      split; [apply (Permutation_in _ (Permutation_sym T2)), in_app_iff; auto|]. intros B.
      apply (Permutation_NoDup T2) in N. clear - N J B. induction (back (log s)) as [|x r IH]; [destruct B|].
      cbn in N. inversion N as [|y z P Q]; subst. destruct B as [-> | B]; [apply P, in_app_iff; auto|exact (IH Q B)].
    + intros [C B]. apply (Permutation_in _ T2), in_app_iff in C. destruct C as [C | C]; [contradiction|].
      unfold names in C. apply in_map_iff in C. destruct C as (f & E & I). apply filter_In in I. destruct I as [I F].
      apply existsb_exists. exists f. split; [exact I|]. rewrite E, Nat.eqb_refl. exact F.
Qed.
(** Only functions that run, and others, use the loop. *)
Definition in_use (e : event) (l : list event) : Prop :=
  match e with EPost w _ | EAsync w _ | EFinish w => acts w l | _ => True end.
Lemma acts_stop : forall w l, acts w l -> acts w (EStop :: l).
Proof. intros [|t|a] l A; exact A. Qed.
Theorem used : forall c s, reach c s -> at_events in_use (log s).
Proof.
  intros c. apply (reach_ind c (fun s => at_events in_use (log s))).
  - intros [|x l1] e l2 E; discriminate E.
  - intros l s s' R A H. pose proof (fun w => proj1 (acting c s w R)) as P.
    unfold step, go, do_use, do_post, do_async, do_finish, enqueue, robbed, on_exit, set_worker in H.
    case_step H; subst; try (apply at_settle; [|intros _; exact Logic.I]); cbn [log note set_queues set_ws
      set_fns set_other set_stopped set_alive set_vars bump set_fate]; auto;
      repeat (apply at_cons; [|cbn [in_use]; try exact Logic.I; try apply acts_stop; auto]); auto.
Qed.
Theorem users : forall c s l1 e l2 w, reach c s -> log s = l1 ++ e :: l2 ->
  (exists i, e = EPost w i \/ e = EAsync w i) \/ e = EFinish w -> acts w l2.
Proof.
  intros c s l1 e l2 w R E U. pose proof (used c s R l1 e l2 E) as K. destruct U as [[i [-> | ->]] | ->]; exact K.
Qed.

(** ** The end of the loop object *)
Definition there (s : st) : Prop := alive s = true <-> ~ In EDestroy (log s).
Lemma there_cons : forall (b : bool) e l, (b = true <-> ~ In EDestroy l) -> e <> EDestroy -> (b = true <-> ~ In EDestroy (e :: l)).
Proof. intros b e l I N. rewrite I. cbn [In]. split; [intros A [E | B]; auto|]. intros A B. apply A. right. exact B. Qed.
Lemma there_settle : forall s, there s -> there (settle s).
Proof. intros s I. unfold settle. destruct (load s =? 0); [|exact I]. apply there_cons; [exact I|discriminate]. Qed.
Lemma there_reach : forall c s, reach c s -> there s.
Proof.
  intros c. apply reach_ind; [split; [intros _ []|reflexivity]|]. intros l s s' R I H.
  unfold step, go, do_use, do_post, do_async, do_finish, enqueue, robbed, on_exit, set_worker in H.
  assert (J := I). unfold there in J.
  case_step H; subst; try apply there_settle; unfold there;
    cbn [alive log note set_queues set_ws set_fns set_other set_stopped set_alive set_vars bump set_fate];
    try exact I; repeat (apply there_cons; [|discriminate]); try exact I;
    try (match goal with E : alive s = _ |- _ => rewrite E; exact J end).
  split; [discriminate|]. intros A. destruct A. left. reflexivity.
Qed.
Theorem undefined_use : forall c s s' w u, reach c s -> step c (LUse w u) s = Some s' ->
  (fated s' = Undefined <-> In EDestroy (log s)).
Proof.
  intros c s s' w u R H. pose proof (there_reach _ _ R) as T. unfold there in T. unfold step in H.
  destruct (fated s) eqn:F; try discriminate H. cbn [go] in H. unfold do_use in H. destruct (present w s); [|discriminate H].
  destruct (alive s) eqn:A.
  - assert (N : ~ In EDestroy (log s)) by (apply T; reflexivity).
    assert (G : fated s' = Going).
    { destruct u; cbn in H; unfold do_post, do_async, do_finish, enqueue, robbed in H; case_step H; subst; exact F. }
    rewrite G. split; [discriminate|contradiction].
  - injection H as <-. cbn. split; [|reflexivity]. intros _.
    destruct (in_dec (fun a b : event => ltac:(repeat decide equality)) EDestroy (log s)) as [J | J]; [exact J|].
    apply T in J. discriminate J.
Qed.
(** Whoever is in a function can use the loop, also after its end. *)
Theorem can_use : forall c s w u, reach c s -> fated s = Going -> acts w (log s) -> temporary u ->
  exists s', step c (LUse w u) s = Some s'.
Proof.
  intros c s w u R G A T. apply (acting c s w R) in A. unfold step. rewrite G. cbn [go]. unfold do_use. rewrite A.
  destruct (alive s); [|eexists; reflexivity]. destruct u as [a|a| | |]; cbn in T; subst; eexists; reflexivity.
Qed.

(** ** Functions return *)
Definition intact (h : item) : Prop := full h = true.
Record whole (s : st) : Prop := {
  w_que : Forall intact (que s); w_ready : Forall intact (ready s); w_waiting : Forall intact (waiting s);
  w_ws : Forall (fun w => match w with Some (Run h) | Some (Inv (Some h)) => intact h | _ => True end) (ws s);
  w_fns : Forall (fun f => intact (fst f)) (fns s) }.
Lemma whole_settle : forall s, whole s -> whole (settle s).
Proof. intros s [A B C D E]. constructor; autorewrite with settle; assumption. Qed.
Lemma forall_upd : forall A (P : A -> Prop) t x l, P x -> Forall P l -> Forall P (upd t x l).
Proof. intros A P t x l X F. revert t. induction F as [|y l Y F IH]; intros [|t]; cbn; constructor; auto. Qed.
Lemma forall_snoc : forall A (P : A -> Prop) x l, Forall P l -> P x -> Forall P (l ++ [x]).
Proof. intros A P x l F X. apply Forall_app. split; [exact F|]. constructor; [exact X|constructor]. Qed.
Lemma forall_parts : forall (r w : list item), Forall intact r -> Forall intact w -> Forall intact (r ++ w).
Proof. intros r w R W. apply Forall_app. auto. Qed.
Lemma whole_step : forall c l s s', (forall w u, l = LUse w u -> temporary u) -> whole s -> step c l s = Some s' -> whole s'.
Proof.
  intros c l s s' T [A B C D E] H.
  unfold step, go, do_use, do_post, do_async, do_finish, enqueue, robbed, on_exit, set_worker in H.
  assert (P := forall_parts _ _ B C).
  case_step H; subst; try apply whole_settle;
    try (match goal with a : arg |- _ => specialize (T _ _ eq_refl); cbn in T; subst a end);
    try (match goal with Q : copied Temp s = Some _ |- _ => injection Q as <- end);
    try (specialize (T _ _ eq_refl); cbn in T; discriminate T);
    constructor;
    cbn [que ready waiting locked sched ws fns other stopped alive vars next fated log
         set_queues set_ws set_fns set_other set_stopped set_alive set_vars bump set_fate note];
    try assumption; try constructor; try (apply forall_snoc; [assumption|reflexivity]);
    try (inversion A; assumption); try (inversion B; assumption); try (inversion P; assumption);
    try (apply forall_snoc; [assumption|exact Logic.I]);
    try (apply forall_upd; [|assumption]; try exact Logic.I; first [inversion A; assumption | inversion B; assumption]);
    try (apply forall_upd; [exact Logic.I|assumption]).
  - apply Forall_forall. intros f I. apply in_map_iff in I. destruct I as (g & Q & I). rewrite Forall_forall in E. specialize (E g I).
    destruct (num (fst g) =? a); subst f; exact E.
  - apply Forall_forall. intros f I. apply filter_In in I. destruct I as [I _]. rewrite Forall_forall in E. exact (E f I).
Qed.
Lemma whole_steps : forall c ls s, temporaries ls -> steps c ls init = Some s -> whole s.
Proof.
  intros c ls. induction ls as [|l r IH] using rev_ind; intros s T E.
  - injection E as <-. constructor; constructor.
  - apply steps_app in E. destruct E as (m & E1 & E2). cbn in E2. destruct (step c l m) as [x|] eqn:F; [|discriminate E2].
    injection E2 as <-. eapply whole_step; [|apply (IH m)|exact F].
    + intros w u ->. apply (T w u), in_app_iff. right. left. reflexivity.
    + intros w u I. apply (T w u), in_app_iff. left. exact I.
    + exact E1.
Qed.
Theorem can_return : forall c ls s t i, temporaries ls -> steps c ls init = Some s -> fated s = Going ->
  on t (log s) = Some i ->
  exists s', step c (LRet t) s = Some s' /\ on t (log s') = None /\ In (EEnd t i) (log s').
Proof.
  intros c ls s t i T E G O. pose proof (whole_steps _ _ _ T E) as W. assert (R : reach c s) by (exists ls; exact E).
  rewrite (runs_reach _ _ R t) in O.
  destruct (worker_of t s) as [[|h|[h|]]|] eqn:K; try discriminate O; injection O as <-;
    pose proof (w_ws _ W) as F; rewrite Forall_forall in F; specialize (F _ (nth_error_In _ _ (worker_in _ _ _ K))); cbn in F;
    unfold step, go; rewrite G, K, F; eexists; (split; [reflexivity|]).
  - rewrite on_settle. cbn [log note on]. rewrite Nat.eqb_refl. split; [reflexivity|].
    unfold settle. destruct (load _ =? 0); cbn; auto.
  - cbn [log note on]. rewrite Nat.eqb_refl. split; [reflexivity|]. left. reflexivity.
Qed.
Theorem can_come_back : forall c ls s a, temporaries ls -> steps c ls init = Some s -> fated s = Going ->
  acts (InFn a) (log s) -> exists s', step c (LFnRet a) s = Some s' /\ In a (back (log s')).
Proof.
  intros c ls s a T E G A. pose proof (whole_steps _ _ _ T E) as W. assert (R : reach c s) by (exists ls; exact E).
  apply (acting c s (InFn a) R) in A. cbn in A. apply existsb_exists in A. destruct A as (f & I & A).
  apply andb_true_iff in A. destruct A as [A B]. apply Nat.eqb_eq in A.
  pose proof (threads_nodup _ _ R (threads_reach _ _ R)) as N.
  assert (fn_at a s = Some f) as K.
  { unfold fn_at. clear - I A N. unfold names in N. induction (fns s) as [|g l IH]; [destruct I|]. cbn in *. inversion N as [|y z P Q]; subst.
    destruct I as [-> | I]; [rewrite Nat.eqb_refl; reflexivity|]. destruct (Nat.eqb_spec (num (fst g)) (num (fst f))) as [X | X]; [|exact (IH I Q)].
    destruct P. rewrite X. apply in_map_iff. exists f. auto. }
  pose proof (w_fns _ W) as F. rewrite Forall_forall in F. specialize (F _ I). unfold intact in F.
  destruct f as [h b]. cbn in B, F. subst b. unfold step, go. rewrite G, K, F. eexists. split; [reflexivity|].
  rewrite settle_back. cbn. apply in_app_iff. right. left. reflexivity.
Qed.
(** A posted function may throw at any time. *)
Theorem can_throw : forall c s t i, reach c s -> fated s = Going -> on t (log s) = Some i ->
  exists s', step c (LThrow t) s = Some s' /\ on t (log s') = None /\ In (EEnd t i) (log s') /\ In (ELeave t) (log s').
Proof.
  intros c s t i R G O. rewrite (runs_reach _ _ R t) in O.
  destruct (worker_of t s) as [[|h|[h|]]|] eqn:K; try discriminate O; injection O as <-;
    unfold step, go; rewrite G, K; eexists; (split; [reflexivity|]); rewrite on_settle; cbn [log note on]; rewrite Nat.eqb_refl;
    (split; [reflexivity|]); unfold settle; destruct (load _ =? 0); cbn; auto.
Qed.
