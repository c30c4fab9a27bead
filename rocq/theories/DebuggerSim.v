(** Two stores, the second with models and actions that stand for those of the first,
    run the same client code the same way (used for C39).  Where the first store has no
    effect the second has one that does nothing. *)
From Coq Require Import List Arith Bool Lia.
From Verif Require Import StoreModel StoreExtraModel DebuggerModel DebuggerSpec.
Import ListNotations.

Section Sim.
Variables M A M' A' W : Type.
Notation prog := (prog M A W).
Notation prog' := (StoreModel.prog M' A' W).
Variable view : M' -> option M.
Variable inj : A -> A'.
Notation adapt := (@adapt M A M' A' W view inj).
Variable RM : M -> M' -> Prop.
Hypothesis RM_view : forall m m', RM m m' -> view m' = Some m.

(** debugger.hpp:128 *)
Definition or_noop (e : option prog') : option prog' := match e with Some e => Some e | None => noop end.
Variable reducer : M -> A -> option (M * option prog).
Variable reducer' : M' -> A' -> option (M' * option prog').
Hypothesis red : forall m m' a, RM m m' ->
  match reducer m a with
  | None => reducer' m' (inj a) = None
  | Some (n, e) => exists n', reducer' m' (inj a) = Some (n', or_noop (option_map adapt e)) /\ RM n n'
  end.
Variable eqb : M -> M -> bool.
Variable eqb' : M' -> M' -> bool.
(** Either the second store notices the same changes, or nobody watches. *)
Variable strict : bool.
Hypothesis eq_strict : strict = true -> forall m m' n n', RM m m' -> RM n n' -> eqb' m' n' = eqb m n.
Hypothesis eq_loose : strict = false ->
  (forall m n, eqb m n = true -> m = n) /\
  (forall m m' n', RM m m' -> eqb' m' n' = true -> RM m n').
Hypothesis red_loose : strict = false -> forall m a n e, reducer m a = Some (n, Some e) -> unwatched e.
Variables trans futures manual : bool.
Variable ext : nat -> list A.
(** With transactions and futures it is not the same. *)
Hypothesis no_late : trans = true -> futures = false.
Notation exec := (exec reducer eqb trans futures manual ext).
Notation exec' := (StoreModel.exec reducer' eqb' trans futures manual).
Notation st := (st M A W).
Notation st' := (StoreModel.st M' A' W).

Definition ok (p : prog) : Prop := strict = false -> unwatched p.
Definition w_watch (w : M -> prog) : M' -> prog' :=
  fun m => match view m with Some m => adapt (w m) | None => PThrow end.
Definition w_cbk (c : callback M A W) : callback M' A' W :=
  match c with CBUser p => CBUser (adapt p) | CBFulfil n => CBFulfil n end.
Definition ok_cbk (c : callback M A W) : Prop := match c with CBUser p => ok p | _ => True end.
Definition w_job (j : job M A W) : job M' A' W :=
  match j with
  | JReduce id p a => JReduce id p (inj a)
  | JEffect id p e => JEffect id p (adapt e)
  | JNotify id p => JEffect id p (PRet None)
  | JUser p => JUser (adapt p)
  | JCb f c n => JCb f (w_cbk c) n
  end.
Definition ok_job (j : job M A W) : Prop :=
  match j with
  | JReduce _ p _ => trans = true -> p = None
  | JNotify _ _ => trans = false
  | JEffect _ _ p | JUser p => ok p
  | JCb _ c _ => ok_cbk c
  end.
Definition w_cell (c : cell M A W) : cell M' A' W :=
  match c with Cell k d l j => Cell k d l (option_map w_job j) end.
Definition ok_cell (c : cell M A W) : Prop := match cb c with Some j => ok_job j | None => True end.
Definition w_task (t : task M A W) : task M' A' W :=
  match t with
  | TProg p => TProg (adapt p)
  | TPost j => TPost (w_job j)
  | TRun => TRun
  | TDrain => TDrain
  | TJob j => TJob (w_job j)
  | TNotify => TNotify
  | TSlots i => TSlots i
  | TFulfil n => TFulfil n
  | TThen f c => TThen f (w_cbk c)
  end.
Definition ok_task (t : task M A W) : Prop :=
  match t with TProg p => ok p | TPost j | TJob j => ok_job j | TThen _ c => ok_cbk c | _ => True end.
(** Where jobs run: in the loop. *)
Definition at_home (t : task M A W) (s : st) : Prop :=
  match t with TDrain | TJob _ => busy s = true | TRun => busy s = false | _ => True end.
Notation same_event := (@same_event M A M' A' W view inj RM).

(** The queue of the second store; with transactions there are effects that do nothing. *)
Inductive queues : list (job M A W) -> list (job M' A' W) -> Prop :=
| q_nil : queues [] []
| q_cons j q q' : queues q q' -> queues (j :: q) (w_job j :: q')
| q_more id q q' : trans = true -> queues q q' -> queues q (JEffect id None (PRet None) :: q').
Lemma queues_push : forall q q' j, queues q q' -> queues (q ++ [j]) (q' ++ [w_job j]).
Proof. induction 1; simpl; constructor; auto. constructor. Qed.
Lemma queues_more : forall q q' id, trans = true -> queues q q' -> queues q (q' ++ [JEffect id None (PRet None)]).
Proof. induction 2; simpl; constructor; auto. constructor. Qed.

Record rel (s : st) (s' : st') : Prop := {
  r_cur : RM (cur s) (cur s');
  r_last : RM (last s) (last s');
  r_strict : strict = true -> nsd s' = nsd s /\ nn s' = nn s;
  r_loose : strict = false -> (nsd s = false -> last s = cur s) /\ (nsd s' = false -> RM (cur s) (last s')) /\ slots s = [];
  r_slots : slots s' = map (option_map w_watch) (slots s);
  r_heap : heap s' = map w_cell (heap s);
  r_q : queues (q s) (q s');
  r_busy : busy s' = busy s;
  r_ndisp : ndisp s' = ndisp s;
  r_world : world s' = world s;
  r_log : Forall2 same_event (filter visible (log s)) (filter visible (log s'));
  r_okh : Forall ok_cell (heap s);
  r_okq : Forall ok_job (q s) }.

Lemma strict_ok : forall p, strict = true -> ok p.
Proof. intros p H H'. congruence. Qed.
Lemma visible_same : forall e e', same_event e e' -> visible e' = visible e.
Proof.
  intros [] e' H; simpl in H; try (subst e'); try (destruct H as (m' & -> & _)); try (destruct H as (m' & b' & -> & _)); auto; simpl;
    f_equal; match goal with |- quiet (adapt ?p) = _ => now destruct p end.
Qed.
Lemma rel_emit : forall e e' s s', same_event e e' -> rel s s' -> rel (emit e s) (emit e' s').
Proof.
  intros e e' s s' HE []. constructor; simpl; auto. rewrite (visible_same _ _ HE). destruct (visible e); auto.
Qed.
Lemma rel_emit_l : forall e s s', visible e = false -> rel s s' -> rel (emit e s) s'.
Proof. intros e s s' HE []. constructor; simpl; auto. now rewrite HE. Qed.
Lemma rel_emit_r : forall e s s', visible e = false -> rel s s' -> rel s (emit e s').
Proof. intros e s s' HE []. constructor; simpl; auto. now rewrite HE. Qed.
Lemma rel_new_cell : forall k s s', rel s s' -> rel (new_cell k s) (new_cell k s').
Proof.
  intros k s s' []. constructor; simpl; auto.
  - now rewrite r_heap0, map_app.
  - apply Forall_app. split; auto. repeat constructor.
Qed.
Lemma set_nth_map : forall X Y (f : X -> Y) n x l, map f (set_nth n x l) = set_nth n (f x) (map f l).
Proof. induction n as [|n IH]; intros x [|y l]; simpl; auto. now rewrite IH. Qed.
Lemma Forall_set_nth : forall X (P : X -> Prop) n x l, P x -> Forall P l -> Forall P (set_nth n x l).
Proof.
  induction n as [|n IH]; intros x l H F; destruct F; simpl; constructor; auto.
Qed.
Lemma rel_upd : forall n c s s', ok_cell c -> rel s s' -> rel (upd_cell n c s) (upd_cell n (w_cell c) s').
Proof.
  intros n c s s' HC []. constructor; simpl; auto.
  - now rewrite r_heap0, set_nth_map.
  - now apply Forall_set_nth.
Qed.
Lemma rel_push : forall j s s', ok_job j -> rel s s' -> rel (push_job j s) (push_job (w_job j) s').
Proof.
  intros j s s' HJ []. constructor; simpl; auto.
  - now apply queues_push.
  - apply Forall_app. auto.
Qed.
Lemma rel_push_more : forall id s s', trans = true -> rel s s' -> rel s (push_job (JEffect id None (PRet None)) s').
Proof. intros id s s' HT []. constructor; simpl; auto. now apply queues_more. Qed.
Lemma rel_push_down : forall m m' s s', RM m m' -> rel s s' -> rel (push_down eqb m s) (push_down eqb' m' s').
Proof.
  intros m m' s s' HM [].  unfold push_down. destruct (bool_dec strict true) as [ES|ES].
  - rewrite (eq_strict ES m m' (cur s) (cur s')) by auto. destruct (r_strict0 ES).
    destruct (eqb m (cur s)); constructor; simpl; auto; try congruence.
  - apply not_true_is_false in ES. destruct (eq_loose ES) as [E1 E2], (r_loose0 ES) as (L1 & L2 & L3).
    assert (EC : eqb' m' (cur s') = true -> m = cur s).
    { intros E. pose proof (RM_view _ _ (E2 _ _ _ HM E)) as V. rewrite (RM_view _ _ r_cur0) in V. now injection V. }
    destruct (eqb m (cur s)) eqn:EQ, (eqb' m' (cur s')) eqn:EQ'; constructor; simpl; auto; try congruence;
      try (apply E1 in EQ; subst m); auto; try (specialize (EC eq_refl); subst m); auto;
      intros _; repeat split; auto; discriminate.
Qed.
Lemma rel_send_down : forall s s', rel s s' -> rel (send_down s) (send_down s').
Proof.
  intros s s' R. unfold send_down. destruct (bool_dec strict true) as [ES|ES].
  - destruct (r_strict _ _ R ES) as [-> HN]. destruct (nsd s) eqn:N; auto. destruct R.
    constructor; simpl; auto; congruence.
  - destruct R. apply not_true_is_false in ES. destruct (r_loose0 ES) as (L1 & L2 & L3).
    destruct (nsd s) eqn:N, (nsd s') eqn:N'; constructor; simpl; auto; try congruence;
      try (rewrite L1 by auto); auto; intros _; repeat split; auto; congruence.
Qed.
Lemma rel_slots : forall s s' x, rel s s' -> strict = true ->
  rel (set_slots x s) (set_slots (map (option_map w_watch) x) s').
Proof. intros s s' x [] HS. constructor; simpl; auto. congruence. Qed.
Lemma rel_set_q : forall s s' x x', rel s s' -> Forall ok_job x -> queues x x' -> rel (set_q x s) (set_q x' s').
Proof. intros s s' x x' [] HS HQ. constructor; simpl; auto. Qed.
Lemma rel_busy : forall s s' b, rel s s' -> rel (set_busy b s) (set_busy b s').
Proof. intros s s' b []. constructor; simpl; auto. Qed.
Lemma rel_world : forall s s' b, rel s s' -> rel (set_world b s) (set_world b s').
Proof. intros s s' b []. constructor; simpl; auto. Qed.
Lemma rel_nn : forall s s', rel s s' -> rel (set_nn false s) (set_nn false s').
Proof. intros s s' []. constructor; simpl; auto. intros H. split; auto. now apply r_strict0. Qed.
Lemma rel_tick_l : forall s s', rel s s' -> rel (tick s) s'.
Proof. intros s s' []. constructor; simpl; auto. Qed.
Lemma rel_tick_r : forall s s', rel s s' -> rel s (tick s').
Proof. intros s s' []. constructor; simpl; auto. Qed.
Lemma rel_dispatch : forall a s s' s1 f j, rel s s' -> new_dispatch futures a s = (s1, f, j) ->
  exists s1', new_dispatch futures (inj a) s' = (s1', f, w_job j) /\ rel s1 s1' /\ ok_job j /\
    clock s1' = clock s' /\ busy s1 = busy s.
Proof.
  intros a s s' s1 f j R E. unfold new_dispatch in *. injection E as <- <- <-.
  rewrite (r_heap _ _ R), (r_ndisp _ _ R), map_length. eexists. split; [reflexivity|].
  split; [|split; [simpl; intros H; now rewrite (no_late H)|split; [now destruct futures|now destruct futures]]].
  apply rel_emit; [reflexivity|]. destruct futures.
  - pose proof (rel_new_cell KDisp _ _ R) as []. constructor; simpl in *; auto.
  - destruct R. constructor; simpl in *; auto.
Qed.

(** The dispatches [l] of other threads arrive. *)
Definition arr (l : list A) (s' : st') : st' := if manual then s' else tick (fold_left (arrive1 futures) (map inj l) s').
Lemma arrive1_clock : forall l (s' : st'), clock (fold_left (arrive1 futures) l s') = clock s'.
Proof.
  induction l as [|a l IH]; intros s'; simpl; auto. rewrite IH. unfold arrive1, new_dispatch. simpl. now destruct futures.
Qed.
Lemma arrive1_busy : forall l (s : st), busy (fold_left (arrive1 futures) l s) = busy s.
Proof.
  induction l as [|a l IH]; intros s; simpl; auto. rewrite IH. unfold arrive1, new_dispatch. simpl. now destruct futures.
Qed.
Lemma arrive_busy : forall s : st, busy (arrive futures manual ext s) = busy s.
Proof. intros s. unfold arrive. destruct manual; auto. simpl. apply arrive1_busy. Qed.
Lemma rel_arrive : forall s s', rel s s' -> rel (arrive futures manual ext s) (arr (ext (clock s)) s').
Proof.
  intros s s' R. unfold arrive, arr. destruct manual; auto. generalize (ext (clock s)). intros l.
  apply rel_tick_l, rel_tick_r. revert s s' R. induction l as [|a l IH]; intros s s' R; simpl; auto.
  apply IH. unfold arrive1. destruct (new_dispatch futures a s) as [[s1 f] j] eqn:E.
  destruct (rel_dispatch _ _ _ _ _ _ R E) as (s1' & -> & R1 & J & _). now apply rel_push.
Qed.
Lemma rel_arr_nil : forall s s', rel s s' -> rel s (arr [] s').
Proof. intros s s' R. unfold arr. destruct manual; auto. now apply rel_tick_r. Qed.

(** ** Runs of the second store *)
Definition rel_res (b : bool) (r : res M A W) (r' : res M' A' W) : Prop :=
  match r with
  | Done f s => exists s', r' = Done f s' /\ rel s s' /\ busy s = b
  | Thrown s => exists s', r' = Thrown s' /\ rel s s' /\ busy s = b
  | Misuse => r' = Misuse
  | Deadlock => r' = Deadlock
  | OutOfFuel => True
  end.
Definition clk (r' : res M' A' W) (c : nat) : Prop :=
  match r' with Done _ s' | Thrown s' => clock s' = c | _ => True end.
(** The arrivals from [c] on are [l]. *)
Definition agree (e : nat -> list A') (c : nat) (l : list (list A)) : Prop :=
  forall i x, nth_error l i = Some x -> e (c + i) = map inj x.
Definition theirs (l : list A) : Prop := l = [] \/ exists n, l = ext n.
(** [C e n] is a run with arrivals [e] and fuel [n]; it starts at [c].  If the fuel suffices
    and the arrivals are at the right places it ends like [r]. *)
Definition sim (b : bool) (r : res M A W) (c : nat) (C : (nat -> list A') -> nat -> res M' A' W) : Prop :=
  r = OutOfFuel \/
  exists l r', rel_res b r r' /\ clk r' (c + length l) /\ Forall theirs l /\
    forall e, agree e c l -> exists n, forall k, n <= k -> C e k = r'.

Lemma agree_app : forall e c l1 l2, agree e c (l1 ++ l2) -> agree e c l1 /\ agree e (c + length l1) l2.
Proof.
  intros e c l1 l2 H. split; intros i x E.
  - apply H. rewrite nth_error_app1; auto. apply nth_error_Some. congruence.
  - rewrite <- Nat.add_assoc. apply H. rewrite nth_error_app2 by lia. now replace (length l1 + i - length l1) with i by lia.
Qed.
Lemma sim_now : forall b r r' c, rel_res b r r' -> clk r' c -> sim b r c (fun _ _ => r').
Proof.
  intros b r r' c H HC. right. exists [], r'. rewrite Nat.add_0_r. repeat split; auto. intros _ _. exists 0. auto.
Qed.
Lemma sim_done : forall b f s s', rel s s' -> busy s = b -> sim b (Done f s) (clock s') (fun _ _ => Done f s').
Proof. intros. apply sim_now; simpl; eauto. Qed.
Lemma sim_done_c : forall b f s s' c, rel s s' -> busy s = b -> clock s' = c -> sim b (Done f s) c (fun _ _ => Done f s').
Proof. intros. subst c. now apply sim_done. Qed.
Lemma sim_thrown : forall b s s' c, rel s s' -> busy s = b -> clock s' = c -> sim b (Thrown s) c (fun _ _ => Thrown s').
Proof. intros. apply sim_now; simpl; eauto. Qed.
Lemma sim_cases : forall b b2 r c C K1 K1' K2 K2', sim b r c C ->
  (forall f s s', rel s s' -> busy s = b -> sim b2 (K1 f s) (clock s') (fun e k => K1' e k f s')) ->
  (forall s s', rel s s' -> busy s = b -> sim b2 (K2 s) (clock s') (fun e k => K2' e k s')) ->
  sim b2 (match r with Done f s => K1 f s | Thrown s => K2 s | Misuse => Misuse | Deadlock => Deadlock | OutOfFuel => OutOfFuel end) c
    (fun e k => match C e k with Done f s => K1' e k f s | Thrown s => K2' e k s | r => r end).
Proof.
  intros b b2 r c C K1 K1' K2 K2' [->|(l & r' & HR & HC & HT & HE)] H1 H2; [now left|].
  assert (X : forall (s' : st') r2 D, clock s' = c + length l ->
    (forall e n, agree e c l -> (forall k, n <= k -> C e k = r') -> forall k, n <= k -> D e k = (match C e k with Done f s => K1' e k f s | Thrown s => K2' e k s | r => r end)) ->
    sim b2 r2 (clock s') D ->
    sim b2 r2 c (fun e k => match C e k with Done f s => K1' e k f s | Thrown s => K2' e k s | r => r end)).
  { intros s' r2 D EC ED [->|(l2 & r2' & HR2 & HC2 & HT2 & HE2)]; [now left|].
    right. exists (l ++ l2), r2'. split; [exact HR2|]. split; [now rewrite app_length, Nat.add_assoc, <- EC|].
    split; [apply Forall_app; auto|]. intros e HA. destruct (agree_app _ _ _ _ HA) as [A1 A2].
    destruct (HE e A1) as (n1 & N1). rewrite <- EC in A2. destruct (HE2 e A2) as (n2 & N2).
    exists (max n1 n2). intros k HK. rewrite <- (ED e n1); auto; [|lia]. apply N2. lia. }
  destruct r as [f s|s| | |]; simpl in HR; try now left.
  - destruct HR as (s' & -> & R & B). simpl in HC. apply (X s' _ (fun e k => K1' e k f s')); auto.
    intros e n _ N k HK. now rewrite N.
  - destruct HR as (s' & -> & R & B). simpl in HC. apply (X s' _ (fun e k => K2' e k s')); auto.
    intros e n _ N k HK. now rewrite N.
  - subst r'. right. exists l, Misuse. repeat split; auto. intros e HA. destruct (HE e HA) as (n & N).
    exists n. intros k HK. now rewrite N.
  - subst r'. right. exists l, Deadlock. repeat split; auto. intros e HA. destruct (HE e HA) as (n & N).
    exists n. intros k HK. now rewrite N.
Qed.
Lemma sim_ext : forall b r c C C', (forall e k, C e k = C' e k) -> sim b r c C -> sim b r c C'.
Proof.
  intros b r c C C' HE [->|(l & r' & HR & HC & HT & H)]; [now left|]. right. exists l, r'. repeat split; auto.
  intros e HA. destruct (H e HA) as (n & N). exists n. intros k HK. rewrite <- HE. auto.
Qed.
Lemma sim_bind : forall b b2 r c C K K', sim b r c C -> (b2 = b) ->
  (forall f s s', rel s s' -> busy s = b -> sim b2 (K f s) (clock s') (fun e k => K' e k f s')) ->
  sim b2 (andthen r K) c (fun e k => andthen (C e k) (K' e k)).
Proof.
  intros b b2 r c C K K' HS -> HK.
  pose proof (sim_cases b b r c C K K' (fun s => Thrown s) (fun _ _ s' => Thrown s') HS HK) as X.
  replace (andthen r K) with (match r with Done f s => K f s | Thrown s => Thrown s | Misuse => Misuse | Deadlock => Deadlock | OutOfFuel => OutOfFuel end) by (now destruct r).
  eapply sim_ext; [|apply X]; [intros e k; cbv beta; now destruct (C e k)|]. intros s s' R B. now apply sim_thrown.
Qed.
Lemma sim_throw : forall b r c C h h', sim b r c C ->
  (forall s s', rel s s' -> rel (h s) (h' s') /\ busy (h s) = busy s /\ clock (h' s') = clock s') ->
  sim b (on_throw r h) c (fun e k => on_throw (C e k) h').
Proof.
  intros b r c C h h' HS HH.
  pose proof (sim_cases b b r c C (fun f s => Done f s) (fun _ _ f s' => Done f s') (fun s => Thrown (h s)) (fun _ _ s' => Thrown (h' s')) HS) as X.
  replace (on_throw r h) with (match r with Done f s => Done f s | Thrown s => Thrown (h s) | Misuse => Misuse | Deadlock => Deadlock | OutOfFuel => OutOfFuel end) by (now destruct r).
  eapply sim_ext; [|apply X]; [intros e k; cbv beta; now destruct (C e k)| |].
  - intros f s s' R B. now apply sim_done.
  - intros s s' R B. destruct (HH _ _ R) as (R1 & B1 & C1). apply sim_thrown; congruence.
Qed.
Lemma sim_throw_r : forall b r c C h', sim b r c C ->
  (forall s s', rel s s' -> rel s (h' s') /\ clock (h' s') = clock s') ->
  sim b r c (fun e k => on_throw (C e k) h').
Proof.
  intros b r c C h' HS HH.
  pose proof (sim_throw b r c C (fun s => s) h' HS) as X.
  replace (on_throw r (fun s => s)) with r in X by now destruct r. apply X.
  intros s s' R. destruct (HH _ _ R). auto.
Qed.
Lemma send_busy : forall s : st, busy (send_down s) = busy s.
Proof. intros s. unfold send_down. now destruct (nsd s). Qed.
Lemma send_clock : forall s : st', clock (send_down s) = clock s.
Proof. intros s. unfold send_down. now destruct (nsd s). Qed.
Lemma sim_shift : forall b r c C, sim b r c (fun e k => C e (S k)) -> sim b r c C.
Proof.
  intros b r c C [->|(l & r' & HR & HC & HT & HE)]; [now left|]. right. exists l, r'. repeat split; auto.
  intros e HA. destruct (HE e HA) as (n & N). exists (S n). intros [|k] HK; [lia|]. apply N. lia.
Qed.
Lemma sim_less : forall b r c C, sim b r c C -> sim b r c (fun e k => C e (S k)).
Proof.
  intros b r c C [->|(l & r' & HR & HC & HT & HE)]; [now left|]. right. exists l, r'. repeat split; auto.
  intros e HA. destruct (HE e HA) as (n & N). exists n. intros k HK. apply N. lia.
Qed.
Lemma sim_S : forall b r c t s', sim b r c (fun e k => exec' e (S k) t s') -> sim b r c (fun e k => exec' e k t s').
Proof. intros b r c t s'. apply (sim_shift b r c (fun e k => exec' e k t s')). Qed.
Lemma sim_arrive : forall b r s' C l, theirs l -> sim b r (clock (arr l s')) (fun e k => C e k (arr l s')) ->
  sim b r (clock s') (fun e k => C e k (arrive futures manual e s')).
Proof.
  intros b r s' C l T [->|(l2 & r' & HR & HC & HT & HE)]; [now left|]. unfold arr, arrive in *. destruct manual.
  - right. exists l2, r'. repeat split; auto.
  - simpl in HC, HE. rewrite arrive1_clock in HC, HE. right. exists (l :: l2), r'.
    split; [exact HR|]. split; [now simpl; rewrite Nat.add_succ_r|]. split; [constructor; auto|].
    intros e HA. assert (E0 : e (clock s') = map inj l) by (rewrite <- (Nat.add_0_r (clock s')); now apply HA).
    destruct (HE e) as (n & N).
    { intros i x E. rewrite Nat.add_succ_l, <- Nat.add_succ_r. now apply HA. }
    exists n. intros k HK. rewrite E0. now apply N.
Qed.
Ltac arriving l :=
  match goal with |- sim ?b ?r (clock ?s') ?F =>
    let C := constr:(fun (e : nat -> list A') (k : nat) => ltac:(
      let x := eval cbv beta in (F e k) in
      let y := eval pattern (arrive futures manual e s') in x in
      match y with ?f _ => exact f end)) in
    apply (sim_arrive b r s' C l) end.
Lemma nth_ok : forall X (P : X -> Prop) l n x, Forall P l -> nth_error l n = Some x -> P x.
Proof. intros X P l n x F E. apply nth_error_In in E. rewrite Forall_forall in F. auto. Qed.
Lemma strict_dec : (strict = false -> False) -> strict = true.
Proof. destruct strict; auto. Qed.
(** Effects that do nothing at the front of the queue. *)
Lemma skip_job : forall e k id s', trans = true ->
  exec' e (S (S k)) (TJob (JEffect id None (PRet None))) s' =
  Done None (emit (EEffEnd id None) (arrive futures manual e (emit (EEff id (last s') (PRet None)) (emit (EBegin id (PRet None)) s')))).
Proof. intros e k id s' HT. cbn [StoreModel.exec]. now rewrite HT. Qed.
Lemma no_slots : forall b s s' i, rel s s' -> slots s' = [] -> busy s = b ->
  sim b (Done None s) (clock s') (fun e k => exec' e k (TSlots i) s').
Proof.
  intros b s s' i R E B. apply sim_S. cbn [StoreModel.exec]. rewrite E. destruct i; cbn [nth_error]; now apply sim_done.
Qed.

Lemma sim_step : forall fl,
  (forall t s s', rel s s' -> ok_task t -> at_home t s ->
     sim (busy s) (exec fl t s) (clock s') (fun e k => exec' e k (w_task t) s')) ->
  forall t s s', rel s s' -> ok_task t -> at_home t s ->
     sim (busy s) (exec (S fl) t s) (clock s') (fun e k => exec' e k (w_task t) s').
Proof.
  intros fl IH0 t s s' R OK HM.
  assert (IH : forall t s s' b c, rel s s' -> ok_task t -> at_home t s -> busy s = b -> clock s' = c ->
    sim b (exec fl t s) c (fun e k => exec' e k (w_task t) s')) by (intros; subst; auto). clear IH0.
  assert (IHp : forall p s s' b c, rel s s' -> ok p -> busy s = b -> clock s' = c ->
    sim b (exec fl (TProg p) s) c (fun e k => exec' e k (TProg (adapt p)) s'))
    by (intros p s0 s0' b c H1 H2 H3 H4; apply (IH (TProg p) s0 s0' b c H1 H2 I H3 H4)).
  assert (IHv : forall k s s' b c, rel s s' -> (forall m, ok (k m)) -> busy s = b -> clock s' = c ->
    sim b (exec fl (TProg (k (last s))) s) c (fun e n => exec' e n (TProg (w_watch k (last s'))) s')).
  { intros k s0 s0' b c H1 H2 H3 H4. unfold w_watch. rewrite (RM_view _ _ (r_last _ _ H1)). apply IHp; auto. }
  apply sim_S.
  destruct t as [p|j| | |j| |i|n|[f|] c]; cbn [StoreModel.exec w_task ok_task at_home] in *.
  - arriving (ext (clock s)); [right; eauto|].
    apply rel_arrive in R. rewrite <- (arrive_busy s). revert R. generalize (arrive futures manual ext s), (arr (ext (clock s)) s').
    clear s s' HM. intros s s' R. destruct p; cbn [DebuggerModel.adapt].
    + now apply sim_done.
    + now apply sim_thrown.
    + apply (IHv k); auto. intros m H. exact (OK H m).
    + rewrite (r_world _ _ R). apply IHp; auto. intros H. exact (OK H (world s)).
    + apply IHp; auto. now apply rel_world.
    + apply IHp; auto. now apply rel_emit.
    + destruct (new_dispatch futures a s) as [[s1 f] j] eqn:E.
      destruct (rel_dispatch _ _ _ _ _ _ R E) as (s1' & -> & R1 & J & EC & EB).
      apply (sim_bind (busy s)); [apply (IH (TPost j)); try exact I; auto|reflexivity|]. intros _ s2 s2' R2 B2. apply IHp; auto.
      intros H. exact (OK H f).
    + apply (sim_bind (busy s)); [apply (IH (TThen f (CBUser p))); try exact I; auto|reflexivity|].
      * intros H. now apply OK.
      * intros f' s1 s1' R1 B1. apply IHp; auto. intros H. now apply OK.
    + apply (sim_bind (busy s)); [apply (IH (TPost (JUser p1))); try exact I; auto|reflexivity|].
      * intros H. now apply OK.
      * intros _ s1 s1' R1 B1. apply IHp; auto. intros H. now apply OK.
    + rewrite (r_heap _ _ R), map_length. apply IHp; auto; [|intros H; now apply OK].
      apply rel_emit; [reflexivity|now apply rel_new_cell].
    + rewrite (r_heap _ _ R), nth_error_map. destruct (nth_error (heap s) n) as [[[| | |] d l c]|]; simpl;
        try (apply sim_now; [reflexivity|exact I]).
      apply (sim_bind (busy s)); [apply (IH (TFulfil n)); try exact I; auto|reflexivity|]. intros _ s1 s1' R1 B1. apply IHp; auto.
    + apply (sim_bind (busy s)); [apply (IH TNotify); try exact I|reflexivity|].
      * apply rel_send_down, rel_emit; auto. reflexivity.
      * unfold send_down. simpl. now destruct (nsd s).
      * unfold send_down. simpl. now destruct (nsd s').
      * intros _ s1 s1' R1 B1. apply IHp; auto.
    + assert (ES : strict = true) by (apply strict_dec; intros H; exact (OK H)).
      rewrite (r_slots _ _ R), map_length. apply IHp; auto; [|now apply strict_ok].
      apply rel_emit; [exists (last s'); split; auto; apply R|].
      replace (map (option_map w_watch) (slots s) ++ _) with (map (option_map w_watch) (slots s ++ [Some w]))
        by now rewrite map_app.
      now apply rel_slots.
    + rewrite (r_slots _ _ R), nth_error_map. destruct (nth_error (slots s) i) as [[w|]|] eqn:EN; cbn [option_map]; auto.
      apply IHp; auto. apply rel_emit; [reflexivity|].
      assert (ES : strict = true).
      { apply strict_dec. intros ES. destruct (r_loose _ _ R ES) as (_ & _ & E). rewrite E in EN. now destruct i. }
      replace (set_nth i None (map (option_map w_watch) (slots s))) with (map (option_map w_watch) (set_nth i None (slots s)))
        by (now rewrite set_nth_map). now apply rel_slots.
    + rewrite (r_busy _ _ R). destruct (manual || busy s) eqn:EB; [apply sim_now; [reflexivity|exact I]|].
      apply orb_false_iff in EB. destruct EB as [_ EB].
      apply (sim_bind (busy s)); [apply (IH TRun); try exact I; auto|reflexivity|]. intros _ s1 s1' R1 B1. apply IHp; auto.
    + apply (sim_cases (busy s) (busy s) (exec fl (TProg p) s) (clock s') (fun e n => exec' e n (TProg (adapt p)) s')
        (fun _ s1 => exec fl (TProg (k true)) s1) (fun e n _ s1 => exec' e n (TProg (adapt (k true))) s1)
        (fun s1 => exec fl (TProg (k false)) s1) (fun e n s1 => exec' e n (TProg (adapt (k false))) s1)).
      * apply IHp; auto. intros H. now apply OK.
      * intros f s1 s1' R1 B1. apply IHp; auto. intros H. now apply OK.
      * intros s1 s1' R1 B1. apply IHp; auto. intros H. now apply OK.
  - rewrite (r_busy _ _ R). destruct (manual && negb (busy s)) eqn:EB.
    + apply andb_true_iff in EB. destruct EB as [_ EB]. apply negb_true_iff in EB.
      apply (IH TRun); try exact I; auto; [now apply rel_push].
    + apply sim_done_c; auto. now apply rel_push.
  - apply (sim_cases true (busy s) (exec fl TDrain (set_busy true s)) (clock s') (fun e n => exec' e n TDrain (set_busy true s'))
      (fun _ s1 => Done None (set_busy false s1)) (fun e n _ s1 => Done None (set_busy false s1))
      (fun s1 => Thrown (set_busy false s1)) (fun e n s1 => Thrown (set_busy false s1))).
    + apply (IH TDrain); try exact I; auto; [now apply rel_busy|reflexivity].
    + intros f s1 s1' R1 B1. apply sim_done_c; auto. now apply rel_busy.
    + intros s1 s1' R1 B1. apply sim_thrown; auto. now apply rel_busy.
  - arriving (ext (clock s)); [right; eauto|].
    apply rel_arrive in R. rewrite <- (arrive_busy s) in HM |- *. revert R HM. generalize (arrive futures manual ext s), (arr (ext (clock s)) s').
    clear s s'. intros s s' R HM. remember (q s') as Q eqn:EQ. revert s s' R HM EQ.
    induction Q as [|j' Q IHQ]; intros s s' R HM EQ; pose proof (r_q _ _ R) as HQ; rewrite <- EQ in HQ.
    + inversion HQ as [EQ1| |]; subst. rewrite <- EQ1 in *. now apply sim_done.
    + pose proof (r_okq _ _ R) as HO. inversion HQ as [|j r r' HQ1 EQ1 EQ2|id r r' HT HQ1 EQ1 EQ2]; subst.
      * rewrite <- EQ1 in *. inversion HO; subst.
        apply (sim_bind (busy s)); [|reflexivity|].
        -- apply sim_throw; [apply (IH (TJob j)); auto; now apply rel_set_q|].
           intros s1 s1' R1. split; [now apply rel_emit|]. split; reflexivity.
        -- intros _ s1 s1' R1 B1. apply (IH TDrain); try exact I; auto; simpl; congruence.
      * set (s1' := set_q Q s').
        assert (R1 : rel s s1').
        { destruct R. constructor; simpl; auto. }
        set (F := fun e k => andthen (on_throw (exec' e k (TJob (JEffect id None (PRet None))) s1') (emit EFail)) (fun _ s2 => exec' e k TDrain s2)).
        change (sim (busy s) (match q s with
            | [] => Done None s
            | j :: r => andthen (on_throw (exec fl (TJob j) (set_q r s)) (emit EFail)) (fun _ s1 => exec fl TDrain s1) end)
          (clock s1') F).
        apply sim_shift, (sim_shift _ _ _ (fun e k => F e (S k))).
        set (s2' := emit (EEff id (last s1') (PRet None)) (emit (EBegin id (PRet None)) s1')).
        eapply sim_ext.
        { intros e k. unfold F. rewrite (skip_job e k id s1' HT). fold s2'. cbn [andthen on_throw StoreModel.exec]. reflexivity. }
        change (clock s1') with (clock s2'). 
        assert (R2 : rel s s2') by (apply rel_emit_r; auto; now apply rel_emit_r).
        assert (Q2 : q s2' = Q) by reflexivity. clearbody s2'.
        arriving (@nil A); [now left|].
        set (s3' := emit (EEffEnd id None) (arr [] s2')).
        assert (R3 : rel s s3') by (apply rel_emit_r; auto; now apply rel_arr_nil).
        assert (Q3 : q s3' = Q) by (unfold s3', arr; simpl; now destruct manual).
        change (clock (arr [] s2')) with (clock s3'). clearbody s3'.
        arriving (@nil A); [now left|].
        assert (Q4 : q (arr [] s3') = Q) by (unfold arr; rewrite <- Q3; now destruct manual). rewrite Q4.
        apply (sim_less _ _ _ (fun e k => match Q with
          | [] => Done None (arr [] s3')
          | j :: r => andthen (on_throw (exec' e k (TJob j) (set_q r (arr [] s3'))) (emit EFail)) (fun _ s4 => exec' e k TDrain s4) end)).
        apply IHQ; auto. now apply rel_arr_nil.
  - destruct j as [id p a|id p e|id p|p|f [c|m] n]; cbn [w_job w_cbk ok_job ok_cbk] in *.
    + pose proof (red _ _ a (r_cur _ _ R)) as RD. destruct (reducer (cur s) a) as [[m [e|]]|] eqn:EM.
      * destruct RD as (m' & -> & HR). cbn [option_map or_noop].
        apply (sim_bind (busy s)); [|reflexivity|].
        -- apply (IH (TPost (JEffect id p e))); try exact I; auto; [|intros H; exact (red_loose H _ _ _ _ EM)].
           apply rel_emit; auto. exists m'. eauto.
        -- intros _ s1 s1' R1 B1. apply sim_done_c; [now apply rel_push_down| |];
             unfold push_down; match goal with |- context [if ?x then _ else _] => destruct x end; auto.
      * destruct RD as (m' & -> & HR). cbn [option_map or_noop noop].
        assert (R1 : rel (emit (ERed id m false) s) (emit (ERed id m' true) s')) by (apply rel_emit; auto; exists m'; eauto).
        apply (sim_bind (busy s)); [|reflexivity|].
        -- destruct (bool_dec trans true) as [HT|HT].
           ++ rewrite (OK HT).
              match goal with |- sim _ ?X _ _ =>
                assert (EX : X = Done None (emit (ERed id m false) s)) by (now rewrite HT); rewrite EX; clear EX end.
              apply sim_S. cbn [StoreModel.exec]. 
              replace (busy (emit (ERed id m' true) s')) with true by (simpl; rewrite (r_busy _ _ R); auto).
              rewrite andb_false_r. apply sim_done_c; auto. now apply rel_push_more.
           ++ apply not_true_is_false in HT. 
              match goal with |- sim _ ?X _ _ =>
                assert (EX : X = exec fl (TPost (JNotify id p)) (emit (ERed id m false) s)) by (now rewrite HT); rewrite EX; clear EX end.
              apply (IH (TPost (JNotify id p))); try exact I; auto.
        -- intros _ s1 s1' R2 B2. apply sim_done_c; [now apply rel_push_down| |];
             unfold push_down; match goal with |- context [if ?x then _ else _] => destruct x end; auto.
      * rewrite RD. apply sim_thrown; auto. now apply rel_emit.
    + apply (sim_bind (busy s)); [|reflexivity|].
      * assert (R0 : rel (emit (EBegin id e) s) (emit (EBegin id (adapt e)) s')) by (now apply rel_emit).
        destruct trans; [now apply sim_done_c|]. apply sim_throw.
        -- apply (IH TNotify); try exact I; auto; [now apply rel_send_down|now rewrite send_busy|now rewrite send_clock].
        -- intros s1 s1' R1. split; [now apply rel_emit|]. split; reflexivity.
      * intros _ s1 s1' R1 B1. apply (sim_bind (busy s)); [|reflexivity|].
        -- apply IHp; auto. apply rel_emit; auto. exists (last s1'). split; auto. apply R1.
        -- intros f s2 s2' R2 B2. assert (R3 : rel (emit (EEffEnd id f) s2) (emit (EEffEnd id f) s2')) by (now apply rel_emit).
           destruct p as [n|]; [apply (IH (TThen f (CBFulfil n))); try exact I; auto|now apply sim_done_c].
    + apply (sim_ext _ _ _ (fun e k => andthen (on_throw (exec' e k TNotify (send_down (emit (EBegin id (PRet None)) s'))) (emit (ELost id))) (fun _ s1 =>
        andthen (exec' e k (TProg (PRet None)) (emit (EEff id (last s1) (PRet None)) s1)) (fun f s2 =>
        match p with Some n => exec' e k (TThen f (CBFulfil n)) (emit (EEffEnd id f) s2) | None => Done None (emit (EEffEnd id f) s2) end))));
        [intros e k; now rewrite OK|].
      apply (sim_bind (busy s)); [|reflexivity|].
      * apply (sim_throw_r (busy s)); [|intros s1 s1' R1; split; [now apply rel_emit_r|reflexivity]].
        apply (IH TNotify); try exact I; auto; [apply rel_send_down; now apply rel_emit_r|now rewrite send_busy|now rewrite send_clock].
      * intros _ s1 s1' R1 B1.
        set (s2' := emit (EEff id (last s1') (PRet None)) s1').
        assert (R2 : rel (emit (ETold id) s1) s2') by (apply rel_emit_l; auto; now apply rel_emit_r).
        change (clock s1') with (clock s2'). clearbody s2'. clear R1 s1'.
        apply (sim_shift _ _ _ (fun e k => andthen (exec' e k (TProg (PRet None)) s2') (fun f s2 => match p with Some n => exec' e k (TThen f (CBFulfil n)) (emit (EEffEnd id f) s2) | None => Done None (emit (EEffEnd id f) s2) end))).
        cbn [StoreModel.exec andthen]. arriving (@nil A); [now left|]. apply (rel_arr_nil _ s2') in R2. revert R2. generalize (arr [] s2').
        clear s2'. intros s2' R2. apply (rel_emit_r (EEffEnd id None)) in R2; auto.
        destruct p as [n|]; [apply (IH (TFulfil n)); try exact I; auto|now apply sim_done_c].
    + apply IHp; auto.
    + apply (sim_bind (busy s)); [apply IHp; auto; now apply rel_emit|reflexivity|].
      intros f1 s1 s1' R1 B1. apply (IH (TThen f1 (CBFulfil n))); try exact I; auto; [now apply rel_emit].
    + apply (sim_bind (busy s)); [apply (IH (TFulfil m)); try exact I; auto|reflexivity|].
      intros _ s1 s1' R1 B1. apply (IH (TFulfil n)); try exact I; auto.
  - destruct (bool_dec strict true) as [ES|ES].
    + destruct (r_strict _ _ R ES) as [-> ->]. destruct (nn s && negb (nsd s)); [|now apply sim_done].
      apply (IH (TSlots 0)); try exact I; auto; [now apply rel_nn].
    + apply not_true_is_false in ES. destruct (r_loose _ _ R ES) as (_ & _ & L).
      assert (L' : slots s' = []) by (rewrite (r_slots _ _ R), L; reflexivity).
      assert (RN : forall b c, rel (set_nn b s) (set_nn c s')).
      { destruct R. constructor; simpl; auto. congruence. }
      assert (SN : forall X B C (s : StoreModel.st X B C), s = set_nn (nn s) s) by (intros X B C []; reflexivity).
      assert (R' : forall b, sim (busy s) (Done None (set_nn b s)) (clock s')
        (fun e k => if nn s' && negb (nsd s') then exec' e k (TSlots 0) (set_nn false s') else Done None s')).
      { intros b. destruct (nn s' && negb (nsd s')).
        - change (clock s') with (clock (set_nn false s')). now apply no_slots.
        - apply sim_done; auto. rewrite (SN _ _ _ s'). apply RN. }
      destruct (nn s && negb (nsd s)).
      * destruct fl as [|fl]; [now left|]. cbn [StoreModel.exec]. cbn [set_nn slots]. rewrite L. apply R'.
      * rewrite (SN _ _ _ s) at 2. apply R'.
  - rewrite (r_slots _ _ R), nth_error_map. destruct (nth_error (slots s) i) as [[w|]|] eqn:EN; cbn [option_map].
    + assert (ES : strict = true).
      { apply strict_dec. intros ES. destruct (r_loose _ _ R ES) as (_ & _ & E). rewrite E in EN. now destruct i. }
      apply (sim_bind (busy s)); [|reflexivity|].
      * apply sim_throw.
        -- apply (IHv w (emit (ESee i (last s)) s) (emit (ESee i (last s')) s')); auto.
           ++ apply rel_emit; auto. exists (last s'). split; auto. apply R.
           ++ intros m. now apply strict_ok.
        -- intros s1 s1' R1. split; [now apply rel_emit|]. split; reflexivity.
      * intros _ s1 s1' R1 B1. apply (IH (TSlots (S i))); try exact I; auto.
    + apply (IH (TSlots (S i))); try exact I; auto.
    + now apply sim_done.
  - rewrite (r_heap _ _ R), nth_error_map.
    destruct (nth_error (heap s) n) as [[k [|] [|] [j|]]|] eqn:EN; cbn [option_map w_cell]; try (apply sim_now; [reflexivity|exact I]).
    + apply sim_done_c; auto. now apply (rel_upd n (Cell k true false None)).
    + apply sim_done_c; auto. now apply (rel_upd n (Cell k true false None)).
    + assert (OJ : ok_job j) by (apply (nth_ok _ _ _ _ _ (r_okh _ _ R) EN)).
      assert (R1 : rel (emit (EDone n) (upd_cell n (Cell k false true None) s))
                       (emit (EDone n) (upd_cell n (Cell k false true None) s'))).
      { apply rel_emit; [reflexivity|]. now apply (rel_upd n (Cell k false true None)). }
      apply (sim_cases (busy s) (busy s) (exec fl (TPost j) (emit (EDone n) (upd_cell n (Cell k false true None) s))) (clock s')
        (fun e m => exec' e m (TPost (w_job j)) (emit (EDone n) (upd_cell n (Cell k false true None) s')))
        (fun _ s1 => Done None (upd_cell n (Cell k true false None) s1)) (fun e m _ s1 => Done None (upd_cell n (Cell k true false None) s1))
        (fun s1 => Thrown (upd_cell n (Cell k false false None) s1)) (fun e m s1 => Thrown (upd_cell n (Cell k false false None) s1))).
      * apply (IH (TPost j)); try exact I; auto.
      * intros _ s1 s1' R2 B2. apply sim_done_c; auto. now apply (rel_upd n (Cell k true false None)).
      * intros s1 s1' R2 B2. apply sim_thrown; auto. now apply (rel_upd n (Cell k false false None)).
    + apply sim_done_c; auto. apply rel_emit; [reflexivity|]. now apply (rel_upd n (Cell k true false None)).
  - rewrite (r_heap _ _ R), nth_error_map, map_length.
    destruct (nth_error (heap s) f) as [[k d [|] [j|]]|] eqn:EN; cbn [option_map w_cell]; try (apply sim_now; [reflexivity|exact I]).
    set (s1 := emit (match c with CBUser c0 => EThen f (length (heap s)) c0 | CBFulfil m => ELink f m (length (heap s)) end)
                 (new_cell (match c with CBUser _ => KThen | CBFulfil _ => KLink end) s)).
    set (s1' := emit (match w_cbk c with CBUser c0 => EThen f (length (heap s)) c0 | CBFulfil m => ELink f m (length (heap s)) end)
                 (new_cell (match w_cbk c with CBUser _ => KThen | CBFulfil _ => KLink end) s')).
    assert (R1 : rel s1 s1').
    { unfold s1, s1'. destruct c; apply rel_emit; try reflexivity; now apply rel_new_cell. }
    destruct d.
    + apply (sim_cases (busy s) (busy s) (exec fl (TPost (JCb f c (length (heap s)))) (upd_cell f (Cell k true true None) s1)) (clock s')
        (fun e m => exec' e m (TPost (JCb f (w_cbk c) (length (heap s)))) (upd_cell f (Cell k true true None) s1'))
        (fun _ s2 => Done (Some (length (heap s))) (upd_cell f (Cell k true false None) s2))
        (fun e m _ s2 => Done (Some (length (heap s))) (upd_cell f (Cell k true false None) s2))
        (fun s2 => Thrown (upd_cell f (Cell k true false None) s2)) (fun e m s2 => Thrown (upd_cell f (Cell k true false None) s2))).
      * apply (IH (TPost (JCb f c (length (heap s)))) (upd_cell f (Cell k true true None) s1) (upd_cell f (Cell k true true None) s1')); auto; [].
        apply (rel_upd f (Cell k true true None)); auto.
      * intros _ s2 s2' R2 B2. apply sim_done_c; auto. now apply (rel_upd f (Cell k true false None)).
      * intros s2 s2' R2 B2. apply sim_thrown; auto. now apply (rel_upd f (Cell k true false None)).
    + apply sim_done_c; auto. now apply (rel_upd f (Cell k false false (Some (JCb f c (length (heap s)))))).
  - destruct c as [c|n]; cbn [w_cbk]; [now apply IHp|apply (IH (TFulfil n)); try exact I; auto].
Qed.
Theorem exec_sim : forall fl t s s', rel s s' -> ok_task t -> at_home t s ->
  sim (busy s) (exec fl t s) (clock s') (fun e k => exec' e k (w_task t) s').
Proof. induction fl as [|fl IH]; [now left|]. now apply sim_step. Qed.

Lemma same_event_weak : forall e e', same_event e e' ->
  DebuggerSpec.same_event view inj (fun m m' => view m' = Some m) e e'.
Proof. intros [] e' H; simpl in *; auto; try (destruct H as (m' & -> & H); eauto); destruct H as (m' & b' & -> & H); eauto. Qed.
Lemma logs_weak : forall l l', Forall2 same_event l l' ->
  Forall2 (DebuggerSpec.same_event view inj (fun m m' => view m' = Some m)) l l'.
Proof. induction 1; constructor; auto. now apply same_event_weak. Qed.
Lemma init_rel : forall m m' w, RM m m' -> rel (StoreModel.init m w) (StoreModel.init m' w).
Proof. intros m m' w H. constructor; simpl; auto. constructor. Qed.
(** The arrivals of the second store. *)
Definition ext_of (l : list (list A)) : nat -> list A' := fun n => map inj (nth n l []).
Lemma ext_agree : forall l, agree (ext_of l) 0 l.
Proof. intros l i x E. simpl. unfold ext_of. f_equal. now apply nth_error_nth. Qed.
Lemma ext_theirs : forall l, Forall theirs l -> forall n, ext_of l n = [] \/ exists i, ext_of l n = map inj (ext i).
Proof.
  intros l F n. unfold ext_of. destruct (nth_error l n) as [x|] eqn:E.
  - rewrite (nth_error_nth _ _ _ E). apply nth_error_In in E. rewrite Forall_forall in F.
    destruct (F x E) as [->|(i & ->)]; eauto.
  - apply nth_error_None in E. rewrite nth_overflow; auto.
Qed.
Lemma res_same : forall b r r', rel_res b r r' -> same_run view inj r r'.
Proof.
  assert (Y : forall s s', rel s s' -> view (cur s') = Some (cur s) /\ view (last s') = Some (last s) /\ world s' = world s /\
    Forall2 (DebuggerSpec.same_event view inj (fun m m' => view m' = Some m)) (filter visible (log s)) (filter visible (log s'))).
  { intros s s' []. repeat split; auto. now apply logs_weak. }
  intros b r r' HR. destruct r; simpl in *; auto; destruct HR as (s' & -> & R & _); eauto.
Qed.
Theorem run_sim : forall fuel m m' w p, RM m m' -> (strict = false -> unwatched p) ->
  run reducer eqb trans futures manual ext fuel m w p <> OutOfFuel ->
  exists ext' enough, regrouped inj ext ext' /\ forall fuel', enough <= fuel' ->
  same_run view inj (run reducer eqb trans futures manual ext fuel m w p)
                    (run reducer' eqb' trans futures manual ext' fuel' m' w (adapt p)).
Proof.
  intros fuel m m' w p HM HP HF. unfold run in *.
  destruct (exec_sim fuel (TProg p) _ _ (init_rel m m' w HM) HP I) as [X|(l & r' & HR & HC & HT & HE)]; [contradiction|].
  cbn [w_task] in HE. exists (ext_of l). destruct (HE (ext_of l) (ext_agree l)) as (n & N). exists n.
  split; [exact (ext_theirs l HT)|]. intros fuel' HL. rewrite (N fuel' HL). exact (res_same _ _ _ HR).
Qed.
(** Without other threads there is nothing to arrive. *)
Theorem run_sim_alone : forall fuel m m' w p, RM m m' -> (strict = false -> unwatched p) -> (forall n, ext n = []) ->
  run reducer eqb trans futures manual ext fuel m w p <> OutOfFuel ->
  exists enough, forall fuel', enough <= fuel' ->
  same_run view inj (run reducer eqb trans futures manual ext fuel m w p)
                    (run reducer' eqb' trans futures manual (fun _ => []) fuel' m' w (adapt p)).
Proof.
  intros fuel m m' w p HM HP HX HF. unfold run in *.
  destruct (exec_sim fuel (TProg p) _ _ (init_rel m m' w HM) HP I) as [X|(l & r' & HR & HC & HT & HE)]; [contradiction|].
  cbn [w_task] in HE. destruct (HE (fun _ => [])) as (n & N).
  { intros i x E. apply nth_error_In in E. rewrite Forall_forall in HT. destruct (HT x E) as [->|(j & ->)]; auto. now rewrite HX. }
  exists n. intros fuel' HL. rewrite (N fuel' HL). exact (res_same _ _ _ HR).
Qed.
End Sim.
