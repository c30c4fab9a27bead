(** More proofs about the Boost.Asio event loop: the threads of [async], one at a
    time, running out of work, stopping. *)
From Coq Require Import List Arith Bool Lia Permutation.
From Verif Require Import AsioModel AsioSpec AsioProofs.
Import ListNotations.

(** ** Functions given to [async] *)

Definition names (l : list (item * bool)) : list nat := map (fun f => num (fst f)) l.
Definition flag (a : nat) (f : item * bool) := if num (fst f) =? a then (fst f, true) else f.
Definition other_than (a : nat) (f : item * bool) := negb (num (fst f) =? a).

Lemma names_flag a l : names (map (flag a) l) = names l.
Proof.
  unfold names; rewrite map_map; apply map_ext; intro f; unfold flag.
  destruct (num (fst f) =? a); reflexivity.
Qed.

Lemma flag_other a l : ~ In a (names l) -> map (flag a) l = l /\ filter (other_than a) l = l.
Proof.
  induction l as [|f l IH]; intro N; [split; reflexivity|]; cbn in N |- *.
  destruct IH as [A B]; [intro I; apply N; auto|].
  unfold flag at 1, other_than at 1.
  destruct (num (fst f) =? a) eqn:E; [apply Nat.eqb_eq in E; destruct N; auto|].
  cbn; rewrite A, B; split; reflexivity.
Qed.

Lemma flag_perm a l f :
  NoDup (names l) -> find (fun f => num (fst f) =? a) l = Some (f, false) ->
  Permutation (names (filter snd (map (flag a) l))) (a :: names (filter snd l)).
Proof.
  induction l as [|g l IH]; intros N F; [discriminate F|]; cbn in N, F.
  inversion N as [|x y A B]; subst; cbn [map filter].
  destruct (num (fst g) =? a) eqn:E.
  - injection F as ->; replace (flag a (f, false)) with (f, true) by (unfold flag; rewrite E; reflexivity).
    apply Nat.eqb_eq in E; cbn in E |- *.
    destruct (flag_other a l) as [-> _]; [rewrite <- E; exact A|].
    rewrite E; apply Permutation_refl.
  - replace (flag a g) with g by (unfold flag; rewrite E; reflexivity).
    destruct (snd g); cbn; [|apply IH; auto].
    rewrite IH by auto; apply perm_swap.
Qed.

Lemma drop_perm a l f b :
  NoDup (names l) -> find (fun f => num (fst f) =? a) l = Some (f, b) ->
  Permutation (names l) (a :: names (filter (other_than a) l)).
Proof.
  induction l as [|g l IH]; intros N F; [discriminate F|]; cbn in N, F.
  inversion N as [|x y A B]; subst; cbn [filter].
  unfold other_than at 1; destruct (num (fst g) =? a) eqn:E; cbn.
  - apply Nat.eqb_eq in E; rewrite E.
    destruct (flag_other a l) as [_ ->]; [rewrite <- E; exact A | apply Permutation_refl].
  - rewrite (IH B F) at 1; apply perm_swap.
Qed.

Lemma drop_perm_begun a l f :
  NoDup (names l) -> find (fun f => num (fst f) =? a) l = Some (f, true) ->
  Permutation (names (filter snd l)) (a :: names (filter snd (filter (other_than a) l))).
Proof.
  induction l as [|g l IH]; intros N F; [discriminate F|]; cbn in N, F.
  inversion N as [|x y A B]; subst; cbn [filter].
  unfold other_than at 1; destruct (num (fst g) =? a) eqn:E; cbn.
  - apply Nat.eqb_eq in E; injection F as ->; cbn in *; rewrite E.
    destruct (flag_other a l) as [_ ->]; [rewrite <- E; exact A | apply Permutation_refl].
  - destruct (snd g); cbn; [|apply IH; auto].
    rewrite (IH B F) at 1; apply perm_swap.
Qed.

Definition threads (s : st) : Prop :=
  Permutation (given (log s)) (back (log s) ++ names (fns s)) /\
  Permutation (called (log s)) (back (log s) ++ names (filter snd (fns s))).

Lemma nodup_right {A} (l1 l2 : list A) : NoDup (l1 ++ l2) -> NoDup l2.
Proof. induction l1; cbn; [auto | intro N; inversion N; auto]. Qed.

Lemma threads_nodup c s : reach c s -> threads s -> NoDup (names (fns s)).
Proof.
  intros R [T _]; destruct (numbered_reach _ _ R) as (_ & N & _).
  apply (Permutation_NoDup T) in N; exact (nodup_right _ _ N).
Qed.

Lemma snoc_mid (l r : list nat) x : Permutation (l ++ x :: r) ((l ++ [x]) ++ r).
Proof. rewrite <- app_assoc; apply Permutation_refl. Qed.

Lemma threads_step c l s s' : reach c s -> threads s -> step c l s = Some s' -> threads s'.
Proof.
  intros R T H; pose proof (threads_nodup _ _ R T) as N; destruct T as [T1 T2].
  unfold threads; unstep H; proj; simpl_log; auto.
  - split.
    + unfold names; rewrite map_app, app_assoc; cbn [map fst num]; apply Permutation_app_tail, T1.
    + rewrite filter_app; cbn [filter snd]; rewrite app_nil_r; exact T2.
  - split.
    + unfold names; rewrite map_app, app_assoc; cbn [map fst num]; apply Permutation_app_tail, T1.
    + rewrite filter_app; cbn [filter snd]; rewrite app_nil_r; exact T2.
  - change (fun f => if num (fst f) =? a then (fst f, true) else f) with (flag a).
    rewrite names_flag; split; [exact T1|].
    rewrite (flag_perm _ _ _ N Heqo), <- Permutation_cons_append, T2.
    apply Permutation_middle.
  - change (fun f => negb (num (fst f) =? a)) with (other_than a); split.
    + rewrite T1, (drop_perm _ _ _ _ N Heqo); apply snoc_mid.
    + rewrite T2, (drop_perm_begun _ _ _ N Heqo); apply snoc_mid.
Qed.

Theorem threads_reach c s : reach c s -> threads s.
Proof. apply reach_ind; [split; constructor | intros; eapply threads_step; eauto]. Qed.

(** Called at most once, and only if given. *)
Theorem async_once c s : reach c s ->
  NoDup (given (log s)) /\ NoDup (called (log s)) /\
  (forall a, In a (called (log s)) -> In a (given (log s))).
Proof.
  intro R; destruct (threads_reach _ _ R) as [T1 T2]; destruct (numbered_reach _ _ R) as (_ & N & _).
  pose proof (Permutation_NoDup T1 N) as M.
  assert (S1 : forall a, In a (names (filter snd (fns s))) -> In a (names (fns s))).
  { intros a I; apply in_map_iff in I as (f & E & I); apply filter_In in I as [I _].
    apply in_map_iff; exists f; auto. }
  split; [exact N|]; split.
  - apply (Permutation_NoDup (Permutation_sym T2)).
    clear - M S1; revert M; induction (back (log s)) as [|x r IH]; cbn.
    + unfold names; clear S1; induction (fns s) as [|g l IH]; [constructor|]; cbn; intro M.
      inversion M as [|y z A B]; subst; destruct (snd g); cbn; [constructor|]; auto.
      intro I; apply A; apply in_map_iff in I as (f & E & I); apply filter_In in I as [I _].
      apply in_map_iff; exists f; auto.
    + intro M; inversion M as [|y z A B]; subst; constructor; [|auto].
      intro I; apply A; apply in_app_iff in I as [I | I]; apply in_app_iff; auto.
  - intros a I; apply (Permutation_in _ T2) in I; apply (Permutation_in _ (Permutation_sym T1)).
    apply in_app_iff in I as [I | I]; apply in_app_iff; auto.
Qed.

(** A thread that was made calls its function whenever it gets to run. *)
Theorem async_starts c s a : reach c s -> fated s = Going ->
  In a (given (log s)) -> ~ In a (called (log s)) ->
  exists s', step c (LFnBegin a) s = Some s' /\ In a (called (log s')).
Proof.
  intros R G I N; destruct (threads_reach _ _ R) as [T1 T2].
  apply (Permutation_in _ T1) in I; apply in_app_iff in I as [I | I].
  { destruct N; apply (Permutation_in _ (Permutation_sym T2)), in_app_iff; auto. }
  unfold step; rewrite G; cbn; unfold fn_at.
  destruct (find _ (fns s)) as [[f b]|] eqn:F.
  - destruct b.
    + destruct N; apply (Permutation_in _ (Permutation_sym T2)), in_app_iff; right.
      apply find_some in F as [F E]; apply Nat.eqb_eq in E; cbn in E.
      apply in_map_iff; exists (f, true); split; [exact E|]; apply filter_In; auto.
    + eexists; split; [reflexivity|]; cbn; apply in_app_iff; cbn; auto.
  - apply in_map_iff in I as (f & E & I); apply (find_none _ _ F) in I.
    rewrite E, Nat.eqb_refl in I; discriminate I.
Qed.

(** ** Stopped *)

Lemma halted_app l1 l2 : no_restart l1 -> halted l2 = true -> halted (l1 ++ l2) = true.
Proof.
  unfold no_restart; induction l1 as [|e r IH]; intros N H; [exact H|]; cbn.
  assert (X : halted (r ++ l2) = true) by (apply IH; auto; intro I; apply N; right; exact I).
  destruct e; auto; destruct N; left; reflexivity.
Qed.

Definition stop_known (s : st) : Prop := stopped s = halted (log s).

Lemma settle_known s : stop_known s -> stop_known (settle s).
Proof. unfold stop_known, settle; destruct (load s =? 0); auto. Qed.

Lemma known_step c l s s' : stop_known s -> step c l s = Some s' -> stop_known s'.
Proof.
  intros K H.
  unfold step, go, do_use, do_post, do_async, do_finish, enqueue, robbed, on_exit, set_worker in H.
  case_step H; subst; try apply settle_known; unfold stop_known in *; cbn; auto.
Qed.

Theorem known_reach c s : reach c s -> stop_known s.
Proof. apply reach_ind; [reflexivity | intros; eapply known_step; eauto]. Qed.

(** ** What held whenever an event was logged *)

Definition at_events (P : event -> list event -> Prop) (l : list event) : Prop :=
  forall l1 e l2, l = l1 ++ e :: l2 -> P e l2.

Lemma at_cons (P : event -> list event -> Prop) e l : at_events P l -> P e l -> at_events P (e :: l).
Proof.
  intros A B [|x l1] f l2 E; cbn in E; injection E; intros; subst; [exact B|].
  exact (A _ _ _ eq_refl).
Qed.

Lemma at_settle (P : event -> list event -> Prop) s :
  at_events P (log s) -> (load s = 0 -> P ERanOut (log s)) -> at_events P (log (settle s)).
Proof.
  intros A B; unfold settle; destruct (load s =? 0) eqn:E; [|exact A].
  apply Nat.eqb_eq in E; apply at_cons; auto.
Qed.

(** run() returns, and finish() stops, only so. *)
Definition honest (c : cfg) (e : event) (l : list event) : Prop :=
  match e with
  | EReturn _ => halted l = true
  | EFinish _ => stops c = true -> halted l = true
  | EBegin _ _ => strand c = false -> halted l = false
  | _ => True
  end.

Theorem honest_reach c s : reach c s -> at_events (honest c) (log s).
Proof.
  apply (reach_ind c (fun s => at_events (honest c) (log s))).
  - intros [|x l1] e l2 E; discriminate E.
  - clear s; intros l s s' R A H; pose proof (known_reach _ _ R) as K; unfold stop_known in K.
    pose proof (ok_kind _ _ (ok_reach _ _ R)) as KD.
    unfold step, go, do_use, do_post, do_async, do_finish, enqueue, robbed, on_exit, set_worker in H.
    case_step H; subst; try (apply at_settle; [|intros _; exact Logic.I]); cbn [log note set_queues set_ws
      set_fns set_other set_stopped set_alive set_vars bump set_fate]; auto.
    all: repeat (apply at_cons; [|cbn; try exact Logic.I]); auto.
    all: try congruence.
    intro F; apply worker_in in Heqo; apply nth_error_In in Heqo.
    rewrite Forall_forall in KD; specialize (KD _ Heqo); cbn in KD; congruence.
Qed.

Theorem returns c s t l1 l2 : reach c s -> log s = l1 ++ EReturn t :: l2 -> halted l2 = true.
Proof. intros R E; exact (honest_reach _ _ R _ _ _ E). Qed.

Theorem finishes c s w l1 l2 : stops c = true ->
  reach c s -> log s = l1 ++ EFinish w :: l2 -> halted l2 = true.
Proof. intros S1 R E; exact (honest_reach _ _ R _ _ _ E S1). Qed.

Lemma begun_app l1 l2 : begun (l1 ++ l2) = begun l2 ++ begun l1.
Proof.
  induction l1 as [|e r IH]; cbn; [rewrite app_nil_r; reflexivity|].
  destruct e; rewrite ?IH, ?app_assoc; reflexivity.
Qed.

Lemma no_begins l : (forall t i, ~ In (EBegin t i) l) -> begun l = [].
Proof.
  induction l as [|e r IH]; intro N; [reflexivity|]; cbn.
  assert (B : begun r = []) by (apply IH; intros t i I; apply (N t i); right; exact I).
  rewrite B; destruct e; try reflexivity; destruct (N t id); left; reflexivity.
Qed.

Lemma in_begun l i : In i (begun l) -> exists l1 t l2, l = l1 ++ EBegin t i :: l2.
Proof.
  induction l as [|e r IH]; intro I; [destruct I|].
  assert (A : In i (begun r) \/ exists t, e = EBegin t i).
  { destruct e; cbn in I; auto; apply in_app_iff in I as [I | [<- | []]]; eauto. }
  destruct A as [A | [t ->]].
  - destruct (IH A) as (l1 & t & l2 & ->); exists (e :: l1), t, l2; reflexivity.
  - exists [], t, r; reflexivity.
Qed.

Theorem stopped_plain c s l1 l2 : strand c = false -> reach c s ->
  log s = l1 ++ l2 -> halted l2 = true -> no_restart l1 -> begun (log s) = begun l2.
Proof.
  intros P R E H N; rewrite E, begun_app, (no_begins l1), app_nil_r; [reflexivity|].
  intros t i I; apply in_split in I as (x & y & ->); rewrite <- app_assoc in E; cbn in E.
  pose proof (honest_reach _ _ R _ _ _ E P) as F.
  rewrite (halted_app y l2) in F; [discriminate F | | exact H].
  intro I; apply N; apply in_app_iff; right; right; exact I.
Qed.

(** On a strand: only what had been posted before. *)
Definition early (i : nat) (l : list event) : Prop :=
  In i (posted l) /\
  forall l1 l2, l = l1 ++ l2 -> halted l2 = true -> no_restart l1 -> In i (posted l2).

Lemma early_cons i e l : early i l -> early i (e :: l).
Proof.
  intros [A B]; assert (C : In i (posted (e :: l))).
  { destruct e; cbn; auto; apply in_app_iff; auto. }
  split; [exact C|]; intros [|x l1] l2 E H N; cbn in E.
  - subst l2; exact C.
  - injection E as -> ->; apply (B l1 l2 eq_refl H); intro I; apply N; right; exact I.
Qed.

Lemma early_running i l : In i (posted l) -> halted l = false -> early i l.
Proof.
  intros A F; split; [exact A|]; intros l1 l2 -> H N.
  rewrite (halted_app _ _ N H) in F; discriminate F.
Qed.

Definition in_strand (s : st) : Prop := sum invs s <> 0.
Definition batch (c : cfg) (s : st) : Prop :=
  in_strand s -> forall h, In h (ready s) -> early (num h) (log s).

Lemma posted_in c s h : reach c s -> In h (ready s) -> strand c = true -> In (num h) (posted (log s)).
Proof.
  intros R I S1; destruct (ok_queued _ _ (ok_reach _ _ R)) as [Q _]; unfold pend in Q; rewrite S1 in Q.
  rewrite Q; apply in_app_iff; right; apply in_map, in_app_iff; auto.
Qed.

Lemma batch_settle c s : batch c s -> batch c (settle s).
Proof.
  unfold batch, in_strand, sum; intros B; rewrite settle_ws, settle_ready; intros N h I.
  specialize (B N h I); unfold settle; destruct (load s =? 0); [apply early_cons|]; exact B.
Qed.

Lemma sum_mid {A} (f : A -> nat) l1 l2 x : list_sum (map f (l1 ++ x :: l2)) = f x + list_sum (map f (l1 ++ l2)).
Proof. rewrite !map_app, !list_sum_app; cbn [map]; unfold list_sum; cbn [fold_right]; lia. Qed.

Lemma batch_step c l s s' : reach c s -> batch c s -> step c l s = Some s' -> batch c s'.
Proof.
  intros R B H; pose proof (ok_reach _ _ R) as O.
  pose proof (ok_kind _ _ O) as KD; pose proof (ok_lock _ _ O) as L; pose proof (known_reach _ _ R) as K.
  unfold stop_known in K.
  assert (PI : strand c = true -> forall h, In h (ready s) -> In (num h) (posted (log s)))
    by (intros; eapply posted_in; eauto).
  unfold batch, in_strand, sum in B, L.
  unfold step, go, do_use, do_post, do_async, do_finish, enqueue, robbed, on_exit, set_worker in H.
  case_step H; subst; try apply batch_settle; split_ws; unfold batch, in_strand, sum in *;
    cbn [log note set_queues set_ws set_fns set_other set_stopped set_alive set_vars bump set_fate
         ready ws] in *; intros N h0 I; repeat apply early_cons; auto.
  all: repeat match goal with
       | H : context [list_sum (map _ (_ ++ _ :: _))] |- _ => rewrite sum_mid in H
       end; cbn [invs plus] in *.
  all: rewrite ?app_nil_r in *.
  all: try (exfalso; repeat match goal with
         | H : context [if ?b then 1 else 0] |- _ => destruct b end; lia).
  all: try (apply B; [lia | solve [cbn; auto]]).
  apply early_running; auto.
Qed.

Theorem batch_reach c s : reach c s -> batch c s.
Proof.
  apply (reach_ind c (batch c)); [intros N; cbn in N; destruct N; reflexivity|].
  intros; eapply batch_step; eauto.
Qed.

Definition timely (e : event) (l : list event) : Prop :=
  match e with EBegin _ i => early i l | _ => True end.

Theorem timely_reach c s : reach c s -> at_events timely (log s).
Proof.
  apply (reach_ind c (fun s => at_events timely (log s))).
  - intros [|x l1] e l2 E; discriminate E.
  - clear s; intros l s s' R A H; pose proof (known_reach _ _ R) as K; unfold stop_known in K.
    pose proof (batch_reach _ _ R) as B; pose proof (ok_queued _ _ (ok_reach _ _ R)) as [Q _].
    unfold batch, in_strand, sum, pend in *.
    unfold step, go, do_use, do_post, do_async, do_finish, enqueue, robbed, on_exit, set_worker in H.
    case_step H; subst; try (apply at_settle; [|intros _; exact Logic.I]); cbn [log note set_queues set_ws
      set_fns set_other set_stopped set_alive set_vars bump set_fate]; auto.
    all: repeat (apply at_cons; [|cbn; try exact Logic.I]); auto.
    + apply early_running; [|congruence]; rewrite Q; apply in_app_iff; right; left; reflexivity.
    + apply B; [|left; reflexivity].
      split_ws; rewrite sum_mid; cbn; discriminate.
Qed.

Lemma posted_app l1 l2 : posted (l1 ++ l2) = posted l2 ++ posted l1.
Proof.
  induction l1 as [|e r IH]; cbn; [rewrite app_nil_r; reflexivity|].
  destruct e; rewrite ?IH, ?app_assoc; reflexivity.
Qed.

Theorem stopped_strand c s l1 l2 : reach c s ->
  log s = l1 ++ l2 -> halted l2 = true -> no_restart l1 ->
  forall i, In i (begun (log s)) -> In i (posted l2).
Proof.
  intros R E H N i I; rewrite E, begun_app in I; apply in_app_iff in I as [I | I].
  - apply in_begun in I as (x & t & y & ->).
    rewrite app_assoc in E; destruct (timely_reach _ _ R _ _ _ E) as [P _].
    rewrite posted_app; apply in_app_iff; left; cbn; exact P.
  - apply in_begun in I as (x & t & y & ->); rewrite <- app_assoc in E; cbn in E.
    destruct (timely_reach _ _ R _ _ _ E) as [_ P]; apply (P y l2 eq_refl H).
    intro J; apply N; apply in_app_iff; right; right; exact J.
Qed.

(** ** Running out of work *)

Definition drained (l : list event) : Prop :=
  begun l = posted l /\ (forall i, In i (posted l) -> In i (ended l)) /\
  (forall a, In a (given l) -> In a (back l)).

Lemma sum_zero {A} (f : A -> nat) l : list_sum (map f l) = 0 -> forall x, In x l -> f x = 0.
Proof.
  induction l as [|y l IH]; intros Z x I; [destruct I|].
  change (f y + list_sum (map f l) = 0) in Z; destruct I as [-> | I]; [lia | apply IH; [lia | exact I]].
Qed.

Lemma flat_none {A B} (f : A -> list B) l : (forall x, In x l -> f x = []) -> flat_map f l = [].
Proof.
  induction l as [|x l IH]; intro H; [reflexivity|]; cbn.
  rewrite (H x) by (left; reflexivity); apply IH; intros; apply H; right; assumption.
Qed.

Lemma drained_idle c s : ok c s -> threads s -> load s = 0 -> drained (log s).
Proof.
  intros [[Q1 Q2] K L C _] [T _] Z; unfold load in Z.
  assert (Zq : que s = []) by (destruct (que s); [reflexivity | cbn in Z; lia]).
  assert (Zs : sched s = false) by (destruct (sched s); [lia | reflexivity]).
  assert (Zf : fns s = []) by (destruct (fns s); [reflexivity | cbn in Z; lia]).
  assert (Zb : list_sum (map busy (ws s)) = 0) by lia.
  assert (Zi : list_sum (map invs (ws s)) = 0).
  { clear - Zb; induction (ws s) as [|w l IH]; [reflexivity|].
    change (busy w + list_sum (map busy l) = 0) in Zb.
    change (invs w + list_sum (map invs l) = 0).
    rewrite IH by lia; destruct w as [[]|]; cbn in *; lia. }
  assert (Zc : flat_map cur (ws s) = []).
  { apply flat_none; intros w I; pose proof (sum_zero _ _ Zb _ I) as X.
    destruct w as [[| |[]]|]; cbn in *; try reflexivity; discriminate X. }
  unfold sum in L; rewrite Zs, Zi in L.
  assert (P : pend c s = []).
  { unfold pend; destruct (strand c); [|exact Zq].
    destruct Q2 as [_ Q2]; destruct (locked s); [discriminate L|].
    destruct (Q2 eq_refl) as [-> ->]; reflexivity. }
  rewrite P in Q1; cbn in Q1; rewrite app_nil_r in Q1.
  rewrite Zc, app_nil_r in C; rewrite Zf in T; cbn in T; rewrite app_nil_r in T.
  split; [symmetry; exact Q1|]; split.
  - intros i I; rewrite Q1 in I; exact (Permutation_in _ C I).
  - intros a I; exact (Permutation_in _ T I).
Qed.

Lemma load_settle s : load (settle s) = load s.
Proof. unfold settle; destruct (load s =? 0); reflexivity. Qed.

Definition quiet (e : event) (l : list event) : Prop :=
  match e with ERanOut => drained l | _ => True end.

Theorem quiet_reach c s : reach c s -> at_events quiet (log s).
Proof.
  apply (reach_ind c (fun s => at_events quiet (log s))).
  - intros [|x l1] e l2 E; discriminate E.
  - clear s; intros l s s' R A H; pose proof (reach_step _ _ _ _ R H) as R'.
    pose proof (ok_reach _ _ R') as O'; pose proof (threads_reach _ _ R') as T'.
    unfold step, go, do_use, do_post, do_async, do_finish, enqueue, robbed, on_exit, set_worker in H.
    case_step H; subst; try (apply at_settle; [|intros Z; rewrite <- load_settle in Z;
       pose proof (drained_idle _ _ O' T' Z) as D; unfold drained in D;
       rewrite settle_begun, settle_posted, settle_ended, settle_given, settle_back in D; exact D]);
      cbn [log note set_queues set_ws
      set_fns set_other set_stopped set_alive set_vars bump set_fate]; auto.
    all: repeat (apply at_cons; [|cbn; try exact Logic.I]); auto.
Qed.

Theorem ran_out c s l1 l2 : reach c s -> log s = l1 ++ ERanOut :: l2 ->
  begun l2 = posted l2 /\ (forall i, In i (posted l2) -> In i (ended l2)) /\
  (forall a, In a (given l2) -> In a (back l2)).
Proof. intros R E; exact (quiet_reach _ _ R _ _ _ E). Qed.

(** ** One at a time *)

Definition line (s : st) : Prop :=
  match flat_map cur (ws s) with
  | [] => begun (log s) = ended (log s)
  | [i] => begun (log s) = ended (log s) ++ [i]
  | _ => False
  end.

Lemma step_log c l s s' : step c l s = Some s' -> exists es, log s' = es ++ log s.
Proof.
  intro H.
  assert (S1 : forall x, (exists es, log x = es ++ log s) -> exists es, log (settle x) = es ++ log s).
  { intros x [es E]; unfold settle; destruct (load x =? 0); cbn; [|eauto].
    exists (ERanOut :: es); rewrite E; reflexivity. }
  unfold step, go, do_use, do_post, do_async, do_finish, enqueue, robbed, on_exit, set_worker in H.
  case_step H; subst; try apply S1; cbn;
    first [exists []; reflexivity | eexists [_]; reflexivity | eexists [_; _]; reflexivity].
Qed.

Lemma line_step c l s s' : reach c s ->
  length (flat_map cur (ws s')) <= 1 -> line s -> step c l s = Some s' -> line s'.
Proof.
  intros R L B H; unfold line in *.
  unstep H; proj; split_ws; auto.
  all: rewrite ?flat_map_app in *; cbn [flat_map cur app] in *; rewrite ?app_nil_r in *; auto.
  all: destruct (flat_map cur l1) as [|x1 [|y1 r1]], (flat_map cur l2) as [|x2 [|y2 r2]];
    cbn in *; try lia; try contradiction; congruence.
Qed.

Lemma crowd (f : option worker -> nat) l :
  (forall w, In w l -> length (cur w) <= f w) -> length (flat_map cur l) <= list_sum (map f l).
Proof.
  induction l as [|w l IH]; intro H; [constructor|]; cbn [flat_map map].
  change (length (cur w ++ flat_map cur l) <= f w + list_sum (map f l)).
  rewrite app_length; specialize (IH (fun x I => H x (or_intror I))).
  specialize (H w (or_introl eq_refl)); lia.
Qed.

Lemma crowd_strand c s : strand c = true -> reach c s -> length (flat_map cur (ws s)) <= 1.
Proof.
  intros S1 R; destruct (ok_reach _ _ R) as [_ K L _ _].
  assert (X : length (flat_map cur (ws s)) <= list_sum (map invs (ws s))).
  { apply crowd; intros w I; rewrite Forall_forall in K; specialize (K _ I).
    destruct w as [[| |[]]|]; cbn in *; try lia; congruence. }
  unfold sum in L; destruct (locked s); lia.
Qed.

Lemma crowd_alone c s : alone (log s) -> reach c s -> length (flat_map cur (ws s)) <= 1.
Proof.
  intros A R; destruct (ok_reach _ _ R) as [_ _ _ _ I].
  assert (X : length (flat_map cur (ws s)) <= list_sum (map here (ws s))).
  { apply crowd; intros w J; destruct w as [[| |[]]|]; cbn in *; lia. }
  specialize (A [] (log s) eq_refl); unfold sum in I; lia.
Qed.

Lemma line_serial s : line s -> serial (log s).
Proof.
  unfold line, serial; destruct (flat_map cur (ws s)) as [|i [|]]; [auto | eauto | contradiction].
Qed.

Theorem serial_strand c s : strand c = true -> reach c s -> serial (log s).
Proof.
  intros S1 R; apply line_serial; revert s R; apply (reach_ind c line); [reflexivity|].
  intros l s s' R B H; pose proof (reach_step _ _ _ _ R H) as R'.
  exact (line_step c l s s' R (crowd_strand c s' S1 R') B H).
Qed.

Theorem serial_alone c s : reach c s -> alone (log s) -> serial (log s).
Proof.
  intros R A; apply line_serial; revert A; revert s R.
  apply (reach_ind c (fun s => alone (log s) -> line s)); [reflexivity|].
  intros l s s' R B H A; pose proof (reach_step _ _ _ _ R H) as R'.
  refine (line_step c l s s' R (crowd_alone c s' A R') _ H).
  apply B; destruct (step_log _ _ _ _ H) as [es E]; intros l1 l2 F.
  apply (A (es ++ l1) l2); rewrite E, F, app_assoc; reflexivity.
Qed.

(** ** Waiting *)

Theorem waits c s t : reach c s -> fated s = Going -> worker_of t s = Some Idle ->
  step c (LBegin t) s = None -> step c (LLeave t) s = None ->
  posted (log s) = begun (log s) \/ (strand c = true /\ exists u h, worker_of u s = Some (Inv h)).
Proof.
  intros R G W B V; unfold step in B, V; rewrite G in B, V; cbn in B, V; rewrite W in B, V.
  destruct (stopped s); [discriminate V|].
  destruct (ok_reach _ _ R) as [[Q1 Q2] K L _ _]; unfold pend in Q1.
  destruct (strand c).
  - destruct (sched s); [discriminate B|]; destruct Q2 as [_ Q2].
    destruct (locked s).
    + right; split; [reflexivity|]; unfold sum in L; clear - L.
      assert (X : exists w, In w (ws s) /\ invs w <> 0).
      { induction (ws s) as [|w l IH]; [discriminate L|].
        change (0 + (invs w + list_sum (map invs l)) = 1) in L.
        destruct (invs w) eqn:E; [destruct (IH L) as (x & I & N); exists x; cbn; auto|].
        exists w; split; [left; reflexivity | rewrite E; discriminate]. }
      destruct X as (w & I & N); apply In_nth_error in I as [u I].
      destruct w as [[| |h]|]; try (destruct N; reflexivity).
      exists u, h; unfold worker_of; rewrite I; reflexivity.
    + left; destruct (Q2 eq_refl) as [E1 E2]; rewrite E1, E2 in Q1; cbn in Q1; rewrite app_nil_r in Q1.
      exact Q1.
  - left; destruct (que s); [|discriminate B]; cbn in Q1; rewrite app_nil_r in Q1; exact Q1.
Qed.

(** ** Variables *)

Lemma upd_other {A} n m (x : A) l : n <> m -> nth_error (upd n x l) m = nth_error l m.
Proof.
  revert n m; induction l as [|y l IH]; intros [|n] [|m] N; cbn; try reflexivity; try (destruct N; reflexivity).
  apply IH; intros ->; apply N; reflexivity.
Qed.

Theorem vars_kept c l s s' v b : step c l s = Some s' -> nth_error (vars s) v = Some b ->
  (forall w, l <> LUse w (UAsync (Var v))) -> nth_error (vars s') v = Some b.
Proof.
  intros H V N.
  assert (S1 : forall x, vars (settle x) = vars x) by (intro x; apply settle_same).
  unfold step, go, do_use, do_post, do_async, do_finish, enqueue, robbed, on_exit, set_worker in H.
  case_step H; subst; rewrite ?S1; cbn; auto.
  - rewrite upd_other; [exact V|]; intros ->; destruct (N w); reflexivity.
  - rewrite nth_error_app1; [exact V|]; apply nth_error_Some; rewrite V; discriminate.
Qed.
