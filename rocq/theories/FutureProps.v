(** Properties of promises and futures used from several threads: C25.

    [reach role debug s]: [s] is a state of some execution in which any number of
    threads call the promise ([role i = Fulfil]) and attach callbacks ([role i =
    Attach]) in any interleaving. *)
From Coq Require Import List Arith Bool.
From Verif Require Import FutureModel FutureSpec FutureProofs FutureHist.
Import ListNotations.

Section Props.
Variable role : nat -> call.
Variable debug : bool.
Notation reach := (reach role debug).

(** No callback is posted twice. *)
Theorem C25_at_most_once : forall s, reach s -> NoDup (posts (log s)).
Proof. exact (once role debug). Qed.
(** A callback is posted when one of both calls is inside its critical section and
    the other is through with its own. *)
Theorem C25_after_both : forall s, reach s -> forall l1 i c l2, log s = l1 ++ EPost i c :: l2 ->
  role c = Attach /\ In (EStart c) l2 /\
  (role i = Fulfil -> In (EStart i) l2 /\ In (EUnlock c) l2) /\
  (role i = Attach -> c = i /\ exists f, role f = Fulfil /\ In (EStart f) l2 /\ In (EUnlock f) l2).
Proof. exact (after_both role debug). Qed.
(** When both have happened the callback was posted, exactly once. *)
Theorem C25_exactly_once : forall c, single role c -> forall s, reach s -> forall f, role f = Fulfil ->
  In (EUnlock f) (log s) -> In (EUnlock c) (log s) -> count_occ Nat.eq_dec (posts (log s)) c = 1.
Proof. exact (single_posted role debug). Qed.
(** With several attachments, which the interface forbids, a callback that was not
    posted was replaced by another one. *)
Theorem C25_posted_or_replaced : forall s, reach s -> forall f c, role f = Fulfil -> role c = Attach ->
  pc s f = Ret -> pc s c = Ret -> In c (posts (log s)) \/ In (EDrop c) (log s).
Proof. exact (posted_or_dropped role debug). Qed.
(** A second fulfilment, through a copy, posts nothing. *)
Theorem C25_second_silent : forall s, reach s -> forall l1 i c l2 f, log s = l1 ++ EPost i c :: l2 ->
  role i = Fulfil -> role f = Fulfil -> ~ In (EUnlock f) l2.
Proof. exact (second_silent role debug). Qed.
(** Some call can always go on, unless post runs other calls on the same promise. *)
Theorem C25_progress : forall s, reach s -> (forall k, parent s k = None) -> forall i, active (pc s i) ->
  exists j s', active (pc s j) /\ step role debug j s s'.
Proof. exact (progress role debug). Qed.
(** No data race without the asserts: never two calls about to access the shared
    members. *)
Theorem C25_no_race : debug = false -> forall s, reach s -> forall i j,
  touches (pc s i) -> touches (pc s j) -> i = j.
Proof. exact (no_race role debug). Qed.
(** The assertion in then() holds if there is one attachment. *)
Theorem C25_assert : forall c, single role c -> forall s, reach s -> forall i, pc s i <> Abort.
Proof. exact (no_abort role debug). Qed.
End Props.

(** ** Cases *)
Definition even_fulfil (i : nat) : call := if Nat.even i then Fulfil else Attach.
Definition only1 (i : nat) : call := if i =? 1 then Attach else Fulfil.
Lemma only1_single : single only1 1.
Proof.
  split; auto. intros k. unfold only1. destruct (Nat.eqb_spec k 1); auto. discriminate.
Qed.

(** An execution given by the order in which the calls take their steps. *)
Definition next (role : nat -> call) (debug : bool) (i : nat) (s : st) : option st :=
  match pc s i, role i with
  | New, _ => Some (goto i (entry role debug i) (set_parent i None (emit (EStart i) s)))
  | Peek, _ => Some (goto i (match callback s with None => Want | Some _ => Abort end) s)
  | Want, _ => match holder s with None => Some (goto i Crit (set_holder (Some i) s)) | Some _ => None end
  | Crit, Fulfil =>
      match done s, callback s with
      | false, Some c => Some (goto i (Posting c) (set_callback None (emit (EPost i c) s)))
      | _, _ => Some (goto i Mark s)
      end
  | Crit, Attach =>
      if done s then Some (goto i (Posting i) (emit (EPost i i) s))
      else Some (goto i Leave (set_callback (Some i) (drop s)))
  | Posting _, Fulfil => Some (goto i Mark s)
  | Posting _, Attach => Some (goto i Leave s)
  | Mark, _ => Some (goto i Clear (set_done s))
  | Clear, _ => Some (goto i Leave (set_callback None (drop s)))
  | Leave, _ => Some (goto i Ret (set_holder None (emit (EUnlock i) s)))
  | _, _ => None
  end.
Fixpoint schedule (role : nat -> call) (debug : bool) (l : list nat) (s : st) : option st :=
  match l with
  | [] => Some s
  | i :: l => match next role debug i s with Some s' => schedule role debug l s' | None => None end
  end.
Lemma next_step : forall role debug i s s', (forall k, parent s k = None) -> next role debug i s = Some s' ->
  step role debug i s s' /\ forall k, parent s' k = None.
Proof.
  intros role debug i s s' NP E.
  assert (DR : parent (drop s) = parent s) by (unfold drop; destruct (callback s); auto).
  assert (NC : no_children_left s i) by (intros k X; rewrite NP in X; discriminate).
  unfold next in E. destruct (pc s i) eqn:P; try discriminate.
  - injection E as <-. split; [apply s_start; auto; discriminate|]. intros k. simpl. unfold upd.
    destruct (k =? i); auto.
  - destruct (callback s) eqn:C; injection E as <-; (split; [|exact NP]).
    + eapply s_abort; eauto.
    + eapply s_assert; eauto.
  - destruct (holder s) eqn:H; [discriminate|]. injection E as <-. split; [now apply s_lock|exact NP].
  - destruct (role i) eqn:R.
    + destruct (done s) eqn:D; [injection E as <-; split; [apply s_fulfil_skip; auto|exact NP]|].
      destruct (callback s) eqn:C; injection E as <-; (split; [|exact NP]);
        [now apply s_fulfil_post|apply s_fulfil_skip; auto].
    + destruct (done s) eqn:D; injection E as <-; (split; [|simpl; try rewrite DR; exact NP]).
      * now apply s_attach_post.
      * now apply s_attach_keep.
  - pose proof (s_posted role debug i s c P NC) as X.
    destruct (role i); injection E as <-; (split; [exact X|exact NP]).
  - injection E as <-. split; [now apply s_mark|exact NP].
  - injection E as <-. split; [now apply s_clear|simpl; rewrite DR; exact NP].
  - injection E as <-. split; [now apply s_unlock|exact NP].
Qed.
Lemma schedule_reach : forall role debug l s s', reach role debug s -> (forall k, parent s k = None) ->
  schedule role debug l s = Some s' -> reach role debug s' /\ forall k, parent s' k = None.
Proof.
  intros role debug l. induction l as [|i l IH]; intros s s' H NP E; simpl in E; [injection E as <-; auto|].
  destruct (next role debug i s) as [s1|] eqn:EN; [|discriminate].
  destruct (next_step _ _ _ _ _ NP EN) as [HS NP']. apply (IH s1); auto. eapply r_step; eauto.
Qed.
Definition final (role : nat -> call) (debug : bool) (l : list nat) : st :=
  match schedule role debug l init with Some s => s | None => init end.
Lemma final_reach : forall role debug l, reach role debug (final role debug l) /\
  forall k, parent (final role debug l) k = None.
Proof.
  intros role debug l. unfold final. destruct (schedule role debug l init) as [s|] eqn:E.
  - apply (schedule_reach role debug l init s); auto. constructor.
  - split; auto. constructor.
Qed.

(** Copies 0 and 2 of the promise are called while call 1 attaches: the attaching
    call comes late and posts; it comes early and call 2 posts. *)
Definition late := final only1 false [1; 0; 2; 0; 0; 0; 0; 0; 1; 1; 1; 1; 2; 2; 2; 2; 2].
Definition early := final only1 false [1; 0; 2; 1; 1; 1; 2; 2; 2; 2; 2; 2; 0; 0; 0; 0; 0].
Example late_facts : reach only1 false late /\
  rev (log late) = [EStart 1; EStart 0; EStart 2; EUnlock 0; EPost 1 1; EUnlock 1; EUnlock 2].
Proof. split; [apply final_reach|vm_compute; reflexivity]. Qed.
Example early_facts : reach only1 false early /\
  rev (log early) = [EStart 1; EStart 0; EStart 2; EUnlock 1; EPost 2 1; EUnlock 2; EUnlock 0].
Proof. split; [apply final_reach|vm_compute; reflexivity]. Qed.
(** A call waits while another holds the mutex. *)
Definition waiting := final only1 false [1; 0; 1].
Example waiting_facts : (forall k, parent waiting k = None) /\ pc waiting 0 = Want /\ pc waiting 1 = Crit /\
  holder waiting = Some 1.
Proof. split; [apply final_reach|]. repeat split; vm_compute; reflexivity. Qed.

(** ** What does not hold *)

(** Two attachments: the first callback is destroyed, never posted. *)
Theorem C25_two_attachments_refuted : exists role s, reach role false s /\ role 0 = Fulfil /\ role 1 = Attach /\
  pc s 0 = Ret /\ pc s 1 = Ret /\ ~ In 1 (posts (log s)).
Proof.
  exists even_fulfil, (final even_fulfil false [1; 1; 1; 1; 3; 3; 3; 3; 0; 0; 0; 0; 0; 0; 0]).
  split; [apply final_reach|]. repeat split; try (vm_compute; reflexivity).
  vm_compute. intros [X|[]]. discriminate.
Qed.
(** With asserts on, then() reads the callback without the mutex while the promise
    is about to write it: a data race. *)
Theorem C25_assert_race_refuted : exists s i j, reach only1 true s /\ i <> j /\
  pc s i = Peek /\ pc s j = Clear.
Proof.
  exists (final only1 true [1; 0; 0; 0; 0]), 1, 0. split; [apply final_reach|].
  repeat split; try (vm_compute; reflexivity). discriminate.
Qed.
(** post is called with the mutex held.  If it runs the callback before returning, as
    the manual loop does, and the callback calls a copy of the promise, both wait for
    ever: no call that began can go on. *)
Theorem C25_nested_deadlock_refuted : exists s, reach only1 false s /\
  active (pc s 0) /\ active (pc s 2) /\ forall i s', step only1 false i s s' -> pc s i = New.
Proof.
  set (s := final only1 false [1; 1; 1; 1; 0; 0; 0]).
  set (t := goto 2 Want (set_parent 2 (Some 0) (emit (EStart 2) s))).
  assert (P0 : pc t 0 = Posting 1) by (vm_compute; reflexivity).
  assert (P1 : pc t 1 = Ret) by (vm_compute; reflexivity).
  assert (P2 : pc t 2 = Want) by (vm_compute; reflexivity).
  assert (P3 : forall i, pc t (S (S (S i))) = New) by (intros; vm_compute; reflexivity).
  assert (C2 : parent t 2 = Some 0) by (vm_compute; reflexivity).
  assert (HH : holder t = Some 0) by (vm_compute; reflexivity).
  assert (HR : reach only1 false t).
  { eapply r_step; [apply (final_reach only1 false)|]. apply (s_start only1 false 2 (Some 0)).
    - vm_compute; reflexivity.
    - intros k X. injection X as <-. exists 1. vm_compute. reflexivity. }
  clearbody t. clear s. exists t. split; auto.
  split; [rewrite P0; split; [discriminate|intros [X|[X|X]]; discriminate]|].
  split; [rewrite P2; split; [discriminate|intros [X|[X|X]]; discriminate]|].
  intros i s' HS. destruct i as [|[|[|i]]]; auto; exfalso.
  - assert (NC : ~ no_children_left t 0).
    { intros N. specialize (N 2 C2). rewrite P2 in N. destruct N as [N|[N|N]]; discriminate. }
    inversion HS; subst; try congruence; contradiction.
  - inversion HS; subst; congruence.
  - inversion HS; subst; congruence.
Qed.

Print Assumptions C25_at_most_once.
Print Assumptions C25_after_both.
Print Assumptions C25_exactly_once.
Print Assumptions C25_posted_or_replaced.
Print Assumptions C25_second_silent.
Print Assumptions C25_progress.
Print Assumptions C25_no_race.
Print Assumptions C25_assert.
Print Assumptions C25_two_attachments_refuted.
Print Assumptions C25_assert_race_refuted.
Print Assumptions C25_nested_deadlock_refuted.
