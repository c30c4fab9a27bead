(** Proofs about the thread-safe queue. *)
From Coq Require Import List Arith Bool Lia Permutation.
From Verif Require Import LoopModel LoopSpec LoopProofs.
Import ListNotations.

Section Safe.
Variable J : Type.
Notation sst := (sst J).

Definition ctl_ok (c : ctl) (l : queue J) : Prop :=
  match c with
  | Idle => present J l
  | Loop _ i | Body _ i _ => exists a b, l = a ++ b /\ length a = i /\ moved J a /\ present J b
  | Swap | Swapping => l = []
  end.

(** ** Nothing lost, nothing duplicated *)
Record SInv (s : sst) : Prop := {
  si_all : sall (slog s) = seq 0 (nposts s);
  si_keep : Permutation (sran (slog s) ++ waiting (local s) ++ waiting (shared s)) (sall (slog s));
  si_local : ctl_ok (ctrl s) (local s);
  si_shared : present J (shared s);
  si_lock : lock s = Owner <-> ctrl s = Swapping }.

Lemma waiting_push : forall id (j : J) (l : queue J), waiting (push id j l) = waiting l ++ [id].
Proof. intros. unfold push. now rewrite waiting_app. Qed.
Lemma present_push : forall id (j : J) (l : queue J), present J l -> present J (push id j l).
Proof. intros. apply Forall_app. split; auto. constructor; auto. discriminate. Qed.
Lemma take_waiting : forall c (l : queue J) id j, ctl_ok c l -> forall b i, c = Loop b i ->
  nth_error l i = Some (id, Some j) ->
  exists y, waiting l = id :: y /\ waiting (move_out i l) = y /\ ctl_ok (Body b (S i) id) (move_out i l).
Proof.
  intros c l id j H b i -> E. destruct H as (x & y & El & L & M & P).
  rewrite El, nth_error_app2 in E by lia. rewrite L, Nat.sub_diag in E.
  destruct y as [|e y]; [discriminate|]. simpl in E. injection E as ->.
  exists (waiting y). rewrite El, <- L, move_out_split, !waiting_app, (waiting_moved _ x M). simpl.
  split; auto. split; auto. exists (x ++ [(id, None)]), y. rewrite <- app_assoc.
  split; auto. split; [rewrite app_length; simpl; lia|]. split; [apply Forall_app; auto|].
  now inversion P.
Qed.
Lemma drained_waiting : forall b i (l : queue J), ctl_ok (Loop b i) l -> length l <= i -> waiting l = [].
Proof.
  intros b i l (x & y & -> & L & M & P) H. rewrite app_length in H.
  assert (y = []) by (destruct y; simpl in H; auto; lia). subst. rewrite app_nil_r.
  now apply waiting_moved.
Qed.
Lemma erase_waiting : forall b i id (l : queue J), ctl_ok (Body b i id) l ->
  waiting (erase i l) = waiting l /\ present J (erase i l).
Proof.
  intros b i id l (x & y & -> & L & M & P).
  unfold erase. rewrite <- L, skipn_app, skipn_all, Nat.sub_diag. simpl.
  rewrite waiting_app, (waiting_moved _ x M). auto.
Qed.

Lemma sstep_SInv : forall s s', sstep s s' -> SInv s -> SInv s'.
Proof.
  intros s s' H [A B C D L].
  destruct H as [t j s Ht Hl|t j s Hl|j s Hc|s Hc|b i id j s Hc Hn|b i id s Hc|b i id s Hc|b i s Hc Hle
    |s Hc Hl|s Hc|t s Hc He Hf]; split;
    cbn [slog nposts local shared ctrl lock sall sran]; auto.
  - split; [discriminate|]. intros E. apply L in E. congruence.
  - rewrite A. symmetry. apply (seq_S (nposts s) 0).
  - rewrite waiting_push, !app_assoc. apply Permutation_app_tail. now rewrite <- app_assoc.
  - now apply present_push.
  - split; [discriminate|]. intros E. apply L in E. congruence.
  - rewrite A. symmetry. apply (seq_S (nposts s) 0).
  - rewrite waiting_push, <- app_assoc, <- B, <- !app_assoc.
    do 2 apply Permutation_app_head. apply Permutation_app_comm.
  - destruct Hc as [E|(b & i & id & E)]; rewrite E in *; cbn [ctl_ok] in C |- *; clear E.
    + now apply present_push.
    + destruct C as (x & y & E & Lx & M & P). exists x, (push (nposts s) j y).
      unfold push. rewrite E, app_assoc. split; auto. split; auto. split; auto.
      now apply present_push.
  - rewrite Hc in C. simpl in *. exists [], (local s). repeat split; auto; constructor.
  - split; [intros E; apply L in E; congruence|discriminate].
  - destruct (take_waiting _ _ _ _ C _ _ Hc Hn) as (y & E1 & E2 & _).
    rewrite E2, <- B, E1, <- app_assoc. reflexivity.
  - destruct (take_waiting _ _ _ _ C _ _ Hc Hn) as (y & _ & _ & E3). exact E3.
  - split; [intros E; apply L in E; congruence|discriminate].
  - rewrite Hc in C. exact C.
  - split; [intros E; apply L in E; congruence|discriminate].
  - rewrite Hc in C. destruct (erase_waiting _ _ _ _ C) as [-> _]. exact B.
  - rewrite Hc in C. destruct (erase_waiting _ _ _ _ C) as [_ P]. exact P.
  - split; [intros E; apply L in E; congruence|discriminate].
  - rewrite Hc in C. rewrite (drained_waiting _ _ _ C Hle) in B. exact B.
  - destruct b; simpl; auto. constructor.
  - split; [intros E; apply L in E; congruence|]. destruct b; discriminate.
  - rewrite Hc in C. exact C.
  - tauto.
  - rewrite Hc in C. simpl in C. rewrite C in *. simpl in *. rewrite app_nil_r. exact B.
  - simpl. exists [], (shared s). repeat split; auto; constructor.
  - rewrite Hc in C. simpl in C. rewrite C. constructor.
  - split; discriminate.
Qed.

Lemma SInv_init : forall t, SInv (sinit t).
Proof. intros t. split; simpl; auto; try constructor; discriminate. Qed.
Lemma ssteps_SInv : forall s s', ssteps s s' -> SInv s -> SInv s'.
Proof. induction 1; auto. intros. eapply sstep_SInv; eauto. Qed.
Lemma fixed_ssteps : forall s s' : sst, fixed_owner s s' -> ssteps s s'.
Proof. induction 1; [constructor|]. econstructor; eauto. Qed.

Lemma once : forall t (s : sst), ssteps (sinit t) s ->
  NoDup (sran (slog s)) /\ incl (sran (slog s)) (sall (slog s)) /\
  (local s = [] -> shared s = [] -> Permutation (sran (slog s)) (sall (slog s))).
Proof.
  intros t s H. destruct (ssteps_SInv _ _ H (SInv_init t)) as [A B _ _ _].
  assert (N : NoDup (sran (slog s) ++ waiting (local s) ++ waiting (shared s))).
  { eapply Permutation_NoDup; [apply Permutation_sym; exact B|]. rewrite A. apply seq_NoDup. }
  split; [|split].
  - revert N. generalize (waiting (local s) ++ waiting (shared s)). generalize (sran (slog s)).
    induction l as [|x l IH]; intros l' N; [constructor|]. inversion N as [|? ? N1 N2]; subst.
    constructor; eauto. intros Hi. apply N1, in_app_iff. now left.
  - intros x Hx. eapply Permutation_in; [exact B|]. apply in_app_iff. now left.
  - intros E1 E2. rewrite E1, E2 in B. simpl in B. now rewrite app_nil_r in B.
Qed.

(** [swap_queues_] asserts that the local queue is empty (l. 70). *)
Lemma swap_empty : forall t (s : sst), ssteps (sinit t) s -> ctrl s = Swap \/ ctrl s = Swapping -> local s = [].
Proof.
  intros t s H HC. destruct (ssteps_SInv _ _ H (SInv_init t)) as [_ _ C _ _].
  destruct HC as [E|E]; rewrite E in C; exact C.
Qed.
(** Mutual exclusion, and a function is always there when it is to be called. *)
Lemma take_present : forall t (s : sst) b i, ssteps (sinit t) s -> ctrl s = Loop b i -> i < length (local s) ->
  exists id j, nth_error (local s) i = Some (id, Some j).
Proof.
  intros t s b i H HC HL. destruct (ssteps_SInv _ _ H (SInv_init t)) as [_ _ C _ _].
  rewrite HC in C. destruct C as (x & y & E & L & M & P). rewrite E in HL |- *.
  rewrite nth_error_app2 by lia. rewrite L, Nat.sub_diag. rewrite app_length in HL.
  destruct y as [|[id [j|]] y]; simpl in *; [lia|eauto|]. inversion P as [|? ? Q]. now destruct Q.
Qed.

(** ** Order, when the owner does not change *)
Lemma sposted_sall : forall t l id, In id (sposted t l) -> In id (sall l).
Proof.
  induction l as [|[t' x|t' x|x|x] l IH]; simpl; auto. intros id.
  destruct (t' =? t); rewrite !in_app_iff; intuition.
Qed.
Definition by_ (t : nat) (l : list sevent) (id : nat) : bool := existsb (Nat.eqb id) (sposted t l).
Lemma by_in : forall t l id, by_ t l id = true <-> In id (sposted t l).
Proof.
  intros. unfold by_. rewrite existsb_exists. split.
  - intros (x & Hx & E). apply Nat.eqb_eq in E. now subst.
  - intros H. exists id. split; auto. apply Nat.eqb_refl.
Qed.
Lemma by_old : forall t t' l id new, (id <> new) -> by_ t (SPost t' new :: l) id = by_ t l id.
Proof.
  intros t t' l id new N. unfold by_. simpl. destruct (t' =? t); auto.
  rewrite existsb_app. simpl. destruct (Nat.eqb_spec id new); [contradiction|]. now rewrite !orb_false_r.
Qed.
Lemma filter_by_old : forall t t' l (xs : list nat) new, (forall x, In x xs -> x <> new) ->
  filter (by_ t (SPost t' new :: l)) xs = filter (by_ t l) xs.
Proof.
  intros t t' l xs new H. apply filter_ext_in. intros x Hx. apply by_old. auto.
Qed.
Lemma by_new : forall t t' l new, ~ In new (sall l) -> by_ t (SPost t' new :: l) new = (t' =? t).
Proof.
  intros t t' l new N. unfold by_. simpl. destruct (t' =? t) eqn:E.
  - rewrite existsb_app. simpl. rewrite Nat.eqb_refl. now rewrite orb_true_r.
  - destruct (existsb (Nat.eqb new) (sposted t l)) eqn:X; auto. exfalso. apply N.
    apply (sposted_sall t). now apply by_in.
Qed.

Record OInv (s : sst) : Prop := {
  oi_inv : SInv s;
  oi_order : forall t, filter (by_ t (slog s)) (sran (slog s) ++ waiting (local s) ++ waiting (shared s))
                       = sposted t (slog s);
  oi_shared : forall id, In id (waiting (shared s)) -> by_ (owner s) (slog s) id = false;
  oi_lock : forall t j, lock s = Foreign t j -> t <> owner s;
  oi_owner : forall t id, In (SRun t id) (slog s) -> t = owner s }.

Lemma by_nonpost : forall t e l id, (forall t' x, e <> SPost t' x) -> by_ t (e :: l) id = by_ t l id.
Proof. intros t e l id H. unfold by_. destruct e; simpl; auto. now destruct (H t0 id0). Qed.

Lemma fresh_post : forall s, SInv s -> ~ In (nposts s) (sall (slog s)) /\
  (forall x, In x (sran (slog s) ++ waiting (local s) ++ waiting (shared s)) -> x <> nposts s).
Proof.
  intros s [A B _ _ _]. rewrite A in *. split.
  - intros H. apply in_seq in H. lia.
  - intros x Hx ->. eapply Permutation_in in Hx; [|exact B]. apply in_seq in Hx. lia.
Qed.

Lemma sstep_OInv : forall s s', sstep s s' -> owner s' = owner s -> OInv s -> OInv s'.
Proof.
  intros s s' H HO [I A B C O].
  pose proof (sstep_SInv _ _ H I) as I'.
  destruct (fresh_post s I) as [F1 F2].
  assert (F2l : forall x, In x (waiting (shared s)) -> x <> nposts s).
  { intros x Hx. apply F2. rewrite !in_app_iff. auto. }
  destruct H as [t j s Ht Hl|t j s Hl|j s Hc|s Hc|b i id j s Hc Hn|b i id s Hc|b i id s Hc|b i s Hc Hle
    |s Hc Hl|s Hc|t s Hc He Hf]; (split; [exact I'|..]);
    cbn [slog nposts local shared ctrl lock owner sall] in *; auto.
  - intros t0 j0 E. now injection E as -> _.
  - intros t0. cbn [sran]. rewrite waiting_push, !app_assoc, filter_app, <- app_assoc.
    rewrite filter_by_old by auto. rewrite A. simpl. rewrite (by_new t0 t _ _ F1).
    destruct (t =? t0); auto. now rewrite app_nil_r.
  - intros id Hi. rewrite waiting_push in Hi. apply in_app_iff in Hi as [Hi|[<-|[]]].
    + rewrite by_old by auto. auto.
    + rewrite by_new by auto. apply Nat.eqb_neq. eapply C; eauto.
  - discriminate.
  - intros t0 id [E|Hi]; [discriminate|eauto].
  - intros t0. cbn [sran]. rewrite waiting_push.
    assert (E : filter (by_ t0 (SPost (owner s) (nposts s) :: slog s)) (waiting (shared s))
      = filter (by_ t0 (slog s)) (waiting (shared s))) by (apply filter_by_old; auto).
    rewrite !filter_app. rewrite E.
    rewrite !filter_by_old by (intros x Hx; apply F2; rewrite !in_app_iff; auto).
    cbn [filter]. rewrite (by_new t0 (owner s) _ _ F1).
    specialize (A t0). rewrite !filter_app in A. simpl.
    destruct (Nat.eqb_spec (owner s) t0) as [Eo|].
    + assert (N : filter (by_ t0 (slog s)) (waiting (shared s)) = []).
      { rewrite <- Eo. clear - B. induction (waiting (shared s)) as [|x l IH]; simpl; auto.
        rewrite B by (now left). apply IH. intros. apply B. now right. }
      rewrite N in *. rewrite !app_nil_r in *. rewrite app_assoc. now rewrite A.
    + now rewrite app_nil_r.
  - intros id Hi. rewrite by_old by auto. auto.
  - intros t0 id [E|Hi]; [discriminate|eauto].
  - intros t0. cbn [sran sposted]. destruct I as [_ _ CK _ _].
    destruct (take_waiting _ _ _ _ CK _ _ Hc Hn) as (y & E1 & E2 & _). rewrite E2.
    specialize (A t0). rewrite E1 in A. rewrite <- A, <- app_assoc.
    apply filter_ext. intros x. apply by_nonpost. discriminate.
  - intros t0 x [E|Hi]; [now injection E|eauto].
  - intros t0 x [E|Hi]; [discriminate|eauto].
  - intros t0. cbn [sran sposted]. destruct I as [_ _ CK _ _]. rewrite Hc in CK.
    destruct (erase_waiting _ _ _ _ CK) as [-> _]. rewrite <- (A t0).
    apply filter_ext. intros x. apply by_nonpost. discriminate.
  - intros t0 x [E|Hi]; [discriminate|eauto].
  - intros t0. rewrite <- (A t0). destruct I as [_ _ CK _ _]. rewrite Hc in CK.
    now rewrite (drained_waiting _ _ _ CK Hle).
  - discriminate.
  - intros t0. rewrite <- (A t0). destruct I as [_ _ CK _ _]. rewrite Hc in CK. simpl in CK.
    rewrite CK. simpl. now rewrite app_nil_r.
  - destruct I as [_ _ CK _ _]. rewrite Hc in CK. simpl in CK. rewrite CK. intros ? [].
  - discriminate.
  - intros x Hi. rewrite HO. auto.
  - intros t0 j0 E ->. apply (Hf j0). exact E.
  - intros t0 x Hi. rewrite HO. eauto.
Qed.

Lemma OInv_init : forall t, OInv (sinit t).
Proof.
  intros t. split; [apply SInv_init| | | |]; simpl; auto; try contradiction; discriminate.
Qed.
Lemma fixed_OInv : forall s s', fixed_owner s s' -> OInv s -> OInv s'.
Proof. induction 1; auto. intros. eapply sstep_OInv; eauto. Qed.
Lemma fixed_same : forall s s' : sst, fixed_owner s s' -> owner s' = owner s.
Proof. induction 1; auto. congruence. Qed.

Lemma order_per_thread : forall o (s : sst) t, fixed_owner (sinit o) s ->
  (exists rest, sran_of t (slog s) ++ rest = sposted t (slog s)) /\
  (local s = [] -> shared s = [] -> sran_of t (slog s) = sposted t (slog s)) /\
  (forall t' id, In (SRun t' id) (slog s) -> t' = o).
Proof.
  intros o s t H. destruct (fixed_OInv _ _ H (OInv_init o)) as [_ A _ _ E].
  specialize (A t). rewrite filter_app in A. split; [|split].
  - eexists. exact A.
  - intros E1 E2. rewrite E1, E2 in A. simpl in A. now rewrite app_nil_r in A.
  - intros t' id Hi. rewrite (E _ _ Hi). now rewrite (fixed_same _ _ H).
Qed.

(** ** A call of step() that returns has run everything posted before *)
Lemma sran_mono : forall s s' : sst, sstep s s' -> incl (sran (slog s)) (sran (slog s')).
Proof.
  intros s s' H. destruct H; simpl; try apply incl_refl. apply incl_appl, incl_refl.
Qed.
Lemma sfails_mono : forall s s' : sst, sstep s s' -> sfails (slog s) <= sfails (slog s').
Proof. intros s s' H. destruct H; simpl; lia. Qed.

Definition second_phase (c : ctl) : bool :=
  match c with Loop b _ | Body b _ _ => b | _ => false end.
Record DInv (s0 s : sst) : Prop := {
  di_inv : SInv s;
  di_fail : sfails (slog s0) <= sfails (slog s);
  di_posts : nposts s0 <= nposts s;
  di_rest : sfails (slog s) = sfails (slog s0) ->
    if second_phase (ctrl s)
    then forall id, id < nposts s0 -> In id (sran (slog s)) \/ In id (waiting (local s))
    else ctrl s = Idle -> forall id, id < nposts s0 -> In id (sran (slog s)) }.

Lemma ids_somewhere : forall s id, SInv s -> id < nposts s ->
  In id (sran (slog s)) \/ In id (waiting (local s)) \/ In id (waiting (shared s)).
Proof.
  intros s id [A B _ _ _] L.
  assert (H : In id (sall (slog s))) by (rewrite A; apply in_seq; lia).
  eapply Permutation_in in H; [|apply Permutation_sym; exact B].
  rewrite !in_app_iff in H. tauto.
Qed.

Lemma during_DInv : forall s0 s, SInv s0 -> during_step s0 s -> DInv s0 s.
Proof.
  intros s0 s I0 H. induction H as [s HC HS HL|s s' H IH HN HS].
  - split.
    + eapply sstep_SInv; eauto.
    + now apply sfails_mono.
    + destruct HS; simpl; lia.
    + intros _. rewrite HL. simpl. discriminate.
  - destruct IH as [I A P R]. pose proof (sstep_SInv _ _ HS I) as I'.
    split; auto.
    + pose proof (sfails_mono _ _ HS). lia.
    + destruct HS; simpl; lia.
    + intros F. pose proof (sfails_mono _ _ HS) as M.
      assert (F0 : sfails (slog s) = sfails (slog s0)) by lia. specialize (R F0). clear F0 M.
      destruct HS as [t j s Ht Hl|t j s Hl|j s Hc|s Hc|b i id j s Hc Hn|b i id s Hc|b i id s Hc|b i s Hc Hle
        |s Hc Hl|s Hc|t s Hc He Hf]; cbn [slog nposts local shared ctrl lock owner sran] in *;
        try (rewrite Hc in *; cbn [second_phase] in *).
      * exact R.
      * exact R.
      * destruct (second_phase (ctrl s)) eqn:X; auto. intros id L. rewrite waiting_push, in_app_iff.
        destruct (R id L); auto.
      * contradiction.
      * destruct I as [_ _ CK _ _]. destruct (take_waiting _ _ _ _ CK _ _ Hc Hn) as (y & E1 & E2 & _).
        destruct b; [|discriminate]. intros x L. rewrite E2, in_app_iff.
        destruct (R x L) as [|Q]; auto. rewrite E1 in Q. destruct Q as [<-|Q]; auto. left. right. now left.
      * destruct b; [exact R|discriminate].
      * simpl in F. lia.
      * destruct I as [_ _ CK _ _]. rewrite Hc in CK. pose proof (drained_waiting _ _ _ CK Hle) as E.
        destruct b; cbn [second_phase]; [|discriminate].
        intros _ x L. destruct (R x L) as [|Q]; auto. rewrite E in Q. destruct Q.
      * discriminate.
      * intros x L. assert (Lx : x < nposts s) by lia.
        destruct (ids_somewhere _ _ I Lx) as [Q|[Q|Q]]; auto.
        destruct I as [_ _ CK _ _]. rewrite Hc in CK. simpl in CK. rewrite CK in Q. destruct Q.
      * contradiction.
Qed.

Lemma step_runs_all : forall t (s0 s : sst), ssteps (sinit t) s0 -> during_step s0 s -> ctrl s = Idle ->
  sfails (slog s) = sfails (slog s0) -> incl (sall (slog s0)) (sran (slog s)).
Proof.
  intros t s0 s H HD HI HF. pose proof (ssteps_SInv _ _ H (SInv_init t)) as I0.
  destruct (during_DInv _ _ I0 HD) as [_ _ _ R]. specialize (R HF). rewrite HI in R. simpl in R.
  intros id Hi. destruct I0 as [A _ _ _ _]. rewrite A in Hi. apply in_seq in Hi.
  apply R; auto. lia.
Qed.

Lemma nothing_lost : forall t (s : sst), ssteps (sinit t) s ->
  Permutation (sran (slog s) ++ waiting (local s) ++ waiting (shared s)) (sall (slog s)) /\
  NoDup (sall (slog s)).
Proof.
  intros t s H. destruct (ssteps_SInv _ _ H (SInv_init t)) as [A B _ _ _]. split; auto.
  rewrite A. apply seq_NoDup.
Qed.
Lemma internal : forall t (s : sst), ssteps (sinit t) s ->
  (ctrl s = Swap \/ ctrl s = Swapping -> local s = []) /\
  (forall b i, ctrl s = Loop b i -> i < length (local s) ->
     exists id j, nth_error (local s) i = Some (id, Some j)) /\
  (forall b i id, ctrl s = Body b i id -> lock s <> Owner).
Proof.
  intros t s H. split; [eapply swap_empty; eauto|]. split; [intros; eapply take_present; eauto|].
  intros b i id E. destruct (ssteps_SInv _ _ H (SInv_init t)) as [_ _ _ _ L]. rewrite L. congruence.
Qed.

(** ** Computing executions, for concrete cases *)
Inductive slabel :=
| LLock (t : nat) (j : J) | LPush | LLocal (j : J) | LStep | LTake | LEnd | LThrow | LClear
| LSwapLock | LSwap | LAdopt (t : nat).
Definition sdo (l : slabel) (s : sst) : option sst :=
  match l, ctrl s, lock s with
  | LLock t j, _, Free => if t =? owner s then None else
      Some (SSt (local s) (shared s) (owner s) (ctrl s) (Foreign t j) (nposts s) (slog s))
  | LPush, _, Foreign t j =>
      Some (SSt (local s) (push (nposts s) j (shared s)) (owner s) (ctrl s) Free
                 (S (nposts s)) (SPost t (nposts s) :: slog s))
  | LLocal j, (Idle | Body _ _ _), _ =>
      Some (SSt (push (nposts s) j (local s)) (shared s) (owner s) (ctrl s) (lock s)
                 (S (nposts s)) (SPost (owner s) (nposts s) :: slog s))
  | LStep, Idle, _ =>
      Some (SSt (local s) (shared s) (owner s) (Loop false 0) (lock s) (nposts s) (slog s))
  | LTake, Loop b i, _ =>
      match nth_error (local s) i with
      | Some (id, Some _) =>
          Some (SSt (move_out i (local s)) (shared s) (owner s) (Body b (S i) id) (lock s)
                 (nposts s) (SRun (owner s) id :: slog s))
      | _ => None
      end
  | LEnd, Body b i id, _ =>
      Some (SSt (local s) (shared s) (owner s) (Loop b i) (lock s) (nposts s) (SEnd id :: slog s))
  | LThrow, Body b i id, _ =>
      Some (SSt (erase i (local s)) (shared s) (owner s) Idle (lock s) (nposts s) (SFail id :: slog s))
  | LClear, Loop b i, _ => if length (local s) <=? i then
      Some (SSt [] (shared s) (owner s) (if b then Idle else Swap) (lock s) (nposts s) (slog s)) else None
  | LSwapLock, Swap, Free =>
      Some (SSt (local s) (shared s) (owner s) Swapping Owner (nposts s) (slog s))
  | LSwap, Swapping, _ =>
      Some (SSt (shared s) (local s) (owner s) (Loop true 0) Free (nposts s) (slog s))
  | LAdopt t, Idle, Free =>
      match local s with
      | [] => Some (SSt (local s) (shared s) t (ctrl s) (lock s) (nposts s) (slog s))
      | _ => None
      end
  | _, _, _ => None
  end.
Lemma sdo_sound : forall l s s', sdo l s = Some s' -> sstep s s'.
Proof.
  intros l s s' H. unfold sdo in H.
  destruct l, (ctrl s) eqn:C, (lock s) eqn:L; try discriminate;
    repeat match type of H with
    | (if ?a =? ?b then _ else _) = _ => destruct (Nat.eqb_spec a b); [discriminate|]
    | (if ?a <=? ?b then _ else _) = _ => destruct (Nat.leb_spec a b); [|discriminate]
    | match nth_error ?a ?b with _ => _ end = _ => destruct (nth_error a b) as [[? [?|]]|] eqn:?; try discriminate
    | match local s with _ => _ end = _ => destruct (local s) eqn:EL; [|discriminate]
    end;
    injection H as <-; rewrite <- ?C.
  all: try (now apply (s_lock J)).
  all: try (now apply (s_push J)).
  all: try (now apply (s_swap J)).
  all: try (now apply (s_swap_lock J)).
  all: rewrite <- ?L.
  all: try (apply (s_local J); eauto; fail).
  all: try (now apply (s_step J)).
  all: try (eapply (s_take J); eauto; fail).
  all: try (now apply (s_end J)).
  all: try (eapply (s_throw J); eauto; fail).
  all: try (eapply (s_clear J); eauto; fail).
  rewrite <- EL at 1. apply (s_adopt J); auto. intros j. congruence.
Qed.
Fixpoint sdos (ls : list slabel) (s : sst) : option sst :=
  match ls with
  | [] => Some s
  | l :: r => match sdo l s with Some s1 => sdos r s1 | None => None end
  end.
Lemma ssteps_trans1 : forall a b c : sst, sstep a b -> ssteps b c -> ssteps a c.
Proof.
  intros a b c H H0. induction H0; [econstructor; [constructor|auto]|]. econstructor; eauto.
Qed.
Lemma sdos_steps : forall ls s s', sdos ls s = Some s' -> ssteps s s'.
Proof.
  induction ls as [|l r IH]; simpl; intros s s' H; [injection H as <-; constructor|].
  destruct (sdo l s) as [s1|] eqn:E; [|discriminate]. apply sdo_sound in E.
  eapply ssteps_trans1; eauto.
Qed.
End Safe.
Arguments LLock {J}. Arguments LPush {J}. Arguments LLocal {J}. Arguments LStep {J}. Arguments LTake {J}.
Arguments LEnd {J}. Arguments LThrow {J}. Arguments LClear {J}. Arguments LSwapLock {J}.
Arguments LSwap {J}. Arguments LAdopt {J}. Arguments sdos {J}. Arguments sdo {J}.

Definition is_adopt {J} (l : slabel J) : bool := match l with LAdopt _ => true | _ => false end.
Lemma fixed_trans1 : forall J (a b c : sst J), sstep a b -> owner b = owner a -> fixed_owner b c -> fixed_owner a c.
Proof.
  intros J a b c H E H0. induction H0; [econstructor; [constructor|auto|auto]|]. econstructor; eauto.
Qed.
Lemma sdo_owner : forall J (l : slabel J) s s', is_adopt l = false -> sdo l s = Some s' -> owner s' = owner s.
Proof.
  intros J l s s' HA H. unfold sdo in H.
  destruct l, (ctrl s), (lock s); try discriminate;
    repeat match type of H with
    | (if ?b then _ else _) = _ => destruct b; try discriminate
    | match nth_error ?a ?b with _ => _ end = _ => destruct (nth_error a b) as [[? [?|]]|]; try discriminate
    end; injection H as <-; reflexivity.
Qed.
Lemma sdo_fixed : forall J (ls : list (slabel J)) s s', existsb is_adopt ls = false ->
  sdos ls s = Some s' -> fixed_owner s s'.
Proof.
  induction ls as [|l r IH]; simpl; intros s s' HA H; [injection H as <-; constructor|].
  apply orb_false_iff in HA as [HA1 HA2].
  destruct (sdo l s) as [s1|] eqn:E; [|discriminate].
  eapply fixed_trans1; [eapply sdo_sound; eauto|eapply sdo_owner; eauto|eauto].
Qed.
(** The rest of a call of step(). *)
Fixpoint sdos_busy {J} (ls : list (slabel J)) (s : sst J) : option (sst J) :=
  match ls with
  | [] => Some s
  | l :: r => match ctrl s, sdo l s with
              | Idle, _ | _, None => None
              | _, Some s1 => sdos_busy r s1
              end
  end.
Lemma sdos_during : forall J (ls : list (slabel J)) s0 s s', during_step s0 s -> sdos_busy ls s = Some s' ->
  during_step s0 s'.
Proof.
  induction ls as [|l r IH]; simpl; intros s0 s s' HD H; [injection H as <-; auto|].
  destruct (sdo l s) as [s1|] eqn:E; [|destruct (ctrl s); discriminate].
  apply (IH s0 s1); [|destruct (ctrl s); auto; discriminate].
  eapply ds_more; eauto; [|eapply sdo_sound; eauto]. intros X. rewrite X in H. discriminate.
Qed.
Lemma sdo_during : forall J (ls : list (slabel J)) s0 s1 s', sdo LStep s0 = Some s1 ->
  sdos_busy ls s1 = Some s' -> during_step s0 s'.
Proof.
  intros J ls s0 s1 s' H H0. eapply sdos_during; eauto.
  apply ds_call; [|eapply sdo_sound; eauto|].
  - unfold sdo in H. destruct (ctrl s0); auto; discriminate.
  - unfold sdo in H. destruct (ctrl s0); try discriminate. now injection H as <-.
Qed.

Definition ok {A} (o : option A) : bool := match o with Some _ => true | None => false end.
Definition from {A} (d : A) (o : option A) : A := match o with Some a => a | None => d end.
Lemma final_fixed : forall J (ls : list (slabel J)) s, existsb is_adopt ls = false ->
  ok (sdos ls s) = true -> fixed_owner s (from s (sdos ls s)).
Proof.
  intros J ls s H H0. destruct (sdos ls s) as [s'|] eqn:E; [|discriminate]. now apply (sdo_fixed J ls).
Qed.
Lemma final_steps : forall J (ls : list (slabel J)) s,
  ok (sdos ls s) = true -> ssteps s (from s (sdos ls s)).
Proof.
  intros J ls s H. destruct (sdos ls s) as [s'|] eqn:E; [|discriminate]. now apply (sdos_steps J ls).
Qed.
Definition do_call {J} (ls : list (slabel J)) (s : sst J) : option (sst J) :=
  match sdo LStep s with Some s1 => sdos_busy ls s1 | None => None end.
Lemma final_during : forall J (ls : list (slabel J)) s,
  ok (do_call ls s) = true -> during_step s (from s (do_call ls s)).
Proof.
  intros J ls s H. unfold do_call in *. destruct (sdo LStep s) as [s1|] eqn:E; [|discriminate].
  destruct (sdos_busy ls s1) as [s2|] eqn:E2; [|discriminate]. eapply sdo_during; eauto.
Qed.
