(** The store model as a transition system: every execution is a sequence of the
    steps below.  Invariants are then proved step by step (StoreInv.v). *)
From Coq Require Import List Arith Bool Lia Permutation Wf_nat.
From Verif Require Import StoreModel StoreSpec.
Import ListNotations.

Section Steps.
Variables M A W : Type.
Notation prog := (prog M A W).
Notation event := (event M A W).
Notation job := (job M A W).
Notation cell := (cell M A W).
Notation st := (st M A W).
Notation res := (res M A W).
Variable reducer : M -> A -> option (M * option prog).
Variable eqb : M -> M -> bool.
Variables trans futures manual : bool.
Variable ext : nat -> list A.
Notation exec := (exec reducer eqb trans futures manual ext).
Notation arrive := (arrive futures manual ext).
Notation arrive1 := (arrive1 futures).

(** ** Justifications: what the log must show before something may happen *)
Definition ret (l : list event) (n : nat) (f : option nat) : Prop :=
  (exists id a, In (EDisp id a (Some n)) l /\ In (EEffEnd id f) l) \/ In (ECbEnd n f) l.
Definition justified (l : list event) (n : nat) : Prop :=
  In (EProm n) l \/ (exists f m, In (ELink f m n) l) \/
  (exists id a m, In (EDisp id a (Some n)) l /\ In (ERed id m false) l /\
                  (trans = false -> In (ETold id) l)) \/
  (exists f, ret l n f /\ completed l f).
Definition cret (l : list event) (f : nat) (c : callback M A W) : Prop :=
  match c with CBUser _ => True | CBFulfil m => ret l m (Some f) end.
Definition cev (f : nat) (c : callback M A W) (n : nat) : event :=
  match c with CBUser p => EThen f n p | CBFulfil m => ELink f m n end.
Definition ckind_of (c : callback M A W) : ckind :=
  match c with CBUser _ => KThen | CBFulfil _ => KLink end.
Definition cbok (l : list event) (f : nat) (c : callback M A W) (n : nat) : Prop :=
  In (cev f c n) l /\ cret l f c.
Definition jok (l : list event) (j : job) : Prop :=
  match j with
  | JReduce id p a => In (EDisp id a p) l
  | JEffect id p _ => (exists a, In (EDisp id a p) l) /\ exists m, In (ERed id m true) l
  | JNotify id p => (exists a, In (EDisp id a p) l) /\ (exists m, In (ERed id m false) l) /\ trans = false
  | JUser _ => True
  | JCb f c n => In (EDone f) l /\ cbok l f c n
  end.
Record cellok (l : list event) (n : nat) (c : cell) : Prop := {
  co_user : kind c = KUser -> In (EProm n) l;
  co_done : done c = true -> In (EDone n) l /\ cb c = None;
  co_lock : locked c = true -> In (EDone n) l /\ cb c = None;
  co_cb : forall j, cb c = Some j -> exists c' n', j = JCb n c' n' /\ cbok l n c' n' }.
Record JInv (s : st) : Prop := {
  ji_q : Forall (jok (log s)) (q s);
  ji_heap : forall n c, nth_error (heap s) n = Some c -> cellok (log s) n c }.

(** ** Steps of client code and futures *)
Inductive cstep : st -> st -> Prop :=
| c_world w s : cstep s (set_world w s)
| c_tick s : cstep s (tick s)
| c_mark n s : cstep s (emit (EMark n) s)
| c_disp a s : cstep s (arrive1 s a)
| c_post p s : cstep s (push_job (JUser p) s)
| c_prom s : cstep s (emit (EProm (length (heap s))) (new_cell KUser s))
| c_fulfil n k s : nth_error (heap s) n = Some (Cell k false false None) -> justified (log s) n ->
    cstep s (emit (EDone n) (upd_cell n (Cell k true false None) s))
| c_again n k c s : nth_error (heap s) n = Some (Cell k true false c) ->
    cstep s (upd_cell n (Cell k true false None) s)
| c_post_cb n k j s : nth_error (heap s) n = Some (Cell k false false (Some j)) -> justified (log s) n ->
    cstep s (push_job j (emit (EDone n) (upd_cell n (Cell k false true None) s)))
| c_settle n k d d' s : nth_error (heap s) n = Some (Cell k d true None) -> (d = true -> d' = true) ->
    d' = true \/ In EFail (log s) -> cstep s (upd_cell n (Cell k d' false None) s)
| c_store f k c s : nth_error (heap s) f = Some (Cell k false false None) -> cret (log s) f c ->
    cstep s (upd_cell f (Cell k false false (Some (JCb f c (length (heap s)))))
               (emit (cev f c (length (heap s))) (new_cell (ckind_of c) s)))
| c_then_post f k c s : nth_error (heap s) f = Some (Cell k true false None) -> cret (log s) f c ->
    cstep s (push_job (JCb f c (length (heap s)))
               (upd_cell f (Cell k true true None)
                  (emit (cev f c (length (heap s))) (new_cell (ckind_of c) s))))
| c_commit s : cstep s (send_down (emit ECommit s))
| c_nn s : nn s = true -> nsd s = false -> cstep s (set_nn false s)
| c_see i w s : nth_error (slots s) i = Some (Some w) -> cstep s (emit (ESee i (last s)) s)
| c_fail s : cstep s (emit EFail s)
| c_conn w s : cstep s (emit (EConn (length (slots s)) (last s)) (set_slots (slots s ++ [Some w]) s))
| c_disc i w s : nth_error (slots s) i = Some (Some w) ->
    cstep s (emit (EDisc i) (set_slots (set_nth i None (slots s)) s)).

(** ** Steps of the store's jobs and of the loop *)
Inductive jstep : st -> st -> Prop :=
| j_red_fail id p a r s : q s = JReduce id p a :: r -> reducer (cur s) a = None ->
    jstep s (emit (ERedFail id) (set_q r s))
| j_red_eff id p a r m e s : q s = JReduce id p a :: r -> reducer (cur s) a = Some (m, Some e) ->
    jstep s (push_down eqb m (push_job (JEffect id p e) (emit (ERed id m true) (set_q r s))))
| j_red_note id p a r m s : q s = JReduce id p a :: r -> reducer (cur s) a = Some (m, None) ->
    trans = false ->
    jstep s (push_down eqb m (push_job (JNotify id p) (emit (ERed id m false) (set_q r s))))
| j_red_trans id p a r m s : q s = JReduce id p a :: r -> reducer (cur s) a = Some (m, None) ->
    trans = true ->
    jstep s (push_down eqb m (emit (ERed id m false) (set_q r s)))
| j_begin id p e r s : q s = JEffect id p e :: r ->
    jstep s (if trans then emit (EBegin id e) (set_q r s) else send_down (emit (EBegin id e) (set_q r s)))
| j_note id p r s : q s = JNotify id p :: r -> jstep s (send_down (set_q r s))
| j_user p r s : q s = JUser p :: r -> jstep s (set_q r s)
| j_cb f c n r s : q s = JCb f (CBUser c) n :: r -> jstep s (emit (ECb n c) (set_q r s))
| j_link f m n r s : q s = JCb f (CBFulfil m) n :: r -> jstep s (set_q r s)
| j_told id s : (exists m, In (ERed id m false) (log s)) -> trans = false -> jstep s (emit (ETold id) s)
| j_eff id e s : In (EBegin id e) (log s) -> (trans = false -> nsd s = false) ->
    jstep s (emit (EEff id (last s) e) s)
| j_lost id s : jstep s (emit (ELost id) s)
| j_eff_end id f s : (exists m e, In (EEff id m e) (log s)) -> jstep s (emit (EEffEnd id f) s)
| j_cb_end n f s :
    (exists f0 c, In (ECb n c) (log s) /\ In (EThen f0 n c) (log s) /\ In (EDone f0) (log s) /\ (forall g, c = PRet g -> f = g)) ->
    jstep s (emit (ECbEnd n f) s)
| j_busy b s : jstep s (set_busy b s).

Inductive csteps : st -> st -> Prop :=
| cs_refl s : csteps s s
| cs_snoc s s1 s2 : csteps s s1 -> cstep s1 s2 -> csteps s s2.
Inductive steps : st -> st -> Prop :=
| ss_refl s : steps s s
| ss_c s s1 s2 : steps s s1 -> cstep s1 s2 -> steps s s2
| ss_j s s1 s2 : steps s s1 -> jstep s1 s2 -> steps s s2.

(** ** Whole jobs *)
(** A job or callback responsible for completing a future. *)
Definition owns (j : job) (n : nat) : Prop :=
  match j with
  | JReduce _ p _ | JEffect _ p _ | JNotify _ p => p = Some n
  | JUser _ => False
  | JCb _ (CBUser _) k => k = n
  | JCb _ (CBFulfil m) k => m = n \/ k = n
  end.
Definition Ow (n : nat) (s : st) : Prop :=
  In (EDone n) (log s) \/ (exists j, In j (q s) /\ owns j n) \/
  (exists f c j, nth_error (heap s) f = Some c /\ cb c = Some j /\ owns j n).

Definition starts (id : nat) (e : prog) (s : st) : st :=
  if trans then emit (EBegin id e) s else send_down (emit (EBegin id e) s).
(** How a job runs; the boolean: it threw. *)
Inductive jobrun (s : st) (r : list job) : job -> bool -> st -> Prop :=
| jr_fail id p a : reducer (cur s) a = None ->
    jobrun s r (JReduce id p a) true (emit (ERedFail id) (set_q r s))
| jr_eff id p a m e : reducer (cur s) a = Some (m, Some e) ->
    jobrun s r (JReduce id p a) false
      (push_down eqb m (push_job (JEffect id p e) (emit (ERed id m true) (set_q r s))))
| jr_note id p a m : reducer (cur s) a = Some (m, None) -> trans = false ->
    jobrun s r (JReduce id p a) false
      (push_down eqb m (push_job (JNotify id p) (emit (ERed id m false) (set_q r s))))
| jr_trans id p a m s' : reducer (cur s) a = Some (m, None) -> trans = true ->
    csteps (push_down eqb m (emit (ERed id m false) (set_q r s))) s' ->
    (forall n, p = Some n -> In (EDone n) (log s')) ->
    jobrun s r (JReduce id p a) false s'
| jr_lost id p e s1 : trans = false -> csteps (starts id e (set_q r s)) s1 ->
    jobrun s r (JEffect id p e) true (emit (ELost id) s1)
| jr_efail id p e s1 s' : csteps (starts id e (set_q r s)) s1 -> (trans = false -> nsd s1 = false) ->
    csteps (emit (EEff id (last s1) e) s1) s' -> jobrun s r (JEffect id p e) true s'
| jr_effect id p e s1 s3 f s' : csteps (starts id e (set_q r s)) s1 -> (trans = false -> nsd s1 = false) ->
    csteps (emit (EEff id (last s1) e) s1) s3 -> csteps (emit (EEffEnd id f) s3) s' ->
    (forall n, p = Some n -> Ow n s') -> jobrun s r (JEffect id p e) false s'
| jr_nfail id p s1 : csteps (send_down (set_q r s)) s1 -> jobrun s r (JNotify id p) true s1
| jr_notify id p s1 s' : csteps (send_down (set_q r s)) s1 -> csteps (emit (ETold id) s1) s' ->
    (forall n, p = Some n -> In (EDone n) (log s')) -> jobrun s r (JNotify id p) false s'
| jr_user p b s' : csteps (set_q r s) s' -> jobrun s r (JUser p) b s'
| jr_cfail f c n s1 : csteps (emit (ECb n c) (set_q r s)) s1 -> jobrun s r (JCb f (CBUser c) n) true s1
| jr_cb f c n s1 g s' : csteps (emit (ECb n c) (set_q r s)) s1 -> (forall h, c = PRet h -> g = h) ->
    csteps (emit (ECbEnd n g) s1) s' -> Ow n s' -> jobrun s r (JCb f (CBUser c) n) false s'
| jr_lfail f m n s' : csteps (set_q r s) s' -> jobrun s r (JCb f (CBFulfil m) n) true s'
| jr_link f m n s' : csteps (set_q r s) s' -> In (EDone m) (log s') -> In (EDone n) (log s') ->
    jobrun s r (JCb f (CBFulfil m) n) false s'.

Inductive bstep : st -> st -> Prop :=
| b_c s s' : cstep s s' -> bstep s s'
| b_busy b s : bstep s (set_busy b s)
| b_job j r s s1 : q s = j :: r -> jobrun s r j false s1 -> bstep s s1
| b_fail j r s s1 : q s = j :: r -> jobrun s r j true s1 -> bstep s (emit EFail s1).
Inductive bsteps : st -> st -> Prop :=
| bs_refl s : bsteps s s
| bs_snoc s s1 s2 : bsteps s s1 -> bstep s1 s2 -> bsteps s s2.

Lemma csteps_trans : forall a b c, csteps a b -> csteps b c -> csteps a c.
Proof. intros a b c H H0. induction H0; auto. eapply cs_snoc; [apply IHcsteps|]; eauto. Qed.
Lemma steps_trans : forall a b c, steps a b -> steps b c -> steps a c.
Proof. intros a b c H H0. induction H0; auto; [eapply ss_c; [apply IHsteps|]|eapply ss_j; [apply IHsteps|]]; eauto. Qed.
Lemma csteps_steps : forall a b, csteps a b -> steps a b.
Proof. induction 1; [constructor|eapply ss_c; eauto]. Qed.
Lemma bsteps_trans : forall a b c, bsteps a b -> bsteps b c -> bsteps a c.
Proof. intros a b c H H0. induction H0; auto. eapply bs_snoc; [apply IHbsteps|]; eauto. Qed.
Lemma bstep1 : forall a b, bstep a b -> bsteps a b.
Proof. intros. eapply bs_snoc; [constructor|auto]. Qed.
Lemma cstep1 : forall a b, cstep a b -> csteps a b.
Proof. intros. eapply cs_snoc; [constructor|auto]. Qed.
Lemma jstep1 : forall a b, jstep a b -> steps a b.
Proof. intros. eapply ss_j; [constructor|auto]. Qed.

(** ** Small facts *)
Lemma nth_set_nth : forall X (x : X) l n m, nth_error (set_nth n x l) m =
  if (m =? n) && (n <? length l) then Some x else nth_error l m.
Proof.
  induction l as [|y l IH]; intros n m; simpl.
  - destruct n, m; simpl; rewrite ?andb_false_r; reflexivity.
  - destruct n as [|n], m as [|m]; simpl; auto. rewrite IH. reflexivity.
Qed.
Lemma set_nth_length : forall X (x : X) l n, length (set_nth n x l) = length l.
Proof. induction l as [|y l IH]; intros [|n]; simpl; auto. Qed.
Lemma send_down_log : forall s : st, log (send_down s) = log s.
Proof. intros s. unfold send_down. now destruct (nsd s). Qed.
Lemma send_down_heap : forall s : st, heap (send_down s) = heap s.
Proof. intros s. unfold send_down. now destruct (nsd s). Qed.
Lemma send_down_q : forall s : st, q (send_down s) = q s.
Proof. intros s. unfold send_down. now destruct (nsd s). Qed.
Lemma send_down_busy : forall s : st, busy (send_down s) = busy s.
Proof. intros s. unfold send_down. now destruct (nsd s). Qed.
Lemma send_down_slots : forall s : st, slots (send_down s) = slots s.
Proof. intros s. unfold send_down. now destruct (nsd s). Qed.
Lemma send_down_cur : forall s : st, cur (send_down s) = cur s.
Proof. intros s. unfold send_down. now destruct (nsd s). Qed.
Lemma send_down_nsd : forall s : st, nsd (send_down s) = false.
Proof. intros s. unfold send_down. destruct (nsd s) eqn:E; auto. Qed.
Lemma push_down_log : forall m (s : st), log (push_down eqb m s) = log s.
Proof. intros. unfold push_down. now destruct (eqb m (cur s)). Qed.
Lemma push_down_heap : forall m (s : st), heap (push_down eqb m s) = heap s.
Proof. intros. unfold push_down. now destruct (eqb m (cur s)). Qed.
Lemma push_down_q : forall m (s : st), q (push_down eqb m s) = q s.
Proof. intros. unfold push_down. now destruct (eqb m (cur s)). Qed.
Lemma push_down_busy : forall m (s : st), busy (push_down eqb m s) = busy s.
Proof. intros. unfold push_down. now destruct (eqb m (cur s)). Qed.
Lemma push_down_last : forall m (s : st), last (push_down eqb m s) = last s.
Proof. intros. unfold push_down. now destruct (eqb m (cur s)). Qed.
Lemma push_down_nn : forall m (s : st), nn (push_down eqb m s) = nn s.
Proof. intros. unfold push_down. now destruct (eqb m (cur s)). Qed.
Lemma push_down_slots : forall m (s : st), slots (push_down eqb m s) = slots s.
Proof. intros. unfold push_down. now destruct (eqb m (cur s)). Qed.

(** Steps only add to the log and to the heap. *)
Definition grows (s s' : st) : Prop := exists l, log s' = l ++ log s.
Lemma cstep_log : forall s s', cstep s s' -> exists l, log s' = l ++ log s.
Proof.
  intros s s' H. destruct H; simpl; rewrite ?send_down_log; simpl;
    try (now exists []); try (now eexists [_]).
  unfold StoreModel.arrive1, new_dispatch. destruct futures; simpl; now eexists [_].
Qed.
Lemma jstep_log : forall s s', jstep s s' -> exists l, log s' = l ++ log s.
Proof.
  intros s s' H. destruct H; simpl; try (destruct trans);
    rewrite ?push_down_log, ?send_down_log; simpl; try (now exists []); now eexists [_].
Qed.
Lemma steps_log : forall s s', steps s s' -> exists l, log s' = l ++ log s.
Proof.
  induction 1 as [s|s s1 s2 H (l & E) H0|s s1 s2 H (l & E) H0]; [now exists []| |].
  - destruct (cstep_log _ _ H0) as (l' & E'). exists (l' ++ l). now rewrite E', E, app_assoc.
  - destruct (jstep_log _ _ H0) as (l' & E'). exists (l' ++ l). now rewrite E', E, app_assoc.
Qed.

(** ** The justifications survive *)
Lemma completed_mono : forall (l l' : list event) f, incl l l' -> completed l f -> completed l' f.
Proof. intros l l' [n|] H; simpl; auto. Qed.
Lemma ret_mono : forall l l' n f, incl l l' -> ret l n f -> ret l' n f.
Proof.
  intros l l' n f H [(id & a & H1 & H2)|H1]; [left|right; auto]. exists id, a. auto.
Qed.
Lemma cbok_mono : forall l l' f c n, incl l l' -> cbok l f c n -> cbok l' f c n.
Proof.
  intros l l' f c n H [H1 H2]. split; auto. destruct c; simpl in *; auto. eapply ret_mono; eauto.
Qed.
Lemma jok_mono : forall l l' j, incl l l' -> jok l j -> jok l' j.
Proof.
  intros l l' [id p a|id p e|id p|p|f c n] H; simpl; auto.
  - intros [(a & H1) (m & H2)]. split; eauto.
  - intros [(a & H1) [(m & H2) H3]]. split; [|split]; eauto.
  - intros [H1 H2]. split; auto. eapply cbok_mono; eauto.
Qed.
Lemma cellok_mono : forall l l' n c, incl l l' -> cellok l n c -> cellok l' n c.
Proof.
  intros l l' n c H [H1 H2 H3 H4]. split; auto.
  - intros E. destruct (H2 E). auto.
  - intros E. destruct (H3 E). auto.
  - intros j E. destruct (H4 j E) as (c' & n' & E' & K). exists c', n'. split; auto. eapply cbok_mono; eauto.
Qed.
Lemma JInv_mono : forall (s s' : st) l, JInv s -> log s' = l ++ log s ->
  (forall j, In j (q s') -> In j (q s) \/ jok (log s') j) ->
  (forall n c, nth_error (heap s') n = Some c -> nth_error (heap s) n = Some c \/ cellok (log s') n c) ->
  JInv s'.
Proof.
  intros s s' l [HQ HH] E H1 H2.
  assert (I : incl (log s) (log s')) by (rewrite E; apply incl_appr, incl_refl).
  split.
  - apply Forall_forall. intros j Hj. destruct (H1 j Hj) as [H|H]; auto.
    eapply jok_mono; [exact I|]. rewrite Forall_forall in HQ. auto.
  - intros n c Hn. destruct (H2 n c Hn) as [H|H]; auto. eapply cellok_mono; eauto.
Qed.
Lemma heap_upd : forall (s : st) n c m x, nth_error (heap (upd_cell n c s)) m = Some x ->
  (nth_error (heap s) m = Some x /\ m <> n) \/ (m = n /\ x = c).
Proof.
  intros s n c m x H. unfold upd_cell in H. simpl in H. rewrite nth_set_nth in H.
  destruct (Nat.eqb_spec m n) as [->|N]; simpl in H; auto.
  destruct (n <? length (heap s)) eqn:L.
  - right. split; auto. congruence.
  - left. exfalso. apply Nat.ltb_ge in L. apply nth_error_None in L. congruence.
Qed.
Lemma heap_new : forall (s : st) k m x, nth_error (heap (new_cell k s)) m = Some x ->
  nth_error (heap s) m = Some x \/ (m = length (heap s) /\ x = Cell k false false None).
Proof.
  intros s k m x H. unfold new_cell in H. simpl in H.
  destruct (Nat.lt_ge_cases m (length (heap s))) as [L|L].
  - rewrite nth_error_app1 in H by auto. auto.
  - rewrite nth_error_app2 in H by auto. right.
    destruct (m - length (heap s)) as [|d] eqn:E; simpl in H.
    + split; [lia|congruence].
    + destruct d; discriminate.
Qed.
Lemma fresh_ok : forall l n k, (k = KUser -> In (EProm n) l) -> cellok l n (Cell k false false None).
Proof. intros. split; simpl; auto; discriminate. Qed.

Ltac same_heap := intros n0 c0 Hn; left; exact Hn.

Lemma cstep_JInv : forall s s', cstep s s' -> JInv s -> JInv s'.
Proof.
  intros s s' H I. pose proof (cstep_log _ _ H) as (l & E).
  eapply JInv_mono; eauto.
  - destruct H; simpl; rewrite ?send_down_q; simpl; auto.
    + unfold StoreModel.arrive1, new_dispatch. destruct futures; simpl; intros j Hj;
        apply in_app_iff in Hj as [Hj|[<-|[]]]; auto; right; simpl; auto.
    + intros j Hj. apply in_app_iff in Hj as [Hj|[<-|[]]]; simpl; auto.
    + intros j0 Hj. apply in_app_iff in Hj as [Hj|[<-|[]]]; auto. right.
      destruct I as [_ I]. specialize (I _ _ H). destruct I as [_ _ _ I].
      destruct (I j eq_refl) as (c' & n' & -> & K). simpl. split; auto.
      eapply cbok_mono; [|exact K]. apply incl_tl, incl_refl.
    + intros j Hj. apply in_app_iff in Hj as [Hj|[<-|[]]]; auto. right. simpl.
      destruct I as [_ I]. specialize (I _ _ H). destruct I as [_ I _ _].
      destruct (I eq_refl) as [D _]. split; auto. split; simpl; auto.
      destruct c; simpl; auto. eapply ret_mono; [apply incl_tl, incl_refl|auto].
  - destruct H; simpl log in *; try (same_heap; fail).
    + unfold StoreModel.arrive1, new_dispatch. destruct futures; [|same_heap].
      intros n0 c0 Hn. apply (heap_new s KDisp) in Hn as [Hn|[-> ->]]; auto.
      right. apply fresh_ok. discriminate.
    + intros n0 c0 Hn. apply (heap_new s KUser) in Hn as [Hn|[-> ->]]; auto.
      right. apply fresh_ok. now left.
    + intros n0 c0 Hn. apply (heap_upd s) in Hn as [[Hn _]|[-> ->]]; auto.
      right. destruct I as [_ I]. specialize (I _ _ H). destruct I as [K1 K2 K3 K4].
      split; simpl in *; auto; discriminate.
    + intros n0 c0 Hn. apply (heap_upd s) in Hn as [[Hn _]|[-> ->]]; auto.
      right. destruct I as [_ I]. specialize (I _ _ H). destruct I as [K1 K2 K3 K4].
      split; simpl in *; auto; try discriminate. intros _. destruct (K2 eq_refl); auto.
    + intros n0 c0 Hn. apply (heap_upd s) in Hn as [[Hn _]|[-> ->]]; auto.
      right. destruct I as [_ I]. specialize (I _ _ H). destruct I as [K1 K2 K3 K4].
      split; simpl in *; auto; try discriminate.
    + intros n0 c0 Hn. apply (heap_upd s) in Hn as [[Hn _]|[-> ->]]; auto.
      right. destruct I as [_ I]. specialize (I _ _ H). destruct I as [K1 K2 K3 K4].
      split; simpl in *; auto; discriminate.
    + intros n0 c0 Hn.
      apply (heap_upd (emit (cev f c (length (heap s))) (new_cell (ckind_of c) s))) in Hn
        as [[Hn _]|[-> ->]].
      * apply (heap_new s (ckind_of c)) in Hn as [Hn|[-> ->]]; auto.
        right. apply fresh_ok. now destruct c.
      * right. destruct I as [_ I]. specialize (I _ _ H). destruct I as [K1 K2 K3 K4].
        split; simpl in *; auto; try discriminate.
        intros j Ej. injection Ej as <-. exists c, (length (heap s)). split; auto.
        split; simpl; auto. destruct c; simpl in *; auto. eapply ret_mono; [apply incl_tl, incl_refl|auto].
    + intros n0 c0 Hn.
      apply (heap_upd (emit (cev f c (length (heap s))) (new_cell (ckind_of c) s))) in Hn
        as [[Hn _]|[-> ->]].
      * apply (heap_new s (ckind_of c)) in Hn as [Hn|[-> ->]]; auto.
        right. apply fresh_ok. now destruct c.
      * right. destruct I as [_ I]. specialize (I _ _ H). destruct I as [K1 K2 K3 K4].
        destruct (K2 eq_refl) as [D _].
        split; simpl in *; auto; try discriminate.
    + rewrite send_down_heap. same_heap.
Qed.
Lemma jstep_JInv : forall s s', jstep s s' -> JInv s -> JInv s'.
Proof.
  intros s s' H I. pose proof (jstep_log _ _ H) as (l & E).
  assert (Q : forall j r, q s = j :: r -> jok (log s) j).
  { intros j r Eq. destruct I as [I _]. rewrite Eq in I. now inversion I. }
  eapply JInv_mono; eauto.
  - destruct H; simpl; rewrite ?push_down_q, ?send_down_q; simpl; auto;
      try (intros j Hj; left; rewrite H; now right);
      rewrite ?push_down_log; simpl.
    + intros j Hj. apply in_app_iff in Hj as [Hj|[<-|[]]]; [left; rewrite H; now right|right].
      specialize (Q _ _ H). simpl in *. split; eauto.
    + intros j Hj. apply in_app_iff in Hj as [Hj|[<-|[]]]; [left; rewrite H; now right|right].
      specialize (Q _ _ H). simpl in *. split; eauto.
    + destruct trans; rewrite ?send_down_q; simpl; intros j Hj; left; rewrite H; now right.
  - destruct H; rewrite ?push_down_heap, ?send_down_heap; try (destruct trans);
      rewrite ?send_down_heap; same_heap.
Qed.
Lemma steps_JInv : forall s s', steps s s' -> JInv s -> JInv s'.
Proof. induction 1; auto; intros; [eapply cstep_JInv|eapply jstep_JInv]; eauto. Qed.

(** What client code cannot change. *)
Lemma cstep_cur : forall s s', cstep s s' -> cur s' = cur s.
Proof.
  intros s s' H. destruct H; simpl; rewrite ?send_down_cur; auto.
  unfold StoreModel.arrive1, new_dispatch. now destruct futures.
Qed.
Lemma cstep_nsd : forall s s', cstep s s' -> nsd s = false -> nsd s' = false.
Proof.
  intros s s' H. destruct H; simpl; rewrite ?send_down_nsd; auto.
  unfold StoreModel.arrive1, new_dispatch. now destruct futures.
Qed.
Lemma csteps_cur : forall s s', csteps s s' -> cur s' = cur s.
Proof. induction 1; auto. erewrite cstep_cur; eauto. Qed.
Lemma csteps_nsd : forall s s', csteps s s' -> nsd s = false -> nsd s' = false.
Proof. induction 1; auto. intros. eapply cstep_nsd; eauto. Qed.

(** ** Every execution is a sequence of steps *)
Definition keeps (s s' : st) : Prop :=
  forall n c, nth_error (heap s) n = Some c -> locked c = true -> nth_error (heap s') n = Some c.
Lemma keeps_refl : forall s, keeps s s.
Proof. intros s n c H _. exact H. Qed.
Lemma keeps_trans : forall a b c, keeps a b -> keeps b c -> keeps a c.
Proof. intros a b c H H0 n x Hn Hl. apply H0; auto. Qed.
Lemma keeps_heap : forall s s', heap s' = heap s -> keeps s s'.
Proof. intros s s' E n c H _. now rewrite E. Qed.

Record Rok (s s' : st) : Prop := {
  rk_steps : steps s s';
  rk_keeps : keeps s s';
  rk_busy : busy s' = busy s;
  rk_client : busy s = true -> csteps s s';
  rk_big : bsteps s s' }.
Definition R (s : st) (r : res) : Prop :=
  match r with Done _ s' | Thrown s' => Rok s s' | _ => True end.
Lemma Rok_refl : forall s, Rok s s.
Proof. intros s. split; auto using keeps_refl; intros; constructor. Qed.
Lemma Rok_trans : forall a b c, Rok a b -> Rok b c -> Rok a c.
Proof.
  intros a b c [A1 A2 A3 A4 A5] [B1 B2 B3 B4 B5]. split.
  - eapply steps_trans; eauto.
  - eapply keeps_trans; eauto.
  - congruence.
  - intros H. eapply csteps_trans; [apply A4; auto|apply B4; congruence].
  - eapply bsteps_trans; eauto.
Qed.
Lemma R_from : forall a b r, Rok a b -> R b r -> R a r.
Proof. intros a b [f s|s| | |] H H0; simpl in *; auto; eapply Rok_trans; eauto. Qed.
Lemma Rok_cstep : forall s s', cstep s s' -> keeps s s' -> busy s' = busy s -> Rok s s'.
Proof.
  intros s s' H H0 H1. split; auto; [apply csteps_steps|intros _|apply bstep1, b_c]; auto using cstep1.
Qed.
Lemma R_andthen : forall s r k, R s r -> (forall f s', Rok s s' -> r = Done f s' -> R s (k f s')) ->
  R s (andthen r k).
Proof. intros s [f s'|s'| | |] k H H0; simpl in *; auto. Qed.
Lemma R_on_throw : forall s r h, R s r -> (forall s', Rok s s' -> Rok s (h s')) -> R s (on_throw r h).
Proof. intros s [f s'|s'| | |] h H H0; simpl in *; auto. Qed.

Lemma keeps_upd : forall s n c d, nth_error (heap s) n = Some d -> locked d = false ->
  forall s1, heap s1 = heap (upd_cell n c s) -> keeps s s1.
Proof.
  intros s n c d H L s1 E m x Hm Hl. rewrite E. unfold upd_cell. simpl. rewrite nth_set_nth.
  destruct (Nat.eqb_spec m n) as [->|]; simpl; auto. congruence.
Qed.
Lemma keeps_app : forall s x s1, heap s1 = heap s ++ x -> keeps s s1.
Proof.
  intros s x s1 E n c H _. rewrite E. rewrite nth_error_app1; auto.
  apply nth_error_Some. congruence.
Qed.

Lemma arrive1_Rok : forall s a, Rok s (arrive1 s a).
Proof.
  intros s a. apply Rok_cstep; [constructor| |].
  - unfold StoreModel.arrive1, new_dispatch. destruct futures; [|now apply keeps_heap].
    eapply keeps_app. simpl. reflexivity.
  - unfold StoreModel.arrive1, new_dispatch. now destruct futures.
Qed.
Lemma arrive_Rok : forall s, Rok s (arrive s).
Proof.
  intros s. unfold StoreModel.arrive. destruct manual; [apply Rok_refl|].
  assert (H : forall l s0, Rok s s0 -> Rok s (fold_left arrive1 l s0)).
  { induction l as [|a l IH]; intros s0 H; simpl; auto. apply IH. eapply Rok_trans; [exact H|apply arrive1_Rok]. }
  eapply Rok_trans; [apply H, Rok_refl|].
  apply Rok_cstep; [constructor|now apply keeps_heap|reflexivity].
Qed.

Lemma settle_Rok : forall s x s1 s2 n k d d', nth_error (heap s) n = Some x -> locked x = false ->
  Rok s s1 -> nth_error (heap s1) n = Some (Cell k d true None) -> Rok s1 s2 -> (d = true -> d' = true) ->
  d' = true \/ In EFail (log s2) -> Rok s (upd_cell n (Cell k d' false None) s2).
Proof.
  intros s x s1 s2 n k d d' Hn Hl R1 Hm R2 Hd Hf.
  assert (N : nth_error (heap s2) n = Some (Cell k d true None)) by (apply R2; auto).
  assert (C : cstep s2 (upd_cell n (Cell k d' false None) s2)) by (eapply c_settle; eauto).
  pose proof (Rok_trans _ _ _ R1 R2) as [A1 A2 A3 A4 A5]. split.
  - eapply ss_c; eauto.
  - intros m c Hc Lc. unfold upd_cell. simpl. rewrite nth_set_nth.
    destruct (Nat.eqb_spec m n) as [->|]; simpl; auto. congruence.
  - simpl. auto.
  - intros B. eapply cs_snoc; eauto.
  - eapply bs_snoc; [exact A5|now apply b_c].
Qed.

Definition Rd (s : st) (r : res) : Prop :=
  match r with Done _ s' | Thrown s' => steps s s' /\ keeps s s' /\ busy s' = true | _ => True end.
Definition cret' (l : list event) (f : option nat) (c : callback M A W) : Prop :=
  match c with CBUser _ => True | CBFulfil m => ret l m f end.
Definition Rj (s : st) (j : job) (r : list job) (x : res) : Prop :=
  match x with
  | Done _ s' => jobrun s r j false s' /\ keeps s s' /\ busy s' = true
  | Thrown s' => jobrun s r j true s' /\ keeps s s' /\ busy s' = true
  | _ => True
  end.
Definition Rdb (s : st) (r : res) : Prop :=
  Rd s r /\ match r with Done _ s' | Thrown s' => bsteps s s' | _ => True end.
Record All (fuel : nat) : Prop := {
  a_prog : forall p s, JInv s -> R s (exec fuel (TProg p) s);
  a_notify : forall s, JInv s -> R s (exec fuel TNotify s);
  a_slots : forall i s, JInv s -> R s (exec fuel (TSlots i) s);
  a_fulfil : forall n s, JInv s -> justified (log s) n -> R s (exec fuel (TFulfil n) s);
  a_then : forall f c s, JInv s -> cret' (log s) f c -> R s (exec fuel (TThen f c) s);
  a_run : forall s, JInv s -> busy s = false -> R s (exec fuel TRun s);
  a_drain : forall s, JInv s -> busy s = true -> Rdb s (exec fuel TDrain s);
  a_job : forall s j r, JInv s -> busy s = true -> q s = j :: r ->
            Rj s j r (exec fuel (TJob j) (set_q r s)) }.

Definition Rpost (j : job) (s0 : st) (r : res) : Prop := R (push_job j s0) r.
Lemma post_R : forall fuel, (forall m, m < fuel -> All m) -> forall fl s0 j, fl < fuel ->
  JInv (push_job j s0) -> R (push_job j s0) (exec fl (TPost j) s0).
Proof.
  intros fuel IH [|fl] s0 j L I; [exact Logic.I|]. cbn [StoreModel.exec].
  destruct (manual && negb (busy s0)) eqn:E; [|apply Rok_refl].
  apply andb_true_iff in E as [_ E]. apply negb_true_iff in E.
  apply IH; auto. lia.
Qed.
(** Inside a posted function posting only queues. *)
Lemma post_busy : forall fl s0 j, busy s0 = true ->
  exec fl (TPost j) s0 = OutOfFuel \/ exec fl (TPost j) s0 = Done None (push_job j s0).
Proof.
  intros [|fl] s0 j B; [now left|right]. cbn [StoreModel.exec]. rewrite B. now rewrite andb_false_r.
Qed.
(** An exception leaving the loop is recorded. *)
Lemma drain_thrown : forall fl s s', exec fl TDrain s = Thrown s' -> In EFail (log s').
Proof.
  induction fl as [|fl IH]; intros s s'; [discriminate|]. cbn [StoreModel.exec]. cbv zeta.
  destruct (q (arrive s)) as [|j r]; [discriminate|].
  destruct (exec fl (TJob j) (set_q r (arrive s))) as [f s1|s1| | |]; simpl; try discriminate.
  - apply IH.
  - intros H. injection H as <-. now left.
Qed.
Lemma post_thrown : forall fl j s s', exec fl (TPost j) s = Thrown s' -> In EFail (log s').
Proof.
  intros [|fl] j s s'; [discriminate|]. cbn [StoreModel.exec].
  destruct (manual && negb (busy s)); [|discriminate]. destruct fl as [|fl]; [discriminate|].
  cbn [StoreModel.exec].
  destruct (exec fl TDrain _) as [f s1|s1| | |] eqn:E; try discriminate.
  intros H. injection H as <-. eapply drain_thrown in E. exact E.
Qed.
Lemma Rok_csteps_any : forall s s', Rok s s' -> busy s = true -> csteps s s'.
Proof. intros s s' H B. now apply H. Qed.

(** Fulfilling a promise inside a posted function. *)
Definition fulfil_now (n : nat) (s : st) : st :=
  match nth_error (heap s) n with
  | Some (Cell k true false _) => upd_cell n (Cell k true false None) s
  | Some (Cell k false false None) => emit (EDone n) (upd_cell n (Cell k true false None) s)
  | Some (Cell k false false (Some j)) =>
      upd_cell n (Cell k true false None)
        (push_job j (emit (EDone n) (upd_cell n (Cell k false true None) s)))
  | _ => s
  end.
Lemma fulfil_busy : forall fl' n s, busy s = true ->
  match exec fl' (TFulfil n) s with
  | Done f s' => f = None /\ s' = fulfil_now n s
  | Thrown _ => False
  | _ => True
  end.
Proof.
  intros [|f] n s B; [exact Logic.I|]. cbn [StoreModel.exec]. unfold fulfil_now.
  destruct (nth_error (heap s) n) as [[k [|] [|] [j|]]|]; auto.
  set (s1 := emit (EDone n) (upd_cell n (Cell k false true None) s)).
  destruct (post_busy f s1 j B) as [-> | ->]; auto.
Qed.
Lemma fulfil_push_down : forall n m s, fulfil_now n (push_down eqb m s) = push_down eqb m (fulfil_now n s).
Proof.
  intros n m s. unfold fulfil_now. rewrite push_down_heap. unfold push_down.
  destruct (nth_error (heap s) n) as [[k [|] [|] [j|]]|]; simpl; destruct (eqb m (cur s)); reflexivity.
Qed.
Lemma fulfil_exec : forall fl n m s f s', busy s = true -> exec fl (TFulfil n) s = Done f s' ->
  exec fl (TFulfil n) (push_down eqb m s) = Done None (push_down eqb m s').
Proof.
  intros fl n m s f s' B E. pose proof (fulfil_busy fl n s B) as H. rewrite E in H. destruct H as [-> ->].
  assert (B' : busy (push_down eqb m s) = true) by (now rewrite push_down_busy).
  pose proof (fulfil_busy fl n _ B') as H.
  destruct fl as [|f]; [discriminate|]. cbn [StoreModel.exec] in *.
  rewrite push_down_heap in *.
  destruct (nth_error (heap s) n) as [[k [|] [|] [j|]]|] eqn:En; try discriminate;
    try (destruct H as [_ H]; rewrite H; f_equal; apply fulfil_push_down).
  destruct (post_busy f (emit (EDone n) (upd_cell n (Cell k false true None) s)) j B) as [X|X];
    rewrite X in E; [discriminate|].
  destruct f as [|f]; [discriminate|].
  set (s1 := emit (EDone n) (upd_cell n (Cell k false true None) (push_down eqb m s))) in *.
  assert (B1 : busy s1 = true) by exact B'.
  assert (X1 : exec (S f) (TPost j) s1 = Done None (push_job j s1)).
  { cbn [StoreModel.exec]. rewrite B1. now rewrite andb_false_r. }
  rewrite X1 in *. f_equal. destruct H as [_ H]. rewrite H. apply fulfil_push_down.
Qed.

Lemma fulfil_done : forall fl n s f s', busy s = true -> JInv s -> exec fl (TFulfil n) s = Done f s' ->
  In (EDone n) (log s').
Proof.
  intros [|fl] n s f s' B [_ J]; [discriminate|]. cbn [StoreModel.exec].
  destruct (nth_error (heap s) n) as [[k [|] [|] [j|]]|] eqn:E; try discriminate.
  - intros H. injection H as <- <-. simpl. apply J in E. destruct (co_done _ _ _ E eq_refl); auto.
  - intros H. injection H as <- <-. simpl. apply J in E. destruct (co_done _ _ _ E eq_refl); auto.
  - destruct (post_busy fl (emit (EDone n) (upd_cell n (Cell k false true None) s)) j B) as [-> | ->];
      try discriminate. intros H. injection H as <- <-. now left.
  - intros H. injection H as <- <-. now left.
Qed.
Lemma then_owned : forall fl n s f g s', busy s = true -> JInv s ->
  exec fl (TThen f (CBFulfil n)) s = Done g s' -> Ow n s'.
Proof.
  intros [|fl] n s [f|] g s' B J; try discriminate; cbn [StoreModel.exec].
  - destruct (nth_error (heap s) f) as [[k d [|] [j|]]|] eqn:E; try discriminate.
    assert (L : f <? length (heap s ++ [@Cell M A W KLink false false None]) = true).
    { apply Nat.ltb_lt. rewrite app_length. simpl.
      enough (f < length (heap s)) by lia. apply nth_error_Some. congruence. }
    cbv zeta. destruct d.
    + set (s1 := upd_cell f _ _).
      destruct (post_busy fl s1 (JCb f (CBFulfil n) (length (heap s))) B) as [-> | ->]; try discriminate.
      intros H. injection H as <- <-. right. left. exists (JCb f (CBFulfil n) (length (heap s))).
      split; simpl; auto. apply in_app_iff. right. now left.
    + intros H. injection H as <- <-. right. right.
      exists f, (Cell k false false (Some (JCb f (CBFulfil n) (length (heap s))))), (JCb f (CBFulfil n) (length (heap s))).
      split; [|simpl; auto]. simpl. now rewrite nth_set_nth, Nat.eqb_refl, L.
  - intros H. left. eapply fulfil_done; eauto.
Qed.

(** A job's run is a sequence of steps. *)
Lemma jobrun_steps : forall s r j b s', JInv s -> q s = j :: r -> jobrun s r j b s' -> steps s s'.
Proof.
  intros s r j b s' HI E H.
  assert (OK : jok (log s) j) by (destruct HI as [HQ _]; rewrite E in HQ; now inversion HQ).
  assert (INCL : forall a b, steps a b -> incl (log a) (log b)).
  { intros x y S1. destruct (steps_log _ _ S1) as (l & ->). apply incl_appr, incl_refl. }
  assert (BEG : forall id p e s1, q s = JEffect id p e :: r -> csteps (starts id e (set_q r s)) s1 ->
            steps s s1 /\ In (EBegin id e) (log s1)).
  { intros id p e s1 Q C. assert (S0 : steps s (starts id e (set_q r s))) by (apply jstep1; now apply j_begin with p).
    apply csteps_steps in C. split; [eapply steps_trans; eauto|]. apply (INCL _ _ C).
    unfold starts. destruct trans; rewrite ?send_down_log; now left. }
  destruct H.
  - apply jstep1. eapply j_red_fail; eauto.
  - apply jstep1. eapply j_red_eff; eauto.
  - apply jstep1. eapply j_red_note; eauto.
  - eapply steps_trans; [apply jstep1; eapply j_red_trans; eauto|]. now apply csteps_steps.
  - destruct (BEG _ _ _ _ E H0). eapply ss_j; [eauto|]. constructor.
  - destruct (BEG _ _ _ _ E H) as [S1 S2]. eapply steps_trans; [|apply csteps_steps; eauto].
    eapply ss_j; [eauto|]. now apply j_eff.
  - destruct (BEG _ _ _ _ E H) as [S1 S2]. eapply steps_trans; [|apply csteps_steps; eauto].
    apply csteps_steps in H1.
    assert (SE : steps s (emit (EEff id (last s1) e) s1)) by (eapply ss_j; [exact S1|]; now apply j_eff).
    eapply ss_j; [eapply steps_trans; [exact SE|exact H1]|].
    apply j_eff_end. exists (last s1), e. apply (INCL _ _ H1). now left.
  - eapply steps_trans; [apply jstep1; eapply j_note; eauto|]. now apply csteps_steps.
  - destruct OK as [OK1 [(m0 & OK2) OK3]]. apply csteps_steps in H. apply csteps_steps in H0.
    eapply steps_trans; [|exact H0].
    assert (S1 : steps s s1) by (eapply steps_trans; [apply jstep1; eapply j_note; eauto|exact H]).
    eapply ss_j; [exact S1|]. apply j_told; auto. exists m0. now apply (INCL _ _ S1).
  - eapply steps_trans; [apply jstep1; eapply j_user; eauto|]. now apply csteps_steps.
  - eapply steps_trans; [apply jstep1; eapply j_cb; eauto|]. now apply csteps_steps.
  - destruct OK as [OK1 [OK2 OK3]]. apply csteps_steps in H. apply csteps_steps in H1.
    eapply steps_trans; [|exact H1].
    eapply ss_j; [eapply steps_trans; [apply jstep1; eapply j_cb; eauto|exact H]|].
    apply j_cb_end.
    + exists f, c. split; [apply (INCL _ _ H); now left|]. split; [|split].
      * apply (INCL _ _ H). right. exact OK2.
      * apply (INCL _ _ H). right. exact OK1.
      * exact H0.
  - eapply steps_trans; [apply jstep1; eapply j_link; eauto|]. now apply csteps_steps.
  - eapply steps_trans; [apply jstep1; eapply j_link; eauto|]. now apply csteps_steps.
Qed.

Ltac pick_if ET :=
  match goal with |- context [if trans then ?x else ?y] =>
    first [replace (if trans then x else y) with x by (rewrite ET; reflexivity)
          |replace (if trans then x else y) with y by (rewrite ET; reflexivity)] end.
Ltac pick_if_in ET H :=
  match type of H with context [if trans then ?x else ?y] =>
    first [replace (if trans then x else y) with x in H by (rewrite ET; reflexivity)
          |replace (if trans then x else y) with y in H by (rewrite ET; reflexivity)] end.

Lemma starts_heap : forall id e s, heap (starts id e s) = heap s.
Proof. intros. unfold starts. destruct trans; rewrite ?send_down_heap; reflexivity. Qed.
Lemma starts_busy : forall id e s, busy (starts id e s) = busy s.
Proof. intros. unfold starts. destruct trans; rewrite ?send_down_busy; reflexivity. Qed.
Lemma starts_log : forall id e s, log (starts id e s) = EBegin id e :: log s.
Proof. intros. unfold starts. destruct trans; rewrite ?send_down_log; reflexivity. Qed.

Section Exec.
Variable fl : nat.
Hypothesis IH : forall m, m < S fl -> All m.
Let IHfl : All fl := IH fl (Nat.lt_succ_diag_r fl).
Let POST : forall s0 j, JInv (push_job j s0) -> R (push_job j s0) (exec fl (TPost j) s0).
Proof. intros s0 j. apply (post_R (S fl) IH); auto. Qed.

Lemma Rok_JInv : forall s s', Rok s s' -> JInv s -> JInv s'.
Proof. intros s s' [H _ _ _ _]. now apply steps_JInv. Qed.

Lemma fulfil_R : forall n s, JInv s -> justified (log s) n -> R s (exec (S fl) (TFulfil n) s).
Proof.
  intros n s HI HJ. cbn [StoreModel.exec].
  destruct (nth_error (heap s) n) as [[k [|] [|] [j|]]|] eqn:E; simpl; auto.
  - apply Rok_cstep; [eapply c_again; eauto| |reflexivity]. eapply keeps_upd; eauto.
  - apply Rok_cstep; [eapply c_again; eauto| |reflexivity]. eapply keeps_upd; eauto.
  - set (s1 := emit (EDone n) (upd_cell n (Cell k false true None) s)).
    assert (C : cstep s (push_job j s1)) by (eapply c_post_cb; eauto).
    assert (R1 : Rok s (push_job j s1)).
    { apply Rok_cstep; auto. eapply keeps_upd; eauto. reflexivity. }
    assert (N : nth_error (heap (push_job j s1)) n = Some (Cell k false true None)).
    { simpl. rewrite nth_set_nth, Nat.eqb_refl. simpl.
      assert (L : n < length (heap s)) by (apply nth_error_Some; congruence).
      apply Nat.ltb_lt in L. now rewrite L. }
    pose proof (POST s1 j (Rok_JInv _ _ R1 HI)) as P.
    destruct (exec fl (TPost j) s1) as [f s2|s2| | |] eqn:EP; simpl; auto.
    + eapply settle_Rok; eauto.
    + eapply settle_Rok; eauto. right. eapply post_thrown; eauto.
  - apply Rok_cstep; [eapply c_fulfil; eauto| |reflexivity]. eapply keeps_upd; eauto; reflexivity.
Qed.

Lemma then_R : forall f c s, JInv s -> cret' (log s) f c -> R s (exec (S fl) (TThen f c) s).
Proof.
  intros [f|] c s HI HC; cbn [StoreModel.exec].
  2: { destruct c as [p|m]; [now apply IHfl|]. simpl in HC. apply IHfl; auto.
       right. right. right. exists None. split; simpl; auto. }
  destruct (nth_error (heap s) f) as [[k d [|] [j|]]|] eqn:E; simpl; auto.
  assert (HC' : cret (log s) f c) by (destruct c; exact HC).
  set (s1 := emit _ (new_cell _ s)).
  assert (E1 : s1 = emit (cev f c (length (heap s))) (new_cell (ckind_of c) s)) by (now destruct c).
  rewrite E1. clear s1 E1.
  set (s1 := emit (cev f c (length (heap s))) (new_cell (ckind_of c) s)).
  assert (L : f < length (heap s)) by (apply nth_error_Some; congruence).
  assert (K : forall y, keeps s (upd_cell f y s1)).
  { intros y m x Hm Hl. unfold upd_cell. simpl. rewrite nth_set_nth.
    destruct (Nat.eqb_spec m f) as [->|]; simpl; [rewrite E in Hm; injection Hm as <-; discriminate|].
    rewrite nth_error_app1; auto. apply nth_error_Some. congruence. }
  destruct d.
  - set (s2 := upd_cell f (Cell k true true None) s1).
    assert (C : cstep s (push_job (JCb f c (length (heap s))) s2)) by (eapply c_then_post; eauto).
    assert (R1 : Rok s (push_job (JCb f c (length (heap s))) s2)).
    { apply Rok_cstep; auto. apply (keeps_trans _ s2); [apply K|now apply keeps_heap]. }
    assert (N : nth_error (heap (push_job (JCb f c (length (heap s))) s2)) f = Some (Cell k true true None)).
    { simpl. rewrite nth_set_nth, Nat.eqb_refl. simpl. rewrite app_length.
      assert (L' : f < length (heap s) + length [@Cell M A W (ckind_of c) false false None]) by lia.
      apply Nat.ltb_lt in L'. now rewrite L'. }
    pose proof (POST s2 _ (Rok_JInv _ _ R1 HI)) as P.
    destruct (exec fl (TPost (JCb f c (length (heap s)))) s2) as [f' s3|s3| | |]; simpl; auto.
    + eapply settle_Rok; eauto.
    + eapply settle_Rok; eauto.
  - simpl. apply Rok_cstep; [eapply c_store; eauto|apply K|reflexivity].
Qed.

Lemma slots_R : forall i s, JInv s -> R s (exec (S fl) (TSlots i) s).
Proof.
  intros i s HI. cbn [StoreModel.exec].
  destruct (nth_error (slots s) i) as [[w|]|] eqn:E; [| |apply Rok_refl].
  - assert (C : Rok s (emit (ESee i (last s)) s)).
    { apply Rok_cstep; [eapply c_see; eauto|now apply keeps_heap|reflexivity]. }
    apply R_andthen.
    + apply R_on_throw.
      * eapply R_from; [exact C|]. apply IHfl. eapply Rok_JInv; eauto.
      * intros s' K. eapply Rok_trans; [exact K|].
        apply Rok_cstep; [apply c_fail|now apply keeps_heap|reflexivity].
    + intros f s' K _. eapply R_from; [exact K|]. apply IHfl. eapply Rok_JInv; eauto.
  - now apply IHfl.
Qed.
Lemma notify_R : forall s, JInv s -> R s (exec (S fl) TNotify s).
Proof.
  intros s HI. cbn [StoreModel.exec]. destruct (nn s && negb (nsd s)) eqn:E; [|apply Rok_refl].
  apply andb_true_iff in E as [E1 E2]. apply negb_true_iff in E2.
  assert (C : Rok s (set_nn false s)) by (apply Rok_cstep; [now apply c_nn|now apply keeps_heap|reflexivity]).
  eapply R_from; [exact C|]. apply IHfl. eapply Rok_JInv; eauto.
Qed.

Lemma prog_R : forall p s, JInv s -> R s (exec (S fl) (TProg p) s).
Proof.
  intros p s HI. cbn [StoreModel.exec]. cbv zeta.
  eapply R_from; [apply arrive_Rok|].
  assert (HI' : JInv (arrive s)) by (eapply Rok_JInv; [apply arrive_Rok|auto]).
  remember (arrive s) as s0 eqn:Es0. clear Es0 HI s.
  assert (ONE : forall s1 p, cstep s0 s1 -> heap s1 = heap s0 -> busy s1 = busy s0 ->
            R s0 (exec fl (TProg p) s1)).
  { intros s1 p0 C H B. assert (K : Rok s0 s1) by (apply Rok_cstep; auto; now apply keeps_heap).
    eapply R_from; [exact K|]. apply IHfl. eapply Rok_JInv; eauto. }
  assert (NEXT : forall s1 p, Rok s0 s1 -> R s0 (exec fl (TProg p) s1)).
  { intros s1 p0 K. eapply R_from; [exact K|]. apply IHfl. eapply Rok_JInv; eauto. }
  destruct p as [f| |k|k|w k|n k|a k|f c k|p k|k|n k|k|w k|i k|k|p k].
  - apply Rok_refl.
  - apply Rok_refl.
  - now apply IHfl.
  - now apply IHfl.
  - apply ONE; auto. constructor.
  - apply ONE; auto. constructor.
  - destruct (new_dispatch futures a s0) as [[s1 f] j] eqn:E.
    assert (EA : push_job j s1 = arrive1 s0 a) by (unfold StoreModel.arrive1; now rewrite E).
    assert (K : Rok s0 (push_job j s1)) by (rewrite EA; apply arrive1_Rok).
    apply R_andthen.
    + eapply R_from; [exact K|]. apply POST. eapply Rok_JInv; eauto.
    + intros f' s2 K2 _. now apply NEXT.
  - apply R_andthen.
    + apply IHfl; simpl; auto.
    + intros f' s2 K2 _. now apply NEXT.
  - assert (K : Rok s0 (push_job (JUser p) s0))
      by (apply Rok_cstep; [constructor|now apply keeps_heap|reflexivity]).
    apply R_andthen.
    + eapply R_from; [exact K|]. apply POST. eapply Rok_JInv; eauto.
    + intros f' s2 K2 _. now apply NEXT.
  - apply NEXT. apply Rok_cstep; [constructor|eapply keeps_app; reflexivity|reflexivity].
  - destruct (nth_error (heap s0) n) as [[[| | |] d l c]|] eqn:E; simpl; auto.
    apply R_andthen.
    + apply IHfl; auto. left. destruct HI' as [_ HH]. apply HH in E. now apply (co_user _ _ _ E).
    + intros f' s2 K2 _. now apply NEXT.
  - assert (K : Rok s0 (send_down (emit ECommit s0))).
    { apply Rok_cstep; [constructor| |].
      - apply keeps_heap. now rewrite send_down_heap.
      - now rewrite send_down_busy. }
    apply R_andthen.
    + eapply R_from; [exact K|]. apply IHfl. eapply Rok_JInv; eauto.
    + intros f' s2 K2 _. now apply NEXT.
  - apply ONE; auto. constructor.
  - destruct (nth_error (slots s0) i) as [[w|]|] eqn:E.
    + apply ONE; auto. econstructor; eauto.
    + now apply IHfl.
    + now apply IHfl.
  - destruct (manual || busy s0) eqn:E; [exact Logic.I|]. apply orb_false_iff in E as [_ E].
    apply R_andthen.
    + now apply IHfl.
    + intros f' s2 K2 _. now apply NEXT.
  - pose proof (a_prog _ IHfl p s0 HI') as P.
    destruct (exec fl (TProg p) s0) as [f s1|s1| | |]; simpl in P |- *; auto; now apply NEXT.
Qed.

Lemma run_R : forall s, JInv s -> busy s = false -> R s (exec (S fl) TRun s).
Proof.
  intros s HI HB. cbn [StoreModel.exec].
  assert (H1 : steps s (set_busy true s)) by (apply jstep1; constructor).
  pose proof (a_drain _ IHfl (set_busy true s) (steps_JInv _ _ H1 HI) eq_refl) as [P PB].
  assert (H2 : bsteps s (set_busy true s)) by (apply bstep1, b_busy).
  destruct (exec fl TDrain (set_busy true s)) as [f s1|s1| | |]; simpl in P |- *; auto;
    destruct P as (P1 & P2 & P3).
  - split; simpl; auto; [|intros; congruence|].
    + eapply ss_j; [eapply steps_trans; [exact H1|exact P1]|constructor].
    + eapply bs_snoc; [eapply bsteps_trans; [exact H2|exact PB]|apply b_busy].
  - split; simpl; auto; [|intros; congruence|].
    + eapply ss_j; [eapply steps_trans; [exact H1|exact P1]|constructor].
    + eapply bs_snoc; [eapply bsteps_trans; [exact H2|exact PB]|apply b_busy].
Qed.

Lemma Rd_from : forall a b r, steps a b -> keeps a b -> Rd b r -> Rd a r.
Proof.
  intros a b [f s|s| | |] H H0 H1; simpl in *; auto; destruct H1 as (A1 & A2 & A3);
    (split; [eapply steps_trans; eauto|split; auto; eapply keeps_trans; eauto]).
Qed.

Lemma drain_R : forall s, JInv s -> busy s = true -> Rdb s (exec (S fl) TDrain s).
Proof.
  intros s HI HB. cbn [StoreModel.exec]. cbv zeta.
  pose proof (arrive_Rok s) as K. pose proof (Rok_JInv _ _ K HI) as HI'.
  assert (HB' : busy (arrive s) = true) by (rewrite (rk_busy _ _ K); auto).
  assert (FROM : forall a b r, steps a b -> keeps a b -> bsteps a b -> Rdb b r -> Rdb a r).
  { intros a b r A1 A2 A3 [A4 A5]. split; [eapply Rd_from; eauto|].
    destruct r; auto; eapply bsteps_trans; eauto. }
  eapply FROM; [apply K|apply K|apply K|]. remember (arrive s) as s0. clear Heqs0 K HI HB s.
  destruct (q s0) as [|j r] eqn:E.
  - split; simpl; [|constructor]. split; [constructor|]. split; [apply keeps_refl|auto].
  - pose proof (a_job _ IHfl s0 j r HI' HB' E) as P.
    destruct (exec fl (TJob j) (set_q r s0)) as [f s1|s1| | |] eqn:EX; simpl in P |- *;
      try (split; exact Logic.I); destruct P as (P1 & P2 & P3);
      pose proof (jobrun_steps _ _ _ _ _ HI' E P1) as P4.
    + apply (FROM _ s1); auto.
      * apply bstep1. eapply b_job; eauto.
      * apply IHfl; auto. eapply steps_JInv; eauto.
    + split; simpl.
      * split; [eapply ss_c; [exact P4|apply c_fail]|]. split; auto.
      * apply bstep1. eapply b_fail; eauto.
Qed.

Lemma job_R : forall s j r, JInv s -> busy s = true -> q s = j :: r ->
  Rj s j r (exec (S fl) (TJob j) (set_q r s)).
Proof.
  intros s j r HI HB E.
  assert (OK : jok (log s) j) by (destruct HI as [HQ _]; rewrite E in HQ; now inversion HQ).
  assert (B0 : busy (set_q r s) = true) by exact HB.
  assert (KQ : forall s1, heap s1 = heap s -> keeps s s1) by (intros; now apply keeps_heap).
  assert (INV : forall s1, steps s s1 -> JInv s1) by (intros; eapply steps_JInv; eauto).
  assert (INCL : forall a b, steps a b -> incl (log a) (log b)).
  { intros x y S1. destruct (steps_log _ _ S1) as (l & ->). apply incl_appr, incl_refl. }
  destruct j as [id p a|id p e|id p|p|f c n]; cbn [StoreModel.exec].
  - (* reduce *)
    change (cur (set_q r s)) with (cur s).
    destruct (reducer (cur s) a) as [[m [e|]]|] eqn:ER.
    + destruct (post_busy fl (emit (ERed id m true) (set_q r s)) (JEffect id p e) B0) as [-> | ->]; simpl; auto.
      split; [now apply jr_eff|].
      split; [apply KQ; now rewrite push_down_heap|now rewrite push_down_busy].
    + destruct (bool_dec trans true) as [ET|ET']; [|apply not_true_is_false in ET' as ET]; pick_if ET.
      * set (s1 := emit (ERed id m false) (set_q r s)).
        assert (S1 : steps s (push_down eqb m s1)) by (apply jstep1; eapply j_red_trans; eauto).
        assert (K1 : keeps s (push_down eqb m s1)) by (apply KQ; now rewrite push_down_heap).
        assert (B1 : busy (push_down eqb m s1) = true) by (now rewrite push_down_busy).
        destruct p as [n|]; simpl.
        -- destruct (exec fl (TFulfil n) s1) as [f s2|s2| | |] eqn:EF; simpl; auto.
           ++ pose proof (fulfil_exec fl n m s1 f s2 B0 EF) as EX.
              assert (J1 : justified (log (push_down eqb m s1)) n).
              { rewrite push_down_log. right. right. left. exists id, a, m.
                split; [right; exact OK|]. split; [now left|]. rewrite ET. discriminate. }
              pose proof (a_fulfil _ IHfl n _ (INV _ S1) J1) as P. rewrite EX in P. simpl in P.
              split; [|split].
              ** apply jr_trans with m; auto; [now apply (rk_client _ _ P)|].
                 intros n' En. injection En as <-. eapply fulfil_done; [exact B1|now apply INV|exact EX].
              ** eapply keeps_trans; [exact K1|apply P].
              ** rewrite (rk_busy _ _ P). auto.
           ++ pose proof (fulfil_busy fl n s1 B0) as X. rewrite EF in X. contradiction.
        -- split; [|split; auto]. apply jr_trans with m; auto; [constructor|discriminate].
      * destruct (post_busy fl (emit (ERed id m false) (set_q r s)) (JNotify id p) B0) as [-> | ->]; simpl; auto.
        split; [now apply jr_note|].
        split; [apply KQ; now rewrite push_down_heap|now rewrite push_down_busy].
    + simpl. split; [now apply jr_fail|]. split; auto.
  - (* effect *)
    cbv zeta. destruct OK as [(a & OK1) (m0 & OK2)].
    set (s0 := starts id e (set_q r s)).
    assert (S0 : steps s s0) by (apply jstep1; now apply j_begin with p).
    assert (K0 : keeps s s0) by (apply KQ; unfold s0; now rewrite starts_heap).
    assert (BB : busy s0 = true) by (unfold s0; now rewrite starts_busy).
    set (first := if trans then _ else _).
    assert (P1 : match first with
      | Done _ s1 => csteps s0 s1 /\ keeps s s1 /\ busy s1 = true /\ (trans = false -> nsd s1 = false)
      | Thrown s1 => exists s1', s1 = emit (ELost id) s1' /\ trans = false /\ csteps s0 s1' /\ keeps s s1 /\ busy s1 = true
      | _ => True end).
    { unfold first. destruct (bool_dec trans true) as [ET|ET']; [|apply not_true_is_false in ET' as ET]; pick_if ET.
      - assert (Es : s0 = emit (EBegin id e) (set_q r s)) by (unfold s0, starts; now rewrite ET).
        rewrite <- Es. split; [constructor|]. split; auto. split; auto. congruence.
      - assert (Es : s0 = send_down (emit (EBegin id e) (set_q r s))) by (unfold s0, starts; now rewrite ET).
        rewrite <- Es. pose proof (a_notify _ IHfl _ (INV _ S0)) as P.
        assert (N0 : nsd s0 = false) by (rewrite Es; apply send_down_nsd).
        destruct (exec fl TNotify s0) as [f s1|s1| | |]; simpl in *; auto.
        + pose proof (rk_client _ _ P BB) as C. split; auto. split; [eapply keeps_trans; [exact K0|apply P]|].
          split; [rewrite (rk_busy _ _ P); auto|]. intros _. eapply csteps_nsd; eauto.
        + exists s1. split; auto. split; auto. split; [now apply (rk_client _ _ P)|].
          split; [eapply keeps_trans; [exact K0|apply P]|]. simpl. rewrite (rk_busy _ _ P); auto. }
    destruct first as [f1 s1|s1| | |]; simpl; auto.
    2: { destruct P1 as (s1' & -> & ET & C & K & B). split; auto. now apply jr_lost. }
    destruct P1 as (C1 & K1 & B1 & N1).
    assert (S1 : steps s s1) by (eapply steps_trans; [exact S0|now apply csteps_steps]).
    set (s2 := emit (EEff id (last s1) e) s1).
    assert (BE : In (EBegin id e) (log s1)).
    { apply (INCL s0 s1); [now apply csteps_steps|]. unfold s0. rewrite starts_log. now left. }
    assert (S2 : steps s s2) by (eapply ss_j; [exact S1|]; apply j_eff; auto).
    pose proof (a_prog _ IHfl e s2 (INV _ S2)) as P.
    assert (K2 : keeps s s2) by (eapply keeps_trans; [exact K1|now apply keeps_heap]).
    destruct (exec fl (TProg e) s2) as [f s3|s3| | |]; simpl in P |- *; auto.
    2: { split; [|split].
         - eapply jr_efail; eauto. now apply (rk_client _ _ P).
         - eapply keeps_trans; [exact K2|apply P].
         - rewrite (rk_busy _ _ P). exact B1. }
    set (s4 := emit (EEffEnd id f) s3).
    assert (C3 : csteps s2 s3) by (now apply (rk_client _ _ P)).
    assert (S4 : steps s s4).
    { eapply ss_j; [eapply steps_trans; [exact S2|apply P]|]. apply j_eff_end.
      exists (last s1), e. apply (INCL _ _ (rk_steps _ _ P)). now left. }
    assert (K4 : keeps s s4).
    { eapply keeps_trans; [exact K2|]. eapply keeps_trans; [apply P|]. now apply keeps_heap. }
    assert (B4 : busy s4 = true) by (simpl; rewrite (rk_busy _ _ P); exact B1).
    destruct p as [n|].
    + assert (T : cret' (log s4) f (CBFulfil n)).
      { simpl. left. exists id, a. split; [|now left]. now apply (INCL _ _ S4). }
      pose proof (a_then _ IHfl f (CBFulfil n) s4 (INV _ S4) T) as P5.
      destruct (exec fl (TThen f (CBFulfil n)) s4) as [g s5|s5| | |] eqn:E5; simpl in P5 |- *; auto.
      * split; [|split].
        -- eapply jr_effect; [exact C1|exact N1|exact C3|now apply (rk_client _ _ P5)|].
           intros n' En. injection En as <-. eapply then_owned; [exact B4|now apply INV|exact E5].
        -- eapply keeps_trans; [exact K4|apply P5].
        -- rewrite (rk_busy _ _ P5). exact B4.
      * exfalso. clear - E5 B4. destruct fl as [|fl']; [discriminate|]. cbn [StoreModel.exec] in E5.
        destruct f as [f|].
        -- destruct (nth_error (heap s4) f) as [[k [|] [|] [j|]]|]; try discriminate.
           cbv zeta in E5.
           match type of E5 with context [StoreModel.exec _ _ _ _ _ _ fl' (TPost ?j) ?x] =>
             destruct (post_busy fl' x j B4) as [X|X]; rewrite X in E5; discriminate end.
        -- pose proof (fulfil_busy fl' n s4 B4) as X. rewrite E5 in X. exact X.
    + simpl. split; [|split; auto]. eapply jr_effect; [exact C1|exact N1|exact C3|constructor|discriminate].
  - (* notify *)
    cbv zeta. destruct OK as [(a & OK1) [(m0 & OK2) OK3]].
    set (s0 := send_down (set_q r s)).
    assert (S0 : steps s s0) by (apply jstep1; eapply j_note; eauto).
    assert (B1 : busy s0 = true) by (unfold s0; now rewrite send_down_busy).
    pose proof (a_notify _ IHfl _ (INV _ S0)) as P.
    assert (K0 : keeps s s0) by (apply KQ; unfold s0; now rewrite send_down_heap).
    destruct (exec fl TNotify s0) as [f s1|s1| | |]; simpl in *; auto.
    2: { split; [|split].
         - apply jr_nfail. now apply (rk_client _ _ P).
         - eapply keeps_trans; [exact K0|apply P].
         - now rewrite (rk_busy _ _ P). }
    pose proof (rk_client _ _ P B1) as C1.
    set (s2 := emit (ETold id) s1).
    assert (S1 : steps s s1) by (eapply steps_trans; [exact S0|apply P]).
    assert (S2 : steps s s2).
    { eapply ss_j; [exact S1|]. apply j_told; auto. exists m0. now apply (INCL _ _ S1). }
    assert (K2 : keeps s s2).
    { eapply keeps_trans; [exact K0|]. eapply keeps_trans; [apply P|]. now apply keeps_heap. }
    assert (B2 : busy s2 = true) by (simpl; now rewrite (rk_busy _ _ P)).
    destruct p as [n|].
    + assert (JJ : justified (log s2) n).
      { right. right. left. exists id, a, m0.
        split; [|split]; try (now apply (INCL _ _ S2)). intros _. now left. }
      pose proof (a_fulfil _ IHfl n s2 (INV _ S2) JJ) as P3.
      destruct (exec fl (TFulfil n) s2) as [g s3|s3| | |] eqn:E3; simpl in P3 |- *; auto.
      * split; [|split].
        -- eapply jr_notify; [exact C1|now apply (rk_client _ _ P3)|].
           intros n' En. injection En as <-. eapply fulfil_done; [exact B2|now apply INV|exact E3].
        -- eapply keeps_trans; [exact K2|apply P3].
        -- rewrite (rk_busy _ _ P3). exact B2.
      * exfalso. pose proof (fulfil_busy fl n s2 B2) as X. rewrite E3 in X. exact X.
    + simpl. split; [|split; auto]. eapply jr_notify; [exact C1|constructor|discriminate].
  - (* user *)
    assert (S0 : steps s (set_q r s)) by (apply jstep1; eapply j_user; eauto).
    pose proof (a_prog _ IHfl p _ (INV _ S0)) as P.
    destruct (exec fl (TProg p) (set_q r s)) as [f s1|s1| | |]; simpl in *; auto;
      (split; [apply jr_user; now apply (rk_client _ _ P)|split; [eapply keeps_trans; [now apply KQ|apply P]
        |rewrite (rk_busy _ _ P); exact B0]]).
  - (* callback *)
    destruct OK as [OK1 [OK2 OK3]]. destruct c as [c|m].
    + assert (S0 : steps s (emit (ECb n c) (set_q r s))) by (apply jstep1; eapply j_cb; eauto).
      set (s1 := emit (ECb n c) (set_q r s)) in *.
      pose proof (a_prog _ IHfl c s1 (INV _ S0)) as P.
      assert (PR : forall g, c = PRet g -> forall f' s', exec fl (TProg c) s1 = Done f' s' -> f' = g).
      { intros g -> f' s' EX. destruct fl; [discriminate|]. cbn [StoreModel.exec] in EX. congruence. }
      destruct (exec fl (TProg c) s1) as [f' s2|s2| | |] eqn:EX; simpl in P |- *; auto.
      2: { split; [apply jr_cfail; now apply (rk_client _ _ P)|split].
           - eapply keeps_trans; [|apply P]. now apply KQ.
           - rewrite (rk_busy _ _ P). exact B0. }
      set (s3 := emit (ECbEnd n f') s2).
      assert (S3 : steps s s3).
      { eapply steps_trans; [exact S0|]. eapply ss_j; [apply P|]. apply j_cb_end.
        - exists f, c. split; [apply (INCL _ _ (rk_steps _ _ P)); now left|]. split; [|split].
          + apply (INCL _ _ (rk_steps _ _ P)). right. exact OK2.
          + apply (INCL _ _ (rk_steps _ _ P)). right. exact OK1.
          + intros g Hg. eapply PR; eauto. }
      assert (K3 : keeps s s3).
      { eapply keeps_trans; [|eapply keeps_trans; [apply P|]]; [now apply KQ|now apply keeps_heap]. }
      assert (B3 : busy s3 = true) by (simpl; rewrite (rk_busy _ _ P); exact B0).
      assert (T : cret' (log s3) f' (CBFulfil n)) by (simpl; right; now left).
      pose proof (a_then _ IHfl f' (CBFulfil n) s3 (INV _ S3) T) as P5.
      destruct (exec fl (TThen f' (CBFulfil n)) s3) as [g s5|s5| | |] eqn:E5; simpl in P5 |- *; auto.
      * split; [|split].
        -- eapply jr_cb; [now apply (rk_client _ _ P)| |now apply (rk_client _ _ P5)|].
           ++ intros h Hh. eapply PR; eauto.
           ++ eapply then_owned; [exact B3|now apply INV|exact E5].
        -- eapply keeps_trans; [exact K3|apply P5].
        -- rewrite (rk_busy _ _ P5). exact B3.
      * exfalso. clear - E5 B3. destruct fl as [|fl']; [discriminate|]. cbn [StoreModel.exec] in E5.
        destruct f' as [f'|].
        -- destruct (nth_error (heap s3) f') as [[k [|] [|] [j|]]|]; try discriminate.
           cbv zeta in E5.
           match type of E5 with context [StoreModel.exec _ _ _ _ _ _ fl' (TPost ?j) ?x] =>
             destruct (post_busy fl' x j B3) as [X|X]; rewrite X in E5; discriminate end.
        -- pose proof (fulfil_busy fl' n s3 B3) as X. rewrite E5 in X. exact X.
    + assert (S0 : steps s (set_q r s)) by (apply jstep1; eapply j_link; eauto).
      assert (JM : justified (log (set_q r s)) m).
      { right. right. right. exists (Some f). split; auto. }
      pose proof (a_fulfil _ IHfl m _ (INV _ S0) JM) as P.
      destruct (exec fl (TFulfil m) (set_q r s)) as [g s1|s1| | |] eqn:E1; simpl in P |- *; auto.
      2: { exfalso. pose proof (fulfil_busy fl m _ B0) as X. rewrite E1 in X. exact X. }
      assert (S1 : steps s s1) by (eapply steps_trans; [exact S0|apply P]).
      assert (B1 : busy s1 = true) by (now rewrite (rk_busy _ _ P)).
      assert (JN : justified (log s1) n).
      { right. left. exists f, m. apply (INCL _ _ (rk_steps _ _ P)). exact OK2. }
      pose proof (a_fulfil _ IHfl n s1 (INV _ S1) JN) as P2.
      destruct (exec fl (TFulfil n) s1) as [g2 s2|s2| | |] eqn:E2; simpl in P2 |- *; auto.
      2: { exfalso. pose proof (fulfil_busy fl n _ B1) as X. rewrite E2 in X. exact X. }
      split; [|split].
      * apply jr_link.
        -- eapply csteps_trans; [now apply (rk_client _ _ P)|now apply (rk_client _ _ P2)].
        -- apply (INCL _ _ (rk_steps _ _ P2)). eapply fulfil_done; [exact B0|now apply INV|exact E1].
        -- eapply fulfil_done; [exact B1|now apply INV|exact E2].
      * eapply keeps_trans; [|eapply keeps_trans; [apply P|apply P2]]. now apply KQ.
      * rewrite (rk_busy _ _ P2). exact B1.
Qed.
End Exec.

Theorem exec_All : forall fuel, All fuel.
Proof.
  intros fuel. induction fuel as [[|fl] IH] using lt_wf_ind.
  - split; intros; try exact Logic.I. split; exact Logic.I.
  - split; [now apply prog_R|now apply notify_R|now apply slots_R|now apply fulfil_R|now apply then_R
      |now apply run_R|now apply drain_R|now apply job_R].
Qed.

Lemma init_JInv : forall m w, JInv (init m w).
Proof. intros. split; simpl; [constructor|]. intros [|n] c H; discriminate. Qed.
Lemma run_steps : forall fuel m w p s, finished (run reducer eqb trans futures manual ext fuel m w p) s ->
  steps (init m w) s /\ busy s = false.
Proof.
  intros fuel m w p s H. pose proof (a_prog _ (exec_All fuel) p _ (init_JInv m w)) as P.
  unfold run in H. destruct H as [(f & E)|E]; rewrite E in P; destruct P as [P1 _ P3 _ _]; auto.
Qed.
Lemma run_bsteps : forall fuel m w p s, finished (run reducer eqb trans futures manual ext fuel m w p) s ->
  bsteps (init m w) s.
Proof.
  intros fuel m w p s H. pose proof (a_prog _ (exec_All fuel) p _ (init_JInv m w)) as P.
  unfold run in H. destruct H as [(f & E)|E]; rewrite E in P; apply P.
Qed.

End Steps.

Arguments ret {M A W}. Arguments justified {M A W}. Arguments cret {M A W}. Arguments cev {M A W}.
Arguments ckind_of {M A W}. Arguments cbok {M A W}. Arguments jok {M A W}. Arguments cellok {M A W}.
Arguments JInv {M A W}. Arguments cstep {M A W}. Arguments jstep {M A W}. Arguments bstep {M A W}.
Arguments csteps {M A W}. Arguments steps {M A W}. Arguments bsteps {M A W}.
Arguments R {M A W}. Arguments Rok {M A W}. Arguments All {M A W}.
Arguments owns {M A W}. Arguments Ow {M A W}. Arguments starts {M A W}. Arguments jobrun {M A W}.
