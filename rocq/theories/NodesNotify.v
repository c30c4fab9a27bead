(** Notification: who is told what, and how often. *)
From Coq Require Import List Arith Bool Lia.
From Verif Require Import NodesModel NodesSpec NodesBase NodesInv NodesExec NodesEv NodesRoots.
Import ListNotations.

Section Notify.
Context {V W : Type}.
Variable dv : V.
Variable changed : V -> V -> bool.
Hypothesis changed_sound : forall a b, changed a b = false -> a = b.
Variable ordV : graph V W -> nat -> list (nat * V) -> list (nat * V).
Variable ordN : graph V W -> nat -> list nat -> list nat.

Set Default Proof Using "Type changed_sound ordN".
Implicit Types g : graph V W.
Implicit Types s : st V W.

Notation Inv := (Inv changed).
Notation ev := (ev changed ordV ordN).
Notation exec := (exec changed ordV ordN).
Notation step := (step changed ordN).
Notation steps := (steps changed ordN).

(** ** Invariants across evaluations *)
Lemma ev_Inv : forall t s b s', ev t s b s' -> Inv (gr s) -> Inv (gr s') /\ ext (gr s) (gr s').
Proof. intros. eapply steps_Inv; eauto. eapply ev_steps; eauto. Qed.

Lemma step_log : forall s s', step s s' -> exists l, log s' = l ++ log s.
Proof using Type.
  intros s s' H. destruct H; try (exists []; reflexivity); try (eexists [_]; reflexivity).
  - destruct (send_roots_log changed ns s) as (l & -> & _). eexists (l ++ [_]).
    rewrite <- app_assoc. reflexivity.
  - destruct (send_roots_log changed [n] (wr changed n v s)) as (l & -> & _).
    eexists (l ++ [_; _]). rewrite <- app_assoc. reflexivity.
  - match goal with |- context [send_roots changed [n] ?a] =>
      destruct (send_roots_log changed [n] a) as (l & -> & _) end.
    eexists (l ++ [_]). rewrite <- app_assoc. reflexivity.
Qed.
Lemma steps_log : forall s s', steps s s' -> exists l, log s' = l ++ log s.
Proof using Type.
  intros s s' H. induction H as [s|s s1 s2 H (l & IH) H1]; [now exists []|].
  destruct (step_log _ _ H1) as (l' & E). exists (l' ++ l). rewrite E, IH. apply app_assoc.
Qed.
Lemma ev_log : forall t s b s', ev t s b s' -> Inv (gr s) -> exists l, log s' = l ++ log s.
Proof. intros. eapply steps_log; eauto. eapply ev_steps; eauto. Qed.

Lemma escapes_app : forall l l' : list (event V W), escapes (l ++ l') = escapes l || escapes l'.
Proof using Type. intros. apply existsb_app. Qed.
Lemma ev_escapes : forall t s b s', ev t s b s' -> Inv (gr s) ->
  escapes (log s') = false -> escapes (log s) = false.
Proof.
  intros t s b s' H HI E. destruct (ev_log _ _ _ _ H HI) as (l & El).
  rewrite El, escapes_app in E. now apply orb_false_iff in E.
Qed.

Lemma send_roots_ss : forall ns s, same_struct (gr s) (gr (send_roots changed ns s)).
Proof using Type.
  intros ns s. unfold send_roots.
  change (gr s) with (gr (emit (ECommit ns (world (gr s))) s)) at 1.
  generalize (emit (ECommit ns (world (gr s))) s). induction ns as [|n ns IH]; intros a; simpl.
  - apply ss_refl.
  - eapply ss_trans; [|apply IH]. apply (fs_ss _ _ (fs_send_down changed _ n a)).
Qed.
Lemma send_roots_fs : forall ns s, frame_send (gr s) (gr (send_roots changed ns s)).
Proof using Type.
  intros ns s. unfold send_roots.
  change (gr s) with (gr (emit (ECommit ns (world (gr s))) s)) at 1.
  generalize (emit (ECommit ns (world (gr s))) s). induction ns as [|n ns IH]; intros a; simpl.
  - apply fs_refl.
  - eapply fs_trans; [|apply IH]. apply fs_send_down.
Qed.

(** ** The "notifying" mark *)
Definition fresh_ntf g : Prop := forall n, cnt g <= n -> ntf g n = false.

Definition ntf_same g g' : Prop := forall n, ntf g' n = ntf g n.

Lemma ntf_ss : forall g g', same_struct g g' -> ntf_same g g'.
Proof using Type. intros g g' S n. apply (ss_ntf _ _ S). Qed.
Lemma ntf_trans : forall a b c, ntf_same a b -> ntf_same b c -> ntf_same a c.
Proof using Type. intros a b c A B n. now rewrite B. Qed.
Lemma ntf_refl : forall a, ntf_same a a.
Proof using Type. intros a n; auto. Qed.
Lemma fresh_ss : forall g g', same_struct g g' -> fresh_ntf g -> fresh_ntf g'.
Proof using Type. intros g g' S F n L. rewrite (ss_ntf _ _ S). apply F. now rewrite <- (ss_cnt _ _ S). Qed.
Lemma ntf_upd : forall g n h, (forall a, n_ntf (h a) = n_ntf a) -> ntf_same g (upd g n h).
Proof using Type. intros g n h H m. unfold ntf. simpl. destruct (m =? n); auto. Qed.
Lemma ntf_fresh : forall g g', ntf_same g g' -> cnt g <= cnt g' -> fresh_ntf g -> fresh_ntf g'.
Proof using Type. intros g g' H C F n L. rewrite H. apply F. lia. Qed.

Lemma wr_ss : forall n v s, same_struct (gr s) (gr (wr changed n v s)).
Proof using Type. intros. apply (fc_ss _ _ _ (fc_push_down changed n v (gr s))). Qed.
Lemma refreshed_ss : forall rf n s, same_struct (gr s) (gr (refreshed changed ordN rf n s)).
Proof using Type.
  intros [] n s; simpl; [|apply ss_refl]. apply (fr_ss _ _ (fr_refresh changed ordN (S n) n (gr s))).
Qed.
Lemma refreshed_Inv : forall rf n s, Inv (gr s) -> Inv (gr (refreshed changed ordN rf n s)).
Proof.
  intros [] n s HI; auto. split.
  - apply (wf_refresh changed changed_sound). apply HI.
  - apply (refresh_D changed changed_sound); [apply (wf_par _ (proj1 HI))|apply HI].
Qed.

(** Invariants of the sub-evaluations. *)
Lemma pin_I : forall n s, Inv (gr s) -> alive (gr s) n = true -> Inv (gr (pin n s)).
Proof. intros. now apply pin_Inv. Qed.
Lemma unpin_I : forall s, Inv (gr s) -> Inv (gr (unpin s)).
Proof. intros. now apply unpin_Inv. Qed.
Lemma roots_I : forall ns s, Inv (gr s) -> Inv (gr (send_roots changed ns s)).
Proof. intros. now apply send_roots_Inv. Qed.
Lemma wr_I : forall n v s, Inv (gr s) ->
  match kind_of (gr s) n with KInner _ _ | KConst => False | _ => True end ->
  Inv (gr (wr changed n v s)).
Proof. intros. now apply (Inv_push_down changed changed_sound (gr s)). Qed.
Lemma start_I : forall n s, Inv (gr s) -> nn (gr s) n = true -> nsd (gr s) n = false ->
  Inv (gr (start_notify n s)).
Proof.
  intros n s HI H1 H2.
  apply (step_Inv changed changed_sound ordN _ _ (S_notify changed ordN n s H1 H2) HI).
Qed.
Lemma setter_I : forall n fn s s1 v, Inv (gr s) -> kind_of (gr s) n = KSetter true fn ->
  Inv (gr s1) -> ext (gr s) (gr s1) ->
  Inv (gr (send_roots changed [n] (mark_rcp n (with_gr s1 (push_down changed n v))))).
Proof.
  intros n fn s s1 v HI K I1 [C E].
  assert (L : n < cnt (gr s)) by (apply (noninner_out _ _ (proj1 HI)); rewrite K; discriminate).
  destruct (E n L) as [K1 _]. rewrite K in K1.
  apply (step_Inv changed changed_sound ordN _ _ (S_setter_auto changed ordN n fn v s1 K1) I1).
Qed.

(** One tactic to discharge the invariants of sub-evaluations in an induction on
    [ev]: it feeds [Inv] to each induction hypothesis in turn. *)
Lemma nn_lt : forall s n, Inv (gr s) -> nn (gr s) n = true -> n < cnt (gr s).
Proof using Type.
  intros s n HI E. destruct (Nat.lt_ge_cases n (cnt (gr s))) as [L|L]; auto.
  destruct (wf_out _ (proj1 HI) n L) as (_&_&_&_&_&A&_). congruence.
Qed.

Lemma ev_ntf : forall t s b s', ev t s b s' -> Inv (gr s) -> fresh_ntf (gr s) ->
  ntf_same (gr s) (gr s') /\ fresh_ntf (gr s').
Proof.
  intros t s b s' H. induction H; intros HI HF; try (split; [intros ?; reflexivity|exact HF]).
  - destruct (IHev1 HI HF) as [A1 A2]. destruct (ev_Inv _ _ _ _ H HI) as [I1 _].
    destruct (IHev2 I1 A2) as [B1 B2]. split; auto. eapply ntf_trans; [exact A1|exact B1].
  - auto.
  - destruct (IHev1 HI HF) as [A1 A2]. destruct (ev_Inv _ _ _ _ H HI) as [I1 _].
    destruct (IHev2 I1 A2) as [B1 B2]. split; auto. eapply ntf_trans; [exact A1|exact B1].
  - apply IHev; auto. apply pin_I; auto. now apply alive_handle.
  - apply IHev; auto. apply pin_I; auto. now apply alive_handle.
  - pose proof (send_roots_ss ns s) as S. destruct IHev as [A B]; auto using roots_I.
    + eapply fresh_ss; eauto.
    + split; auto. eapply ntf_trans; [apply ntf_ss; exact S|exact A].
  - pose proof (wr_ss n v s) as S. split; [now apply ntf_ss|]. eapply fresh_ss; eauto.
  - (* new *)
    assert (Q : ntf_same (gr s) (gr (new_node k ps v s))).
    { intros m. unfold new_node. simpl. destruct (Nat.eq_dec m (cnt (gr s))) as [->|N].
      - unfold ntf at 1. rewrite (add_nd_new changed changed_sound (gr s) k ps v H H0).
        simpl. symmetry. now apply HF.
      - destruct (add_old_fields changed changed_sound (gr s) k ps v H H0 m N)
          as (_&_&_&_&_&_&_&_&E). exact E. }
    split; auto. eapply ntf_fresh; eauto. unfold new_node. simpl.
    destruct (add_rest changed changed_sound (gr s) k ps v H H0) as (C & _). rewrite C. lia.
  - assert (Q : ntf_same (gr s) (gr (drop_held n s))) by (apply ntf_upd; intros []; auto).
    split; auto. eapply ntf_fresh; eauto.
  - assert (Q : ntf_same (gr s) (gr (add_watch n cb s))).
    { intros m. unfold ntf. simpl. destruct (m =? n); auto. }
    split; auto. eapply ntf_fresh; eauto.
  - assert (Q : ntf_same (gr s) (gr (del_watch n sid s))) by (apply ntf_upd; intros []; auto).
    split; auto. eapply ntf_fresh; eauto.
  - pose proof (wr_ss n v s) as S. split; [now apply ntf_ss|]. eapply fresh_ss; eauto.
  - pose proof (ss_trans _ _ _ (wr_ss n v s) (send_roots_ss [n] (wr changed n v s))) as S.
    destruct IHev as [A B].
    + apply roots_I. apply wr_I; auto. now rewrite H.
    + eapply fresh_ss; eauto.
    + split; auto. eapply ntf_trans; [apply ntf_ss; exact S|exact A].
  - auto.
  - destruct (IHev HI HF) as [A B].
    pose proof (fc_ss _ _ _ (fc_push_down changed n v (gr s1))) as S. split.
    + eapply ntf_trans; [exact A|now apply ntf_ss].
    + eapply fresh_ss; eauto.
  - destruct (IHev1 HI HF) as [A B]. destruct (ev_Inv _ _ _ _ H0 HI) as [I1 E1].
    assert (S : same_struct (gr s1) (gr (send_roots changed [n]
       (mark_rcp n (with_gr s1 (push_down changed n v)))))).
    { eapply ss_trans; [|apply send_roots_ss].
      eapply ss_trans; [apply (fc_ss _ _ _ (fc_push_down changed n v (gr s1)))|].
      apply ss_upd. intros []; simpl; auto 10. }
    destruct IHev2 as [A2 B2].
    + exact (setter_I n fn s s1 v HI H I1 E1).
    + eapply fresh_ss; eauto.
    + split; auto. eapply ntf_trans; [exact A|]. eapply ntf_trans; [|exact A2]. now apply ntf_ss.
  - pose proof (refreshed_ss rf n s) as S. destruct IHev as [A B].
    + now apply refreshed_Inv.
    + eapply fresh_ss; eauto.
    + split; auto. eapply ntf_trans; [apply ntf_ss; exact S|exact A].
  - destruct (IHev1 HI HF) as [A1 A2]. destruct (ev_Inv _ _ _ _ H HI) as [I1 _].
    destruct (IHev2 I1 A2) as [B1 B2]. split; auto. eapply ntf_trans; eauto.
  - auto.
  - destruct (IHev1 HI HF) as [A1 A2]. destruct (ev_Inv _ _ _ _ H HI) as [I1 _].
    destruct (IHev2 I1 A2) as [B1 B2]. split; auto. eapply ntf_trans; eauto.
  - auto.
  - destruct (IHev1 HI HF) as [A1 A2]. destruct (ev_Inv _ _ _ _ H0 HI) as [I1 _].
    destruct (IHev2 I1 A2) as [B1 B2]. split; auto. eapply ntf_trans; eauto.
  - auto.
  - (* notify *)
    assert (I0 : Inv (gr (start_notify n s))) by (now apply start_I).
    pose proof (nn_lt s n HI H) as L.
    assert (F0 : fresh_ntf (gr (start_notify n s))).
    { intros m Lm. unfold ntf. simpl in *. destruct (Nat.eqb_spec m n); [lia|]. now apply HF. }
    destruct (IHev1 I0 F0) as [A1 A2]. destruct (ev_Inv _ _ _ _ H1 I0) as [I1 X1].
    destruct (IHev2 I1 A2) as [B1 B2]. destruct (ev_Inv _ _ _ _ H2 I1) as [_ X2].
    assert (Q : ntf_same (gr s) (gr (restore n (ntf (gr s) n) s2))).
    { intros m. unfold ntf at 1. simpl. destruct (Nat.eqb_spec m n) as [->|N]; auto.
      change (ntf (gr s2) m = ntf (gr s) m). rewrite B1, A1. unfold ntf. simpl.
      now rewrite (proj2 (Nat.eqb_neq m n)). }
    split; auto. apply (ntf_fresh _ _ Q); auto.
    destruct X1, X2. simpl in *. lia.
  - assert (I0 : Inv (gr (start_notify n s))) by (now apply start_I).
    pose proof (nn_lt s n HI H) as L.
    assert (F0 : fresh_ntf (gr (start_notify n s))).
    { intros m Lm. unfold ntf. simpl in *. destruct (Nat.eqb_spec m n); [lia|]. now apply HF. }
    destruct (IHev I0 F0) as [A1 A2]. destruct (ev_Inv _ _ _ _ H1 I0) as [I1 X1].
    assert (Q : ntf_same (gr s) (gr (restore n (ntf (gr s) n) s1))).
    { intros m. unfold ntf at 1. simpl. destruct (Nat.eqb_spec m n) as [->|N]; auto.
      change (ntf (gr s1) m = ntf (gr s) m). rewrite A1. unfold ntf. simpl.
      now rewrite (proj2 (Nat.eqb_neq m n)). }
    split; auto. apply (ntf_fresh _ _ Q); auto. destruct X1. simpl in *. lia.
  - destruct (IHev1 HI HF) as [A1 A2]. destruct (ev_Inv _ _ _ _ H0 HI) as [I1 _].
    destruct (IHev2 I1 A2) as [B1 B2]. split; auto. eapply ntf_trans; [exact A1|exact B1].
  - auto.
  - destruct (garbage && negb old); [|split; [apply ntf_refl|assumption]].
    assert (Q : ntf_same (gr s) (collect n (gr s))) by (apply ntf_upd; intros []; auto).
    split; auto. eapply ntf_fresh; eauto.
  - assert (I0 : Inv (gr (pin c s))) by (now apply pin_I).
    destruct (IHev1 I0 HF) as [A1 A2]. destruct (ev_Inv _ _ _ _ H2 I0) as [I1 _].
    destruct (IHev2 (unpin_I _ I1) A2) as [B1 B2]. split; auto.
    eapply ntf_trans; [exact A1|exact B1].
  - assert (I0 : Inv (gr (pin c s))) by (now apply pin_I).
    destruct (IHev I0 HF) as [A1 A2]. split; auto.
  - auto.
Qed.

(** ** While a node is being notified its list of children only grows *)
Definition grows n g g' : Prop := exists x, children g' n = children g n ++ x.
Lemma grows_refl : forall n g, grows n g g.
Proof using Type. intros. exists []. now rewrite app_nil_r. Qed.
Lemma grows_eq : forall n g g', children g' n = children g n -> grows n g g'.
Proof using Type. intros n g g' E. exists []. now rewrite app_nil_r. Qed.
Lemma grows_trans : forall n a b c, grows n a b -> grows n b c -> grows n a c.
Proof using Type. intros n a b c [x E] [y F]. exists (x ++ y). now rewrite F, E, app_assoc. Qed.
Lemma grows_ss : forall n g g', same_struct g g' -> grows n g g'.
Proof using Type. intros n g g' S. apply grows_eq. apply (ss_children _ _ S). Qed.

Definition not_last_kids (t : task V W) n : Prop :=
  match t with TKids m _ _ _ old => m = n -> old = true | _ => True end.

Lemma ev_grows : forall t s b s', ev t s b s' -> Inv (gr s) -> fresh_ntf (gr s) ->
  forall n, ntf (gr s) n = true -> not_last_kids t n -> grows n (gr s) (gr s').
Proof.
  intros t s b s' H. induction H; intros HI HF q HN HK; try (apply grows_eq; reflexivity).
  - destruct (ev_ntf _ _ _ _ H HI HF) as [A1 A2]. destruct (ev_Inv _ _ _ _ H HI) as [I1 _].
    eapply grows_trans; [apply IHev1; simpl; auto|]. apply (IHev2 I1 A2); simpl; auto.
    now rewrite A1.
  - apply IHev; simpl; auto.
  - destruct (ev_ntf _ _ _ _ H HI HF) as [A1 A2]. destruct (ev_Inv _ _ _ _ H HI) as [I1 _].
    eapply grows_trans; [apply IHev1; simpl; auto|]. apply (IHev2 I1 A2); simpl; auto.
    now rewrite A1.
  - apply IHev; simpl; auto. apply pin_I; auto. now apply alive_handle.
  - apply IHev; simpl; auto. apply pin_I; auto. now apply alive_handle.
  - pose proof (send_roots_ss ns s) as S. eapply grows_trans; [apply grows_ss; exact S|].
    apply IHev; simpl; auto using roots_I.
    + eapply fresh_ss; eauto.
    + now rewrite (ss_ntf _ _ S).
  - apply grows_ss, wr_ss.
  - destruct (Nat.eq_dec q (cnt (gr s))) as [->|N].
    + rewrite HF in HN; [discriminate|lia].
    + eexists. unfold new_node. simpl.
      apply (add_old_children changed changed_sound (gr s) k ps v H H0 q N).
  - apply grows_eq. unfold children. simpl. destruct (q =? n); auto.
  - apply grows_eq. unfold children. simpl. destruct (q =? n); auto.
  - apply grows_eq. unfold children. simpl. destruct (q =? n); auto.
  - apply grows_ss, wr_ss.
  - pose proof (ss_trans _ _ _ (wr_ss n v s) (send_roots_ss [n] (wr changed n v s))) as S.
    eapply grows_trans; [apply grows_ss; exact S|]. apply IHev; simpl; auto.
    + apply roots_I. apply wr_I; auto. now rewrite H.
    + eapply fresh_ss; eauto.
    + now rewrite (ss_ntf _ _ S).
  - apply (IHev HI HF); simpl; auto.
  - eapply grows_trans; [apply (IHev HI HF); simpl; auto|].
    apply grows_ss. apply (fc_ss _ _ _ (fc_push_down changed n v (gr s1))).
  - destruct (ev_ntf _ _ _ _ H0 HI HF) as [A B]. destruct (ev_Inv _ _ _ _ H0 HI) as [I1 E1].
    assert (S : same_struct (gr s1) (gr (send_roots changed [n]
       (mark_rcp n (with_gr s1 (push_down changed n v)))))).
    { eapply ss_trans; [|apply send_roots_ss].
      eapply ss_trans; [apply (fc_ss _ _ _ (fc_push_down changed n v (gr s1)))|].
      apply ss_upd. intros []; simpl; auto 10. }
    eapply grows_trans; [apply (IHev1 HI HF); simpl; auto|].
    eapply grows_trans; [apply grows_ss; exact S|]. apply IHev2; simpl; auto.
    + exact (setter_I n fn s s1 v HI H I1 E1).
    + eapply fresh_ss; eauto.
    + rewrite (ss_ntf _ _ S), A. auto.
  - pose proof (refreshed_ss rf n s) as S. eapply grows_trans; [apply grows_ss; exact S|].
    apply IHev; simpl; auto.
    + now apply refreshed_Inv.
    + eapply fresh_ss; eauto.
    + now rewrite (ss_ntf _ _ S).
  - destruct (ev_ntf _ _ _ _ H HI HF) as [A1 A2]. destruct (ev_Inv _ _ _ _ H HI) as [I1 _].
    eapply grows_trans; [apply IHev1; simpl; auto|]. apply (IHev2 I1 A2); simpl; auto.
    now rewrite A1.
  - apply IHev; simpl; auto.
  - destruct (ev_ntf _ _ _ _ H HI HF) as [A1 A2]. destruct (ev_Inv _ _ _ _ H HI) as [I1 _].
    eapply grows_trans; [apply IHev1; simpl; auto|]. apply (IHev2 I1 A2); simpl; auto.
    now rewrite A1.
  - apply IHev; simpl; auto.
  - destruct (ev_ntf _ _ _ _ H0 HI HF) as [A1 A2]. destruct (ev_Inv _ _ _ _ H0 HI) as [I1 _].
    eapply grows_trans; [apply IHev1; simpl; auto|]. apply (IHev2 I1 A2); simpl; auto.
    now rewrite A1.
  - apply IHev; simpl; auto.
  - (* notify *)
    assert (I0 : Inv (gr (start_notify n s))) by (now apply start_I).
    pose proof (nn_lt s n HI H) as L.
    assert (F0 : fresh_ntf (gr (start_notify n s))).
    { intros m Lm. unfold ntf. simpl in *. destruct (Nat.eqb_spec m n); [lia|]. now apply HF. }
    destruct (ev_ntf _ _ _ _ H1 I0 F0) as [A1 A2]. destruct (ev_Inv _ _ _ _ H1 I0) as [I1 X1].
    assert (N0 : ntf (gr (start_notify n s)) q = true).
    { unfold ntf in *. simpl. destruct (q =? n); auto. }
    assert (G0 : grows q (gr s) (gr (start_notify n s))).
    { apply grows_eq. unfold children. simpl. destruct (q =? n); auto. }
    eapply grows_trans; [exact G0|]. eapply grows_trans; [apply IHev1; simpl; auto|].
    eapply grows_trans; [apply (IHev2 I1 A2)|].
    + now rewrite A1.
    + simpl. intros <-. exact HN.
    + apply grows_eq. unfold children. simpl. destruct (q =? n); auto.
  - assert (I0 : Inv (gr (start_notify n s))) by (now apply start_I).
    pose proof (nn_lt s n HI H) as L.
    assert (F0 : fresh_ntf (gr (start_notify n s))).
    { intros m Lm. unfold ntf. simpl in *. destruct (Nat.eqb_spec m n); [lia|]. now apply HF. }
    assert (N0 : ntf (gr (start_notify n s)) q = true).
    { unfold ntf in *. simpl. destruct (q =? n); auto. }
    assert (G0 : grows q (gr s) (gr (start_notify n s))).
    { apply grows_eq. unfold children. simpl. destruct (q =? n); auto. }
    eapply grows_trans; [exact G0|]. eapply grows_trans; [apply IHev; simpl; auto|].
    apply grows_eq. unfold children. simpl. destruct (q =? n); auto.
  - destruct (ev_ntf _ _ _ _ H0 HI HF) as [A1 A2]. destruct (ev_Inv _ _ _ _ H0 HI) as [I1 _].
    eapply grows_trans; [apply (IHev1 HI HF); simpl; auto|].
    apply (IHev2 I1 A2); simpl; auto. rewrite A1. exact HN.
  - apply (IHev HI HF); simpl; auto.
  - simpl in HK. destruct (garbage && negb old) eqn:E; [|apply grows_refl].
    apply grows_eq. unfold children, collect. simpl.
    destruct (Nat.eqb_spec q n) as [->|]; auto.
    rewrite HK in E by auto. destruct garbage; discriminate.
  - assert (I0 : Inv (gr (pin c s))) by (now apply pin_I).
    destruct (ev_ntf _ _ _ _ H2 I0 HF) as [A1 A2]. destruct (ev_Inv _ _ _ _ H2 I0) as [I1 _].
    eapply grows_trans; [apply (IHev1 I0 HF q HN); simpl; auto|].
    apply (IHev2 (unpin_I _ I1) A2); simpl; auto.
    change (ntf (gr s1) q = true). now rewrite A1.
  - assert (I0 : Inv (gr (pin c s))) by (now apply pin_I).
    apply (IHev I0 HF q HN). simpl; auto.
  - apply IHev; simpl; auto.
Qed.

(** ** The library never reads freed or out-of-range memory *)
Definition pinned g n : Prop := exists m, In m (pins g) /\ m < cnt g /\ anc g n m.
Lemma pinned_alive : forall g n, Inv g -> pinned g n -> alive g n = true.
Proof using Type.
  intros g n [Wf _] (m & Hm & L & A). apply (alive_iff g (wf_par _ Wf)). exists m.
  split; auto.
Qed.
Lemma pinned_ext : forall g g' n, Inv g -> ext g g' -> pins g' = pins g -> pinned g n -> pinned g' n.
Proof using Type.
  intros g g' n [Wf _] [C X] E (m & Hm & L & A). exists m. rewrite E. split; auto. split; [lia|].
  clear Hm. induction A as [k|k p m A IH Hp]; [constructor|].
  pose proof (wf_par _ Wf _ _ Hp). econstructor; [apply IH; lia|].
  destruct (X m L) as [_ ->]. exact Hp.
Qed.
Lemma pinned_parent : forall g n p, pinned g n -> In p (parents g n) -> pinned g p.
Proof using Type.
  intros g n p (m & Hm & L & A) Hp. exists m. split; auto. split; auto.
  clear - A Hp. induction A as [k|k q m A IH Hq].
  - econstructor; [constructor|exact Hp].
  - econstructor; [apply IH; exact Hp|exact Hq].
Qed.
Lemma ev_pins : forall t s b s', ev t s b s' -> pins (gr s') = pins (gr s).
Proof using Type.
  intros t s b s' H.
  assert (SR : forall ns s, pins (gr (send_roots changed ns s)) = pins (gr s)).
  { intros. apply (ss_pins _ _ (send_roots_ss ns s0)). }
  assert (SP : forall n v s, pins (push_down changed n v (gr s)) = pins (gr s)).
  { intros. apply (ss_pins _ _ (fc_ss _ _ _ (fc_push_down changed n v (gr s0)))). }
  assert (RF : forall rf n s, pins (gr (refreshed changed ordN rf n s)) = pins (gr s)).
  { intros. apply (ss_pins _ _ (refreshed_ss rf n s0)). }
  induction H; auto; try congruence;
    try (rewrite IHev, SR; simpl; rewrite ?SP; congruence);
    try (rewrite IHev2, SR; simpl; rewrite ?SP; congruence).
  - rewrite IHev2. simpl. rewrite IHev1. reflexivity.
  - rewrite IHev2. simpl. rewrite IHev1. reflexivity.
  - simpl. now rewrite IHev.
  - simpl. now rewrite IHev.
  - exact (SP n v (emit (EWrite n v) s)).
  - simpl. unfold add_node. cbv zeta. match goal with |- context [link_to ?a ?b ?h] =>
      destruct (link_to_rest a b h) as (_ & _ & -> & _) end. reflexivity.
  - exact (SP n v (emit (EWrite n v) s)).
  - simpl. now rewrite SP.
  - rewrite IHev2, SR. simpl. rewrite SP, IHev1. reflexivity.
  - change (pins (gr s2) = pins (gr s)). rewrite IHev2, IHev1. reflexivity.
  - rewrite IHev2. simpl. rewrite IHev1. reflexivity.
  - now destruct (garbage && negb old).
  - rewrite IHev2. simpl. now rewrite IHev1.
  - simpl. now rewrite IHev.
Qed.

(** Derived nodes are pinned while they notify. *)
Definition held (g : graph V W) n : Prop :=
  n < cnt g /\ (is_root (kind_of g n) = false -> pinned g n).

Definition kids_ok (t : task V W) s : Prop :=
  match t with
  | TSend n _ | TPushAll n _ => pinned (gr s) n
  | TPush l => forall p v, In (p, v) l -> pinned (gr s) p
  | TRoots ns => forall n, In n ns -> n < cnt (gr s) /\ is_root (kind_of (gr s) n) = true
  | TNotify n => alive (gr s) n = true /\ held (gr s) n
  | TSlots n _ => held (gr s) n
  | TKids n _ size _ _ => held (gr s) n /\ ntf (gr s) n = true /\ size <= length (children (gr s) n)
  | _ => True
  end.

Lemma andthen_UBlib : forall (r : res V W) k, andthen r k = UBlib ->
  r = UBlib \/ exists s, r = Done s /\ k s = UBlib.
Proof using Type. intros [] k H; simpl in H; auto; try discriminate. right. eauto. Qed.
Lemma finally_UBlib : forall (r : res V W) h, finally r h = UBlib -> r = UBlib.
Proof using Type. intros [] h H; simpl in H; auto; discriminate. Qed.

Lemma exec_Done_ev : forall fuel t s s', exec fuel t s = Done s' -> ev t s true s'.
Proof using Type. intros. eapply exec_ev. rewrite H. simpl. auto. Qed.
Lemma exec_Thrown_ev : forall fuel t s s', exec fuel t s = Thrown s' -> ev t s false s'.
Proof using Type. intros. eapply exec_ev. rewrite H. simpl. auto. Qed.

Hypothesis ordV_in : forall g n l x, In x (ordV g n l) -> In x l.

Lemma exec_no_UBlib : forall fuel t s, Inv (gr s) -> fresh_ntf (gr s) -> kids_ok t s ->
  exec fuel t s <> UBlib.
Proof using changed_sound ordN ordV_in.
  induction fuel as [|f IH]; intros t s HI HF HK H; [discriminate|].
  assert (Step : forall t s s', exec f t s = Done s' -> Inv (gr s) -> fresh_ntf (gr s) ->
     Inv (gr s') /\ ext (gr s) (gr s') /\ ntf_same (gr s) (gr s') /\ fresh_ntf (gr s')).
  { intros t0 s0 s1 E I0 F0. apply exec_Done_ev in E.
    destruct (ev_Inv _ _ _ _ E I0), (ev_ntf _ _ _ _ E I0 F0). auto. }
  assert (Pins : forall t s s', exec f t s = Done s' -> pins (gr s') = pins (gr s)).
  { intros t0 s0 s1 E. apply exec_Done_ev in E. eapply ev_pins; eauto. }
  assert (PinSelf : forall n s, handle (gr s) n = true -> pinned (gr (pin n s)) n).
  { intros n0 s0 Hh. exists n0. split; [now left|]. split; [now apply handle_lt|constructor]. }
  assert (Held1 : forall g g' n, Inv g -> ext g g' -> pins g' = pins g -> held g n -> held g' n).
  { intros g g' n0 I0 X E [L0 H0]. split; [destruct X; lia|]. intros R0.
    apply (pinned_ext g); auto. apply H0. destruct X as [_ X].
    destruct (X n0 L0) as [X1 _]. congruence. }
  assert (Held : forall t s s' n, exec f t s = Done s' -> Inv (gr s) -> fresh_ntf (gr s) ->
     held (gr s) n -> held (gr s') n).
  { intros t0 s0 s1 n0 E I0 F0 H0. destruct (Step _ _ _ E I0 F0) as (_ & X & _ & _).
    apply (Held1 (gr s0)); auto. apply (Pins _ _ _ E). }
  assert (HeldT : forall t s s' n, exec f t s = Thrown s' -> Inv (gr s) -> fresh_ntf (gr s) ->
     held (gr s) n -> Inv (gr s') /\ held (gr s') n).
  { intros t0 s0 s1 n0 E I0 F0 H0. apply exec_Thrown_ev in E.
    destruct (ev_Inv _ _ _ _ E I0) as [I1 X]. split; auto.
    apply (Held1 (gr s0)); auto. eapply ev_pins; eauto. }
  assert (Gone : forall (s : st V W) n, Inv (gr s) -> held (gr s) n -> alive (gr s) n = false ->
     gone n s <> UBlib).
  { intros s0 n0 I0 [_ H0] A0 G. unfold gone in G. destruct (is_root _) eqn:R0; [discriminate|].
    rewrite (pinned_alive _ _ I0 (H0 eq_refl)) in A0. discriminate. }
  assert (PH : forall (g : graph V W) n, Inv g -> pinned g n -> alive g n = true /\ held g n).
  { intros g n0 I0 P0. pose proof (pinned_alive _ _ I0 P0) as A0. split; auto. split; auto.
    destruct I0 as [Wf _]. apply (alive_cnt g (wf_par _ Wf) n0 A0). }
  destruct t as [p|c|n v|n vs|l|ns|n|n from|n i size garbage old]; cbn [NodesModel.exec] in H.
  - destruct p as [| |c k|p k]; try discriminate.
    + apply andthen_UBlib in H as [H|(s1 & E & H)].
      * apply IH in H; simpl; auto.
      * destruct (Step _ _ _ E HI HF) as (I1 & _ & _ & F1).
        apply (IH _ (see s1)) in H; simpl; auto.
    + destruct (exec f (TProg p) s) as [s1|s1| | |] eqn:E; try discriminate.
      * destruct (Step _ _ _ E HI HF) as (I1 & _ & _ & F1).
        apply (IH _ (see s1)) in H; simpl; auto.
      * apply exec_Thrown_ev in E. destruct (ev_Inv _ _ _ _ E HI), (ev_ntf _ _ _ _ E HI HF).
        apply (IH _ (see s1)) in H; simpl; auto.
      * eapply (IH (TProg p) s); simpl; auto.
  - destruct c as [n v|n fn|ns|n v|k ps d|n|n cb|n sid|w].
    + destruct (handle (gr s) n) eqn:E; [|discriminate]. apply finally_UBlib in H.
      apply IH in H; auto.
      * simpl. apply pin_I; auto. now apply alive_handle.
      * now apply PinSelf.
    + destruct (handle (gr s) n) eqn:E; [|discriminate]. apply finally_UBlib in H.
      apply IH in H; auto.
      * simpl. apply pin_I; auto. now apply alive_handle.
      * now apply PinSelf.
    + destruct (forallb _ ns) eqn:FB; [|discriminate].
      apply IH in H; auto using roots_I.
      * eapply fresh_ss; eauto using send_roots_ss.
      * intros n Hn. rewrite forallb_forall in FB. apply FB in Hn. apply andb_true_iff in Hn as [Hn0 Hn].
        apply handle_lt in Hn0.
        now rewrite (ss_kind _ _ (send_roots_ss ns s)), (ss_cnt _ _ (send_roots_ss ns s)).
    + destruct (handle (gr s) n); [|discriminate]. destruct (kind_of (gr s) n); discriminate.
    + destruct (_ && _ && _); [|discriminate]. destruct (initial _ _ _ _); discriminate.
    + destruct (_ && _); discriminate.
    + destruct (handle _ _); discriminate.
    + destruct (_ && _); discriminate.
    + discriminate.
  - simpl in HK. rewrite (pinned_alive _ _ HI HK) in H.
    assert (PP : forall s' : st V W, same_struct (gr s) (gr s') -> pinned (gr s') n).
    { intros s' SS. apply (pinned_ext (gr s)); auto; [now apply ext_ss|apply (ss_pins _ _ SS)]. }
    destruct (kind_of (gr s) n) as [auto|fs| | |down up|st0 up|auto fn] eqn:K; try discriminate.
    + destruct auto; [|discriminate].
      apply (IH (TNotify n) (send_roots changed [n] (wr changed n v s))) in H; simpl; auto.
      * apply roots_I. apply wr_I; auto. now rewrite K.
      * eapply fresh_ss; [|exact HF]. eapply ss_trans; [apply wr_ss|apply send_roots_ss].
      * apply PH; [apply roots_I; apply wr_I; auto; now rewrite K|].
        apply PP. eapply ss_trans; [apply wr_ss|apply send_roots_ss].
    + destruct up as [|rf up]; [discriminate|].
      apply (IH _ (refreshed changed ordN rf n s)) in H; simpl; auto using refreshed_Inv.
      * eapply fresh_ss; eauto using refreshed_ss.
      * apply PP. apply refreshed_ss.
    + destruct up as [|rf up]; [discriminate|].
      apply (IH _ (refreshed changed ordN rf n s)) in H; simpl; auto using refreshed_Inv.
      * eapply fresh_ss; eauto using refreshed_ss.
      * apply PP. apply refreshed_ss.
    + apply andthen_UBlib in H as [H|(s1 & E & H)].
      * apply (IH _ (ask n v s)) in H; simpl; auto.
      * destruct (Step _ _ _ E HI HF) as (I1 & X1 & _ & F1). destruct auto; [|discriminate].
        apply (IH (TNotify n) (send_roots changed [n]
           (mark_rcp n (with_gr s1 (push_down changed n v))))) in H; simpl; auto.
        -- exact (setter_I n fn s s1 v HI K I1 X1).
        -- eapply fresh_ss; [|exact F1]. eapply ss_trans; [|apply send_roots_ss].
           eapply ss_trans; [apply (fc_ss _ _ _ (fc_push_down changed n v (gr s1)))|].
           apply ss_upd. intros []; simpl; auto 10.
        -- apply PH; [exact (setter_I n fn s s1 v HI K I1 X1)|].
           assert (P1 : pinned (gr s1) n).
           { apply (pinned_ext (gr s)); auto. apply (Pins _ (ask n v s) _ E). }
           apply (pinned_ext (gr s1)); auto.
           ++ apply ext_ss. eapply ss_trans; [|apply send_roots_ss].
              eapply ss_trans; [apply (fc_ss _ _ _ (fc_push_down changed n v (gr s1)))|].
              apply ss_upd. intros []; simpl; auto 10.
           ++ apply ss_pins. eapply ss_trans; [|apply send_roots_ss].
              eapply ss_trans; [apply (fc_ss _ _ _ (fc_push_down changed n v (gr s1)))|].
              apply ss_upd. intros []; simpl; auto 10.
  - destruct vs as [|t ts]; [discriminate|]. apply andthen_UBlib in H as [H|(s1 & E & H)].
    + apply IH in H; simpl; auto. intros p v Hi. apply ordV_in in Hi.
      apply in_combine_l in Hi. eapply pinned_parent; [exact HK|exact Hi].
    + destruct (Step _ _ _ E HI HF) as (I1 & X1 & _ & F1). apply IH in H; simpl; auto.
      apply (pinned_ext (gr s)); auto. apply (Pins _ _ _ E).
  - destruct l as [|[p v] r]; [discriminate|]. apply andthen_UBlib in H as [H|(s1 & E & H)].
    + apply IH in H; simpl; auto. apply (HK p v). now left.
    + destruct (Step _ _ _ E HI HF) as (I1 & X1 & _ & F1). apply IH in H; simpl; auto.
      intros p' v' Hi. apply (pinned_ext (gr s)); auto; [apply (Pins _ _ _ E)|].
      apply (HK p' v'). now right.
  - destruct ns as [|n r]; [discriminate|]. destruct (handle (gr s) n) eqn:Hh; [|discriminate].
    apply andthen_UBlib in H as [H|(s1 & E & H)].
    + apply IH in H; simpl; auto. split; [now apply alive_handle|]. split; [now apply handle_lt|].
      intros R0. simpl in HK. destruct (HK n (or_introl eq_refl)) as [_ Q]. congruence.
    + destruct (Step _ _ _ E HI HF) as (I1 & X1 & _ & F1). apply IH in H; simpl; auto.
      intros m Hm. simpl in HK.
      destruct (HK m (or_intror Hm)) as [Lm Rm].
      destruct X1 as [C1 X1]. destruct (X1 m Lm) as [-> _]. split; auto. lia.
  - simpl in HK. destruct HK as [HK HH]. rewrite HK in H. cbn [negb] in H.
    destruct (nn (gr s) n && negb (nsd (gr s) n)) eqn:C; [|discriminate].
    apply andb_true_iff in C as [C1 C2]. apply negb_true_iff in C2.
    change (with_gr s (fun g => upd g n (fun a => set_ntf true (set_nn false a))))
      with (start_notify n s) in H.
    assert (I0 : Inv (gr (start_notify n s))) by (now apply start_I).
    pose proof (nn_lt s n HI C1) as L.
    assert (F0 : fresh_ntf (gr (start_notify n s))).
    { intros m Lm. unfold ntf. simpl in *. destruct (Nat.eqb_spec m n); [lia|]. now apply HF. }
    assert (H0 : held (gr (start_notify n s)) n).
    { apply (Held1 (gr s)); auto. split; auto. intros m Lm. unfold kind_of, parents.
      simpl. destruct (m =? n); auto. }
    assert (H' : andthen (exec f (TSlots n 0) (start_notify n s)) (fun s2 =>
       exec f (TKids n 0 (length (children (gr s2) n)) false (ntf (gr s) n)) s2) = UBlib).
    { destruct (andthen _ _) as [s3|s3| | |] eqn:AT; auto; try discriminate.
      destruct (alive (gr s3) n) eqn:A3; [discriminate|]. exfalso.
      assert (P3 : Inv (gr s3) /\ held (gr s3) n).
      { destruct (exec f (TSlots n 0) (start_notify n s)) as [s1|s1| | |] eqn:E1; simpl in AT; try discriminate.
        - destruct (Step _ _ _ E1 I0 F0) as (I1 & _ & _ & F1).
          pose proof (Held _ _ _ n E1 I0 F0 H0) as H1.
          apply (HeldT _ _ _ n AT); auto.
        - injection AT as <-. apply (HeldT _ _ _ n E1); auto. }
      apply (Gone s3 n); tauto. }
    clear H. apply andthen_UBlib in H' as [H|(s1 & E & H)].
    + apply IH in H; simpl; auto.
    + destruct (Step _ _ _ E I0 F0) as (I1 & _ & N1 & F1). apply IH in H; simpl; auto.
      split; [eapply Held; eauto|]. split; auto. rewrite N1. unfold ntf. simpl. now rewrite Nat.eqb_refl.
  - destruct (next_slot from (slots (gr s) n)) as [[sid cb]|]; [|discriminate].
    destruct (exec f (TProg _) _) as [s1|s1| | |] eqn:E; try discriminate.
    + destruct (Step _ (emit _ s) _ E HI HF) as (I1 & _ & _ & F1).
      assert (H1 : held (gr s1) n) by (apply (Held _ (emit _ s) _ n E HI HF HK)).
      destruct (alive (gr s1) n) eqn:A1; [|now apply (Gone s1 n) in H].
      destruct (existsb _ _); [|discriminate]. apply IH in H; simpl; auto.
    + apply (IH _ (emit _ s)) in E; simpl; auto.
  - destruct HK as (HH & K1 & K2). destruct (i <? size) eqn:Ei.
    + apply Nat.ltb_lt in Ei. destruct (nth_error (children (gr s) n) i) as [c|] eqn:En.
      * destruct (alive (gr s) c) eqn:A.
        -- assert (I0 : Inv (gr (pin c s))) by (now apply pin_I).
           apply andthen_UBlib in H as [H|(s1 & E & H)].
           ++ apply finally_UBlib in H. apply IH in H; simpl; auto.
              apply PH; auto. exists c. split; [now left|]. split; [|constructor].
              destruct HI as [Wf _]. apply (alive_cnt (gr s) (wf_par _ Wf) c A).
           ++ destruct (exec f (TNotify c) (pin c s)) as [s0|s0| | |] eqn:E0; simpl in E;
                try discriminate. injection E as <-.
              destruct (Step _ _ _ E0 I0 HF) as (I1 & X0 & N1 & F1).
              pose proof (Pins _ _ _ E0) as EP. apply exec_Done_ev in E0.
              destruct (ev_grows _ _ _ _ E0 I0 HF n K1 I) as [x Ex].
              assert (HU : held (gr (unpin s0)) n).
              { apply (Held1 (gr s)); auto. unfold unpin. simpl. now rewrite EP. }
              destruct (alive (gr (unpin s0)) n) eqn:AU;
                [|now apply (Gone (unpin s0) n (unpin_I _ I1) HU) in H].
              apply IH in H; [exact H|apply unpin_I; exact I1|exact F1|]. split; [exact HU|]. split.
              ** unfold unpin. simpl. change (ntf (gr s0) n = true). rewrite N1. exact K1.
              ** unfold unpin. simpl. change (size <= length (children (gr s0) n)).
                 rewrite Ex, app_length.
                 change (children (gr (pin c s)) n) with (children (gr s) n). lia.
        -- apply IH in H; simpl; auto.
      * apply nth_error_None in En. lia.
    + destruct (garbage && negb old); discriminate.
Qed.

End Notify.
