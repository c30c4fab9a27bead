(** No notification is lost and none is repeated. *)
From Coq Require Import List Arith Bool Lia.
From Verif Require Import NodesModel NodesSpec NodesBase NodesInv NodesExec NodesEv
                          NodesRoots NodesNotify.
Import ListNotations.

Section Told.
Context {V W : Type}.
Variable dv : V.
Variable changed : V -> V -> bool.
Hypothesis changed_sound : forall a b, changed a b = false -> a = b.
Variable ordV : graph V W -> nat -> list (nat * V) -> list (nat * V).
Variable ordN : graph V W -> nat -> list nat -> list nat.

Set Default Proof Using "Type changed_sound ordN".
Implicit Types g : graph V W.
Implicit Types s : st V W.

Notation Inv := (Inv changed).
Notation ev := (ev changed ordV ordN).
Notation exec := (exec changed ordV ordN).

(** [Inv] for sub-evaluations (instances of lemmas of NodesNotify). *)
Let evI := ev_Inv changed changed_sound ordV ordN.
Let evN := ev_ntf changed changed_sound ordV ordN.
Let evG := ev_grows changed changed_sound ordV ordN.
Let pinI := pin_I changed changed_sound ordN.
Let unpinI := unpin_I changed changed_sound ordN.
Let rootsI := roots_I changed changed_sound ordN.
Let wrI := wr_I changed changed_sound ordN.
Let startI := start_I changed changed_sound ordN.
Let setterI := setter_I changed changed_sound ordN.
Let refI := refreshed_Inv changed changed_sound ordN.

Definition ctx s : Prop := Inv (gr s) /\ fresh_ntf (gr s).

Lemma ev_ctx : forall t s b s', ev t s b s' -> ctx s -> ctx s'.
Proof.
  intros t s b s' H [HI HF]. split; [apply (evI _ _ _ _ H HI)|apply (evN _ _ _ _ H HI HF)].
Qed.
Lemma ctx_see : forall s, ctx s -> ctx (see s).
Proof using Type. auto. Qed.
Lemma ctx_pin : forall n s, ctx s -> alive (gr s) n = true -> ctx (pin n s).
Proof. intros n s [HI HF] A. split; auto. Qed.
Lemma ctx_unpin : forall s, ctx s -> ctx (unpin s).
Proof. intros s [HI HF]. split; [now apply unpinI|exact HF]. Qed.
Lemma ctx_roots : forall ns s, ctx s -> ctx (send_roots changed ns s).
Proof.
  intros ns s [HI HF]. split; [now apply rootsI|]. eapply fresh_ss; [|exact HF].
  apply send_roots_ss.
Qed.
Lemma ctx_auto : forall n v s, ctx s -> kind_of (gr s) n = KState true ->
  ctx (send_roots changed [n] (wr changed n v s)).
Proof.
  intros n v s [HI HF] K. apply ctx_roots. split.
  - apply wrI; auto. now rewrite K.
  - eapply fresh_ss; [|exact HF]. apply wr_ss.
Qed.
Lemma ctx_start : forall n s, ctx s -> nn (gr s) n = true -> nsd (gr s) n = false ->
  ctx (start_notify n s).
Proof.
  intros n s [HI HF] H1 H2. split; [now apply startI|].
  pose proof (nn_lt changed s n HI H1) as L. intros m Lm. unfold ntf. simpl in *.
  destruct (Nat.eqb_spec m n); [lia|]. now apply HF.
Qed.
Lemma ctx_setter : forall n fn s s1 v, ctx s -> kind_of (gr s) n = KSetter true fn ->
  ctx s1 -> ext (gr s) (gr s1) ->
  ctx (send_roots changed [n] (mark_rcp n (with_gr s1 (push_down changed n v)))).
Proof.
  intros n fn s s1 v [HI HF] K [I1 F1] E. split.
  - exact (setterI n fn s s1 v HI K I1 E).
  - eapply fresh_ss; [|exact F1]. eapply ss_trans; [|apply send_roots_ss].
    eapply ss_trans; [apply (fc_ss _ _ _ (fc_push_down changed n v (gr s1)))|].
    apply ss_upd. intros []; simpl; auto 10.
Qed.
Lemma ctx_ref : forall rf n s, ctx s -> ctx (refreshed changed ordN rf n s).
Proof.
  intros rf n s [HI HF]. split; [now apply refI|]. eapply fresh_ss; [|exact HF].
  apply refreshed_ss.
Qed.

(** ** Counting exceptions and propagations *)
Fixpoint nescapes (l : list (event V W)) : nat :=
  match l with
  | [] => 0
  | EEscape _ _ :: l' => S (nescapes l')
  | _ :: l' => nescapes l'
  end.
Lemma nescapes_app : forall l l', nescapes (l ++ l') = nescapes l + nescapes l'.
Proof using Type. induction l as [|[] l IH]; intros l'; simpl; auto. Qed.
Lemma props_app : forall l l' : list (event V W),
  propagations (l ++ l') = propagations l + propagations l'.
Proof using Type. induction l as [|[] l IH]; intros l'; simpl; auto. Qed.
Lemma calls_app : forall (l l' : list (event V W)) n i,
  calls (l ++ l') n i = calls l n i + calls l' n i.
Proof using Type. induction l as [|[] l IH]; intros l' n' i; simpl; auto. rewrite IH. lia. Qed.
Lemma nescapes_escapes : forall l, nescapes l = 0 <-> escapes l = false.
Proof using Type.
  induction l as [|[] l IH]; simpl; try tauto; try exact IH; split; discriminate.
Qed.
Lemma sends_counts : forall l, Forall is_send l -> nescapes l = 0 /\ propagations l = 0 /\
  forall n i, calls l n i = 0.
Proof using Type. induction 1 as [|e l He Hl IH]; simpl; auto. destruct e; simpl in *; contradiction || auto. Qed.
Lemma roots_counts : forall ns s,
  nescapes (log (send_roots changed ns s)) = nescapes (log s) /\
  propagations (log (send_roots changed ns s)) = S (propagations (log s)) /\
  forall n i, calls (log (send_roots changed ns s)) n i = calls (log s) n i.
Proof using Type.
  intros ns s. destruct (send_roots_log changed ns s) as (l & -> & Hl).
  destruct (sends_counts _ Hl) as (A & B & C). rewrite nescapes_app, props_app. simpl.
  repeat split; try lia. intros n i. rewrite calls_app. simpl. now rewrite C.
Qed.

Lemma ev_mono : forall t s b s', ev t s b s' -> Inv (gr s) ->
  nescapes (log s) <= nescapes (log s') /\ propagations (log s) <= propagations (log s') /\
  forall n i, calls (log s) n i <= calls (log s') n i.
Proof.
  intros t s b s' H HI. destruct (ev_log changed changed_sound ordV ordN _ _ _ _ H HI) as (l & ->).
  rewrite nescapes_app, props_app. repeat split; try lia. intros n i. rewrite calls_app. lia.
Qed.
(** Tasks run on behalf of a notification. *)
Definition notifies (t : task V W) : bool :=
  match t with TRoots _ | TNotify _ | TSlots _ _ | TKids _ _ _ _ _ => true | _ => false end.

Lemma ev_thrown : forall t s b s', ev t s b s' -> b = false -> notifies t = true -> Inv (gr s) ->
  nescapes (log s) < nescapes (log s').
Proof.
  intros t s b s' H. induction H; intros E N HI; try discriminate; subst; simpl; auto.
  - destruct (ev_mono _ _ _ _ H0 HI) as (A & _). destruct (evI _ _ _ _ H0 HI) as [I1 _].
    specialize (IHev2 eq_refl eq_refl I1). lia.
  - assert (I0 : Inv (gr (start_notify n s))) by (now apply startI).
    destruct (ev_mono _ _ _ _ H1 I0) as (A & _). destruct (evI _ _ _ _ H1 I0) as [I1 _].
    specialize (IHev2 eq_refl eq_refl I1). simpl in *. lia.
  - destruct (ev_mono _ _ _ _ H0 HI) as (A & _). destruct (evI _ _ _ _ H0 HI) as [I1 _].
    specialize (IHev2 eq_refl eq_refl I1). simpl in *. lia.
  - destruct (ev_mono _ _ _ _ H0 HI) as (A & _). simpl in A. lia.
  - assert (I0 : Inv (gr (pin c s))) by (now apply pinI).
    destruct (ev_mono _ _ _ _ H2 I0) as (A & _). destruct (evI _ _ _ _ H2 I0) as [I1 _].
    specialize (IHev2 eq_refl eq_refl (unpinI _ I1)). simpl in *. lia.
Qed.

(** ** A pending notification is always announced by a pending ancestor *)
(** [B]: nodes with a pending mark left over from a notification that an
    exception interrupted; [X]: nodes about to be notified. *)
Section Pending.
Variable B : nat -> Prop.
Set Default Proof Using "Type changed_sound ordN B".

Definition J g (X : nat -> Prop) : Prop :=
  forall m, good g m -> alive g m = true -> ~ B m -> ~ X m -> nn g m = true ->
    nsd g m = true \/ exists p, In p (parents g m) /\ ~ B p /\ nn g p = true.

Lemma J_weaken : forall g (X Y : nat -> Prop), (forall m, X m -> Y m) -> J g X -> J g Y.
Proof using Type. intros g X Y H HJ m G A Bm N. apply HJ; auto. Qed.

Lemma J_mono : forall g g' X,
  (forall m, kind_of g' m = kind_of g m) -> (forall m, parents g' m = parents g m) ->
  (forall m, alive g' m = true -> alive g m = true) ->
  (forall m, nn g' m = nn g m) -> (forall m, nsd g m = true -> nsd g' m = true) ->
  J g X -> J g' X.
Proof using Type.
  intros g g' X HK HP HA HN HS HJ m G A Bm NX Nm.
  assert (G' : good g m) by (eapply good_ext; [..|exact G]; intros; auto).
  rewrite HN in Nm. destruct (HJ m G' (HA m A) Bm NX Nm) as [H|(p & Hp & Bp & Np)]; auto.
  right. exists p. rewrite HP, HN. auto.
Qed.
Lemma J_struct : forall g g' X, same_struct g g' -> (forall m, nn g' m = nn g m) ->
  (forall m, nsd g m = true -> nsd g' m = true) -> J g X -> J g' X.
Proof using Type.
  intros g g' X S HN HS. apply J_mono; auto.
  - apply (ss_kind _ _ S).
  - apply (ss_parents _ _ S).
  - intros m. now rewrite (alive_struct _ _ m S).
Qed.
Lemma J_fc : forall n g g' X, frame_cur n g g' -> J g X -> J g' X.
Proof using Type.
  intros n g g' X [F1 F2 F3 F4 F5 F6 F7]. apply J_struct; auto.
  intros m Hm. destruct (Nat.eq_dec m n) as [->|N]; auto. now rewrite F5.
Qed.

Lemma J_send_down : (forall m, ~ B m) -> forall fuel n s Z, wf (gr s) -> J (gr s) Z ->
  (Z n \/ exists p, In p (parents (gr s) n) /\ nn (gr s) p = true) ->
  J (gr (send_down changed fuel n s)) Z.
Proof.
  intros NB. induction fuel as [|f IH]; intros n s Z Wf HJ HZ; simpl; auto.
  pose proof (wf_recompute changed changed_sound _ n Wf) as W1.
  pose proof (fc_recompute changed n (gr s)) as F.
  pose proof (J_fc n _ _ Z F HJ) as J1.
  assert (HZ1 : Z n \/ exists p, In p (parents (recompute changed n (gr s)) n) /\
                  nn (recompute changed n (gr s)) p = true).
  { destruct HZ as [HZ|(p & Hp & Np)]; auto. right. exists p.
    rewrite (ss_parents _ _ (fc_ss _ _ _ F)), (fc_nn _ _ _ F). auto. }
  clear HJ HZ F. set (g1 := recompute changed n (gr s)) in *. clearbody g1.
  destruct (nsd g1 n) eqn:E; simpl; auto.
  assert (Ln : n < cnt g1).
  { destruct (Nat.lt_ge_cases n (cnt g1)) as [Ln|Ln]; auto.
    destruct (wf_out _ W1 n Ln) as (_&_&_&_&A&_). congruence. }
  pose proof (wf_sent changed changed_sound _ n W1 Ln) as W2.
  assert (NN : nn (upd g1 n set_sent) n = true) by (unfold nn; rewrite nd_upd_same; reflexivity).
  assert (J2 : J (upd g1 n set_sent) Z).
  { intros m G A Bm NX Nm. pose proof (ss_set_sent g1 n) as S.
    assert (G' : good g1 m) by (eapply good_struct; [apply ss_sym; exact S|exact G]).
    rewrite (alive_struct _ _ m S) in A. rewrite (ss_parents _ _ S).
    assert (Hmono : forall p, nn g1 p = true -> nn (upd g1 n set_sent) p = true).
    { intros p Hp. unfold nn in *. simpl. destruct (p =? n); auto. }
    destruct (Nat.eq_dec m n) as [->|N].
    - destruct HZ1 as [HZ|(p & Hp & Np)]; [contradiction|]. right. exists p. auto.
    - assert (Nm' : nn g1 m = true) by (unfold nn in *; rewrite nd_upd_other in Nm; auto).
      destruct (J1 m G' A Bm NX Nm') as [H|(p & Hp & Bp & Np)].
      + left. unfold nsd in *. now rewrite nd_upd_other.
      + right. exists p. auto. }
  match goal with |- J (gr (fold_left _ ?cs ?a)) Z =>
    assert (Ha : wf (gr a) /\ J (gr a) Z /\ nn (gr a) n = true /\ same_struct g1 (gr a) /\
                 (forall c, In c cs -> In c (children g1 n)));
    [|revert Ha; generalize a; generalize cs] end.
  { simpl. split; auto. split; auto. split; auto. split; [apply ss_set_sent|].
    unfold children. now rewrite nd_upd_same. }
  intros cs; induction cs as [|c cs IHc]; intros a (Wa & Ja & Na & Sa & Hc); simpl; auto.
  apply IHc. destruct (alive (gr a) c).
  - pose proof (fs_send_down changed f c a) as FS. split; [|split; [|split; [|split]]].
    + now apply wf_send_down.
    + apply IH; auto. right. exists n. split; auto. rewrite (ss_parents _ _ Sa).
      apply (wf_kids _ W1 n c). apply Hc. now left.
    + now apply (fs_nn _ _ FS).
    + eapply ss_trans; [exact Sa|apply (fs_ss _ _ FS)].
    + intros c' H'. apply Hc. now right.
  - split; [|split; [|split; [|split]]]; auto. intros c' H'. apply Hc. now right.
Qed.

Lemma J_send_roots : (forall m, ~ B m) -> forall ns s X, wf (gr s) -> J (gr s) X ->
  J (gr (send_roots changed ns s)) (fun m => X m \/ In m ns).
Proof.
  intros NB ns s X Wf HJ. unfold send_roots.
  assert (H : forall l a, wf (gr a) -> J (gr a) (fun m => X m \/ In m ns) -> incl l ns ->
    J (gr (fold_left (fun s n => send_down_node changed n s) l a)) (fun m => X m \/ In m ns)).
  { induction l as [|n l IH]; intros a Wa Ja Hl; simpl; auto. apply IH.
    - unfold send_down_node. now apply wf_send_down.
    - unfold send_down_node. apply J_send_down; auto. left. right. apply Hl. now left.
    - intros m Hm. apply Hl. now right. }
  apply H; auto.
  - eapply J_weaken; [|exact HJ]. auto.
  - apply incl_refl.
Qed.

Definition todo g n i size : list nat := firstn (size - i) (skipn i (children g n)).

Lemma todo_S : forall g n i size c, i < size -> nth_error (children g n) i = Some c ->
  todo g n i size = c :: todo g n (S i) size.
Proof using Type.
  intros g n i size c L. unfold todo. generalize (children g n).
  replace (size - i) with (S (size - S i)) by lia.
  revert i L. generalize size. intros sz i L l. revert i L.
  assert (H : forall l i k, nth_error l i = Some c ->
     firstn (S k) (skipn i l) = c :: firstn k (skipn (S i) l)).
  { induction l0 as [|x l0 IH]; intros i k E; [destruct i; discriminate|].
    destruct i; simpl in *.
    - injection E as ->. reflexivity.
    - rewrite IH by auto. reflexivity. }
  intros i L E. now apply H.
Qed.
Lemma todo_grows : forall g g' n i size m, grows n g g' -> In m (todo g n i size) ->
  In m (todo g' n i size).
Proof using Type.
  intros g g' n i size m [x E] H. unfold todo in *. rewrite E, skipn_app, firstn_app.
  apply in_app_iff. now left.
Qed.

Definition Jpre (t : task V W) s (X : nat -> Prop) : Prop :=
  match t with
  | TNotify n => J (gr s) (fun m => X m \/ m = n)
  | TRoots ns => J (gr s) (fun m => X m \/ In m ns)
  | TKids n i size _ _ => J (gr s) (fun m => X m \/ In m (todo (gr s) n i size)) /\
                          ntf (gr s) n = true
  | _ => J (gr s) X
  end.

(** No exception, and no propagation unless [B] is empty. *)
Definition calm s s' : Prop :=
  nescapes (log s') <= nescapes (log s) /\
  ((forall m, ~ B m) \/ propagations (log s') <= propagations (log s)).

(** Book-keeping steps can only end lifetimes. *)
Lemma am : forall g g', wf g -> cnt g' = cnt g -> (forall n, parents g' n = parents g n) ->
  (forall m, handle g' m = true -> handle g m = true) ->
  (forall m, m < cnt g -> In m (pins g') -> In m (pins g) \/ alive g m = true) ->
  forall n, alive g' n = true -> alive g n = true.
Proof using Type.
  intros g g' Wf HC HP HH HN. apply alive_mono; auto.
  - apply (wf_par _ Wf).
  - intros n p. rewrite HP. apply (wf_par _ Wf).
  - intros m L [H|H]; [apply alive_handle; auto|].
    destruct (HN m L H) as [H'|H']; auto. apply (alive_iff g (wf_par _ Wf)).
    exists m. repeat split; auto. constructor.
Qed.

Lemma am_pin : forall n s, wf (gr s) -> alive (gr s) n = true ->
  forall m, alive (gr (pin n s)) m = true -> alive (gr s) m = true.
Proof using Type.
  intros n s Wf A. apply am; auto. intros m L [<-|H]; auto.
Qed.
Lemma am_unpin : forall s, wf (gr s) ->
  forall m, alive (gr (unpin s)) m = true -> alive (gr s) m = true.
Proof using Type.
  intros s Wf. apply am; auto. simpl. intros m L H. left.
  destruct (pins (gr s)); simpl in H; auto. now right.
Qed.
Lemma am_upd : forall g n h, wf g ->
  (forall a, n_parents (h a) = n_parents a) ->
  (0 < n_held (h (nd g n)) -> 0 < n_held (nd g n)) ->
  (n_slots (h (nd g n)) <> [] -> n_slots (nd g n) <> []) ->
  forall m, alive (upd g n h) m = true -> alive g m = true.
Proof using Type.
  intros g n h Wf HP HH HS. apply am; auto.
  - intros m. unfold parents. simpl. destruct (m =? n); auto.
  - intros m. unfold handle, slots. simpl. destruct (Nat.eqb_spec m n) as [->|]; auto.
    intros H. apply andb_true_iff in H as [H1 H2]. rewrite H1. simpl.
    apply orb_true_iff in H2 as [H2|H2]; apply orb_true_iff.
    + left. apply Nat.ltb_lt. apply Nat.ltb_lt in H2. auto.
    + right. destruct (n_slots (nd g n)); auto. destruct (n_slots (h (nd g n))) eqn:E; auto.
      exfalso. apply HS; auto. discriminate.
Qed.
Lemma am_drop : forall n s, wf (gr s) ->
  forall m, alive (gr (drop_held n s)) m = true -> alive (gr s) m = true.
Proof using Type. intros n s Wf. apply am_upd; auto. simpl. lia. Qed.
Lemma am_unwatch : forall n sid s, wf (gr s) ->
  forall m, alive (gr (del_watch n sid s)) m = true -> alive (gr s) m = true.
Proof using Type.
  intros n sid s Wf. apply am_upd; auto. simpl. destruct (n_slots (nd (gr s) n)); auto. discriminate.
Qed.
Lemma am_watch : forall n cb s, wf (gr s) -> handle (gr s) n = true ->
  forall m, alive (gr (add_watch n cb s)) m = true -> alive (gr s) m = true.
Proof using Type.
  intros n cb s Wf HH. apply am; auto.
  - intros m. unfold parents. simpl. destruct (m =? n); auto.
  - intros m. unfold handle, slots. simpl. destruct (Nat.eqb_spec m n) as [->|]; auto.
Qed.

Ltac flags := intros;
  unfold kind_of, parents, children, cur, last, nsd, nn, ntf, slots, collect in *; simpl in *;
  repeat match goal with
  | |- context [?a =? ?b] => destruct (Nat.eqb_spec a b); subst; simpl in *
  | H : context [?a =? ?b] |- _ => destruct (Nat.eqb_spec a b); subst; simpl in *
  end; auto.

Lemma J_start : forall n s X, wf (gr s) -> J (gr s) (fun m => X m \/ m = n) ->
  J (gr (start_notify n s)) (fun m => X m \/ In m (children (gr s) n)).
Proof using Type.
  intros n s X Wf HJ m G A Bm NX Nm.
  assert (G' : good (gr s) m) by (eapply good_ext; [..|exact G]; flags).
  assert (A' : alive (gr s) m = true).
  { revert A. apply (am_upd (gr s)); auto. }
  assert (Nmn : m <> n).
  { intros ->. unfold nn in Nm. simpl in Nm. rewrite Nat.eqb_refl in Nm. discriminate. }
  assert (Nm' : nn (gr s) m = true).
  { unfold nn in *. simpl in Nm. rewrite (proj2 (Nat.eqb_neq m n)) in Nm; auto. }
  destruct (HJ m G' A') as [H|(p & Hp & Bp & Np)]; auto.
  - intros [H|H]; auto.
  - left. flags.
  - right. exists p. split; [flags|]. split; auto. unfold nn. simpl.
    destruct (Nat.eqb_spec p n) as [->|]; auto.
    exfalso. apply NX. right. apply (wf_link _ Wf); auto.
Qed.

Lemma calm2 : forall s s1 s', calm s s' ->
  (nescapes (log s) <= nescapes (log s1) /\ propagations (log s) <= propagations (log s1)) ->
  (nescapes (log s1) <= nescapes (log s') /\ propagations (log s1) <= propagations (log s')) ->
  calm s s1 /\ calm s1 s'.
Proof using Type.
  intros s s1 s' [H1 H2] [A1 A2] [B1 B2]. split; split; try lia;
    (destruct H2 as [H2|H2]; [left; exact H2|right; lia]).
Qed.
Ltac mono := repeat match goal with
  | H : NodesEv.ev _ _ _ _ ?a _ ?b |- _ =>
      let C := fresh in
      assert (C : ctx a) by assumption; apply ev_mono in H; [|exact (proj1 C)]; clear C;
      destruct H as (? & ? & _)
  end; unfold calm in *; simpl in *; lia.

Lemma calm_root : forall ns s0 s s', calm s s' ->
  nescapes (log s0) = nescapes (log s) -> propagations (log s0) = propagations (log s) ->
  nescapes (log (send_roots changed ns s0)) <= nescapes (log s') /\
  propagations (log (send_roots changed ns s0)) <= propagations (log s') /\
  (forall n i, calls (log (send_roots changed ns s0)) n i <= calls (log s') n i) ->
  (forall m, ~ B m) /\ calm (send_roots changed ns s0) s'.
Proof using Type.
  intros ns s0 s s' [H1 H2] E1 E2 (M1 & M2 & _).
  destruct (roots_counts ns s0) as (R1 & R2 & _).
  assert (NB : forall m, ~ B m) by (destruct H2 as [H2|H2]; [exact H2|exfalso; lia]).
  split; auto. split; [lia|auto].
Qed.

Lemma calm_done : forall t s b s', ev t s b s' -> ctx s -> notifies t = true ->
  calm s s' -> b = true.
Proof.
  intros t s [] s' H [HI _] N [HC _]; auto.
  pose proof (ev_thrown _ _ _ _ H eq_refl N HI). lia.
Qed.

(** An interrupted notification would have logged an escaping exception. *)
Ltac trim HB := simpl in HB; match type of HB with
  | _ \/ true = false => destruct HB as [HB|HB]; [try discriminate HB; subst|discriminate HB]
  | _ => clear HB end.

Lemma ev_J : forall t s b s', ev t s b s' -> ctx s -> b = true \/ notifies t = false ->
  calm s s' ->
  forall X, Jpre t s X -> J (gr s') X.
Proof.
  intros t s b s' H. induction H; intros HC HB HT X HJ; simpl in HJ; trim HB; auto.
  - assert (C1 : ctx s1) by (eapply ev_ctx; eauto).
    destruct (calm2 s s1 _ HT) as [T1 T2]; [mono|mono|].
    apply IHev2; auto. simpl. apply IHev1; auto.
  - assert (C1 : ctx s1) by (eapply ev_ctx; eauto).
    destruct (calm2 s s1 _ HT) as [T1 T2]; [mono|mono|].
    apply IHev2; auto. simpl. apply IHev1; auto.
  - assert (A : alive (gr s) n = true) by (now apply alive_handle).
    assert (C1 : ctx s1) by (eapply ev_ctx; eauto using ctx_pin).
    assert (J1 : J (gr s1) X).
    { apply IHev; auto using ctx_pin. simpl.
      eapply J_mono; [..|exact HJ]; auto. apply am_pin; auto. apply HC. }
    eapply J_mono; [..|exact J1]; auto. apply am_unpin. apply C1.
  - assert (A : alive (gr s) n = true) by (now apply alive_handle).
    assert (C1 : ctx s1) by (eapply ev_ctx; eauto using ctx_pin).
    assert (J1 : J (gr s1) X).
    { apply IHev; auto using ctx_pin. simpl.
      eapply J_mono; [..|exact HJ]; auto. apply am_pin; auto. apply HC. }
    eapply J_mono; [..|exact J1]; auto. apply am_unpin. apply C1.
  - destruct (calm_root ns s s s1 HT eq_refl eq_refl (ev_mono _ _ _ _ H0 (proj1 (ctx_roots _ _ HC))))
      as [NB T1].
    assert (C1 : ctx (send_roots changed ns s)) by (now apply ctx_roots).
    apply IHev; auto; [left; eapply calm_done; eauto|]. simpl. apply J_send_roots; auto. apply HC.
  - eapply J_fc; [|exact HJ]. apply (fc_push_down changed n v (gr s)).
  - (* new *)
    destruct HC as [HI HF]. intros m G A Bm NX Nm. unfold new_node in *. simpl in *.
    assert (HV : forall down up x, k = KInner down up ->
       down (current_from (gr s) ps) = Some x -> v = x).
    { intros down up x -> Ex. simpl in H2. rewrite Ex in H2. congruence. }
    destruct (Nat.eq_dec m (cnt (gr s))) as [->|N].
    { unfold nn in Nm. rewrite (add_nd_new changed changed_sound (gr s) k ps v H H0) in Nm.
      discriminate. }
    pose proof (add_Inv changed changed_sound (gr s) k ps v H H0 HI H1 HV) as [[Wf' _] _].
    assert (L : m < cnt (gr s)).
    { pose proof (alive_cnt _ (wf_par _ Wf') m A) as L.
      destruct (add_rest changed changed_sound (gr s) k ps v H H0) as (C & _).
      rewrite C in L. lia. }
    destruct (add_old_fields changed changed_sound (gr s) k ps v H H0 m N)
      as (E1 & E2 & E3 & E4 & E5 & E6 & _).
    rewrite E6 in Nm. rewrite E5, E2.
    destruct (HJ m) as [Hm|(p & Hp & Bp & Np)]; auto.
    + eapply (add_good_old changed changed_sound (gr s) k ps v); eauto.
    + eapply (add_alive_old changed changed_sound (gr s) k ps v); eauto.
    + right. exists p. split; auto. split; auto.
      assert (Np' : p <> cnt (gr s)).
      { pose proof (wf_par _ (proj1 HI) _ _ Hp). lia. }
      destruct (add_old_fields changed changed_sound (gr s) k ps v H H0 p Np')
        as (_&_&_&_&_&E&_). now rewrite E.
  - eapply J_mono; [..|exact HJ]; try (flags; fail). apply am_drop. apply HC.
  - eapply J_mono; [..|exact HJ]; try (flags; fail). apply am_watch; auto. apply HC.
  - eapply J_mono; [..|exact HJ]; try (flags; fail). apply am_unwatch; auto. apply HC.
  - eapply J_mono; [..|exact HJ]; auto. apply am; auto. apply HC.
  - eapply J_fc; [|exact HJ]. apply (fc_push_down changed n v (gr s)).
  - destruct (calm_root [n] (wr changed n v s) s s1 HT eq_refl eq_refl
      (ev_mono _ _ _ _ H0 (proj1 (ctx_auto _ v _ HC H)))) as [NB T1].
    assert (C1 : ctx (send_roots changed [n] (wr changed n v s))) by (now apply ctx_auto).
    apply IHev; auto; [left; eapply calm_done; eauto|]. simpl.
    assert (HR : J (gr (send_roots changed [n] (wr changed n v s))) (fun m => X m \/ In m [n])).
    { apply J_send_roots; auto.
      - apply wrI; [apply HC|]. now rewrite H.
      - eapply J_fc; [|exact HJ]. apply (fc_push_down changed n v (gr s)). }
    eapply J_weaken; [|exact HR]. intros m [Hm|[Hm|[]]]; auto.
  - assert (J1 : J (gr s1) X) by (apply IHev; auto).
    eapply J_fc; [|exact J1]. apply (fc_push_down changed n v (gr s1)).
  - assert (C1 : ctx s1) by (eapply ev_ctx; [exact H0|exact HC]).
    pose proof (proj2 (evI _ _ _ _ H0 (proj1 HC))) as X1. change (gr (ask n v s)) with (gr s) in X1.
    assert (C2 : ctx (send_roots changed [n] (mark_rcp n (with_gr s1 (push_down changed n v)))))
      by (exact (ctx_setter n fn s s1 v HC H C1 X1)).
    pose proof (ev_mono _ _ _ _ H1 (proj1 C2)) as M2.
    pose proof (ev_mono _ _ _ _ H0 (proj1 HC)) as M1.
    destruct (roots_counts [n] (mark_rcp n (with_gr s1 (push_down changed n v)))) as (R1 & R2 & _).
    destruct (calm2 s s1 s2 HT) as [T1 T2]; [simpl in *; lia|simpl in *; lia|].
    destruct (calm_root [n] (mark_rcp n (with_gr s1 (push_down changed n v))) s1 s2 T2
      eq_refl eq_refl M2) as [NB T3].
    assert (J1 : J (gr s1) X) by (apply IHev1; auto).
    apply IHev2; auto; [left; eapply calm_done; eauto|]. simpl.
    assert (HR : J (gr (send_roots changed [n] (mark_rcp n (with_gr s1 (push_down changed n v)))))
      (fun m => X m \/ In m [n])).
    { apply J_send_roots; auto.
      - destruct X1 as [_ E].
        assert (L : n < cnt (gr s)).
        { apply (noninner_out _ _ (proj1 (proj1 HC))). rewrite H. discriminate. }
        destruct (E n L) as [K1 _]. rewrite H in K1.
        assert (I1 : Inv (push_down changed n v (gr s1))).
        { apply (Inv_push_down changed changed_sound (gr s1)); [apply C1|now rewrite K1]. }
        apply (Inv_rcp changed changed_sound _ n true I1).
        apply (noninner_out _ _ (proj1 I1)).
        rewrite (ss_kind _ _ (fc_ss _ _ _ (fc_push_down changed n v (gr s1)))), K1. discriminate.
      - assert (J2 : J (push_down changed n v (gr s1)) X)
          by (eapply J_fc; [|exact J1]; apply fc_push_down).
        eapply J_struct; [| | |exact J2].
        + apply ss_upd. intros []; simpl; auto 10.
        + flags.
        + flags. }
    eapply J_weaken; [|exact HR]. intros m [Hm|[Hm|[]]]; auto.
  - assert (T1 : calm (refreshed changed ordN rf n s) s1) by (destruct rf; exact HT).
    apply IHev; auto using ctx_ref. simpl.
    destruct rf; auto. pose proof (fr_refresh changed ordN (S n) n (gr s)) as F.
    eapply J_struct; [apply (fr_ss _ _ F)|apply (fr_nn _ _ F)|apply (fr_up _ _ F)|exact HJ].
  - assert (C1 : ctx s1) by (eapply ev_ctx; eauto).
    destruct (calm2 s s1 _ HT) as [T1 T2]; [mono|mono|].
    apply IHev2; auto. simpl. apply IHev1; auto.
  - assert (C1 : ctx s1) by (eapply ev_ctx; eauto).
    destruct (calm2 s s1 _ HT) as [T1 T2]; [mono|mono|].
    apply IHev2; auto. simpl. apply IHev1; auto.
  - eapply J_weaken; [|exact HJ]. intros m [Hm|[]]; auto.
  - assert (C1 : ctx s1) by (eapply ev_ctx; eauto).
    destruct (calm2 s s1 _ HT) as [T1 T2]; [mono|mono|].
    apply IHev2; auto. simpl. apply IHev1; auto. simpl.
    eapply J_weaken; [|exact HJ]. simpl. intros m [Hm|[Hm|Hm]]; auto.
  - (* skipped *)
    intros m G A Bm NX Nm. destruct (Nat.eq_dec m n) as [->|N].
    + left. rewrite Nm in H. simpl in H. now apply negb_false_iff in H.
    + apply HJ; auto. intros [Hm|Hm]; auto.
  - (* notified *)
    assert (C0 : ctx (start_notify n s)) by (now apply ctx_start).
    assert (C1 : ctx s1) by (eapply ev_ctx; [exact H1|exact C0]).
    assert (C2 : ctx s2) by (eapply ev_ctx; [exact H2|exact C1]).
    destruct (calm2 s s1 _ HT) as [T1 T2]; [mono|mono|].
    assert (N0 : ntf (gr (start_notify n s)) n = true).
    { unfold ntf. simpl. now rewrite Nat.eqb_refl. }
    assert (J1 : J (gr s1) (fun m => X m \/ In m (children (gr s) n))).
    { apply IHev1; auto. simpl. apply J_start; auto. apply HC. }
    assert (J2 : J (gr s2) X).
    { apply IHev2; auto. simpl. split.
      - eapply J_weaken; [|exact J1]. intros m [Hm|Hm]; auto. right.
        unfold todo. rewrite Nat.sub_0_r. simpl. rewrite firstn_all.
        destruct (evG _ _ _ _ H1 (proj1 C0) (proj2 C0) n N0 I) as [x Ex]. rewrite Ex.
        apply in_app_iff. left. unfold children in *. simpl. rewrite Nat.eqb_refl. exact Hm.
      - destruct (evN _ _ _ _ H1 (proj1 C0) (proj2 C0)) as [E _]. now rewrite E. }
    eapply J_mono; [..|exact J2]; try (flags; fail).
    apply (am_upd (gr s2)); auto. apply C2.
  - assert (C0 : ctx (called n sid s)) by (exact HC).
    assert (C1 : ctx s1) by (eapply ev_ctx; [exact H0|exact C0]).
    destruct (calm2 s s1 _ HT) as [T1 T2]; [mono|mono|].
    apply IHev2; auto. simpl. apply IHev1; auto.
  - destruct HJ as [HJ _].
    assert (J1 : J (gr s) X).
    { eapply J_weaken; [|exact HJ]. intros m [Hm|Hm]; auto. unfold todo in Hm.
      replace (size - i) with 0 in Hm by lia. destruct Hm. }
    destruct (garbage && negb old); auto.
    eapply J_mono; [..|exact J1]; try (flags; fail).
    apply (am_upd (gr s)); auto. apply HC.
  - destruct HJ as [HJ HN].
    assert (C0 : ctx (pin c s)) by (now apply ctx_pin).
    assert (C1 : ctx s1) by (eapply ev_ctx; [exact H2|exact C0]).
    assert (C2 : ctx (unpin s1)) by (now apply ctx_unpin).
    destruct (calm2 s s1 _ HT) as [T1 T2]; [mono|mono|].
    assert (J1 : J (gr s1) (fun m => X m \/ In m (todo (gr s) n (S i) size))).
    { apply IHev1; auto. simpl. rewrite (todo_S _ _ _ _ _ H H0) in HJ. simpl in HJ.
      eapply J_mono with (g := gr s); auto.
      - apply am_pin; auto. apply HC.
      - eapply J_weaken; [|exact HJ]. simpl. intros m [Hm|[Hm|Hm]]; auto. }
    apply IHev2; auto. simpl. split.
    + eapply J_mono with (g := gr s1); auto.
      * apply am_unpin. apply C1.
      * eapply J_weaken; [|exact J1]. intros m [Hm|Hm]; auto. right.
        apply (todo_grows (gr s) (gr s1)); auto.
        exact (evG _ _ _ _ H2 (proj1 C0) (proj2 C0) n HN I).
    + destruct (evN _ _ _ _ H2 (proj1 C0) (proj2 C0)) as [E _]. change (ntf (gr s1) n = true).
      rewrite E. exact HN.
  - destruct HJ as [HJ HN]. apply IHev; auto. simpl. split; auto.
    intros m G A Bm NX Nm. apply HJ; auto. intros [Hm|Hm]; auto.
    rewrite (todo_S _ _ _ _ _ H H0) in Hm. simpl in Hm. destruct Hm as [<-|Hm]; auto.
    congruence.
Qed.

End Pending.
Set Default Proof Using "Type changed_sound ordN".
Definition no : nat -> Prop := fun _ => False.
Notation calm0 := (calm no).
Ltac trim HB := simpl in HB; match type of HB with
  | _ \/ true = false => destruct HB as [HB|HB]; [try discriminate HB; subst|discriminate HB]
  | _ => clear HB end.
Ltac mono := repeat match goal with
  | H : NodesEv.ev _ _ _ _ ?a _ ?b |- _ =>
      let C := fresh in
      assert (C : ctx a) by assumption; apply ev_mono in H; [|exact (proj1 C)]; clear C;
      destruct H as (? & ? & _)
  end; unfold calm in *; simpl in *; lia.
Ltac flags := intros;
  unfold kind_of, parents, children, cur, last, nsd, nn, ntf, slots, collect in *; simpl in *;
  repeat match goal with
  | |- context [?a =? ?b] => destruct (Nat.eqb_spec a b); subst; simpl in *
  | H : context [?a =? ?b] |- _ => destruct (Nat.eqb_spec a b); subst; simpl in *
  end; auto.

(** ** A watcher that has not been told is on a node with a pending notification *)
Definition K s (Y : nat -> nat -> Prop) : Prop :=
  forall n sid cb, In (sid, cb) (slots (gr s) n) -> ~ Y n sid ->
    seen (log s) n sid = Some (last (gr s) n) \/ nn (gr s) n = true.

Lemma K_weaken : forall s (Y Z : nat -> nat -> Prop), (forall n i, Y n i -> Z n i) -> K s Y -> K s Z.
Proof using Type. intros s Y Z H HK n sid cb Hi N. eapply HK; eauto. Qed.
Lemma K_frame : forall s s' Y,
  (forall n sl, In sl (slots (gr s') n) -> In sl (slots (gr s) n)) ->
  (forall n i, seen (log s') n i = seen (log s) n i) ->
  (forall n, nn (gr s') n = true \/
     (nn (gr s') n = nn (gr s) n /\ last (gr s') n = last (gr s) n)) ->
  K s Y -> K s' Y.
Proof using Type.
  intros s s' Y HS HL HN HK n sid cb Hi NY.
  destruct (HN n) as [H|[H1 H2]]; auto. rewrite HL, H1, H2. eapply HK; eauto.
Qed.
Lemma seen_sends : forall l l' n i, Forall is_send l ->
  seen (V:=V) (W:=W) (l ++ l') n i = seen l' n i.
Proof using Type. induction 1 as [|e l He]; simpl; auto. destruct e; simpl in *; contradiction || auto. Qed.

Lemma K_roots : forall ns s Y, K s Y -> K (send_roots changed ns s) Y.
Proof.
  intros ns s Y. pose proof (send_roots_fs changed ns s) as F. apply K_frame.
  - intros n sl. now rewrite (ss_slots _ _ (fs_ss _ _ F)).
  - intros n i. destruct (send_roots_log changed ns s) as (l & -> & Hl).
    now rewrite seen_sends.
  - intros n. destruct (nn (gr (send_roots changed ns s)) n) eqn:E; auto. right. split.
    + destruct (nn (gr s) n) eqn:E'; auto. rewrite (fs_nn _ _ F _ E') in E. discriminate.
    + apply (fs_last _ _ F); auto.
Qed.
Lemma K_push : forall n v s Y, K s Y -> K (with_gr s (push_down changed n v)) Y.
Proof using Type.
  intros n v s Y. pose proof (fc_push_down changed n v (gr s)) as F. apply K_frame; simpl; auto.
  - intros m sl. now rewrite (ss_slots _ _ (fc_ss _ _ _ F)).
  - intros m. right. split; [apply (fc_nn _ _ _ F)|apply (fc_last _ _ _ F)].
Qed.
Lemma K_wr : forall n v s Y, K s Y -> K (wr changed n v s) Y.
Proof using Type. intros n v s Y HK. apply K_push. exact HK. Qed.

Definition Kpre (t : task V W) s (Y : nat -> nat -> Prop) : Prop :=
  match t with
  | TSlots n from => K s (fun m i => Y m i \/ (m = n /\ from <= i))
  | _ => K s Y
  end.

Lemma sorted_ge : forall l k x, sorted_from k l -> In x l -> k <= x.
Proof using Type.
  induction l as [|y l IH]; intros k x H Hx; [destruct Hx|]. destruct H as [H1 H2].
  destruct Hx as [->|Hx]; auto. specialize (IH _ _ H2 Hx). lia.
Qed.
Lemma next_slot_first : forall from (l : list (slot V W)) sid cb k i c,
  sorted_from k (map fst l) -> next_slot from l = Some (sid, cb) ->
  In (i, c) l -> from <= i -> sid <= i.
Proof using Type.
  unfold next_slot. induction l as [|[j d] l IH]; intros sid cb k i c HS HN Hi L; [destruct Hi|].
  simpl in *. destruct HS as [HS1 HS2]. destruct (Nat.leb_spec from j) as [Lj|Lj].
  - injection HN as -> ->. destruct Hi as [Hi|Hi]; [injection Hi as -> ->; auto|].
    assert (S sid <= i); [|lia]. eapply sorted_ge; eauto.
    apply in_map_iff. exists (i, c). auto.
  - destruct Hi as [Hi|Hi]; [injection Hi as -> ->; lia|]. eauto.
Qed.

Lemma ev_K : forall t s b s', ev t s b s' -> ctx s -> b = true \/ notifies t = false ->
  calm0 s s' ->
  forall Y, Kpre t s Y -> K s' Y.
Proof.
  intros t s b s' H. induction H; intros HC HB HT Y HK; simpl in HK; trim HB; auto.
  - assert (C1 : ctx s1) by (eapply ev_ctx; eauto).
    destruct (calm2 no s s1 _ HT) as [T1 T2]; [mono|mono|].
    apply IHev2; auto. simpl. apply (IHev1 HC (or_introl eq_refl) T1 Y HK).
  - assert (C1 : ctx s1) by (eapply ev_ctx; eauto).
    destruct (calm2 no s s1 _ HT) as [T1 T2]; [mono|mono|].
    apply IHev2; auto. simpl. apply (IHev1 HC (or_intror eq_refl) T1 Y HK).
  - assert (A : alive (gr s) n = true) by (now apply alive_handle).
    apply (IHev (ctx_pin _ _ HC A) (or_intror eq_refl) HT Y HK).
  - assert (A : alive (gr s) n = true) by (now apply alive_handle).
    apply (IHev (ctx_pin _ _ HC A) (or_intror eq_refl) HT Y HK).
  - destruct (calm_root no ns s s s1 HT eq_refl eq_refl (ev_mono _ _ _ _ H0 (proj1 (ctx_roots _ _ HC))))
      as [NB T1].
    assert (C1 : ctx (send_roots changed ns s)) by (now apply ctx_roots).
    apply IHev; auto; [left; eapply (calm_done no); eauto|]. simpl. now apply K_roots.
  - now apply K_wr.
  - intros m i c Hi NY. unfold new_node in *. simpl in *.
    destruct (Nat.eq_dec m (cnt (gr s))) as [->|N].
    { unfold slots in Hi. rewrite (add_nd_new changed changed_sound (gr s) k ps v H H0) in Hi.
      destruct Hi. }
    destruct (add_old_fields changed changed_sound (gr s) k ps v H H0 m N)
      as (E1 & E2 & E3 & E4 & E5 & E6 & E7 & _).
    rewrite E4, E6. rewrite E7 in Hi. eapply HK; eauto.
  - eapply K_frame; [..|exact HK]; auto; flags.
  - (* watch *)
    intros m i c Hi NY. unfold add_watch in *. simpl in *.
    unfold slots, last, nn in *. simpl in *.
    destruct (Nat.eqb_spec m n) as [->|N]; simpl in *.
    + apply in_app_iff in Hi as [Hi|[Hi|[]]].
      * rewrite Nat.eqb_refl. simpl.
        pose proof (wf_sids _ (proj1 (proj1 HC)) n _ Hi) as L. simpl in L.
        rewrite (proj2 (Nat.eqb_neq (nexts (gr s)) i)) by lia. eapply HK; eauto.
      * injection Hi as <- <-. rewrite !Nat.eqb_refl. auto.
    + rewrite (proj2 (Nat.eqb_neq n m)) by auto. simpl. eapply HK; eauto.
  - eapply K_frame; [..|exact HK]; auto; [|flags].
    intros m sl. unfold slots. simpl. destruct (m =? n); auto. simpl.
    intros Hi. apply filter_In in Hi. tauto.
  - now apply K_wr.
  - destruct (calm_root no [n] (wr changed n v s) s s1 HT eq_refl eq_refl
      (ev_mono _ _ _ _ H0 (proj1 (ctx_auto _ v _ HC H)))) as [NB T1].
    assert (C1 : ctx (send_roots changed [n] (wr changed n v s))) by (now apply ctx_auto).
    apply IHev; auto; [left; eapply (calm_done no); eauto|]. simpl. now apply K_roots, K_wr.
  - apply K_push. apply IHev; auto.
  - assert (C1 : ctx s1) by (eapply ev_ctx; [exact H0|exact HC]).
    pose proof (proj2 (evI _ _ _ _ H0 (proj1 HC))) as X1. change (gr (ask n v s)) with (gr s) in X1.
    assert (C2 : ctx (send_roots changed [n] (mark_rcp n (with_gr s1 (push_down changed n v)))))
      by (exact (ctx_setter n fn s s1 v HC H C1 X1)).
    pose proof (ev_mono _ _ _ _ H1 (proj1 C2)) as M2.
    pose proof (ev_mono _ _ _ _ H0 (proj1 HC)) as M1.
    destruct (roots_counts [n] (mark_rcp n (with_gr s1 (push_down changed n v)))) as (R1 & R2 & _).
    destruct (calm2 no s s1 s2 HT) as [T1 T2]; [simpl in *; lia|simpl in *; lia|].
    destruct (calm_root no [n] (mark_rcp n (with_gr s1 (push_down changed n v))) s1 s2 T2
      eq_refl eq_refl M2) as [NB T3].
    assert (J1 : K s1 Y) by (apply IHev1; auto).
    apply IHev2; auto; [left; eapply (calm_done no); eauto|]. simpl. apply K_roots.
    apply (K_push n v) in J1. eapply K_frame; [..|exact J1]; auto; flags.
  - assert (T1 : calm0 (refreshed changed ordN rf n s) s1) by (destruct rf; exact HT).
    apply IHev; auto using ctx_ref. simpl.
    destruct rf; auto. pose proof (fr_refresh changed ordN (S n) n (gr s)) as F.
    eapply K_frame; [..|exact HK]; auto; simpl.
    + intros m sl. now rewrite (ss_slots _ _ (fr_ss _ _ F)).
    + intros m. right. split; [apply (fr_nn _ _ F)|apply (fr_last _ _ F)].
  - assert (C1 : ctx s1) by (eapply ev_ctx; eauto).
    destruct (calm2 no s s1 _ HT) as [T1 T2]; [mono|mono|].
    apply IHev2; auto. simpl. apply IHev1; auto.
  - assert (C1 : ctx s1) by (eapply ev_ctx; eauto).
    destruct (calm2 no s s1 _ HT) as [T1 T2]; [mono|mono|].
    apply IHev2; auto. simpl. apply IHev1; auto.
  - assert (C1 : ctx s1) by (eapply ev_ctx; eauto).
    destruct (calm2 no s s1 _ HT) as [T1 T2]; [mono|mono|].
    apply IHev2; auto. simpl. apply IHev1; auto.
  - (* notified *)
    assert (C0 : ctx (start_notify n s)) by (now apply ctx_start).
    assert (C1 : ctx s1) by (eapply ev_ctx; [exact H1|exact C0]).
    assert (C2 : ctx s2) by (eapply ev_ctx; [exact H2|exact C1]).
    destruct (calm2 no s s1 _ HT) as [T1 T2]; [mono|mono|].
    assert (J1 : K s1 Y).
    { apply IHev1; auto. simpl. intros m i c Hi NY.
      assert (N : m <> n) by (intros ->; apply NY; right; split; auto; lia).
      unfold nn, last, slots in *. simpl in *.
      rewrite (proj2 (Nat.eqb_neq m n)) in Hi |- * by auto. eapply HK; eauto. }
    assert (J2 : K s2 Y) by (apply IHev2; auto).
    eapply K_frame; [..|exact J2]; auto; flags.
  - eapply K_weaken with (Y := fun m i => False \/ Y m i); [tauto|].
    intros m i c Hi NY. eapply HK; eauto. intros [Hy|[-> L]]; [apply NY; auto|].
    unfold next_slot in H. apply (find_none _ _ H) in Hi. simpl in Hi.
    apply Nat.leb_gt in Hi. lia.
  - assert (C0 : ctx (called n sid s)) by (exact HC).
    assert (C1 : ctx s1) by (eapply ev_ctx; [exact H0|exact C0]).
    destruct (calm2 no s s1 _ HT) as [T1 T2]; [mono|mono|].
    apply IHev2; auto. simpl. apply IHev1; auto. simpl.
    intros m i c Hi NY. unfold called in *. simpl in *.
    destruct (Nat.eqb_spec n m) as [<-|N]; simpl.
    + destruct (Nat.eqb_spec sid i) as [<-|Ni]; auto. eapply HK; eauto.
      intros [Hy|[_ L]]; [apply NY; auto|]. apply NY. right. split; auto.
      pose proof (next_slot_first _ _ _ _ _ _ _ (wf_sorted _ (proj1 (proj1 HC)) n) H Hi L). lia.
    + eapply HK; eauto. intros [Hy|[-> L]]; [apply NY; auto|contradiction].
  - destruct (garbage && negb old); auto. eapply K_frame; [..|exact HK]; auto; flags.
  - assert (C0 : ctx (pin c s)) by (now apply ctx_pin).
    assert (C1 : ctx s1) by (eapply ev_ctx; [exact H2|exact C0]).
    assert (C2 : ctx (unpin s1)) by (now apply ctx_unpin).
    destruct (calm2 no s s1 _ HT) as [T1 T2]; [mono|mono|].
    apply IHev2; auto. simpl. exact (IHev1 C0 (or_introl eq_refl) T1 Y HK).
Qed.

End Told.
