(** Chains of readers with one source each: what each shows of what the one before it
    showed, since a later one was made. *)
From Coq Require Import List Arith Bool Lia.
From Verif Require Import NodesModel NodesSpec NodesTrackSpec NodesBase NodesInv NodesExec NodesEv NodesRoots
  NodesTrack NodesSteady.
Import ListNotations.

Section Thin.
Context {V W : Type}.
Variable changed : V -> V -> bool.
Hypothesis changed_sound : forall a b, changed a b = false -> a = b.
Variable ordN : graph V W -> nat -> list nat -> list nat.
Hypothesis ordN_in : forall g n l x, In x (ordN g n l) -> In x l.
Set Default Proof Using "Type changed_sound".
Implicit Types g : graph V W.
Implicit Types s : st V W.
Notation step := (step changed ordN).
Notation steps := (steps changed ordN).
Notation P := (@P V W).
Notation down_fn := (list V -> option V).

(** ** Thinning *)
Fixpoint thin (f : V -> option V) (vs : list V) (a : V) : list V :=
  match vs with
  | [] => []
  | v :: vs' =>
      let r := thin f vs' a in
      match f v with
      | Some x => if changed x (hd a r) then x :: r else r
      | None => r
      end
  end.

Lemma thin_app : forall f vs ws a, thin f (vs ++ ws) a = thin f vs (hd a (thin f ws a)) ++ thin f ws a.
Proof using Type.
  intros f vs ws a. induction vs as [|v vs IH]; simpl; auto. rewrite IH.
  set (r := thin f vs (hd a (thin f ws a))). set (t := thin f ws a).
  assert (E : hd a (r ++ t) = hd (hd a t) r) by (destruct r; auto).
  rewrite E. destruct (f v); auto. destruct (changed _ _); auto.
Qed.
Lemma hd_app2 : forall (r t : list V) a, hd a (r ++ t) = hd (hd a t) r.
Proof using Type. now intros [|x r] t a. Qed.
Lemma hd_thin : forall f vs a, hd a (thin f vs a) = latest f vs a.
Proof.
  intros f vs a. induction vs as [|v vs IH]; simpl; auto. destruct (f v) as [x|]; auto.
  destruct (changed x (hd a (thin f vs a))) eqn:E; auto. apply changed_sound in E. congruence.
Qed.
Lemma latest_fix : forall (f : V -> option V) vs (a b y : V), (forall x, f a = Some x -> b = x) ->
  f (hd a vs) = Some y -> latest f vs b = y.
Proof using Type. intros f [|v vs] a b y H E; simpl in *; [auto|]. now rewrite E. Qed.
Lemma latest_thin : forall (f h : V -> option V) vs (a b : V), (forall x, h a = Some x -> b = x) ->
  latest h (thin f vs a) b = latest (fun v => match f v with Some y => h y | None => None end) vs b.
Proof.
  intros f h vs a b H. induction vs as [|v vs IH]; simpl; auto. destruct (f v) as [x|]; auto.
  destruct (changed x (hd a (thin f vs a))) eqn:E; simpl.
  - rewrite IH. reflexivity.
  - apply changed_sound in E. rewrite E. destruct (h (hd a (thin f vs a))) as [y|] eqn:EH; auto.
    eapply latest_fix; eauto.
Qed.

Definition one (f : down_fn) : V -> option V := fun v => f [v].

(** ** What propagation does *)
Lemma visit_thin : forall f n p s down up, wf (gr s) -> parents (gr s) n = [p] ->
  kind_of (gr s) n = KInner down up -> P (gr s) n ->
  shown (log (send_down changed (S f) n s)) n =
  thin (one down) [cur (gr s) p] (last (gr s) n) ++ shown (log s) n.
Proof.
  intros f n p s down up Wf HP K (P1 & P2 & P3). rewrite K in P3. specialize (P3 eq_refl).
  specialize (P2 P3).
  pose proof (wf_recompute changed changed_sound _ n Wf) as W1.
  assert (ER : recompute changed n (gr s) =
    match down [cur (gr s) p] with Some v => push_down changed n v (gr s) | None => gr s end).
  { unfold recompute. rewrite K, HP. reflexivity. }
  cbn [send_down thin hd one]. rewrite ER in W1 |- *. clear ER.
  assert (HF : forall cs (a : st V W), wf (gr a) -> (forall c, In c cs -> n < c) ->
    shown (log (fold_left (fun s0 c => if alive (gr s0) c then send_down changed f c s0 else s0) cs a)) n
    = shown (log a) n).
  { induction cs as [|c cs IHc]; intros a Wa Hc; [simpl; auto|]. simpl.
    assert (Hcs : forall c', In c' cs -> n < c') by (intros c' Hc'; apply Hc; now right).
    assert (Lc : n < c) by (apply Hc; now left).
    destruct (alive (gr a) c); [|now apply IHc].
    rewrite IHc; auto; [|now apply wf_send_down].
    apply send_small; auto. }
  unfold one. destruct (down [cur (gr s) p]) as [x|].
  2: { rewrite P3. simpl. now rewrite shown_sample. }
  unfold push_down in *. rewrite P2.
  destruct (changed x (cur (gr s) n)).
  2: { rewrite P3. simpl. now rewrite shown_sample. }
  assert (E : nsd (upd (gr s) n (set_cur x)) n = true) by (unfold nsd; now rewrite nd_upd_same).
  rewrite E.
  assert (Lm : n < cnt (upd (gr s) n (set_cur x))).
  { destruct (Nat.lt_ge_cases n (cnt (upd (gr s) n (set_cur x)))) as [Lm|Lm]; auto.
    destruct (wf_out _ W1 n Lm) as (_&_&_&_&A&_). congruence. }
  rewrite HF.
  - cbn [log shown]. rewrite Nat.eqb_refl, shown_sample. unfold last. simpl. rewrite Nat.eqb_refl. reflexivity.
  - cbn [gr]. now apply (wf_sent changed changed_sound).
  - intros c Hc. unfold children in Hc. rewrite nd_upd_same in Hc.
    destruct (wf_kids _ W1 n c Hc) as [_ Hp]. now apply (wf_par _ W1) in Hp.
Qed.

Lemma send_thin : forall f m s n p down up, wf (gr s) -> parents (gr s) n = [p] ->
  kind_of (gr s) n = KInner down up -> alive (gr s) n = true -> NoDup (children (gr s) p) ->
  n <> m -> cnt (gr s) < f + m -> P (gr s) n ->
  let s' := send_down changed f m s in
  exists vs, shown (log s') p = vs ++ shown (log s) p /\ P (gr s') n /\
    shown (log s') n = thin (one down) vs (last (gr s) n) ++ shown (log s) n.
Proof.
  induction f as [|f IH]; intros m s n p down up Wf HP HR HA HN N L HPn; cbv zeta.
  { simpl. exists []. simpl. auto. }
  cbn [send_down].
  pose proof (wf_recompute changed changed_sound _ m Wf) as W1.
  pose proof (fc_ss _ _ _ (fc_recompute changed m (gr s))) as S1.
  assert (E1 : nd (recompute changed m (gr s)) n = nd (gr s) n) by (apply nd_recompute_other; lia).
  set (g1 := recompute changed m (gr s)) in *. clearbody g1.
  destruct (nsd g1 m) eqn:E; cbn [gr log].
  2: { exists []. rewrite !shown_sample. unfold NodesTrack.P, last, cur, nsd, kind_of. rewrite E1. simpl.
       auto. }
  assert (Lm : m < cnt g1).
  { destruct (Nat.lt_ge_cases m (cnt g1)) as [Lm|Lm]; auto.
    destruct (wf_out _ W1 m Lm) as (_&_&_&_&A&_). congruence. }
  pose proof (wf_sent changed changed_sound _ m W1 Lm) as W2.
  pose proof (ss_trans _ _ _ S1 (ss_set_sent g1 m)) as S2.
  assert (HF : forall cs (a : st V W), wf (gr a) -> same_struct (gr s) (gr a) -> P (gr a) n ->
    (forall c, In c cs -> m < c /\ c <> n) -> exists vs,
    let b := fold_left (fun s0 c => if alive (gr s0) c then send_down changed f c s0 else s0) cs a in
    wf (gr b) /\ same_struct (gr s) (gr b) /\
    shown (log b) p = vs ++ shown (log a) p /\ P (gr b) n /\
    shown (log b) n = thin (one down) vs (last (gr a) n) ++ shown (log a) n /\
    last (gr b) n = hd (last (gr a) n) (thin (one down) vs (last (gr a) n)) /\
    (m = p -> cur (gr b) p = cur (gr a) p /\ vs = [])).
  { induction cs as [|c cs IHc]; intros a Wa Sa Pa Hc; cbv zeta.
    - exists []. simpl. auto 10.
    - cbn [fold_left].
      assert (Hcs : forall c', In c' cs -> m < c' /\ c' <> n) by (intros c' Hc'; apply Hc; now right).
      destruct (Hc c (or_introl eq_refl)) as [Lc Nc].
      destruct (alive (gr a) c); [|now apply IHc].
      destruct (IH c a n p down up Wa) as (v2 & A1 & A2 & A3); auto.
      + now rewrite (ss_parents _ _ Sa).
      + now rewrite (ss_kind _ _ Sa).
      + now rewrite (alive_struct _ _ _ Sa).
      + now rewrite (ss_children _ _ Sa).
      + rewrite (ss_cnt _ _ Sa). lia.
      + pose proof (ss_trans _ _ _ Sa (fs_ss _ _ (fs_send_down changed f c a))) as Sb.
        destruct (send_last changed f c a n) as (v3 & D1 & D2).
        rewrite A3 in D1. apply app_inv_tail in D1. subst v3.
        destruct (IHc (send_down changed f c a)) as (v1 & B0 & B1 & B2 & B3 & B4 & B5 & B6); auto.
        { now apply wf_send_down. }
        exists (v1 ++ v2). rewrite B2, B4, B5, A1, A3, D2, thin_app, !app_assoc.
        split; auto. split; auto. split; auto. split; auto. split; auto. split.
        { now rewrite hd_app2. }
        intros ->. destruct (B6 eq_refl) as [B7 ->]. rewrite B7.
        destruct (send_small changed changed_sound f c a p Wa Lc) as [C1 C2]. unfold cur. rewrite C1. split; auto.
        rewrite C2 in A1. simpl. symmetry. apply (app_inv_tail (shown (log a) p)). exact A1. }
  assert (EC : children (upd g1 m set_sent) m = children g1 m).
  { unfold children. now rewrite nd_upd_same. }
  rewrite EC. set (a0 := St (upd g1 m set_sent) (ESend m (last (upd g1 m set_sent) m) :: sample m s)).
  assert (EN : nd (gr a0) n = nd (gr s) n) by (simpl; rewrite (proj2 (Nat.eqb_neq n m)); auto).
  assert (P0 : P (gr a0) n) by (unfold NodesTrack.P, last, cur, nsd, kind_of; rewrite EN; exact HPn).
  assert (L0 : last (gr a0) n = last (gr s) n) by (unfold last; now rewrite EN).
  assert (X0 : shown (log a0) n = shown (log s) n).
  { unfold a0. cbn [log shown]. rewrite (proj2 (Nat.eqb_neq m n)) by auto. now rewrite shown_sample. }
  assert (Hk : forall c, In c (children g1 m) -> m < c).
  { intros c Hc. destruct (wf_kids _ W1 _ _ Hc) as [_ Hp]. now apply (wf_par _ W1) in Hp. }
  destruct (Nat.eq_dec m p) as [->|Np].
  - assert (Hin : In n (children g1 p)).
    { rewrite (ss_children _ _ S1). apply (wf_link _ Wf); auto. rewrite HP. now left. }
    pose proof HN as HN'. rewrite <- (ss_children _ _ S1) in HN'.
    apply in_split in Hin as (l1 & l2 & EL). rewrite EL in HN', Hk |- *.
    apply NoDup_remove_2 in HN'. rewrite fold_left_app. cbn [fold_left].
    destruct (HF l1 a0) as (v1 & B0 & B1 & B2 & B3 & B4 & B5 & B6); auto.
    { intros c Hc. split; [apply Hk; apply in_app_iff; auto|].
      intros ->. apply HN'. apply in_app_iff. auto. }
    destruct (B6 eq_refl) as [B7 ->]. clear B6.
    set (a1 := fold_left _ l1 a0) in *. clearbody a1.
    rewrite (alive_struct _ _ _ B1), HA.
    assert (Ln : n < cnt (gr s)) by (apply alive_cnt; [apply (wf_par _ Wf)|auto]).
    assert (Lpn : p < n) by (apply (wf_par _ Wf); rewrite HP; now left).
    destruct f as [|f]; [lia|].
    assert (HP1 : parents (gr a1) n = [p]) by now rewrite (ss_parents _ _ B1).
    assert (HK1 : kind_of (gr a1) n = KInner down up) by now rewrite (ss_kind _ _ B1).
    destruct (visit_one changed changed_sound f n p a1 B0 HP1) as (C1 & C2 & C3 & C4); auto.
    { now rewrite HK1. }
    pose proof (visit_thin f n p a1 down up B0 HP1 HK1 B3) as C5.
    assert (SB : same_struct (gr s) (gr (send_down changed (S f) n a1))).
    { eapply ss_trans; [exact B1|apply (fs_ss _ _ (fs_send_down changed (S f) n a1))]. }
    assert (WB : wf (gr (send_down changed (S f) n a1))) by (now apply wf_send_down).
    set (a2 := send_down changed (S f) n a1) in *. clearbody a2.
    destruct (HF l2 a2) as (v2 & D0 & D1 & D2 & D3 & D4 & D5 & D6); auto.
    { intros c Hc. split; [apply Hk; apply in_app_iff; simpl; auto|].
      intros ->. apply HN'. apply in_app_iff. auto. }
    destruct (D6 eq_refl) as [_ ->]. cbn [app thin hd] in D2, D4, D5, B2, B4, B5.
    assert (Ecp : cur (gr a1) p = last (upd g1 p set_sent) p).
    { rewrite B7. unfold cur, last. simpl. rewrite Nat.eqb_refl. reflexivity. }
    exists [last (upd g1 p set_sent) p].
    rewrite D2, C2, B2. split.
    { unfold a0. cbn [log shown]. now rewrite Nat.eqb_refl, shown_sample. }
    split; auto. rewrite D4, C5, Ecp, B4, B5, L0, X0. reflexivity.
  - destruct (HF (children g1 m) a0) as (v1 & B0 & B1 & B2 & B3 & B4 & B5 & B6); auto.
    { intros c Hc. split; auto. intros ->. destruct (wf_kids _ W1 _ _ Hc) as [_ Hp].
      rewrite (ss_parents _ _ S1), HP in Hp. destruct Hp as [<-|[]]. contradiction. }
    exists v1. rewrite B2, B4, L0, X0. simpl shown.
    rewrite (proj2 (Nat.eqb_neq m p)) by auto. rewrite shown_sample. auto.
Qed.

Lemma sends_thin : forall ns s n p down up, wf (gr s) -> parents (gr s) n = [p] ->
  kind_of (gr s) n = KInner down up -> alive (gr s) n = true -> NoDup (children (gr s) p) ->
  ~ In n ns -> P (gr s) n ->
  let s' := fold_left (fun s n => send_down_node changed n s) ns s in
  exists vs, shown (log s') p = vs ++ shown (log s) p /\
    shown (log s') n = thin (one down) vs (last (gr s) n) ++ shown (log s) n /\
    last (gr s') n = hd (last (gr s) n) (thin (one down) vs (last (gr s) n)).
Proof.
  induction ns as [|m ns IH]; intros s n p down up Wf HP HR HA HN N HPn; cbv zeta.
  { simpl. exists []. simpl. auto. }
  cbn [fold_left].
  assert (N1 : n <> m) by (intros ->; apply N; now left).
  assert (N2 : ~ In n ns) by (intros Hi; apply N; now right).
  destruct (send_thin (S (cnt (gr s))) m s n p down up) as (v2 & A1 & A2 & A3); auto; [lia|].
  destruct (send_last changed (S (cnt (gr s))) m s n) as (v3 & A5 & A6).
  rewrite A3 in A5. apply app_inv_tail in A5. subst v3.
  pose proof (fs_ss _ _ (fs_send_down changed (S (cnt (gr s))) m s)) as S1.
  change (send_down changed (S (cnt (gr s))) m s) with (send_down_node changed m s) in *.
  assert (W1 : wf (gr (send_down_node changed m s))) by (now apply wf_send_down).
  destruct (IH (send_down_node changed m s) n p down up) as (v1 & B1 & B2 & B3); auto.
  - now rewrite (ss_parents _ _ S1).
  - now rewrite (ss_kind _ _ S1).
  - now rewrite (alive_struct _ _ _ S1).
  - now rewrite (ss_children _ _ S1).
  - exists (v1 ++ v2). rewrite B1, B2, B3, A1, A3, A6, thin_app, !app_assoc.
    split; auto. split; auto. now rewrite hd_app2.
Qed.

(** ** Invariant *)
Definition follows g (n p : nat) (down : down_fn) : Prop :=
  (exists up, kind_of g n = KInner down up) /\ parents g n = [p] /\ alive g n = true /\ not_reread g n.

Definition UIa s c (a : nat -> V) : Prop :=
  made_with (log s) c = Some (a c) /\
  (forall n, n < c -> shown_when (log s) n c = Some (a n)) /\
  (forall n, n <= c -> last (gr s) n = hd (a n) (shown_since (log s) n c)) /\
  forall n p down, n <= c -> follows (gr s) n p down ->
    shown_since (log s) n c = thin (one down) (shown_since (log s) p c) (a n) /\
    (steady (gr s) p -> forall x, down [a p] = Some x -> a n = x).
Definition UIc s c : Prop := exists a : nat -> V, UIa s c a.

Lemma follows_ext : forall g g' n p d, wf g -> ext g g' -> n < cnt g ->
  (alive g' n = true -> alive g n = true) -> follows g' n p d -> follows g n p d.
Proof using Type.
  intros g g' n p d Wf E L HA ((up & K) & Pa & A & NR). pose proof E as [_ E2].
  destruct (E2 n L) as [E3 E4]. split; [exists up; congruence|]. split; [congruence|].
  split; auto. eapply not_reread_ext; eauto.
Qed.

Lemma UIa_frame : forall s s' c a, wf (gr s) -> wf (gr s') -> ext (gr s) (gr s') -> c < cnt (gr s) ->
  (forall n, n < cnt (gr s) -> alive (gr s') n = true -> alive (gr s) n = true) ->
  (forall q, q < cnt (gr s) -> last (gr s') q = last (gr s) q) ->
  (forall p, shown_since (log s') p c = shown_since (log s) p c) ->
  (forall p, shown_when (log s') p c = shown_when (log s) p c) ->
  made_with (log s') c = made_with (log s) c ->
  UIa s c a -> UIa s' c a.
Proof using Type.
  intros s s' c a Wf Wf' E L HA HL HS HW HM (H1 & H2 & H3 & H4). unfold UIa. rewrite HM. split; auto.
  split; [intros n Ln; rewrite HW; auto|]. split; [intros n Ln; rewrite HS, HL by lia; auto|].
  intros n p down Ln F. rewrite !HS.
  assert (F0 : follows (gr s) n p down) by (eapply follows_ext; eauto; [lia|apply HA; lia]).
  destruct (H4 n p down Ln F0) as (H5 & H6). split; auto.
  intros Fp. apply H6. destruct F0 as (_ & Pa & _).
  assert (Lp : p < n) by (apply (wf_par _ Wf); rewrite Pa; now left).
  eapply steady_ext; eauto; [lia|apply HA; lia].
Qed.
Lemma UIc_frame : forall s s' c, wf (gr s) -> wf (gr s') -> ext (gr s) (gr s') -> c < cnt (gr s) ->
  (forall n, n < cnt (gr s) -> alive (gr s') n = true -> alive (gr s) n = true) ->
  (forall q, q < cnt (gr s) -> last (gr s') q = last (gr s) q) ->
  (forall p, shown_since (log s') p c = shown_since (log s) p c) ->
  (forall p, shown_when (log s') p c = shown_when (log s) p c) ->
  made_with (log s') c = made_with (log s) c ->
  UIc s c -> UIc s' c.
Proof using Type. intros s s' c H1 H2 H3 H4 H5 H6 H7 H8 H9 (a & H). exists a. apply (UIa_frame s); auto. Qed.

Lemma UIa_sends : forall s ns c a, wf (gr s) -> KI (gr s) ->
  (forall n down up, In n ns -> kind_of (gr s) n <> KInner down up) ->
  (forall n, steady (gr s) n -> settled (gr s) n) ->
  (forall n p down, follows (gr s) n p down -> P (gr s) n) ->
  c < cnt (gr s) -> UIa s c a -> UIa (send_roots changed ns s) c a.
Proof.
  intros s ns c a Wf HK HN HS HT L (H1 & H2 & H3 & H4). unfold send_roots.
  set (s0 := emit (ECommit ns (world (gr s))) s).
  destruct (sends_roots changed changed_sound ns s0 Wf) as [S1 _].
  destruct (sends_log changed ns s0) as (l & EL & Hl).
  assert (SL : forall n, last (gr (fold_left (fun s n => send_down_node changed n s) ns s0)) n =
     hd (last (gr s) n) (shown l n)).
  { intros n. destruct (sends_last changed ns s0 n) as (vs & A1 & A2). cbv zeta in A1, A2.
    rewrite EL, shown_app in A1. apply app_inv_tail in A1. now rewrite A2, A1. }
  unfold UIa. rewrite EL. destruct (since_sends l (log s0) 0 c Hl) as (_ & -> & _). split; auto.
  split; [intros n Ln; rewrite when_sends; auto; now apply H2|]. split.
  { intros n Ln. destruct (since_sends l (log s0) n c Hl) as (-> & _). rewrite SL, H3 by auto.
    now rewrite hd_app2. }
  intros n p down Ln F.
  assert (FB : forall m q d, follows (gr (fold_left (fun s n => send_down_node changed n s) ns s0)) m q d ->
     follows (gr s) m q d).
  { intros m q d ((up & K) & Pa & A & NR). rewrite (ss_kind _ _ S1) in K. rewrite (ss_parents _ _ S1) in Pa.
    rewrite (alive_struct _ _ _ S1) in A. split; [exists up; exact K|]. split; auto. split; auto.
    apply (not_reread_ext _ _ _ Wf (ext_ss _ _ S1)). exact NR. }
  apply FB in F. pose proof F as ((up & K) & Pa & A & NR).
  assert (Lc : n < cnt (gr s)) by lia.
  pose proof (HT n p down F) as Pn.
  assert (Nn : ~ In n ns) by (intros Hi; exact (HN n down up Hi K)).
  destruct (sends_thin ns s0 n p down up Wf Pa K A (HK p) Nn Pn) as (vs & B1 & B2 & B3).
  rewrite EL, shown_app in B1, B2. apply app_inv_tail in B1. apply app_inv_tail in B2.
  change (gr s0) with (gr s) in B2, B3.
  destruct (since_sends l (log s0) n c Hl) as (-> & _). destruct (since_sends l (log s0) p c Hl) as (-> & _).
  change (shown_since (log s0) n c) with (shown_since (log s) n c).
  change (shown_since (log s0) p c) with (shown_since (log s) p c).
  destruct (H4 n p down Ln F) as (H5 & H6). rewrite B1, B2, thin_app, <- H5, <- H3 by auto.
  split; auto. intros Fp. apply H6.
  apply (steady_ext _ _ p Wf (ext_ss _ _ S1)); auto.
  - change (gr s0) with (gr s). apply Nat.lt_trans with n; auto. apply (wf_par _ Wf). rewrite Pa. now left.
  - change (gr s0) with (gr s) in S1. now rewrite (alive_struct _ _ _ S1).
Qed.

(** What a chain node has now of its source's value now. *)
Lemma edge_now : forall s n p down, UIc s n -> follows (gr s) n p down -> steady (gr s) p ->
  wf (gr s) -> forall x, down [last (gr s) p] = Some x -> last (gr s) n = x.
Proof.
  intros s n p down (a & H1 & H2 & H3 & H4) F Fp Wf x E.
  destruct (H4 n p down (le_n n) F) as (H5 & H6).
  assert (Lp : p <= n).
  { destruct F as (_ & Pa & _). apply Nat.lt_le_incl, (wf_par _ Wf). rewrite Pa. now left. }
  rewrite H3 in E by auto.
  rewrite H3, H5, hd_thin by auto. apply latest_fix with (a := a p); auto.
Qed.

Lemma follows_P : forall s n p down, TI s -> wf (gr s) -> follows (gr s) n p down -> P (gr s) n.
Proof.
  intros s n p down HT Wf ((up & K) & Pa & A & NR).
  assert (L : n < cnt (gr s)) by (apply alive_cnt; [apply (wf_par _ Wf)|auto]).
  destruct (HT n L p Pa) as [_ T2]; [now rewrite K|auto|]. rewrite K in T2.
  now destruct (T2 eq_refl NR).
Qed.
Lemma follows_steady : forall g n p d, follows g n p d -> steady g n.
Proof using Type. intros g n p d ((up & K) & _ & A & NR). split; eauto. Qed.
Lemma follows_ss : forall g g' n p d, wf g -> same_struct g g' -> follows g' n p d -> follows g n p d.
Proof using Type.
  intros g g' n p d Wf S1 ((up & K) & Pa & A & NR). rewrite (ss_kind _ _ S1) in K.
  rewrite (ss_parents _ _ S1) in Pa. rewrite (alive_struct _ _ _ S1) in A.
  split; [exists up; exact K|]. split; auto. split; auto.
  apply (not_reread_ext _ _ _ Wf (ext_ss _ _ S1)). exact NR.
Qed.
Lemma steady_ss : forall g g' n, wf g -> same_struct g g' -> steady g' n -> steady g n.
Proof using Type.
  intros g g' n Wf S1 ((d & up & K) & A & NR). rewrite (ss_kind _ _ S1) in K.
  rewrite (alive_struct _ _ _ S1) in A.
  split; [exists d, up; exact K|]. split; auto.
  apply (not_reread_ext _ _ _ Wf (ext_ss _ _ S1)). exact NR.
Qed.

Definition UI s : Prop := forall c, c < cnt (gr s) -> UIc s c.
Lemma step_UI : forall s s', step s s' -> Inv changed (gr s) -> KI (gr s) -> TI s -> NI s -> SH s -> UI s -> UI s'.
Proof using changed_sound ordN_in.
  intros s s' H HI HK HT HN HH HU c L.
  pose proof (step_Inv changed changed_sound ordN _ _ H HI) as [HI' HE].
  pose proof HI as [Wf _]. pose proof HI' as [Wf' _].
  assert (HA : forall n, n < cnt (gr s) -> alive (gr s') n = true -> alive (gr s) n = true)
    by (intros; eapply step_alive; eauto).
  assert (FR : cnt (gr s') = cnt (gr s) ->
     (forall q, last (gr s') q = last (gr s) q) ->
     (forall p, shown_since (log s') p c = shown_since (log s) p c) ->
     (forall p, shown_when (log s') p c = shown_when (log s) p c) ->
     made_with (log s') c = made_with (log s) c -> UIc s' c).
  { intros C T1 T2 T2' T3. rewrite C in L. eapply (UIc_frame s); eauto. }
  assert (SD : forall ns s1, same_struct (gr s) (gr s1) -> wf (gr s1) ->
    (forall q, last (gr s1) q = last (gr s) q) ->
    (forall p, shown_since (log s1) p c = shown_since (log s) p c) ->
    (forall p, shown_when (log s1) p c = shown_when (log s) p c) ->
    made_with (log s1) c = made_with (log s) c ->
    (forall n down up, In n ns -> kind_of (gr s) n <> KInner down up) ->
    (forall n down up, kind_of (gr s) n = KInner down up -> nd (gr s1) n = nd (gr s) n) ->
    c < cnt (gr s) -> UIc (send_roots changed ns s1) c).
  { intros ns s1 S1 W1 E1 E2 E3 E4 E5 E6 L0. destruct (HU c L0) as (a & Ha). exists a.
    apply UIa_sends; auto.
    - intros m. rewrite (ss_children _ _ S1). apply HK.
    - intros m d u Hm. rewrite (ss_kind _ _ S1). now apply E5.
    - intros m Sm. apply (steady_ss _ _ m Wf S1) in Sm. pose proof Sm as ((d & u & K) & _).
      eapply settled_nd; [eapply E6; eauto|]. now apply HN.
    - intros m p d Fm. apply (follows_ss _ _ m p d Wf S1) in Fm. pose proof Fm as ((u & K) & _).
      pose proof (follows_P _ _ _ _ HT Wf Fm) as Pm.
      unfold NodesTrack.P, kind_of, nsd, last, cur in *. now rewrite (E6 m d u K).
    - now rewrite (ss_cnt _ _ S1).
    - apply (UIa_frame s); auto.
      + apply (ext_ss _ _ S1).
      + intros m Lm. now rewrite (alive_struct _ _ _ S1). }
  destruct H; try (apply FR; auto; fail);
    try (apply FR; intros; auto; unfold last; simpl; destruct (_ =? n); reflexivity).
  - (* commit *)
    rewrite (ss_cnt _ _ (send_roots_ss changed ns s)) in L.
    apply SD; auto; [apply ss_refl|]. intros n down up Hi K. destruct (H n Hi). rewrite K in *. discriminate.
  - (* write *)
    pose proof (fc_push_down changed n v (gr s)) as F.
    apply FR; auto; [apply (ss_cnt _ _ (fc_ss _ _ _ F))|apply (fc_last _ _ _ F)].
  - (* automatic state *)
    pose proof (fc_push_down changed n v (gr s)) as F.
    rewrite (ss_cnt _ _ (send_roots_ss changed [n] _)) in L.
    simpl in L. rewrite (ss_cnt _ _ (fc_ss _ _ _ F)) in L.
    apply SD; auto.
    + apply (fc_ss _ _ _ F).
    + apply (wf_push_down changed changed_sound); auto. apply (noninner_out _ _ Wf). rewrite H. discriminate.
    + apply (fc_last _ _ _ F).
    + intros m down up [<-|[]] K. congruence.
    + intros m d u K. simpl. apply nd_push_other. congruence.
  - (* setter, transactional *)
    pose proof (fc_push_down changed n v (gr s)) as F.
    apply FR; auto; [apply (ss_cnt _ _ (fc_ss _ _ _ F))|apply (fc_last _ _ _ F)].
  - (* setter, automatic *)
    pose proof (fc_push_down changed n v (gr s)) as F.
    set (s1 := mark_rcp n (with_gr s (push_down changed n v))) in *.
    assert (S1 : same_struct (gr s) (gr s1)).
    { eapply ss_trans; [apply (fc_ss _ _ _ F)|]. apply ss_upd. intros []; simpl; auto 10. }
    rewrite (ss_cnt _ _ (send_roots_ss changed [n] _)), (ss_cnt _ _ S1) in L.
    apply SD; auto.
    + eapply wf_vals with (g := push_down changed n v (gr s)).
      * apply (wf_push_down changed changed_sound); auto. apply (noninner_out _ _ Wf). rewrite H. discriminate.
      * apply ss_upd. intros []; simpl; auto 10.
      * intros m Hm. pose proof (wf_push_down changed changed_sound _ n v Wf) as Wp.
        assert (Ln : n < cnt (gr s)) by (apply (noninner_out _ _ Wf); rewrite H; discriminate).
        destruct (wf_out _ (Wp Ln) m Hm) as (A1 & A2 & A3 & A4 & A5 & A6 & A7 & A8).
        unfold nsd, nn, last, cur in *. simpl.
        destruct (Nat.eqb_spec m n) as [->|]; simpl; auto.
    + intros q. unfold last. simpl. destruct (q =? n); apply (fc_last _ _ _ F).
    + intros m down up [<-|[]] K. congruence.
    + intros m d u K. assert (Nm : m <> n) by congruence. simpl.
      rewrite (proj2 (Nat.eqb_neq m n)) by auto. now apply nd_push_other.
  - (* new node *)
    unfold new_node in *. simpl in *.
    destruct (add_rest changed changed_sound (gr s) k ps v H H0) as (C & _).
    rewrite C in L. destruct (Nat.eq_dec c (cnt (gr s))) as [->|N].
    + pose proof (add_nd_new changed changed_sound (gr s) k ps v H H0) as EN.
      assert (LQ : forall q, q < cnt (gr s) -> last (add_node k ps v (gr s)) q = last (gr s) q).
      { intros q Lq. destruct (add_old_fields changed changed_sound (gr s) k ps v H H0 q) as (_ & _ & _ & E2 & _); auto. lia. }
      exists (fun n => if n =? cnt (gr s) then v else last (gr s) n). unfold UIa. simpl. rewrite Nat.eqb_refl.
      split; auto. split.
      { intros n Ln. rewrite (proj2 (Nat.eqb_neq n (cnt (gr s)))) by lia. now apply HH. }
      split.
      { intros n Ln. destruct (Nat.eqb_spec n (cnt (gr s))) as [->|Nn]; [unfold last; now rewrite EN|].
        apply LQ. lia. }
      intros n p down Ln F. simpl. split; auto.
      assert (Lp : p < n) by (apply (wf_par _ Wf'); destruct F as (_ & -> & _); now left).
      assert (SO : forall m, m < cnt (gr s) -> steady (add_node k ps v (gr s)) m -> steady (gr s) m).
      { intros m Lm. apply (steady_ext (gr s)); auto. }
      rewrite (proj2 (Nat.eqb_neq p (cnt (gr s)))) by lia.
      destruct (Nat.eqb_spec n (cnt (gr s))) as [->|Nn].
      * intros Fp x Ex. apply SO in Fp; [|lia].
        destruct F as ((up & K) & Pa & A & NR). unfold kind_of, parents in K, Pa. rewrite EN in K, Pa.
        simpl in K, Pa. subst k ps. rewrite (proj2 (HN p Fp)) in Ex.
        unfold initial, current_from in H2. simpl in H2. rewrite Ex in H2. congruence.
      * intros Fp x Ex.
        apply SO in Fp; [|lia]. apply (follows_ext (gr s)) in F; auto; [|lia|apply HA; lia].
        eapply edge_now; eauto. apply HU. lia.
    + assert (EN : (cnt (gr s) =? c) = false) by (apply Nat.eqb_neq; auto).
      apply (UIc_frame s); auto; simpl; intros; rewrite ?EN; auto; try lia.
      * destruct (add_old_fields changed changed_sound (gr s) k ps v H H0 q) as (_ & _ & _ & E2 & _); auto. lia.
      * apply HU. lia.
  - (* refresh *)
    pose proof (fr_refresh changed ordN (S n) n (gr s)) as F.
    apply FR; auto; cbn [gr log with_gr]; [apply (ss_cnt _ _ (fr_ss _ _ F))|apply (fr_last _ _ F)].
Qed.

(** ** Chains *)
Inductive cpath g : nat -> nat -> (V -> option V) -> Prop :=
| cp_one q n d F : follows g n q d -> (forall v, F v = d [v]) -> cpath g q n F
| cp_cons q m n d F G : follows g m q d -> cpath g m n G ->
    (forall v, F v = match d [v] with Some y => G y | None => None end) -> cpath g q n F.

Lemma latest_ext : forall (f h : V -> option V) vs (b : V), (forall v, f v = h v) -> latest f vs b = latest h vs b.
Proof using Type. intros f h vs b H. induction vs as [|v vs IH]; simpl; auto. rewrite H. now destruct (h v). Qed.

Lemma cpath_le : forall g q n F, wf g -> cpath g q n F -> q < n.
Proof using Type.
  intros g q n F Wf H.
  assert (L : forall n q d, follows g n q d -> q < n).
  { intros m r d (_ & Pa & _). apply (wf_par _ Wf). rewrite Pa. now left. }
  induction H as [q n d F H1 _|q m n d F G H1 _ IH _]; [eauto|]. apply L in H1. lia.
Qed.

Lemma cpath_latest_from : forall s q n F a, wf (gr s) -> UIa s n a -> cpath (gr s) q n F ->
  last (gr s) n = latest F (shown_since (log s) q n) (a n) /\
  (steady (gr s) q -> forall x, F (a q) = Some x -> a n = x).
Proof.
  intros s q n F a Wf (H1 & H2 & H3 & H4) HC. clear H1 H2. revert H3 H4.
  induction HC as [q n d F HF EF|q m n d F G HF HC IH EF]; intros H3 H4.
  - destruct (H4 n q d (le_n n) HF) as (A1 & A3). rewrite H3, A1, hd_thin by auto. split.
    + apply latest_ext. intros v. symmetry. apply EF.
    + intros Fq x. rewrite EF. now apply A3.
  - destruct (IH H3 H4) as (B1 & B2).
    assert (L : m <= n) by (apply Nat.lt_le_incl; eapply cpath_le; eauto).
    destruct (H4 m q d L HF) as (A1 & A3). specialize (B2 (follows_steady _ _ _ _ HF)). split.
    + rewrite B1, A1, latest_thin by auto. apply latest_ext. intros v. rewrite EF. reflexivity.
    + intros Fq x. rewrite EF. destruct (d [a q]) as [y|] eqn:E; [|discriminate].
      rewrite <- (A3 Fq y eq_refl). apply B2.
Qed.
Lemma cpath_latest : forall s q n F, wf (gr s) -> UIc s n -> cpath (gr s) q n F ->
  exists v0, made_with (log s) n = Some v0 /\ last (gr s) n = latest F (shown_since (log s) q n) v0.
Proof.
  intros s q n F Wf (a & H) HC. exists (a n). split; [apply H|].
  apply (cpath_latest_from s q n F a Wf H HC).
Qed.
End Thin.
