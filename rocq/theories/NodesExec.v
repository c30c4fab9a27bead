(** Every execution preserves the value invariant. *)
From Coq Require Import List Arith Bool Lia.
From Verif Require Import NodesModel NodesBase NodesInv.
Import ListNotations.

Section Exec.
Context {V W : Type}.
Variable changed : V -> V -> bool.
Hypothesis changed_sound : forall a b, changed a b = false -> a = b.
Variable ordV : graph V W -> nat -> list (nat * V) -> list (nat * V).
Variable ordN : graph V W -> nat -> list nat -> list nat.

Set Default Proof Using "Type changed_sound".
Implicit Types g : graph V W.

Notation D := (D changed).
Notation exec := (exec changed ordV ordN).

(** ** Well-formedness *)
Lemma wf_vals : forall g g', wf g -> same_struct g g' ->
  (forall n, cnt g <= n -> nsd g' n = false /\ nn g' n = false /\ last g' n = cur g' n) ->
  wf g'.
Proof using Type.
  intros g g' Wf S Ho.
  assert (AL : forall n, alive g' n = alive g n) by (intros; now apply alive_struct).
  destruct Wf as [W1 W2 W3 W4 W5 W6 W7], S as [S1 S2 S3 S4 S5 S6 S7 S8 S9 S10].
  split.
  - intros n p. rewrite S6. apply W1.
  - intros n. rewrite S5, S6. apply W2.
  - intros n c. rewrite S1, S6, S7. apply W3.
  - intros c p. rewrite S6, S7, AL. apply W4.
  - intros n. rewrite S10. apply W5.
  - intros n sl. rewrite S10, S2. apply W6.
  - intros n. rewrite S1. intros L. destruct (Ho n L) as (-> & -> & ->).
    destruct (W7 n L) as (A1 & A2 & A3 & A4 & A5 & A6 & A7 & A8).
    rewrite S5, S6, S7, S10, S9. auto 10.
Qed.

Lemma wf_recompute : forall g n, wf g -> wf (recompute changed n g).
Proof.
  intros g n Wf. destruct (Nat.lt_ge_cases n (cnt g)) as [L|L].
  - pose proof (fc_recompute changed n g) as [F1 F2 F3 F4 F5 F6 F7].
    eapply wf_vals; eauto. intros m Hm.
    rewrite F2, F3, F4, F5 by lia.
    destruct (wf_out _ Wf m Hm) as (A1 & A2 & A3 & A4 & A5 & A6 & A7 & A8). auto.
  - rewrite recompute_noninner; auto.
    destruct (wf_out _ Wf n L) as (-> & _). exact I.
Qed.
Lemma wf_sent : forall g n, wf g -> n < cnt g -> wf (upd g n set_sent).
Proof.
  intros g n Wf L. eapply wf_vals; eauto using ss_set_sent. intros m Hm.
  destruct (wf_out _ Wf m Hm) as (A1 & A2 & A3 & A4 & A5 & A6 & A7 & A8).
  unfold nsd, nn, last, cur. rewrite nd_upd_other by lia. auto.
Qed.
Lemma wf_push_down : forall g n v, wf g -> n < cnt g -> wf (push_down changed n v g).
Proof.
  intros g n v Wf L. pose proof (fc_push_down changed n v g) as [F1 F2 F3 F4 F5 F6 F7].
  eapply wf_vals; eauto. intros m Hm. rewrite F2, F3, F4, F5 by lia.
  destruct (wf_out _ Wf m Hm) as (A1 & A2 & A3 & A4 & A5 & A6 & A7 & A8). auto.
Qed.
Lemma wf_refresh : forall fuel g n, wf g -> wf (refresh changed ordN fuel n g).
Proof.
  induction fuel as [|f IH]; intros g n Wf; simpl; auto.
  assert (H : forall ps a, wf a -> wf (fold_left (fun g0 p => refresh changed ordN f p g0) ps a)).
  { induction ps as [|p ps IHp]; intros a Wa; simpl; auto. }
  destruct (kind_of g n); auto; apply wf_recompute; auto.
Qed.

Lemma noninner_out : forall g n, wf g -> kind_of g n <> KConst -> n < cnt g.
Proof using Type.
  intros g n Wf H. destruct (Nat.lt_ge_cases n (cnt g)) as [L|L]; auto.
  destruct (wf_out _ Wf n L) as (A1 & _). contradiction.
Qed.

Lemma send_down_wf_D : forall fuel n (s : st V W) X,
  wf (gr s) -> D (gr s) (fun m => X m \/ m = n) -> cnt (gr s) - n < fuel ->
  wf (gr (send_down changed fuel n s)) /\ D (gr (send_down changed fuel n s)) X.
Proof.
  induction fuel as [|f IH]; intros n s X Wf HD L; [lia|]. simpl.
  pose proof (wf_recompute _ n Wf) as W1.
  pose proof (visit_recompute_D changed changed_sound _ n X (wf_par _ Wf) HD) as D1.
  pose proof (recompute_settled changed changed_sound _ n (wf_par _ Wf)) as S1.
  pose proof (ss_cnt _ _ (fc_ss _ _ _ (fc_recompute changed n (gr s)))) as C1.
  set (g1 := recompute changed n (gr s)) in *. clearbody g1.
  destruct (nsd g1 n) eqn:E; simpl.
  - assert (Ln : n < cnt g1).
    { destruct (Nat.lt_ge_cases n (cnt g1)) as [Ln|Ln]; auto.
      destruct (wf_out _ W1 n Ln) as (_&_&_&_&A&_). congruence. }
    pose proof (wf_sent _ n W1 Ln) as W2.
    pose proof (visit_sent_D changed changed_sound _ n X W1 S1 D1) as D2.
    assert (Hch : forall c, In c (children g1 n) -> n < c /\ c < cnt g1).
    { intros c Hc. destruct (wf_kids _ W1 _ _ Hc) as [Hc1 Hc2].
      apply (wf_par _ W1) in Hc2. lia. }
    assert (HF : forall cs (a : st V W), wf (gr a) -> cnt (gr a) = cnt g1 ->
      D (gr a) (fun m => X m \/ In m cs) -> (forall c, In c cs -> n < c /\ c < cnt g1) ->
      let b := fold_left (fun s0 c => if alive (gr s0) c then send_down changed f c s0 else s0)
                         cs a in
      wf (gr b) /\ D (gr b) X).
    { induction cs as [|c cs IHc]; intros a Wa Ca Da Hc; simpl.
      - split; auto. eapply (D_weaken changed changed_sound); [|exact Da]. intros m [?|[]]; auto.
      - destruct (alive (gr a) c) eqn:EA.
        + assert (H0 : wf (gr (send_down changed f c a)) /\
                  D (gr (send_down changed f c a)) (fun m => X m \/ In m cs)).
          { apply IH; auto.
            - eapply (D_weaken changed changed_sound); [|exact Da]. intros m [?|[?|?]]; auto.
            - destruct (Hc c (or_introl eq_refl)). rewrite Ca. lia. }
          destruct H0 as [W3 D3]. apply IHc; auto.
          * rewrite (ss_cnt _ _ (fs_ss _ _ (fs_send_down changed f c a))). auto.
          * intros c' Hc'. apply Hc. now right.
        + apply IHc; auto.
          * destruct Da as [dl Da]. exists dl. intros m G A.
            destruct (Da m G A) as (H1 & H2 & H3 & H4). split; [|split; [|split]]; auto.
            intros R NX. apply H4; [exact R|]. intros [Hx|[Hx|Hx]].
            -- apply NX. now left.
            -- subst c. congruence.
            -- apply NX. now right.
          * intros c' Hc'. apply Hc. now right. }
    assert (EC : children (upd g1 n set_sent) n = children g1 n).
    { unfold children. now rewrite nd_upd_same. }
    rewrite EC. apply HF; auto.
  - split; auto. eapply (visit_clean_D changed changed_sound); eauto.
Qed.

Definition Inv (g : graph V W) : Prop := wf g /\ D g none.

Lemma send_down_node_Inv : forall n (s : st V W), Inv (gr s) ->
  Inv (gr (send_down_node changed n s)).
Proof.
  intros n s [Wf HD]. unfold send_down_node. apply send_down_wf_D; auto.
  - eapply (D_weaken changed changed_sound); [|exact HD]. intros m [].
  - lia.
Qed.

(** ** Things that never change about existing nodes *)
Definition ext (g g' : graph V W) : Prop :=
  cnt g <= cnt g' /\
  forall n, n < cnt g -> kind_of g' n = kind_of g n /\ parents g' n = parents g n.
Lemma ext_refl : forall g, ext g g.
Proof using Type. intros; split; auto. Qed.
Lemma ext_trans : forall a b c, ext a b -> ext b c -> ext a c.
Proof using Type.
  intros a b c [A1 A2] [B1 B2]. split; [lia|]. intros n L.
  destruct (A2 n L), (B2 n) as [? ?]; [lia|]. split; congruence.
Qed.
Lemma ext_ss : forall g g', same_struct g g' -> ext g g'.
Proof using Type. intros g g' []; split; [lia|auto]. Qed.

(** ** Bookkeeping operations *)
Lemma sorted_le : forall l k j, j <= k -> sorted_from k l -> sorted_from j l.
Proof using Type. intros [|x l] k j L H; simpl in *; auto. destruct H; split; auto. lia. Qed.
Lemma sorted_filter : forall A (f : A -> nat) (p : A -> bool) l k,
  sorted_from k (map f l) -> sorted_from k (map f (filter p l)).
Proof using Type.
  induction l as [|x l IH]; intros k H; simpl in *; auto.
  destruct H as [H1 H2]. destruct (p x); simpl.
  - split; auto.
  - apply IH. eapply sorted_le; [|exact H2]. lia.
Qed.
Lemma sorted_snoc : forall l k x, sorted_from k l -> (forall y, In y l -> y < x) -> k <= x ->
  sorted_from k (l ++ [x]).
Proof using Type.
  induction l as [|y l IH]; intros k x H Hy L; simpl in *; auto.
  destruct H as [H1 H2]. split; auto. apply IH; auto.
  - specialize (Hy y (or_introl eq_refl)). lia.
Qed.

Lemma alive_mono : forall g g', par_lt g -> par_lt g' ->
  cnt g' = cnt g -> (forall n, parents g' n = parents g n) ->
  (forall m, m < cnt g -> handle g' m = true \/ In m (pins g') -> alive g m = true) ->
  forall n, alive g' n = true -> alive g n = true.
Proof using Type.
  intros g g' PL PL' HC HP HH n A. apply (alive_iff g' PL') in A as (m & L & H & AN).
  rewrite HC in L. assert (AN' : anc g n m).
  { eapply anc_ext; [|exact AN]. intros; symmetry; auto. }
  eapply alive_anc; eauto.
Qed.

Lemma quiet_Inv : forall g g', Inv g ->
  cnt g' = cnt g -> (forall n, kind_of g' n = kind_of g n) ->
  (forall n, parents g' n = parents g n) ->
  (forall n, cur g' n = cur g n) -> (forall n, last g' n = last g n) ->
  (forall n, nsd g' n = nsd g n) -> (forall n, cnt g <= n -> nn g' n = nn g n) ->
  (forall m, m < cnt g -> handle g' m = true \/ In m (pins g') -> alive g m = true) ->
  (forall n c, In c (children g' n) -> In c (children g n)) ->
  (forall n c, In c (children g n) -> alive g c = true -> In c (children g' n)) ->
  (forall n, sorted_from 0 (map fst (slots g' n))) ->
  (forall n sl, In sl (slots g' n) -> fst sl < nexts g') ->
  (forall n, cnt g <= n -> slots g' n = [] /\ n_held (nd g' n) = 0) ->
  Inv g' /\ ext g g'.
Proof.
  intros g g' [Wf HD] Q1 Q2 Q3 Q4 Q5 Q6 Q7 Q8 Q9 Q10 Q11 Q12 Q13.
  assert (PL' : par_lt g').
  { intros n p. rewrite Q3. apply (wf_par _ Wf). }
  pose proof (alive_mono g g' (wf_par _ Wf) PL' Q1 Q3 Q8) as AM.
  split; [split|].
  - split; auto.
    + intros n. rewrite Q2, Q3. apply (wf_arity _ Wf).
    + intros n c Hc. rewrite Q1, Q3. apply (wf_kids _ Wf). auto.
    + intros c p Hp A. rewrite Q3 in Hp. apply Q10; auto. eapply wf_link; eauto.
    + intros n L. rewrite Q1 in L.
      destruct (wf_out _ Wf n L) as (A1 & A2 & A3 & A4 & A5 & A6 & A7 & A8).
      rewrite Q2, Q3, Q4, Q5, Q6, Q7 by auto. destruct (Q13 n L) as [B1 B2].
      repeat split; auto. destruct (children g' n) as [|c l] eqn:E; auto.
      specialize (Q9 n c). rewrite E, A3 in Q9. destruct Q9; simpl; auto.
  - eapply (D_mono changed changed_sound); [| | | | | |exact HD]; auto.
  - split; [lia|auto].
Qed.

Lemma upd_fields : forall g n h m,
  kind_of (upd g n h) m = n_kind (if m =? n then h (nd g m) else nd g m).
Proof using Type. reflexivity. Qed.

(** The common shape: one node changed by [h], which leaves values alone. *)
Ltac fld := intros;
  unfold kind_of, parents, children, cur, last, nsd, nn, ntf, slots in *; simpl in *;
  repeat match goal with
  | |- context [?a =? ?b] => destruct (Nat.eqb_spec a b); subst; simpl in *
  | H : context [?a =? ?b] |- _ => destruct (Nat.eqb_spec a b); subst; simpl in *
  end; auto.

Lemma pin_Inv : forall g n, Inv g -> alive g n = true ->
  Inv (set_pins g (n :: pins g)) /\ ext g (set_pins g (n :: pins g)).
Proof.
  intros g n HI A. pose proof HI as [Wf _]. apply quiet_Inv; auto.
  - intros m L [H|[H|H]].
    + apply alive_handle. exact H.
    + now subst.
    + apply (alive_iff g (wf_par _ Wf)). exists m. repeat split; auto. constructor.
  - apply (wf_sorted _ Wf).
  - apply (wf_sids _ Wf).
  - intros m L. destruct (wf_out _ Wf m L) as (A1 & A2 & A3 & A4 & A5 & A6 & A7 & A8). auto.
Qed.
Lemma unpin_Inv : forall g, Inv g ->
  Inv (set_pins g (tl (pins g))) /\ ext g (set_pins g (tl (pins g))).
Proof.
  intros g HI. pose proof HI as [Wf _]. apply quiet_Inv; auto.
  - intros m L [H|H].
    + apply alive_handle. exact H.
    + apply (alive_iff g (wf_par _ Wf)). exists m. repeat split; auto; [|constructor].
      right. destruct (pins g); simpl in H; auto. now right.
  - apply (wf_sorted _ Wf).
  - apply (wf_sids _ Wf).
  - intros m L. destruct (wf_out _ Wf m L) as (A1 & A2 & A3 & A4 & A5 & A6 & A7 & A8). auto.
Qed.
Lemma world_Inv : forall g w, Inv g -> Inv (set_world g w) /\ ext g (set_world g w).
Proof.
  intros g w HI. pose proof HI as [Wf _]. apply quiet_Inv; auto.
  - intros m L [H|H].
    + apply alive_handle. exact H.
    + apply (alive_iff g (wf_par _ Wf)). exists m. repeat split; auto. constructor.
  - apply (wf_sorted _ Wf).
  - apply (wf_sids _ Wf).
  - intros m L. destruct (wf_out _ Wf m L) as (A1 & A2 & A3 & A4 & A5 & A6 & A7 & A8). auto.
Qed.

(** Flags of the notification phase. *)
Lemma flags_Inv : forall g n h, Inv g -> n < cnt g ->
  (forall a, n_kind (h a) = n_kind a /\ n_parents (h a) = n_parents a /\
     n_children (h a) = n_children a /\ n_held (h a) = n_held a /\
     n_slots (h a) = n_slots a /\ n_cur (h a) = n_cur a /\ n_last (h a) = n_last a /\
     n_nsd (h a) = n_nsd a) ->
  Inv (upd g n h) /\ ext g (upd g n h).
Proof.
  intros g n h HI L H. pose proof HI as [Wf _]. apply quiet_Inv; auto.
  - fld; apply H.
  - fld; apply H.
  - fld; apply H.
  - fld; apply H.
  - fld; apply H.
  - fld; lia.
  - intros m Lm [Hm|Hm].
    + apply alive_handle. unfold handle in *. unfold slots in *. simpl in *.
      destruct (Nat.eqb_spec m n) as [->|]; auto.
      destruct (H (nd g n)) as (_ & _ & _ & E1 & E2 & _). now rewrite E1, E2 in Hm.
    + apply (alive_iff g (wf_par _ Wf)). exists m. repeat split; auto. constructor.
  - fld. destruct (H (nd g n)) as (_ & _ & E & _). now rewrite E in H0.
  - fld. destruct (H (nd g n)) as (_ & _ & E & _). now rewrite E.
  - fld; [|apply (wf_sorted _ Wf)].
    destruct (H (nd g n)) as (_ & _ & _ & _ & E & _). rewrite E. apply (wf_sorted _ Wf).
  - fld; [|eapply (wf_sids _ Wf); eauto].
    destruct (H (nd g n)) as (_ & _ & _ & _ & E & _). rewrite E in H0.
    eapply (wf_sids _ Wf); eauto.
  - intros m Lm. destruct (wf_out _ Wf m Lm) as (A1 & A2 & A3 & A4 & A5 & A6 & A7 & A8).
    fld. lia.
Qed.

Lemma drop_Inv : forall g n, Inv g -> n < cnt g ->
  let h := fun a : node V W => set_held (pred (n_held a)) a in
  Inv (upd g n h) /\ ext g (upd g n h).
Proof.
  intros g n HI L h. pose proof HI as [Wf _]. apply quiet_Inv; auto; try (fld; fail).
  - intros m Lm [Hm|Hm].
    + apply alive_handle. unfold handle in *. unfold slots in *. simpl in *.
      destruct (Nat.eqb_spec m n) as [->|]; auto. simpl in Hm.
      apply andb_true_iff in Hm as [H1 H2]. rewrite H1. simpl.
      apply orb_true_iff in H2 as [H2|H2]; apply orb_true_iff; auto.
      left. apply Nat.ltb_lt. apply Nat.ltb_lt in H2. lia.
    + apply (alive_iff g (wf_par _ Wf)). exists m. repeat split; auto. constructor.
  - fld; apply (wf_sorted _ Wf).
  - fld; eapply (wf_sids _ Wf); eauto.
  - intros m Lm. destruct (wf_out _ Wf m Lm) as (A1 & A2 & A3 & A4 & A5 & A6 & A7 & A8).
    fld. split; auto. now rewrite A7.
Qed.

Lemma unwatch_Inv : forall g n sid, Inv g -> n < cnt g ->
  let h := fun a : node V W =>
    set_slots (filter (fun sl => negb (fst sl =? sid)) (n_slots a)) a in
  Inv (upd g n h) /\ ext g (upd g n h).
Proof.
  intros g n sid HI L h. pose proof HI as [Wf _]. apply quiet_Inv; auto; try (fld; fail).
  - intros m Lm [Hm|Hm].
    + apply alive_handle. unfold handle in *. unfold slots in *. simpl in *.
      destruct (Nat.eqb_spec m n) as [->|]; auto. simpl in Hm.
      apply andb_true_iff in Hm as [H1 H2]. rewrite H1. simpl.
      apply orb_true_iff in H2 as [H2|H2]; apply orb_true_iff; auto.
      right. destruct (n_slots (nd g n)); auto.
    + apply (alive_iff g (wf_par _ Wf)). exists m. repeat split; auto. constructor.
  - fld; [apply sorted_filter|]; apply (wf_sorted _ Wf).
  - intros m sl. unfold slots; simpl. destruct (Nat.eqb_spec m n) as [->|]; simpl.
    + intros H. apply filter_In in H as [H _]. eapply (wf_sids _ Wf); eauto.
    + apply (wf_sids _ Wf).
  - intros m Lm. destruct (wf_out _ Wf m Lm) as (A1 & A2 & A3 & A4 & A5 & A6 & A7 & A8).
    unfold slots in *. simpl. destruct (Nat.eqb_spec m n); subst; auto. lia.
Qed.

Lemma watch_Inv : forall g n cb, Inv g -> handle g n = true ->
  let g1 := upd g n (fun a => set_slots (n_slots a ++ [(nexts g, cb)]) a) in
  let g2 := Graph (cnt g1) (nd g1) (S (nexts g)) (pins g1) (world g1) in
  Inv g2 /\ ext g g2.
Proof.
  intros g n cb HI HH g1 g2. pose proof HI as [Wf _].
  assert (L : n < cnt g).
  { unfold handle in HH. apply andb_true_iff in HH as [HH _]. now apply Nat.ltb_lt. }
  apply quiet_Inv; auto; try (unfold g2, g1; fld; fail).
  - intros m Lm [Hm|Hm].
    + apply alive_handle. destruct (Nat.eq_dec m n) as [->|N]; auto.
      revert Hm. unfold handle, slots, g2, g1. simpl. now rewrite (proj2 (Nat.eqb_neq m n)).
    + apply (alive_iff g (wf_par _ Wf)). exists m. repeat split; auto. constructor.
  - intros m. unfold slots, g2, g1; simpl. destruct (Nat.eqb_spec m n) as [->|]; simpl.
    + rewrite map_app. simpl. apply sorted_snoc; [apply (wf_sorted _ Wf)| |lia].
      intros y Hy. apply in_map_iff in Hy as (sl & <- & Hs). eapply (wf_sids _ Wf); eauto.
    + apply (wf_sorted _ Wf).
  - intros m sl. unfold slots, g2, g1; simpl. destruct (Nat.eqb_spec m n) as [->|]; simpl.
    + intros H. apply in_app_iff in H as [H|[H|[]]].
      * pose proof (wf_sids _ Wf n sl H). lia.
      * subst; simpl; lia.
    + intros H. pose proof (wf_sids _ Wf m sl H). lia.
  - intros m Lm. destruct (wf_out _ Wf m Lm) as (A1 & A2 & A3 & A4 & A5 & A6 & A7 & A8).
    unfold slots, g2, g1 in *; simpl. destruct (Nat.eqb_spec m n); subst; auto. lia.
Qed.

Lemma collect_Inv : forall g n, Inv g ->
  Inv (collect n g) /\ ext g (collect n g).
Proof.
  intros g n HI. pose proof HI as [Wf _]. unfold collect.
  apply quiet_Inv; auto; try (fld; fail).
  - intros m Lm [Hm|Hm].
    + apply alive_handle. revert Hm. unfold handle, slots; simpl.
      destruct (Nat.eqb_spec m n) as [->|]; auto.
    + apply (alive_iff g (wf_par _ Wf)). exists m. repeat split; auto. constructor.
  - intros m c. unfold children at 1; simpl. destruct (Nat.eqb_spec m n) as [->|]; auto.
    simpl. intros H. now apply filter_In in H as [H _].
  - intros m c Hc A. unfold children at 1; simpl. destruct (Nat.eqb_spec m n) as [->|]; auto.
    simpl. apply filter_In. auto.
  - fld; apply (wf_sorted _ Wf).
  - fld; eapply (wf_sids _ Wf); eauto.
  - intros m Lm. destruct (wf_out _ Wf m Lm) as (A1 & A2 & A3 & A4 & A5 & A6 & A7 & A8).
    unfold slots in *. simpl. destruct (Nat.eqb_spec m n); subst; auto.
Qed.

(** ** Creating a node *)
Lemma link_to_nd : forall n ps g m, NoDup ps ->
  nd (link_to n ps g) m =
  if mem m ps then set_children (children g m ++ [n]) (nd g m) else nd g m.
Proof using Type.
  unfold link_to. induction ps as [|p ps IH]; intros g m ND; simpl; auto.
  inversion ND as [|x l Hx Hl]; subst. rewrite IH by auto. simpl.
  unfold children. simpl. destruct (Nat.eqb_spec m p) as [->|N]; simpl; auto.
  destruct (mem p ps) eqn:E; auto. apply mem_In in E. contradiction.
Qed.
Lemma link_to_rest : forall n ps g,
  cnt (link_to n ps g) = cnt g /\ nexts (link_to n ps g) = nexts g /\
  pins (link_to n ps g) = pins g /\ world (link_to n ps g) = world g.
Proof using Type.
  unfold link_to. induction ps as [|p ps IH]; intros g; simpl; auto.
  destruct (IH (upd g p (fun a => set_children (n_children a ++ [n]) a)))
    as (-> & -> & -> & ->). auto.
Qed.

Lemma nodupb_NoDup : forall l, nodupb l = true -> NoDup l.
Proof using Type.
  induction l as [|x l IH]; simpl; intros H; constructor;
    apply andb_true_iff in H as [H1 H2]; auto.
  intros Hi. apply mem_In in Hi. rewrite Hi in H1. discriminate.
Qed.

Lemma handle_lt : forall g n, handle g n = true -> n < cnt g.
Proof using Type.
  intros g n H. unfold handle in H. apply andb_true_iff in H as [H _].
  now apply Nat.ltb_lt.
Qed.

Section AddNode.
  Variables (g : graph V W) (k : kind V W) (ps : list nat) (v : V).
  Hypothesis Hps : forall p, In p ps -> handle g p = true.
  Hypothesis HND : NoDup ps.
  Let N := cnt g.
  Let g' := add_node k ps v g.

  Set Default Proof Using "Type Hps HND changed_sound".

  Lemma add_nd_new : nd g' N = Node k ps [] v v false false false false [] 1 [].
  Proof.
    unfold g', add_node. rewrite link_to_nd by auto.
    assert (E : mem (cnt g) ps = false).
    { destruct (mem (cnt g) ps) eqn:E; auto. apply mem_In in E.
      apply Hps in E. apply handle_lt in E. lia. }
    unfold N. rewrite E. simpl. now rewrite Nat.eqb_refl.
  Qed.
  Lemma add_nd_old : forall m, m <> N -> nd g' m =
    if mem m ps then set_children (children g m ++ [N]) (nd g m) else nd g m.
  Proof.
    intros m Hm. unfold g', add_node. rewrite link_to_nd by auto.
    unfold children. simpl. unfold N in Hm. now rewrite (proj2 (Nat.eqb_neq m (cnt g))).
  Qed.
  Lemma add_rest : cnt g' = S N /\ nexts g' = nexts g /\ pins g' = pins g /\ world g' = world g.
  Proof.
    unfold g', add_node. cbv zeta. match goal with |- context [link_to ?a ?b ?h] =>
      destruct (link_to_rest a b h) as (-> & -> & -> & ->) end. auto.
  Qed.

  Lemma add_old_fields : forall m, m <> N ->
    kind_of g' m = kind_of g m /\ parents g' m = parents g m /\ cur g' m = cur g m /\
    last g' m = last g m /\ nsd g' m = nsd g m /\ nn g' m = nn g m /\
    slots g' m = slots g m /\ n_held (nd g' m) = n_held (nd g m) /\ ntf g' m = ntf g m.
  Proof.
    intros m Hm. unfold kind_of, parents, cur, last, nsd, nn, slots, ntf.
    rewrite add_nd_old by auto. destruct (mem m ps); auto 10.
  Qed.
  Lemma add_old_children : forall m, m <> N ->
    children g' m = children g m ++ (if mem m ps then [N] else []).
  Proof.
    intros m Hm. unfold children at 1. rewrite add_nd_old by auto.
    destruct (mem m ps); simpl; auto. now rewrite app_nil_r.
  Qed.

  Hypothesis HI : Inv g.
  Hypothesis HA : arity_ok k ps = true.
  Hypothesis Hv : forall down up x, k = KInner down up ->
    down (current_from g ps) = Some x -> v = x.
  Set Default Proof Using "Type Hps HND HI HA Hv changed_sound".

  Lemma add_parents_new : parents g' N = ps.
  Proof. unfold parents. now rewrite add_nd_new. Qed.

  Lemma add_par_lt : par_lt g'.
  Proof.
    intros m p Hp. destruct (Nat.eq_dec m N) as [->|Hm].
    - rewrite add_parents_new in Hp. apply Hps in Hp. now apply handle_lt in Hp.
    - destruct (add_old_fields m Hm) as (_ & E & _). rewrite E in Hp.
      destruct HI as [Wf _]. now apply (wf_par _ Wf).
  Qed.

  Lemma add_anc_old : forall a m, m < N -> anc g' a m -> anc g a m.
  Proof.
    intros a m L A. induction A as [n|n p m A IH Hp]; [constructor|].
    assert (Hm : m <> N) by lia. destruct (add_old_fields m Hm) as (_ & E & _).
    rewrite E in Hp. pose proof (wf_par _ (proj1 HI) _ _ Hp).
    apply anc_step with p; auto. apply IH. lia.
  Qed.
  Lemma add_handle_old : forall m, m < N -> handle g' m = handle g m.
  Proof.
    intros m L. assert (Hm : m <> N) by lia.
    destruct (add_old_fields m Hm) as (_ & _ & _ & _ & _ & _ & E1 & E2 & _).
    destruct add_rest as (C & _). unfold handle. rewrite C, E1, E2.
    f_equal. rewrite (proj2 (Nat.ltb_lt m (S N))), (proj2 (Nat.ltb_lt m (cnt g))); auto.
  Qed.

  Lemma add_alive_old : forall m, m < N -> alive g' m = true -> alive g m = true.
  Proof.
    intros m L A. pose proof HI as [Wf _]. pose proof add_par_lt as PL.
    apply (alive_iff g' PL) in A as (q & Hq & H & AN).
    destruct add_rest as (C & _ & P & _). rewrite C in Hq. rewrite P in H.
    destruct (Nat.eq_dec q N) as [->|Nq].
    - assert (X : exists p, In p ps /\ anc g' m p).
      { inversion AN as [x|x p y A2 Hp]; subst; [lia|].
        rewrite add_parents_new in Hp. eauto. }
      destruct X as (p & Hp & AP). apply Hps in Hp.
      assert (p < N) by now apply handle_lt in Hp.
      apply add_anc_old in AP; auto. eapply alive_anc; eauto.
      + apply (wf_par _ Wf).
      + now apply alive_handle.
    - assert (q < N) by lia. apply add_anc_old in AN; auto.
      apply (alive_iff g (wf_par _ Wf)). exists q. repeat split; auto.
      destruct H as [H|H]; auto. left. rewrite add_handle_old in H; auto.
  Qed.

  Lemma add_good_old : forall m, m < N -> good g' m -> good g m.
  Proof.
    intros m L G. induction G as [m R|m down up K P IH].
    - apply good_root. assert (Hm : m <> N) by lia.
      destruct (add_old_fields m Hm) as (E & _). now rewrite <- E.
    - assert (Hm : m <> N) by lia. destruct (add_old_fields m Hm) as (E & E2 & _).
      eapply good_inner; [rewrite <- E; eauto|]. intros p Hp.
      pose proof (wf_par _ (proj1 HI) _ _ Hp). apply IH; [now rewrite E2|lia].
  Qed.

  Lemma add_wf : wf g'.
  Proof.
    pose proof HI as [Wf _]. destruct add_rest as (C & X & P & _). split.
    - apply add_par_lt.
    - intros m. destruct (Nat.eq_dec m N) as [->|Hm].
      + unfold kind_of, parents. now rewrite add_nd_new.
      + destruct (add_old_fields m Hm) as (-> & -> & _). apply (wf_arity _ Wf).
    - intros m c Hc. rewrite C. destruct (Nat.eq_dec m N) as [->|Hm].
      + unfold children in Hc. rewrite add_nd_new in Hc. destruct Hc.
      + rewrite add_old_children in Hc by auto. apply in_app_iff in Hc as [Hc|Hc].
        * destruct (wf_kids _ Wf _ _ Hc) as [L Hp]. fold N in L. split; [lia|].
          assert (Hcn : c <> N) by lia.
          destruct (add_old_fields c Hcn) as (_ & -> & _). exact Hp.
        * destruct (mem m ps) eqn:E; [|destruct Hc]. destruct Hc as [<-|[]].
          split; [lia|]. rewrite add_parents_new. now apply mem_In.
    - intros c p Hp A. destruct (Nat.eq_dec c N) as [->|Hc].
      + rewrite add_parents_new in Hp.
        assert (Hpn : p <> N) by (apply Hps in Hp; apply handle_lt in Hp; unfold N; lia).
        rewrite add_old_children by auto. apply in_app_iff. right.
        rewrite (proj2 (mem_In p ps) Hp). now left.
      + assert (Lc : c < N).
        { pose proof (alive_cnt g' add_par_lt c A). rewrite C in H. lia. }
        destruct (add_old_fields c Hc) as (_ & E & _). rewrite E in Hp.
        apply add_alive_old in A; auto.
        pose proof (wf_par _ Wf _ _ Hp).
        rewrite add_old_children by lia. apply in_app_iff. left. eapply wf_link; eauto.
    - intros m. destruct (Nat.eq_dec m N) as [->|Hm].
      + unfold slots. rewrite add_nd_new. exact I.
      + destruct (add_old_fields m Hm) as (_ & _ & _ & _ & _ & _ & -> & _).
        apply (wf_sorted _ Wf).
    - intros m sl. rewrite X. destruct (Nat.eq_dec m N) as [->|Hm].
      + unfold slots. rewrite add_nd_new. intros [].
      + destruct (add_old_fields m Hm) as (_ & _ & _ & _ & _ & _ & -> & _).
        apply (wf_sids _ Wf).
    - intros m Lm. rewrite C in Lm. assert (Hm : m <> N) by lia.
      destruct (add_old_fields m Hm) as (E1 & E2 & E3 & E4 & E5 & E6 & E7 & E8 & _).
      assert (Lm' : cnt g <= m) by (unfold N in Lm; lia).
      destruct (wf_out _ Wf m Lm') as (A1 & A2 & A3 & A4 & A5 & A6 & A7 & A8).
      rewrite E1, E2, E3, E4, E5, E6, E7, E8. rewrite add_old_children by auto.
      rewrite A3. destruct (mem m ps) eqn:E.
      + apply mem_In in E. apply Hps in E. apply handle_lt in E. unfold N in Lm. lia.
      + auto 10.
  Qed.

  Lemma add_Inv : Inv g' /\ ext g g'.
  Proof.
    pose proof HI as [Wf [dl HD]]. destruct add_rest as (C & X & P & _).
    split; [split|].
    - apply add_wf.
    - exists (fun m => if m =? N then false else dl m). intros m G A.
      assert (Lm : m < S N).
      { rewrite <- C. apply alive_cnt; auto. apply add_par_lt. }
      assert (Hpn : forall q p, q < N -> In p (parents g q) -> p < N).
      { intros q p L Hp. pose proof (wf_par _ Wf _ _ Hp). lia. }
      destruct (Nat.eq_dec m N) as [->|Hm].
      + unfold Dnode, nsd, last, cur, kind_of. rewrite !add_nd_new, Nat.eqb_refl. simpl.
        repeat split; auto; try discriminate.
        * intros down up x K E. unfold kind_of in K. rewrite add_nd_new in K. simpl in K.
          unfold cur. rewrite add_nd_new. simpl. eapply Hv; eauto.
          rewrite add_parents_new in E. rewrite <- E. f_equal. unfold current_from.
          apply map_ext_in. intros p Hp. symmetry.
          apply Hps in Hp. apply handle_lt in Hp.
          assert (Hpn' : p <> N) by (unfold N; lia).
          now destruct (add_old_fields p Hpn') as (_ & _ & E3 & _).
      + assert (L : m < N) by lia.
        apply add_good_old in G; auto. apply add_alive_old in A; auto.
        destruct (HD m G A) as (H1 & H2 & H3 & H4).
        destruct (add_old_fields m Hm) as (E1 & E2 & E3 & E4 & E5 & _).
        unfold Dnode. rewrite E1, E2, E3, E4, E5.
        rewrite (proj2 (Nat.eqb_neq m N)) by auto.
        split; [|split; [|split; [|intros R NX; split; [|split]]]]; auto;
          destruct (H4 R NX) as (H5 & H6 & H7); auto.
        * intros E. destruct (H5 E) as (p & Hp & Ep). exists p. split; auto.
          rewrite (proj2 (Nat.eqb_neq p N)); auto. specialize (Hpn _ _ L Hp). lia.
        * intros H0. assert (Hd : forall p, In p (parents g m) -> dl p = false).
          { intros p Hp. specialize (H0 p Hp).
            rewrite (proj2 (Nat.eqb_neq p N)) in H0; auto. specialize (Hpn _ _ L Hp). lia. }
          destruct (H6 Hd) as [S E]. split; auto.
          eapply (settled_ext changed changed_sound); [exact E1|exact E2|exact E3| |exact S].
          intros p Hp. specialize (Hpn _ _ L Hp). assert (Hq : p <> N) by lia.
          now destruct (add_old_fields p Hq) as (_ & _ & E3' & _).
    - split; [rewrite C; unfold N; lia|]. intros m L. assert (Hm : m <> N) by (unfold N; lia).
      destruct (add_old_fields m Hm) as (E1 & E2 & _). auto.
  Qed.
End AddNode.
Set Default Proof Using "Type changed_sound".

(** ** Everything *)
Definition post (s : st V W) (r : res V W) : Prop :=
  match r with
  | Done s' | Thrown s' => Inv (gr s') /\ ext (gr s) (gr s')
  | _ => True
  end.

Lemma post_andthen : forall s r k, post s r ->
  (forall s', Inv (gr s') -> ext (gr s) (gr s') -> post s' (k s')) ->
  post s (andthen r k).
Proof.
  intros s r k H K. destruct r as [s1|s1| | |]; simpl in *; auto.
  destruct H as [H1 H2]. specialize (K s1 H1 H2).
  destruct (k s1); simpl in *; auto; destruct K as [K1 K2]; split; auto;
    eapply ext_trans; eauto.
Qed.
Lemma post_trans : forall s s1 r, ext (gr s) (gr s1) -> post s1 r -> post s r.
Proof.
  intros s s1 r H K. destruct r; simpl in *; auto; destruct K as [K1 K2]; split; auto;
    eapply ext_trans; eauto.
Qed.
Lemma post_finally : forall s r h, post s r ->
  (forall s', Inv (gr s') -> Inv (gr (h s')) /\ ext (gr s') (gr (h s'))) ->
  post s (finally r h).
Proof.
  intros s r h H K. destruct r as [s1|s1| | |]; simpl in *; auto;
    destruct H as [H1 H2]; destruct (K s1 H1); split; auto; eapply ext_trans; eauto.
Qed.

Lemma fold_send_down_Inv : forall ns (s : st V W), Inv (gr s) ->
  let s' := fold_left (fun s n => send_down_node changed n s) ns s in
  Inv (gr s') /\ ext (gr s) (gr s').
Proof.
  induction ns as [|n ns IH]; intros s HI; simpl; [split; [auto|apply ext_refl]|].
  destruct (IH _ (send_down_node_Inv n s HI)) as [A B]. split; auto.
  eapply ext_trans; [|exact B]. apply ext_ss. apply (fs_ss _ _ (fs_send_down changed _ n s)).
Qed.

Lemma send_roots_Inv : forall ns (s : st V W), Inv (gr s) ->
  Inv (gr (send_roots changed ns s)) /\ ext (gr s) (gr (send_roots changed ns s)).
Proof. intros ns s HI. apply (fold_send_down_Inv ns (emit _ s) HI). Qed.

Lemma Inv_push_down : forall g n v, Inv g ->
  (match kind_of g n with KInner _ _ | KConst => False | _ => True end) ->
  Inv (push_down changed n v g) /\ ext g (push_down changed n v g).
Proof.
  intros g n v [Wf HD] K. split; [split|].
  - apply wf_push_down; auto. apply (noninner_out _ _ Wf). intros E. now rewrite E in K.
  - apply (push_down_D changed changed_sound); auto.
    + destruct (kind_of g n); auto.
    + apply (wf_par _ Wf).
  - apply ext_ss. apply (fc_ss _ _ _ (fc_push_down changed n v g)).
Qed.

Lemma Inv_rcp : forall g n b, Inv g -> n < cnt g ->
  Inv (upd g n (set_rcp b)) /\ ext g (upd g n (set_rcp b)).
Proof. intros. apply flags_Inv; auto. intros []; simpl; auto 10. Qed.

Lemma exec_inv : forall fuel t s, Inv (gr s) -> post s (exec fuel t s).
Proof.
  induction fuel as [|f IH]; intros t s HI; [exact I|].
  assert (HR : post s (Done s)) by (split; [auto|apply ext_refl]).
  destruct t as [p|c|n v|n vs|l|ns|n|n from|n i size garbage old]; cbn [NodesModel.exec].
  - (* programs *)
    destruct p as [| |c k|p k].
    + exact HR.
    + exact HR.
    + apply post_andthen; [apply IH; auto|]. intros s' HI' E.
      eapply post_trans with (s1 := see s'); [apply ext_refl|apply IH; auto].
    + pose proof (IH (TProg p) s HI) as H.
      destruct (exec f (TProg p) s) as [s1|s1| | |]; simpl in H; auto;
        destruct H as [H1 H2]; (eapply post_trans; [|apply (IH _ (see s1)); exact H1]);
        exact H2.
  - (* commands *)
    destruct c as [n v|n fn|ns|n v|k ps d|n|n cb|n sid|w].
    + destruct (handle (gr s) n) eqn:H; [|exact I].
      destruct (pin_Inv (gr s) n HI (alive_handle _ _ H)) as [A B].
      apply post_finally.
      * eapply post_trans with (s1 := pin n s); [exact B|]. apply IH. exact A.
      * intros s' HI'. apply unpin_Inv; auto.
    + destruct (handle (gr s) n) eqn:H; [|exact I].
      destruct (pin_Inv (gr s) n HI (alive_handle _ _ H)) as [A B].
      apply post_finally.
      * eapply post_trans with (s1 := pin n s); [exact B|]. apply IH. exact A.
      * intros s' HI'. apply unpin_Inv; auto.
    + destruct (forallb _ ns) eqn:H; [|exact I].
      destruct (send_roots_Inv ns s HI) as [A B].
      eapply post_trans; [exact B|]. apply IH. exact A.
    + destruct (handle (gr s) n) eqn:H; [|exact I].
      destruct (kind_of (gr s) n) eqn:K; try exact I.
      apply Inv_push_down; auto. now rewrite K.
    + destruct (forallb (handle (gr s)) ps && nodupb ps && arity_ok k ps) eqn:H; [|exact I].
      apply andb_true_iff in H as [H H3]. apply andb_true_iff in H as [H1 H2].
      destruct (initial (gr s) k ps d) as [v|] eqn:E; [|exact HR].
      apply add_Inv; auto.
      * intros p Hp. rewrite forallb_forall in H1. auto.
      * now apply nodupb_NoDup.
      * intros down up x -> Ex. simpl in E. rewrite Ex in E. congruence.
    + destruct ((n <? cnt (gr s)) && (0 <? n_held (nd (gr s) n))) eqn:H; [|exact I].
      apply andb_true_iff in H as [H _]. apply Nat.ltb_lt in H.
      apply drop_Inv; auto.
    + destruct (handle (gr s) n) eqn:H; [|exact I].
      apply watch_Inv; auto.
    + destruct ((n <? cnt (gr s)) && _) eqn:H; [|exact I].
      apply andb_true_iff in H as [H _]. apply Nat.ltb_lt in H.
      apply unwatch_Inv; auto.
    + apply world_Inv; auto.
  - (* send_up *)
    destruct (alive (gr s) n); [|exact I].
    destruct (kind_of (gr s) n) as [auto|fs| | |down up|step up|auto fn] eqn:K; try exact I.
    + destruct (Inv_push_down (gr s) n v HI) as [A B]; [now rewrite K|].
      destruct auto.
      * destruct (send_roots_Inv [n] (with_gr (emit (EWrite n v) s) (push_down changed n v)) A)
          as [A1 B1].
        eapply post_trans; [|apply IH; exact A1]. eapply ext_trans; [exact B|exact B1].
      * split; auto.
    + destruct up as [|rf up]; [exact I|].
      destruct rf.
      * eapply post_trans with (s1 := with_gr s (refresh changed ordN (S n) n)).
        -- apply ext_ss. apply (fr_ss _ _ (fr_refresh changed ordN (S n) n (gr s))).
        -- apply IH. destruct HI as [Wf HD]. split.
           ++ apply wf_refresh; auto.
           ++ apply (refresh_D changed changed_sound); auto. apply (wf_par _ Wf).
      * apply IH; auto.
    + destruct up as [|rf up]; [exact I|].
      destruct rf.
      * eapply post_trans with (s1 := with_gr s (refresh changed ordN (S n) n)).
        -- apply ext_ss. apply (fr_ss _ _ (fr_refresh changed ordN (S n) n (gr s))).
        -- apply IH. destruct HI as [Wf HD]. split.
           ++ apply wf_refresh; auto.
           ++ apply (refresh_D changed changed_sound); auto. apply (wf_par _ Wf).
      * apply IH; auto.
    + assert (Ln : n < cnt (gr s)).
      { destruct HI as [Wf _]. apply (noninner_out _ _ Wf). rewrite K. discriminate. }
      apply post_andthen; [apply (IH _ (ask n v s)); auto|]. intros s1 HI1 E1. cbv zeta.
      assert (K1 : kind_of (gr s1) n = KSetter auto fn).
      { destruct E1 as [_ E1]. destruct (E1 n Ln) as [-> _]. exact K. }
      assert (Ln1 : n < cnt (gr s1)) by (destruct E1; lia).
      destruct (Inv_push_down (gr s1) n v HI1) as [A B]; [now rewrite K1|].
      destruct auto.
      * assert (Ln2 : n < cnt (push_down changed n v (gr s1))) by (destruct B; lia).
        destruct (Inv_rcp _ n true A Ln2) as [A2 B2].
        set (s2 := with_gr (with_gr s1 (push_down changed n v)) (fun g => upd g n (set_rcp true))).
        destruct (send_roots_Inv [n] s2 A2) as [A3 B3].
        eapply post_trans; [|apply IH; exact A3].
        eapply ext_trans; [exact B|]. eapply ext_trans; [exact B2|exact B3].
      * split; auto.
  - (* push_up of tuples *)
    destruct vs as [|t ts]; [exact HR|].
    apply post_andthen; [apply IH; auto|]. intros s' HI' E. apply IH; auto.
  - destruct l as [|[p v] r]; [exact HR|].
    apply post_andthen; [apply IH; auto|]. intros s' HI' E. apply IH; auto.
  - destruct ns as [|n r]; [exact HR|].
    destruct (handle (gr s) n); [|exact I].
    apply post_andthen; [apply IH; auto|]. intros s' HI' E. apply IH; auto.
  - (* notify *)
    destruct (negb (alive (gr s) n)); [exact I|].
    destruct (nn (gr s) n && negb (nsd (gr s) n)) eqn:H; [|exact HR].
    apply andb_true_iff in H as [Hnn _].
    assert (Ln : n < cnt (gr s)).
    { destruct (Nat.lt_ge_cases n (cnt (gr s))) as [L|L]; auto.
      destruct HI as [Wf _]. destruct (wf_out _ Wf n L) as (_&_&_&_&_&A&_). congruence. }
    set (s1 := with_gr s (fun g => upd g n (fun a => set_ntf true (set_nn false a)))).
    assert (F : Inv (gr s1) /\ ext (gr s) (gr s1)).
    { apply flags_Inv; auto. intros []; simpl; auto 10. }
    destruct F as [I1 E1].
    assert (P : post s1 (andthen (exec f (TSlots n 0) s1) (fun s2 =>
       exec f (TKids n 0 (length (children (gr s2) n)) false (ntf (gr s) n)) s2))).
    { apply post_andthen; [apply IH; auto|]. intros s' HI' E. apply IH; auto. }
    assert (HRs : forall s3 : st V W, Inv (gr s3) -> ext (gr s) (gr s3) ->
       Inv (upd (gr s3) n (set_ntf (ntf (gr s) n))) /\
       ext (gr s3) (upd (gr s3) n (set_ntf (ntf (gr s) n)))).
    { intros s3 I3 E3. apply flags_Inv; auto.
      - destruct E3. lia.
      - intros []; simpl; auto 10. }
    destruct (andthen _ _) as [s3|s3| | |]; simpl in P; auto; destruct P as [I3 E3];
      assert (E4 : ext (gr s) (gr s3)) by (eapply ext_trans; eauto);
      destruct (HRs s3 I3 E4) as [I5 E5].
    + split; auto. eapply ext_trans; eauto.
    + destruct (alive (gr s3) n); [|unfold gone; destruct (is_root _); exact I]. split; auto. eapply ext_trans; eauto.
  - (* slots *)
    destruct (next_slot from (slots (gr s) n)) as [[sid cb]|]; [|exact HR].
    pose proof (IH (TProg (cb (last (gr s) n)
      (get_obs (emit (ECall n sid (last (gr s) n) (gr s)) s))))
      (emit (ECall n sid (last (gr s) n) (gr s)) s) HI) as P.
    destruct (exec f (TProg _) _) as [s2|s2| | |]; try exact I; destruct P as [I2 E2].
    + destruct (alive (gr s2) n); [|unfold gone; destruct (is_root _); exact I].
      destruct (existsb _ _); [|exact I].
      eapply post_trans; [exact E2|]. apply IH; auto.
    + split; auto.
  - (* children *)
    destruct (i <? size).
    + destruct (nth_error (children (gr s) n) i) as [c|]; [|exact I].
      destruct (alive (gr s) c) eqn:A.
      * apply post_andthen.
        -- apply post_finally.
           ++ destruct (pin_Inv (gr s) c HI A) as [I1 E1].
              eapply post_trans with (s1 := pin c s); [exact E1|]. apply IH. exact I1.
           ++ intros s' HI'. apply unpin_Inv; auto.
        -- intros s2 I2 E2. destruct (alive (gr s2) n); [|unfold gone; destruct (is_root _); exact I].
           apply IH; auto.
      * apply IH; auto.
    + destruct (garbage && negb old); [|exact HR].
      apply collect_Inv; auto.
Qed.

Lemma Inv_empty : forall dv w, Inv (empty_graph (V:=V) (W:=W) dv w).
Proof.
  intros dv w. split.
  - split; unfold par_lt; simpl; intros; try contradiction; auto 10.
  - exists (fun _ => false). intros n G A. unfold alive in A. simpl in A. discriminate.
Qed.

End Exec.
