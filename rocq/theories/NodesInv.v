(** The value invariant of the node graph and its preservation. *)
From Coq Require Import List Arith Bool Lia.
From Verif Require Import NodesModel NodesBase.
Import ListNotations.

Section Inv.
Context {V W : Type}.
Variable changed : V -> V -> bool.
Hypothesis changed_sound : forall a b, changed a b = false -> a = b.
Variable ordV : graph V W -> nat -> list (nat * V) -> list (nat * V).
Variable ordN : graph V W -> nat -> list nat -> list nat.

Set Default Proof Using "Type changed_sound".
Implicit Types g : graph V W.

(** A stateless node agrees with its parents' current values. *)
Definition settled g n : Prop :=
  forall down up v, kind_of g n = KInner down up ->
    down (current_from g (parents g n)) = Some v -> cur g n = v.

(** [X]: nodes that the propagation in progress will still visit.
    [dl]: nodes with a value not yet propagated that stems from a root. *)
Definition Dnode g (X : nat -> Prop) (dl : nat -> bool) n : Prop :=
  (nsd g n = false -> last g n = cur g n) /\
  (dl n = true -> nsd g n = true) /\
  (is_root (kind_of g n) = true -> nsd g n = true -> dl n = true) /\
  (is_root (kind_of g n) = false -> ~ X n ->
     (dl n = true -> exists p, In p (parents g n) /\ dl p = true) /\
     ((forall p, In p (parents g n) -> dl p = false) ->
        settled g n /\ last g n = cur g n) /\
     ((forall a, changed a a = false) -> nsd g n = true -> dl n = true)).
Definition D g (X : nat -> Prop) : Prop :=
  exists dl, forall n, good g n -> alive g n = true -> Dnode g X dl n.

Ltac dsplit R NX :=
  split; [|split; [|split; [|intros R NX; split; [|split]]]].

Definition none : nat -> Prop := fun _ => False.

Lemma D_weaken : forall g (X Y : nat -> Prop), (forall n, X n -> Y n) -> D g X -> D g Y.
Proof.
  intros g X Y S [dl H]. exists dl. intros n G A.
  destruct (H n G A) as (H1 & H2 & H3 & H4).
  dsplit R NX; auto; destruct (H4 R (fun x => NX (S _ x))) as (H5 & H6 & H7); auto.
Qed.

(** The nodes seen by D have the same values; fewer may be alive. *)
Lemma D_mono : forall g g' X,
  (forall n, kind_of g' n = kind_of g n) -> (forall n, parents g' n = parents g n) ->
  (forall n, cur g' n = cur g n) -> (forall n, last g' n = last g n) ->
  (forall n, nsd g' n = nsd g n) ->
  (forall n, alive g' n = true -> alive g n = true) ->
  D g X -> D g' X.
Proof.
  intros g g' X HK HP HC HL HN HA [dl H]. exists dl. intros n G A.
  assert (G' : good g n) by (eapply good_ext; [..|exact G]; intros; auto).
  destruct (H n G' (HA n A)) as (H1 & H2 & H3 & H4).
  unfold Dnode. rewrite HK, HP, HC, HL, HN. dsplit R NX; auto;
    destruct (H4 R NX) as (H5 & H6 & H7); auto.
  intros HP'. destruct (H6 HP') as [S E]. split; auto.
  intros down up v K E'. rewrite HC. eapply S.
  - rewrite <- HK. eauto.
  - rewrite HP in E'. unfold current_from in *.
    rewrite <- E'. f_equal. apply map_ext. intros; symmetry; auto.
Qed.

Lemma settled_ext : forall g g' n, kind_of g' n = kind_of g n ->
  parents g' n = parents g n -> cur g' n = cur g n ->
  (forall p, In p (parents g n) -> cur g' p = cur g p) ->
  settled g n -> settled g' n.
Proof.
  intros g g' n HK HP HC HH S down up v K E. rewrite HC. eapply S.
  - rewrite <- HK; eauto.
  - rewrite HP in E. rewrite <- E. f_equal. unfold current_from. apply map_ext_in.
    intros p Hp. symmetry. auto.
Qed.

(** ** Writing a node that is not a stateless inner node *)
Lemma push_down_D : forall g n v,
  (match kind_of g n with KInner _ _ => False | _ => True end) ->
  par_lt g -> D g none -> D (push_down changed n v g) none.
Proof.
  intros g n v NK PL [dl H].
  pose proof (fc_push_down changed n v g) as F.
  set (g' := push_down changed n v g) in *. clearbody g'.
  destruct F as [F1 F2 F3 F4 F5 F6 F7].
  exists (fun m => if m =? n then nsd g' n else dl m).
  intros m G A. apply (good_struct _ _ _ F1) in G. rewrite (alive_struct _ _ _ F1) in A.
  destruct (H m G A) as (H1 & H2 & H3 & H4).
  unfold Dnode. rewrite (ss_kind _ _ F1), (ss_parents _ _ F1), F2.
  destruct (Nat.eqb_spec m n) as [->|N].
  - assert (IR : is_root (kind_of g n) = true).
    { destruct G as [q R|q d u K _]; [exact R|]. now rewrite K in NK. }
    dsplit R NX; auto; try congruence.
    intros E. rewrite F7 by auto. apply H1. destruct (nsd g n) eqn:E2; auto.
    rewrite (F6 eq_refl) in E. discriminate.
  - rewrite F4, F5 by auto.
    assert (Hup : forall p, In p (parents g m) -> is_root (kind_of g m) = false ->
      dl p = true -> (if p =? n then nsd g' n else dl p) = true).
    { intros p Hp R E. destruct (Nat.eqb_spec p n) as [->|]; auto.
      apply F6. apply (H n); auto.
      - eapply good_parent; eauto.
      - eapply alive_parent; eauto. }
    dsplit R NX; auto; destruct (H4 R NX) as (H5 & H6 & H7); auto.
    + intros E. destruct (H5 E) as (p & Hp & Ep). exists p. split; auto.
    + intros H0. assert (Hd : forall p, In p (parents g m) -> dl p = false).
      { intros p Hp. destruct (dl p) eqn:E; auto. specialize (H0 p Hp).
        rewrite (Hup p Hp R E) in H0. discriminate. }
      split; [|now apply H6].
      eapply settled_ext; [apply (ss_kind _ _ F1)|apply (ss_parents _ _ F1)|auto| |].
      * intros p Hp. destruct (Nat.eq_dec p n) as [->|]; auto.
        specialize (H0 n Hp). rewrite Nat.eqb_refl in H0. auto.
      * now apply H6.
Qed.

(** ** recompute as called by refresh: nothing is being propagated *)
Lemma recompute_value : forall g n down up v,
  kind_of g n = KInner down up -> down (current_from g (parents g n)) = Some v ->
  cur (recompute changed n g) n = v.
Proof.
  intros g n down up v K E. unfold recompute. rewrite K, E.
  now apply push_down_cur.
Qed.
Lemma recompute_none : forall g n down up,
  kind_of g n = KInner down up -> down (current_from g (parents g n)) = None ->
  recompute changed n g = g.
Proof. intros g n down up K E. unfold recompute. now rewrite K, E. Qed.

Lemma recompute_settled : forall g n, par_lt g -> settled (recompute changed n g) n.
Proof.
  intros g n PL down up v K E.
  pose proof (fc_recompute changed n g) as F. destruct F as [F1 F2 F3 F4 F5 F6 F7].
  rewrite (ss_kind _ _ F1) in K. rewrite (ss_parents _ _ F1) in E.
  eapply recompute_value; eauto. rewrite <- E. f_equal. unfold current_from.
  apply map_ext_in. intros p Hp. symmetry. apply F4. specialize (PL _ _ Hp). lia.
Qed.

Lemma recompute_settled_same : forall g n, settled g n ->
  match kind_of g n with KInner _ _ => True | _ => False end ->
  cur (recompute changed n g) n = cur g n /\
  ((forall a, changed a a = false) -> nsd (recompute changed n g) n = nsd g n).
Proof.
  intros g n S K. unfold recompute. destruct (kind_of g n) eqn:EK; try contradiction.
  destruct (down (current_from g (parents g n))) as [v|] eqn:E; [|auto].
  pose proof (S _ _ _ EK E) as E2. unfold push_down. rewrite <- E2.
  destruct (changed (cur g n) (cur g n)) eqn:EC; [|auto]. split.
  - unfold cur. now rewrite nd_upd_same.
  - intros R. rewrite R in EC. discriminate.
Qed.

Lemma recompute_refresh_D : forall g n,
  (match kind_of g n with KInner _ _ | KXform _ _ => True | _ => False end) ->
  par_lt g -> D g none -> D (recompute changed n g) none.
Proof.
  intros g n NK PL [dl H].
  pose proof (fc_recompute changed n g) as F.
  pose proof (recompute_settled_same g n) as RS.
  pose proof (recompute_settled g n PL) as RS'.
  set (g' := recompute changed n g) in *. clearbody g'.
  destruct F as [F1 F2 F3 F4 F5 F6 F7].
  set (dl' := fun m => if m =? n
                       then dl n || (nsd g' n && existsb dl (parents g n)) else dl m).
  assert (Dup : forall p, dl p = true -> dl' p = true).
  { intros p E. unfold dl'. destruct (Nat.eqb_spec p n) as [->|]; auto. now rewrite E. }
  assert (Ddn : forall p, dl' p = false -> dl p = false).
  { intros p E. destruct (dl p) eqn:E2; auto. rewrite (Dup p E2) in E. discriminate. }
  exists dl'.
  intros m G A. apply (good_struct _ _ _ F1) in G. rewrite (alive_struct _ _ _ F1) in A.
  destruct (H m G A) as (H1 & H2 & H3 & H4).
  unfold Dnode. rewrite (ss_kind _ _ F1), (ss_parents _ _ F1), F2.
  destruct (Nat.eq_dec m n) as [->|N].
  - assert (IK : is_root (kind_of g n) = false) by (destruct (kind_of g n); contradiction || reflexivity).
    assert (IK2 : match kind_of g n with KInner _ _ => True | _ => False end).
    { destruct G as [q R|q d u K _]; [congruence|]. now rewrite K. }
    destruct (H4 IK (fun x => x)) as (H5 & H6 & H7).
    assert (Hpn : forall p, In p (parents g n) -> dl' p = dl p).
    { intros p Hp. unfold dl'. rewrite (proj2 (Nat.eqb_neq p n)); auto.
      specialize (PL _ _ Hp). lia. }
    dsplit R NX.
    + intros E. rewrite F7 by auto. apply H1. destruct (nsd g n) eqn:E2; auto.
      rewrite (F6 eq_refl) in E. discriminate.
    + unfold dl'. rewrite Nat.eqb_refl. intros E. apply orb_true_iff in E as [E|E].
      * auto.
      * now apply andb_true_iff in E as [E _].
    + congruence.
    + unfold dl'. rewrite Nat.eqb_refl. intros E. apply orb_true_iff in E as [E|E].
      * destruct (H5 E) as (p & Hp & Ep). exists p. split; [exact Hp|now apply Dup].
      * apply andb_true_iff in E as [_ E]. apply existsb_exists in E as (p & Hp & Ep).
        exists p. split; [exact Hp|now apply Dup].
    + intros Hq. assert (Hd : forall p, In p (parents g n) -> dl p = false)
        by (intros p Hp; rewrite <- Hpn; auto).
      split; [apply RS'|]. destruct (H6 Hd) as [S E]. destruct (RS S IK2) as [RS1 _]. congruence.
    + intros Rf E. unfold dl'. rewrite Nat.eqb_refl. apply orb_true_iff.
      destruct (existsb dl (parents g n)) eqn:EX.
      * right. now rewrite E.
      * assert (Hd : forall p, In p (parents g n) -> dl p = false).
        { intros p Hp. destruct (dl p) eqn:E2; auto.
          assert (existsb dl (parents g n) = true)
            by (apply existsb_exists; exists p; auto). congruence. }
        destruct (H6 Hd) as [S _]. destruct (RS S IK2) as [_ RS2].
        left. apply H7; auto. rewrite <- RS2; auto.
  - rewrite F4, F5 by auto.
    assert (E0 : dl' m = dl m).
    { unfold dl'. now rewrite (proj2 (Nat.eqb_neq m n)). }
    rewrite E0. dsplit R NX; auto; destruct (H4 R NX) as (H5 & H6 & H7); auto.
    + intros E. destruct (H5 E) as (p & Hp & Ep). exists p. split; auto.
    + intros H0. assert (Hd : forall p, In p (parents g m) -> dl p = false) by auto.
      split; [|now apply H6].
      eapply settled_ext; [apply (ss_kind _ _ F1)|apply (ss_parents _ _ F1)|auto| |].
      * intros p Hp. destruct (Nat.eq_dec p n) as [->|]; auto.
        assert (Gn : good g n) by (eapply good_parent; eauto).
        assert (An : alive g n = true) by (eapply alive_parent; eauto).
        assert (IK : is_root (kind_of g n) = false) by (destruct (kind_of g n); contradiction || reflexivity).
        assert (IK2 : match kind_of g n with KInner _ _ => True | _ => False end).
        { destruct Gn as [q R'|q d u K _]; [congruence|]. now rewrite K. }
        destruct (nsd g' n) eqn:EN; [|auto].
        specialize (H0 n Hp). unfold dl' in H0. rewrite Nat.eqb_refl in H0; try rewrite EN in H0.
        apply orb_false_iff in H0 as [_ H0]. simpl in H0.
        destruct (H n Gn An) as (_ & _ & _ & Q). destruct (Q IK (fun x => x)) as (_ & Q6 & _).
        destruct Q6 as [S _].
        { intros q Hq. destruct (dl q) eqn:E2; auto.
          assert (existsb dl (parents g n) = true)
            by (apply existsb_exists; exists q; auto). congruence. }
        now destruct (RS S IK2).
      * now apply H6.
Qed.

Lemma refresh_D : forall fuel g n, par_lt g -> D g none ->
  D (refresh changed ordN fuel n g) none.
Proof.
  induction fuel as [|f IH]; intros g n PL HD; simpl; auto.
  assert (H : forall ps a, par_lt a -> D a none ->
    let b := fold_left (fun g0 p => refresh changed ordN f p g0) ps a in
    same_struct a b /\ par_lt b /\ D b none).
  { induction ps as [|p ps IHp]; intros a PLa Da; simpl.
    - split; [apply ss_refl|auto].
    - pose proof (fr_ss _ _ (fr_refresh changed ordN f p a)) as S.
      assert (PLb : par_lt (refresh changed ordN f p a)).
      { intros x q Hq. rewrite (ss_parents _ _ S) in Hq. auto. }
      destruct (IHp _ PLb (IH _ p PLa Da)) as (S2 & P2 & D2).
      split; [eapply ss_trans; eauto|auto]. }
  destruct (H (ordN g n (parents g n)) g PL HD) as (S & PL' & D').
  destruct (kind_of g n) eqn:K; auto;
    apply recompute_refresh_D; auto; rewrite (ss_kind _ _ S), K; exact I.
Qed.

(** ** send_down *)
Lemma visit_recompute_D : forall g n X, par_lt g ->
  D g (fun m => X m \/ m = n) -> D (recompute changed n g) (fun m => X m \/ m = n).
Proof.
  intros g n X PL [dl H].
  pose proof (fc_recompute changed n g) as F.
  pose proof (recompute_settled g n PL) as RS'.
  set (g' := recompute changed n g) in *. clearbody g'.
  destruct F as [F1 F2 F3 F4 F5 F6 F7].
  exists (fun m => if m =? n then nsd g' n else dl m).
  intros m G A. apply (good_struct _ _ _ F1) in G. rewrite (alive_struct _ _ _ F1) in A.
  destruct (H m G A) as (H1 & H2 & H3 & H4).
  unfold Dnode. rewrite (ss_kind _ _ F1), (ss_parents _ _ F1), F2.
  destruct (Nat.eqb_spec m n) as [->|N].
  - dsplit R NX; auto; try (exfalso; apply NX; now right).
    intros E. rewrite F7 by auto. apply H1. destruct (nsd g n) eqn:E2; auto.
    rewrite (F6 eq_refl) in E. discriminate.
  - rewrite F4, F5 by auto.
    assert (Hup : forall p, In p (parents g m) -> is_root (kind_of g m) = false ->
      dl p = true -> (if p =? n then nsd g' n else dl p) = true).
    { intros p Hp R E. destruct (Nat.eqb_spec p n) as [->|]; auto.
      apply F6. apply (H n); auto.
      - eapply good_parent; eauto.
      - eapply alive_parent; eauto. }
    dsplit R NX; auto; destruct (H4 R NX) as (H5 & H6 & H7); auto.
    + intros E. destruct (H5 E) as (p & Hp & Ep). exists p. split; auto.
    + intros H0. assert (Hd : forall p, In p (parents g m) -> dl p = false).
      { intros p Hp. destruct (dl p) eqn:E; auto. specialize (H0 p Hp).
        rewrite (Hup p Hp R E) in H0. discriminate. }
      split; [|now apply H6].
      eapply settled_ext; [apply (ss_kind _ _ F1)|apply (ss_parents _ _ F1)|auto| |].
      * intros p Hp. destruct (Nat.eq_dec p n) as [->|]; auto.
        specialize (H0 n Hp). rewrite Nat.eqb_refl in H0. auto.
      * now apply H6.
Qed.

(** The visited node had nothing to send. *)
Lemma visit_clean_D : forall g n X, settled g n -> nsd g n = false ->
  D g (fun m => X m \/ m = n) -> D g X.
Proof.
  intros g n X S E [dl H]. exists dl. intros m G A.
  destruct (H m G A) as (H1 & H2 & H3 & H4).
  destruct (Nat.eq_dec m n) as [->|N].
  - dsplit R NX; auto.
    + intros Ed. rewrite (H2 Ed) in E. discriminate.
    + intros _ En. congruence.
  - dsplit R NX; auto; apply H4; auto; intros [?|?]; auto.
Qed.

Lemma visit_sent_D : forall g n X, wf g -> settled g n ->
  D g (fun m => X m \/ m = n) ->
  D (upd g n set_sent) (fun m => X m \/ In m (children g n)).
Proof.
  intros g n X Wf S [dl H].
  pose proof (ss_set_sent g n) as F1.
  assert (Hlast : forall m, last (upd g n set_sent) m = if m =? n then cur g n else last g m).
  { intros m. unfold last, cur; simpl. destruct (Nat.eqb_spec m n) as [->|]; auto. }
  assert (Hcur : forall m, cur (upd g n set_sent) m = cur g m).
  { intros m. unfold cur; simpl. destruct (Nat.eqb_spec m n); auto. }
  assert (Hnsd : forall m, nsd (upd g n set_sent) m = if m =? n then false else nsd g m).
  { intros m. unfold nsd; simpl. destruct (Nat.eqb_spec m n); auto. }
  set (g' := upd g n set_sent) in *. clearbody g'.
  exists (fun m => if m =? n then false else dl m).
  intros m G A. apply (good_struct _ _ _ F1) in G. rewrite (alive_struct _ _ _ F1) in A.
  destruct (H m G A) as (H1 & H2 & H3 & H4).
  unfold Dnode. rewrite (ss_kind _ _ F1), (ss_parents _ _ F1), Hlast, Hcur, Hnsd.
  destruct (Nat.eqb_spec m n) as [->|N].
  - dsplit R NX; auto; try discriminate.
    intros _. split; auto.
    eapply settled_ext; [apply (ss_kind _ _ F1)|apply (ss_parents _ _ F1)|auto|auto|auto].
  - assert (Hn : ~ (X m \/ In m (children g n)) -> ~ In n (parents g m)).
    { intros NX Hp. apply NX. right. eapply wf_link; eauto. }
    assert (Hx : ~ (X m \/ In m (children g n)) -> ~ (X m \/ m = n)).
    { intros NX [?|?]; auto. }
    dsplit R NX; auto; destruct (H4 R (Hx NX)) as (H5 & H6 & H7); auto.
    + intros E. destruct (H5 E) as (p & Hp & Ep). exists p. split; auto.
      destruct (Nat.eqb_spec p n) as [->|]; auto. exfalso. now apply Hn.
    + intros H0. assert (Hd : forall p, In p (parents g m) -> dl p = false).
      { intros p Hp. pose proof (H0 p Hp) as Q. destruct (Nat.eqb_spec p n) as [e|ne]; auto.
        exfalso. rewrite e in Hp. now apply Hn. }
      split; [|now apply H6].
      eapply settled_ext; [apply (ss_kind _ _ F1)|apply (ss_parents _ _ F1)|auto|auto|].
      now apply H6.
Qed.
End Inv.
