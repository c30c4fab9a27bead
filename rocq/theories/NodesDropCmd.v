(** C16, part 3: the API calls keep the two executions related. *)
From Coq Require Import List Arith Bool Lia.
From Verif Require Import NodesModel NodesBase NodesInv NodesExec NodesEv NodesTold
                          NodesDropSpec NodesDrop.
Import ListNotations.

Section DropCmd.
Context {V W : Type}.
Variable changed : V -> V -> bool.
Hypothesis changed_sound : forall a b, changed a b = false -> a = b.
Variable n : nat.

Set Default Proof Using "Type".
Implicit Types g : graph V W.
Implicit Types s : st V W.

Notation R := (R (V:=V) (W:=W) n).
Notation RS := (RS (V:=V) (W:=W) n).
Notation slot_same := (slot_same (V:=V) (W:=W) n).
Notation trace := (trace (V:=V) (W:=W) n).

Lemma filter_sub : forall (A B : nat -> bool) l,
  (forall x, In x l -> B x = true -> A x = true) ->
  filter B l = filter B (filter A l).
Proof.
  induction l as [|x l IH]; intros H; simpl; auto.
  assert (IH' : filter B l = filter B (filter A l)) by (apply IH; intros; apply H; auto; now right).
  destruct (A x) eqn:Ax; simpl.
  - now rewrite IH'.
  - destruct (B x) eqn:Bx; auto.
    assert (A x = true) by (apply H; [now left|auto]). congruence.
Qed.

(** ** Reader objects come and go *)
Definition inner (a b : node V W) : Prop :=
  n_kind a = n_kind b /\ n_parents a = n_parents b /\ n_children a = n_children b /\
  vals a b.
Lemma inner_refl : forall a, inner a a.
Proof. intros; repeat split. Qed.

Lemma R_less : forall gL gR gL' gR', R gL gR ->
  cnt gL' = cnt gL -> cnt gR' = cnt gR -> nexts gL' = nexts gR' ->
  pins gL' = pins gR' -> world gL' = world gR' ->
  (forall m, inner (nd gL' m) (nd gL m)) -> (forall m, inner (nd gR' m) (nd gR m)) ->
  (forall m, m <> n -> n_held (nd gL' m) = n_held (nd gR' m)) ->
  n_held (nd gL' n) <= n_held (nd gR' n) ->
  (forall m, m <> n -> Forall2 slot_same (slots gL' m) (slots gR' m)) ->
  (forall sid, In sid (map fst (slots gL' n)) -> In sid (map fst (slots gR' n))) ->
  (forall sl, In sl (slots gL' n) -> quiet (snd sl)) ->
  (forall sl, In sl (slots gR' n) -> quiet (snd sl)) ->
  (forall m, alive gL' m = true -> alive gL m = true) ->
  R gL' gR'.
Proof.
  intros gL gR gL' gR' H CL CR NX PI WO IL IR HH HN SS SN QL QR AL.
  split; auto.
  - rewrite CL, CR. apply (r_cnt _ _ _ H).
  - intros m. unfold parents. destruct (IL m) as (_ & -> & _), (IR m) as (_ & -> & _).
    apply (r_par _ _ _ H).
  - intros m. unfold kind_of. destruct (IL m) as (-> & _), (IR m) as (-> & _).
    apply (r_kind _ _ _ H).
  - intros m A. apply AL in A. pose proof (r_vals _ _ _ H m A) as X.
    destruct (IL m) as (_ & _ & _ & Y), (IR m) as (_ & _ & _ & Z).
    unfold vals in *. intuition congruence.
  - intros m A. apply AL in A. pose proof (r_kids _ _ _ H m A) as X. unfold children in *.
    destruct (IL m) as (_ & _ & -> & _), (IR m) as (_ & _ & -> & _).
    rewrite (filter_sub (alive gL)), X, <- (filter_sub (alive gL)); auto.
Qed.

Lemma inner_upd : forall g m h k, (forall a, inner (h a) a) -> inner (nd (upd g m h) k) (nd g k).
Proof. intros g m h k H. simpl. destruct (k =? m); auto using inner_refl. Qed.

Lemma held_inner : forall x a, inner (set_held x a) a.
Proof. intros x []; repeat split. Qed.
Lemma slots_inner : forall x a, inner (set_slots x a) a.
Proof. intros x []; repeat split. Qed.

Ltac eqb_cases m k := destruct (Nat.eqb_spec m k); subst; auto.

Lemma drop_R : forall m sL sR, RS sL sR -> wf (gr sL) -> RS (drop_held m sL) (drop_held m sR).
Proof.
  intros m sL sR [H T] Hw. split; [|exact T].
  eapply (R_less (gr sL) (gr sR)); eauto using am_drop;
    try (intros; simpl; auto; fail);
    try (intros k; apply inner_upd; intros; apply held_inner).
  - apply (r_nexts _ _ _ H).
  - apply (r_pins _ _ _ H).
  - apply (r_world _ _ _ H).
  - intros k N. simpl. eqb_cases k m; simpl; rewrite (r_held _ _ _ H); auto.
  - simpl. pose proof (r_heldn _ _ _ H). eqb_cases n m; simpl; lia.
  - intros k N. unfold slots. simpl. pose proof (r_slots _ _ _ H k N). eqb_cases k m.
  - intros sid. unfold slots. simpl. pose proof (r_slotsn _ _ _ H sid). eqb_cases n m.
  - intros sl. unfold slots. simpl. pose proof (r_quietL _ _ _ H sl). eqb_cases n m.
  - intros sl. unfold slots. simpl. pose proof (r_quietR _ _ _ H sl). eqb_cases n m.
Qed.

Lemma drop_left : forall sL sR, RS sL sR -> wf (gr sL) -> RS (drop_held n sL) sR.
Proof.
  intros sL sR [H T] Hw. split; [|exact T].
  eapply (R_less (gr sL) (gr sR)); eauto using am_drop, inner_refl;
    try (intros; simpl; auto; fail);
    try (intros k; apply inner_upd; intros; apply held_inner).
  - apply (r_nexts _ _ _ H).
  - apply (r_pins _ _ _ H).
  - apply (r_world _ _ _ H).
  - intros k N. simpl. rewrite (proj2 (Nat.eqb_neq k n)) by auto. now apply (r_held _ _ _ H).
  - simpl. pose proof (r_heldn _ _ _ H). rewrite Nat.eqb_refl. simpl. lia.
  - intros k N. unfold slots at 1. simpl. rewrite (proj2 (Nat.eqb_neq k n)) by auto.
    now apply (r_slots _ _ _ H).
  - intros sid. unfold slots at 1. simpl. rewrite Nat.eqb_refl. apply (r_slotsn _ _ _ H).
  - intros sl. unfold slots. simpl. rewrite Nat.eqb_refl. apply (r_quietL _ _ _ H).
  - apply (r_quietR _ _ _ H).
Qed.

Lemma filter_sids : forall sid (l : list (slot V W)) x,
  In x (map fst (filter (fun sl => negb (fst sl =? sid)) l)) <->
  In x (map fst l) /\ x <> sid.
Proof.
  intros sid l x. rewrite !in_map_iff. split.
  - intros (sl & E & I). apply filter_In in I as [I1 I2]. split; eauto.
    apply negb_true_iff, Nat.eqb_neq in I2. congruence.
  - intros [(sl & E & I) N]. exists sl. split; auto. apply filter_In. split; auto.
    apply negb_true_iff, Nat.eqb_neq. congruence.
Qed.

Lemma forall2_filter : forall sid l l', Forall2 slot_same l l' ->
  Forall2 slot_same (filter (fun sl => negb (fst sl =? sid)) l)
                    (filter (fun sl => negb (fst sl =? sid)) l').
Proof.
  intros sid l l' F. induction F as [|a b l l' Hab F IH]; simpl; auto.
  destruct Hab as [E Hab]. rewrite E. destruct (negb (fst b =? sid)); auto.
  constructor; auto. split; auto.
Qed.

Lemma unwatch_R : forall m sid sL sR, RS sL sR -> wf (gr sL) ->
  RS (del_watch m sid sL) (del_watch m sid sR).
Proof.
  intros m sid sL sR [H T] Hw. split; [|exact T].
  eapply (R_less (gr sL) (gr sR)); eauto using am_unwatch;
    try (intros; simpl; auto; fail);
    try (intros k; apply inner_upd; intros; apply slots_inner).
  - apply (r_nexts _ _ _ H).
  - apply (r_pins _ _ _ H).
  - apply (r_world _ _ _ H).
  - intros k N. simpl. pose proof (r_held _ _ _ H k N). eqb_cases k m.
  - simpl. pose proof (r_heldn _ _ _ H). eqb_cases n m.
  - intros k N. unfold slots. simpl. pose proof (r_slots _ _ _ H k N). eqb_cases k m.
    simpl. now apply forall2_filter.
  - intros x. unfold slots. simpl. pose proof (r_slotsn _ _ _ H x). eqb_cases n m.
    simpl. rewrite !filter_sids. tauto.
  - intros sl. unfold slots. simpl. pose proof (r_quietL _ _ _ H sl). eqb_cases n m.
    simpl. intros I. apply filter_In in I. tauto.
  - intros sl. unfold slots. simpl. pose proof (r_quietR _ _ _ H sl). eqb_cases n m.
    simpl. intros I. apply filter_In in I. tauto.
Qed.

Lemma unwatch_left : forall sid sL sR, RS sL sR -> wf (gr sL) -> RS (del_watch n sid sL) sR.
Proof.
  intros sid sL sR [H T] Hw. split; [|exact T].
  eapply (R_less (gr sL) (gr sR)); eauto using am_unwatch, inner_refl;
    try (intros; simpl; auto; fail);
    try (intros k; apply inner_upd; intros; apply slots_inner).
  - apply (r_nexts _ _ _ H).
  - apply (r_pins _ _ _ H).
  - apply (r_world _ _ _ H).
  - intros k N. simpl. rewrite (proj2 (Nat.eqb_neq k n)) by auto. now apply (r_held _ _ _ H).
  - simpl. pose proof (r_heldn _ _ _ H). rewrite Nat.eqb_refl. simpl. lia.
  - intros k N. unfold slots at 1. simpl. rewrite (proj2 (Nat.eqb_neq k n)) by auto.
    now apply (r_slots _ _ _ H).
  - intros x. unfold slots at 1. simpl. rewrite Nat.eqb_refl. simpl. rewrite filter_sids.
    pose proof (r_slotsn _ _ _ H x). tauto.
  - intros sl. unfold slots. simpl. rewrite Nat.eqb_refl. simpl. intros I.
    apply filter_In in I. apply (r_quietL _ _ _ H). tauto.
  - apply (r_quietR _ _ _ H).
Qed.

Lemma watch_R : forall m cb cb' sL sR, RS sL sR -> wf (gr sL) -> handle (gr sL) m = true ->
  (forall v x x', obs_le n x x' -> psame n x' (cb v x) (cb' v x')) ->
  (m = n -> quiet cb /\ quiet cb') ->
  RS (add_watch m cb sL) (add_watch m cb' sR).
Proof.
  intros m cb cb' sL sR [H T] Hw Hh C Qu. split.
  - eapply (R_less (gr sL) (gr sR)); eauto using am_watch;
      try (intros; simpl; auto; fail);
      try (intros k; apply inner_upd; intros; apply slots_inner).
    + simpl. now rewrite (r_nexts _ _ _ H).
    + apply (r_pins _ _ _ H).
    + apply (r_world _ _ _ H).
    + intros k N. simpl. pose proof (r_held _ _ _ H k N). eqb_cases k m.
    + simpl. pose proof (r_heldn _ _ _ H). eqb_cases n m.
    + intros k N. unfold slots. simpl. pose proof (r_slots _ _ _ H k N). eqb_cases k m.
      simpl. apply Forall2_app; auto. constructor; auto. split; auto. simpl.
      apply (r_nexts _ _ _ H).
    + intros x. unfold slots. simpl. pose proof (r_slotsn _ _ _ H x). eqb_cases n m.
      simpl. rewrite !map_app, !in_app_iff. simpl. rewrite (r_nexts _ _ _ H). tauto.
    + intros sl. unfold slots. simpl. pose proof (r_quietL _ _ _ H sl). eqb_cases n m.
      simpl. rewrite in_app_iff. intros [I|[<-|[]]]; auto. simpl. now apply Qu.
    + intros sl. unfold slots. simpl. pose proof (r_quietR _ _ _ H sl). eqb_cases n m.
      simpl. rewrite in_app_iff. intros [I|[<-|[]]]; auto. simpl. now apply Qu.
  - simpl. rewrite T, (r_nexts _ _ _ H), (vals_last n _ _ m H); auto.
    now apply alive_handle.
Qed.

Lemma R_same_nodes : forall gL gR gL' gR', R gL gR ->
  nd gL' = nd gL -> nd gR' = nd gR -> cnt gL' = cnt gL -> cnt gR' = cnt gR ->
  nexts gL' = nexts gL -> nexts gR' = nexts gR ->
  pins gL' = pins gR' -> world gL' = world gR' ->
  (forall m, alive gL' m = true -> alive gL m = true) -> R gL' gR'.
Proof.
  intros gL gR gL' gR' H NL NR CL CR XL XR P Wd A.
  eapply (R_less gL gR); eauto; unfold slots; rewrite ?NL, ?NR;
    auto using inner_refl.
  - rewrite XL, XR. apply (r_nexts _ _ _ H).
  - apply (r_held _ _ _ H).
  - apply (r_heldn _ _ _ H).
  - apply (r_slots _ _ _ H).
  - apply (r_slotsn _ _ _ H).
  - apply (r_quietL _ _ _ H).
  - apply (r_quietR _ _ _ H).
Qed.

Lemma pin_R : forall m sL sR, RS sL sR -> wf (gr sL) -> alive (gr sL) m = true ->
  RS (pin m sL) (pin m sR).
Proof.
  intros m sL sR [H T] Hw A. split; [|exact T].
  apply (R_same_nodes (gr sL) (gr sR)); auto.
  - simpl. now rewrite (r_pins _ _ _ H).
  - apply (r_world _ _ _ H).
  - now apply am_pin.
Qed.
Lemma unpin_R : forall sL sR, RS sL sR -> wf (gr sL) -> RS (unpin sL) (unpin sR).
Proof.
  intros sL sR [H T] Hw. split; [|exact T].
  apply (R_same_nodes (gr sL) (gr sR)); auto.
  - simpl. now rewrite (r_pins _ _ _ H).
  - apply (r_world _ _ _ H).
  - now apply am_unpin.
Qed.
Lemma world_R : forall w sL sR, RS sL sR -> wf (gr sL) ->
  RS (with_gr sL (fun g => set_world g w)) (with_gr sR (fun g => set_world g w)).
Proof.
  intros w sL sR [H T] Hw. split; [|exact T].
  apply (R_same_nodes (gr sL) (gr sR)); auto.
  - apply (r_pins _ _ _ H).
  - apply am; auto.
Qed.

(** ** New nodes *)
Lemma ksame_arity : forall (k k' : kind V W) ps, ksame n k k' -> arity_ok k ps = arity_ok k' ps.
Proof. intros k k' ps K. destruct K; reflexivity. Qed.
Lemma ksame_root : forall (k k' : kind V W), ksame n k k' -> is_root k = is_root k'.
Proof. intros k k' K. destruct K; reflexivity. Qed.

Lemma initial_R : forall gL gR k k' ps d, R gL gR -> ksame n k k' ->
  (forall p, In p ps -> alive gL p = true) ->
  initial gL k ps d = initial gR k' ps d.
Proof.
  intros gL gR k k' ps d H K A. pose proof (current_from_R n _ _ ps H A) as E.
  destruct K; simpl; rewrite ?E, ?(r_world _ _ _ H); auto.
  destruct ps as [|p ps]; auto. f_equal. apply (vals_cur n _ _ p H). apply A. now left.
Qed.

Lemma new_R : forall k k' ps v sL sR, RS sL sR -> Inv changed (gr sL) ->
  (forall p, In p ps -> handle (gr sL) p = true) -> NoDup ps -> arity_ok k ps = true ->
  (forall down up x, k = KInner down up -> down (current_from (gr sL) ps) = Some x -> v = x) ->
  ksame n k k' -> wf (gr sR) ->
  RS (new_node k ps v sL) (new_node k' ps v sR).
Proof using changed_sound.
  intros k k' ps v sL sR [H T] HI Hp ND Ar Hv K WR. pose proof HI as [WL _].
  assert (HpR : forall p, In p ps -> handle (gr sR) p = true).
  { intros p I. eapply r_handle_le; eauto. }
  pose proof (r_cnt _ _ _ H) as C.
  destruct (add_rest changed changed_sound (gr sL) k ps v Hp ND) as (L1 & L2 & L3 & L4).
  destruct (add_rest changed changed_sound (gr sR) k' ps v HpR ND) as (R1 & R2 & R3 & R4).
  pose proof (add_nd_new changed changed_sound (gr sL) k ps v Hp ND) as NL.
  pose proof (add_nd_new changed changed_sound (gr sR) k' ps v HpR ND) as NR.
  pose proof (add_nd_old changed changed_sound (gr sL) k ps v Hp ND) as OL.
  pose proof (add_nd_old changed changed_sound (gr sR) k' ps v HpR ND) as OR.
  pose proof (add_alive_old changed changed_sound (gr sL) k ps v Hp ND HI Ar Hv) as AO.
  unfold new_node. split.
  2: { simpl. now rewrite T, C, (r_world _ _ _ H). }
  cbn [gr with_gr emit].
  set (gL := gr sL) in *. set (gR := gr sR) in *.
  set (gL' := add_node k ps v gL) in *. set (gR' := add_node k' ps v gR) in *.
  rewrite <- C in NR, OR.
  assert (CASE : forall m,
    (m = cnt gL /\ nd gL' m = Node k ps [] v v false false false false [] 1 [] /\
                   nd gR' m = Node k' ps [] v v false false false false [] 1 []) \/
    (m <> cnt gL /\ nd gL' m = (if mem m ps then set_children (children gL m ++ [cnt gL]) (nd gL m)
                                else nd gL m) /\
                    nd gR' m = (if mem m ps then set_children (children gR m ++ [cnt gL]) (nd gR m)
                                else nd gR m))).
  { intros m. destruct (Nat.eq_dec m (cnt gL)) as [->|N].
    - left. auto.
    - right. split; auto. }
  assert (HN : n_held (nd gL' n) <= n_held (nd gR' n)).
  { destruct (CASE n) as [(_ & -> & ->)|(_ & -> & ->)]; [auto|].
    destruct (mem n ps); simpl; apply (r_heldn _ _ _ H). }
  split.
  - congruence.
  - rewrite L2, R2. apply (r_nexts _ _ _ H).
  - rewrite L3, R3. apply (r_pins _ _ _ H).
  - rewrite L4, R4. apply (r_world _ _ _ H).
  - intros m. unfold parents. destruct (CASE m) as [(_ & -> & ->)|(_ & -> & ->)]; [auto|].
    destruct (mem m ps); simpl; apply (r_par _ _ _ H).
  - intros m. unfold kind_of. destruct (CASE m) as [(_ & -> & ->)|(_ & -> & ->)]; [auto|].
    destruct (mem m ps); simpl; apply (r_kind _ _ _ H).
  - intros m N. destruct (CASE m) as [(_ & -> & ->)|(_ & -> & ->)]; [auto|].
    destruct (mem m ps); simpl; now apply (r_held _ _ _ H).
  - exact HN.
  - intros m N. unfold slots. destruct (CASE m) as [(_ & -> & ->)|(_ & -> & ->)]; [constructor|].
    destruct (mem m ps); simpl; now apply (r_slots _ _ _ H).
  - intros x. unfold slots. destruct (CASE n) as [(_ & -> & ->)|(_ & -> & ->)]; [auto|].
    destruct (mem n ps); simpl; apply (r_slotsn _ _ _ H).
  - intros sl. unfold slots. destruct (CASE n) as [(_ & -> & _)|(_ & -> & _)]; [intros []|].
    destruct (mem n ps); simpl; apply (r_quietL _ _ _ H).
  - intros sl. unfold slots. destruct (CASE n) as [(_ & _ & ->)|(_ & _ & ->)]; [intros []|].
    destruct (mem n ps); simpl; apply (r_quietR _ _ _ H).
  - intros m A. destruct (CASE m) as [(_ & -> & ->)|(N & -> & ->)]; [repeat split|].
    assert (Lm : m < cnt gL).
    { assert (m < cnt gL'); [|lia]. apply (alive_cnt gL'); auto.
      apply (add_par_lt changed changed_sound gL k ps v Hp ND HI Ar Hv). }
    pose proof (r_vals _ _ _ H m (AO m Lm A)) as X.
    destruct (mem m ps); auto.
  - intros m A. destruct (CASE m) as [(_ & EL & ER)|(N & EL & ER)];
      unfold children; rewrite EL, ER; [reflexivity|].
    assert (Lm : m < cnt gL).
    { assert (m < cnt gL'); [|lia]. apply (alive_cnt gL'); auto.
      apply (add_par_lt changed changed_sound gL k ps v Hp ND HI Ar Hv). }
    pose proof (r_kids _ _ _ H m (AO m Lm A)) as X.
    assert (XX : filter (alive gL') (children gL m) = filter (alive gL') (children gR m)).
    { rewrite (filter_sub (alive gL)), X, <- (filter_sub (alive gL)); auto.
      - intros c Ic. apply AO. change (c < cnt gL). rewrite C. now apply (wf_kids _ WR m).
      - intros c Ic. apply AO. now apply (wf_kids _ WL m). }
    destruct (mem m ps); [|exact XX]. simpl. rewrite !filter_app. now rewrite XX.
Qed.

(** ** What is read *)
Lemma obs_R : forall sL sR, R (gr sL) (gr sR) -> obs_le n (get_obs sL) (get_obs sR).
Proof.
  intros sL sR H. unfold get_obs. split; [apply (r_cnt _ _ _ H)|].
  split; [apply (r_nexts _ _ _ H)|]. simpl. split.
  - intros m N. rewrite <- (r_handle n _ _ m H N).
    destruct (handle (gr sL) m) eqn:E; auto. f_equal. apply (vals_last n _ _ m H).
    now apply alive_handle.
  - destruct (handle (gr sL) n) eqn:E; auto. left. rewrite (r_handle_le n _ _ n H E).
    f_equal. apply (vals_last n _ _ n H). now apply alive_handle.
Qed.
Lemma readings_R : forall gL gR, R gL gR -> readings n gL = readings n gR.
Proof.
  intros gL gR H. unfold readings. rewrite (r_cnt _ _ _ H). apply map_ext. intros m.
  destruct (Nat.eqb_spec m n) as [->|N]; simpl; auto.
  rewrite <- (r_handle n _ _ m H N). destruct (handle gL m) eqn:E; auto. f_equal.
  apply (vals_last n _ _ m H). now apply alive_handle.
Qed.

Lemma collect_R : forall m sL sR (b b' : bool), RS sL sR ->
  RS (if b then with_gr sL (collect m) else sL) (if b' then with_gr sR (collect m) else sR).
Proof.
  intros m sL sR b b' [H T].
  assert (FE : forall (A B : nat -> bool) l, (forall x, A x = true -> B x = true) ->
     filter A (filter B l) = filter A l).
  { intros A B l HAB. symmetry. apply filter_sub. auto. }
  assert (KL : forall s (c : bool), skel (gr s) (gr (if c then with_gr s (collect m) else s))).
  { intros s []; [|apply skel_refl]. simpl. apply skel_upd. intros []; simpl; auto. }
  split; [|destruct b, b'; exact T].
  eapply (R_skel n (gr sL) (gr sR)); auto.
  - intros k A. pose proof (r_vals _ _ _ H k A) as X.
    destruct b, b'; simpl; auto; destruct (k =? m); auto.
  - intros k A. pose proof (r_kids _ _ _ H k A) as X. unfold children in *.
    assert (ER : filter (alive (gr sL)) (filter (alive (gr sR)) (n_children (nd (gr sR) k))) =
                 filter (alive (gr sL)) (n_children (nd (gr sR) k))).
    { apply FE. intros x. now apply (r_alive n). }
    assert (EL : filter (alive (gr sL)) (filter (alive (gr sL)) (n_children (nd (gr sL) k))) =
                 filter (alive (gr sL)) (n_children (nd (gr sL) k))) by (apply FE; auto).
    destruct b, b'; simpl; auto; destruct (Nat.eqb_spec k m); subst; simpl; unfold children;
      rewrite ?ER, ?EL; auto.
Qed.

End DropCmd.
