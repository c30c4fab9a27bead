(** C16, part 2: executions with enough fuel, and notifications nobody hears. *)
From Coq Require Import List Arith Bool Lia.
From Verif Require Import NodesModel NodesBase NodesDropSpec NodesDrop.
Import ListNotations.

Section DropRun.
Context {V W : Type}.
Variable changed : V -> V -> bool.
Variable ordV : graph V W -> nat -> list (nat * V) -> list (nat * V).
Variable ordN : graph V W -> nat -> list nat -> list nat.
Variable n : nat.

Set Default Proof Using "Type".
Implicit Types g : graph V W.
Implicit Types s : st V W.

Notation exec := (exec changed ordV ordN).
Notation trace := (trace (V:=V) (W:=W) n).

Definition runs (t : task V W) s (r : res V W) : Prop :=
  exists f, forall f', f <= f' -> exec f' t s = r.

(** ** Watchers that do nothing *)
Definition from_count (from : nat) (l : list (slot V W)) : nat :=
  length (filter (fun sl => from <=? fst sl) l).
Lemma from_count_le : forall l a b, a <= b -> from_count b l <= from_count a l.
Proof.
  unfold from_count. induction l as [|sl l IH]; intros a b L; simpl; auto.
  specialize (IH a b L).
  destruct (Nat.leb_spec b (fst sl)), (Nat.leb_spec a (fst sl)); simpl; lia.
Qed.
Lemma from_count_next : forall l from sid cb, next_slot from l = Some (sid, cb) ->
  from_count (S sid) l < from_count from l.
Proof.
  unfold next_slot. induction l as [|sl l IH]; intros from sid cb H; simpl in *; [discriminate|].
  unfold from_count in *. cbn [filter].
  destruct (Nat.leb_spec from (fst sl)) as [L|L].
  - injection H as ->. simpl in L.
    assert (E : (S sid <=? fst (sid, cb)) = false) by (apply Nat.leb_gt; simpl; lia).
    rewrite E. pose proof (from_count_le l from (S sid)) as M. unfold from_count in M.
    cbn [length]. lia.
  - specialize (IH _ _ _ H). pose proof H as H'. apply find_some in H' as [_ H'].
    apply Nat.leb_le in H'. simpl in H'.
    destruct (Nat.leb_spec (S sid) (fst sl)); [lia|]. exact IH.
Qed.

Lemma next_in : forall from (l : list (slot V W)) sid cb,
  next_slot from l = Some (sid, cb) -> In (sid, cb) l.
Proof. unfold next_slot. intros. now apply find_some in H. Qed.

Lemma quiet_slots : forall k m from s, from_count from (slots (gr s) m) < k ->
  alive (gr s) m = true ->
  (forall sl, In sl (slots (gr s) m) -> m = n /\ quiet (snd sl)) ->
  exists s', runs (TSlots m from) s (Done s') /\ gr s' = gr s /\
             trace (log s') = trace (log s).
Proof.
  induction k as [|k IH]; intros m from s L A Q; [lia|].
  destruct (next_slot from (slots (gr s) m)) as [[sid cb]|] eqn:E.
  - pose proof (from_count_next _ _ _ _ E) as L2. pose proof (next_in _ _ _ _ E) as Hin.
    destruct (Q _ Hin) as [-> Qc]. simpl in Qc.
    set (s1 := emit (ECall n sid (last (gr s) n) (gr s)) s).
    destruct (IH n (S sid) s1) as (s' & (f & F) & G & T); auto; [simpl; lia|].
    exists s'. split; [|split; [exact G|]].
    + exists (S (S f)). intros f' Lf. destruct f' as [|[|f']]; [lia|lia|].
      cbn [NodesModel.exec]. rewrite E. fold s1. rewrite Qc. cbn match.
      change (gr s1) with (gr s). rewrite A.
      match goal with |- (if ?b then _ else _) = _ => replace b with true end.
      { apply (F (S f')). lia. }
      symmetry. apply existsb_exists. exists (sid, cb). split; auto. apply Nat.eqb_refl.
    + rewrite T. unfold s1. simpl. now rewrite Nat.eqb_refl.
  - exists s. repeat split; auto. exists 1. intros f' Lf. destruct f'; [lia|].
    cbn [NodesModel.exec]. now rewrite E.
Qed.

Lemma quiet_slots_left : forall f from s r, exec f (TSlots n from) s = r -> finished r ->
  (forall sl, In sl (slots (gr s) n) -> quiet (snd sl)) ->
  exists s', r = Done s' /\ gr s' = gr s /\ trace (log s') = trace (log s).
Proof.
  induction f as [|f IH]; intros from s r H F Q; [subst; destruct F|].
  cbn [NodesModel.exec] in H.
  destruct (next_slot from (slots (gr s) n)) as [[sid cb]|] eqn:E.
  - pose proof (next_in _ _ _ _ E) as Hin. pose proof (Q _ Hin) as Qc. simpl in Qc.
    rewrite Qc in H. set (s1 := emit (ECall n sid (last (gr s) n) (gr s)) s) in *.
    assert (X : exec f (TProg PRet) s1 = OutOfFuel \/ exec f (TProg PRet) s1 = Done s1)
      by (destruct f; auto).
    destruct X as [X|X]; rewrite X in H; [subst; destruct F|].
    destruct (alive (gr s1) n).
    + destruct (existsb _ _); [|subst; destruct F].
      destruct (IH (S sid) s1 r H F Q) as (s' & -> & G & T).
      exists s'. split; auto. split; auto. rewrite T. unfold s1. simpl.
      now rewrite Nat.eqb_refl.
    + unfold gone in H. destruct (is_root _); subst; destruct F.
  - subst. exists s. auto.
Qed.

(** ** A notification in a part of the graph where nobody listens *)
Lemma alive_more_pins : forall g c m, alive g m = true ->
  alive (set_pins g (c :: pins g)) m = true.
Proof.
  intros g c m H. unfold alive in *. apply existsb_exists in H as (k & K1 & K2).
  apply existsb_exists. exists k. split; auto.
  apply andb_true_iff in K2 as [K2 K3]. apply andb_true_iff. split.
  - apply orb_true_iff in K2 as [K2|K2]; apply orb_true_iff; [left; exact K2|].
    right. simpl. rewrite K2. apply orb_true_r.
  - rewrite <- K3. now apply ancb_ext.
Qed.

Variable Q : nat -> Prop.

Record region g : Prop := {
  rg_kids : forall m c, Q m -> In c (children g m) -> Q c /\ m < c /\ c < cnt g;
  rg_slots : forall m sl, Q m -> In sl (slots g m) -> m = n /\ quiet (snd sl)
}.

Record unheard (d : nat) s s' : Prop := {
  uh_skel : skel (gr s) (gr s');
  uh_rest : forall m, ~ (Q m /\ d <= m) -> nd (gr s') m = nd (gr s) m;
  uh_kids : forall m, incl (children (gr s') m) (children (gr s) m);
  uh_trace : trace (log s') = trace (log s)
}.
Lemma unheard_refl : forall d s, unheard d s s.
Proof. intros; split; auto using skel_refl. intros m x; auto. Qed.
Lemma unheard_trans : forall d a b c, unheard d a b -> unheard d b c -> unheard d a c.
Proof.
  intros d a b c [A1 A2 A3 A4] [B1 B2 B3 B4]. split.
  - eapply skel_trans; eauto.
  - intros m N. rewrite B2, A2; auto.
  - intros m x Hx. apply A3, B3, Hx.
  - congruence.
Qed.
Lemma unheard_le : forall d c s s', d <= c -> unheard c s s' -> unheard d s s'.
Proof.
  intros d c s s' L [A1 A2 A3 A4]. split; auto. intros m N. apply A2.
  intros [Qm Lm]. apply N. split; auto. lia.
Qed.
Lemma region_unheard : forall d s s', unheard d s s' -> region (gr s) -> region (gr s').
Proof.
  intros d s s' [A1 A2 A3 A4] [B1 B2]. split.
  - intros m c Qm Hc. rewrite (sk_cnt _ _ A1). apply B1; auto. now apply A3.
  - intros m sl Qm. rewrite (sk_slots _ _ A1). now apply B2.
Qed.
Lemma unheard_upd : forall d s h, Q d ->
  (forall a, n_kind (h a) = n_kind a /\ n_parents (h a) = n_parents a /\
     n_held (h a) = n_held a /\ n_slots (h a) = n_slots a) ->
  incl (n_children (h (nd (gr s) d))) (n_children (nd (gr s) d)) ->
  unheard d s (with_gr s (fun g => upd g d h)).
Proof.
  intros d s h Qd H I. split; auto.
  - now apply skel_upd.
  - intros m N. simpl. destruct (Nat.eqb_spec m d); auto. subst. exfalso. apply N. auto.
  - intros m. unfold children. simpl. destruct (Nat.eqb_spec m d).
    + now subst.
    + apply incl_refl.
Qed.

Lemma quiet_kids : forall d N, Q d ->
  (forall c s, d < c -> cnt (gr s) = N -> c < N -> region (gr s) -> Q c -> alive (gr s) c = true ->
     exists s', runs (TNotify c) s (Done s') /\ unheard c s s') ->
  forall j i size garbage old s, size - i = j -> size <= length (children (gr s) d) ->
    cnt (gr s) = N -> region (gr s) -> alive (gr s) d = true ->
    exists s', runs (TKids d i size garbage old) s (Done s') /\ unheard d s s'.
Proof.
  intros d N0 Qd IH. induction j as [|j IHj]; intros i size garbage old s E L CN G A.
  - exists (if garbage && negb old then with_gr s (collect d) else s). split.
    + exists 1. intros [|f'] Lf; [lia|]. cbn [NodesModel.exec].
      assert (X : (i <? size) = false) by (apply Nat.ltb_ge; lia). now rewrite X.
    + destruct (garbage && negb old); [|apply unheard_refl].
      split; [| | |reflexivity].
      * apply skel_upd. intros a. repeat split.
      * intros m N. unfold collect. simpl. destruct (Nat.eqb_spec m d); auto.
        subst. exfalso. apply N. auto.
      * intros m. unfold children, collect. simpl.
        destruct (Nat.eqb_spec m d); [|apply incl_refl].
        subst. simpl. intros x Hx. now apply filter_In in Hx.
  - assert (X : (i <? size) = true) by (apply Nat.ltb_lt; lia).
    destruct (nth_error (children (gr s) d) i) as [c|] eqn:Ec;
      [|apply nth_error_None in Ec; lia].
    pose proof (nth_error_In _ _ Ec) as Hc.
    destruct (rg_kids _ G d c Qd Hc) as (Qc & Lc & Cc).
    destruct (alive (gr s) c) eqn:Ac.
    + destruct (IH c (pin c s)) as (s1 & (f1 & F1) & U1); auto.
      * now rewrite <- CN.
      * destruct G as [G1 G2]. split; auto.
      * now apply alive_more_pins.
      * assert (U2 : unheard c s (unpin s1)).
        { destruct U1 as [[K1 K2 K3 K4 K5 K6 K7 K8] A2 A3 A4]. split; auto. split; auto.
          simpl. now rewrite K3. }
        assert (K2 : nd (gr (unpin s1)) d = nd (gr s) d).
        { apply (uh_rest _ _ _ U2). intros [_ Y]. lia. }
        assert (A2 : alive (gr (unpin s1)) d = true).
        { now rewrite (skel_alive _ _ _ (uh_skel _ _ _ U2)). }
        destruct (IHj (S i) size garbage old (unpin s1)) as (s2 & (f2 & F2) & U3); auto.
        { lia. }
        { unfold children. now rewrite K2. }
        { now rewrite (sk_cnt _ _ (uh_skel _ _ _ U2)). }
        { eapply region_unheard; eauto. }
        exists s2. split.
        -- exists (S (max f1 f2)). intros [|f'] Lf; [lia|]. cbn [NodesModel.exec].
           rewrite X, Ec, Ac, F1 by lia. cbn [finally andthen]. rewrite A2. apply F2. lia.
        -- eapply unheard_trans; [|exact U3]. apply unheard_le with c; auto. lia.
    + destruct (IHj (S i) size true old s) as (s2 & (f2 & F2) & U3); auto; [lia|].
      exists s2. split; auto. exists (S f2). intros [|f'] Lf; [lia|]. cbn [NodesModel.exec].
      rewrite X, Ec, Ac. apply F2. lia.
Qed.

Lemma quiet_notify : forall k d s, cnt (gr s) - d < k -> region (gr s) -> Q d ->
  alive (gr s) d = true ->
  exists s', runs (TNotify d) s (Done s') /\ unheard d s s'.
Proof.
  induction k as [|k IH]; intros d s L G Qd A; [lia|].
  destruct (nn (gr s) d && negb (nsd (gr s) d)) eqn:E.
  2: { exists s. split; [|apply unheard_refl]. exists 1. intros [|f'] Lf; [lia|].
       cbn [NodesModel.exec]. rewrite A, E. reflexivity. }
  set (s1 := with_gr s (fun g => upd g d (fun a => set_ntf true (set_nn false a)))).
  assert (U1 : unheard d s s1).
  { apply unheard_upd; [auto|intros []; simpl; auto|apply incl_refl]. }
  assert (G1 : region (gr s1)) by (eapply region_unheard; eauto).
  assert (A1 : alive (gr s1) d = true) by (now rewrite (skel_alive _ _ _ (uh_skel _ _ _ U1))).
  destruct (quiet_slots _ d 0 s1 (Nat.lt_succ_diag_r _) A1) as (s2 & (f2 & F2) & E2 & T2).
  { intros sl Hsl. eapply rg_slots; eauto. }
  assert (U2 : unheard d s1 s2).
  { split; rewrite ?E2; auto using skel_refl. intros m; apply incl_refl. }
  assert (G2 : region (gr s2)) by (eapply region_unheard; eauto).
  assert (A2 : alive (gr s2) d = true) by (now rewrite E2).
  assert (C2 : cnt (gr s2) = cnt (gr s)) by (rewrite E2; apply (sk_cnt _ _ (uh_skel _ _ _ U1))).
  destruct (quiet_kids d (cnt (gr s)) Qd) with (j := length (children (gr s2) d) - 0) (i := 0)
    (size := length (children (gr s2) d)) (garbage := false) (old := ntf (gr s) d) (s := s2)
    as (s3 & (f3 & F3) & U3); auto.
  { intros c a Lc Ca Cc Ga Qc Aa. apply IH; auto. lia. }
  exists (with_gr s3 (fun g => upd g d (set_ntf (ntf (gr s) d)))). split.
  - exists (S (max f2 f3)). intros [|f'] Lf; [lia|]. cbn [NodesModel.exec].
    rewrite A, E. cbn [negb]. fold s1. rewrite F2 by lia. cbn [andthen].
    rewrite F3 by lia. reflexivity.
  - eapply unheard_trans; [exact U1|]. eapply unheard_trans; [exact U2|].
    eapply unheard_trans; [exact U3|].
    apply unheard_upd; [auto|intros []; simpl; auto|apply incl_refl].
Qed.

End DropRun.
