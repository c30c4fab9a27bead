(** Readers with a single source: exactly what propagation does to them. *)
From Coq Require Import List Arith Bool Lia.
From Verif Require Import NodesModel NodesSpec NodesTrackSpec NodesBase NodesInv NodesExec NodesEv NodesRoots.
Import ListNotations.

Section Track.
Context {V W : Type}.
Variable changed : V -> V -> bool.
Hypothesis changed_sound : forall a b, changed a b = false -> a = b.
Variable ordN : graph V W -> nat -> list nat -> list nat.
Hypothesis ordN_in : forall g n l x, In x (ordN g n l) -> In x l.
Set Default Proof Using "Type changed_sound".
Implicit Types g : graph V W.
Implicit Types s : st V W.
Notation step := (step changed ordN).
Notation steps := (steps changed ordN).

(** ** What one visit does *)
Definition out (k : kind V W) (h : list (list V)) (v old : V) : V :=
  match k with
  | KInner down _ => match down [v] with Some x => x | None => old end
  | KXform f _ => List.last (f h [v]) old
  | KSetter _ _ => v
  | _ => old
  end.
Definition hist_after (k : kind V W) (vs : list V) (h : list (list V)) : list (list V) :=
  match k with KXform _ _ => map (fun x => [x]) vs ++ h | _ => h end.
Fixpoint follow (k : kind V W) (h : list (list V)) (vs : list V) (v0 : V) : V :=
  match vs with
  | [] => v0
  | v :: vs' => out k (hist_after k vs' h) v (follow k h vs' v0)
  end.
Definition setter (k : kind V W) : bool := match k with KSetter _ _ => true | _ => false end.

Lemma hist_app : forall k a b h, hist_after k (a ++ b) h = hist_after k a (hist_after k b h).
Proof using Type. intros [] a b h; simpl; auto. now rewrite map_app, app_assoc. Qed.
Lemma follow_app : forall k h a b v,
  follow k h (a ++ b) v = follow k (hist_after k b h) a (follow k h b v).
Proof using Type. intros k h a b v. induction a as [|x a IH]; simpl; auto. now rewrite hist_app, IH. Qed.

Definition P g n : Prop :=
  n_rcp (nd g n) = false /\ (nsd g n = false -> last g n = cur g n) /\
  (setter (kind_of g n) = false -> nsd g n = false).

Lemma nd_push_other : forall n v g m, m <> n -> nd (push_down changed n v g) m = nd g m.
Proof using Type.
  intros n v g m N. unfold push_down. destruct (changed _ _); auto. now apply nd_upd_other.
Qed.
Lemma nd_push_all_other : forall n vs g m, m <> n -> nd (push_all changed n vs g) m = nd g m.
Proof using Type.
  intros n vs. unfold push_all. induction vs as [|v vs IH]; intros g m N; simpl; auto.
  rewrite IH by auto. now apply nd_push_other.
Qed.
Lemma nd_recompute_other : forall n g m, m <> n -> nd (recompute changed n g) m = nd g m.
Proof using Type.
  intros n g m N. unfold recompute. destruct (kind_of g n); auto.
  - now apply nd_push_other.
  - destruct (down _); auto. now apply nd_push_other.
  - rewrite nd_push_all_other by auto. now apply nd_upd_other.
  - destruct (n_rcp _); [now apply nd_upd_other|]. destruct (parents g n); auto.
    now apply nd_push_other.
Qed.

Lemma push_down_quiet : forall n v g, n_rcp (nd (push_down changed n v g) n) = n_rcp (nd g n) /\
  n_hist (nd (push_down changed n v g) n) = n_hist (nd g n).
Proof using Type.
  intros. unfold push_down. destruct (changed _ _); auto. rewrite nd_upd_same. auto.
Qed.
Lemma last_ne : forall A (l : list A) a d d', List.last (a :: l) d = List.last (a :: l) d'.
Proof using Type. induction l as [|b l IH]; intros a d d'; [reflexivity|]. exact (IH b d d'). Qed.
Lemma push_all_quiet : forall n vs g, n_rcp (nd (push_all changed n vs g) n) = n_rcp (nd g n) /\
  n_hist (nd (push_all changed n vs g) n) = n_hist (nd g n) /\
  cur (push_all changed n vs g) n = List.last vs (cur g n).
Proof.
  intros n vs. unfold push_all. induction vs as [|v vs IH]; intros g; simpl; auto.
  destruct (IH (push_down changed n v g)) as (-> & -> & ->).
  destruct (push_down_quiet n v g) as (-> & ->). split; auto. split; auto.
  rewrite (push_down_cur changed changed_sound). destruct vs; auto. apply last_ne.
Qed.

Lemma recompute_one : forall g n p, parents g n = [p] -> is_root (kind_of g n) = false ->
  n_rcp (nd g n) = false ->
  let g1 := recompute changed n g in
  cur g1 n = out (kind_of g n) (n_hist (nd g n)) (cur g p) (cur g n) /\
  n_rcp (nd g1 n) = false /\
  n_hist (nd g1 n) = hist_after (kind_of g n) [cur g p] (n_hist (nd g n)).
Proof.
  intros g n p HP HR HC. cbv zeta. unfold recompute. rewrite HP. unfold current_from. cbn [map].
  destruct (kind_of g n) eqn:K; try discriminate; cbn [out hist_after].
  - destruct (down [cur g p]) as [x|]; auto.
    destruct (push_down_quiet n x g) as (-> & ->). rewrite (push_down_cur changed changed_sound). auto.
  - destruct (push_all_quiet n (step (n_hist (nd g n)) [cur g p])
      (upd g n (set_hist ([cur g p] :: n_hist (nd g n))))) as (-> & -> & ->).
    unfold cur. rewrite !nd_upd_same. auto.
  - rewrite HC. destruct (push_down_quiet n (cur g p) g) as (-> & ->).
    rewrite (push_down_cur changed changed_sound). auto.
Qed.

(** ** Nodes before the start are not touched *)
Lemma shown_app : forall (l l' : list (event V W)) p, shown (l ++ l') p = shown l p ++ shown l' p.
Proof using Type.
  induction l as [|e l IH]; intros l' p; simpl; auto. destruct e; auto.
  destruct (n =? p); simpl; now rewrite IH.
Qed.
Lemma shown_sample : forall n s p, shown (sample n s) p = shown (log s) p.
Proof using Type. intros. unfold sample. destruct (kind_of (gr s) n); auto. Qed.

Lemma send_small : forall f m s q, wf (gr s) -> q < m ->
  nd (gr (send_down changed f m s)) q = nd (gr s) q /\
  shown (log (send_down changed f m s)) q = shown (log s) q.
Proof.
  induction f as [|f IH]; intros m s q Wf L; simpl; auto.
  pose proof (wf_recompute changed changed_sound _ m Wf) as W1.
  assert (E1 : nd (recompute changed m (gr s)) q = nd (gr s) q) by (apply nd_recompute_other; lia).
  set (g1 := recompute changed m (gr s)) in *. clearbody g1.
  destruct (nsd g1 m) eqn:E; simpl; [|rewrite shown_sample; auto].
  assert (Lm : m < cnt g1).
  { destruct (Nat.lt_ge_cases m (cnt g1)) as [Lm|Lm]; auto.
    destruct (wf_out _ W1 m Lm) as (_&_&_&_&A&_). congruence. }
  pose proof (wf_sent changed changed_sound _ m W1 Lm) as W2.
  assert (HF : forall cs (a : st V W), wf (gr a) -> (forall c, In c cs -> m < c) ->
    let b := fold_left (fun s0 c => if alive (gr s0) c then send_down changed f c s0 else s0) cs a in
    nd (gr b) q = nd (gr a) q /\ shown (log b) q = shown (log a) q).
  { induction cs as [|c cs IHc]; intros a Wa Hc; [simpl; auto|]. cbv zeta. simpl.
    assert (Hcs : forall c', In c' cs -> m < c') by (intros c' Hc'; apply Hc; now right).
    assert (Lc : m < c) by (apply Hc; now left).
    destruct (alive (gr a) c); [|now apply IHc].
    destruct (IHc (send_down changed f c a)) as (-> & ->); auto.
    - now apply wf_send_down.
    - apply IH; auto. lia. }
  assert (EC : children (upd g1 m set_sent) m = children g1 m).
  { unfold children. now rewrite nd_upd_same. }
  rewrite EC.
  match goal with |- context [fold_left _ ?cs ?a] => destruct (HF cs a) as (-> & ->) end.
  - exact W2.
  - intros c Hc. destruct (wf_kids _ W1 _ _ Hc) as [_ Hp]. now apply (wf_par _ W1) in Hp.
  - simpl. rewrite (proj2 (Nat.eqb_neq q m)) by lia.
    rewrite (proj2 (Nat.eqb_neq m q)) by lia. rewrite shown_sample. auto.
Qed.

(** What is shown is what was sent last. *)
Lemma send_last : forall f m s q, exists vs,
  shown (log (send_down changed f m s)) q = vs ++ shown (log s) q /\
  last (gr (send_down changed f m s)) q = hd (last (gr s) q) vs.
Proof using Type.
  induction f as [|f IH]; intros m s q; simpl; [exists []; auto|].
  assert (E1 : last (recompute changed m (gr s)) q = last (gr s) q)
    by apply (fc_last _ _ _ (fc_recompute changed m (gr s))).
  set (g1 := recompute changed m (gr s)) in *. clearbody g1.
  destruct (nsd g1 m) eqn:E; simpl; [|rewrite shown_sample; exists []; auto].
  assert (HF : forall cs (a : st V W), exists vs,
    let b := fold_left (fun s0 c => if alive (gr s0) c then send_down changed f c s0 else s0) cs a in
    shown (log b) q = vs ++ shown (log a) q /\ last (gr b) q = hd (last (gr a) q) vs).
  { induction cs as [|c cs IHc]; intros a; [exists []; auto|]. cbv zeta. simpl.
    destruct (alive (gr a) c); [|now apply IHc].
    destruct (IHc (send_down changed f c a)) as (v1 & E2 & E3).
    destruct (IH c a q) as (v2 & E4 & E5). exists (v1 ++ v2).
    rewrite E2, E3, E4, E5, app_assoc. split; auto. destruct v1; auto. }
  match goal with |- context [fold_left _ ?cs ?a] => destruct (HF cs a) as (vs & E2 & E3) end.
  rewrite E2, E3. simpl. destruct (Nat.eqb_spec m q) as [->|N].
  - exists (vs ++ [last (upd g1 q set_sent) q]). rewrite shown_sample, <- app_assoc. split; auto.
    destruct vs; auto.
  - exists vs. rewrite shown_sample. split; auto. unfold last at 1. simpl.
    rewrite (proj2 (Nat.eqb_neq q m)) by auto. fold (last g1 q). now rewrite E1.
Qed.

(** ** What a visit does to a node with a single source *)
Lemma visit_one : forall f n p s, wf (gr s) -> parents (gr s) n = [p] ->
  is_root (kind_of (gr s) n) = false -> P (gr s) n ->
  let s' := send_down changed (S f) n s in
  P (gr s') n /\ shown (log s') p = shown (log s) p /\
  last (gr s') n = out (kind_of (gr s) n) (n_hist (nd (gr s) n)) (cur (gr s) p) (last (gr s) n) /\
  n_hist (nd (gr s') n) = hist_after (kind_of (gr s) n) [cur (gr s) p] (n_hist (nd (gr s) n)).
Proof.
  intros f n p s Wf HP HR (P1 & P2 & P3). cbv zeta.
  assert (Lp : p < n) by (apply (wf_par _ Wf); rewrite HP; now left).
  rewrite (proj2 (send_small (S f) n s p Wf Lp)).
  pose proof (wf_recompute changed changed_sound _ n Wf) as W1.
  destruct (recompute_one (gr s) n p HP HR P1) as (R1 & R2 & R3).
  pose proof (fc_recompute changed n (gr s)) as F.
  pose proof (ss_kind _ _ (fc_ss _ _ _ F) n) as FK.
  assert (EO : out (kind_of (gr s) n) (n_hist (nd (gr s) n)) (cur (gr s) p) (last (gr s) n) =
               out (kind_of (gr s) n) (n_hist (nd (gr s) n)) (cur (gr s) p) (cur (gr s) n)).
  { destruct (setter (kind_of (gr s) n)) eqn:ES.
    - destruct (kind_of (gr s) n); try discriminate. reflexivity.
    - now rewrite (P2 (P3 eq_refl)). }
  rewrite EO, <- R1. clear EO. cbn [send_down].
  assert (HL : nsd (recompute changed n (gr s)) n = false ->
     last (recompute changed n (gr s)) n = cur (recompute changed n (gr s)) n).
  { intros E. rewrite (fc_last _ _ _ F), (fc_unch _ _ _ F E). apply P2.
    now apply (recompute_nsd_cur changed). }
  set (g1 := recompute changed n (gr s)) in *. clearbody g1.
  destruct (nsd g1 n) eqn:E; cbn [gr log].
  - assert (HF : forall cs (a : st V W), wf (gr a) -> (forall c, In c cs -> n < c) ->
      nd (gr (fold_left (fun s0 c => if alive (gr s0) c then send_down changed f c s0 else s0) cs a)) n
      = nd (gr a) n).
    { induction cs as [|c cs IHc]; intros a Wa Hc; [simpl; auto|]. simpl.
      assert (Hcs : forall c', In c' cs -> n < c') by (intros c' Hc'; apply Hc; now right).
      assert (Lc : n < c) by (apply Hc; now left).
      destruct (alive (gr a) c); [|now apply IHc].
      rewrite IHc; auto; [|now apply wf_send_down].
      apply send_small; auto. }
    assert (Lm : n < cnt g1).
    { destruct (Nat.lt_ge_cases n (cnt g1)) as [Lm|Lm]; auto.
      destruct (wf_out _ W1 n Lm) as (_&_&_&_&A&_). congruence. }
    match goal with |- context [fold_left ?F ?cs ?a] =>
      assert (EF : nd (gr (fold_left F cs a)) n = nd (gr a) n) end.
    { apply HF; [now apply (wf_sent changed changed_sound)|].
      intros c Hc. unfold children in Hc. rewrite nd_upd_same in Hc.
      destruct (wf_kids _ W1 n c Hc) as [_ Hp]. now apply (wf_par _ W1) in Hp. }
    match goal with |- context [fold_left ?F ?cs ?a] => set (b := fold_left F cs a) in * end.
    clearbody b. cbn [gr] in EF. unfold P, last, cur, nsd, kind_of. rewrite !EF.
    cbn [gr]. rewrite nd_upd_same. simpl. auto.
  - split; [|split; auto]. unfold P. split; auto.
Qed.

Lemma send_track : forall f m s n p, wf (gr s) -> parents (gr s) n = [p] ->
  is_root (kind_of (gr s) n) = false -> alive (gr s) n = true -> NoDup (children (gr s) p) ->
  n <> m -> cnt (gr s) < f + m -> P (gr s) n ->
  let s' := send_down changed f m s in
  exists vs, shown (log s') p = vs ++ shown (log s) p /\ P (gr s') n /\
    last (gr s') n = follow (kind_of (gr s) n) (n_hist (nd (gr s) n)) vs (last (gr s) n) /\
    n_hist (nd (gr s') n) = hist_after (kind_of (gr s) n) vs (n_hist (nd (gr s) n)).
Proof.
  induction f as [|f IH]; intros m s n p Wf HP HR HA HN N L HPn; cbv zeta.
  { simpl. exists []. simpl. split; auto. split; auto. split; auto. destruct (kind_of _ _); auto. }
  cbn [send_down].
  pose proof (wf_recompute changed changed_sound _ m Wf) as W1.
  pose proof (fc_ss _ _ _ (fc_recompute changed m (gr s))) as S1.
  assert (E1 : nd (recompute changed m (gr s)) n = nd (gr s) n) by (apply nd_recompute_other; lia).
  set (g1 := recompute changed m (gr s)) in *. clearbody g1.
  destruct (nsd g1 m) eqn:E; cbn [gr log].
  2: { exists []. rewrite shown_sample. unfold P, last, cur, nsd, kind_of. rewrite E1. simpl.
       split; auto. split; auto. split; auto. destruct (n_kind _); auto. }
  assert (Lm : m < cnt g1).
  { destruct (Nat.lt_ge_cases m (cnt g1)) as [Lm|Lm]; auto.
    destruct (wf_out _ W1 m Lm) as (_&_&_&_&A&_). congruence. }
  pose proof (wf_sent changed changed_sound _ m W1 Lm) as W2.
  pose proof (ss_trans _ _ _ S1 (ss_set_sent g1 m)) as S2.
  assert (HF : forall cs (a : st V W), wf (gr a) -> same_struct (gr s) (gr a) -> P (gr a) n ->
    (forall c, In c cs -> m < c /\ c <> n) -> exists vs,
    let b := fold_left (fun s0 c => if alive (gr s0) c then send_down changed f c s0 else s0) cs a in
    wf (gr b) /\ same_struct (gr s) (gr b) /\
    shown (log b) p = vs ++ shown (log a) p /\ P (gr b) n /\
    last (gr b) n = follow (kind_of (gr s) n) (n_hist (nd (gr a) n)) vs (last (gr a) n) /\
    n_hist (nd (gr b) n) = hist_after (kind_of (gr s) n) vs (n_hist (nd (gr a) n)) /\
    (m = p -> cur (gr b) p = cur (gr a) p /\ vs = [])).
  { induction cs as [|c cs IHc]; intros a Wa Sa Pa Hc; cbv zeta.
    - exists []. simpl. split; auto. split; auto. split; auto. split; auto. split; auto.
      split; auto. destruct (kind_of _ _); auto.
    - cbn [fold_left].
      assert (Hcs : forall c', In c' cs -> m < c' /\ c' <> n) by (intros c' Hc'; apply Hc; now right).
      destruct (Hc c (or_introl eq_refl)) as [Lc Nc].
      destruct (alive (gr a) c); [|now apply IHc].
      destruct (IH c a n p Wa) as (v2 & A1 & A2 & A3 & A4); auto.
      + now rewrite (ss_parents _ _ Sa).
      + now rewrite (ss_kind _ _ Sa).
      + now rewrite (alive_struct _ _ _ Sa).
      + now rewrite (ss_children _ _ Sa).
      + rewrite (ss_cnt _ _ Sa). lia.
      + pose proof (ss_trans _ _ _ Sa (fs_ss _ _ (fs_send_down changed f c a))) as Sb.
        destruct (IHc (send_down changed f c a)) as (v1 & B0 & B1 & B2 & B3 & B4 & B5 & B6); auto.
        { now apply wf_send_down. }
        exists (v1 ++ v2). rewrite B2, B4, B5, A1, A3, A4, app_assoc, follow_app, hist_app.
        rewrite (ss_kind _ _ Sa).
        split; auto. split; auto. split; auto. split; auto. split; auto. split; auto.
        intros ->. destruct (B6 eq_refl) as [B7 ->]. rewrite B7.
        destruct (send_small f c a p Wa Lc) as [C1 C2]. unfold cur. rewrite C1. split; auto.
        rewrite C2 in A1. simpl. symmetry. apply (app_inv_tail (shown (log a) p)). exact A1. }
  assert (EC : children (upd g1 m set_sent) m = children g1 m).
  { unfold children. now rewrite nd_upd_same. }
  rewrite EC. set (a0 := St (upd g1 m set_sent) (ESend m (last (upd g1 m set_sent) m) :: sample m s)).
  assert (EN : nd (gr a0) n = nd (gr s) n) by (simpl; rewrite (proj2 (Nat.eqb_neq n m)); auto).
  assert (P0 : P (gr a0) n) by (unfold P, last, cur, nsd, kind_of; rewrite EN; exact HPn).
  assert (L0 : last (gr a0) n = last (gr s) n) by (unfold last; now rewrite EN).
  assert (Hk : forall c, In c (children g1 m) -> m < c).
  { intros c Hc. destruct (wf_kids _ W1 _ _ Hc) as [_ Hp]. now apply (wf_par _ W1) in Hp. }
  destruct (Nat.eq_dec m p) as [->|Np].
  - assert (Hin : In n (children g1 p)).
    { rewrite (ss_children _ _ S1). apply (wf_link _ Wf); auto. rewrite HP. now left. }
    pose proof HN as HN'. rewrite <- (ss_children _ _ S1) in HN'.
    apply in_split in Hin as (l1 & l2 & EL). rewrite EL in HN', Hk |- *.
    apply NoDup_remove_2 in HN'. rewrite fold_left_app. cbn [fold_left].
    destruct (HF l1 a0) as (v1 & B0 & B1 & B2 & B3 & B4 & B5 & B6); auto.
    { intros c Hc. split; [apply Hk; apply in_app_iff; auto|].
      intros ->. apply HN'. apply in_app_iff. auto. }
    destruct (B6 eq_refl) as [B7 ->]. clear B6.
    set (a1 := fold_left _ l1 a0) in *. clearbody a1.
    rewrite (alive_struct _ _ _ B1), HA.
    assert (Ln : n < cnt (gr s)) by (apply alive_cnt; [apply (wf_par _ Wf)|auto]).
    assert (Lpn : p < n) by (apply (wf_par _ Wf); rewrite HP; now left).
    destruct f as [|f]; [lia|].
    destruct (visit_one f n p a1 B0) as (C1 & C2 & C3 & C4); auto.
    { now rewrite (ss_parents _ _ B1). }
    { now rewrite (ss_kind _ _ B1). }
    assert (SB : same_struct (gr s) (gr (send_down changed (S f) n a1))).
    { eapply ss_trans; [exact B1|apply (fs_ss _ _ (fs_send_down changed (S f) n a1))]. }
    assert (WB : wf (gr (send_down changed (S f) n a1))) by (now apply wf_send_down).
    set (a2 := send_down changed (S f) n a1) in *. clearbody a2.
    destruct (HF l2 a2) as (v2 & D0 & D1 & D2 & D3 & D4 & D5 & D6); auto.
    { intros c Hc. split; [apply Hk; apply in_app_iff; simpl; auto|].
      intros ->. apply HN'. apply in_app_iff. auto. }
    destruct (D6 eq_refl) as [_ ->]. cbn [app follow] in D2, D4, D5, B2, B4, B5.
    assert (Ecp : cur (gr a1) p = last (upd g1 p set_sent) p).
    { rewrite B7. unfold cur, last. simpl. rewrite Nat.eqb_refl. reflexivity. }
    assert (EH : forall h, hist_after (kind_of (gr s) n) [] h = h) by (intros; destruct (kind_of _ _); auto).
    rewrite EH in D5, B5. rewrite (ss_kind _ _ B1) in C3, C4.
    exists [last (upd g1 p set_sent) p].
    rewrite D2, C2, B2. split.
    { unfold a0. cbn [log shown]. now rewrite Nat.eqb_refl, shown_sample. }
    split; auto. rewrite D4, C3, D5, C4, Ecp, B5, B4, EN, L0. split; auto.
    cbn [follow]. now rewrite EH.
  - destruct (HF (children g1 m) a0) as (v1 & B0 & B1 & B2 & B3 & B4 & B5 & B6); auto.
    { intros c Hc. split; auto. intros ->. destruct (wf_kids _ W1 _ _ Hc) as [_ Hp].
      rewrite (ss_parents _ _ S1), HP in Hp. destruct Hp as [<-|[]]. contradiction. }
    exists v1. rewrite B2, B4, B5, EN, L0. simpl shown.
    rewrite (proj2 (Nat.eqb_neq m p)) by auto. rewrite shown_sample. auto.
Qed.

(** ** Propagation from roots *)
Lemma sends_track : forall ns s n p, wf (gr s) -> parents (gr s) n = [p] ->
  is_root (kind_of (gr s) n) = false -> alive (gr s) n = true -> NoDup (children (gr s) p) ->
  ~ In n ns -> P (gr s) n ->
  let s' := fold_left (fun s n => send_down_node changed n s) ns s in
  exists vs, shown (log s') p = vs ++ shown (log s) p /\ P (gr s') n /\
    last (gr s') n = follow (kind_of (gr s) n) (n_hist (nd (gr s) n)) vs (last (gr s) n) /\
    n_hist (nd (gr s') n) = hist_after (kind_of (gr s) n) vs (n_hist (nd (gr s) n)) /\
    last (gr s') p = hd (last (gr s) p) vs.
Proof.
  induction ns as [|m ns IH]; intros s n p Wf HP HR HA HN N HPn; cbv zeta.
  { simpl. exists []. simpl. split; auto. split; auto. split; auto. split; auto.
    destruct (kind_of _ _); auto. }
  cbn [fold_left].
  assert (N1 : n <> m) by (intros ->; apply N; now left).
  assert (N2 : ~ In n ns) by (intros Hi; apply N; now right).
  destruct (send_track (S (cnt (gr s))) m s n p) as (v2 & A1 & A2 & A3 & A4); auto; [lia|].
  destruct (send_last (S (cnt (gr s))) m s p) as (v3 & A5 & A6).
  assert (v3 = v2) by (apply (app_inv_tail (shown (log s) p)); congruence). subst v3. clear A5.
  change (send_down changed (S (cnt (gr s))) m s) with (send_down_node changed m s) in *.
  pose proof (fs_ss _ _ (fs_send_down changed (S (cnt (gr s))) m s)) as S1.
  change (send_down changed (S (cnt (gr s))) m s) with (send_down_node changed m s) in *.
  assert (W1 : wf (gr (send_down_node changed m s))) by (now apply wf_send_down).
  destruct (IH (send_down_node changed m s) n p) as (v1 & B1 & B2 & B3 & B4 & B5); auto.
  - now rewrite (ss_parents _ _ S1).
  - now rewrite (ss_kind _ _ S1).
  - now rewrite (alive_struct _ _ _ S1).
  - now rewrite (ss_children _ _ S1).
  - exists (v1 ++ v2). rewrite B1, B3, B4, B5, A1, A3, A4, A6, app_assoc, follow_app, hist_app.
    rewrite (ss_kind _ _ S1). split; auto. split; auto. split; auto. split; auto.
    destruct v1; auto.
Qed.

Lemma since_sends : forall (l l' : list (event V W)) p n, Forall is_send l ->
  shown_since (l ++ l') p n = shown l p ++ shown_since l' p n /\
  made_with (l ++ l') n = made_with l' n /\
  source_newer (l ++ l') p n =
    match shown l p with [] => source_newer l' p n | _ => true end.
Proof using Type.
  induction 1 as [|e l He Hl IH]; simpl; auto. destruct IH as (I1 & I2 & I3).
  destruct e; simpl in *; try contradiction; auto.
  destruct (n0 =? p); auto. simpl. now rewrite I1.
Qed.

(** ** Invariants *)
Definition KI g : Prop := forall n, NoDup (children g n).

Definition TIn s n : Prop := forall p, parents (gr s) n = [p] ->
  is_root (kind_of (gr s) n) = false -> alive (gr s) n = true ->
  (setter (kind_of (gr s) n) = true ->
     P (gr s) n /\ (source_newer (log s) p n = true -> last (gr s) n = last (gr s) p)) /\
  (setter (kind_of (gr s) n) = false -> not_reread (gr s) n ->
     P (gr s) n /\ exists v0, made_with (log s) n = Some v0 /\
       last (gr s) n = follow (kind_of (gr s) n) [] (shown_since (log s) p n) v0 /\
       n_hist (nd (gr s) n) = hist_after (kind_of (gr s) n) (shown_since (log s) p n) []).

Lemma source_ext : forall g g' a n, wf g -> ext g g' -> source g a n -> source g' a n.
Proof using Type.
  intros g g' a n Wf [_ E] H. induction H as [n|a p n H IH Hp]; [constructor|].
  apply source_step with p; auto. destruct (Nat.lt_ge_cases n (cnt g)) as [L|L].
  - destruct (E n L) as [_ ->]. exact Hp.
  - destruct (wf_out _ Wf n L) as (_ & Q & _). rewrite Q in Hp. destruct Hp.
Qed.
Lemma not_reread_ext : forall g g' n, wf g -> ext g g' -> not_reread g' n -> not_reread g n.
Proof using Type.
  intros g g' n Wf E H m Hs Hr. apply (H m); [eapply source_ext; eauto|].
  unfold rereads in *. destruct (Nat.lt_ge_cases m (cnt g)) as [L|L].
  - destruct E as [_ E]. destruct (E m L) as [-> _]. exact Hr.
  - destruct (wf_out _ Wf m L) as (Q & _). rewrite Q in Hr. destruct Hr.
Qed.

Definition trk g n := (n_kind (nd g n), n_parents (nd g n), n_cur (nd g n), n_last (nd g n),
  n_nsd (nd g n), n_rcp (nd g n), n_hist (nd g n)).

Lemma TIn_frame : forall s s' n, wf (gr s) -> ext (gr s) (gr s') ->
  (alive (gr s') n = true -> alive (gr s) n = true) ->
  ((setter (kind_of (gr s) n) = true \/ not_reread (gr s) n) ->
     is_root (kind_of (gr s) n) = false -> trk (gr s') n = trk (gr s) n) ->
  n < cnt (gr s) -> (forall q, q < cnt (gr s) -> last (gr s') q = last (gr s) q) ->
  (forall p, shown_since (log s') p n = shown_since (log s) p n) ->
  (forall p, source_newer (log s') p n = source_newer (log s) p n) ->
  made_with (log s') n = made_with (log s) n ->
  TIn s n -> TIn s' n.
Proof using Type.
  intros s s' n Wf E HA HT L HL HS1 HS2 HM H p HP HR A.
  pose proof E as [_ E2]. destruct (E2 n L) as [K1 K2]. rewrite K2 in HP. rewrite K1 in *.
  destruct (H p HP HR (HA A)) as [H1 H2]. rewrite HS1, HS2, HM, HL by auto.
  assert (HPP : trk (gr s') n = trk (gr s) n -> P (gr s) n -> P (gr s') n /\
     n_hist (nd (gr s') n) = n_hist (nd (gr s) n)).
  { intros T. unfold trk in T. injection T as T1 T2 T3 T4 T5 T6 T7.
    unfold P, kind_of, nsd, last, cur. rewrite T1, T3, T4, T5, T6, T7. auto. }
  split.
  - intros S1. destruct (H1 S1) as [H3 H4].
    destruct (HPP (HT (or_introl S1) HR) H3). split; auto.
    rewrite HL; auto.
    apply Nat.lt_trans with n; auto. apply (wf_par _ Wf). rewrite HP. now left.
  - intros S1 NR. apply (not_reread_ext _ _ _ Wf E) in NR.
    destruct (H2 S1 NR) as [H3 H4]. destruct (HPP (HT (or_intror NR) HR) H3) as [? ->]. split; auto.
Qed.

Lemma TIn_roots : forall s ns n, wf (gr s) -> KI (gr s) -> ~ In n ns -> TIn s n ->
  TIn (send_roots changed ns s) n.
Proof.
  intros s ns n Wf HK N H p. unfold send_roots.
  set (s0 := emit (ECommit ns (world (gr s))) s).
  destruct (sends_roots changed changed_sound ns s0 Wf) as [S1 _].
  destruct (sends_log changed ns s0) as (l & EL & Hl).
  pose proof (sends_track ns s0 n p Wf) as T.
  set (s' := fold_left (fun s n => send_down_node changed n s) ns s0) in *. cbv zeta in T. clearbody s'.
  rewrite (ss_parents _ _ S1), (ss_kind _ _ S1), (alive_struct _ _ _ S1).
  change (gr s0) with (gr s) in *. intros HP HR HA. destruct (H p HP HR HA) as [H1 H2].
  specialize (T HP HR HA (HK p) N). rewrite EL.
  destruct (since_sends l (log s0) p n Hl) as (-> & -> & ->).
  assert (M : mem n ns = false).
  { destruct (mem n ns) eqn:E; auto. apply mem_In in E. contradiction. }
  split.
  - intros ES. destruct (H1 ES) as [H3 H4].
    destruct (T H3) as (vs & T1 & T2 & T3 & T4 & T5). split; auto.
    rewrite EL, shown_app in T1. apply app_inv_tail in T1. rewrite T1, T3, T5.
    destruct vs as [|v vs]; simpl; [now rewrite M|].
    intros _. destruct (kind_of (gr s) n); try discriminate. reflexivity.
  - intros ES NR. assert (NR' : not_reread (gr s) n).
    { apply (not_reread_ext _ _ _ Wf (ext_ss _ _ S1)). exact NR. }
    destruct (H2 ES NR') as [H3 (v0 & H4 & H5 & H6)].
    destruct (T H3) as (vs & T1 & T2 & T3 & T4 & T5). split; auto.
    rewrite EL, shown_app in T1. apply app_inv_tail in T1. exists v0. rewrite T1.
    split; auto. rewrite T3, T4, H5, H6, follow_app, hist_app. auto.
Qed.

(** A setter node that propagates its own value. *)
Lemma visit_self : forall f n s, wf (gr s) -> setter (kind_of (gr s) n) = true ->
  n_rcp (nd (gr s) n) = true -> (nsd (gr s) n = false -> last (gr s) n = cur (gr s) n) ->
  let s' := send_down changed (S f) n s in
  P (gr s') n /\ last (gr s') n = cur (gr s) n.
Proof.
  intros f n s Wf HS HC HL. cbv zeta. cbn [send_down].
  assert (ER : recompute changed n (gr s) = upd (gr s) n (set_rcp false)).
  { unfold recompute. destruct (kind_of (gr s) n); try discriminate. now rewrite HC. }
  pose proof (wf_recompute changed changed_sound _ n Wf) as W1.
  rewrite ER in *. set (g1 := upd (gr s) n (set_rcp false)) in *.
  assert (EN : nd g1 n = set_rcp false (nd (gr s) n)) by (unfold g1; now rewrite nd_upd_same).
  clearbody g1.
  assert (EK : setter (kind_of g1 n) = true) by (unfold kind_of; rewrite EN; exact HS).
  destruct (nsd g1 n) eqn:E; cbn [gr log].
  - assert (HF : forall cs (a : st V W), wf (gr a) -> (forall c, In c cs -> n < c) ->
      nd (gr (fold_left (fun s0 c => if alive (gr s0) c then send_down changed f c s0 else s0) cs a)) n
      = nd (gr a) n).
    { induction cs as [|c cs IHc]; intros a Wa Hc; [simpl; auto|]. simpl.
      assert (Hcs : forall c', In c' cs -> n < c') by (intros c' Hc'; apply Hc; now right).
      assert (Lc : n < c) by (apply Hc; now left).
      destruct (alive (gr a) c); [|now apply IHc].
      rewrite IHc; auto; [|now apply wf_send_down].
      apply send_small; auto. }
    assert (Lm : n < cnt g1).
    { destruct (Nat.lt_ge_cases n (cnt g1)) as [Lm|Lm]; auto.
      destruct (wf_out _ W1 n Lm) as (_&_&_&_&A&_). congruence. }
    match goal with |- context [fold_left ?F ?cs ?a] =>
      assert (EF : nd (gr (fold_left F cs a)) n = nd (gr a) n) end.
    { apply HF; [now apply (wf_sent changed changed_sound)|].
      intros c Hc. unfold children in Hc. rewrite nd_upd_same in Hc.
      destruct (wf_kids _ W1 n c Hc) as [_ Hp]. now apply (wf_par _ W1) in Hp. }
    match goal with |- context [fold_left ?F ?cs ?a] => set (b := fold_left F cs a) in * end.
    clearbody b. cbn [gr] in EF. unfold P, last, cur, nsd, kind_of. rewrite !EF.
    rewrite nd_upd_same, EN. simpl. auto.
  - unfold P, nsd, last, cur, kind_of in *. rewrite EN in *. simpl in *.
    split; auto.
Qed.

Lemma TIn_self : forall s n v fn, wf (gr s) -> kind_of (gr s) n = KSetter true fn ->
  TIn s n ->
  let s1 := mark_rcp n (with_gr s (push_down changed n v)) in wf (gr s1) ->
  TIn (send_roots changed [n] s1) n /\
  (alive (gr s) n = true -> last (gr (send_roots changed [n] s1)) n = v).
Proof.
  intros s n v fn Wf K H s1 W1. unfold send_roots. cbn [fold_left].
  set (s0 := emit (ECommit [n] (world (gr s1))) s1). unfold send_down_node.
  pose proof (fs_ss _ _ (fs_send_down changed (S (cnt (gr s0))) n s0)) as S1.
  pose proof (fc_push_down changed n v (gr s)) as F.
  assert (S0 : same_struct (gr s) (gr s0)).
  { eapply ss_trans; [apply (fc_ss _ _ _ F)|]. apply ss_upd. intros []; simpl; auto 10. }
  pose proof (ss_trans _ _ _ S0 S1) as S2.
  assert (HQ : (exists p, parents (gr s) n = [p]) /\ is_root (kind_of (gr s) n) = false).
  { rewrite K. split; auto. pose proof (wf_arity _ Wf n) as A. rewrite K in A. simpl in A.
    destruct (parents (gr s) n) as [|p [|? ?]]; try discriminate. eauto. }
  destruct HQ as [(p & HP) HR].
  assert (HC : alive (gr s) n = true -> P (gr (send_down changed (S (cnt (gr s0))) n s0)) n /\
     last (gr (send_down changed (S (cnt (gr s0))) n s0)) n = v).
  { intros A. destruct (H p HP HR A) as [H1 _]. rewrite K in H1. destruct (H1 eq_refl) as [(Q1 & Q2 & Q3) _].
    destruct (visit_self (cnt (gr s0)) n s0) as [B1 B2]; auto.
    - rewrite (ss_kind _ _ S0), K. reflexivity.
    - simpl. now rewrite Nat.eqb_refl.
    - intros E. unfold nsd, last, cur in *. simpl in *. rewrite Nat.eqb_refl in *. simpl in *.
      fold (last (push_down changed n v (gr s)) n). fold (cur (push_down changed n v (gr s)) n).
      fold (nsd (push_down changed n v (gr s)) n) in E.
      rewrite (fc_last _ _ _ F), (fc_unch _ _ _ F E). apply Q2.
      destruct (nsd (gr s) n) eqn:E2; auto. now rewrite (fc_up _ _ _ F E2) in E.
    - split; auto. rewrite B2. unfold cur. simpl. rewrite Nat.eqb_refl. simpl.
      apply (push_down_cur changed changed_sound). }
  split; [|intros A; now apply HC].
  intros q HPq HRq A. rewrite (ss_parents _ _ S2), HP in HPq. injection HPq as <-.
  rewrite (ss_kind _ _ S2), K. split; [|discriminate]. intros _.
  rewrite (alive_struct _ _ _ S2) in A. destruct (HC A) as [HC1 HC2]. split; auto.
  destruct (send_down_log changed (S (cnt (gr s0))) n s0) as (l & EL & Hl).
  assert (Lp : p < n) by (apply (wf_par _ Wf); rewrite HP; now left).
  assert (W0 : wf (gr s0)) by exact W1.
  destruct (send_small (S (cnt (gr s0))) n s0 p W0 Lp) as [_ E2].
  rewrite EL, shown_app in E2. rewrite EL.
  destruct (since_sends l (log s0) p n Hl) as (_ & _ & ->).
  destruct (shown l p) as [|x r]; [|apply (f_equal (@length V)) in E2; rewrite app_length in E2; simpl in E2; lia].
  simpl. rewrite Nat.eqb_refl. discriminate.
Qed.

(** ** Steps *)
Lemma send_roots_ss : forall ns s, same_struct (gr s) (gr (send_roots changed ns s)).
Proof using Type.
  intros ns s. unfold send_roots.
  assert (H : forall ns s, same_struct (gr s) (gr (fold_left (fun s n => send_down_node changed n s) ns s))).
  { clear. induction ns as [|n ns IH]; intros s; simpl; [apply ss_refl|].
    eapply ss_trans; [|apply IH]. apply (fs_ss _ _ (fs_send_down changed (S (cnt (gr s))) n s)). }
  apply (H ns (emit (ECommit ns (world (gr s))) s)).
Qed.
Lemma step_alive : forall s s' n, step s s' -> Inv changed (gr s) -> n < cnt (gr s) ->
  alive (gr s') n = true -> alive (gr s) n = true.
Proof.
  intros s s' n H HI L A. pose proof HI as [Wf _].
  destruct (step_Inv changed changed_sound ordN _ _ H HI) as [[Wf' _] _].
  pose proof (wf_par _ Wf) as PL. pose proof (wf_par _ Wf') as PL'.
  assert (AH : forall m, m < cnt (gr s) -> handle (gr s) m = true \/ In m (pins (gr s)) ->
     alive (gr s) m = true).
  { intros m Lm Hm. apply (alive_iff _ PL). exists m. repeat split; auto. constructor. }
  destruct H; auto.
  - revert A. apply alive_mono; auto. intros m Lm [Hm|[Hm|Hm]]; auto. now subst.
  - revert A. apply alive_mono; auto. intros m Lm [Hm|Hm]; auto.
    apply AH; auto. right. simpl in Hm. destruct (pins (gr s)); simpl in *; auto.
  - now rewrite (alive_struct _ _ _ (send_roots_ss ns s)) in A.
  - now rewrite (alive_struct _ _ _ (fc_ss _ _ _ (fc_push_down changed n0 v (gr s)))) in A.
  - rewrite (alive_struct _ _ _ (send_roots_ss [n0] _)) in A. simpl in A. now rewrite (alive_struct _ _ _ (fc_ss _ _ _ (fc_push_down changed n0 v (gr s)))) in A.
  - simpl in A. now rewrite (alive_struct _ _ _ (fc_ss _ _ _ (fc_push_down changed n0 v (gr s)))) in A.
  - rewrite (alive_struct _ _ _ (send_roots_ss [n0] _)) in A.
    pose proof (fc_ss _ _ _ (fc_push_down changed n0 v (gr s))) as F.
    assert (S1 : same_struct (push_down changed n0 v (gr s))
                   (gr (mark_rcp n0 (with_gr s (push_down changed n0 v))))).
    { apply ss_upd. intros []; simpl; auto 10. }
    now rewrite (alive_struct _ _ n S1), (alive_struct _ _ n F) in A.
  - assert (Hv : forall down up x, k = KInner down up ->
      down (current_from (gr s) ps) = Some x -> v = x).
    { intros down up x -> Ex. simpl in H2. rewrite Ex in H2. congruence. }
    exact (add_alive_old changed changed_sound (gr s) k ps v H H0 HI H1 Hv n L A).
  - revert A. apply alive_mono; auto.
    + intros m. unfold parents. simpl. destruct (m =? n0); auto.
    + intros m Lm [Hm|Hm]; auto. apply AH; auto. left. unfold handle, slots in *. simpl in *.
      destruct (Nat.eqb_spec m n0) as [->|]; auto. simpl in Hm.
      apply andb_true_iff in Hm as [H1 H2]. rewrite H1. simpl.
      destruct (n_held (nd (gr s) n0)); [lia|]. reflexivity.
  - revert A. apply alive_mono; auto.
    + intros m. unfold parents. simpl. destruct (m =? n0); auto.
    + intros m Lm [Hm|Hm]; auto. destruct (Nat.eq_dec m n0) as [->|N]; [now apply AH; auto|].
      apply AH; auto. left. unfold handle, slots in *. simpl in *.
      now rewrite (proj2 (Nat.eqb_neq m n0)) in Hm by auto.
  - revert A. apply alive_mono; auto.
    + intros m. unfold parents. simpl. destruct (m =? n0); auto.
    + intros m Lm [Hm|Hm]; auto. apply AH; auto. left. unfold handle, slots in *. simpl in *.
      destruct (Nat.eqb_spec m n0) as [->|]; auto. simpl in Hm.
      apply andb_true_iff in Hm as [H1 H2]. rewrite H1. simpl.
      destruct (n_slots (nd (gr s) n0)); simpl in *; auto. apply orb_true_r.
  - revert A. apply alive_mono; auto.
  - now rewrite (alive_struct _ _ _ (fr_ss _ _ (fr_refresh changed ordN (S n0) n0 (gr s)))) in A.
  - revert A. apply alive_mono; auto.
    + intros m. unfold parents. simpl. destruct (m =? n0); auto.
    + intros m Lm [Hm|Hm]; auto. apply AH; auto. left. unfold handle, slots in *. simpl in *.
      destruct (Nat.eqb_spec m n0) as [->|]; auto.
  - revert A. apply alive_mono; auto.
    + intros m. unfold parents. simpl. destruct (m =? n0); auto.
    + intros m Lm [Hm|Hm]; auto. apply AH; auto. left. unfold handle, slots in *. simpl in *.
      destruct (Nat.eqb_spec m n0) as [->|]; auto.
  - revert A. apply alive_mono; auto.
    + intros m. unfold parents. simpl. destruct (m =? n0); auto.
    + intros m Lm [Hm|Hm]; auto. apply AH; auto. left. unfold handle, slots in *. simpl in *.
      destruct (Nat.eqb_spec m n0) as [->|]; auto.
Qed.

Lemma KI_children : forall g g', (forall n, children g' n = children g n) -> KI g -> KI g'.
Proof using Type. intros g g' E H n. rewrite E. apply H. Qed.
Lemma step_KI : forall s s', step s s' -> Inv changed (gr s) -> KI (gr s) -> KI (gr s').
Proof.
  intros s s' H HI HK. pose proof HI as [Wf _].
  assert (PD : forall n v, KI (push_down changed n v (gr s))).
  { intros n v. eapply KI_children; [|exact HK]. apply (ss_children _ _ (fc_ss _ _ _ (fc_push_down changed n v (gr s)))). }
  destruct H; auto; try apply PD;
    try (eapply KI_children; [|exact HK]; intros m; unfold children; simpl;
         destruct (m =? n); reflexivity).
  - eapply KI_children; [|exact HK]. apply (ss_children _ _ (send_roots_ss ns s)).
  - eapply KI_children; [|apply (PD n v)].
    apply (ss_children _ _ (send_roots_ss [n] (wr changed n v s))).
  - eapply KI_children; [|apply (PD n v)]. intros m.
    rewrite (ss_children _ _ (send_roots_ss [n] _)).
    unfold children. simpl. destruct (m =? n); reflexivity.
  - intros m. unfold new_node. simpl. destruct (Nat.eq_dec m (cnt (gr s))) as [->|N].
    + unfold children. rewrite (add_nd_new changed changed_sound (gr s) k ps v H H0). constructor.
    + rewrite (add_old_children changed changed_sound (gr s) k ps v H H0) by auto.
      destruct (mem m ps); [|rewrite app_nil_r; apply HK].
      apply (NoDup_Add (a := cnt (gr s)) (l := children (gr s) m)).
      * rewrite <- (app_nil_r (children (gr s) m)) at 1. apply Add_app.
      * split; [apply HK|]. intros Hc. apply (wf_kids _ Wf) in Hc. lia.
  - eapply KI_children; [|exact HK].
    apply (ss_children _ _ (fr_ss _ _ (fr_refresh changed ordN (S n) n (gr s)))).
  - intros m. unfold children. simpl. destruct (Nat.eqb_spec m n) as [->|N]; [|apply HK].
    simpl. apply NoDup_filter. apply HK.
Qed.

Lemma nd_refresh : forall fuel m g n,
  (match kind_of g n with KInner _ _ | KXform _ _ => False | _ => True end) \/ ~ anc g n m ->
  nd (refresh changed ordN fuel m g) n = nd g n.
Proof using ordN_in.
  induction fuel as [|f IH]; intros m g n H; simpl; auto.
  assert (HF : forall ps a, same_struct g a -> nd a n = nd g n ->
    (forall p, In p ps -> In p (parents g m)) ->
    nd (fold_left (fun g0 p => refresh changed ordN f p g0) ps a) n = nd g n /\
    same_struct g (fold_left (fun g0 p => refresh changed ordN f p g0) ps a)).
  { induction ps as [|p ps IHp]; intros a Sa Ea Hp; simpl; auto. apply IHp.
    - eapply ss_trans; [exact Sa|apply (fr_ss _ _ (fr_refresh changed ordN f p a))].
    - rewrite IH; auto. destruct H as [H|H]; [left; now rewrite (ss_kind _ _ Sa)|].
      right. intros X. apply H. apply (anc_struct _ _ n p Sa) in X.
      apply anc_step with p; auto. apply Hp. now left.
    - intros q Hq. apply Hp. now right. }
  destruct (HF (ordN g m (parents g m)) g (ss_refl g) eq_refl) as [H1 H2].
  { intros p Hp. eapply ordN_in; eauto. }
  destruct (kind_of g m) eqn:K; auto.
  - rewrite nd_recompute_other; auto. intros ->. destruct H as [H|H]; [now rewrite K in H|].
    apply H. constructor.
  - rewrite nd_recompute_other; auto. intros ->. destruct H as [H|H]; [now rewrite K in H|].
    apply H. constructor.
Qed.
Lemma anc_source : forall g a n, anc g a n -> source g a n.
Proof using Type. induction 1; [constructor|]. eapply source_step; eauto. Qed.

Definition TI s : Prop := forall n, n < cnt (gr s) -> TIn s n.
Lemma step_TI : forall s s', step s s' -> Inv changed (gr s) -> KI (gr s) -> TI s -> TI s'.
Proof using changed_sound ordN_in.
  intros s s' H HI HK HT n L.
  pose proof (step_Inv changed changed_sound ordN _ _ H HI) as [HI' HE].
  pose proof HI as [Wf _]. pose proof HI' as [Wf' _].
  assert (HA : n < cnt (gr s) -> alive (gr s') n = true -> alive (gr s) n = true)
    by (intros; eapply step_alive; eauto).
  assert (FR : cnt (gr s') = cnt (gr s) ->
     ((setter (kind_of (gr s) n) = true \/ not_reread (gr s) n) ->
     is_root (kind_of (gr s) n) = false -> trk (gr s') n = trk (gr s) n) ->
     (forall q, last (gr s') q = last (gr s) q) ->
     (forall p, shown_since (log s') p n = shown_since (log s) p n) ->
     (forall p, source_newer (log s') p n = source_newer (log s) p n) ->
     made_with (log s') n = made_with (log s) n -> TIn s' n).
  { intros C T1 T2 T3 T4 T5. rewrite C in L. eapply (TIn_frame s); eauto. }
  assert (RT : is_root (kind_of (gr s') n) = true -> TIn s' n)
    by (intros R p _ R'; congruence).
  destruct (is_root (kind_of (gr s') n)) eqn:R; [auto|clear RT].
  destruct H; try (apply FR; auto; fail);
    try (apply FR; intros; auto; unfold trk, last; simpl; destruct (_ =? n0); reflexivity).
  - (* commit *)
    rewrite (ss_kind _ _ (send_roots_ss ns s)) in R.
    rewrite (ss_cnt _ _ (send_roots_ss ns s)) in L.
    apply TIn_roots; auto. intros Hi. destruct (H n Hi). congruence.
  - (* write *)
    pose proof (fc_push_down changed n0 v (gr s)) as F.
    assert (K : is_root (kind_of (gr s) n0) = true) by (destruct H as [-> | ->]; reflexivity).
    apply FR; auto.
    + apply (ss_cnt _ _ (fc_ss _ _ _ F)).
    + intros _ Rn. unfold trk. simpl. rewrite nd_push_other; auto. congruence.
    + apply (fc_last _ _ _ F).
  - (* automatic state *)
    pose proof (fc_push_down changed n0 v (gr s)) as F.
    rewrite (ss_kind _ _ (send_roots_ss [n0] _)) in R.
    rewrite (ss_cnt _ _ (send_roots_ss [n0] _)) in L.
    simpl in R, L. rewrite (ss_kind _ _ (fc_ss _ _ _ F)) in R. rewrite (ss_cnt _ _ (fc_ss _ _ _ F)) in L.
    assert (N : n <> n0) by (intros ->; rewrite H in R; discriminate).
    assert (Wp : wf (push_down changed n0 v (gr s))).
    { apply (wf_push_down changed changed_sound); auto. apply (noninner_out _ _ Wf). rewrite H. discriminate. }
    apply TIn_roots.
    + exact Wp.
    + intros m. simpl. rewrite (ss_children _ _ (fc_ss _ _ _ F)). apply HK.
    + intros [Hi|[]]. congruence.
    + apply (TIn_frame s); auto.
      * apply (ext_ss _ _ (fc_ss _ _ _ F)).
      * simpl. now rewrite (alive_struct _ _ _ (fc_ss _ _ _ F)).
      * intros _ _. unfold trk. simpl. rewrite nd_push_other; auto.
      * intros q _. apply (fc_last _ _ _ F).
  - (* setter, transactional *)
    pose proof (fc_push_down changed n0 v (gr s)) as F. simpl in *.
    rewrite (ss_cnt _ _ (fc_ss _ _ _ F)) in L. rewrite (ss_kind _ _ (fc_ss _ _ _ F)) in R.
    destruct (Nat.eq_dec n n0) as [->|N].
    + intros p. simpl. rewrite (ss_parents _ _ (fc_ss _ _ _ F)), (ss_kind _ _ (fc_ss _ _ _ F)),
        (alive_struct _ _ _ (fc_ss _ _ _ F)). intros HP _ A.
      destruct (HT n0 L p HP R A) as [T1 _]. rewrite H in T1 |- *. split; [|discriminate].
      destruct (T1 eq_refl) as [(Q1 & Q2 & Q3) Q4]. intros _.
      rewrite !(fc_last _ _ _ F). split; auto. unfold P.
      destruct (push_down_quiet n0 v (gr s)) as [-> _]. split; auto. split.
      * intros E. rewrite (fc_last _ _ _ F), (fc_unch _ _ _ F E). apply Q2.
        destruct (nsd (gr s) n0) eqn:E2; auto. now rewrite (fc_up _ _ _ F E2) in E.
      * rewrite (ss_kind _ _ (fc_ss _ _ _ F)), H. discriminate.
    + apply FR; auto.
      * apply (ss_cnt _ _ (fc_ss _ _ _ F)).
      * intros _ _. unfold trk. rewrite nd_push_other; auto.
      * apply (fc_last _ _ _ F).
  - (* setter, automatic *)
    pose proof (fc_push_down changed n0 v (gr s)) as F.
    set (s1 := mark_rcp n0 (with_gr s (push_down changed n0 v))) in *.
    assert (S1 : same_struct (gr s) (gr s1)).
    { eapply ss_trans; [apply (fc_ss _ _ _ F)|]. apply ss_upd. intros []; simpl; auto 10. }
    assert (W1 : wf (gr s1)).
    { eapply wf_vals with (g := push_down changed n0 v (gr s)).
      - apply (wf_push_down changed changed_sound); auto. apply (noninner_out _ _ Wf). rewrite H. discriminate.
      - apply ss_upd. intros []; simpl; auto 10.
      - intros m Hm. pose proof (wf_push_down changed changed_sound _ n0 v Wf) as Wp.
        assert (Ln : n0 < cnt (gr s)) by (apply (noninner_out _ _ Wf); rewrite H; discriminate).
        destruct (wf_out _ (Wp Ln) m Hm) as (A1 & A2 & A3 & A4 & A5 & A6 & A7 & A8).
        unfold nsd, nn, last, cur in *. simpl.
        destruct (Nat.eqb_spec m n0) as [->|]; simpl; auto. }
    rewrite (ss_kind _ _ (send_roots_ss [n0] _)) in R.
    rewrite (ss_cnt _ _ (send_roots_ss [n0] _)) in L.
    rewrite (ss_kind _ _ S1) in R. rewrite (ss_cnt _ _ S1) in L.
    destruct (Nat.eq_dec n n0) as [->|N].
    + destruct (TIn_self s n0 v fn Wf H (HT n0 L) W1) as [X _]. exact X.
    + apply TIn_roots; auto.
      * intros m. rewrite (ss_children _ _ S1). apply HK.
      * intros [Hi|[]]. congruence.
      * apply (TIn_frame s); auto.
        -- apply (ext_ss _ _ S1).
        -- now rewrite (alive_struct _ _ _ S1).
        -- intros _ _. unfold trk. simpl. rewrite (proj2 (Nat.eqb_neq n n0)) by auto.
           rewrite nd_push_other; auto.
        -- intros q _. unfold last. simpl. destruct (q =? n0); apply (fc_last _ _ _ F).
  - (* new node *)
    unfold new_node in *. simpl in *.
    destruct (add_rest changed changed_sound (gr s) k ps v H H0) as (C & _).
    rewrite C in L. destruct (Nat.eq_dec n (cnt (gr s))) as [->|N].
    + pose proof (add_nd_new changed changed_sound (gr s) k ps v H H0) as EN.
      intros p HP HR A. simpl. unfold kind_of, P, parents, nsd, last, cur in *. rewrite EN in *.
      simpl in *. rewrite Nat.eqb_refl.
      split; [intros _; split; [auto|discriminate]|]. intros S1 _. split; [auto|].
      exists v. split; auto. split; auto. destruct k; auto.
    + assert (Ln : n < cnt (gr s)) by lia.
      destruct (add_old_fields changed changed_sound (gr s) k ps v H H0 n N) as (E1 & _).
      rewrite E1 in R.
      assert (EN : (cnt (gr s) =? n) = false) by (apply Nat.eqb_neq; auto).
      apply (TIn_frame s); auto; simpl; intros; rewrite ?EN; auto.
      * unfold trk. rewrite (add_nd_old changed changed_sound (gr s) k ps v H H0) by auto.
        destruct (mem n ps); reflexivity.
      * destruct (add_old_fields changed changed_sound (gr s) k ps v H H0 q) as (_ & _ & _ & E2 & _); auto. lia.
  - (* refresh *)
    pose proof (fr_refresh changed ordN (S n0) n0 (gr s)) as F. cbn [gr log with_gr] in *.
    rewrite (ss_cnt _ _ (fr_ss _ _ F)) in L. rewrite (ss_kind _ _ (fr_ss _ _ F)) in R.
    apply FR; auto; cbn [gr log with_gr].
    + apply (ss_cnt _ _ (fr_ss _ _ F)).
    + intros X _. unfold trk. rewrite nd_refresh; auto. destruct X as [X|X].
      * left. destruct (kind_of (gr s) n); try discriminate; exact I.
      * right. intros Y. apply anc_source in Y. apply (X n0 Y). unfold rereads.
        destruct (kind_of (gr s) n0); simpl in H; try discriminate; rewrite H; exact I.
    + apply (fr_last _ _ F).
Qed.

End Track.
