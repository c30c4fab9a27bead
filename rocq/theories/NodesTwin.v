(** A reader of several sources beside the reader of the tuple of the same sources:
    what the one shows of what the other showed. *)
From Coq Require Import List Arith Bool Lia Sorted.
From Verif Require Import NodesModel NodesSpec NodesTrackSpec NodesBase NodesInv NodesExec NodesEv NodesRoots
  NodesTrack NodesSteady NodesThin.
Import ListNotations.

Section Twin.
Context {V W : Type}.
Variable changed : V -> V -> bool.
Hypothesis changed_sound : forall a b, changed a b = false -> a = b.
Variable ordN : graph V W -> nat -> list nat -> list nat.
Hypothesis ordN_in : forall g n l x, In x (ordN g n l) -> In x l.
Set Default Proof Using "Type changed_sound".
Implicit Types g : graph V W.
Implicit Types s : st V W.
Notation step := (step changed ordN).
Notation steps := (steps changed ordN).
Notation thin := (thin changed).
Notation UIa := (UIa changed).

(** ** The values read are those shown by the other, some of them several times in a row;
    [h] is what the other showed at first *)
Inductive rep (h : V) : list V -> list V -> Prop :=
| rep_nil : rep h [] []
| rep_new v vs ts : rep h vs ts -> rep h (v :: vs) (v :: ts)
| rep_again vs ts : rep h vs ts -> rep h vs (hd h vs :: ts).

Lemma rep_app : forall h vs ts vs' ts', rep h vs ts -> rep (hd h vs) vs' ts' -> rep h (vs' ++ vs) (ts' ++ ts).
Proof using Type.
  intros h vs ts vs' ts' H H'. induction H' as [|v us rs H' IH|us rs H' IH]; simpl; auto.
  - now constructor.
  - rewrite <- hd_app2. now constructor.
Qed.
Lemma rep_hd : forall h vs ts, rep h vs ts -> ts <> [] -> hd h ts = hd h vs.
Proof using Type. intros h vs ts H N. destruct H; auto. Qed.
Lemma rep_latest : forall (K : V -> option V) h vs ts b, rep h vs ts ->
  latest K ts b = latest K vs b \/ latest K ts b = latest K (vs ++ [h]) b.
Proof using Type.
  intros K h vs ts b H. induction H as [|v vs ts H IH|vs ts H IH]; simpl; auto.
  - destruct (K v); auto.
  - destruct vs as [|v vs]; simpl in *.
    + right. destruct (K h); auto. destruct IH as [E|E]; auto.
    + destruct (K v) eqn:E; auto.
Qed.

(** ** One visit *)
Lemma send_skip : forall f c s n, wf (gr s) -> (forall p, In p (parents (gr s) n) -> p < c) -> n <> c ->
  nd (gr (send_down changed f c s)) n = nd (gr s) n /\
  shown (log (send_down changed f c s)) n = shown (log s) n.
Proof.
  induction f as [|f IH]; intros c s n Wf HP N; [auto|]. cbn [send_down].
  pose proof (wf_recompute changed changed_sound _ c Wf) as W1.
  pose proof (fc_ss _ _ _ (fc_recompute changed c (gr s))) as S1.
  assert (E1 : nd (recompute changed c (gr s)) n = nd (gr s) n) by (apply nd_recompute_other; auto).
  set (g1 := recompute changed c (gr s)) in *. clearbody g1.
  destruct (nsd g1 c) eqn:E; cbn [gr log]; [|rewrite shown_sample; auto].
  assert (Lm : c < cnt g1).
  { destruct (Nat.lt_ge_cases c (cnt g1)) as [Lm|Lm]; auto.
    destruct (wf_out _ W1 c Lm) as (_&_&_&_&A&_). congruence. }
  pose proof (wf_sent changed changed_sound _ c W1 Lm) as W2.
  pose proof (ss_trans _ _ _ S1 (ss_set_sent g1 c)) as S2.
  assert (HF : forall cs (a : st V W), wf (gr a) -> same_struct (gr s) (gr a) ->
    (forall x, In x cs -> c < x /\ x <> n) ->
    let b := fold_left (fun s0 c => if alive (gr s0) c then send_down changed f c s0 else s0) cs a in
    nd (gr b) n = nd (gr a) n /\ shown (log b) n = shown (log a) n).
  { induction cs as [|x cs IHc]; intros a Wa Sa Hc; cbv zeta; [auto|]. cbn [fold_left].
    assert (Hcs : forall c', In c' cs -> c < c' /\ c' <> n) by (intros c' Hc'; apply Hc; now right).
    destruct (Hc x (or_introl eq_refl)) as [Lx Nx].
    destruct (alive (gr a) x); [|now apply IHc].
    destruct (IH x a n Wa) as [A1 A2]; auto.
    { intros p. rewrite (ss_parents _ _ Sa). intros Hp. apply HP in Hp. lia. }
    destruct (IHc (send_down changed f x a)) as [B1 B2]; auto.
    - now apply wf_send_down.
    - eapply ss_trans; [exact Sa|]. apply (fs_ss _ _ (fs_send_down changed f x a)).
    - split; congruence. }
  assert (EC : children (upd g1 c set_sent) c = children g1 c).
  { unfold children. now rewrite nd_upd_same. }
  rewrite EC.
  match goal with |- context [fold_left _ ?cs ?a] => destruct (HF cs a) as (-> & ->) end.
  - exact W2.
  - exact S2.
  - intros x Hx. destruct (wf_kids _ W1 _ _ Hx) as [_ Hp]. split; [now apply (wf_par _ W1) in Hp|].
    intros ->. rewrite (ss_parents _ _ S1) in Hp. apply HP in Hp. lia.
  - cbn [gr log shown]. rewrite nd_upd_other by auto.
    rewrite (proj2 (Nat.eqb_neq c n)) by auto. rewrite shown_sample. auto.
Qed.

Lemma visit_inner : forall f n s down up, wf (gr s) -> kind_of (gr s) n = KInner down up -> settled (gr s) n ->
  shown (log (send_down changed (S f) n s)) n =
  match down (current_from (gr s) (parents (gr s) n)) with
  | Some x => if changed x (last (gr s) n) then [x] else []
  | None => []
  end ++ shown (log s) n.
Proof.
  intros f n s down up Wf K (P3 & P2).
  pose proof (wf_recompute changed changed_sound _ n Wf) as W1.
  assert (ER : recompute changed n (gr s) =
    match down (current_from (gr s) (parents (gr s) n)) with
    | Some v => push_down changed n v (gr s) | None => gr s end).
  { unfold recompute. rewrite K. reflexivity. }
  cbn [send_down]. rewrite ER in W1 |- *. clear ER.
  assert (HF : forall cs (a : st V W), wf (gr a) -> (forall c, In c cs -> n < c) ->
    shown (log (fold_left (fun s0 c => if alive (gr s0) c then send_down changed f c s0 else s0) cs a)) n
    = shown (log a) n).
  { induction cs as [|c cs IHc]; intros a Wa Hc; [simpl; auto|]. simpl.
    assert (Hcs : forall c', In c' cs -> n < c') by (intros c' Hc'; apply Hc; now right).
    assert (Lc : n < c) by (apply Hc; now left).
    destruct (alive (gr a) c); [|now apply IHc].
    rewrite IHc; auto; [|now apply wf_send_down].
    apply send_small; auto. }
  destruct (down _) as [x|].
  2: { rewrite P3. simpl. now rewrite shown_sample. }
  unfold push_down in *. rewrite P2.
  destruct (changed x (cur (gr s) n)).
  2: { rewrite P3. simpl. now rewrite shown_sample. }
  assert (E : nsd (upd (gr s) n (set_cur x)) n = true) by (unfold nsd; now rewrite nd_upd_same).
  rewrite E.
  assert (Lm : n < cnt (upd (gr s) n (set_cur x))).
  { destruct (Nat.lt_ge_cases n (cnt (upd (gr s) n (set_cur x)))) as [Lm|Lm]; auto.
    destruct (wf_out _ W1 n Lm) as (_&_&_&_&A&_). congruence. }
  rewrite HF.
  - cbn [log shown]. rewrite Nat.eqb_refl, shown_sample. unfold last. simpl. rewrite Nat.eqb_refl. reflexivity.
  - cbn [gr]. now apply (wf_sent changed changed_sound).
  - intros c Hc. unfold children in Hc. rewrite nd_upd_same in Hc.
    destruct (wf_kids _ W1 n c Hc) as [_ Hp]. now apply (wf_par _ W1) in Hp.
Qed.

(** ** Propagation *)
Record twin g (m n : nat) (T : list V -> V) (F : V -> option V) : Prop := Twin {
  tw_lt : m < n;
  tw_par : parents g m = parents g n;
  tw_m : exists dm um, kind_of g m = KInner dm um /\
    forall xs, length xs = length (parents g n) -> dm xs = Some (T xs);
  tw_n : exists dn un, kind_of g n = KInner dn un /\
    forall xs, length xs = length (parents g n) -> dn xs = F (T xs);
  tw_am : alive g m = true;
  tw_an : alive g n = true;
  tw_rm : not_reread g m;
  tw_rn : not_reread g n
}.

Lemma twin_ext : forall g g' m n T F, wf g -> ext g g' -> n < cnt g ->
  (forall x, x < cnt g -> alive g' x = true -> alive g x = true) -> twin g' m n T F -> twin g m n T F.
Proof using Type.
  intros g g' m n T F Wf E L HA [H1 H2 H3 H4 H5 H6 H7 H8]. pose proof E as [_ E2].
  destruct (E2 n L) as [E3 E4]. destruct (E2 m) as [E5 E6]; [lia|].
  rewrite E4 in *. rewrite E6 in *. rewrite E3 in *. rewrite E5 in *.
  constructor; auto; try (eapply not_reread_ext; eauto). apply HA; auto. lia.
Qed.
Lemma twin_ss : forall g g' m n T F, same_struct g g' -> twin g m n T F -> wf g' -> twin g' m n T F.
Proof using Type.
  intros g g' m n T F S1 [H1 H2 H3 H4 H5 H6 H7 H8] Wf. constructor; auto;
    rewrite ?(ss_parents _ _ S1), ?(ss_kind _ _ S1), ?(alive_struct _ _ _ S1); auto.
  - intros x Hx Hr. apply (H7 x).
    + clear -S1 Hx. induction Hx as [|a p n Hx IH Hp]; [constructor|]. rewrite (ss_parents _ _ S1) in Hp.
      econstructor; eauto.
    + unfold rereads in *. now rewrite (ss_kind _ _ S1) in Hr.
  - intros x Hx Hr. apply (H8 x).
    + clear -S1 Hx. induction Hx as [|a p n Hx IH Hp]; [constructor|]. rewrite (ss_parents _ _ S1) in Hp.
      econstructor; eauto.
    + unfold rereads in *. now rewrite (ss_kind _ _ S1) in Hr.
Qed.

Definition advance s s' m n (F : V -> option V) : Prop := exists vs ts,
  shown (log s') m = vs ++ shown (log s) m /\
  shown (log s') n = thin F ts (last (gr s) n) ++ shown (log s) n /\
  rep (last (gr s) m) vs ts /\
  last (gr s') m = hd (last (gr s) m) vs /\
  last (gr s') n = hd (last (gr s) n) (thin F ts (last (gr s) n)).

Lemma advance_refl : forall s s' m n F, shown (log s') m = shown (log s) m ->
  shown (log s') n = shown (log s) n -> last (gr s') m = last (gr s) m -> last (gr s') n = last (gr s) n ->
  advance s s' m n F.
Proof using Type. intros s s' m n F A B C D. exists [], []. simpl. repeat split; auto. constructor. Qed.
Lemma advance_trans : forall a b c m n F, advance a b m n F -> advance b c m n F -> advance a c m n F.
Proof using Type.
  intros a b c m n F (v1 & t1 & A1 & A2 & A3 & A4 & A5) (v2 & t2 & B1 & B2 & B3 & B4 & B5).
  exists (v2 ++ v1), (t2 ++ t1). rewrite B1, B2, A1, A2, B4, B5, A4, A5, thin_app, !app_assoc.
  split; auto. split; auto. split.
  - apply rep_app; auto. now rewrite <- A4.
  - now rewrite !hd_app2.
Qed.

Lemma visit_last : forall f n s, settled (gr s) n -> forall vs,
  shown (log (send_down changed f n s)) n = vs ++ shown (log s) n ->
  last (gr (send_down changed f n s)) n = hd (last (gr s) n) vs.
Proof using Type.
  intros f n s _ vs E. destruct (send_last changed f n s n) as (v & A & B).
  rewrite E in A. apply app_inv_tail in A. now subst.
Qed.

Lemma send_twin : forall f r s m n T F, wf (gr s) -> twin (gr s) m n T F -> SI (gr s) ->
  r <> m -> r <> n -> cnt (gr s) < f + r -> settled (gr s) m -> settled (gr s) n ->
  advance s (send_down changed f r s) m n F.
Proof.
  induction f as [|f IH]; intros r s m n T F Wf TW HS Nm Nn L Qm Qn.
  { now apply advance_refl. }
  cbn [send_down].
  pose proof (wf_recompute changed changed_sound _ r Wf) as W1.
  pose proof (fc_ss _ _ _ (fc_recompute changed r (gr s))) as S1.
  assert (E1 : forall x, x <> r -> nd (recompute changed r (gr s)) x = nd (gr s) x)
    by (intros x Nx; apply nd_recompute_other; auto).
  set (g1 := recompute changed r (gr s)) in *. clearbody g1.
  destruct (nsd g1 r) eqn:E; cbn [gr log].
  2: { apply advance_refl; cbn [gr log]; rewrite ?shown_sample; auto; unfold last; now rewrite E1 by auto. }
  assert (Lm : r < cnt g1).
  { destruct (Nat.lt_ge_cases r (cnt g1)) as [Lm|Lm]; auto.
    destruct (wf_out _ W1 r Lm) as (_&_&_&_&A&_). congruence. }
  pose proof (wf_sent changed changed_sound _ r W1 Lm) as W2.
  pose proof (ss_trans _ _ _ S1 (ss_set_sent g1 r)) as S2.
  assert (HF : forall cs (a : st V W), wf (gr a) -> same_struct (gr s) (gr a) ->
    settled (gr a) m -> settled (gr a) n -> (forall c, In c cs -> r < c /\ c <> m /\ c <> n) ->
    let b := fold_left (fun s0 c => if alive (gr s0) c then send_down changed f c s0 else s0) cs a in
    wf (gr b) /\ same_struct (gr s) (gr b) /\ settled (gr b) m /\ settled (gr b) n /\ advance a b m n F).
  { induction cs as [|c cs IHc]; intros a Wa Sa Pm Pn Hc; cbv zeta.
    - simpl. split; auto. split; auto. split; auto. split; auto. now apply advance_refl.
    - cbn [fold_left].
      assert (Hcs : forall c', In c' cs -> r < c' /\ c' <> m /\ c' <> n) by (intros c' Hc'; apply Hc; now right).
      destruct (Hc c (or_introl eq_refl)) as (Lc & Nc1 & Nc2).
      destruct (alive (gr a) c); [|now apply IHc].
      assert (AD : advance a (send_down changed f c a) m n F).
      { apply (IH c a m n T F); auto.
        - eapply twin_ss; eauto.
        - intros x. rewrite (ss_children _ _ Sa). apply HS.
        - rewrite (ss_cnt _ _ Sa). lia. }
      destruct (IHc (send_down changed f c a)) as (B0 & B1 & B2 & B3 & B4); auto.
      + now apply wf_send_down.
      + eapply ss_trans; [exact Sa|apply (fs_ss _ _ (fs_send_down changed f c a))].
      + now apply send_settled.
      + now apply send_settled.
      + split; auto. split; auto. split; auto. split; auto. eapply advance_trans; eauto. }
  assert (EC : children (upd g1 r set_sent) r = children g1 r).
  { unfold children. now rewrite nd_upd_same. }
  rewrite EC. set (a0 := St (upd g1 r set_sent) (ESend r (last (upd g1 r set_sent) r) :: sample r s)).
  assert (EN : forall x, x <> r -> nd (gr a0) x = nd (gr s) x).
  { intros x Nx. simpl. rewrite (proj2 (Nat.eqb_neq x r)) by auto. now apply E1. }
  assert (A0 : advance s a0 m n F).
  { apply advance_refl; try (unfold last; now rewrite EN by auto); unfold a0; cbn [log shown];
      [rewrite (proj2 (Nat.eqb_neq r m)) by auto|rewrite (proj2 (Nat.eqb_neq r n)) by auto];
      apply shown_sample. }
  apply (advance_trans s a0); auto.
  assert (Qm0 : settled (gr a0) m) by (apply (settled_nd (gr s)); auto).
  assert (Qn0 : settled (gr a0) n) by (apply (settled_nd (gr s)); auto).
  assert (Hk : forall c, In c (children g1 r) -> r < c).
  { intros c Hc. destruct (wf_kids _ W1 _ _ Hc) as [_ Hp]. now apply (wf_par _ W1) in Hp. }
  pose proof (tw_par _ _ _ _ _ TW) as HP.
  destruct (in_dec Nat.eq_dec r (parents (gr s) n)) as [Hr|Hr].
  - assert (Hcn : In n (children g1 r)).
    { rewrite (ss_children _ _ S1). apply (wf_link _ Wf); auto. apply (tw_an _ _ _ _ _ TW). }
    assert (Hcm : In m (children g1 r)).
    { rewrite (ss_children _ _ S1). apply (wf_link _ Wf); [now rewrite HP|apply (tw_am _ _ _ _ _ TW)]. }
    assert (HS1 : StronglySorted lt (children g1 r)) by (rewrite (ss_children _ _ S1); apply HS).
    destruct (sorted_split _ m n HS1 Hcm Hcn (tw_lt _ _ _ _ _ TW)) as (l1 & l2 & l3 & EL & B1 & B2 & B3).
    rewrite EL in Hk |- *. clear Hcn Hcm HS1 EL. rewrite fold_left_app. cbn [fold_left].
    destruct (HF l1 a0) as (C0 & C1 & C2 & C3 & C4); auto.
    { intros c Hc. split; [apply Hk; apply in_app_iff; auto|]. apply B1 in Hc.
      pose proof (tw_lt _ _ _ _ _ TW). lia. }
    set (a1 := fold_left _ l1 a0) in *. clearbody a1.
    rewrite (alive_struct _ _ m C1), (tw_am _ _ _ _ _ TW).
    apply (advance_trans a0 a1); auto. clear C4.
    (* the pair is visited *)
    assert (LT : m < n) by apply (tw_lt _ _ _ _ _ TW).
    assert (Ln : n < cnt (gr s)) by (apply alive_cnt; [apply (wf_par _ Wf)|apply (tw_an _ _ _ _ _ TW)]).
    assert (Lrm : r < m) by (apply Hk; apply in_app_iff; simpl; auto).
    assert (PM : forall p, In p (parents (gr s) n) -> p < m).
    { intros p Hp. apply (wf_par _ Wf). now rewrite HP. }
    destruct f as [|f]; [lia|].
    destruct (tw_m _ _ _ _ _ TW) as (dm & um & Km & Dm).
    destruct (tw_n _ _ _ _ _ TW) as (dn & un & Kn & Dn).
    assert (TU : forall a b c, same_struct (gr s) (gr a) -> wf (gr a) -> b = n -> m <= c -> c <> n ->
      nd (gr (send_down changed (S f) c a)) b = nd (gr a) b /\
      shown (log (send_down changed (S f) c a)) b = shown (log a) b).
    { intros a b c Sa Wa -> Lc Nc. apply send_skip; auto.
      intros p. rewrite (ss_parents _ _ Sa). intros Hp. apply PM in Hp. lia. }
    set (t := T (current_from (gr a1) (parents (gr a1) n))).
    assert (LEN : forall a, same_struct (gr s) (gr a) ->
      length (current_from (gr a) (parents (gr a) n)) = length (parents (gr s) n)).
    { intros a Sa. unfold current_from. now rewrite map_length, (ss_parents _ _ Sa). }
    pose proof (visit_inner f m a1 dm um C0) as VM.
    rewrite (ss_kind _ _ C1) in VM. specialize (VM Km C2).
    assert (EPM : parents (gr a1) m = parents (gr a1) n) by now rewrite !(ss_parents _ _ C1).
    rewrite EPM, (Dm _ (LEN a1 C1)) in VM. fold t in VM.
    pose proof (visit_last (S f) m a1 C2 _ VM) as VL.
    destruct (TU a1 n m C1 C0 eq_refl (le_n m)) as [X1 X2]; [lia|].
    assert (SB : same_struct (gr s) (gr (send_down changed (S f) m a1))).
    { eapply ss_trans; [exact C1|apply (fs_ss _ _ (fs_send_down changed (S f) m a1))]. }
    assert (WB : wf (gr (send_down changed (S f) m a1))) by (now apply wf_send_down).
    assert (CP : forall p, In p (parents (gr s) n) -> cur (gr (send_down changed (S f) m a1)) p = cur (gr a1) p).
    { intros p Hp. unfold cur. now rewrite (proj1 (send_small changed changed_sound (S f) m a1 p C0 (PM p Hp))). }
    assert (Qm2 : settled (gr (send_down changed (S f) m a1)) m) by (now apply send_settled).
    assert (Qn2 : settled (gr (send_down changed (S f) m a1)) n) by (now apply send_settled).
    set (a2 := send_down changed (S f) m a1) in *. clearbody a2.
    (* what lies between *)
    rewrite fold_left_app. cbn [fold_left].
    assert (G : forall cs (a : st V W), wf (gr a) -> same_struct (gr s) (gr a) -> settled (gr a) m -> settled (gr a) n ->
      (forall c, In c cs -> m < c /\ c <> n) ->
      let b := fold_left (fun s0 c => if alive (gr s0) c then send_down changed (S f) c s0 else s0) cs a in
      wf (gr b) /\ same_struct (gr s) (gr b) /\ settled (gr b) m /\ settled (gr b) n /\
      (forall x, x = n \/ x <= m -> nd (gr b) x = nd (gr a) x /\ shown (log b) x = shown (log a) x)).
    { induction cs as [|c cs IHc]; intros a Wa Sa Pm Pn Hc; cbv zeta; [simpl; auto 10|]. cbn [fold_left].
      assert (Hcs : forall c', In c' cs -> m < c' /\ c' <> n) by (intros c' Hc'; apply Hc; now right).
      destruct (Hc c (or_introl eq_refl)) as (Lc & Nc).
      destruct (alive (gr a) c); [|now apply IHc].
      destruct (IHc (send_down changed (S f) c a)) as (D0 & D1 & D2 & D3 & D4); auto.
      - now apply wf_send_down.
      - eapply ss_trans; [exact Sa|apply (fs_ss _ _ (fs_send_down changed (S f) c a))].
      - now apply send_settled.
      - now apply send_settled.
      - split; auto. split; auto. split; auto. split; auto. intros x Hx.
        destruct (D4 x Hx) as [-> ->]. destruct Hx as [->|Hx].
        + apply TU; auto. lia.
        + apply send_small; auto. lia. }
    destruct (G l2 a2) as (D0 & D1 & D2 & D3 & D4); auto.
    { intros c Hc. apply B2 in Hc. lia. }
    set (a3 := fold_left _ l2 a2) in *. clearbody a3.
    rewrite (alive_struct _ _ n D1), (tw_an _ _ _ _ _ TW).
    pose proof (visit_inner f n a3 dn un D0) as VN.
    rewrite (ss_kind _ _ D1) in VN. specialize (VN Kn D3).
    rewrite (Dn _ (LEN a3 D1)) in VN.
    assert (ET : current_from (gr a3) (parents (gr a3) n) = current_from (gr a1) (parents (gr a1) n)).
    { rewrite !(ss_parents _ _ D1), !(ss_parents _ _ C1). apply map_ext_in. intros p Hp.
      rewrite <- CP by auto. unfold cur. destruct (D4 p) as [-> _]; auto. right. apply PM in Hp. lia. }
    rewrite ET in VN. fold t in VN.
    pose proof (visit_last (S f) n a3 D3 _ VN) as VNL.
    destruct (D4 n (or_introl eq_refl)) as [Y1 Y2]. destruct (D4 m (or_intror (le_n m))) as [Y3 Y4].
    assert (Z1 : last (gr a3) n = last (gr a1) n) by (unfold last; now rewrite Y1, X1).
    rewrite Z1 in VN, VNL. rewrite Y2, X2 in VN.
    destruct (send_small changed changed_sound (S f) n a3 m D0 LT) as [Z2 Z3].
    assert (SC : same_struct (gr s) (gr (send_down changed (S f) n a3))).
    { eapply ss_trans; [exact D1|apply (fs_ss _ _ (fs_send_down changed (S f) n a3))]. }
    assert (WC : wf (gr (send_down changed (S f) n a3))) by (now apply wf_send_down).
    assert (Qm4 : settled (gr (send_down changed (S f) n a3)) m) by (now apply send_settled).
    assert (Qn4 : settled (gr (send_down changed (S f) n a3)) n) by (now apply send_settled).
    set (a4 := send_down changed (S f) n a3) in *. clearbody a4.
    assert (Z4 : last (gr a4) m = last (gr a2) m) by (unfold last; now rewrite Z2, Y3).
    destruct (G l3 a4) as (F0 & F1 & F2 & F3 & F4); auto.
    { intros c Hc. apply B3 in Hc. lia. }
    set (a5 := fold_left _ l3 a4) in *. clearbody a5.
    destruct (F4 n (or_introl eq_refl)) as [W3 W4]. destruct (F4 m (or_intror (le_n m))) as [W5 W6].
    assert (R1 : last (gr a5) m = last (gr a4) m) by (unfold last; now rewrite W5).
    assert (R2 : last (gr a5) n = last (gr a4) n) by (unfold last; now rewrite W3).
    assert (TH : thin F [t] (last (gr a1) n) =
      match F t with Some x => if changed x (last (gr a1) n) then [x] else [] | None => [] end).
    { simpl. destruct (F t); auto. }
    destruct (changed t (last (gr a1) m)) eqn:EQ.
    + exists [t], [t]. rewrite TH, R1, R2, Z4, VL, VNL, W6, W4, Z3, Y4, VM, VN.
      split; auto. split; auto. split; [repeat constructor|]. auto.
    + apply changed_sound in EQ. exists [], [t]. rewrite TH, R1, R2, Z4, VL, VNL, W6, W4, Z3, Y4, VM, VN.
      split; auto. split; auto. split; auto. rewrite EQ. apply (rep_again _ [] []). constructor.
  - destruct (HF (children g1 r) a0) as (C0 & C1 & C2 & C3 & C4); auto.
    intros c Hc. split; auto. destruct (wf_kids _ W1 _ _ Hc) as [_ Hp]. rewrite (ss_parents _ _ S1) in Hp.
    split; intros ->; auto. apply Hr. now rewrite <- HP.
Qed.

Lemma sends_twin : forall ns s m n T F, wf (gr s) -> twin (gr s) m n T F -> SI (gr s) ->
  ~ In m ns -> ~ In n ns -> settled (gr s) m -> settled (gr s) n ->
  advance s (fold_left (fun s n => send_down_node changed n s) ns s) m n F.
Proof.
  induction ns as [|r ns IH]; intros s m n T F Wf TW HS Nm Nn Qm Qn; cbn [fold_left].
  { now apply advance_refl. }
  pose proof (fs_ss _ _ (fs_send_down changed (S (cnt (gr s))) r s)) as S1.
  assert (W1 : wf (gr (send_down_node changed r s))) by (now apply wf_send_down).
  apply (advance_trans s (send_down_node changed r s)).
  - apply (send_twin _ r s m n T F); auto; try lia; intros ->; [apply Nm|apply Nn]; now left.
  - apply (IH _ m n T F); auto.
    + eapply twin_ss; eauto.
    + intros x. unfold send_down_node. rewrite (ss_children _ _ S1). apply HS.
    + intros Hi. apply Nm. now right.
    + intros Hi. apply Nn. now right.
    + now apply send_settled.
    + now apply send_settled.
Qed.

(** ** Invariant *)
Definition beside s m n (F : V -> option V) (a : nat -> V) (c : nat) : Prop :=
  exists ts, rep (a m) (shown_since (log s) m c) ts /\ shown_since (log s) n c = thin F ts (a n).
Definition WI s : Prop := forall m n T F, twin (gr s) m n T F ->
  forall c a, n <= c -> c < cnt (gr s) -> UIa s c a -> beside s m n F a c.

Lemma UIa_fun : forall s c a b x, UIa s c a -> UIa s c b -> x <= c -> a x = b x.
Proof using Type.
  intros s c a b x (A1 & A2 & _) (B1 & B2 & _) L. destruct (Nat.eq_dec x c) as [->|N].
  - congruence.
  - assert (Lx : x < c) by lia. specialize (A2 x Lx). specialize (B2 x Lx). congruence.
Qed.

Lemma step_WI : forall s s', step s s' -> Inv changed (gr s) -> SI (gr s) -> NI s -> UI changed s ->
  WI s -> WI s'.
Proof using changed_sound ordN_in.
  intros s s' H HI HS HN HU HW m n T F TW c a Lc L UA.
  pose proof (step_Inv changed changed_sound ordN _ _ H HI) as [HI' HE].
  pose proof HI as [Wf _]. pose proof HI' as [Wf' _].
  assert (HA : forall n, n < cnt (gr s) -> alive (gr s') n = true -> alive (gr s) n = true)
    by (intros; eapply step_alive; eauto).
  (* the values at the time when c was made *)
  assert (OLD : n < cnt (gr s) -> c < cnt (gr s) -> made_with (log s') c = made_with (log s) c ->
    (forall p, shown_when (log s') p c = shown_when (log s) p c) ->
    exists a0, UIa s c a0 /\ twin (gr s) m n T F /\ beside s m n F a0 c /\ a m = a0 m /\ a n = a0 n).
  { intros Ln L0 EM EW. assert (TW0 : twin (gr s) m n T F) by (eapply twin_ext; eauto).
    destruct (HU c L0) as (a0 & U0). exists a0. split; auto. split; auto. split; [eapply HW; eauto|].
    assert (X : forall x, x <= c -> a x = a0 x).
    { intros x Lx. destruct UA as (A1 & A2 & _). destruct U0 as (B1 & B2 & _).
      destruct (Nat.eq_dec x c) as [->|N]; [congruence|].
      assert (Lx' : x < c) by lia. specialize (A2 x Lx'). specialize (B2 x Lx'). rewrite EW in A2. congruence. }
    pose proof (tw_lt _ _ _ _ _ TW). split; apply X; lia. }
  assert (FR : cnt (gr s') = cnt (gr s) ->
     (forall p, shown_since (log s') p c = shown_since (log s) p c) ->
     (forall p, shown_when (log s') p c = shown_when (log s) p c) ->
     made_with (log s') c = made_with (log s) c -> beside s' m n F a c).
  { intros C T1 T2 T3. rewrite C in L. destruct OLD as (a0 & O1 & O2 & (ts & O3 & O4) & O5 & O6); auto; [lia|].
    exists ts. rewrite !T1, O5, O6. auto. }
  assert (SD : forall ns s1, s' = send_roots changed ns s1 -> same_struct (gr s) (gr s1) -> wf (gr s1) ->
    (forall q, last (gr s1) q = last (gr s) q) -> log s1 = log s \/ (exists r v, log s1 = EWrite r v :: log s) ->
    (forall n down up, In n ns -> kind_of (gr s) n <> KInner down up) ->
    (forall n down up, kind_of (gr s) n = KInner down up -> nd (gr s1) n = nd (gr s) n) ->
    beside s' m n F a c).
  { intros ns s1 -> S1 W1 E1 E2 E5 E6.
    rewrite (ss_cnt _ _ (send_roots_ss changed ns s1)), (ss_cnt _ _ S1) in L.
    unfold send_roots in *. set (s0 := emit (ECommit ns (world (gr s1))) s1) in *.
    destruct (sends_log changed ns s0) as (l & EL & Hl).
    assert (EL0 : forall x, shown_since (log s0) x c = shown_since (log s) x c /\
      shown_when (log s0) x c = shown_when (log s) x c /\ made_with (log s0) c = made_with (log s) c).
    { intros x. unfold s0. cbn [log emit shown_since shown_when made_with].
      destruct E2 as [->|(r & v & ->)]; auto. }
    destruct OLD as (a0 & O1 & O2 & (ts & O3 & O4) & O5 & O6); auto; [lia| | |].
    { rewrite EL. destruct (since_sends l (log s0) 0 c Hl) as (_ & -> & _). apply (EL0 0). }
    { intros p. rewrite EL, when_sends by auto. apply EL0. }
    destruct (tw_m _ _ _ _ _ O2) as (dm & um & Km & _). destruct (tw_n _ _ _ _ _ O2) as (dn & un & Kn & _).
    assert (TW0 : twin (gr s0) m n T F) by (eapply twin_ss; eauto).
    assert (ST : forall x d u, kind_of (gr s) x = KInner d u -> alive (gr s) x = true -> not_reread (gr s) x ->
      settled (gr s0) x).
    { intros x d u K A NR. apply (settled_nd (gr s)); [apply (E6 x d u K)|]. apply HN. split; eauto. }
    destruct (sends_twin ns s0 m n T F) as (vs & us & A1 & A2 & A3 & A4 & A5); auto.
    - intros x. change (gr s0) with (gr s1). rewrite (ss_children _ _ S1). apply HS.
    - intros Hi. exact (E5 m dm um Hi Km).
    - intros Hi. exact (E5 n dn un Hi Kn).
    - eapply ST; eauto; apply O2.
    - eapply ST; eauto; apply O2.
    - rewrite EL, shown_app in A1, A2. apply app_inv_tail in A1. apply app_inv_tail in A2.
      change (gr s0) with (gr s1) in A2, A3. rewrite !E1 in *.
      destruct O1 as (U1 & U2 & U3 & U4).
      exists (us ++ ts). rewrite EL, O5, O6.
      destruct (since_sends l (log s0) m c Hl) as (-> & _). destruct (since_sends l (log s0) n c Hl) as (-> & _).
      destruct (EL0 m) as [-> _]. destruct (EL0 n) as [-> _].
      pose proof (tw_lt _ _ _ _ _ O2) as LT.
      rewrite U3 in A2, A3 by lia. rewrite A1, A2, O4, thin_app. split.
      + apply rep_app; auto. 
      + reflexivity. }
  destruct H; try (apply FR; auto; fail).
  - (* commit *)
    apply (SD ns s); auto; [apply ss_refl|]. intros x down up Hi K. destruct (H x Hi). rewrite K in *. discriminate.
  - (* write *)
    pose proof (fc_push_down changed n0 v (gr s)) as P0.
    apply FR; auto. apply (ss_cnt _ _ (fc_ss _ _ _ P0)).
  - (* automatic state *)
    pose proof (fc_push_down changed n0 v (gr s)) as P0.
    apply (SD [n0] (wr changed n0 v s)); auto.
    + apply (fc_ss _ _ _ P0).
    + apply (wf_push_down changed changed_sound); auto. apply (noninner_out _ _ Wf). rewrite H. discriminate.
    + apply (fc_last _ _ _ P0).
    + right. exists n0, v. reflexivity.
    + intros x down up [<-|[]] K. congruence.
    + intros x d u K. simpl. apply nd_push_other. congruence.
  - (* setter, transactional *)
    pose proof (fc_push_down changed n0 v (gr s)) as P0.
    apply FR; auto. apply (ss_cnt _ _ (fc_ss _ _ _ P0)).
  - (* setter, automatic *)
    pose proof (fc_push_down changed n0 v (gr s)) as P0.
    apply (SD [n0] (mark_rcp n0 (with_gr s (push_down changed n0 v)))); auto.
    + eapply ss_trans; [apply (fc_ss _ _ _ P0)|]. apply ss_upd. intros []; simpl; auto 10.
    + eapply wf_vals with (g := push_down changed n0 v (gr s)).
      * apply (wf_push_down changed changed_sound); auto. apply (noninner_out _ _ Wf). rewrite H. discriminate.
      * apply ss_upd. intros []; simpl; auto 10.
      * intros x Hx. pose proof (wf_push_down changed changed_sound _ n0 v Wf) as Wp.
        assert (Ln : n0 < cnt (gr s)) by (apply (noninner_out _ _ Wf); rewrite H; discriminate).
        destruct (wf_out _ (Wp Ln) x Hx) as (A1 & A2 & A3 & A4 & A5 & A6 & A7 & A8).
        unfold nsd, nn, last, cur in *. simpl.
        destruct (Nat.eqb_spec x n0) as [->|]; simpl; auto.
    + intros q. unfold last. simpl. destruct (q =? n0); apply (fc_last _ _ _ P0).
    + intros x down up [<-|[]] K. congruence.
    + intros x d u K. assert (Nx : x <> n0) by congruence. simpl.
      rewrite (proj2 (Nat.eqb_neq x n0)) by auto. now apply nd_push_other.
  - (* new node *)
    unfold new_node in *. simpl in *.
    destruct (add_rest changed changed_sound (gr s) k ps v H H0) as (C & _).
    rewrite C in L. destruct (Nat.eq_dec c (cnt (gr s))) as [->|N].
    + exists []. simpl. rewrite Nat.eqb_refl. split; [constructor|reflexivity].
    + assert (EN : (cnt (gr s) =? c) = false) by (apply Nat.eqb_neq; auto).
      destruct OLD as (a0 & O1 & O2 & (ts & O3 & O4) & O5 & O6); simpl; intros; rewrite ?EN; auto; try lia.
      exists ts. simpl. rewrite EN, O5, O6. auto.
  - (* refresh *)
    pose proof (fr_refresh changed ordN (S n0) n0 (gr s)) as P0.
    apply FR; auto. cbn [gr log with_gr]. apply (ss_cnt _ _ (fr_ss _ _ P0)).
Qed.

(** ** What the reader shows, and readers made from it *)
Lemma twin_steady : forall g m n T F, twin g m n T F -> steady g n.
Proof using Type. intros g m n T F H. destruct (tw_n _ _ _ _ _ H) as (d & u & K & _). split; [eauto|]. split; apply H. Qed.

Lemma beside_latest : forall s m n c T F G a, wf (gr s) -> WI s -> UIa s c a -> c < cnt (gr s) ->
  twin (gr s) m n T F -> (n = c /\ (forall v, G v = F v) \/ exists K, cpath (gr s) n c K /\
    forall v, G v = match F v with Some y => K y | None => None end) ->
  last (gr s) c = latest G (shown_since (log s) m c) (a c) \/
  last (gr s) c = latest G (shown_since (log s) m c ++ [a m]) (a c).
Proof.
  intros s m n c T F G a Wf HW UA L TW [(-> & EG)|(K & CP & EG)].
  - destruct (HW m c T F TW c a (le_n c) L UA) as (ts & R & E).
    destruct UA as (_ & _ & U3 & _). rewrite U3, E, (hd_thin changed changed_sound) by auto.
    destruct (rep_latest F (a m) _ ts (a c) R) as [-> | ->]; [left|right]; apply latest_ext; intros; now rewrite EG.
  - assert (Lc : n <= c) by (apply Nat.lt_le_incl; eapply cpath_le; eauto).
    destruct (HW m n T F TW c a Lc L UA) as (ts & R & E).
    destruct (cpath_latest_from changed changed_sound s n c K a Wf UA CP) as [A1 A2].
    rewrite A1, E, (latest_thin changed changed_sound) by (apply A2; eapply twin_steady; eauto).
    destruct (rep_latest (fun v => match F v with Some y => K y | None => None end) (a m) _ ts (a c) R) as [-> | ->];
      [left|right]; apply latest_ext; intros; now rewrite EG.
Qed.
End Twin.
