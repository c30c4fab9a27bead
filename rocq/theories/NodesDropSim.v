(** C16, part 4: every execution on the left is matched by one on the right. *)
From Coq Require Import List Arith Bool Lia.
From Verif Require Import NodesModel NodesBase NodesInv NodesExec NodesEv NodesNotify NodesTold
                          NodesFacts NodesTrack NodesDropSpec NodesDrop NodesDropRun NodesDropCmd.
Import ListNotations.

Section DropSim.
Context {V W : Type}.
Variable changed : V -> V -> bool.
Hypothesis changed_sound : forall a b, changed a b = false -> a = b.
Variable ordV : graph V W -> nat -> list (nat * V) -> list (nat * V).
Variable ordN : graph V W -> nat -> list nat -> list nat.

Set Default Proof Using "Type changed_sound".
Implicit Types g : graph V W.
Implicit Types s : st V W.

Notation exec := (exec changed ordV ordN).
Notation runs := (runs changed ordV ordN).
Notation ctx := (ctx changed).
Notation step := (step changed ordN).

Lemma step_ctx : forall s s', step s s' -> ctx s -> ctx s'.
Proof.
  intros s s' H [HI HF]. split.
  - apply (step_Inv changed changed_sound ordN _ _ H HI).
  - exact (step_fresh changed changed_sound ordN _ _ H HI HF).
Qed.

Lemma steps_alive : forall s s', steps changed ordN s s' -> Inv changed (gr s) ->
  forall m, m < cnt (gr s) -> alive (gr s') m = true -> alive (gr s) m = true.
Proof.
  intros s s' H HI m L A. induction H as [s|s s1 s2 H IH H1]; auto.
  destruct (steps_Inv changed changed_sound ordN _ _ H HI) as [I1 [C1 _]].
  apply IH; auto. eapply (step_alive changed changed_sound ordN); eauto. lia.
Qed.

Record post (t : task V W) s s' : Prop := {
  p_ctx : ctx s';
  p_ext : ext (gr s) (gr s');
  p_ntf : ntf_same (gr s) (gr s');
  p_alive : forall m, m < cnt (gr s) -> alive (gr s') m = true -> alive (gr s) m = true;
  p_grows : forall m, ntf (gr s) m = true -> not_last_kids t m -> grows m (gr s) (gr s')
}.
Lemma ev_post : forall t s b s', ev changed ordV ordN t s b s' -> ctx s -> post t s s'.
Proof.
  intros t s b s' E [HI HF].
  destruct (ev_Inv changed changed_sound ordV ordN _ _ _ _ E HI) as [I1 X1].
  destruct (ev_ntf changed changed_sound ordV ordN _ _ _ _ E HI HF) as [N1 F1].
  split; auto.
  - split; auto.
  - apply steps_alive; auto. eapply (ev_steps changed changed_sound); eauto.
  - exact (ev_grows changed changed_sound ordV ordN _ _ _ _ E HI HF).
Qed.
Lemma done_post : forall f t s s', exec f t s = Done s' -> ctx s -> post t s s'.
Proof.
  intros f t s s' E C. apply (ev_post t s true s'); auto. eapply exec_Done_ev; eauto.
Qed.
Lemma thrown_post : forall f t s s', exec f t s = Thrown s' -> ctx s -> post t s s'.
Proof.
  intros f t s s' E C. apply (ev_post t s false s'); auto. eapply exec_Thrown_ev; eauto.
Qed.
Lemma runs_done_post : forall t s s', runs t s (Done s') -> ctx s -> post t s s'.
Proof. intros t s s' [f F] C. eapply done_post; [apply (F f); lia|auto]. Qed.
Lemma runs_thrown_post : forall t s s', runs t s (Thrown s') -> ctx s -> post t s s'.
Proof. intros t s s' [f F] C. eapply thrown_post; [apply (F f); lia|auto]. Qed.

Lemma ctx_wf : forall s, ctx s -> wf (gr s).
Proof using Type. intros s [[Hw _] _]. exact Hw. Qed.
Lemma ctx_ok : forall s, ctx s -> ok (gr s).
Proof using Type. intros. now apply ok_wf, ctx_wf. Qed.
Lemma ctx_par : forall s, ctx s -> par_lt (gr s).
Proof using Type. intros. now apply wf_par, ctx_wf. Qed.

(** ** Slices of the list of children *)
Definition slice (i size : nat) (l : list nat) : list nat := skipn i (firstn size l).

Lemma slice_cons : forall l i size c, i < size -> nth_error l i = Some c ->
  slice i size l = c :: slice (S i) size l.
Proof using Type.
  unfold slice. induction l as [|x l IH]; intros i size c L E.
  - destruct i; discriminate.
  - destruct size as [|size]; [lia|]. destruct i as [|i]; simpl in *.
    + now injection E as ->.
    + rewrite (IH i size c); auto. lia.
Qed.
Lemma slice_end : forall l i size, size <= i -> slice i size l = [].
Proof using Type.
  intros l i size L. unfold slice. apply skipn_all2. rewrite firstn_length. lia.
Qed.
Lemma slice_app : forall l x i size, size <= length l -> slice i size (l ++ x) = slice i size l.
Proof using Type.
  intros l x i size L. unfold slice. rewrite firstn_app.
  replace (size - length l) with 0 by lia. now rewrite app_nil_r.
Qed.
Lemma slice_in : forall l i size x, In x (slice i size l) -> In x l.
Proof using Type.
  intros l i size x H. unfold slice in H.
  assert (A : forall k (l : list nat), In x (skipn k l) -> In x l).
  { induction k as [|k IH]; intros [|y r] I; simpl in *; auto. }
  apply A in H.
  assert (B : forall k (l : list nat), In x (firstn k l) -> In x l).
  { induction k as [|k IH]; intros [|y r] I; simpl in *; try contradiction.
    destruct I as [I|I]; auto. }
  now apply B in H.
Qed.

Hypothesis ordN_in : forall g m l x, In x (ordN g m l) -> In x l.
Hypothesis ordN_graph : forall g g' m l, ordN g m l = ordN g' m l.
Hypothesis ordV_graph : forall g g' m l, ordV g m l = ordV g' m l.
Variable n : nat.
Notation R := (R (V:=V) (W:=W) n).
Notation RS := (RS (V:=V) (W:=W) n).
Notation trace := (trace (V:=V) (W:=W) n).

Set Default Proof Using "Type changed_sound ordN_in ordN_graph ordV_graph".

(** ** Children that only exist on the right *)
Lemma right_region : forall sL sR, R (gr sL) (gr sR) -> ctx sL -> ctx sR ->
  forall c, region n (fun m => alive (gr sL) m = false) (gr (pin c sR)).
Proof.
  intros sL sR H CL CR c. pose proof (ctx_wf _ CR) as WR. split; simpl.
  - intros m k A I. change (In k (children (gr sR) m)) in I.
    destruct (wf_kids _ WR _ _ I) as [Lk Ip].
    split; [|split; auto; now apply (wf_par _ WR)].
    destruct (alive (gr sL) k) eqn:Ak; auto. rewrite <- (r_par _ _ _ H) in Ip.
    rewrite (alive_parent _ (ctx_par _ CL) _ _ Ip Ak) in A. discriminate.
  - intros m sl A I. change (In sl (slots (gr sR) m)) in I.
    destruct (Nat.eq_dec m n) as [->|N].
    + split; auto. now apply (r_quietR _ _ _ H).
    + exfalso. pose proof (r_slots _ _ _ H m N) as F.
      assert (Hh : handle (gr sL) m = true).
      { unfold handle. apply andb_true_iff. split.
        - apply Nat.ltb_lt. rewrite (r_cnt _ _ _ H).
          destruct (Nat.lt_ge_cases m (cnt (gr sR))) as [L|L]; auto.
          destruct (wf_out _ WR m L) as (_&_&_&E&_). rewrite E in I. destruct I.
        - destruct F; [destruct I|]. simpl. apply orb_true_r. }
      rewrite (alive_handle _ _ Hh) in A. discriminate.
Qed.

Lemma right_quiet : forall sL sR c, RS sL sR -> ctx sL -> ctx sR ->
  alive (gr sL) c = false -> alive (gr sR) c = true ->
  exists s1, runs (TNotify c) (pin c sR) (Done s1) /\ RS sL (unpin s1) /\ ctx (unpin s1) /\
    forall m, alive (gr sL) m = true -> nd (gr (unpin s1)) m = nd (gr sR) m.
Proof.
  intros sL sR c [H T] CL CR AL AR.
  destruct (quiet_notify changed ordV ordN n (fun m => alive (gr sL) m = false)
    _ c (pin c sR) (Nat.lt_succ_diag_r _)) as (s1 & F & U); auto.
  - now apply right_region.
  - now apply alive_more_pins.
  - exists s1. split; auto.
    assert (C1 : ctx (pin c sR)) by (now apply (ctx_pin changed changed_sound ordN)).
    assert (ND : forall m, alive (gr sL) m = true -> nd (gr (unpin s1)) m = nd (gr sR) m).
    { intros m A. apply (uh_rest _ _ _ _ _ U). intros [E _]. congruence. }
    split; [|split; auto].
    + split; [|simpl; now rewrite (uh_trace _ _ _ _ _ U)].
      apply (R_right n _ (gr sR)); auto.
      destruct U as [[K1 K2 K3 K4 K5 K6 K7 K8] _ _ _]. split; auto. simpl. now rewrite K3.
    + apply (ctx_unpin changed changed_sound ordN).
      apply (p_ctx _ _ _ (runs_done_post _ _ _ F C1)).
Qed.

Ltac fuel F := exists (S F); let f' := fresh "f'" in let Lf := fresh "Lf" in
  intros [|f'] Lf; [lia|]; cbn [NodesModel.exec].

(** The right side handles, on its own, the children the left side has lost. *)
Lemma drain : forall m old sL, ctx sL -> alive (gr sL) m = true ->
  forall j i size gb sR, size - i = j -> size <= length (children (gr sR) m) ->
  RS sL sR -> ctx sR ->
  match filter (alive (gr sL)) (slice i size (children (gr sR) m)) with
  | [] => exists sR' gb', runs (TKids m i size gb old) sR
            (Done (if gb' && negb old then with_gr sR' (collect m) else sR')) /\ RS sL sR'
  | c :: rest => exists i1 gb1 sR1, RS sL sR1 /\ ctx sR1 /\ i1 < size /\
      nth_error (children (gr sR1) m) i1 = Some c /\
      children (gr sR1) m = children (gr sR) m /\
      filter (alive (gr sL)) (slice (S i1) size (children (gr sR1) m)) = rest /\
      (forall r, runs (TKids m i1 size gb1 old) sR1 r -> runs (TKids m i size gb old) sR r)
  end.
Proof.
  intros m old sL CL A. induction j as [|j IH]; intros i size gb sR E L HR CR.
  - rewrite slice_end by lia. simpl. exists sR, gb. split; auto. fuel 0.
    assert (X : (i <? size) = false) by (apply Nat.ltb_ge; lia). now rewrite X.
  - assert (Li : i < size) by lia.
    assert (X : (i <? size) = true) by (now apply Nat.ltb_lt).
    destruct (nth_error (children (gr sR) m) i) as [c|] eqn:Ec;
      [|apply nth_error_None in Ec; lia].
    rewrite (slice_cons _ _ _ _ Li Ec). simpl.
    destruct (alive (gr sL) c) eqn:AL.
    { exists i, gb, sR. split; [auto|]. split; [auto|]. repeat (split; [auto; fail|]). auto. }
    pose proof (r_alive n _ _ m (proj1 HR) A) as AmR.
    destruct (alive (gr sR) c) eqn:AR.
    + destruct (right_quiet sL sR c HR CL CR AL AR) as (s1 & (f1 & F1) & HR1 & CR1 & ND1).
      assert (EC : children (gr (unpin s1)) m = children (gr sR) m).
      { unfold children. now rewrite ND1. }
      pose proof (r_alive n _ _ m (proj1 HR1) A) as AmR1.
      assert (GO : forall r, runs (TKids m (S i) size gb old) (unpin s1) r ->
                             runs (TKids m i size gb old) sR r).
      { intros r (f2 & F2). fuel (max f1 f2). rewrite X, Ec, AR, F1 by lia.
        cbn [finally andthen]. rewrite AmR1. apply F2. lia. }
      specialize (IH (S i) size gb (unpin s1)). rewrite EC in IH.
      specialize (IH ltac:(lia) L HR1 CR1).
      destruct (filter (alive (gr sL)) (slice (S i) size (children (gr sR) m))) as [|c0 rest].
      * destruct IH as (sR' & gb' & F & HR'). exists sR', gb'. split; auto.
      * destruct IH as (i1 & gb1 & sR1 & B1 & B2 & B3 & B4 & B5 & B6 & B7).
        exists i1, gb1, sR1. split; [auto|]. split; [auto|]. repeat (split; [auto; fail|]). auto.
    + assert (GO : forall r, runs (TKids m (S i) size true old) sR r ->
                             runs (TKids m i size gb old) sR r).
      { intros r (f2 & F2). fuel f2. rewrite X, Ec, AR. apply F2. lia. }
      specialize (IH (S i) size true sR ltac:(lia) L HR CR).
      destruct (filter (alive (gr sL)) (slice (S i) size (children (gr sR) m))) as [|c0 rest].
      * destruct IH as (sR' & gb' & F & HR'). exists sR', gb'. split; auto.
      * destruct IH as (i1 & gb1 & sR1 & B1 & B2 & B3 & B4 & B5 & B6 & B7).
        exists i1, gb1, sR1. split; [auto|]. split; [auto|]. repeat (split; [auto; fail|]). auto.
Qed.

(** ** Watchers of the other readers *)
Lemma next_slot_same : forall from (l l' : list (slot V W)), Forall2 (slot_same n) l l' ->
  match next_slot from l, next_slot from l' with
  | None, None => True
  | Some (sid, cb), Some (sid', cb') => sid = sid' /\
      forall v x x', obs_le n x x' -> psame n x' (cb v x) (cb' v x')
  | _, _ => False
  end.
Proof using Type.
  intros from l l' F. unfold next_slot.
  induction F as [|[a ca] [b cb] l l' Hab F IH]; simpl; auto.
  destruct Hab as [E Hab]. simpl in *. subst b. destruct (from <=? a); auto.
Qed.
Lemma has_slot_same : forall sid (l l' : list (slot V W)), Forall2 (slot_same n) l l' ->
  existsb (fun sl : slot V W => fst sl =? sid) l =
  existsb (fun sl : slot V W => fst sl =? sid) l'.
Proof using Type.
  intros sid l l' F. induction F as [|a b l l' [E _] F IH]; simpl; auto. now rewrite E, IH.
Qed.
Lemma has_slot_in : forall sid (l : list (slot V W)),
  existsb (fun sl : slot V W => fst sl =? sid) l = true <-> In sid (map fst l).
Proof using Type.
  intros sid l. rewrite existsb_exists, in_map_iff. split; intros (sl & A & B).
  - exists sl. apply Nat.eqb_eq in B. auto.
  - exists sl. split; auto. now apply Nat.eqb_eq.
Qed.
Lemma has_slot_R : forall gL gR m sid, R gL gR ->
  existsb (fun sl : slot V W => fst sl =? sid) (slots gL m) = true ->
  existsb (fun sl : slot V W => fst sl =? sid) (slots gR m) = true.
Proof using Type.
  intros gL gR m sid H E. destruct (Nat.eq_dec m n) as [->|N].
  - apply has_slot_in. apply has_slot_in in E. now apply (r_slotsn _ _ _ H).
  - now rewrite <- (has_slot_same sid _ _ (r_slots _ _ _ H m N)).
Qed.

Lemma slots_alive : forall f m from s s', exec f (TSlots m from) s = Done s' ->
  alive (gr s) m = true -> alive (gr s') m = true.
Proof using Type.
  induction f as [|f IH]; intros m from s s' E A; [discriminate|].
  cbn [NodesModel.exec] in E.
  destruct (next_slot from (slots (gr s) m)) as [[sid cb]|]; [|injection E as <-; auto].
  destruct (exec f (TProg _) _) as [s1|s1| | |]; try discriminate.
  destruct (alive (gr s1) m) eqn:A1; [|unfold gone in E; destruct (is_root _); discriminate].
  destruct (existsb _ _); [|discriminate]. eauto.
Qed.

(** ** The simulation *)
Definition rrel (r r' : res V W) : Prop :=
  match r, r' with
  | Done s, Done s' | Thrown s, Thrown s' => RS s s'
  | _, _ => False
  end.

Definition tsim (t t' : task V W) (sL sR : st V W) : Prop :=
  match t, t' with
  | TProg p, TProg p' => psame n (get_obs sR) p p'
  | TCmd c, TCmd c' => csame n c c'
  | TSend m v, TSend m' v' => m = m' /\ v = v'
  | TPushAll m vs, TPushAll m' vs' => m = m' /\ vs = vs'
  | TPush l, TPush l' => l = l'
  | TRoots l, TRoots l' => l = l'
  | TNotify m, TNotify m' => m = m'
  | TSlots m i, TSlots m' i' => m = m' /\ i = i' /\ m <> n
  | TKids m i size gb old, TKids m' i' size' gb' old' =>
      m = m' /\ old = old' /\ alive (gr sL) m = true /\ ntf (gr sL) m = true /\
      size <= length (children (gr sL) m) /\ size' <= length (children (gr sR) m) /\
      filter (alive (gr sL)) (slice i size (children (gr sL) m)) =
      filter (alive (gr sL)) (slice i' size' (children (gr sR) m))
  | _, _ => False
  end.

Section Step.
Variable f : nat.
Definition simulated (t t' : task V W) (sL sR : st V W) (r : res V W) : Prop :=
  RS sL sR -> ctx sL -> ctx sR -> tsim t t' sL sR ->
  exists r', runs t' sR r' /\ rrel r r'.
Hypothesis IH : forall t t' sL sR r, exec f t sL = r -> finished r -> simulated t t' sL sR r.

Set Default Proof Using "Type changed_sound ordN_in ordN_graph ordV_graph IH".

Lemma IHd : forall t t' sL sR s1, exec f t sL = Done s1 -> RS sL sR -> ctx sL -> ctx sR ->
  tsim t t' sL sR ->
  exists s1', runs t' sR (Done s1') /\ RS s1 s1' /\ post t sL s1 /\ post t' sR s1'.
Proof.
  intros t t' sL sR s1 E HR CL CR TS.
  destruct (IH t t' sL sR _ E I HR CL CR TS) as (r' & F & Q).
  destruct r' as [s1'|s1'| | |]; try contradiction.
  exists s1'. split; [exact F|]. split; [exact Q|].
  split; [eapply done_post; eauto|eapply runs_done_post; eauto].
Qed.
Lemma IHt : forall t t' sL sR s1, exec f t sL = Thrown s1 -> RS sL sR -> ctx sL -> ctx sR ->
  tsim t t' sL sR ->
  exists s1', runs t' sR (Thrown s1') /\ RS s1 s1' /\ post t sL s1 /\ post t' sR s1'.
Proof.
  intros t t' sL sR s1 E HR CL CR TS.
  destruct (IH t t' sL sR _ E I HR CL CR TS) as (r' & F & Q).
  destruct r' as [s1'|s1'| | |]; try contradiction.
  exists s1'. split; [exact F|]. split; [exact Q|].
  split; [eapply thrown_post; eauto|eapply runs_thrown_post; eauto].
Qed.

Lemma RS_see : forall sL sR, RS sL sR -> RS (see sL) (see sR).
Proof using Type. intros sL sR [H T]. split; auto. Qed.

Lemma sim_prog : forall p p' sL sR r, exec (S f) (TProg p) sL = r -> finished r ->
  simulated (TProg p) (TProg p') sL sR r.
Proof.
  intros p p' sL sR r E Fin HR CL CR TS. simpl in TS.
  remember (get_obs sR) as o eqn:Eo. cbn [NodesModel.exec] in E.
  destruct TS as [o|o|o c c' k k' HC HK|o p p' k k' HP HK|o c k p' HC HK].
  - subst r. exists (Done sR). split; auto. fuel 0. reflexivity.
  - subst r. exists (Thrown (emit EThrow sR)). split; [fuel 0; reflexivity|].
    destruct HR as [H T]. split; auto. simpl. now rewrite T.
  - destruct (exec f (TCmd c) sL) as [s1|s1| | |] eqn:E1; simpl in E;
      try (subst r; contradiction).
    + destruct (IHd (TCmd c) (TCmd c') sL sR s1 E1 HR CL CR HC)
        as (s1' & (f1 & F1) & H1 & P1 & P2).
      destruct (IH (TProg (k (get_obs s1))) (TProg (k' (get_obs s1'))) (see s1) (see s1') r E Fin)
        as (r' & (f2 & F2) & Q); auto using RS_see.
      * apply (p_ctx _ _ _ P1).
      * apply (p_ctx _ _ _ P2).
      * simpl. apply HK. apply obs_R. apply H1.
      * exists r'. split; auto. fuel (max f1 f2). rewrite F1 by lia. simpl. apply F2. lia.
    + destruct (IHt (TCmd c) (TCmd c') sL sR s1 E1 HR CL CR HC)
        as (s1' & (f1 & F1) & H1 & P1 & P2).
      exists (Thrown s1'). split; [|subst r; exact H1].
      fuel f1. rewrite F1 by lia. reflexivity.
  - assert (GO : forall (b : bool) s1, (if b then exec f (TProg p) sL = Done s1
                               else exec f (TProg p) sL = Thrown s1) ->
       exec f (TProg (k b (get_obs s1))) (see s1) = r ->
       exists r', runs (TProg (PTry p' k')) sR r' /\ rrel r r').
    { intros b s1 E1 E2.
      assert (HH : exists s1', runs (TProg p') sR (if b then Done s1' else Thrown s1') /\
                    RS s1 s1' /\ ctx s1 /\ ctx s1').
      { subst o. destruct b.
        - destruct (IHd (TProg p) (TProg p') sL sR s1 E1 HR CL CR HP)
            as (s1' & F1 & H1 & P1 & P2). exists s1'. split; [exact F1|].
          split; [exact H1|]. split; [apply (p_ctx _ _ _ P1)|apply (p_ctx _ _ _ P2)].
        - destruct (IHt (TProg p) (TProg p') sL sR s1 E1 HR CL CR HP)
            as (s1' & F1 & H1 & P1 & P2). exists s1'. split; [exact F1|].
          split; [exact H1|]. split; [apply (p_ctx _ _ _ P1)|apply (p_ctx _ _ _ P2)]. }
      destruct HH as (s1' & (f1 & F1) & H1 & C1 & C2).
      destruct (IH (TProg (k b (get_obs s1))) (TProg (k' b (get_obs s1'))) (see s1) (see s1')
                   r E2 Fin) as (r' & (f2 & F2) & Q); auto using RS_see.
      - simpl. apply HK. apply obs_R. apply H1.
      - exists r'. split; auto. fuel (max f1 f2). rewrite F1 by lia.
        destruct b; apply F2; lia. }
    destruct (exec f (TProg p) sL) as [s1|s1| | |] eqn:E1; simpl in E;
      try (subst r; contradiction).
    + exact (GO true s1 eq_refl E).
    + exact (GO false s1 eq_refl E).
  - destruct (exec f (TCmd c) sL) as [s1|s1| | |] eqn:E1; simpl in E;
      try (subst r; contradiction).
    + pose proof (done_post _ _ _ _ E1 CL) as P1.
      assert (H1 : RS s1 sR).
      { destruct f as [|f0]; [discriminate|]. cbn [NodesModel.exec] in E1.
        pose proof (ctx_wf _ CL) as WL.
        destruct HC as [|sid];
          match type of E1 with (if ?b then _ else _) = _ => destruct b; [|discriminate] end;
          injection E1 as <-.
        - exact (drop_left n sL sR HR WL).
        - exact (unwatch_left n sid sL sR HR WL). }
      apply (IH (TProg (k (get_obs s1))) (TProg p') (see s1) sR r E Fin); auto.
      * apply (p_ctx _ _ _ P1).
      * simpl. rewrite <- Eo. apply HK. rewrite Eo. apply obs_R. apply H1.
    + exfalso. destruct f as [|f0]; [discriminate|]. cbn [NodesModel.exec] in E1.
      destruct HC as [|sid];
        match type of E1 with (if ?b then _ else _) = _ => destruct b; discriminate end.
Qed.

Lemma RS_emit : forall e e' sL sR, show n e = show n e' -> RS sL sR ->
  RS (emit e sL) (emit e' sR).
Proof using Type.
  intros e e' sL sR E [H T]. split; [exact H|]. simpl. now rewrite E, T.
Qed.

(** A call made while a [shared_ptr] local keeps [m] alive. *)
Lemma fin_pin : forall m t t' sL sR r, alive (gr sL) m = true ->
  finally (exec f t (pin m sL)) unpin = r -> finished r ->
  RS sL sR -> ctx sL -> ctx sR -> tsim t t' (pin m sL) (pin m sR) ->
  match r with
  | Done s1 => exists s1', RS s1 s1' /\ ctx s1 /\ ctx s1' /\
      (exists F, forall f', F <= f' -> finally (exec f' t' (pin m sR)) unpin = Done s1') /\
      (exists a a', s1 = unpin a /\ s1' = unpin a' /\ post t (pin m sL) a /\
                    post t' (pin m sR) a')
  | Thrown s1 => exists s1', RS s1 s1' /\
      (exists F, forall f', F <= f' -> finally (exec f' t' (pin m sR)) unpin = Thrown s1')
  | _ => False
  end.
Proof.
  intros m t t' sL sR r A E Fin HR CL CR TS.
  pose proof (ctx_wf _ CL) as WL.
  pose proof (pin_R n m sL sR HR WL A) as HP.
  pose proof (ctx_pin changed changed_sound ordN m sL CL A) as CPL.
  pose proof (ctx_pin changed changed_sound ordN m sR CR (r_alive n _ _ m (proj1 HR) A)) as CPR.
  destruct (exec f t (pin m sL)) as [a|a| | |] eqn:E1; simpl in E; subst r; try contradiction.
  - destruct (IHd t t' _ _ a E1 HP CPL CPR TS) as (a' & (f1 & F1) & H1 & P1 & P2).
    exists (unpin a').
    split; [apply unpin_R; auto; apply ctx_wf, (p_ctx _ _ _ P1)|].
    split; [apply (ctx_unpin changed changed_sound ordN), (p_ctx _ _ _ P1)|].
    split; [apply (ctx_unpin changed changed_sound ordN), (p_ctx _ _ _ P2)|].
    split; [|now exists a, a'].
    exists f1. intros f' L. now rewrite F1.
  - destruct (IHt t t' _ _ a E1 HP CPL CPR TS) as (a' & (f1 & F1) & H1 & P1 & P2).
    exists (unpin a').
    split; [apply unpin_R; auto; apply ctx_wf, (p_ctx _ _ _ P1)|].
    exists f1. intros f' L. now rewrite F1.
Qed.

Lemma fin_pin_r : forall m t t' sL sR r, alive (gr sL) m = true ->
  finally (exec f t (pin m sL)) unpin = r -> finished r ->
  RS sL sR -> ctx sL -> ctx sR -> tsim t t' (pin m sL) (pin m sR) ->
  exists F r', (forall f', F <= f' -> finally (exec f' t' (pin m sR)) unpin = r') /\ rrel r r'.
Proof.
  intros m t t' sL sR r A E Fin HR CL CR TS.
  pose proof (fin_pin m t t' sL sR r A E Fin HR CL CR TS) as H.
  destruct r as [s1|s1| | |]; try contradiction.
  - destruct H as (s1' & H1 & _ & _ & (F & HF) & _). exists F, (Done s1'). auto.
  - destruct H as (s1' & H1 & (F & HF)). exists F, (Thrown s1'). auto.
Qed.

Lemma root_R : forall gL gR m, R gL gR -> is_root (kind_of gL m) = is_root (kind_of gR m).
Proof using Type. intros gL gR m H. apply (ksame_root n). apply (r_kind _ _ _ H). Qed.

Lemma wr_R : forall m v sL sR, RS sL sR -> alive (gr sL) m = true ->
  RS (wr changed m v sL) (wr changed m v sR).
Proof using Type.
  intros m v sL sR [H T] A. split; [|simpl; now rewrite T].
  apply (push_down_R changed n); auto.
Qed.

Lemma sim_cmd : forall c c' sL sR r, exec (S f) (TCmd c) sL = r -> finished r ->
  simulated (TCmd c) (TCmd c') sL sR r.
Proof.
  intros c c' sL sR r E Fin HR CL CR TS. simpl in TS. cbn [NodesModel.exec] in E.
  pose proof HR as [H T]. pose proof (ctx_wf _ CL) as WL.
  destruct TS as [m v|m fn|ms|m v|k k' ps d HK|m|m cb cb' HC HQ|m sid|w].
  - destruct (handle (gr sL) m) eqn:Hm; [|subst r; contradiction].
    destruct (fin_pin_r m (TSend m v) (TSend m v) sL sR r) as (F & r' & HF & Q); auto.
    { now apply alive_handle. }
    { split; reflexivity. }
    exists r'. split; auto. fuel F. rewrite (r_handle_le n _ _ m H Hm). apply HF. lia.
  - destruct (handle (gr sL) m) eqn:Hm; [|subst r; contradiction].
    rewrite (vals_cur n _ _ m H (alive_handle _ _ Hm)) in E.
    destruct (fin_pin_r m (TSend m (fn (cur (gr sR) m))) (TSend m (fn (cur (gr sR) m))) sL sR r)
      as (F & r' & HF & Q); auto.
    { now apply alive_handle. }
    { split; reflexivity. }
    exists r'. split; auto. fuel F. rewrite (r_handle_le n _ _ m H Hm). apply HF. lia.
  - destruct (forallb _ ms) eqn:HB in E; [|subst r; contradiction].
    rewrite forallb_forall in HB.
    assert (HB' : forallb (fun m => handle (gr sR) m && is_root (kind_of (gr sR) m)) ms = true).
    { apply forallb_forall. intros x I. specialize (HB x I). apply andb_true_iff in HB as [B1 B2].
      apply andb_true_iff. split; [now apply (r_handle_le n _ _ x H)|].
      now rewrite <- (root_R _ _ x H). }
    destruct (IH (TRoots ms) (TRoots ms) (send_roots changed ms sL) (send_roots changed ms sR) r
                 E Fin) as (r' & (f1 & F1) & Q).
    + apply send_roots_R; auto using ctx_par, ctx_ok.
      intros m I. specialize (HB m I). apply andb_true_iff in HB as [B1 B2].
      now apply alive_handle.
    + now apply (ctx_roots changed changed_sound ordN).
    + now apply (ctx_roots changed changed_sound ordN).
    + reflexivity.
    + exists r'. split; auto. fuel f1. rewrite HB'. apply F1. lia.
  - destruct (handle (gr sL) m) eqn:Hm; [|subst r; contradiction].
    pose proof (r_kind _ _ _ H m) as K.
    destruct (kind_of (gr sL) m) eqn:KL; try (subst r; contradiction).
    inversion K as [| | |EK KR| | |]. subst r.
    exists (Done (wr changed m v sR)). split.
    + fuel 0. rewrite (r_handle_le n _ _ m H Hm). rewrite <- KR. reflexivity.
    + apply wr_R; auto. now apply alive_handle.
  - destruct (forallb (handle (gr sL)) ps && nodupb ps && arity_ok k ps) eqn:HB;
      [|subst r; contradiction].
    apply andb_true_iff in HB as [HB B3]. apply andb_true_iff in HB as [B1 B2].
    rewrite forallb_forall in B1.
    assert (HB' : forallb (handle (gr sR)) ps && nodupb ps && arity_ok k' ps = true).
    { rewrite B2, <- (ksame_arity n k k' ps HK), B3.
      assert (X : forallb (handle (gr sR)) ps = true).
      { apply forallb_forall. intros x I. apply (r_handle_le n _ _ x H). auto. }
      now rewrite X. }
    pose proof (initial_R n (gr sL) (gr sR) k k' ps d H HK
                  (fun p I => alive_handle _ _ (B1 p I))) as EI.
    destruct (initial (gr sL) k ps d) as [v|] eqn:EL; subst r.
    + exists (Done (new_node k' ps v sR)). split.
      * fuel 0. rewrite HB', <- EI. reflexivity.
      * apply (new_R changed changed_sound n); auto.
        -- apply CL.
        -- now apply nodupb_NoDup.
        -- intros down up x -> Ex. simpl in EL. rewrite Ex in EL. congruence.
        -- now apply ctx_wf.
    + exists (Thrown (emit EThrow sR)). split.
      * fuel 0. now rewrite HB', <- EI.
      * now apply RS_emit.
  - destruct ((m <? cnt (gr sL)) && (0 <? n_held (nd (gr sL) m))) eqn:HB; [|subst r; contradiction].
    apply andb_true_iff in HB as [B1 B2]. subst r.
    exists (Done (drop_held m sR)). split; [|now apply drop_R].
    fuel 0. rewrite <- (r_cnt _ _ _ H), B1.
    assert (X : (0 <? n_held (nd (gr sR) m)) = true).
    { destruct (Nat.eq_dec m n) as [->|N].
      - apply Nat.ltb_lt in B2. apply Nat.ltb_lt. pose proof (r_heldn _ _ _ H). lia.
      - now rewrite <- (r_held _ _ _ H m N). }
    now rewrite X.
  - destruct (handle (gr sL) m) eqn:Hm; [|subst r; contradiction]. subst r.
    exists (Done (add_watch m cb' sR)). split; [|now apply watch_R].
    fuel 0. now rewrite (r_handle_le n _ _ m H Hm).
  - destruct ((m <? cnt (gr sL)) && _) eqn:HB in E; [|subst r; contradiction].
    apply andb_true_iff in HB as [B1 B2]. subst r.
    exists (Done (del_watch m sid sR)). split; [|now apply unwatch_R].
    fuel 0. rewrite <- (r_cnt _ _ _ H), B1. cbn [andb].
    match goal with |- (if ?b then _ else _) = _ => destruct b eqn:X; [reflexivity|] end.
    exfalso. exact (eq_true_false_abs _ (has_slot_R _ _ m sid H B2) X).
  - subst r. exists (Done (with_gr sR (fun g => set_world g w))). split; [fuel 0; reflexivity|].
    now apply world_R.
Qed.

Lemma sim_pushall : forall m vs sL sR r, exec (S f) (TPushAll m vs) sL = r -> finished r ->
  simulated (TPushAll m vs) (TPushAll m vs) sL sR r.
Proof.
  intros m vs sL sR r E Fin HR CL CR _. cbn [NodesModel.exec] in E. pose proof HR as [H T].
  destruct vs as [|v vs].
  - subst r. exists (Done sR). split; auto. fuel 0. reflexivity.
  - rewrite (ordV_graph _ (gr sR)), (r_par _ _ _ H) in E.
    set (l := ordV (gr sR) m (combine (parents (gr sR) m) v)) in *.
    destruct (exec f (TPush l) sL) as [s1|s1| | |] eqn:E1; simpl in E;
      try (subst r; contradiction).
    + destruct (IHd (TPush l) (TPush l) sL sR s1 E1 HR CL CR eq_refl)
        as (s1' & (f1 & F1) & H1 & P1 & P2).
      destruct (IH (TPushAll m vs) (TPushAll m vs) s1 s1' r E Fin H1
                  (p_ctx _ _ _ P1) (p_ctx _ _ _ P2)) as (r' & (f2 & F2) & Q).
      { split; reflexivity. }
      exists r'. split; auto. fuel (max f1 f2). fold l. rewrite F1 by lia. apply F2. lia.
    + destruct (IHt (TPush l) (TPush l) sL sR s1 E1 HR CL CR eq_refl)
        as (s1' & (f1 & F1) & H1 & P1 & P2).
      exists (Thrown s1'). split; [|subst r; exact H1]. fuel f1. fold l. now rewrite F1 by lia.
Qed.

Lemma sim_push : forall l sL sR r, exec (S f) (TPush l) sL = r -> finished r ->
  simulated (TPush l) (TPush l) sL sR r.
Proof.
  intros l sL sR r E Fin HR CL CR _. cbn [NodesModel.exec] in E.
  destruct l as [|[p v] l].
  - subst r. exists (Done sR). split; auto. fuel 0. reflexivity.
  - assert (TS : tsim (TSend p v) (TSend p v) sL sR) by (split; reflexivity).
    destruct (exec f (TSend p v) sL) as [s1|s1| | |] eqn:E1; simpl in E;
      try (subst r; contradiction).
    + destruct (IHd _ _ sL sR s1 E1 HR CL CR TS) as (s1' & (f1 & F1) & H1 & P1 & P2).
      destruct (IH (TPush l) (TPush l) s1 s1' r E Fin H1
                  (p_ctx _ _ _ P1) (p_ctx _ _ _ P2) eq_refl) as (r' & (f2 & F2) & Q).
      exists r'. split; auto. fuel (max f1 f2). rewrite F1 by lia. apply F2. lia.
    + destruct (IHt _ _ sL sR s1 E1 HR CL CR TS) as (s1' & (f1 & F1) & H1 & P1 & P2).
      exists (Thrown s1'). split; [|subst r; exact H1]. fuel f1. now rewrite F1 by lia.
Qed.

Lemma sim_roots : forall l sL sR r, exec (S f) (TRoots l) sL = r -> finished r ->
  simulated (TRoots l) (TRoots l) sL sR r.
Proof.
  intros l sL sR r E Fin HR CL CR _. cbn [NodesModel.exec] in E.
  destruct l as [|p l].
  - subst r. exists (Done sR). split; auto. fuel 0. reflexivity.
  - destruct (handle (gr sL) p) eqn:Hp; [|subst r; contradiction].
    pose proof (r_handle_le n _ _ p (proj1 HR) Hp) as HpR.
    destruct (exec f (TNotify p) sL) as [s1|s1| | |] eqn:E1; simpl in E;
      try (subst r; contradiction).
    + destruct (IHd _ (TNotify p) sL sR s1 E1 HR CL CR eq_refl)
        as (s1' & (f1 & F1) & H1 & P1 & P2).
      destruct (IH (TRoots l) (TRoots l) s1 s1' r E Fin H1
                  (p_ctx _ _ _ P1) (p_ctx _ _ _ P2) eq_refl) as (r' & (f2 & F2) & Q).
      exists r'. split; auto. fuel (max f1 f2). rewrite HpR, F1 by lia. apply F2. lia.
    + destruct (IHt _ (TNotify p) sL sR s1 E1 HR CL CR eq_refl)
        as (s1' & (f1 & F1) & H1 & P1 & P2).
      exists (Thrown s1'). split; [|subst r; exact H1]. fuel f1. now rewrite HpR, F1 by lia.
Qed.

Lemma alive_ss : forall g g' m, same_struct g g' -> alive g' m = alive g m.
Proof using Type. intros. now apply skel_alive, skel_ss. Qed.

Lemma mark_rcp_ss : forall m s, same_struct (gr s) (gr (mark_rcp m s)).
Proof using Type. intros m s. apply ss_upd. intros []; simpl; auto 10. Qed.

Lemma push_down_dead : forall m v gL gR, R gL gR -> alive gL m = false ->
  R (push_down changed m v gL) (push_down changed m v gR).
Proof using Type.
  intros m v gL gR H A.
  assert (KL : forall g, skel g (push_down changed m v g)).
  { intros g. apply skel_ss. apply (fc_ss _ _ _ (fc_push_down changed m v g)). }
  apply (R_skel n gL gR); auto.
  - intros k Ak. assert (k <> m) by congruence. rewrite !nd_push_down by auto.
    now apply (r_vals _ _ _ H).
  - intros k Ak. assert (k <> m) by congruence. unfold children.
    rewrite !nd_push_down by auto. now apply (r_kids _ _ _ H).
Qed.

Lemma sim_send : forall m v sL sR r, exec (S f) (TSend m v) sL = r -> finished r ->
  simulated (TSend m v) (TSend m v) sL sR r.
Proof.
  intros m v sL sR r E Fin HR CL CR _. cbn [NodesModel.exec] in E. pose proof HR as [H T].
  destruct (alive (gr sL) m) eqn:A; [|subst r; contradiction].
  pose proof (r_alive n _ _ m H A) as AR. pose proof (r_kind _ _ _ H m) as K.
  assert (UP : forall u,
    (forall f' s, alive (gr s) m = true -> kind_of (gr s) m = kind_of (gr sR) m ->
      exec (S f') (TSend m v) s =
      match u with
      | UNone => UBuser
      | UWrite rf up =>
         exec f' (TPushAll m (up (current_from (gr (refreshed changed ordN rf m s))
                                    (parents (gr (refreshed changed ordN rf m s)) m)) v))
                (refreshed changed ordN rf m s)
      end) ->
    match u with
      | UNone => UBuser
      | UWrite rf up =>
         exec f (TPushAll m (up (current_from (gr (refreshed changed ordN rf m sL))
                                    (parents (gr (refreshed changed ordN rf m sL)) m)) v))
                (refreshed changed ordN rf m sL)
      end = r ->
    exists r', runs (TSend m v) sR r' /\ rrel r r').
  { intros u X E2. destruct u as [|rf up]; [rewrite <- E2 in Fin; contradiction|].
    assert (HF : RS (refreshed changed ordN rf m sL) (refreshed changed ordN rf m sR)).
    { split; [|destruct rf; exact T]. destruct rf; auto.
      apply (refresh_R changed n ordN ordN_in ordN_graph); auto using ctx_par. }
    assert (AF : alive (gr (refreshed changed ordN rf m sL)) m = true).
    { rewrite (alive_ss (gr sL)); auto. apply refreshed_ss. }
    pose proof (ctx_ref changed changed_sound ordN rf m sL CL) as CL1.
    pose proof (ctx_ref changed changed_sound ordN rf m sR CR) as CR1.
    rewrite (current_from_R n _ _ _ (proj1 HF)) in E2.
    2:{ intros p Hp. eapply alive_parent; eauto. now apply ctx_par. }
    rewrite (r_par _ _ _ (proj1 HF)) in E2.
    destruct (IH _ (TPushAll m (up (current_from (gr (refreshed changed ordN rf m sR))
                        (parents (gr (refreshed changed ordN rf m sR)) m)) v))
                 _ (refreshed changed ordN rf m sR) r E2 Fin HF CL1 CR1)
      as (r' & (f1 & F1) & Q).
    { split; reflexivity. }
    exists r'. split; auto. exists (S f1). intros [|f'] L; [lia|].
    rewrite X by auto. apply F1. lia. }
  destruct (kind_of (gr sL) m) as [auto|fs| | |down u|stp u|auto fn] eqn:KL;
    try (subst r; contradiction).
  - inversion K as [a EK KR| | | | | |]. subst a. clear UP.
    pose proof (wr_R m v sL sR HR A) as HW.
    destruct auto.
    + assert (AW : alive (gr (wr changed m v sL)) m = true).
      { rewrite (alive_ss (gr sL)); auto. apply wr_ss. }
      assert (CWL : par_lt (gr (wr changed m v sL))).
      { eapply par_lt_ss; [apply wr_ss|now apply ctx_par]. }
      assert (CWR : ok (gr (wr changed m v sR))).
      { eapply ok_ss; [apply wr_ss|now apply ctx_ok]. }
      destruct (IH (TNotify m) (TNotify m) _ (send_roots changed [m] (wr changed m v sR)) r E Fin)
        as (r' & (f1 & F1) & Q).
      * apply send_roots_R; auto. intros k [<-|[]]. exact AW.
      * now apply (ctx_auto changed changed_sound ordN).
      * now apply (ctx_auto changed changed_sound ordN).
      * reflexivity.
      * exists r'. split; auto. fuel f1. rewrite AR, <- KR. apply F1. lia.
    + subst r. exists (Done (wr changed m v sR)). split; auto. fuel 0. now rewrite AR, <- KR.
  - inversion K as [| | | |d2 u2 EK KR| |]. subst d2 u2. apply (UP u).
    + intros f' s As Ks. cbn [NodesModel.exec]. rewrite As, Ks, <- KR. destruct u; reflexivity.
    + rewrite <- E. destruct u; reflexivity.
  - inversion K as [| | | | |d2 u2 EK KR|]. subst d2 u2. apply (UP u).
    + intros f' s As Ks. cbn [NodesModel.exec]. rewrite As, Ks, <- KR. destruct u; reflexivity.
    + rewrite <- E. destruct u; reflexivity.
  - clear UP. inversion K as [| | | | | |a fn0 fn' HK EK KR]. subst a fn0. symmetry in KR.
    assert (HA : RS (ask m v sL) (ask m v sR)).
    { apply RS_emit; auto. simpl. now rewrite (readings_R n _ _ H). }
    assert (TS : tsim (TProg (fn v (get_obs sL))) (TProg (fn' v (get_obs sR))) (ask m v sL) (ask m v sR)).
    { simpl. apply HK. now apply obs_R. }
    assert (CAL : ctx (ask m v sL)) by exact CL. assert (CAR : ctx (ask m v sR)) by exact CR.
    destruct (exec f (TProg (fn v (get_obs sL))) (ask m v sL)) as [s1|s1| | |] eqn:E1;
      simpl in E; try (subst r; contradiction).
    + destruct (IHd _ _ _ _ s1 E1 HA CAL CAR TS) as (s1' & (f1 & F1) & [H1 T1] & P1 & P2).
      assert (H2 : RS (with_gr s1 (push_down changed m v)) (with_gr s1' (push_down changed m v))).
      { split; [|exact T1]. destruct (alive (gr s1) m) eqn:A1.
        - now apply (push_down_R changed n).
        - now apply push_down_dead. }
      destruct auto.
      * assert (A1 : alive (gr s1) m = true).
        { destruct f as [|f0]; [subst r; contradiction|]. cbn [NodesModel.exec] in E.
          rewrite (alive_ss (gr s1)) in E.
          - destruct (alive (gr s1) m); auto. subst r. contradiction.
          - eapply ss_trans; [|apply send_roots_ss].
            eapply ss_trans; [apply (fc_ss _ _ _ (fc_push_down changed m v (gr s1)))|].
            apply (mark_rcp_ss m (with_gr s1 (push_down changed m v))). }
        set (aL := mark_rcp m (with_gr s1 (push_down changed m v))).
        set (aR := mark_rcp m (with_gr s1' (push_down changed m v))).
        assert (SL : same_struct (gr s1) (gr aL)).
        { eapply ss_trans; [apply (fc_ss _ _ _ (fc_push_down changed m v (gr s1)))|].
          apply (mark_rcp_ss m (with_gr s1 (push_down changed m v))). }
        assert (SR : same_struct (gr s1') (gr aR)).
        { eapply ss_trans; [apply (fc_ss _ _ _ (fc_push_down changed m v (gr s1')))|].
          apply (mark_rcp_ss m (with_gr s1' (push_down changed m v))). }
        assert (H3 : RS aL aR).
        { split; [|exact T1]. apply R_upd; [apply H2|intros []; simpl; auto|].
          intros [] []; unfold vals; simpl. tauto. }
        destruct (IH (TNotify m) (TNotify m) _ (send_roots changed [m] aR) r E Fin)
          as (r' & (f2 & F2) & Q).
        -- apply send_roots_R; auto.
           ++ eapply par_lt_ss; [exact SL|]. apply ctx_par. apply (p_ctx _ _ _ P1).
           ++ eapply ok_ss; [exact SR|]. apply ctx_ok. apply (p_ctx _ _ _ P2).
           ++ intros k [<-|[]]. now rewrite (alive_ss _ _ _ SL).
        -- apply (ctx_setter changed changed_sound ordN m fn sL); auto.
           apply (p_ctx _ _ _ P1). apply (p_ext _ _ _ P1).
        -- apply (ctx_setter changed changed_sound ordN m fn' sR); auto.
           apply (p_ctx _ _ _ P2). apply (p_ext _ _ _ P2).
        -- reflexivity.
        -- exists r'. split; auto. fuel (max f1 f2). rewrite AR, KR, F1 by lia.
           cbn [andthen]. apply F2. lia.
      * subst r. exists (Done (with_gr s1' (push_down changed m v))). split; [|exact H2]. fuel f1. rewrite AR, KR, F1 by lia. reflexivity.
    + destruct (IHt _ _ _ _ s1 E1 HA CAL CAR TS) as (s1' & (f1 & F1) & H1 & P1 & P2).
      exists (Thrown s1'). split; [|subst r; exact H1].
      fuel f1. rewrite AR, KR, F1 by lia. reflexivity.
Qed.

Lemma sim_slots : forall m from sL sR r, exec (S f) (TSlots m from) sL = r -> finished r ->
  m <> n -> simulated (TSlots m from) (TSlots m from) sL sR r.
Proof.
  intros m from sL sR r E Fin N HR CL CR _. cbn [NodesModel.exec] in E. pose proof HR as [H T].
  pose proof (next_slot_same from _ _ (r_slots _ _ _ H m N)) as NS.
  destruct (next_slot from (slots (gr sL) m)) as [[sid cb]|] eqn:NL.
  - destruct (next_slot from (slots (gr sR) m)) as [[sid' cb']|] eqn:NR; [|contradiction].
    destruct NS as [<- NS].
    assert (Hh : handle (gr sL) m = true).
    { pose proof (ctx_wf _ CL) as WL. unfold handle. apply andb_true_iff.
      destruct (slots (gr sL) m) as [|x l] eqn:SL; [discriminate NL|]. split.
      - apply Nat.ltb_lt. destruct (Nat.lt_ge_cases m (cnt (gr sL))) as [L|L]; auto.
        destruct (wf_out _ WL m L) as (_&_&_&Eo&_). congruence.
      - simpl. apply orb_true_r. }
    pose proof (alive_handle _ _ Hh) as A.
    assert (HCl : RS (called m sid sL) (called m sid sR)).
    { apply RS_emit; auto. simpl.
      now rewrite (readings_R n _ _ H), (vals_last n _ _ m H A). }
    assert (TS : tsim (TProg (cb (last (gr sL) m) (get_obs sL)))
                      (TProg (cb' (last (gr sR) m) (get_obs sR)))
                      (called m sid sL) (called m sid sR)).
    { simpl. rewrite (vals_last n _ _ m H A). apply NS. now apply obs_R. }
    assert (CAL : ctx (called m sid sL)) by exact CL.
    assert (CAR : ctx (called m sid sR)) by exact CR.
    change (emit (ECall m sid (last (gr sL) m) (gr sL)) sL) with (called m sid sL) in E.
    change (get_obs (called m sid sL)) with (get_obs sL) in E.
    destruct (exec f (TProg (cb (last (gr sL) m) (get_obs sL))) (called m sid sL))
      as [s1|s1| | |] eqn:E1; try (subst r; contradiction).
    + destruct (IHd _ _ _ _ s1 E1 HCl CAL CAR TS) as (s1' & (f1 & F1) & H1 & P1 & P2).
      destruct (alive (gr s1) m) eqn:A1;
        [|unfold gone in E; destruct (is_root _); subst r; contradiction].
      pose proof (r_alive n _ _ m (proj1 H1) A1) as A1R.
      match type of E with (if ?b then _ else _) = _ => destruct b eqn:X end;
        [|subst r; contradiction].
      destruct (IH _ (TSlots m (S sid)) s1 s1' r E Fin H1 (p_ctx _ _ _ P1) (p_ctx _ _ _ P2))
        as (r' & (f2 & F2) & Q).
      { split; auto. }
      exists r'. split; auto. fuel (max f1 f2). rewrite NR.
      change (emit (ECall m sid (last (gr sR) m) (gr sR)) sR) with (called m sid sR).
      change (get_obs (called m sid sR)) with (get_obs sR).
      rewrite F1 by lia. rewrite A1R.
      match goal with |- (if ?b then _ else _) = _ => destruct b eqn:Y end; [apply F2; lia|].
      exfalso. exact (eq_true_false_abs _ (has_slot_R _ _ m sid (proj1 H1) X) Y).
    + destruct (IHt _ _ _ _ s1 E1 HCl CAL CAR TS) as (s1' & (f1 & F1) & H1 & P1 & P2).
      exists (Thrown (emit (EEscape m sid) s1')). split.
      * fuel f1. rewrite NR.
        change (emit (ECall m sid (last (gr sR) m) (gr sR)) sR) with (called m sid sR).
        change (get_obs (called m sid sR)) with (get_obs sR).
        now rewrite F1 by lia.
      * subst r. now apply RS_emit.
  - destruct (next_slot from (slots (gr sR) m)) as [[sid' cb']|] eqn:NR; [contradiction|].
    subst r. exists (Done sR). split; auto. fuel 0. now rewrite NR.
Qed.

Lemma restore_R : forall m old sL sR, RS sL sR -> RS (restore m old sL) (restore m old sR).
Proof using Type.
  intros m old sL sR [H T]. split; [|exact T]. apply R_upd; [exact H|intros []; simpl; auto|].
  intros [] []; unfold vals; simpl. tauto.
Qed.
Lemma start_R : forall m sL sR, RS sL sR -> RS (start_notify m sL) (start_notify m sR).
Proof using Type.
  intros m sL sR [H T]. split; [|exact T]. apply R_upd; [exact H|intros []; simpl; auto|].
  intros [] []; unfold vals; simpl. tauto.
Qed.

Lemma sim_notify : forall m sL sR r, exec (S f) (TNotify m) sL = r -> finished r ->
  simulated (TNotify m) (TNotify m) sL sR r.
Proof.
  intros m sL sR r E Fin HR CL CR _. cbn [NodesModel.exec] in E. pose proof HR as [H T].
  destruct (alive (gr sL) m) eqn:A; simpl in E; [|subst r; contradiction].
  pose proof (r_alive n _ _ m H A) as AR.
  destruct (nn (gr sL) m && negb (nsd (gr sL) m)) eqn:EN.
  2:{ subst r. exists (Done sR). split; auto. fuel 0. rewrite AR. simpl.
      rewrite <- (vals_nn n _ _ m H A), <- (vals_nsd n _ _ m H A), EN. reflexivity. }
  assert (ENR : nn (gr sR) m && negb (nsd (gr sR) m) = true).
  { now rewrite <- (vals_nn n _ _ m H A), <- (vals_nsd n _ _ m H A). }
  rewrite (vals_ntf n _ _ m H A) in E.
  set (old := ntf (gr sR) m) in *.
  change (with_gr sL (fun g => upd g m (fun a => set_ntf true (set_nn false a))))
    with (start_notify m sL) in E.
  pose proof (start_R m sL sR HR) as HS.
  assert (CSL : ctx (start_notify m sL)).
  { apply andb_true_iff in EN as [B1 B2]. apply negb_true_iff in B2.
    now apply (ctx_start changed changed_sound ordN). }
  assert (CSR : ctx (start_notify m sR)).
  { apply andb_true_iff in ENR as [B1 B2]. apply negb_true_iff in B2.
    now apply (ctx_start changed changed_sound ordN). }
  assert (AS : alive (gr (start_notify m sL)) m = true).
  { rewrite <- A. apply skel_alive. apply skel_upd. intros []; simpl; auto. }
  assert (ASR : alive (gr (start_notify m sR)) m = true).
  { apply (r_alive n _ _ m (proj1 HS) AS). }
  (* the watchers of [m] *)
  assert (SL : match exec f (TSlots m 0) (start_notify m sL) with
     | Done s2 => exists s2', runs (TSlots m 0) (start_notify m sR) (Done s2') /\
                   RS s2 s2' /\ post (TSlots m 0) (start_notify m sL) s2 /\
                   post (TSlots m 0) (start_notify m sR) s2'
     | Thrown s2 => exists s2', runs (TSlots m 0) (start_notify m sR) (Thrown s2') /\ RS s2 s2'
     | _ => True
     end).
  { destruct (Nat.eq_dec m n) as [->|N].
    - destruct (exec f (TSlots n 0) (start_notify n sL)) as [s2|s2| | |] eqn:E1; auto.
      + destruct (quiet_slots_left changed ordV ordN n _ _ _ _ E1 I) as (s2' & B1 & B2 & B3).
        { apply (r_quietL _ _ _ (proj1 HS)). }
        injection B1 as <-.
        destruct (quiet_slots changed ordV ordN n _ n 0 (start_notify n sR)
                    (Nat.lt_succ_diag_r _)) as (s3 & F3 & G3 & T3); auto.
        { intros sl Is. split; auto. now apply (r_quietR _ _ _ (proj1 HS)). }
        exists s3. split; auto. split.
        * split; [rewrite B2, G3; apply HS|]. rewrite B3, T3. apply HS.
        * split; [eapply done_post; eauto|eapply runs_done_post; eauto].
      + destruct (quiet_slots_left changed ordV ordN n _ _ _ _ E1 I) as (s2' & B1 & B2 & B3).
        { apply (r_quietL _ _ _ (proj1 HS)). }
        discriminate.
    - destruct (exec f (TSlots m 0) (start_notify m sL)) as [s2|s2| | |] eqn:E1; auto.
      + apply (IHd _ (TSlots m 0) _ _ s2 E1 HS CSL CSR). split; auto.
      + destruct (IHt _ (TSlots m 0) _ _ s2 E1 HS CSL CSR) as (s2' & F & H2 & _).
        { split; auto. }
        exists s2'. auto. }
  destruct (exec f (TSlots m 0) (start_notify m sL)) as [s2|s2| | |] eqn:E1; simpl in E;
    try (subst r; contradiction).
  2:{ destruct SL as (s2' & (f1 & F1) & H2).
      destruct (alive (gr s2) m) eqn:A2;
        [|unfold gone in E; destruct (is_root _); subst r; contradiction].
      subst r. exists (Thrown (restore m old s2')). split; [|now apply restore_R].
      fuel f1. rewrite AR, ENR. simpl. fold old.
      change (with_gr sR (fun g => upd g m (fun a => set_ntf true (set_nn false a))))
        with (start_notify m sR).
      rewrite F1 by lia. simpl. now rewrite (r_alive n _ _ m (proj1 H2) A2). }
  destruct SL as (s2' & (f1 & F1) & H2 & P1 & P2).
  pose proof (slots_alive _ _ _ _ _ E1 AS) as A2.
  set (tL := TKids m 0 (length (children (gr s2) m)) false old) in *.
  set (tR := TKids m 0 (length (children (gr s2') m)) false old : task V W).
  assert (TS : tsim tL tR s2 s2').
  { simpl. split; [auto|]. split; [auto|]. split; [auto|]. split.
    { rewrite (p_ntf _ _ _ P1). unfold ntf. simpl. now rewrite Nat.eqb_refl. }
    split; [auto|]. split; [auto|]. unfold slice. rewrite !firstn_all. simpl.
    now apply (r_kids _ _ _ (proj1 H2)). }
  assert (GO : forall f2 x, (forall f', f2 <= f' -> exec f' tR s2' = x) ->
     forall f', max f1 f2 <= f' ->
       exec (S f') (TNotify m) sR =
       match x with
       | Done s3 => Done (restore m old s3)
       | Thrown s3 => if alive (gr s3) m then Thrown (restore m old s3) else gone m s3
       | r => r
       end).
  { intros f2 x F2 f' L. cbn [NodesModel.exec]. rewrite AR, ENR. simpl. fold old.
    change (with_gr sR (fun g => upd g m (fun a => set_ntf true (set_nn false a))))
      with (start_notify m sR).
    rewrite F1 by lia. simpl. fold tR. rewrite F2 by lia. destruct x; reflexivity. }
  destruct (exec f tL s2) as [s3|s3| | |] eqn:E2; try (subst r; contradiction).
  - destruct (IHd tL tR s2 s2' s3 E2 H2 (p_ctx _ _ _ P1) (p_ctx _ _ _ P2) TS)
      as (s3' & (f2 & F2) & H3 & _).
    subst r. exists (Done (restore m old s3')). split; [|now apply restore_R].
    exists (S (max f1 f2)). intros [|f'] L; [lia|]. rewrite (GO _ _ F2) by lia. reflexivity.
  - destruct (IHt tL tR s2 s2' s3 E2 H2 (p_ctx _ _ _ P1) (p_ctx _ _ _ P2) TS)
      as (s3' & (f2 & F2) & H3 & _).
    destruct (alive (gr s3) m) eqn:A3;
      [|unfold gone in E; destruct (is_root _); subst r; contradiction].
    subst r. exists (Thrown (restore m old s3')). split; [|now apply restore_R].
    exists (S (max f1 f2)). intros [|f'] L; [lia|]. rewrite (GO _ _ F2) by lia.
    now rewrite (r_alive n _ _ m (proj1 H3) A3).
Qed.

Lemma sim_kids : forall m i size gb i' size' gb' old sL sR r,
  exec (S f) (TKids m i size gb old) sL = r -> finished r ->
  simulated (TKids m i size gb old) (TKids m i' size' gb' old) sL sR r.
Proof.
  intros m i size gb i' size' gb' old sL sR r E Fin HR CL CR TS. cbn [NodesModel.exec] in E.
  destruct TS as (_ & _ & A & NT & SL & SR & ES). pose proof HR as [H T].
  pose proof (drain m old sL CL A _ i' size' gb' sR eq_refl SR HR CR) as D.
  destruct (i <? size) eqn:Li.
  - apply Nat.ltb_lt in Li.
    destruct (nth_error (children (gr sL) m) i) as [c|] eqn:Ec; [|subst r; contradiction].
    rewrite (slice_cons _ _ _ _ Li Ec) in ES. simpl in ES.
    destruct (alive (gr sL) c) eqn:Ac.
    + rewrite <- ES in D. destruct D as (i1 & gb1 & sR1 & HR1 & CR1 & L1 & Ec1 & EC1 & ER1 & GO).
      pose proof (r_alive n _ _ c (proj1 HR1) Ac) as AcR.
      assert (X1 : (i1 <? size') = true) by (now apply Nat.ltb_lt).
      destruct (finally (exec f (TNotify c) (pin c sL)) unpin) as [s2|s2| | |] eqn:E1;
        simpl in E; try (subst r; contradiction).
      * destruct (alive (gr s2) m) eqn:A2;
          [|unfold gone in E; destruct (is_root _); subst r; contradiction].
        destruct (fin_pin c (TNotify c) (TNotify c) sL sR1 _ Ac E1 I HR1 CL CR1 eq_refl)
          as (s2' & H2 & C2 & C2' & (f1 & F1) & a & a' & -> & -> & P1 & P2).
        assert (GL : grows m (gr sL) (gr (unpin a))).
        { apply (p_grows _ _ _ P1 m); simpl; auto. }
        assert (GR : grows m (gr sR1) (gr (unpin a'))).
        { apply (p_grows _ _ _ P2 m); simpl; auto.
          change (ntf (gr sR1) m = true). now rewrite <- (vals_ntf n _ _ m (proj1 HR1) A). }
        destruct GL as [x GL]. destruct GR as [x' GR].
        assert (MO : forall k, k < cnt (gr sL) -> alive (gr (unpin a)) k = true ->
                               alive (gr sL) k = true).
        { intros k Lk Ak. apply (am_pin c sL (ctx_wf _ CL) Ac).
          apply (p_alive _ _ _ P1 k Lk).
          apply (am_unpin a); auto. apply ctx_wf, (p_ctx _ _ _ P1). }
        destruct (IH _ (TKids m (S i1) size' gb1 old) _ (unpin a') r E Fin H2 C2 C2')
          as (r' & (f2 & F2) & Q).
        { cbn [tsim]. split; [auto|]. split; [auto|]. split; [auto|]. split.
          { change (ntf (gr a) m = true). rewrite (p_ntf _ _ _ P1). exact NT. }
          rewrite GL, GR, !app_length. split; [lia|]. split; [rewrite EC1; lia|].
          rewrite !slice_app by (rewrite ?EC1; lia).
          rewrite (filter_sub (alive (gr sL)) (alive (gr (unpin a))) (slice (S i) _ _)).
          2:{ intros k Ik. apply MO. apply slice_in in Ik.
              now apply (wf_kids _ (ctx_wf _ CL) m). }
          rewrite (filter_sub (alive (gr sL)) (alive (gr (unpin a))) (slice (S i1) _ _)).
          2:{ intros k Ik. apply MO. apply slice_in in Ik. rewrite (r_cnt _ _ _ (proj1 HR1)).
              now apply (wf_kids _ (ctx_wf _ CR1) m). }
          f_equal. now rewrite ER1. }
        exists r'. split; auto. apply GO. fuel (max f1 f2).
        rewrite X1, Ec1, AcR, F1 by lia. cbn [andthen].
        rewrite (r_alive n _ _ m (proj1 H2) A2). apply F2. lia.
      * destruct (fin_pin c (TNotify c) (TNotify c) sL sR1 _ Ac E1 I HR1 CL CR1 eq_refl)
          as (s2' & H2 & (f1 & F1)).
        exists (Thrown s2'). split; [|subst r; exact H2]. apply GO. fuel f1.
        now rewrite X1, Ec1, AcR, F1 by lia.
    + apply (IH _ (TKids m i' size' gb' old) sL sR r E Fin HR CL CR).
      simpl. repeat (split; [auto; fail|]). exact ES.
  - apply Nat.ltb_ge in Li. rewrite (slice_end _ _ _ Li) in ES. simpl in ES.
    rewrite <- ES in D. destruct D as (sR' & gb2 & F & H2).
    eexists. split; [exact F|]. subst r. simpl. now apply collect_R.
Qed.

End Step.

Set Default Proof Using "Type changed_sound ordN_in ordN_graph ordV_graph".

Theorem sim : forall f t t' sL sR r, exec f t sL = r -> finished r ->
  simulated t t' sL sR r.
Proof.
  induction f as [|f IH]; intros t t' sL sR r E Fin HR CL CR TS;
    [simpl in E; subst r; contradiction|].
  destruct t, t'; try contradiction; pose proof TS as TS0; simpl in TS0.
  - eapply (sim_prog f IH); eauto.
  - eapply (sim_cmd f IH); eauto.
  - destruct TS0; subst. eapply (sim_send f IH); eauto.
  - destruct TS0; subst. eapply (sim_pushall f IH); eauto.
  - subst. eapply (sim_push f IH); eauto.
  - subst. eapply (sim_roots f IH); eauto.
  - subst. eapply (sim_notify f IH); eauto.
  - destruct TS0 as (? & ? & ?); subst. eapply (sim_slots f IH); eauto.
  - destruct TS0 as (? & ? & _); subst. eapply (sim_kids f IH); eauto.
Qed.
End DropSim.

Section DropRun.
Context {V W : Type}.
Variable dv : V.
Variable changed : V -> V -> bool.
Hypothesis changed_sound : forall a b, changed a b = false -> a = b.
Variable ordV : graph V W -> nat -> list (nat * V) -> list (nat * V).
Variable ordN : graph V W -> nat -> list nat -> list nat.
Hypothesis ordN_in : forall g m l x, In x (ordN g m l) -> In x l.
Hypothesis ordN_graph : forall g g' m l, ordN g m l = ordN g' m l.
Hypothesis ordV_graph : forall g g' m l, ordV g m l = ordV g' m l.

Lemma RS_same_end : forall n (s s' : st V W), RS n s s' ->
  trace n (log s) = trace n (log s') /\ readings n (gr s) = readings n (gr s') /\
  (forall m, alive (gr s) m = true ->
     alive (gr s') m = true /\ last (gr s) m = last (gr s') m /\ cur (gr s) m = cur (gr s') m).
Proof.
  intros n s s' [H T]. split; [exact T|]. split; [now apply readings_R|].
  intros m A. split; [eapply r_alive; eauto|].
  split; [eapply vals_last; eauto|eapply vals_cur; eauto].
Qed.

Theorem drop_invisible : forall n fuel w (p p' : prog V W),
  psame n (get_obs (init_st dv w)) p p' -> finished (run dv changed ordV ordN fuel w p) ->
  exists fuel', forall fuel2, fuel' <= fuel2 ->
    same_end n (run dv changed ordV ordN fuel w p) (run dv changed ordV ordN fuel2 w p').
Proof.
  intros n fuel w p p' HP Fin.
  assert (C0 : ctx changed (init_st dv w)).
  { split; [now apply Inv_empty|]. intros m _. reflexivity. }
  destruct (sim changed changed_sound ordV ordN ordN_in ordN_graph ordV_graph n fuel
              (TProg p) (TProg p') (init_st dv w) (init_st dv w) _ eq_refl Fin) as (r' & (F & HF) & Q);
    auto.
  - split; [|reflexivity]. split; auto; intros m; try (intros; apply vals_refl);
      try (intros []; fail); try (intros; simpl; constructor).
  - exists F. intros fuel2 L. unfold run at 2. rewrite (HF fuel2 L).
    fold (run dv changed ordV ordN fuel w p) in Q.
    unfold rrel in Q. unfold same_end.
    destruct (run dv changed ordV ordN fuel w p); destruct r'; try contradiction;
      now apply RS_same_end.
Qed.

End DropRun.
