(** What a pass over the observers of a node calls. *)
From Coq Require Import List Arith Bool Lia.
From Verif Require Import WatchModel WatchSpec WatchFrame.
Import ListNotations.

Section Pass.
Context {V : Type}.
Notation event := (event V).
Notation op := (op V).
Notation st := (st V).

(** ** Lists *)
Lemma own_app : forall p (a b : list event), own p (a ++ b) = own p b ++ own p a.
Proof. intros. unfold own. now rewrite rev_app_distr, flat_map_app. Qed.
Lemma own_fresh : forall k p q (l : list event), Forall (fresh k q) l -> p < k -> q <> Some p -> own p l = [].
Proof.
  intros k p q l H L Ne. unfold own. apply Forall_rev in H. induction H as [|e l' He _ IH]; auto.
  cbn. rewrite IH, app_nil_r. destruct e; auto. cbn in He. destruct (p0 =? p) eqn:E; auto.
  apply Nat.eqb_eq in E. subst. destruct He; [lia|contradiction].
Qed.

Lemma after_spec : forall x l r, after x l = Some r ->
  exists a b, l = a ++ x :: b /\ ~ In x a /\ r = hd_error b.
Proof.
  induction l as [|y l IH]; intros r H; cbn in H; [discriminate|].
  destruct (y =? x) eqn:E.
  - apply Nat.eqb_eq in E. subst. injection H as <-. exists [], l. auto.
  - apply Nat.eqb_neq in E. destruct (IH r H) as (a & b & -> & N & ->).
    exists (y :: a), b. split; [auto|split; auto]. intros [C|C]; congruence.
Qed.
Lemma after_none : forall x l, after x l = None -> ~ In x l.
Proof.
  induction l as [|y l IH]; intros H; cbn in H; auto. destruct (y =? x) eqn:E; [discriminate|].
  apply Nat.eqb_neq in E. intros [C|C]; [congruence|]. now apply IH.
Qed.
Lemma split_unique : forall {X} (x : X) a b c d,
  a ++ x :: b = c ++ x :: d -> ~ In x a -> ~ In x c -> a = c /\ b = d.
Proof.
  induction a as [|y a IH]; intros b [|z c] d H Na Nc; cbn in H.
  - injection H as ->. auto.
  - injection H as H _. contradiction Nc. now left.
  - injection H as H _. contradiction Na. now left.
  - injection H as -> H. destruct (IH _ _ _ H) as [-> ->]; auto.
    + intros C. apply Na. now right.
    + intros C. apply Nc. now right.
Qed.
Lemma nodup_mid : forall {X} (a b : list X) x, NoDup (a ++ x :: b) -> ~ In x a /\ ~ In x b.
Proof.
  intros X a b x H. apply NoDup_remove_2 in H. split; intros C; apply H, in_or_app; auto.
Qed.

Lemma found : forall c (l : list (nat * (list event -> list op))), In c (map fst l) -> exists f, find c l = Some f.
Proof.
  intros c l. induction l as [|[k f] l IH]; intros H; [contradiction|]. unfold find in *. cbn in *.
  destruct (k =? c) eqn:E; [eexists; reflexivity|]. apply Nat.eqb_neq in E. destruct H; [contradiction|auto].
Qed.

Lemma ends_of : forall (x : res V) s, x = Done s -> ends x s.
Proof. intros. now left. Qed.
Lemma good_new : forall k (s s' : st) p (new : list event), good k s s' p -> log s' = new ++ log s ->
  inv s' /\ frame s s' new /\ Forall (fresh k p) new.
Proof.
  intros k s s' p new [I (n & F & P)] E. split; auto. rewrite (f_log _ _ _ F) in E.
  apply app_inv_tail in E. subst. auto.
Qed.
Lemma run_new : forall fuel t (s s' : st), inv s -> ends (exec fuel t s) s' ->
  inv s' /\ exists new : list event, log s' = new ++ log s /\ frame s s' new /\
    Forall (fresh (length (log s)) (task_pass t)) new.
Proof.
  intros fuel t s s' I H. destruct (exec_good _ _ (length (log s)) _ _ I (le_n _) H) as [I' (n & F & P)].
  split; auto. exists n. repeat split; auto; try apply F.
Qed.

(** ** The callbacks of one reader object *)
Lemma filter_lt : forall k (l : list nat), Forall (fun c => c < k) l -> filter (fun c => c <? k) l = l.
Proof.
  intros k l H. apply filter_true. intros x Hx. rewrite Forall_forall in H. apply Nat.ltb_lt. auto.
Qed.
Lemma filter_ge : forall k (l : list nat), Forall (fun c => k <= c) l -> filter (fun c => c <? k) l = [].
Proof.
  intros k l H. apply filter_false. intros x Hx. rewrite Forall_forall in H. apply Nat.ltb_ge. auto.
Qed.

Lemma slots_calls : forall fuel p r co v (s s' : st) (new : list event) pre rem,
  inv s -> p < length (log s) -> exec fuel (TSlots p r co v) s = Done s' -> log s' = new ++ log s ->
  ids s r = pre ++ rem -> co = hd_error rem ->
  (forall x, In x (own p new) -> In x (ids s r) \/ ncb s <= x) /\
  (dropped new r = false -> filter (fun c => c <? ncb s) (own p new) = rem) /\
  ~ (exists q, In (EEnd p q) new).
Proof.
  induction fuel as [|fl IH]; intros p r co v s s' new pre rem I Lp H En Ei Ec; [discriminate|].
  destruct co as [c|]; cbn [exec] in H.
  2:{ injection H as <-. assert (new = []) by (apply (app_inv_tail (log s)); now rewrite <- En). subst.
      destruct rem; [|discriminate]. cbn. firstorder. }
  destruct rem as [|c0 post]; [discriminate|]. injection Ec as <-.
  destruct (get r s) as [o|] eqn:G; [|discriminate]. destruct (find c (cbs o)) as [f|]; [|discriminate].
  set (s0 := emit (ECall p c v) s) in *.
  destruct (exec fl (TOps (f (log s0))) s0) as [s1| | |] eqn:H1; try discriminate. cbn [andthen] in H.
  assert (I0 : inv s0) by now apply emit_inv.
  destruct (run_new _ _ _ _ I0 (ends_of _ _ H1)) as (I1 & n1 & L1 & F1 & P1). cbn [task_pass] in P1.
  destruct (get r s1) as [o1|] eqn:G1; [|discriminate].
  destruct (after c (map fst (cbs o1))) as [c'|] eqn:Ea; [|discriminate].
  apply after_spec in Ea as (a & b & Ea & Na & ->). rewrite <- (ids_get _ _ _ G1) in Ea.
  destruct (run_new _ _ _ _ I1 (ends_of _ _ H)) as (I2 & n2 & L2 & F2 & P2).
  assert (new = n2 ++ n1 ++ [ECall p c v]) as ->.
  { apply (app_inv_tail (log s)). rewrite <- En, L2, L1, <- !app_assoc. reflexivity. }
  assert (O1 : own p n1 = []).
  { eapply own_fresh; [exact P1| |discriminate]. unfold s0. cbn. lia. }
  assert (O : own p (n2 ++ n1 ++ [ECall p c v]) = c :: own p n2).
  { rewrite !own_app, O1. unfold own at 1. cbn. rewrite Nat.eqb_refl. auto. }
  assert (Lp1 : p < length (log s1)) by (rewrite L1, app_length; unfold s0; cbn; lia).
  replace (a ++ c :: b) with ((a ++ [c]) ++ b) in Ea by (rewrite <- app_assoc; auto).
  destruct (IH _ _ _ _ _ _ _ _ _ I1 Lp1 H L2 Ea eq_refl) as (A & B & C).
  assert (Fs : frame s s1 (n1 ++ [ECall p c v])).
  { eapply frame_trans; [apply emit_frame; discriminate|exact F1]. }
  assert (Hlt : forall x, In x (c :: post) -> x < ncb s).
  { intros x Hx. apply (i_lt _ I r). rewrite Ei. apply in_or_app. auto. }
  rewrite O. split; [|split].
  - intros x [<-|Hx].
    + left. rewrite Ei. apply in_or_app. right. now left.
    + destruct (A x Hx) as [X|X]; [apply (f_ids _ _ _ Fs) in X; auto|].
      right. pose proof (f_ncb _ _ _ Fs). lia.
  - rewrite dropped_app. intros D. apply orb_false_iff in D as [D2 D1].
    destruct (keep_ids _ _ _ r Fs D1) as (ext & Ex & Lx); eauto.
    assert (Hb : b = post ++ ext).
    { rewrite Ea, Ei in Ex. rewrite <- !app_assoc in Ex. cbn in Ex.
      pose proof (i_ids _ I r) as N. rewrite Ei in N. apply nodup_mid in N as [N _].
      apply split_unique in Ex; auto. tauto. }
    specialize (B D2). cbn [filter]. rewrite (proj2 (Nat.ltb_lt c (ncb s))) by (apply Hlt; now left).
    f_equal.
    transitivity (filter (fun c0 => c0 <? ncb s) (filter (fun c0 => c0 <? ncb s1) (own p n2))).
    + rewrite filter_filter. apply filter_ext. intros x. pose proof (f_ncb _ _ _ Fs).
      destruct (x <? ncb s) eqn:E1; destruct (x <? ncb s1) eqn:E2; auto.
      apply Nat.ltb_lt in E1. apply Nat.ltb_ge in E2. lia.
    + rewrite B, Hb, filter_app. rewrite (filter_ge _ ext) by auto. rewrite app_nil_r.
      apply filter_lt, Forall_forall. intros x Hx. apply Hlt. now right.
  - intros [q Hq]. apply in_app_or in Hq as [Hq|Hq]; [eauto|].
    apply in_app_or in Hq as [Hq|[Hq|[]]]; [|discriminate].
    rewrite Forall_forall in P1. apply P1 in Hq. cbn in Hq. unfold s0 in Hq. cbn in Hq.
    destruct Hq; [lia|discriminate].
Qed.

Lemma reader_calls : forall fuel p r v (s s' : st) (new : list event),
  inv s -> p < length (log s) -> exec fuel (TReader p r v) s = Done s' -> log s' = new ++ log s ->
  (forall x, In x (own p new) -> In x (ids s r) \/ ncb s <= x) /\
  (dropped new r = false -> filter (fun c => c <? ncb s) (own p new) = ids s r) /\
  exists mid, new = mid ++ [EBegin p r] /\ forall q, ~ In (EEnd p q) mid.
Proof.
  intros [|fl] p r v s s' new I Lp H En; [discriminate|]. cbn [exec] in H.
  set (s0 := emit (EBegin p r) s) in *. destruct (get r s0) as [o|] eqn:G; [|discriminate].
  assert (I0 : inv s0) by now apply emit_inv.
  destruct (run_new _ _ _ _ I0 (ends_of _ _ H)) as (I1 & n1 & L1 & F1 & _).
  assert (new = n1 ++ [EBegin p r]) as ->.
  { apply (app_inv_tail (log s)). rewrite <- En. unfold s0 in L1. cbn in *. rewrite L1, <- app_assoc. auto. }
  destruct (slots_calls _ _ _ _ _ _ _ _ [] (ids s0 r) I0 (Nat.lt_lt_succ_r _ _ Lp) H L1 eq_refl) as (A & B & C).
  { now rewrite (ids_get _ _ _ G). }
  assert (O : own p (n1 ++ [EBegin p r]) = own p n1) by (rewrite own_app; reflexivity).
  rewrite O. split; [|split]; auto.
  - intros D. apply B. rewrite dropped_app in D. apply orb_false_iff in D. apply D.
  - exists n1. split; auto. intros q Hq. apply C. eauto.
Qed.

(** ** The pass *)
Definition cat (s : st) (l : list nat) : list nat := flat_map (ids s) l.
Notation nd new := (fun r => negb (dropped new r)).

Lemma among_in : forall l c, among l c = true <-> In c l.
Proof.
  intros. unfold among. rewrite existsb_exists. split.
  - intros (x & H & E). apply Nat.eqb_eq in E. now subst.
  - intros H. exists c. split; auto. apply Nat.eqb_refl.
Qed.
Lemma among_not : forall l c, among l c = false <-> ~ In c l.
Proof.
  intros. rewrite <- among_in. destruct (among l c); split; congruence.
Qed.
Lemma cat_in : forall s l c, In c (cat s l) <-> exists r, In r l /\ In c (ids s r).
Proof. intros. unfold cat. apply in_flat_map. Qed.
Lemma cat_app : forall s a b, cat s (a ++ b) = cat s a ++ cat s b.
Proof. intros. unfold cat. apply flat_map_app. Qed.

Lemma undisturbed_app : forall p (a b : list event), undisturbed p (a ++ b) -> undisturbed p a /\ undisturbed p b.
Proof.
  intros p a b H. split; intros r l1 l2 l3 E N.
  - apply (H r (l1 ++ b) l2 l3); auto. rewrite E, <- !app_assoc. cbn. rewrite <- app_assoc. reflexivity.
  - apply (H r l1 l2 (a ++ l3)); auto. rewrite E, <- app_assoc. auto.
Qed.

Lemma split_filter : forall (f : nat -> bool) x a b c d e,
  filter f (a ++ x :: b) = filter f (c ++ x :: d) ++ e -> f x = true ->
  ~ In x a -> ~ In x c -> filter f b = filter f d ++ e.
Proof.
  intros f x a b c d e H Fx Na Nc. rewrite !filter_app in H. cbn in H. rewrite Fx in H.
  rewrite <- app_assoc in H. cbn in H.
  apply split_unique in H; [apply H| |]; intros C; apply filter_In in C; tauto.
Qed.

Lemma pass_calls : forall fuel p n co v (s s' : st) (new : list event) pre rem,
  inv s -> p < length (log s) -> exec fuel (TPass p n co v) s = Done s' -> log s' = new ++ log s ->
  obs s n = pre ++ rem -> co = hd_error rem -> undisturbed p new ->
  (forall x, In x (own p new) -> ncb s <= x \/ exists r, In x (ids s r) /\ (In r rem \/ dropped new r = true)) /\
  (let K := cat s (filter (nd new) rem) in filter (among K) (own p new) = K).
Proof.
  induction fuel as [|fl IH]; intros p n co v s s' new pre rem I Lp H En Eo Ec U; [discriminate|].
  destruct co as [cur|]; cbn [exec] in H.
  2:{ injection H as <-. assert (new = []) by (apply (app_inv_tail (log s)); now rewrite <- En). subst.
      destruct rem; [|discriminate]. cbn. firstorder. }
  destruct rem as [|c0 rest]; [discriminate|]. injection Ec as <-.
  destruct (exec fl (TReader p cur v) s) as [s1| | |] eqn:H1; try discriminate. cbn [andthen] in H.
  destruct (run_new _ _ _ _ I (ends_of _ _ H1)) as (I1 & n1 & L1 & F1 & _).
  destruct (after cur (obs s1 n)) as [r'|] eqn:Ea; [|discriminate].
  apply after_spec in Ea as (a & rest1 & Ea & Na & ->).
  assert (I1' : inv (emit (EEnd p cur) s1)) by now apply emit_inv.
  destruct (run_new _ _ _ _ I1' (ends_of _ _ H)) as (I2 & n2 & L2 & F2 & _).
  assert (new = n2 ++ EEnd p cur :: n1).
  { apply (app_inv_tail (log s)). rewrite <- En, L2. cbn. rewrite L1, <- app_assoc. reflexivity. }
  subst new.
  destruct (reader_calls _ _ _ _ _ _ _ I Lp H1 L1) as (A1 & B1 & (mid & Em & Nm)).
  assert (D1 : dropped n1 cur = false).
  { rewrite Em, dropped_app. rewrite (U cur [] mid n2); auto. now rewrite Em. }
  change (EEnd p cur :: n1) with ([EEnd p cur] ++ n1) in *. rewrite app_assoc in U |- *.
  apply undisturbed_app in U as [U _]. apply undisturbed_app in U as [U2 _].
  specialize (B1 D1).
  assert (Dn : forall r, dropped ((n2 ++ [EEnd p cur]) ++ n1) r = dropped (n2 ++ n1) r).
  { intros r. rewrite !dropped_app. cbn. now rewrite orb_false_r. }
  assert (On : own p ((n2 ++ [EEnd p cur]) ++ n1) = own p (n2 ++ n1)).
  { rewrite !own_app. reflexivity. }
  assert (Fn : forall l, filter (nd ((n2 ++ [EEnd p cur]) ++ n1)) l = filter (nd (n2 ++ n1)) l).
  { intros l. apply filter_ext. intros r. now rewrite Dn. }
  rewrite On, Fn. setoid_rewrite Dn. clear En Dn On Fn.
  assert (Lp1 : p < length (log (emit (EEnd p cur) s1))) by (cbn; rewrite L1, app_length; lia).
  assert (Ea' : obs s1 n = (a ++ [cur]) ++ rest1) by (rewrite Ea, <- app_assoc; auto).
  destruct (IH _ _ _ _ _ _ _ _ _ I1' Lp1 H L2 Ea' eq_refl U2) as (A2 & B2). cbv zeta in B2.
  change (ncb (emit (EEnd p cur) s1)) with (ncb s1) in A2.
  change (ids (emit (EEnd p cur) s1)) with (ids s1) in A2.
  change (cat (emit (EEnd p cur) s1)) with (cat s1) in B2.
  destruct (f_obs _ _ _ F1 n) as (ad & Ead & Lad).
  pose proof (i_nodup _ I n) as N. rewrite Eo in N. pose proof (nodup_mid _ _ _ N) as [Np Nr].
  pose proof (i_nodup _ I1 n) as N1. rewrite Ea in N1. pose proof (nodup_mid _ _ _ N1) as [_ Nr1].
  assert (Er : filter (nd n1) rest1 = filter (nd n1) rest ++ ad).
  { rewrite Eo, Ea in Ead. eapply split_filter; eauto. cbv beta. now rewrite D1. }
  assert (Back : forall r, In r rest1 -> dropped n1 r = true \/ In r rest \/ ids s r = []).
  { intros r Hr. destruct (dropped n1 r) eqn:Dr; auto.
    assert (X : In r (filter (nd n1) rest1)) by (apply filter_In; split; auto; cbv beta; now rewrite Dr).
    rewrite Er in X. apply in_app_or in X as [X|X]; [apply filter_In in X; tauto|auto]. }
  rewrite own_app. split.
  - intros x Hx. apply in_app_or in Hx as [Hx|Hx].
    + destruct (A1 x Hx) as [X|X]; auto. right. exists cur. split; auto. left. now left.
    + destruct (A2 x Hx) as [X|(r & X & Y)]; [pose proof (f_ncb _ _ _ F1); left; lia|].
      apply (f_ids _ _ _ F1) in X as [X|X]; auto. right. exists r. split; auto.
      rewrite dropped_app. destruct Y as [Y|Y]; [|right; now rewrite Y].
      destruct (Back r Y) as [Z|[Z|Z]].
      * right. rewrite Z, orb_true_r. auto.
      * left. now right.
      * rewrite Z in X. contradiction.
  - cbv zeta.
    set (K' := cat s (filter (nd (n2 ++ n1)) rest)).
    assert (Disj : forall r x, In x (ids s cur) -> In r rest -> ~ In x (ids s r)).
    { intros r x H0 H2 H3. assert (r = cur) by (eapply (i_own _ I); eauto). subst. contradiction. }
    assert (KO : forall x, In x K' -> exists r, In r rest /\ dropped n1 r = false /\ dropped n2 r = false /\ In x (ids s r)).
    { intros x Hx. apply cat_in in Hx as (r & Hr & Hx). apply filter_In in Hr as [Hr Dr].
      apply negb_true_iff in Dr. rewrite dropped_app in Dr. apply orb_false_iff in Dr as [? ?]. eauto. }
    (* calls to other reader objects *)
    assert (X1 : filter (among K') (own p n1) = []).
    { apply filter_false. intros x Hx. apply among_not. intros C.
      apply KO in C as (r & Hr & _ & _ & Hx2). destruct (A1 x Hx) as [X|X].
      - eapply Disj; eauto.
      - apply (i_lt _ I) in Hx2. lia. }
    assert (X2 : filter (among K') (own p n2) = K').
    { set (K1 := filter (nd n2) rest1) in *.
      transitivity (filter (among K') (filter (among (cat s1 K1)) (own p n2))).
      - rewrite filter_filter. apply filter_ext. intros x.
        destruct (among K' x) eqn:E; [|now rewrite andb_false_r]. rewrite andb_true_r. symmetry.
        apply among_in. apply among_in in E. apply KO in E as (r & Hr & Dr1 & Dr2 & Hx).
        apply cat_in. exists r. split.
        + unfold K1. apply filter_In. split; [|cbv beta; now rewrite Dr2].
          assert (Y : In r (filter (nd n1) rest1)).
          { rewrite Er. apply in_or_app. left. apply filter_In. split; auto. cbv beta. now rewrite Dr1. }
          apply filter_In in Y. tauto.
        + assert (exists o, get r s = Some o).
          { unfold ids in Hx. destruct (get r s); eauto. contradiction. }
          destruct (keep_ids _ _ _ r F1 Dr1) as (ext & Ex & _); auto. rewrite Ex. apply in_or_app. auto.
      - rewrite B2.
        (* the callbacks of each reader object in turn *)
        assert (Y : forall l, incl l rest1 ->
                  filter (among K') (cat s1 (filter (nd n2) l)) = cat s (filter (nd n2) (filter (nd n1) l))).
        { induction l as [|r l IHl]; intros Hi; auto.
          assert (Hr : In r rest1) by (apply Hi; now left).
          assert (Hl : incl l rest1) by (intros y Hy; apply Hi; now right). specialize (IHl Hl).
          cbn [filter]. destruct (dropped n2 r) eqn:Dr2; cbn [negb].
          - destruct (dropped n1 r) eqn:Dr1; cbn [negb filter]; auto.
            rewrite Dr2. cbn [negb]. auto.
          - cbn [cat flat_map]. rewrite filter_app. unfold cat in IHl. rewrite IHl.
            destruct (dropped n1 r) eqn:Dr1; cbn [negb filter].
            + rewrite filter_false; auto. intros x Hx. apply among_not. intros C.
              apply KO in C as (q & Hq & Dq1 & _ & Hx2).
              apply (f_ids _ _ _ F1) in Hx as [Hx|Hx].
              * assert (r = q) by (eapply (i_own _ I); eauto). congruence.
              * apply (i_lt _ I) in Hx2. lia.
            + rewrite Dr2. cbn [negb cat flat_map]. f_equal.
              destruct (Back r Hr) as [Z|[Z|Z]]; [congruence| |].
              * assert (exists o, get r s = Some o) as Go.
                { destruct (i_alive _ I n r) as (o & Ho & _); eauto. rewrite Eo. apply in_or_app. right. now right. }
                destruct (keep_ids _ _ _ r F1 Dr1 Go) as (ext & Ex & Lx). rewrite Ex, filter_app.
                rewrite (filter_true (among K') (ids s r)).
                2:{ intros x Hx. apply among_in. apply cat_in. exists r. split; auto. apply filter_In.
                    split; auto. cbv beta. now rewrite dropped_app, Dr1, Dr2. }
                rewrite (filter_false (among K') ext), app_nil_r; auto.
                intros x Hx. apply among_not. intros C. apply KO in C as (q & _ & _ & _ & Hx2).
                apply (i_lt _ I) in Hx2. rewrite Forall_forall in Lx. apply Lx in Hx. lia.
              * rewrite Z. apply filter_false. intros x Hx. apply among_not. intros C.
                apply KO in C as (q & Hq & Dq1 & _ & Hx2).
                apply (f_ids _ _ _ F1) in Hx as [Hx|Hx]; [rewrite Z in Hx; contradiction|].
                apply (i_lt _ I) in Hx2. lia. }
        unfold K1. rewrite Y by apply incl_refl. rewrite Er, filter_app, cat_app.
        assert (Z : cat s (filter (nd n2) ad) = []).
        { apply incl_l_nil. intros x Hx. apply cat_in in Hx as (r & Hr & Hx). apply filter_In in Hr as [Hr _].
          rewrite (Lad r Hr) in Hx. contradiction. }
        rewrite Z, app_nil_r. unfold K'. f_equal. rewrite filter_filter. apply filter_ext.
        intros r. rewrite dropped_app. destruct (dropped n1 r), (dropped n2 r); auto. }
    cbn [filter]. rewrite dropped_app, D1, orb_false_r. destruct (dropped n2 cur) eqn:D2; cbn [negb].
    + fold K'. rewrite filter_app, X1, X2. auto.
    + cbn [cat flat_map]. fold (cat s (filter (nd (n2 ++ n1)) rest)). fold K'.
      rewrite filter_app. f_equal.
      * transitivity (filter (fun c => c <? ncb s) (own p n1)); auto. rewrite <- B1 at 1.
        apply filter_ext_in. intros x Hx. destruct (A1 x Hx) as [X|X].
        -- rewrite (proj2 (Nat.ltb_lt _ _)) by (eapply i_lt; eauto). apply among_in, in_or_app. left. now rewrite B1.
        -- rewrite (proj2 (Nat.ltb_ge _ _)) by auto. apply among_not. intros C. apply in_app_or in C as [C|C].
           ++ rewrite B1 in C. apply (i_lt _ I) in C. lia.
           ++ apply KO in C as (r & _ & _ & _ & C). apply (i_lt _ I) in C. lia.
      * rewrite <- X2 at 2. apply filter_ext_in. intros x Hx.
        destruct (among K' x) eqn:E.
        -- apply among_in, in_or_app. right. now apply among_in.
        -- apply among_not. intros C. apply in_app_or in C as [C|C]; [|apply among_not in E; auto].
           destruct (A2 x Hx) as [X|(r & X & Y)].
           ++ apply (i_lt _ I) in C. pose proof (f_ncb _ _ _ F1). lia.
           ++ apply (f_ids _ _ _ F1) in X as [X|X]; [|apply (i_lt _ I) in C; lia].
              assert (r = cur) by (eapply (i_own _ I); eauto). subst r.
              destruct Y as [Y|Y]; [contradiction|congruence].
Qed.
End Pass.
