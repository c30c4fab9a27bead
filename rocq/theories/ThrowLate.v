From Coq Require Import List Bool Arith Lia Permutation.
From Verif Require Import ThrowModel ThrowSpec ThrowProofs ThrowCommit.
Import ListNotations.

Ltac maybe := unfold maybe_down;
  try match goal with |- context [match fn ?g ?n ?x with _ => _ end] => destruct (fn g n x) end.

Section Graph.
Context {V : Type}.
Variable changed : V -> V -> bool.
Variable g : graph V.
Variable w : world V.
Hypothesis B : built g.
Hypothesis R : reflexive changed.
Notation St := (st V).
Notation push_down := (push_down changed).
Notation recompute := (recompute changed g w).
Notation send_down := (send_down changed g w).
Notation refresh := (refresh changed g w).
Notation send_up := (send_up changed g w).
Notation notify := (notify g).
Notation reach := (reach changed g w).
Notation do := (do changed g w).

(** ** Nothing runs out of fuel *)
Lemma each_total {A} (f : A -> St -> outcome V) l (s : St) : (forall n s, In n l -> f n s <> OutOfFuel) -> each f l s <> OutOfFuel.
Proof.
  intro F; revert s; induction l as [|n l IH]; intro s; cbn; [discriminate|].
  specialize (F n s (or_introl eq_refl)) as Fn; destruct (f n s); cbn; [|discriminate|congruence].
  apply IH; intros; apply F; right; auto.
Qed.
Lemma recompute_total e n s : recompute e n s <> OutOfFuel.
Proof. pose proof (recompute_log changed g w e n s) as L; destruct (recompute e n s); try discriminate; destruct L. Qed.
Lemma child n c : In c (children g n) -> n < c /\ c < size g.
Proof. intro I; split; [apply (older _ B), (linked _ B); auto|eapply (there _ B); eauto]. Qed.
Lemma sd_total f n s : n < size g -> size g < f + n -> send_down f n s <> OutOfFuel.
Proof.
  revert n s; induction f as [|f IH]; intros n s N F; [lia|cbn [ThrowModel.send_down]].
  pose proof (recompute_total (EDown n) n s) as T; destruct (recompute (EDown n) n s) as [s1|s1|]; cbn; [|discriminate|congruence].
  destruct (pending s1 n); [|discriminate]; apply each_total; intros c s2 Ic; apply child in Ic; apply IH; lia.
Qed.
Lemma nt_total f n s : n < size g -> size g < f + n -> notify f n s <> OutOfFuel.
Proof.
  revert n s; induction f as [|f IH]; intros n s N F; [lia|cbn [ThrowModel.notify]].
  destruct (_ && _); [|discriminate]; apply each_total; intros c s2 Ic; apply child in Ic; apply IH; lia.
Qed.
Hypothesis Fair : fair w.
Lemma rf_total f n s : n < f -> refresh f n s <> OutOfFuel.
Proof.
  revert n s; induction f as [|f IH]; intros n s N; [lia|cbn [ThrowModel.refresh]].
  destruct (kind_of g n); try discriminate.
  assert (T : each (refresh f) (refreshed w (clock s) (parents g n)) s <> OutOfFuel).
  { apply each_total; intros p s2 Ip; apply (Permutation_in _ (proj1 Fair _ _)) in Ip.
    apply (older _ B) in Ip; apply IH; lia. }
  destruct (each (refresh f) (refreshed w (clock s) (parents g n)) s); cbn; [apply recompute_total|discriminate|congruence].
Qed.
Lemma su_total f n v s : n < size g -> n < f -> send_up f n v s <> OutOfFuel.
Proof.
  revert n v s; induction f as [|f IH]; intros n v s N F; [lia|cbn [ThrowModel.send_up]].
  destruct (kind_of g n); try discriminate.
  - destruct automatic; [|discriminate].
    pose proof (sd_total (S (size g)) n (push_down n v s) N) as T.
    destruct (send_down (S (size g)) n (push_down n v s)); cbn [bind]; [apply nt_total; lia|discriminate|apply T; lia].
  - assert (T : (if refreshes then refresh (S n) n s else Done s) <> OutOfFuel)
      by (destruct refreshes; [apply rf_total; lia|discriminate]).
    destruct (if refreshes then _ else _) as [s1|s1|]; cbn [bind]; [|discriminate|congruence].
    unfold compute; destruct (throws w (clock s1)); [discriminate|].
    destruct (put g n (seen_by g n s1) v) as [vs|]; [|discriminate].
    apply each_total; intros [p u] s2 Ip; cbn [fst snd].
    apply (Permutation_in _ (proj2 Fair _ _)), in_combine_l, (older _ B) in Ip; apply IH; lia.
Qed.
Theorem total o s : valid g o -> do o s <> OutOfFuel.
Proof.
  destruct o as [n v|rs]; cbn [ThrowModel.do valid]; intro H; [apply su_total; lia|].
  rewrite Forall_forall in H; unfold commit.
  assert (T : each (send_down (S (size g))) rs s <> OutOfFuel)
    by (apply each_total; intros r s1 Ir; apply sd_total; [apply H; auto|lia]).
  destruct (each (send_down (S (size g))) rs s); cbn [bind]; [|discriminate|congruence].
  apply each_total; intros r s1 Ir; apply nt_total; [apply H; auto|lia].
Qed.

(** ** Watchers are not called in a commit that throws *)
Lemma nt_no_throw f n s s' : notify f n s <> Threw s'.
Proof.
  assert (E : forall (h : nat -> St -> outcome V) l s s', (forall n s s', h n s <> Threw s') -> each h l s <> Threw s').
  { clear; intros h l; induction l as [|m l IH]; intros s s' H; cbn; [discriminate|].
    destruct (h m s) as [s1|s1|] eqn:E; cbn; [apply IH; auto|destruct (H m s s1 E)|discriminate]. }
  revert n s s'; induction f as [|f IH]; intros n s s'; cbn [ThrowModel.notify]; [discriminate|].
  destruct (_ && _); [apply E; auto|discriminate].
Qed.
Lemma each_nt_no_throw f l s s' : each (notify f) l s <> Threw s'.
Proof.
  revert s; induction l as [|m l IH]; intros s; cbn; [discriminate|].
  destruct (notify f m s) as [s1|s1|] eqn:E; cbn; [apply IH; auto|destruct (nt_no_throw f m s s1 E)|discriminate].
Qed.
Theorem silent rs s s' : do (Commit rs) s = Threw s' -> calls (log s') = calls (log s).
Proof.
  cbn [ThrowModel.do]; unfold commit.
  pose proof (way_each g (send_down (S (size g))) rs s (fun n s => sd_way changed g w B R _ n s)) as W.
  destruct (each (send_down (S (size g))) rs s) as [s1|s1|]; cbn [bind]; intro E.
  - destruct (each_nt_no_throw _ _ _ _ E).
  - injection E as <-; destruct W as (x & e & -> & K); cbn; unfold calls in *; rewrite flat_map_app, K; auto.
  - discriminate.
Qed.

(** ** What a commit reaches is as it should be *)
Lemma reach_step o s s' : valid g o -> reach s -> end_of (do o s) = Some s' -> reach s'.
Proof.
  intros VO (iv & ops & I & F & E) D; exists iv, (ops ++ [o]); split; auto; split; [apply Forall_app; auto|].
  revert E; generalize (init iv); clear I F; induction ops as [|x r IH]; intros s0 E; cbn in *.
  - injection E as ->; destruct (do o s); cbn in D; try discriminate; injection D as ->; auto.
  - destruct (do x s0); auto; discriminate.
Qed.
Definition prompt (e : list event) : Prop := forall e1 p e2, e = e1 ++ EPush p :: e2 -> In (ESent p) e1.
Definition down_state (s0 s : St) : Prop :=
  exists e, log s = e ++ log s0 /\ prompt e /\ (forall m, In (EDown m) e -> pending s m = false).
Lemma down_visit s0 n s s1 : down_state s0 s -> recompute (EDown n) n s = Done s1 -> down_state s0 (visited n s1).
Proof.
  intros (e & E & P & Q) H; apply (visit_shape changed g w R) in H as (y & v & [X1 X2 X3 X4 X5 X6 X7 X8 X9]).
  exists (y ++ EDown n :: e); split; [rewrite X5, E, <- app_assoc; reflexivity|]; split.
  - intros e1 p e2 El.
    replace (y ++ EDown n :: e) with ((y ++ [EDown n]) ++ e) in El by (rewrite <- app_assoc; reflexivity).
    apply split_app in El as [[r Er] | (r & -> & ->)].
    + destruct X6 as [-> | [-> | ->]]; cbn in Er.
      * destruct e1 as [|? [|]]; discriminate Er.
      * destruct e1 as [|? [|? [|]]]; discriminate Er.
      * destruct e1 as [|a [|? [|? [|]]]]; try discriminate Er; inversion Er; subst; left; auto.
    + apply in_app_iff; right; eapply P; eauto.
  - intros m Im; rewrite X3; destruct (Nat.eqb_spec m n); auto; apply Q.
    apply in_app_iff in Im as [Im | [Im | Im]]; auto; [|congruence].
    destruct X6 as [-> | [-> | ->]]; cbn in Im; intuition discriminate.
Qed.
Lemma down_fail s0 n s : down_state s0 s -> down_state s0 (note (EFail n) (tick s)).
Proof.
  intros (e & E & P & Q); exists (EFail n :: e); split; [cbn; rewrite E; auto|]; split.
  - intros [|a e1] p e2 El; [discriminate El|]; cbn in El; inversion El; subst; right; eapply P; eauto.
  - intros m [C | I]; [discriminate|apply Q; auto].
Qed.
Lemma nt_same f n s s' : notify f n s = Done s' ->
  (forall m, last s' m = last s m) /\ (forall m, cur s' m = cur s m) /\ (forall m, pending s' m = pending s m).
Proof.
  intro E.
  assert (P : pres (fun x => (forall m, last x m = last s m) /\ (forall m, cur x m = cur s m) /\ (forall m, pending x m = pending s m)) (notify f n s)).
  { apply nt_pres; [|auto]; intros m x (A & C & D) _ _; cbn; auto. }
  rewrite E in P; auto.
Qed.
Lemma each_nt_same f l s s' : each (notify f) l s = Done s' ->
  (forall m, last s' m = last s m) /\ (forall m, cur s' m = cur s m) /\ (forall m, pending s' m = pending s m) /\
  exists e, log s' = e ++ log s /\ forall x, In x e -> exists n, x = ECall n.
Proof.
  intro E.
  assert (P : pres (fun x => (forall m, last x m = last s m) /\ (forall m, cur x m = cur s m) /\ (forall m, pending x m = pending s m) /\
     exists e, log x = e ++ log s /\ forall x, In x e -> exists n, x = ECall n) (each (notify f) l s)).
  { apply pres_each; [intros; apply nt_pres; auto|split; [|split; [|split]]; auto; exists []; split; auto; intros ? []].
    intros m x (A & C & D & e & El & K) _ _; split; [|split; [|split]]; auto.
    exists (ECall m :: e); cbn; rewrite El; split; auto; intros y [<- | I]; eauto. }
  rewrite E in P; auto.
Qed.
Theorem recovers s rs s' e n : reach s -> valid g (Commit rs) -> do (Commit rs) s = Done s' ->
  log s' = e ++ log s -> In (EDown n) e -> inner g n ->
  (forall p, In p (parents g n) -> ~ uncommitted p (log s')) -> agrees changed g n s'.
Proof.
  intros H VO E El Ie N U.
  assert (H' : reach s') by (apply (reach_step (Commit rs) s s' VO H); rewrite E; auto).
  pose proof (reach_inv changed g w B R s' H') as I.
  pose proof (do_good changed g w B R (Commit rs) s) as G; rewrite E in G; destruct G as (e' & El' & C).
  assert (e' = e) by (eapply app_inv_tail; rewrite <- El', El; auto); subst e'.
  cbn [ThrowModel.do] in E; unfold commit in E.
  assert (P : pres (down_state s) (each (send_down (S (size g))) rs s)).
  { apply pres_each; [|exists []; split; auto; split; [intros [|] ? ? ?; discriminate|intros ? []]].
    intros m s2 X; apply sd_pres; auto; [intros; eapply down_visit; eauto|intros; apply down_fail; auto]. }
  destruct (each (send_down (S (size g))) rs s) as [s1|s1|]; cbn [bind] in E; try discriminate.
  apply each_nt_same in E as (E1 & E2 & E3 & d & Ed & K).
  destruct P as (e1 & Ee & Pr & Q).
  assert (e = d ++ e1) by (eapply app_inv_tail; rewrite <- El, Ed, Ee, app_assoc; auto); subst e.
  assert (ND : forall x, In x d -> (forall m, x <> EPush m) /\ (forall m, x <> ESent m) /\ (forall m, x <> EDown m))
    by (intros x Ix; destruct (K x Ix) as [m ->]; repeat split; discriminate).
  assert (Pn : pending s' n = false).
  { rewrite E3; apply Q; apply in_app_iff in Ie as [Ie | Ie]; auto; destruct (ND _ Ie) as (_ & _ & X); destruct (X n eq_refl). }
  assert (Pp : forall p, In p (parents g n) -> pending s' p = false).
  { intros p Ip; rewrite (i_unsent _ _ _ I); destruct (unsent p (log s')) eqn:Un; auto.
    destruct (U p Ip); apply unsent_un; auto. }
  unfold agrees; intro v; rewrite (i_last _ _ _ I n Pn).
  rewrite (map_ext_in (last s') (cur s')) by (intros a Ia; apply (i_last _ _ _ I), Pp; auto).
  apply (i_agrees _ _ _ I n); auto; intros p Ip.
  destruct (dirty p n (log s')) eqn:D; auto; exfalso.
  apply since_split' in D as (l1 & x & l2 & L & X & Z); destruct x; try discriminate; apply Nat.eqb_eq in X; subst.
  assert (NI : ~ In (EDown n) l1) by (intro J; apply Z in J; cbn in J; rewrite Nat.eqb_refl in J; discriminate).
  rewrite El in L; apply split_app in L as [[r Er] | (r & _ & ->)].
  - assert (S1 : In (ESent p) l1).
    { destruct (split_app _ _ _ _ _ Er) as [[q Eq] | (q & Eq & ->)].
      - destruct (ND (EPush p)) as (X & _); [rewrite Eq; apply in_app_iff; right; left; auto|destruct (X p eq_refl)].
      - apply in_app_iff; right; eapply Pr; eauto. }
    apply in_split in S1 as (a & b & ->); apply NI, in_app_iff; left.
    eapply C; [|eauto]; rewrite Er, <- app_assoc; reflexivity.
  - apply NI, in_app_iff; auto.
Qed.
Theorem arrives s rs s' e n p : do (Commit rs) s = Done s' -> log s' = e ++ log s ->
  In (ESent p) e -> In p (parents g n) -> In (EDown n) e.
Proof.
  intros E El Ie Ip; pose proof (do_good changed g w B R (Commit rs) s) as G; rewrite E in G; destruct G as (e' & El' & C).
  assert (e' = e) by (eapply app_inv_tail; rewrite <- El', El; auto); subst e'.
  apply in_split in Ie as (a & b & ->); apply in_app_iff; left; eapply C; eauto.
Qed.

(** ** No notification is lost *)
Inductive through (e : list event) (n : nat) : nat -> Prop :=
| Here : In (ESent n) e -> through e n n
| Along m c : through e n m -> In c (children g m) -> In (ESent c) e -> through e n c.
Lemma through_more e e' n m : (forall x, In x e -> In x e') -> through e n m -> through e' n m.
Proof. intros S; induction 1; [constructor; auto|econstructor 2; eauto]. Qed.
Lemma through_trans e n c m : through e n n -> In c (children g n) -> through e c m -> through e n m.
Proof. intros Tn Ic; induction 1; [econstructor 2; eauto|econstructor 2; eauto]. Qed.

(** What the way down did: nodes that sent were reached from [ns], and are to be called *)
Definition spread (ns : list nat) (s0 s : St) : Prop :=
  exists e, log s = e ++ log s0 /\ (forall m, In (ESent m) e -> exists n, In n ns /\ through e n m).
Lemma spread_end o ns s0 : match o with Done s | Threw s => spread ns s0 s | OutOfFuel => True end <->
  (forall s, end_of o = Some s -> spread ns s0 s).
Proof.
  destruct o; cbn; split; intro H; auto; try (intros x E; injection E as <-; auto); discriminate.
Qed.
Lemma spread_each f l s : (forall n s, pres (spread [n] s) (f n s)) -> pres (spread l s) (each f l s).
Proof.
  intro F; revert s; induction l as [|n l IH]; intro s; cbn; [exists []; split; auto; intros ? []|].
  pose proof (F n s) as Fn; destruct (f n s) as [s1|s1|]; cbn in *; auto.
  - destruct Fn as (e & E & T); specialize (IH s1).
    assert (K : forall s2, spread l s1 s2 -> spread (n :: l) s s2).
    { intros s2 (e' & E' & T'); exists (e' ++ e); split; [rewrite E', E, app_assoc; auto|].
      intros m Im; apply in_app_iff in Im as [Im | Im].
      - destruct (T' m Im) as (k & Ik & Th); exists k; split; [right; auto|].
        eapply through_more; [|eauto]; intros; apply in_app_iff; auto.
      - destruct (T m Im) as (k & [<- | []] & Th); exists n; split; [left; auto|].
        eapply through_more; [|eauto]; intros; apply in_app_iff; auto. }
    destruct (each f l s1); cbn in *; auto.
  - destruct Fn as (e & E & T); exists e; split; auto; intros m Im; destruct (T m Im) as (k & [<- | []] & Th).
    exists n; split; [left; auto|auto].
Qed.
Lemma sd_spread f n s : pres (spread [n] s) (send_down f n s).
Proof.
  revert n s; induction f as [|f IH]; intros n s; [exact I|cbn [ThrowModel.send_down]].
  pose proof (recompute_log changed g w (EDown n) n s) as L.
  destruct (recompute (EDown n) n s) as [s1|s1|] eqn:E; [| |destruct L].
  2:{ cbn; exists [EFail n]; split; auto; intros m [C | []]; discriminate. }
  cbn [bind].
  assert (L' : exists y, log s1 = y ++ log s /\ forall m, ~ In (ESent m) y).
  { destruct L as [L | L]; [exists [EDown n]|exists [EPush n; EDown n]]; split; auto; cbn; intuition discriminate. }
  destruct L' as (y & Ly & Ny).
  destruct (pending s1 n) eqn:P.
  - pose proof (spread_each (send_down f) (children g n) (sent n s1) (fun n s => IH n s)) as W.
    assert (K : forall s2, spread (children g n) (sent n s1) s2 -> spread [n] s s2).
    { intros s2 (e & E2 & T); exists (e ++ ESent n :: y); split; [rewrite E2; cbn; rewrite Ly, <- app_assoc; auto|].
      assert (Tn : through (e ++ ESent n :: y) n n) by (constructor; apply in_app_iff; right; left; auto).
      intros m Im; exists n; split; [left; auto|]; apply in_app_iff in Im as [Im | [Im | Im]].
      - destruct (T m Im) as (c & Ic & Th); eapply through_trans; eauto.
        eapply through_more; [|eauto]; intros; apply in_app_iff; auto.
      - injection Im as <-; auto.
      - destruct (Ny m Im). }
    destruct (each (send_down f) (children g n) (sent n s1)); cbn in *; auto.
  - cbn; exists y; split; auto; intros m Im; destruct (Ny m Im).
Qed.

(** Nodes that sent have calls to make and nothing pending, from then on *)
Definition ready (e : list event) (s : St) : Prop :=
  forall m, In (ESent m) e -> calling s m = true /\ pending s m = false.
Definition ready_state (s0 : St) (e0 : list event) (s : St) : Prop :=
  exists e, log s = e ++ log s0 /\ ready (e ++ e0) s.
Lemma ready_visit s0 e0 n s s1 : ready_state s0 e0 s -> recompute (EDown n) n s = Done s1 -> ready_state s0 e0 (visited n s1).
Proof.
  intros (e & E & Q) H; apply (visit_shape changed g w R) in H as (y & v & [X1 X2 X3 X4 X5 X6 X7 X8 X9]).
  exists (y ++ EDown n :: e); split; [rewrite X5, E, <- app_assoc; reflexivity|].
  intros m Im; rewrite X3, X4; rewrite <- app_assoc in Im; apply in_app_iff in Im as [Im | Im].
  - destruct X6 as [-> | [-> | ->]]; cbn in Im; [destruct Im| |]; destruct Im as [Im | Im];
      try (injection Im as <-; rewrite Nat.eqb_refl; auto); try (destruct Im as [Im | []]; discriminate).
    destruct Im.
  - cbn in Im; destruct Im as [Im | Im]; [discriminate|]; apply Q in Im as [Im1 Im2].
    destruct y, (m =? n); auto.
Qed.
Lemma ready_fail s0 e0 n s : ready_state s0 e0 s -> ready_state s0 e0 (note (EFail n) (tick s)).
Proof.
  intros (e & E & Q); exists (EFail n :: e); split; [cbn; rewrite E; auto|].
  intros m [C | I]; [discriminate|apply Q; auto].
Qed.
Lemma ready_down rs s e0 : ready e0 s -> pres (ready_state s e0) (each (send_down (S (size g))) rs s).
Proof.
  intro H; apply pres_each; [|exists []; split; auto].
  intros m s2 X; apply sd_pres; auto; [intros; eapply ready_visit; eauto|intros; apply ready_fail; auto].
Qed.

(** Calls *)
Definition white (s : St) (m : nat) : Prop := calling s m = true /\ pending s m = false.
Record passes (s s' : St) : Prop := {
  p_pending : forall m, pending s' m = pending s m;
  p_less : forall m, calling s' m = true -> calling s m = true;
  p_log : exists e, log s' = e ++ log s /\ forall m, calling s m = true -> calling s' m = false -> In (ECall m) e;
  p_next : forall m c, calling s m = true -> calling s' m = false -> In c (children g m) -> white s c -> calling s' c = false }.
Lemma passes_refl s : passes s s.
Proof. split; auto; [exists []; split; auto; intros; congruence|intros; congruence]. Qed.
Lemma passes_trans s1 s2 s3 : passes s1 s2 -> passes s2 s3 -> passes s1 s3.
Proof.
  intros [A1 A2 (e & A3 & A4) A5] [B1 B2 (d & B3 & B4) B5]; split.
  - intro m; rewrite B1; auto.
  - auto.
  - exists (d ++ e); split; [rewrite B3, A3, app_assoc; auto|]; intros m C D; apply in_app_iff.
    destruct (calling s2 m) eqn:E; auto.
  - intros m c C D Ic [W1 W2]; destruct (calling s3 c) eqn:F; auto; pose proof (B2 _ F) as F2.
    destruct (calling s2 m) eqn:E.
    + rewrite <- F; apply (B5 m c); auto; split; auto; rewrite A1; auto.
    + rewrite (A5 m c) in F2; auto; split; auto.
Qed.
Lemma each_passes f l s s' : (forall n s s', f n s = Done s' -> passes s s' /\ (white s n -> calling s' n = false)) ->
  each f l s = Done s' -> passes s s' /\ forall n, In n l -> white s n -> calling s' n = false.
Proof.
  intro F; revert s; induction l as [|n l IH]; intros s E; cbn in E.
  - injection E as <-; split; [apply passes_refl|intros ? []].
  - destruct (f n s) as [s1|s1|] eqn:En; try discriminate; cbn in E.
    destruct (F _ _ _ En) as [P1 W1]; destruct (IH _ E) as [P2 W2]; split; [eapply passes_trans; eauto|].
    intros m [<- | Im] Wm.
    + destruct (calling s' n) eqn:C; auto; rewrite (p_less _ _ P2 _ C) in W1; specialize (W1 Wm); discriminate.
    + destruct (calling s1 m) eqn:C.
      * apply W2; auto; split; auto; rewrite (p_pending _ _ P1); apply Wm.
      * destruct (calling s' m) eqn:C'; auto; rewrite (p_less _ _ P2 _ C') in C; discriminate.
Qed.
Lemma nt_passes f n s s' : notify f n s = Done s' -> passes s s' /\ (white s n -> calling s' n = false).
Proof.
  revert n s s'; induction f as [|f IH]; intros n s s' E; [discriminate|cbn [ThrowModel.notify] in E].
  destruct (calling s n) eqn:C; cbn in E.
  2:{ injection E as <-; split; [apply passes_refl|intros [X _]; congruence]. }
  destruct (pending s n) eqn:P; cbn in E.
  { injection E as <-; split; [apply passes_refl|intros [_ X]; congruence]. }
  destruct (each_passes _ _ _ _ IH E) as [[A1 A2 (e & A3 & A4) A5] W].
  assert (Cn : calling s' n = false).
  { destruct (calling s' n) eqn:X; auto; apply A2 in X; cbn in X; rewrite at_eq in X; discriminate. }
  split; auto; split.
  - exact A1.
  - intros m X; apply A2 in X; cbn in X; unfold at_ in X; destruct (m =? n); [discriminate|auto].
  - exists (e ++ [ECall n]); split; [rewrite A3, <- app_assoc; reflexivity|].
    intros m X Y; apply in_app_iff; destruct (Nat.eq_dec m n) as [-> | Nm]; [right; left; auto|left; apply A4; auto].
    cbn; rewrite at_ne; auto.
  - intros m c X Y Ic [W1 W2]; destruct (Nat.eq_dec c n) as [-> | Nc]; auto.
    assert (Wc : white (called n s) c) by (split; cbn; auto; rewrite at_ne; auto).
    destruct (Nat.eq_dec m n) as [-> | Nm]; [apply W; auto|apply (A5 m c); auto; cbn; rewrite at_ne; auto].
Qed.

Theorem late rs s s1 s2 e e' n : do (Commit rs) s = Threw s1 -> do (Commit rs) s1 = Done s2 ->
  log s1 = e ++ log s -> log s2 = e' ++ log s1 -> In (ESent n) e -> In (ECall n) e'.
Proof.
  cbn [ThrowModel.do]; unfold commit; intros E1 E2 L1 L2 I1.
  (* the first *)
  pose proof (ready_down rs s [] (fun m (X : In (ESent m) []) => match X with end)) as Rd.
  pose proof (spread_each _ rs s (fun n s => sd_spread (S (size g)) n s)) as Sp.
  destruct (each (send_down (S (size g))) rs s) as [a|a|]; cbn [bind] in E1; try discriminate.
  { destruct (each_nt_no_throw _ _ _ _ E1). }
  injection E1 as ->; destruct Rd as (x & Lx & Rd); destruct Sp as (z & Lz & Sp).
  assert (x = e) by (eapply app_inv_tail; rewrite <- Lx, L1; auto); subst x.
  assert (z = e) by (eapply app_inv_tail; rewrite <- Lz, L1; auto); subst z.
  rewrite app_nil_r in Rd.
  (* the second *)
  pose proof (ready_down rs s1 e Rd) as Rd2.
  destruct (each (send_down (S (size g))) rs s1) as [b|b|]; cbn [bind] in E2; try discriminate.
  destruct Rd2 as (y & Ly & Rd2).
  destruct (each_passes _ _ _ _ (fun n s s' => nt_passes (S (size g)) n s s') E2) as [[A1 A2 (d & A3 & A4) A5] W].
  assert (Wh : forall m, In (ESent m) e -> white b m) by (intros m Im; apply Rd2, in_app_iff; auto).
  assert (T : forall r m, In r rs -> through e r m -> calling s2 m = false).
  { intros r m Ir; induction 1; [apply W; auto|].
    apply (A5 m c); auto; apply Wh.
    match goal with X : through e r m |- _ => inversion X; auto end. }
  destruct (Sp n I1) as (r & Ir & Th); pose proof (T r n Ir Th) as F.
  assert (In (ECall n) d) by (apply A4; auto; apply Wh; auto).
  assert (e' = d ++ y) by (eapply app_inv_tail; rewrite <- L2, A3, Ly, app_assoc; auto).
  subst e'; apply in_app_iff; auto.
Qed.

(** ** What readers show *)
Definition shows (s0 s : St) : Prop :=
  exists e, log s = e ++ log s0 /\
    (forall m, ~ In (ESent m) e -> last s m = last s0 m) /\
    (forall m l1 l2, e = l1 ++ ESent m :: l2 -> ~ In (EPush m) l1 -> last s m = cur s m) .
Lemma shows_more s0 s s' x : shows s0 s -> log s' = x :: log s -> (forall m, last s' m = last s m) ->
  (forall m, cur s' m = cur s m \/ x = EPush m) -> (forall m, x <> ESent m) -> shows s0 s'.
Proof.
  intros (e & E & L & C) Lx La Cu N; exists (x :: e); rewrite Lx, E; split; auto; split.
  - intros m I; rewrite La; apply L; intro J; apply I; right; auto.
  - intros m [|a l1] l2 Em NI; [inversion Em; destruct (N m); auto|]; cbn in Em; inversion Em; subst.
    destruct (Cu m) as [-> | ->]; [|destruct NI; left; auto].
    rewrite La; eapply C; eauto; intro J; apply NI; right; auto.
Qed.
Lemma shows_do o s : pres (shows s) (do o s).
Proof.
  apply do_pres; auto.
  - intros n s1 s2 (e & E & L & C) H; apply (visit_shape changed g w R) in H as (y & v & [X1 X2 X3 X4 X5 X6 X7 X8 X9]).
    exists (y ++ EDown n :: e); split; [rewrite X5, E, <- app_assoc; reflexivity|]; split.
    + intros m I; rewrite X2; destruct (Nat.eqb_spec m n) as [-> | Nm].
      * destruct X6 as [-> | [-> | ->]]; [|destruct I; left; auto|destruct I; left; auto].
        apply L; intro J; apply I; right; auto.
      * apply L; intro J; apply I, in_app_iff; right; right; auto.
    + intros m l1 l2 Em NI; rewrite X1, X2; destruct (Nat.eqb_spec m n) as [-> | Nm].
      * destruct X6 as [-> | [-> | ->]]; auto.
        destruct X8 as [-> | C8]; [|discriminate].
        destruct l1 as [|a l1]; cbn in Em; inversion Em; subst; eapply C; eauto; intro J; apply NI; right; auto.
      * replace (y ++ EDown n :: e) with ((y ++ [EDown n]) ++ e) in Em by (rewrite <- app_assoc; reflexivity).
        apply split_app in Em as [[r Er] | (r & -> & ->)].
        -- exfalso; assert (J : In (ESent m) (y ++ [EDown n])) by (rewrite Er; apply in_app_iff; right; left; auto).
           apply in_app_iff in J as [J | [J | []]]; [|discriminate].
           destruct X6 as [-> | [-> | ->]]; cbn in J; intuition congruence.
        -- eapply C; eauto; intro J; apply NI, in_app_iff; auto.
  - intros n s1 H; eapply (shows_more s s1); eauto; cbn; auto; discriminate.
  - intros n s1 H _ _; eapply (shows_more s s1); eauto; cbn; auto; discriminate.
  - intros n s1 s2 H _ E.
    assert (T : shows s (note (ESeen n) s1)) by (eapply (shows_more s s1); eauto; cbn; auto; discriminate).
    unfold ThrowModel.recompute, compute in E; destruct (kind_of g n); [injection E as <-; auto| |];
      (destruct (throws w (clock s1)); [discriminate|injection E as <-]; maybe; unfold ThrowModel.push_down; cbn;
       try match goal with |- context [changed ?a ?b] => destruct (changed a b) end;
       [|destruct T as (e & T1 & T2 & T3); exists e; auto ..]);
      (eapply (shows_more s (note (ESeen n) s1) _ (EPush n)); eauto; cbn; auto; try discriminate;
       intros m; unfold at_; destruct (Nat.eqb_spec m n); subst; auto).
  - intros n b v s1 _ H; unfold ThrowModel.push_down; destruct (changed _ _); auto.
    eapply (shows_more s s1 _ (EPush n)); eauto; cbn; auto; try discriminate;
      intros m; unfold at_; destruct (Nat.eqb_spec m n); subst; auto.
  - exists []; split; auto; split; auto; intros m [|] ? ?; discriminate.
Qed.
Theorem shown o s s' e : end_of (do o s) = Some s' -> log s' = e ++ log s ->
  (forall m, ~ In (ESent m) e -> last s' m = last s m) /\
  (forall m l1 l2, e = l1 ++ ESent m :: l2 -> ~ In (EPush m) l1 -> last s' m = cur s' m).
Proof.
  intros E L; pose proof (shows_do o s) as P.
  destruct (do o s); cbn in *; try discriminate; injection E as ->;
    (destruct P as (e' & L' & A & C); assert (e' = e) by (eapply app_inv_tail; rewrite <- L', L; auto); subst; auto).
Qed.
End Graph.
Theorem clean (V : Type) (changed : V -> V -> bool) g w s n :
  built g -> reflexive changed -> reach changed g w s -> inner g n ->
  (forall x, ~ In (EFail x) (log s)) -> (forall m, ~ inner g m -> ~ uncommitted m (log s)) ->
  agrees changed g n s.
Proof.
  intros B R H N F U v Ev; destruct (changed v (last s n)) eqn:E; auto; exfalso.
  destruct (stale changed g w B R s n H N) as (m & _ & [[X Y] | X]).
  - unfold agrees; intro A; rewrite (A v Ev) in E; discriminate.
  - destruct (U m X Y).
  - destruct X as (p & l1 & l2 & _ & X & _ & x & I); destruct (F x); rewrite X; apply in_app_iff; auto.
Qed.

Section Calls.
Context {V : Type}.
Variable changed : V -> V -> bool.
Variable g : graph V.
Variable w : world V.
Notation St := (st V).
(** ** Calls are owed *)
Definition owing (s : St) : Prop :=
  (forall n l1 l2, log s = l1 ++ ECall n :: l2 -> exists a b, l2 = a ++ ESent n :: b /\ ~ In (ECall n) a) /\
  (forall n, calling s n = true -> exists a b, log s = a ++ ESent n :: b /\ ~ In (ECall n) a).
Lemma owing_more s s' x : owing s -> log s' = x :: log s -> (forall n, x <> ECall n) ->
  (forall n, calling s' n = true -> calling s n = true \/ x = ESent n) -> owing s'.
Proof.
  intros [O1 O2] L N C; split.
  - intros n [|y l1] l2 E; rewrite L in E; [inversion E; destruct (N n); auto|inversion E; eapply O1; eauto].
  - intros n Cn; rewrite L; destruct (C n Cn) as [D | ->]; [|exists [], (log s); auto].
    destruct (O2 n D) as (a & b & -> & I); exists (x :: a), b; split; auto; intros [J | J]; [destruct (N n J)|auto].
Qed.
Lemma owing_push n v s : owing s -> owing (push_down changed n v s).
Proof.
  intro O; unfold push_down; destruct (changed v (cur s n)); auto.
  eapply (owing_more s _ (EPush n)); eauto; cbn; auto; discriminate.
Qed.
Lemma owing_recompute e n s s' : (forall m, e <> ECall m) -> (forall m, e <> ESent m) -> owing s -> recompute changed g w e n s = Done s' -> owing s'.
Proof.
  intros N1 N2 O E.
  assert (O' : forall k, owing k -> owing (note e k)) by (intros k Ok; eapply (owing_more k); eauto; cbn; auto).
  unfold recompute, compute in E; destruct (kind_of g n).
  - injection E as <-; auto.
  - destruct (throws w (clock s)); [discriminate|injection E as <-]; apply owing_push, O'; exact O.
  - destruct (throws w (clock s)); [discriminate|injection E as <-].
    maybe; [apply owing_push|]; apply O'; exact O.
Qed.
Theorem owed s n l1 l2 : reach changed g w s -> log s = l1 ++ ECall n :: l2 ->
  exists a b, l2 = a ++ ESent n :: b /\ ~ In (ECall n) a.
Proof.
  intro H; assert (O : owing s); [|apply O].
  revert s H; apply reach_pres.
  - intros m s s1 O E; apply owing_recompute in E; try discriminate; auto.
    unfold visited; destruct (pending s1 m); auto.
    eapply (owing_more s1 _ (ESent m)); eauto; try discriminate; cbn; intros k; unfold at_.
    destruct (Nat.eqb_spec k m); subst; auto.
  - intros m s O; eapply (owing_more (tick s)); eauto; cbn; auto; discriminate.
  - intros m s [O1 O2] C P; split.
    + intros k [|y a] b E; cbn in E; inversion E; subst; [apply O2; auto|eapply O1; eauto].
    + intros k Ck; cbn in Ck |- *; unfold at_ in Ck; destruct (Nat.eqb_spec k m); [discriminate|].
      destruct (O2 k Ck) as (a & b & -> & I); exists (ECall m :: a), b; split; auto.
      intros [J | J]; [congruence|auto].
  - intros m s s1 O _ E; apply owing_recompute in E; try discriminate; auto.
  - auto.
  - intros m b v s _ O; apply owing_push; auto.
  - intros iv _; split; [intros m [|] ? ?; discriminate|intros m ?; discriminate].
Qed.
(** ** Roots have what was set *)
Lemma push_other m v n s e : n <> m -> cur (push_down changed m v (note e (tick s))) n = cur s n.
Proof.
  intro N; unfold push_down; cbn; destruct (changed v (cur s m)); cbn; auto.
  unfold at_; destruct (Nat.eqb_spec n m); congruence.
Qed.
Theorem set_root n b v s s' : reflexive changed -> built g -> kind_of g n = Root b ->
  end_of (do changed g w (Set_ n v) s) = Some s' -> changed v (cur s' n) = false.
Proof.
  intros R B K E; cbn [do] in E; cbn [send_up] in E; rewrite K in E.
  assert (P1 : changed v (cur (push_down changed n v s) n) = false).
  { unfold push_down; destruct (changed v (cur s n)) eqn:C; auto; cbn; rewrite at_eq; apply R. }
  destruct b; [|injection E as <-; auto].
  set (Q := fun x : St => changed v (cur x n) = false).
  assert (PQ : pres Q (bind (send_down changed g w (S (size g)) n (push_down changed n v s)) (notify g (S (size g)) n))).
  { apply pres_bind; [apply sd_pres; auto|intros; apply nt_pres; auto].
    intros m x x1 Qx Ex; unfold Q in *.
    assert (cur (visited m x1) n = cur x n); [|congruence].
    assert (H : cur (visited m x1) n = cur x1 n) by (unfold visited; destruct (pending x1 m); auto).
    rewrite H; clear H; unfold recompute, compute in Ex.
    assert (H : kind_of g m = Root true -> cur x1 n = cur x n)
      by (intro H; rewrite H in Ex; injection Ex as <-; auto).
    destruct (Nat.eq_dec n m) as [<- | Nm]; [apply H; auto|clear H].
    destruct (kind_of g m); [injection Ex as <-; auto| |];
      (destruct (throws w (clock x)); [discriminate|injection Ex as <-]; maybe; try apply push_other; auto). }
  destruct (bind _ _); cbn in *; try discriminate; injection E as <-; auto.
Qed.

(** ** Sensors show what they sensed *)
Section Sensor.
Variables (r t0 : nat).
Hypothesis K : kind_of g r = Sensor.
Hypothesis R : reflexive changed.
Definition late_enough (s : St) : Prop := t0 <= clock s.
Definition sensed (s : St) : Prop := exists t, t0 <= t < clock s /\ throws w t = false /\
  changed (sense w t) (cur s r) = false /\ pending s r = false.
Lemma recompute_clock e n s s1 : recompute changed g w e n s = Done s1 -> clock s <= clock s1.
Proof.
  unfold recompute, compute; destruct (kind_of g n); [intro H; injection H as <-; auto| |];
    (destruct (throws w (clock s)); [discriminate|intro H; injection H as <-]);
    maybe; unfold push_down; try match goal with |- context [changed ?a ?b] => destruct (changed a b) end;
    cbn; auto.
Qed.
Lemma visited_clock n (s : St) : clock (visited n s) = clock s.
Proof. unfold visited; destruct (pending s n); reflexivity. Qed.
Lemma sense_visit s s1 : late_enough s -> recompute changed g w (EDown r) r s = Done s1 -> sensed (visited r s1).
Proof.
  intros L E; unfold recompute, compute in E; rewrite K in E.
  destruct (throws w (clock s)) eqn:T; [discriminate|injection E as <-].
  exists (clock s). unfold late_enough in L. rewrite visited_clock.
  unfold visited, push_down; cbn. destruct (changed (sense w (clock s)) (cur s r)) eqn:C; cbn.
  - rewrite !at_eq; cbn. rewrite !at_eq. repeat split; auto; lia.
  - destruct (pending s r) eqn:P; cbn; rewrite ?at_eq; repeat split; auto; lia.
Qed.
Lemma sensed_visit n s s1 : sensed s -> recompute changed g w (EDown n) n s = Done s1 -> sensed (visited n s1).
Proof.
  intros (t & T1 & T2 & T3 & T4) E. destruct (Nat.eq_dec n r) as [->|N].
  - apply (sense_visit s); auto. unfold late_enough; lia.
  - exists t. assert (M := recompute_clock _ _ _ _ E). rewrite visited_clock.
    assert (cur (visited n s1) r = cur s r /\ pending (visited n s1) r = pending s r) as [-> ->];
      [|repeat split; auto; lia].
    assert (cur s1 r = cur s r /\ pending s1 r = pending s r) as [<- <-].
    { unfold recompute, compute in E; destruct (kind_of g n); [injection E as <-; auto| |];
        (destruct (throws w (clock s)); [discriminate|injection E as <-]);
        maybe; unfold push_down; cbn; try match goal with |- context [changed ?a ?b] => destruct (changed a b) end;
        cbn; rewrite ?at_ne by congruence; auto. }
    unfold visited; destruct (pending s1 n); cbn; rewrite ?at_ne by congruence; auto.
Qed.
Lemma sensed_fail n s : sensed s -> sensed (note (EFail n) (tick s)).
Proof. intros (t & T1 & T2 & T3); exists t; cbn; repeat split; try apply T3; auto; lia. Qed.
Lemma late_down f n s : late_enough s -> pres late_enough (send_down changed g w f n s).
Proof.
  apply sd_pres.
  - intros m x x1 L E; unfold late_enough in *; rewrite visited_clock. apply recompute_clock in E; lia.
  - intros m x L; unfold late_enough in *; cbn; lia.
Qed.
Lemma sense_down f s s' : late_enough s -> send_down changed g w f r s = Done s' -> sensed s'.
Proof.
  intros L E; destruct f as [|f]; [discriminate|]; cbn [send_down] in E.
  destruct (recompute changed g w (EDown r) r s) as [s1|s1|] eqn:F; cbn [bind] in E; try discriminate.
  pose proof (sense_visit _ _ L F) as Q; unfold visited in Q.
  destruct (pending s1 r); [|injection E as <-; exact Q].
  assert (D : pres sensed (each (send_down changed g w f) (children g r) (sent r s1))).
  { apply pres_each; [|exact Q]. intros; apply sd_pres; auto using sensed_fail; intros; eapply sensed_visit; eauto. }
  rewrite E in D; exact D.
Qed.
Lemma sense_each f l s s' : In r l -> late_enough s -> each (send_down changed g w f) l s = Done s' -> sensed s'.
Proof.
  revert s; induction l as [|n l IH]; intros s I L E; [destruct I|]; cbn [each] in E.
  destruct (send_down changed g w f n s) as [s1|s1|] eqn:F; cbn [bind] in E; try discriminate.
  destruct (Nat.eq_dec n r) as [->|N].
  - apply sense_down in F; auto.
    assert (D : pres sensed (each (send_down changed g w f) l s1)).
    { apply pres_each; [|exact F]. intros; apply sd_pres; auto using sensed_fail; intros; eapply sensed_visit; eauto. }
    rewrite E in D; exact D.
  - destruct I as [I|I]; [congruence|]. apply (IH s1); auto.
    pose proof (late_down f n s L) as D; rewrite F in D; exact D.
Qed.
Theorem sense_commit rs s s' : In r rs -> clock s = t0 -> do changed g w (Commit rs) s = Done s' -> sensed s'.
Proof.
  intros I C E; cbn [do] in E; unfold commit in E.
  destruct (each (send_down changed g w (S (size g))) rs s) as [s1|s1|] eqn:F; cbn [bind] in E; try discriminate.
  apply sense_each in F; auto; [|unfold late_enough; lia].
  assert (D : pres sensed (each (notify g (S (size g))) rs s1)).
  { apply pres_each; [|exact F]. intros n x Q; apply nt_pres; auto. }
  rewrite E in D; exact D.
Qed.
End Sensor.
Theorem sensors r rs s s' : built g -> reflexive changed -> reach changed g w s -> valid g (Commit rs) ->
  kind_of g r = Sensor -> In r rs -> do changed g w (Commit rs) s = Done s' ->
  exists t, clock s <= t < clock s' /\ throws w t = false /\ changed (sense w t) (last s' r) = false.
Proof.
  intros B R Re Va K I E. destruct (sense_commit r (clock s) K R rs s s' I eq_refl E) as (t & T1 & T2 & T3 & T4).
  exists t; split; auto; split; auto.
  assert (Inv changed g s') as J.
  { apply reach_inv with (w := w); auto. apply reach_step with (s := s) (o := Commit rs); auto. rewrite E; reflexivity. }
  rewrite (i_last _ _ _ J r T4). exact T3.
Qed.
End Calls.
