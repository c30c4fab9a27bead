From Coq Require Import List Bool Arith Lia.
From Verif Require Import ThrowModel ThrowSpec ThrowProofs.
Import ListNotations.

Lemma split_app {A} (a b l1 l2 : list A) x : a ++ b = l1 ++ x :: l2 ->
  (exists r, a = l1 ++ x :: r) \/ (exists r, b = r ++ x :: l2 /\ l1 = a ++ r).
Proof.
  revert l1; induction a as [|y a IH]; intros l1 E; cbn in E; [right; exists l1; auto|].
  destruct l1 as [|z l1]; injection E as -> E; [left; exists a; reflexivity|].
  destruct (IH _ E) as [[r ->] | (r & -> & ->)]; [left; exists r; reflexivity|right; exists r; auto].
Qed.

Section Graph.
Context {V : Type}.
Variable changed : V -> V -> bool.
Variable g : graph V.
Variable w : world V.
Hypothesis B : built g.
Hypothesis R : reflexive changed.
Notation St := (st V).
Notation push_down := (push_down changed).
Notation recompute := (recompute changed g w).
Notation send_down := (send_down changed g w).
Notation refresh := (refresh changed g w).
Notation send_up := (send_up changed g w).
Notation notify := (notify g).

(** ** What is sent down arrives, unless something throws *)
Definition complete (e : list event) : Prop :=
  forall e1 p e2 n, e = e1 ++ ESent p :: e2 -> In p (parents g n) -> In (EDown n) e1.
Lemma complete_app a b : complete a -> complete b -> complete (a ++ b).
Proof.
  intros A C e1 p e2 n E Ip; apply split_app in E as [[r ->] | (r & -> & ->)].
  - eapply A; eauto.
  - apply in_app_iff; right; eapply C; eauto.
Qed.
Lemma complete_plain e : (forall p, ~ In (ESent p) e) -> complete e.
Proof. intros N e1 p e2 n -> _; destruct (N p); apply in_app_iff; right; left; auto. Qed.

Definition good (s : St) (o : outcome V) : Prop :=
  match o with
  | Done s' => exists e, log s' = e ++ log s /\ complete e
  | Threw s' => exists x e, log s' = EFail x :: e ++ log s
  | OutOfFuel => True
  end.
Lemma good_bind s o f : good s o -> (forall s1, good s1 (f s1)) -> good s (bind o f).
Proof.
  destruct o as [s1|s1|]; cbn; auto; intros (e & E & C) F; specialize (F s1).
  destruct (f s1) as [s2|s2|]; cbn in *; auto.
  - destruct F as (e' & E' & C'); exists (e' ++ e); rewrite E', E, app_assoc; split; auto using complete_app.
  - destruct F as (x & e' & E'); exists x, (e' ++ e); rewrite E', E, <- app_assoc; auto.
Qed.
Lemma good_done s : good s (Done s).
Proof. exists []; split; auto; apply complete_plain; auto. Qed.
Lemma good_each {A} (f : A -> St -> outcome V) l s : (forall n s, good s (f n s)) -> good s (each f l s).
Proof. intro F; revert s; induction l as [|n l IH]; intro s; cbn; [apply good_done|apply good_bind; auto]. Qed.
Lemma recompute_log e n s : 
  match recompute e n s with
  | Done s' => log s' = e :: log s \/ log s' = EPush n :: e :: log s
  | Threw s' => log s' = EFail n :: log s
  | OutOfFuel => False
  end.
Proof.
  unfold ThrowModel.recompute, compute; destruct (kind_of g n); cbn; auto; destruct (throws w (clock s)); cbn; auto;
    unfold maybe_down; try (destruct (fn g n (seen_by g n s)); [|cbn; auto]);
    unfold ThrowModel.push_down; cbn; destruct (changed _ _); cbn; auto.
Qed.

(** What [send_down] notes; [e]: newest first *)
Definition way_down (s : St) (ns : list nat) (o : outcome V) : Prop :=
  match o with
  | Done s' => exists e, log s' = e ++ log s /\ complete e /\ (forall n, In n ns -> In (EDown n) e) /\ calls e = []
  | Threw s' => exists x e, log s' = EFail x :: e ++ log s /\ calls e = []
  | OutOfFuel => True
  end.
Lemma calls_app a b : calls (a ++ b) = calls a ++ calls b.
Proof. apply flat_map_app. Qed.
Lemma way_each f l s : (forall n s, way_down s [n] (f n s)) -> way_down s l (each f l s).
Proof.
  intro F; revert s; induction l as [|n l IH]; intro s; cbn.
  - exists []; split; auto; split; [apply complete_plain; auto|split; auto; intros ? []].
  - specialize (F n s); destruct (f n s) as [s1|s1|]; cbn in *; auto.
    destruct F as (e & E & C & I & K); specialize (IH s1); destruct (each f l s1) as [s2|s2|]; cbn in *; auto.
    + destruct IH as (e' & E' & C' & I' & K'); exists (e' ++ e); rewrite E', E, app_assoc, calls_app, K, K'.
      split; auto; split; auto using complete_app; split; auto.
      intros m [<- | Im]; apply in_app_iff; auto.
    + destruct IH as (x & e' & E' & K'); exists x, (e' ++ e); rewrite E', E, calls_app, K, K', <- app_assoc; auto.
Qed.
Lemma sd_way f n s : way_down s [n] (send_down f n s).
Proof.
  revert n s; induction f as [|f IH]; intros n s; [exact I|cbn [ThrowModel.send_down]].
  pose proof (recompute_log (EDown n) n s) as L.
  destruct (recompute (EDown n) n s) as [s1|s1|] eqn:E; [| |destruct L].
  2:{ cbn; exists n, []; auto. }
  cbn [bind]; destruct (visit_shape changed g w R _ _ _ E) as (y & v & X).
  pose proof (v_log _ _ _ _ _ _ _ X) as XL; pose proof (v_y _ _ _ _ _ _ _ X) as XY; unfold visited in XL.
  assert (CY : calls (y ++ [EDown n]) = []) by (destruct XY as [-> | [-> | ->]]; auto).
  destruct (pending s1 n) eqn:P.
  - pose proof (way_each (send_down f) (children g n) (sent n s1) (fun n s => IH n s)) as W.
    destruct (each (send_down f) (children g n) (sent n s1)) as [s2|s2|]; cbn in *; auto.
    + destruct W as (e & E2 & C & I2 & K); rewrite XL in E2; exists (e ++ y ++ [EDown n]).
      split; [rewrite E2, <- !app_assoc; reflexivity|]; split; [|split].
      * intros e1 p e2 m Ee Ip; apply split_app in Ee as [[r ->] | (r & Ey & ->)]; [eapply C; eauto|].
        apply in_app_iff; left; apply I2; apply (linked _ B).
        destruct XY as [-> | [-> | ->]]; destruct r as [|a [|b [|c r]]]; cbn in Ey; inversion Ey; subst; auto;
          match goal with H : _ = _ ++ _ :: _ |- _ => destruct r; discriminate H | _ => idtac end.
      * intros m [<- | []]; apply in_app_iff; right; apply in_app_iff; right; left; auto.
      * rewrite calls_app, K, CY; auto.
    + destruct W as (x & e & E2 & K); rewrite XL in E2; exists x, (e ++ y ++ [EDown n]).
      rewrite E2, calls_app, K, CY, <- !app_assoc; auto.
  - cbn; exists (y ++ [EDown n]); rewrite XL, <- app_assoc; split; auto; split; [|split; auto].
    + apply complete_plain; intros p Ip.
      cbn in L; rewrite XL in L.
      destruct XY as [-> | [-> | ->]]; cbn in *; try (destruct L as [L | L]; inversion L; fail).
      destruct Ip as [Ip | []]; discriminate.
    + intros m [<- | []]; apply in_app_iff; right; left; auto.
Qed.
Lemma sd_good f n s : good s (send_down f n s).
Proof.
  pose proof (sd_way f n s) as W; destruct (send_down f n s); cbn in *; auto.
  - destruct W as (e & E & C & _); eauto.
  - destruct W as (x & e & E & _); eauto.
Qed.
Lemma nt_good f n s : good s (notify f n s).
Proof.
  revert n s; induction f as [|f IH]; intros n s; [exact I|cbn [ThrowModel.notify]].
  destruct (calling s n && negb (pending s n)); [|apply good_done].
  change (good s (bind (Done (called n s)) (each (notify f) (children g n)))).
  apply good_bind; [|intros; apply good_each; auto].
  exists [ECall n]; split; auto; apply complete_plain; intros p [C | []]; discriminate.
Qed.
Lemma rf_good f n s : good s (refresh f n s).
Proof.
  revert n s; induction f as [|f IH]; intros n s; [exact I|cbn [ThrowModel.refresh]].
  destruct (kind_of g n); try apply good_done; apply good_bind; [apply good_each; auto|].
  intro s1; pose proof (recompute_log (ESeen n) n s1) as L; destruct (recompute (ESeen n) n s1); cbn; auto.
  - destruct L as [-> | ->]; [exists [ESeen n]|exists [EPush n; ESeen n]]; split; auto; apply complete_plain; cbn;
      intuition discriminate.
  - exists n, []; auto.
Qed.
Lemma push_good n v s : good s (Done (push_down n v s)).
Proof.
  unfold ThrowModel.push_down; destruct (changed _ _); [|apply good_done].
  exists [EPush n]; split; auto; apply complete_plain; cbn; intuition discriminate.
Qed.
Lemma su_good f n v s : good s (send_up f n v s).
Proof.
  revert n v s; induction f as [|f IH]; intros n v s; [exact I|cbn [ThrowModel.send_up]].
  destruct (kind_of g n); try apply good_done.
  - destruct automatic; [|apply push_good].
    change (good s (bind (Done (push_down n v s)) (fun s1 =>
      bind (send_down (S (size g)) n s1) (notify (S (size g)) n)))).
    apply good_bind; [apply push_good|intro; apply good_bind; [apply sd_good|intro; apply nt_good]].
  - apply good_bind; [destruct refreshes; [apply rf_good|apply good_done]|].
    intro s1; unfold compute; destruct (throws w (clock s1)); [exists n, []; auto|].
    assert (T : good s1 (Done (tick s1))) by (exists []; split; auto; apply complete_plain; auto).
    destruct (put g n (seen_by g n s1) v) as [vs|]; [|exact T].
    change (good s1 (bind (Done (tick s1)) (each (fun pv => send_up f (fst pv) (snd pv))
      (written w (clock (tick s1)) (combine (parents g n) vs))))).
    apply good_bind; [exact T|intros; apply good_each; auto].
Qed.
Lemma do_good o s : good s (do changed g w o s).
Proof.
  destruct o; cbn [do]; [apply su_good|unfold commit].
  apply good_bind; [apply good_each; intros; apply sd_good|intros; apply good_each; intros; apply nt_good].
Qed.

Definition at_rest (s : St) : Prop := forall p m l1 l2, In p (parents g m) ->
  log s = l1 ++ ESent p :: l2 -> ~ In (EDown m) l1 -> exists x, In (EFail x) l1.
Lemma rest_reach s : reach changed g w s -> at_rest s.
Proof.
  intros (iv & ops & _ & _ & E).
  assert (K : forall ops s0 s, at_rest s0 -> run changed g w ops s0 = Some s -> at_rest s).
  { clear - B R; induction ops as [|o r IH]; intros s0 s H E; cbn in E; [injection E as <-; auto|].
    pose proof (do_good o s0) as G; destruct (do changed g w o s0) as [s1|s1|]; cbn in G; [| |discriminate];
      refine (IH s1 s _ E); intros p m l1 l2 Ip El N.
    - destruct G as (e & Ee & C); rewrite Ee in El; apply split_app in El as [[x ->] | (x & El & ->)].
      + destruct N; eapply C; eauto.
      + destruct (H p m x l2 Ip El) as [z Iz]; [intro I; apply N, in_app_iff; auto|].
        exists z; apply in_app_iff; auto.
    - destruct G as (z & e & Ee); rewrite Ee in El; destruct l1 as [|a l1]; [discriminate El|injection El as <- El].
      exists z; left; auto. }
  apply (K ops (init iv) s); auto; intros p m l1 l2 _ El _; destruct l1; discriminate El.
Qed.

(** ** What is not as it should be, and why *)
Lemma skipped_over s m p : reach changed g w s -> In p (parents g m) -> skipped p m (log s) = true ->
  passed_over g m (log s).
Proof.
  intros H Ip D; apply since_split' in D as (l1 & e & l2 & El & X & Z).
  destruct e; try discriminate; apply Nat.eqb_eq in X; subst.
  assert (N : ~ In (EDown m) l1) by (intro I; apply Z in I; cbn in I; rewrite Nat.eqb_refl in I; discriminate).
  exists p, l1, l2; repeat split; auto; eapply rest_reach; eauto.
Qed.
Lemma unsent_un m l : unsent m l = true -> uncommitted m l.
Proof.
  intro D; apply since_split' in D as (l1 & e & l2 & El & X & Z).
  destruct e; try discriminate; apply Nat.eqb_eq in X; subst; exists l1, l2; split; auto.
  intro I; apply Z in I; cbn in I; rewrite Nat.eqb_refl in I; discriminate.
Qed.
Lemma un_unsent m l : uncommitted m l -> unsent m l = true.
Proof.
  intros (l1 & l2 & -> & N); apply since_split'; exists l1, (EPush m), l2; split; auto; split.
  - cbn; apply Nat.eqb_refl.
  - intros d I; destruct d as [x|x|x|x|x|x]; cbn; auto; destruct (Nat.eqb_spec x m); auto; subst; tauto.
Qed.

Definition excused (m : nat) (s : St) : Prop :=
  (~ inner g m /\ uncommitted m (log s)) \/ passed_over g m (log s).
Lemma blocked s m : reach changed g w s -> pending s m = true -> exists r, above g r m /\ excused r s.
Proof.
  intro H; pose proof (reach_inv changed g w B R s H) as I.
  induction m as [m IH] using lt_wf_ind; intro P.
  assert (D : inner g m \/ ~ inner g m) by (unfold inner; destruct (kind_of g m); [right|right|left; eauto]; intros [b C]; discriminate).
  destruct D as [D | D].
  - destruct (i_pending _ _ _ I m D P) as (p & Ip & [A | A]).
    + destruct (IH p (older _ B _ _ Ip) A) as (r & Ar & X); exists r; split; auto; eapply Up; eauto.
    + exists m; split; [constructor|right; eapply skipped_over; eauto].
  - exists m; split; [constructor|left; split; auto]; apply unsent_un; rewrite <- (i_unsent _ _ _ I); auto.
Qed.
Theorem stale s n : reach changed g w s -> inner g n -> ~ agrees changed g n s ->
  exists m, above g m n /\ ((~ inner g m /\ uncommitted m (log s)) \/ passed_over g m (log s)).
Proof.
  intros H N A; pose proof (reach_inv changed g w B R s H) as I.
  destruct (existsb (pending s) (n :: parents g n)) eqn:P.
  - apply existsb_exists in P as (m & Im & P); destruct (blocked s m H P) as (r & Ar & X); exists r; split; auto.
    destruct Im as [<- | Im]; auto; eapply Up; eauto.
  - assert (Q : forall m, In m (n :: parents g n) -> pending s m = false).
    { intros m Im; destruct (pending s m) eqn:E; auto; rewrite <- P; symmetry; apply existsb_exists; eauto. }
    destruct (existsb (fun p => dirty p n (log s)) (parents g n)) eqn:D.
    + apply existsb_exists in D as (p & Ip & D).
      destruct (i_dirty _ _ _ I n p Ip D) as [C | (q & Iq & C)]; [rewrite Q in C by (right; auto); discriminate|].
      exists n; split; [constructor|right; eapply skipped_over; eauto].
    + exfalso; apply A; unfold agrees; intro v.
      rewrite (i_last _ _ _ I n) by (apply Q; left; auto).
      rewrite (map_ext_in (last s) (cur s)) by (intros a Ia; apply (i_last _ _ _ I), Q; right; auto).
      apply (i_agrees _ _ _ I n); auto; intros p Ip; destruct (dirty p n (log s)) eqn:E; auto.
      rewrite <- D; symmetry; apply existsb_exists; eauto.
Qed.
End Graph.
