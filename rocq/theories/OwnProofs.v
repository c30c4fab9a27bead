(** Proofs about ownership. *)
From Coq Require Import List Arith Bool Lia Sorting.Sorted.
Import ListNotations.
From Verif Require Import OwnModel OwnSpec.

Lemma mem_In x l : mem x l = true <-> In x l.
Proof.
  unfold mem. rewrite existsb_exists. split.
  - intros (y & I & E). apply Nat.eqb_eq in E. subst. exact I.
  - intro I. exists x. split; [exact I|apply Nat.eqb_refl].
Qed.

Lemma remove1_In x y l : In y (remove1 x l) -> In y l.
Proof.
  induction l as [|z r IH]; cbn; [tauto|].
  destruct (x =? z); cbn; [tauto|]. intros [E | I]; [left; exact E|right; exact (IH I)].
Qed.

Lemma set_nth_length n a l : length (set_nth n a l) = length l.
Proof. revert n. induction l as [|b r IH]; intros [|n]; cbn; auto. Qed.

Lemma set_nth_same n a l b : nth_error l n = Some b -> nth_error (set_nth n a l) n = Some a.
Proof. revert n. induction l as [|c r IH]; intros [|n]; cbn; try discriminate; auto. Qed.

Lemma set_nth_other n a l m : n <> m -> nth_error (set_nth n a l) m = nth_error l m.
Proof.
  revert n m. induction l as [|b r IH]; intros [|n] [|m] D; cbn; auto; try contradiction.
Qed.

Lemma set_nth_inv n a l m b :
  nth_error (set_nth n a l) m = Some b ->
  (m = n /\ b = a) \/ (m <> n /\ nth_error l m = Some b).
Proof.
  intro E. destruct (Nat.eq_dec n m) as [-> | D].
  - left. split; [reflexivity|]. destruct (nth_error l m) as [c|] eqn:F.
    + rewrite (set_nth_same _ a _ _ F) in E. congruence.
    + apply nth_error_None in F. rewrite <- (set_nth_length m a) in F.
      apply nth_error_None in F. congruence.
  - right. rewrite set_nth_other in E by exact D. split; [congruence|exact E].
Qed.

Lemma members_of_owns h o x : In x (members_of h o) <-> owns h o x.
Proof.
  unfold members_of, owns. split.
  - destruct (nth_error (objs h) o) as [[[] ms]|]; cbn; try tauto. intro I. eauto.
  - intros (ms & E & I). rewrite E. exact I.
Qed.

Lemma is_there_present h x : is_there h x = true <-> present h x.
Proof.
  unfold is_there, present. split.
  - destruct (nth_error (objs h) x) as [[b ms]|]; [intros ->; eauto|discriminate].
  - intros (ms & ->). reflexivity.
Qed.

Lemma owned_iff h x : owned h x = true <-> In x (held h) \/ exists o, owns h o x.
Proof.
  unfold owned. rewrite orb_true_iff, mem_In, existsb_exists. split.
  - intros [I | (o & I & E)]; [left; exact I|right].
    apply In_nth_error in I. destruct I as (n & N). exists n.
    destruct o as [b ms]. cbn in E. destruct b; [|discriminate]. exists ms. split; [exact N|].
    apply mem_In. exact E.
  - intros [I | (o & ms & N & I)]; [left; exact I|right].
    exists (Obj true ms). split; [exact (nth_error_In _ _ N)|]. cbn. apply mem_In. exact I.
Qed.

Lemma owns_present h o x : owns h o x -> present h o.
Proof. intros (ms & E & _). exists ms. exact E. Qed.

Lemma present_lt h x : present h x -> x < length (objs h).
Proof. intros (ms & E). apply nth_error_Some. congruence. Qed.

(** ** The invariant: pointers point to objects that are there; ... *)
Definition closed h : Prop :=
  (forall x, In x (held h) -> present h x) /\ (forall o x, owns h o x -> present h x).

(** ... and there are only objects with an owner. *)
Definition settled h : Prop :=
  forall x, present h x -> In x (held h) \/ exists o, owns h o x.

Lemma reached_present h x : closed h -> reached h x -> present h x.
Proof. intros (H & O) R. destruct R; eauto. Qed.

(** ** Destroying *)
Lemma destroy_owns x h o y : owns (destroy x h) o y <-> owns h o y /\ o <> x.
Proof.
  unfold owns, destroy. cbn. split.
  - intros (ms & E & I). apply set_nth_inv in E. destruct E as [(_ & E) | (D & E)];
      [discriminate|]. split; [eauto|exact D].
  - intros ((ms & E & I) & D). exists ms. rewrite set_nth_other by congruence. auto.
Qed.

Lemma destroy_present x h y : present (destroy x h) y <-> present h y /\ y <> x.
Proof.
  unfold present, destroy. cbn. split.
  - intros (ms & E). apply set_nth_inv in E. destruct E as [(_ & E) | (D & E)];
      [discriminate|]. split; [eauto|exact D].
  - intros ((ms & E) & D). exists ms. rewrite set_nth_other by congruence. exact E.
Qed.

Lemma unowned_some h x :
  unowned h = Some x -> present h x /\ ~ In x (held h) /\ forall o, ~ owns h o x.
Proof.
  intro U. apply find_some in U. destruct U as (_ & U). apply andb_true_iff in U.
  destruct U as (P & N). split; [apply is_there_present; exact P|].
  apply negb_true_iff in N.
  split.
  - intro I. rewrite (proj2 (owned_iff h x) (or_introl I)) in N. discriminate.
  - intros o O. rewrite (proj2 (owned_iff h x) (or_intror (ex_intro _ o O))) in N. discriminate.
Qed.

Lemma unowned_none h : unowned h = None -> settled h.
Proof.
  intros U x P. apply owned_iff. unfold unowned in U.
  pose proof (find_none _ _ U x) as F.
  assert (In x (seq 0 (length (objs h)))) as I.
  { apply in_seq. pose proof (present_lt _ _ P). lia. }
  specialize (F I). cbn in F. apply is_there_present in P. rewrite P in F. cbn in F.
  apply negb_false_iff. exact F.
Qed.

Lemma destroy_closed h x : closed h -> unowned h = Some x -> closed (destroy x h).
Proof.
  intros (H & O) U. apply unowned_some in U. destruct U as (_ & NH & NO). split.
  - intros y I. apply destroy_present. split; [apply H; exact I|]. intros ->. exact (NH I).
  - intros o y W. apply destroy_owns in W. destruct W as (W & D). apply destroy_present.
    split; [exact (O _ _ W)|]. intros ->. exact (NO _ W).
Qed.

Definition count (l : list obj) : nat := length (filter there l).

Lemma count_set l x ms :
  nth_error l x = Some (Obj true ms) -> S (count (set_nth x (Obj false []) l)) = count l.
Proof.
  revert x. induction l as [|b r IH]; intros [|x] E; cbn in E; try discriminate.
  - injection E as ->. reflexivity.
  - unfold count. cbn [set_nth filter]. destruct (there b); cbn [length];
      [f_equal; exact (IH _ E)|exact (IH _ E)].
Qed.

Lemma count_le l : count l <= length l.
Proof.
  unfold count. induction l as [|b r IH]; cbn; [lia|]. destruct (there b); cbn; lia.
Qed.

Lemma settle_with_closed n h : closed h -> closed (settle_with n h).
Proof.
  revert h. induction n as [|n IH]; intros h C; cbn; [exact C|].
  destruct (unowned h) eqn:U; [|exact C]. apply IH. exact (destroy_closed _ _ C U).
Qed.

Lemma settle_with_settled n h : count (objs h) <= n -> settled (settle_with n h).
Proof.
  revert h. induction n as [|n IH]; intros h L; cbn.
  - apply unowned_none. destruct (unowned h) as [x|] eqn:U; [|reflexivity].
    apply unowned_some in U. destruct U as ((ms & E) & _).
    pose proof (count_set _ _ _ E). lia.
  - destruct (unowned h) as [x|] eqn:U; [|exact (unowned_none _ U)].
    apply IH. apply unowned_some in U. destruct U as ((ms & E) & _).
    pose proof (count_set _ _ _ E). unfold destroy. cbn [objs]. lia.
Qed.

Lemma settle_closed h : closed h -> closed (settle h).
Proof. apply settle_with_closed. Qed.
Lemma settle_settled h : settled (settle h).
Proof. apply settle_with_settled, count_le. Qed.

Lemma settle_with_held n h : held (settle_with n h) = held h.
Proof.
  revert h. induction n as [|n IH]; intro h; cbn; [reflexivity|].
  destruct (unowned h); [rewrite IH; reflexivity|reflexivity].
Qed.
Lemma settle_held h : held (settle h) = held h.
Proof. apply settle_with_held. Qed.

Lemma settle_with_owns n h o x : owns (settle_with n h) o x -> owns h o x.
Proof.
  revert h. induction n as [|n IH]; intro h; cbn; [tauto|].
  destruct (unowned h); [|tauto]. intro O. apply IH in O. apply destroy_owns in O. tauto.
Qed.

(** ** Assigning members *)
Lemma put_owns h o ms x y :
  owns (Heap (set_nth o (Obj true ms) (objs h)) (held h)) x y ->
  (x = o /\ In y ms) \/ (x <> o /\ owns h x y).
Proof.
  intros (ns & E & I). apply set_nth_inv in E. destruct E as [(-> & E) | (D & E)].
  - injection E as ->. left. auto.
  - right. split; [exact D|exists ns; auto].
Qed.

Lemma put_owns_other h o ms x y :
  x <> o -> owns h x y -> owns (Heap (set_nth o (Obj true ms) (objs h)) (held h)) x y.
Proof.
  intros D (ns & E & I). exists ns. cbn. rewrite set_nth_other by congruence. auto.
Qed.

Lemma put_owns_same h o ms y :
  present h o -> In y ms -> owns (Heap (set_nth o (Obj true ms) (objs h)) (held h)) o y.
Proof.
  intros (ns & E) I. exists ms. cbn. rewrite (set_nth_same _ _ _ _ E). auto.
Qed.

Lemma put_present h o ms x :
  present h o ->
  (present (Heap (set_nth o (Obj true ms) (objs h)) (held h)) x <-> present h x).
Proof.
  intro P. unfold present. cbn. split.
  - intros (ns & E). apply set_nth_inv in E. destruct E as [(-> & E) | (D & E)]; [exact P|eauto].
  - intros (ns & E). destruct (Nat.eq_dec o x) as [-> | D].
    + exists ms. exact (set_nth_same _ _ _ _ E).
    + exists ns. rewrite set_nth_other by exact D. exact E.
Qed.

(** ** Making objects *)
Lemma new_owns h ms x y :
  owns (Heap (objs h ++ [Obj true ms]) (length (objs h) :: held h)) x y <->
  (x = length (objs h) /\ In y ms) \/ owns h x y.
Proof.
  unfold owns. cbn. split.
  - intros (ns & E & I). destruct (Nat.lt_ge_cases x (length (objs h))) as [L | L].
    + rewrite nth_error_app1 in E by exact L. right. eauto.
    + rewrite nth_error_app2 in E by exact L. left.
      destruct (x - length (objs h)) as [|d] eqn:D; cbn in E.
      * injection E as ->. split; [lia|exact I].
      * destruct d; discriminate.
  - intros [(-> & I) | (ns & E & I)].
    + exists ms. rewrite nth_error_app2, Nat.sub_diag by lia. auto.
    + exists ns. rewrite nth_error_app1; [auto|]. apply nth_error_Some. congruence.
Qed.

Lemma new_present h ms x :
  present (Heap (objs h ++ [Obj true ms]) (length (objs h) :: held h)) x <->
  x = length (objs h) \/ present h x.
Proof.
  unfold present. cbn. split.
  - intros (ns & E). destruct (Nat.lt_ge_cases x (length (objs h))) as [L | L].
    + rewrite nth_error_app1 in E by exact L. eauto.
    + left. assert (x < length (objs h ++ [Obj true ms])) as G
        by (apply nth_error_Some; congruence).
      rewrite app_length in G. cbn in G. lia.
  - intros [-> | (ns & E)].
    + exists ms. rewrite nth_error_app2, Nat.sub_diag by lia. reflexivity.
    + exists ns. rewrite nth_error_app1; [exact E|]. apply nth_error_Some. congruence.
Qed.

(** ** Every step keeps the invariant. *)
Lemma step_inv h p h' :
  closed h -> settled h -> step h p = Some h' -> closed h' /\ settled h'.
Proof.
  intros C S E. pose proof C as (H & O). destruct p as [ms|x|o x|o x|o x|x]; cbn [step] in E.
  - destruct (forallb _ ms) eqn:F; [|discriminate]. injection E as <-.
    rewrite forallb_forall in F. split; [split|].
    + intros y [<- | I]; apply new_present; [left; reflexivity|right; exact (H _ I)].
    + intros o y W. apply new_present. apply new_owns in W. destruct W as [(_ & I) | W].
      * right. apply H, mem_In, F, I.
      * right. exact (O _ _ W).
    + intros y P. apply new_present in P. destruct P as [-> | P]; [left; left; reflexivity|].
      destruct (S _ P) as [I | (o & W)]; [left; right; exact I|right; exists o].
      apply new_owns. right. exact W.
  - destruct (mem x (held h)) eqn:F; [|discriminate]. injection E as <-. apply mem_In in F.
    split; [split|].
    + intros y [<- | I]; [exact (H _ F)|exact (H _ I)].
    + exact O.
    + intros y P. destruct (S _ P) as [I | W]; [left; right; exact I|right; exact W].
  - destruct (mem o (held h) && mem x (members_of h o)) eqn:F; [|discriminate].
    injection E as <-. apply andb_true_iff in F. destruct F as (F & G).
    apply mem_In in F. apply mem_In, members_of_owns in G.
    split; [split|].
    + intros y [<- | I]; [exact (O _ _ G)|exact (H _ I)].
    + exact O.
    + intros y P. destruct (S _ P) as [I | W]; [left; right; exact I|right; exact W].
  - destruct (mem o (held h) && mem x (held h)) eqn:F; [|discriminate].
    injection E as <-. apply andb_true_iff in F. destruct F as (F & G).
    apply mem_In in F. apply mem_In in G. pose proof (H _ F) as PO.
    split; [split|].
    + intros y I. apply put_present; [exact PO|]. exact (H _ I).
    + intros a y W. apply put_present; [exact PO|]. apply put_owns in W.
      destruct W as [(-> & [<- | I]) | (_ & W)]; [exact (H _ G)| |exact (O _ _ W)].
      apply members_of_owns in I. exact (O _ _ I).
    + intros y P. apply put_present in P; [|exact PO].
      destruct (S _ P) as [I | (a & W)]; [left; exact I|right; exists a].
      destruct (Nat.eq_dec a o) as [-> | D].
      * apply put_owns_same; [exact PO|]. right. apply members_of_owns. exact W.
      * apply put_owns_other; [exact D|exact W].
  - destruct (mem o (held h) && mem x (members_of h o)) eqn:F; [|discriminate].
    injection E as <-. apply andb_true_iff in F. destruct F as (F & G).
    apply mem_In in F. pose proof (H _ F) as PO.
    split; [|apply settle_settled]. apply settle_closed. split.
    + intros y I. apply put_present; [exact PO|]. exact (H _ I).
    + intros a y W. apply put_present; [exact PO|]. apply put_owns in W.
      destruct W as [(-> & I) | (_ & W)]; [|exact (O _ _ W)].
      apply remove1_In, members_of_owns in I. exact (O _ _ I).
  - destruct (mem x (held h)) eqn:F; [|discriminate]. injection E as <-.
    split; [|apply settle_settled]. apply settle_closed. split.
    + intros y I. apply remove1_In in I. exact (H _ I).
    + exact O.
Qed.

Lemma run_inv ps h h' :
  closed h -> settled h -> run ps h = Some h' -> closed h' /\ settled h'.
Proof.
  revert h. induction ps as [|p r IH]; intros h C S E; cbn in E.
  - injection E as <-. auto.
  - destruct (step h p) as [h1|] eqn:E1; [|discriminate].
    destruct (step_inv _ _ _ C S E1) as (C1 & S1). exact (IH _ C1 S1 E).
Qed.

Lemma nothing_inv : closed nothing /\ settled nothing.
Proof.
  split; [split|]; cbn; try tauto.
  - intros o x (ms & E & _). destruct o; discriminate.
  - intros x (ms & E). destruct x; discriminate.
Qed.

Lemma valid ps h x : run ps nothing = Some h -> reached h x -> present h x.
Proof.
  intro E. destruct nothing_inv as (C & S). destruct (run_inv _ _ _ C S E) as (C1 & _).
  exact (reached_present _ _ C1).
Qed.

(** ** What is there and can not be reached is kept by a cycle. *)
Lemma leads_snoc h a b c : leads h a b -> leads h b c -> leads h a c.
Proof.
  intro L. induction L as [o x W|o m x W L IH]; intro K.
  - exact (leads_more _ _ _ _ W K).
  - exact (leads_more _ _ _ _ W (IH K)).
Qed.

Lemma owner_unreached h x :
  settled h -> present h x -> ~ reached h x -> exists o, owns h o x /\ ~ reached h o.
Proof.
  intros S P N. destruct (S _ P) as [I | (o & W)].
  - destruct N. exact (reached_held _ _ I).
  - exists o. split; [exact W|]. intro R. apply N. exact (reached_owned _ _ _ R W).
Qed.

(** A chain of owners of [x], as long as one likes *)
Lemma chain h x n :
  settled h -> present h x -> ~ reached h x ->
  exists l, length l = n /\ StronglySorted (leads h) l /\
            (forall y, In y l -> present h y /\ ~ reached h y /\ leads h y x) /\
            (forall y, hd_error l = Some y -> forall z, In z l -> z = y \/ leads h y z).
Proof.
  intros S P N. induction n as [|n (l & L & SS & F & H)].
  - exists []. cbn. split; [reflexivity|]. split; [constructor|]. split; [tauto|discriminate].
  - destruct l as [|y l].
    + destruct (owner_unreached _ _ S P N) as (o & W & NO).
      exists [o]. cbn in L. subst n. split; [reflexivity|]. split; [repeat constructor|].
      split.
      * intros z [<- | []]. split; [exact (owns_present _ _ _ W)|].
        split; [exact NO|]. exact (leads_one _ _ _ W).
      * cbn. intros z E a [<- | []]. left. congruence.
    + destruct (F y (or_introl eq_refl)) as (PY & NY & LY).
      destruct (owner_unreached _ _ S PY NY) as (o & W & NO).
      assert (forall z, In z (y :: l) -> leads h o z) as A.
      { intros z I. destruct (H y eq_refl z I) as [-> | K].
        - exact (leads_one _ _ _ W).
        - exact (leads_more _ _ _ _ W K). }
      exists (o :: y :: l). split; [cbn in *; congruence|]. split; [|split].
      * constructor; [exact SS|]. apply Forall_forall. exact A.
      * intros z [<- | I]; [|exact (F z I)].
        split; [exact (owns_present _ _ _ W)|]. split; [exact NO|].
        exact (leads_more _ _ _ _ W LY).
      * intros z E a I. injection E as <-. destruct I as [<- | I]; [left; reflexivity|].
        right. exact (A a I).
Qed.

Lemma sorted_twice (R : nat -> nat -> Prop) l :
  StronglySorted R l -> NoDup l \/ exists a, In a l /\ R a a.
Proof.
  induction l as [|a l IH]; intro S; [left; constructor|].
  apply StronglySorted_inv in S. destruct S as (S & F). rewrite Forall_forall in F.
  destruct (in_dec Nat.eq_dec a l) as [I | I].
  - right. exists a. split; [left; reflexivity|exact (F _ I)].
  - destruct (IH S) as [N | (b & J & B)]; [left; constructor; assumption|].
    right. exists b. split; [right; exact J|exact B].
Qed.

Lemma short l n : NoDup l -> (forall x, In x l -> x < n) -> length l <= n.
Proof.
  intros N F. rewrite <- (seq_length n 0). apply NoDup_incl_length; [exact N|].
  intros x I. apply in_seq. pose proof (F x I). lia.
Qed.

Lemma leak h x :
  settled h -> present h x -> ~ reached h x ->
  exists o, leads h o o /\ leads h o x /\ ~ reached h o.
Proof.
  intros S P N.
  destruct (chain h x (Datatypes.S (length (objs h))) S P N) as (l & L & SS & F & _).
  destruct (sorted_twice _ _ SS) as [D | (o & I & W)].
  - apply short with (n := length (objs h)) in D; [lia|].
    intros y I. apply present_lt. apply (F y I).
  - exists o. split; [exact W|]. destruct (F o I) as (_ & NO & LO). auto.
Qed.

Lemma run_leak ps h x :
  run ps nothing = Some h -> present h x -> ~ reached h x ->
  exists o, leads h o o /\ leads h o x /\ ~ reached h o.
Proof.
  intro E. destruct nothing_inv as (C & S). destruct (run_inv _ _ _ C S E) as (_ & S1).
  exact (leak _ _ S1).
Qed.

(** When no object owns itself, there is no object that is kept by others only: said without
    deciding, by going from an object to its owners. *)
Lemma acyclic_reached_steps h n x :
  settled h -> acyclic h ->
  forall l, StronglySorted (leads h) (x :: l) -> (forall y, In y (x :: l) -> present h y) ->
  length l + n = length (objs h) -> reached h x.
Proof.
  intros S A. revert x. induction n as [|n IH]; intros x l SS F L.
  - destruct (sorted_twice _ _ SS) as [D | (o & I & W)]; [|destruct (A _ W)].
    apply short with (n := length (objs h)) in D; [cbn in D; lia|].
    intros y I. apply present_lt. exact (F y I).
  - destruct (S x (F x (or_introl eq_refl))) as [I | (o & W)]; [exact (reached_held _ _ I)|].
    apply (reached_owned _ o); [|exact W].
    apply (IH o (x :: l)).
    + constructor; [exact SS|]. constructor; [exact (leads_one _ _ _ W)|].
      apply StronglySorted_inv in SS. destruct SS as (_ & G).
      eapply Forall_impl; [|exact G]. cbn. intros z Z. exact (leads_more _ _ _ _ W Z).
    + intros y [<- | I]; [exact (owns_present _ _ _ W)|exact (F y I)].
    + cbn. lia.
Qed.

Lemma acyclic_reached h x : settled h -> acyclic h -> present h x -> reached h x.
Proof.
  intros S A P. apply (acyclic_reached_steps h (length (objs h)) x S A []).
  - repeat constructor.
  - intros y [<- | []]. exact P.
  - reflexivity.
Qed.

Lemma run_acyclic ps h x :
  run ps nothing = Some h -> acyclic h -> present h x -> reached h x.
Proof.
  intros E. destruct nothing_inv as (C & S). destruct (run_inv _ _ _ C S E) as (_ & S1).
  exact (acyclic_reached _ _ S1).
Qed.

(** ** Programs that put objects together by age *)
Definition aged h : Prop := forall o x, owns h o x -> x < o.

Lemma aged_acyclic h : aged h -> acyclic h.
Proof.
  intro A. assert (forall a b, leads h a b -> b < a) as L.
  { intros a b K. induction K as [o x W|o m x W _ IH]; [exact (A _ _ W)|].
    pose proof (A _ _ W). lia. }
  intros x K. pose proof (L _ _ K). lia.
Qed.

Lemma step_aged h p h' :
  closed h -> aged h -> by_age p -> step h p = Some h' -> aged h'.
Proof.
  intros (H & O) A B E. destruct p as [ms|x|o x|o x|o x|x]; cbn [step by_age] in E, B.
  - destruct (forallb _ ms) eqn:F; [|discriminate]. injection E as <-.
    rewrite forallb_forall in F. intros o y W. apply new_owns in W.
    destruct W as [(-> & I) | W]; [|exact (A _ _ W)].
    apply present_lt, H, mem_In, F, I.
  - destruct (mem x (held h)); [|discriminate]. injection E as <-. exact A.
  - destruct (mem o (held h) && mem x (members_of h o)); [|discriminate].
    injection E as <-. exact A.
  - destruct (mem o (held h) && mem x (held h)); [|discriminate]. injection E as <-.
    intros a y W. apply put_owns in W. destruct W as [(-> & [<- | I]) | (_ & W)];
      [exact B| |exact (A _ _ W)]. apply members_of_owns in I. exact (A _ _ I).
  - destruct (mem o (held h) && mem x (members_of h o)); [|discriminate]. injection E as <-.
    intros a y W. apply settle_with_owns in W. apply put_owns in W.
    destruct W as [(-> & I) | (_ & W)]; [|exact (A _ _ W)].
    apply remove1_In, members_of_owns in I. exact (A _ _ I).
  - destruct (mem x (held h)); [|discriminate]. injection E as <-.
    intros a y W. apply settle_with_owns in W. exact (A _ _ W).
Qed.

Lemma run_aged ps h h' :
  closed h -> settled h -> aged h -> Forall by_age ps -> run ps h = Some h' -> aged h'.
Proof.
  revert h. induction ps as [|p r IH]; intros h C S A B E; cbn in E.
  - injection E as <-. exact A.
  - destruct (step h p) as [h1|] eqn:E1; [|discriminate].
    destruct (step_inv _ _ _ C S E1) as (C1 & S1).
    exact (IH _ C1 S1 (step_aged _ _ _ C A (Forall_inv B) E1) (Forall_inv_tail B) E).
Qed.

Lemma by_age_exact ps h x :
  Forall by_age ps -> run ps nothing = Some h -> (present h x <-> reached h x).
Proof.
  intros B E. destruct nothing_inv as (C & S). split.
  - apply (run_acyclic _ _ _ E). apply aged_acyclic.
    apply (run_aged _ _ _ C S) with (2 := B) (3 := E).
    intros o y (ms & F & _). destruct o; discriminate.
  - exact (valid _ _ _ E).
Qed.

(** ** What can not be reached stays for ever. *)
Definition lost (G : nat -> Prop) h : Prop :=
  forall x, G x -> ~ reached h x /\ exists o, G o /\ owns h o x.

Lemma reached_less h h' :
  (forall x, In x (held h') -> reached h x) ->
  (forall o x, reached h o -> owns h' o x -> reached h x) ->
  forall x, reached h' x -> reached h x.
Proof.
  intros A B x R. induction R as [x I|o x R IH W]; [exact (A _ I)|exact (B _ _ IH W)].
Qed.

Lemma settle_lost G n h : lost G h -> lost G (settle_with n h).
Proof.
  revert h. induction n as [|n IH]; intros h L; cbn; [exact L|].
  destruct (unowned h) as [y|] eqn:U; [|exact L]. apply IH.
  apply unowned_some in U. destruct U as (_ & _ & NO).
  intros x X. destruct (L x X) as (NR & o & GO & W). split.
  - intro R. apply NR. revert R. apply reached_less.
    + intros z I. exact (reached_held h _ I).
    + intros a z RA V. apply destroy_owns in V. exact (reached_owned _ _ _ RA (proj1 V)).
  - exists o. split; [exact GO|]. apply destroy_owns. split; [exact W|].
    intros ->. destruct (L y GO) as (_ & a & _ & V). exact (NO _ V).
Qed.

Lemma step_lost G h p h' : closed h -> lost G h -> step h p = Some h' -> lost G h'.
Proof.
  intros C L E. destruct p as [ms|x|o x|o x|o x|x]; cbn [step] in E.
  - destruct (forallb _ ms) eqn:F; [|discriminate]. injection E as <-.
    rewrite forallb_forall in F. intros y Y. destruct (L y Y) as (NR & o & GO & W). split.
    + assert (forall z, reached (Heap (objs h ++ [Obj true ms]) (length (objs h) :: held h)) z ->
                        z = length (objs h) \/ reached h z) as A.
      { intros z R. induction R as [z [<- | I]|a z R IH V].
        - left. reflexivity.
        - right. exact (reached_held _ _ I).
        - right. apply new_owns in V. destruct V as [(_ & I) | V].
          + apply reached_held, mem_In, F, I.
          + destruct IH as [-> | IH].
            * apply owns_present, present_lt in V. lia.
            * exact (reached_owned _ _ _ IH V). }
      intro R. destruct (A _ R) as [-> | R']; [|exact (NR R')].
      destruct C as (_ & O). pose proof (present_lt _ _ (O _ _ W)). lia.
    + exists o. split; [exact GO|]. apply new_owns. right. exact W.
  - destruct (mem x (held h)) eqn:F; [|discriminate]. injection E as <-. apply mem_In in F.
    intros y Y. destruct (L y Y) as (NR & K). split; [|exact K].
    intro R. apply NR. revert R. apply reached_less.
    + intros z [<- | I]; [exact (reached_held _ _ F)|exact (reached_held h _ I)].
    + intros a z RA V. exact (reached_owned h _ _ RA V).
  - destruct (mem o (held h) && mem x (members_of h o)) eqn:F; [|discriminate].
    injection E as <-. apply andb_true_iff in F. destruct F as (F & G0).
    apply mem_In in F. apply mem_In, members_of_owns in G0.
    intros y Y. destruct (L y Y) as (NR & K). split; [|exact K].
    intro R. apply NR. revert R. apply reached_less.
    + intros z [<- | I]; [exact (reached_owned _ _ _ (reached_held _ _ F) G0)
                         |exact (reached_held h _ I)].
    + intros a z RA V. exact (reached_owned h _ _ RA V).
  - destruct (mem o (held h) && mem x (held h)) eqn:F; [|discriminate].
    injection E as <-. apply andb_true_iff in F. destruct F as (F & G0).
    apply mem_In in F. apply mem_In in G0.
    intros y Y. destruct (L y Y) as (NR & a & GA & W). split.
    + intro R. apply NR. revert R. apply reached_less.
      * intros z I. exact (reached_held h _ I).
      * intros b z RB V. apply put_owns in V. destruct V as [(-> & [<- | I]) | (_ & V)].
        -- exact (reached_held _ _ G0).
        -- apply members_of_owns in I. exact (reached_owned _ _ _ RB I).
        -- exact (reached_owned _ _ _ RB V).
    + exists a. split; [exact GA|]. apply put_owns_other; [|exact W].
      intros ->. destruct (L o GA) as (N & _). apply N. exact (reached_held _ _ F).
  - destruct (mem o (held h) && mem x (members_of h o)) eqn:F; [|discriminate].
    injection E as <-. apply andb_true_iff in F. destruct F as (F & G0). apply mem_In in F.
    apply settle_lost. intros y Y. destruct (L y Y) as (NR & a & GA & W). split.
    + intro R. apply NR. revert R. apply reached_less.
      * intros z I. exact (reached_held h _ I).
      * intros b z RB V. apply put_owns in V. destruct V as [(-> & I) | (_ & V)].
        -- apply remove1_In, members_of_owns in I. exact (reached_owned _ _ _ RB I).
        -- exact (reached_owned _ _ _ RB V).
    + exists a. split; [exact GA|]. apply put_owns_other; [|exact W].
      intros ->. destruct (L o GA) as (N & _). apply N. exact (reached_held _ _ F).
  - destruct (mem x (held h)); [|discriminate]. injection E as <-.
    apply settle_lost. intros y Y. destruct (L y Y) as (NR & K). split; [|exact K].
    intro R. apply NR. revert R. apply reached_less.
    + intros z I. apply remove1_In in I. exact (reached_held _ _ I).
    + intros a z RA V. exact (reached_owned h _ _ RA V).
Qed.

Lemma run_lost G ps h h' :
  closed h -> settled h -> lost G h -> run ps h = Some h' -> lost G h'.
Proof.
  revert h. induction ps as [|p r IH]; intros h C S L E; cbn in E.
  - injection E as <-. exact L.
  - destruct (step h p) as [h1|] eqn:E1; [|discriminate].
    destruct (step_inv _ _ _ C S E1) as (C1 & S1).
    exact (IH _ C1 S1 (step_lost _ _ _ _ C L E1) E).
Qed.

Lemma lost_stays ps h x qs h' :
  run ps nothing = Some h -> present h x -> ~ reached h x ->
  run qs h = Some h' -> present h' x /\ ~ reached h' x.
Proof.
  intros E P N F. destruct nothing_inv as (C0 & S0).
  destruct (run_inv _ _ _ C0 S0 E) as (C & S). destruct (run_inv _ _ _ C S F) as (C1 & S1).
  assert (lost (fun y => present h y /\ ~ reached h y) h) as L.
  { intros y (PY & NY). split; [exact NY|].
    destruct (owner_unreached _ _ S PY NY) as (o & W & NO).
    exists o. split; [split; [exact (owns_present _ _ _ W)|exact NO]|exact W]. }
  pose proof (run_lost _ _ _ _ C S L F) as L1.
  destruct (L1 x (conj P N)) as (NR & o & _ & W). split; [|exact NR].
  destruct C1 as (_ & O). exact (O _ _ W).
Qed.
