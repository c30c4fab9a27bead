(** C65: what uses of a loop object are undefined, who waits, what can return. *)
From Coq Require Import List Arith Bool Lia.
From Verif Require Import QtLoopModel QtLoopSpec QtLoopProofs.
Import ListNotations.

(** ** Loop objects and the object *)
Definition living (s : st) : Prop :=
  (forall k, In k (loops s) <-> alive k (log s)) /\
  (forall k, In (ECopy k) (log s) \/ In (EDead k) (log s) -> k < next s) /\
  (obj s = true <-> ~ In EObjGone (log s)).
Lemma alive_skip : forall e l k, (forall j, e <> ECopy j) -> (forall j, e <> EDead j) -> alive k (e :: l) <-> alive k l.
Proof.
  intros e l k C D. unfold alive. cbn [In]. split.
  - intros [[E | A] B]; [destruct (C _ E)|]. split; [exact A|]. intros I. apply B. right. exact I.
  - intros [A B]. split; [right; exact A|]. intros [E | I]; [exact (D _ E) | exact (B I)].
Qed.
Lemma living_skip : forall e s m, living s -> (forall j, e <> ECopy j) -> (forall j, e <> EDead j) -> next s <= m ->
  (forall k, In k (loops s) <-> alive k (e :: log s)) /\
  (forall k, In (ECopy k) (e :: log s) \/ In (EDead k) (e :: log s) -> k < m).
Proof.
  intros e s m (L & N & _) C D M. split.
  - intros k. rewrite alive_skip by assumption. apply L.
  - intros k [[E | I] | [E | I]]; [destruct (C _ E)| |destruct (D _ E)|].
    + specialize (N k (or_introl I)). lia.
    + specialize (N k (or_intror I)). lia.
Qed.
Lemma gone_skip : forall e s, living s -> e <> EObjGone -> (obj s = true <-> ~ In EObjGone (e :: log s)).
Proof.
  intros e s (_ & _ & O) E. rewrite O. cbn [In]. split; [intros A [B | B]; auto|]. intros A B. apply A. right. exact B.
Qed.
Lemma living_reach : forall n s, reach n s -> living s.
Proof.
  intros n. apply reach_ind.
  { unfold living, alive. cbn. split; [|split].
    - intros k. split; [intros [<- | []]; split; [left; reflexivity|intros [E | []]; discriminate E]|].
      intros [[E | []] _]. injection E as <-. left. reflexivity.
    - intros k [[E | []] | [E | []]]; [injection E as <-; lia|discriminate E].
    - split; [intros _ [E | []]; discriminate E|reflexivity]. }
  intros l s s' R I H. pose proof (gone_reach _ _ R) as (_ & _ & Y). unfold living.
  assert (K : forall e m, (forall j, e <> ECopy j) -> (forall j, e <> EDead j) -> e <> EObjGone -> next s <= m ->
    (forall k, In k (loops s) <-> alive k (e :: log s)) /\
    (forall k, In (ECopy k) (e :: log s) \/ In (EDead k) (e :: log s) -> k < m) /\
    (obj s = true <-> ~ In EObjGone (e :: log s))).
  { intros e m C D O M. destruct (living_skip e s m I C D M) as [A B]. split; [exact A|]. split; [exact B|].
    apply gone_skip; assumption. }
  assert (I' := I). destruct I' as (L & N & O).
  unstep H; try exact I; try (apply K; [discriminate|discriminate|discriminate|lia]).
  - rewrite Heqb1. apply K; [discriminate|discriminate|discriminate|lia].
  - split; [|split].
    + intros j. rewrite in_app_iff, L. unfold alive. cbn [In]. split.
      * intros [[A B] | [E | []]]; [|subst j].
        -- split; [right; exact A|]. intros [E | F]; [discriminate E | exact (B F)].
        -- split; [left; reflexivity|]. intros [E | F]; [discriminate E|]. specialize (N _ (or_intror F)). lia.
      * intros [[E | A] B]; [injection E as <-; right; left; reflexivity|]. left. split; [exact A|]. intros F. apply B. right. exact F.
    + intros j [[E | F] | [E | F]]; [injection E as <-; lia| |discriminate E|].
      * specialize (N _ (or_introl F)). lia.
      * specialize (N _ (or_intror F)). lia.
    + apply gone_skip; [exact I|discriminate].
  - apply existsb_exists in Heqb as ([w j] & P & E). apply Nat.eqb_eq in E. cbn in E. subst j.
    pose proof (Y _ _ P) as Z. split; [|split].
    + intros j. rewrite filter_In, L. unfold alive. cbn [In]. split.
      * intros [[A B] C]. split; [right; exact A|]. intros [E | F]; [|exact (B F)]. injection E as ->.
        rewrite Nat.eqb_refl in C. discriminate C.
      * intros [[E | A] B]; [discriminate E|]. split; [split; [exact A|]; intros F; apply B; right; exact F|].
        apply negb_true_iff, Nat.eqb_neq. intros ->. apply B. left. reflexivity.
    + intros j [[E | F] | [E | F]]; [discriminate E| |injection E as <-|].
      * exact (N _ (or_introl F)).
      * apply L in Z. destruct Z as [Z _]. exact (N _ (or_introl Z)).
      * exact (N _ (or_intror F)).
    + apply gone_skip; [exact I|discriminate].
  - assert (A := K EExec (next s)). destruct A as (A & B & C); try discriminate; [lia|]. split; [|split].
    + intros j. rewrite alive_skip by discriminate. apply A.
    + intros j [[E | F] | [E | F]]; try discriminate E; apply B; [left; exact F | right; exact F].
    + rewrite C. cbn [In]. split; [intros P [E | Q]; [discriminate E | exact (P Q)]|]. intros P Q. apply P. right. exact Q.
  - destruct (living_skip EObjGone s (next s) I) as [A B]; try discriminate; [lia|].
    split; [exact A|]. split; [exact B|]. split; [discriminate|]. intros C. destruct C. left. reflexivity.
Qed.
(** A use or a copy is undefined exactly if the loop object is not alive, or a function is posted to an object that is not. *)
Theorem undefined_use : forall n s s' w k u, reach n s -> step n (LUse w k u) s = Some s' ->
  (fated s' = Undefined <-> ~ alive k (log s) \/ (u = UPost /\ In EObjGone (log s))).
Proof.
  intros n s s' w k u R H. destruct (living_reach _ _ R) as (L & _ & O). unfold step in H.
  destruct (fated s) eqn:F; [|discriminate H]. cbn [go] in H. destruct (present w s); [|discriminate H].
  destruct (is_in k (loops s)) eqn:I.
  - apply is_in_iff, L in I. injection H as <-. unfold do_use. destruct u.
    + destruct (obj s) eqn:E.
      * cbn. rewrite F. split; [discriminate|]. intros [A | [_ A]]; [contradiction|]. exfalso. exact (proj1 O eq_refl A).
      * cbn. split; [|reflexivity]. intros _. right. split; [reflexivity|].
        destruct (in_dec (fun a b : event => ltac:(repeat decide equality)) EObjGone (log s)) as [J | J]; [exact J|].
        apply O in J. discriminate J.
    + cbn. rewrite F. split; [discriminate|]. intros [A | [A _]]; [contradiction|discriminate A].
    + cbn. rewrite F. split; [discriminate|]. intros [A | [A _]]; [contradiction|discriminate A].
  - injection H as <-. cbn. split; [|reflexivity]. intros _. left. intros A. apply L, is_in_iff in A. congruence.
Qed.
Theorem undefined_copy : forall n s s' w k, reach n s -> step n (LCopy w k) s = Some s' ->
  (fated s' = Undefined <-> ~ alive k (log s)).
Proof.
  intros n s s' w k R H. destruct (living_reach _ _ R) as (L & _ & _). unfold step in H.
  destruct (fated s) eqn:F; [|discriminate H]. cbn [go] in H. destruct (present w s); [|discriminate H].
  destruct (is_in k (loops s)) eqn:I.
  - apply is_in_iff, L in I. injection H as <-. cbn. rewrite F. split; [discriminate|contradiction].
  - injection H as <-. cbn. split; [|reflexivity]. intros _ A. apply L, is_in_iff in A. congruence.
Qed.

(** ** Destructors that wait *)
Definition clear (w : who) (s : st) : Prop := forall k, ~ In (w, k) (dying s).
Lemma who_eqb_iff : forall a b, who_eqb a b = true <-> a = b.
Proof.
  intros [|x|x] [|y|y]; cbn; split; intros E; try discriminate E; try reflexivity;
    first [apply Nat.eqb_eq in E; subst; reflexivity | injection E as ->; apply Nat.eqb_refl].
Qed.
Lemma present_clear : forall w s, present w s = true -> clear w s.
Proof.
  intros w s P k I. unfold present in P. apply andb_true_iff in P. destruct P as [P _]. apply negb_true_iff in P.
  apply not_true_iff_false in P. apply P. apply existsb_exists. exists (w, k). split; [exact I|]. apply who_eqb_iff. reflexivity.
Qed.
Lemma clear_present : forall s, clear Main s -> looping s = false -> present Main s = true.
Proof.
  intros s C L. unfold present. apply andb_true_iff. split.
  - apply negb_true_iff, not_true_iff_false. intros E. apply existsb_exists in E. destruct E as ([w k] & I & E).
    apply who_eqb_iff in E. cbn in E. subst w. exact (C k I).
  - unfold looping in L. destruct (stack s) as [|[b|i] r]; [reflexivity|discriminate L|reflexivity].
Qed.
Definition waits (s : st) : Prop :=
  (forall w k, In (w, k) (dying s) <-> In (EDie w k) (log s) /\ ~ In (EDead k) (log s)) /\
  (looping s = true -> clear Main s).
Lemma free_clear : forall w s, waits s -> (free w (log s) <-> clear w s).
Proof.
  intros w s [D _]. split.
  - intros F k I. apply D in I. destruct I as [A B]. exact (B (F k A)).
  - intros C k I. destruct (in_dec (fun a b : event => ltac:(repeat decide equality)) (EDead k) (log s)) as [J | J]; [exact J|].
    destruct (C k). apply D. auto.
Qed.
Lemma waits_skip : forall e s, waits s -> (forall w k, e <> EDie w k) -> (forall k, e <> EDead k) ->
  forall w k, In (w, k) (dying s) <-> In (EDie w k) (e :: log s) /\ ~ In (EDead k) (e :: log s).
Proof.
  intros e s [D _] A B w k. rewrite D. cbn [In]. split.
  - intros [P Q]. split; [right; exact P|]. intros [E | F]; [exact (B _ E) | exact (Q F)].
  - intros [[E | P] Q]; [destruct (A _ _ E)|]. split; [exact P|]. intros F. apply Q. right. exact F.
Qed.
Lemma looping_map : forall s st', st' = map (fun f => match f with Exec _ => Exec true | x => x end) (stack s) ->
  match st' with Exec _ :: _ => true | _ => false end = looping s.
Proof. intros s st' ->. unfold looping. destruct (stack s) as [|[b|i] r]; reflexivity. Qed.
Lemma waits_reach : forall n s, reach n s -> waits s.
Proof.
  intros n. apply reach_ind.
  { split; [|discriminate]. intros w k. cbn. split; [intros []|]. intros [[E | []] _]. discriminate E. }
  intros l s s' R I H. pose proof (living_reach _ _ R) as (L & _ & _).
  assert (K : forall e, (forall w k, e <> EDie w k) -> (forall k, e <> EDead k) ->
    forall w k, In (w, k) (dying s) <-> In (EDie w k) (e :: log s) /\ ~ In (EDead k) (e :: log s)).
  { intros e. apply waits_skip. exact I. }
  assert (I' := I). destruct I' as [D C]. unfold waits, clear, looping.
  unstep H; try exact I; try (split; [apply K; discriminate|exact C]); try (split; [apply K; discriminate|discriminate]).
  - split; [apply K; discriminate|]. rewrite (looping_map s _ eq_refl). exact C.
  - apply andb_true_iff in Heqb. destruct Heqb as [P _]. apply andb_true_iff in P. destruct P as [P Q].
    apply is_in_iff, L in Q. split.
    + intros v j. rewrite in_app_iff, D. cbn [In]. split.
      * intros [[A B] | [E | []]].
        -- split; [right; exact A|]. intros [E | F]; [discriminate E | exact (B F)].
        -- injection E as <- <-. split; [left; reflexivity|]. intros [E | F]; [discriminate E | exact (proj2 Q F)].
      * intros [[E | A] B]; [injection E as <- <-; right; left; reflexivity|]. left. split; [exact A|]. intros F. apply B. right. exact F.
    + intros G j J. apply in_app_iff in J. destruct J as [J | [E | []]]; [exact (C G j J)|]. injection E as -> _.
      unfold present in P. apply andb_true_iff in P. destruct P as [_ P]. destruct (stack s) as [|[b|i] r]; discriminate.
  - split.
    + intros v j. rewrite filter_In, D. cbn [In snd]. split.
      * intros [[A B] N]. split; [right; exact A|]. intros [E | F]; [|exact (B F)]. injection E as ->.
        rewrite Nat.eqb_refl in N. discriminate N.
      * intros [[E | A] B]; [discriminate E|]. split; [split; [exact A|]; intros F; apply B; right; exact F|].
        apply negb_true_iff, Nat.eqb_neq. intros ->. apply B. left. reflexivity.
    + intros G j J. apply filter_In in J. destruct J as [J _]. exact (C G j J).
  - split; [apply K; discriminate|]. intros _ j. apply (present_clear Main s Heqb).
  - split.
    + intros v j. rewrite (K EExec) by discriminate. cbn [In]. split.
      * intros [P Q]. split; [right; exact P|]. intros [E | F]; [discriminate E | exact (Q F)].
      * intros [[E | P] Q]; [discriminate E|]. split; [exact P|]. intros F. apply Q. right. exact F.
    + intros _ j. apply (present_clear Main s Heqb).
  - split; [apply K; discriminate|]. intros _ j. apply (present_clear Main s Heqb).
  - split; [apply K; discriminate|]. intros _ j. apply C. unfold looping. rewrite Heql1. reflexivity.
  - split; [apply K; discriminate|]. intros _ j. apply (present_clear Main s Heqb).
Qed.
(** While a destructor waits, the thread that called it does nothing else. *)
Definition patient (l : list event) : Prop :=
  forall l1 e l2 w, l = l1 ++ e :: l2 -> by_whom e = Some w -> free w l2.
Lemma patient_push : forall e l, patient l -> (forall w, by_whom e = Some w -> free w l) -> patient (e :: l).
Proof.
  intros e l P F l1 x l2 w E B. destruct l1 as [|y l1]; injection E as -> E.
  - subst l2. exact (F w B).
  - exact (P l1 x l2 w E B).
Qed.
Lemma patient_reach : forall n s, reach n s -> patient (log s).
Proof.
  intros n. apply (reach_ind n (fun s => patient (log s))).
  { intros [|x [|y l1]] e l2 w E B; cbn in E; try discriminate E. injection E as <- <-. discriminate B. }
  intros l s s' R P H. pose proof (waits_reach _ _ R) as W. assert (C := proj2 W).
  assert (F : forall w, present w s = true -> free w (log s)).
  { intros w Q. apply (free_clear w s W). apply present_clear. exact Q. }
  assert (M : looping s = true -> free Main (log s)).
  { intros Q. apply (free_clear Main s W). exact (C Q). }
  unstep H; try exact P;
    try (apply patient_push; [exact P|]; intros v B; cbn in B; first [discriminate B | injection B as <-; auto; fail]).
  - apply patient_push; [exact P|]. intros v B. injection B as <-. apply F.
    apply andb_true_iff in Heqb. destruct Heqb as [Q _]. apply andb_true_iff in Q. exact (proj1 Q).
  - assert (G := F Main Heqb). apply patient_push; [apply patient_push; [exact P|]|].
    + intros v B. injection B as <-. exact G.
    + intros v B. injection B as <-. intros k [E | I]; [discriminate E|]. right. exact (G k I).
  - apply patient_push; [exact P|]. intros v B. injection B as <-. apply M. unfold looping. rewrite Heql1. reflexivity.
  - apply patient_push; [exact P|]. intros v B. injection B as <-. apply F.
    apply andb_true_iff in Heqb. exact (proj1 Heqb).
Qed.

(** ** What the main thread is in *)
Definition framed (s : st) : Prop :=
  frames (log s) = map (fun f => match f with Exec _ => None | Call i => Some i end) (stack s).
Lemma framed_reach : forall n s, reach n s -> framed s.
Proof.
  intros n. apply reach_ind; [reflexivity|]. intros l s s' R F H. unfold framed in *.
  unstep H; cbn [frames map tl]; try exact F; try (rewrite F; reflexivity); try (rewrite F, Heql1; reflexivity).
  rewrite F, map_map. apply map_ext. intros [b|i]; reflexivity.
Qed.
Theorem can_return : forall n s i r, reach n s -> fated s = Going -> frames (log s) = Some i :: r -> free Main (log s) ->
  exists s', step n LRet s = Some s' /\ log s' = EEnd i :: log s.
Proof.
  intros n s i r R G F W. pose proof (framed_reach _ _ R) as S. unfold framed in S. rewrite F in S.
  destruct (stack s) as [|[b|j] q] eqn:E; try discriminate S. injection S as <- _.
  assert (P : present Main s = true).
  { apply clear_present; [apply (free_clear Main s (waits_reach _ _ R)); exact W|]. unfold looping. rewrite E. reflexivity. }
  unfold step, go. rewrite G, P, E. eexists. split; reflexivity.
Qed.
(** What runs in the end is what is back: a posted function returns only as the innermost. *)
Theorem returns_inner : forall n s, reach n s -> forall l1 i l2, log s = l1 ++ EEnd i :: l2 -> exists r, frames l2 = Some i :: r.
Proof.
  intros n. apply (reach_ind n (fun s => forall l1 i l2, log s = l1 ++ EEnd i :: l2 -> exists r, frames l2 = Some i :: r)).
  { intros [|x [|y l1]] i l2 E; discriminate E. }
  intros l s s' R P H. pose proof (framed_reach _ _ R) as S. unfold framed in S.
  assert (K : forall e, (forall i, e <> EEnd i) -> forall l1 i l2, e :: log s = l1 ++ EEnd i :: l2 -> exists r, frames l2 = Some i :: r).
  { intros e N [|x l1] i l2 E; injection E as E1 E2; [destruct (N _ E1)|]. exact (P _ _ _ E2). }
  unstep H; try exact P; try (apply K; discriminate).
  - intros [|x l1] i l2 E; [discriminate E|]. injection E as _ E. exact (K EExec ltac:(discriminate) _ _ _ E).
  - intros [|x l1] i l2 E; [|injection E as _ E; exact (P _ _ _ E)]. injection E as <- <-.
    rewrite S. cbn [map]. eexists. reflexivity.
Qed.
(** Nothing else prevents another thread from using a loop object, also after its end. *)
Lemma other_present : forall n s t, reach n s -> free (Other t) (log s) -> present (Other t) s = true.
Proof.
  intros n s t R F. apply (free_clear _ _ (waits_reach _ _ R)) in F. unfold present. rewrite andb_true_r.
  apply negb_true_iff, not_true_iff_false. intros E. apply existsb_exists in E. destruct E as ([w k] & I & E).
  apply who_eqb_iff in E. cbn in E. subst w. exact (F k I).
Qed.
Theorem can_use : forall n s t k, reach n s -> fated s = Going -> free (Other t) (log s) ->
  (forall u, exists s', step n (LUse (Other t) k u) s = Some s') /\ exists s', step n (LCopy (Other t) k) s = Some s'.
Proof.
  intros n s t k R G F. pose proof (other_present _ _ _ R F) as P. unfold step. rewrite G. cbn [go]. rewrite P.
  destruct (is_in k (loops s)); split; intros; eexists; reflexivity.
Qed.
