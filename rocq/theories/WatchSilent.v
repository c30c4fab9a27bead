(** Programs whose callbacks do nothing to reader objects. *)
From Coq Require Import List Arith Bool Lia.
From Verif Require Import WatchModel WatchSpec WatchFrame WatchPass WatchLog WatchLaws.
Import ListNotations.

Section Silent.
Context {V : Type}.
Notation event := (event V).
Notation op := (op V).
Notation st := (st V).

Lemma expire_obs : forall l (s : st) m,
  obs (fold_left (fun s r => unlink r s) l s) m = filter (fun r => negb (existsb (Nat.eqb r) l)) (obs s m) /\
  readers (fold_left (fun s r => unlink r s) l s) = readers s /\
  ncb (fold_left (fun s r => unlink r s) l s) = ncb s.
Proof.
  induction l as [|q l IH]; intros s m; cbn [fold_left].
  - split; auto. symmetry. apply filter_true. auto.
  - destruct (IH (unlink q s) m) as (A & B & C). rewrite A, B, C. split; auto. cbn. rewrite filter_filter.
    apply filter_ext. intros r. destruct (r =? q); auto.
Qed.

Lemma law_expire : forall (s s' : st) fuel n, reach s -> exec fuel (TOps [Expire n]) s = Done s' ->
  attached s' n = [] /\ forall m, m <> n -> attached s' m = attached s m.
Proof.
  intros s s' fuel n Rs H. destruct (one _ _ _ _ H) as [fl ->]. cbn in H.
  pose proof (reach_inv _ Rs) as I. destruct (existsb _ (readers s)); [discriminate|]. injection H as <-.
  assert (Iq : forall q, ids (fold_left (fun s r => unlink r s) (obs s n) s) q = ids s q).
  { intros q. unfold ids, get. destruct (expire_obs (obs s n) s 0) as (_ & -> & _). auto. }
  split.
  - unfold attached. destruct (expire_obs (obs s n) s n) as (-> & _ & _).
    rewrite filter_false; auto. intros r Hr. apply negb_false_iff. apply existsb_exists. exists r. split; auto.
    apply Nat.eqb_refl.
  - intros m Ne. unfold attached. destruct (expire_obs (obs s n) s m) as (-> & _ & _).
    rewrite filter_true; [apply map_ext; intros; now rewrite Iq|].
    intros r Hr. apply negb_true_iff. apply not_true_is_false. intros C. apply existsb_exists in C as (q & Hq & E).
    apply Nat.eqb_eq in E. subst q. apply Ne. eapply i_one; eauto.
Qed.

(** ** Silent callbacks *)
Definition quiet (s : st) : Prop :=
  forall r o, get r s = Some o -> Forall (fun x => forall l, snd x l = []) (cbs o).
Definition same (s s' : st) : Prop := readers s' = readers s /\ obs s' = obs s /\ ncb s' = ncb s.

Lemma same_refl : forall s, same s s.
Proof. repeat split. Qed.
Lemma same_trans : forall a b c, same a b -> same b c -> same a c.
Proof. intros a b c (A & B & C) (D & E & F). repeat split; congruence. Qed.
Lemma same_get : forall s s' r, same s s' -> get r s' = get r s.
Proof. intros s s' r (A & _). unfold get. now rewrite A. Qed.
Lemma same_ids : forall s s' r, same s s' -> ids s' r = ids s r.
Proof. intros. unfold ids. now rewrite (same_get _ _ _ H). Qed.
Lemma same_quiet : forall s s', same s s' -> quiet s -> quiet s'.
Proof. intros s s' S Q r o H. rewrite (same_get _ _ _ S) in H. eauto. Qed.
Lemma same_emit : forall e s, same s (emit e s).
Proof. repeat split. Qed.
Lemma same_inv : forall s s', same s s' -> inv s -> inv s'.
Proof.
  intros s s' S [A B C D E F]. pose proof S as (S1 & S2 & S3). split.
  - intros n r H. rewrite S2 in H. destruct (A n r H) as (o & G & Ne). exists o. now rewrite (same_get _ _ _ S).
  - rewrite S2. auto.
  - rewrite S2. auto.
  - intros r c. rewrite (same_ids _ _ _ S), S3. apply D.
  - intros r. rewrite (same_ids _ _ _ S). auto.
  - intros r q c. rewrite !(same_ids _ _ _ S). apply F.
Qed.

Lemma quiet_find : forall s r o c f, quiet s -> get r s = Some o -> find c (cbs o) = Some f -> forall l, f l = [].
Proof.
  intros s r o c f Q G H. specialize (Q r o G). unfold find in H.
  destruct (List.find _ (cbs o)) as [[k g]|] eqn:E; [|discriminate]. injection H as <-.
  apply find_some in E as [E _]. rewrite Forall_forall in Q. apply (Q _ E).
Qed.

Definition slot_events (p : nat) (v : V) (l : list nat) : list event := rev (map (fun c => ECall p c v) l).

Lemma slots_silent : forall fuel p r co v s s' pre rem,
  inv s -> quiet s -> exec fuel (TSlots p r co v) s = Done s' -> ids s r = pre ++ rem -> co = hd_error rem ->
  same s s' /\ log s' = slot_events p v rem ++ log s.
Proof.
  induction fuel as [|fl IH]; intros p r co v s s' pre rem I Q H Ei Ec; [discriminate|].
  destruct co as [c|]; cbn [exec] in H.
  2:{ injection H as <-. destruct rem; [|discriminate]. split; [apply same_refl|auto]. }
  destruct rem as [|c0 post]; [discriminate|]. injection Ec as <-.
  destruct (get r s) as [o|] eqn:G; [|discriminate]. destruct (find c (cbs o)) as [f|] eqn:Ef; [|discriminate].
  rewrite (quiet_find _ _ _ _ _ Q G Ef) in H.
  destruct fl as [|fl']; [discriminate|]. remember (S fl') as fl.
  assert (X : exec fl (TOps []) (emit (ECall p c v) s) = Done (emit (ECall p c v) s)) by (subst; auto).
  rewrite X in H. cbn [andthen] in H. change (get r (emit (ECall p c v) s)) with (get r s) in H. rewrite G in H.
  destruct (after c (map fst (cbs o))) as [c'|] eqn:Ea; [|discriminate].
  apply after_spec in Ea as (a & b & Ea & Na & ->). rewrite <- (ids_get _ _ _ G), Ei in Ea.
  pose proof (i_ids _ I r) as N. rewrite Ei in N. apply nodup_mid in N as [N _].
  apply split_unique in Ea as [<- <-]; auto.
  destruct (IH _ _ _ _ _ _ (pre ++ [c]) post (emit_inv _ _ I) (same_quiet _ _ (same_emit _ _) Q) H) as [S L].
  - change (ids (emit (ECall p c v) s) r) with (ids s r). rewrite Ei, <- app_assoc. auto.
  - auto.
  - split; [eapply same_trans; [apply same_emit|eauto]|]. rewrite L. unfold slot_events. cbn.
    rewrite <- app_assoc. auto.
Qed.

Definition reader_events (p : nat) (v : V) (x : nat * list nat) : list event :=
  slot_events p v (snd x) ++ [EBegin p (fst x)].
Lemma reader_silent : forall fuel p r v s s',
  inv s -> quiet s -> exec fuel (TReader p r v) s = Done s' ->
  same s s' /\ log s' = reader_events p v (r, ids s r) ++ log s.
Proof.
  intros [|fl] p r v s s' I Q H; [discriminate|]. cbn [exec] in H.
  change (get r (emit (EBegin p r) s)) with (get r s) in H.
  destruct (get r s) as [o|] eqn:G; [|discriminate].
  destruct (slots_silent _ _ _ _ _ _ _ [] (ids s r) (emit_inv _ _ I) (same_quiet _ _ (same_emit _ _) Q) H) as [S L].
  - reflexivity.
  - now rewrite (ids_get _ _ _ G).
  - split; [eapply same_trans; [apply same_emit|eauto]|]. rewrite L. unfold reader_events. cbn [fst snd].
    rewrite <- app_assoc. auto.
Qed.

Definition pass_events (p : nat) (v : V) (w : list (nat * list nat)) : list event :=
  concat (rev (map (fun x => EEnd p (fst x) :: reader_events p v x) w)).
Lemma pass_silent : forall fuel p n co v s s' pre rem,
  inv s -> quiet s -> exec fuel (TPass p n co v) s = Done s' -> obs s n = pre ++ rem -> co = hd_error rem ->
  same s s' /\ log s' = pass_events p v (map (fun r => (r, ids s r)) rem) ++ log s.
Proof.
  induction fuel as [|fl IH]; intros p n co v s s' pre rem I Q H Eo Ec; [discriminate|].
  destruct co as [cur|]; cbn [exec] in H.
  2:{ injection H as <-. destruct rem; [|discriminate]. split; [apply same_refl|auto]. }
  destruct rem as [|c0 rest]; [discriminate|]. injection Ec as <-.
  destruct (exec fl (TReader p cur v) s) as [s1| | |] eqn:H1; try discriminate. cbn [andthen] in H.
  destruct (reader_silent _ _ _ _ _ _ I Q H1) as [S1 L1].
  destruct (after cur (obs s1 n)) as [r'|] eqn:Ea; [|discriminate].
  apply after_spec in Ea as (a & b & Ea & Na & ->).
  assert (Eo1 : obs s1 n = obs s n) by (destruct S1 as (_ & -> & _); auto).
  rewrite Eo1, Eo in Ea. pose proof (i_nodup _ I n) as N. rewrite Eo in N. apply nodup_mid in N as [N _].
  apply split_unique in Ea as [<- <-]; auto.
  assert (S2 : same s (emit (EEnd p cur) s1)) by (eapply same_trans; [exact S1|apply same_emit]).
  destruct (IH _ _ _ _ _ _ (pre ++ [cur]) rest (same_inv _ _ S2 I) (same_quiet _ _ S2 Q) H) as [S L].
  - change (obs (emit (EEnd p cur) s1) n) with (obs s1 n). rewrite Eo1, Eo, <- app_assoc. auto.
  - auto.
  - split; [eapply same_trans; eauto|]. rewrite L. cbn [log emit]. rewrite L1. unfold pass_events. cbn [map rev].
    rewrite concat_app. cbn [concat]. rewrite app_nil_r, <- app_assoc. cbn [fst app]. f_equal.
    f_equal. f_equal. f_equal. apply map_ext. intros r. now rewrite (same_ids _ _ _ S2).
Qed.

(** ** The objects *)
Definition matches (w : world) (k : nat) (s : st) : Prop :=
  length w = length (readers s) /\ k = ncb s /\
  forall r,
    match at_ w r, get r s with
    | Some o, Some o' =>
        at_node o = node o' /\ has o = map fst (cbs o') /\
        forall n, follows o = Some n <-> In r (obs s n)
    | None, None => True
    | _, _ => False
    end.

Lemma at_put_same : forall w r o, r < length w -> at_ (put w r o) r = o.
Proof.
  intros. unfold at_, put. rewrite app_nth2; rewrite firstn_length_le by lia; auto.
  now rewrite Nat.sub_diag.
Qed.
Lemma at_put_other : forall w r q o, r < length w -> r <> q -> at_ (put w r o) q = at_ w q.
Proof.
  intros w r q o L Ne. unfold at_, put. destruct (Nat.lt_ge_cases q r).
  - rewrite app_nth1 by (rewrite firstn_length_le; lia).
    rewrite <- (firstn_skipn r w) at 2. rewrite app_nth1; auto. rewrite firstn_length_le; lia.
  - rewrite app_nth2 by (rewrite firstn_length_le; lia). rewrite firstn_length_le by lia.
    destruct (q - r) as [|d] eqn:E; [lia|]. cbn [nth].
    rewrite <- (firstn_skipn (S r) w) at 2. rewrite app_nth2 by (rewrite firstn_length_le; lia).
    rewrite firstn_length_le by lia. f_equal. lia.
Qed.
Lemma put_length : forall w r o, r < length w -> length (put w r o) = length w.
Proof. intros. unfold put. rewrite app_length, firstn_length_le by lia. cbn [length]. rewrite skipn_length. lia. Qed.
Lemma at_app : forall w o r, at_ (w ++ [o]) r = if r =? length w then o else at_ w r.
Proof.
  intros. unfold at_. destruct (r =? length w) eqn:E.
  - apply Nat.eqb_eq in E. subst. rewrite app_nth2, Nat.sub_diag; auto.
  - apply Nat.eqb_neq in E. destruct (Nat.lt_ge_cases r (length w)).
    + rewrite app_nth1; auto.
    + rewrite !nth_overflow; auto. rewrite app_length. cbn. lia.
Qed.

Section Step.
Variables (w : world) (k : nat) (s : st).
Hypothesis M : matches w k s.
Hypothesis I : inv s.

Lemma m_get : forall r o', get r s = Some o' -> exists o, at_ w r = Some o /\
  at_node o = node o' /\ has o = map fst (cbs o') /\ (forall n, follows o = Some n <-> In r (obs s n)).
Proof.
  intros r o' G. destruct M as (_ & _ & H). specialize (H r). rewrite G in H.
  destruct (at_ w r) as [o|]; [|contradiction]. exists o. auto.
Qed.
Lemma m_lt : forall r o', get r s = Some o' -> r < length w.
Proof. intros r o' G. destruct M as (-> & _). eapply get_lt; eauto. Qed.
End Step.

Lemma not_followed : forall (s : st) r, inv s -> get r s = None -> forall n, ~ In r (obs s n).
Proof. intros s r I G n C. destruct (i_alive _ I n r C) as (o & H & _). congruence. Qed.

Lemma m_new : forall w k s n, inv s -> matches w k s ->
  matches (w ++ [Some (O n None [])]) k (new_obj (R n []) s).
Proof.
  intros w k s n I M. pose proof M as (L & K & H). split; [|split; auto].
  - cbn. rewrite !app_length. cbn. lia.
  - intros r. rewrite at_app, get_new, L. destruct (r =? length (readers s)) eqn:E; [|apply H].
    cbn. split; [auto|split; auto]. intros m. split; [discriminate|]. intros C. apply Nat.eqb_eq in E. subst.
    contradiction (not_followed s (length (readers s)) I) with (n := m).
    destruct (get (length (readers s)) s) eqn:G; auto. apply get_lt in G. lia.
Qed.
(** One object changes. *)
Lemma m_set : forall w k s r o o' s',
  matches w k s -> r < length w -> readers s' = set_nth r o' (readers s) -> ncb s' = ncb s ->
  (forall q n, q <> r -> In q (obs s' n) <-> In q (obs s n)) ->
  match o, o' with
  | Some o, Some o' => at_node o = node o' /\ has o = map fst (cbs o') /\ (forall n, follows o = Some n <-> In r (obs s' n))
  | None, None => True
  | _, _ => False
  end -> matches (put w r o) k s'.
Proof.
  intros w k s r o o' s' (L & K & H) Lr Er En Eo X. split; [|split].
  - now rewrite put_length, Er, set_nth_length.
  - congruence.
  - intros q. destruct (Nat.eq_dec r q) as [<-|Ne].
    + rewrite at_put_same by auto. unfold get. rewrite Er, nth_set_same by (rewrite <- L; auto). exact X.
    + rewrite at_put_other by auto. unfold get. rewrite Er, nth_set_other by auto. fold (get q s). specialize (H q).
      destruct (at_ w q), (get q s); auto. destruct H as (A & B & C). split; [auto|split; auto].
      intros n. rewrite (C n). symmetry. apply Eo. auto.
Qed.
Lemma m_same : forall w k s s', same s s' -> matches w k s -> matches w k s'.
Proof.
  intros w k s s' S (L & K & H). pose proof S as (S1 & S2 & S3). split; [|split]; try congruence.
  intros r. specialize (H r). now rewrite (same_get _ _ _ S), S2.
Qed.

Lemma m_ext : forall w w' k (s : st), length w' = length w -> (forall r, at_ w r = at_ w' r) ->
  matches w k s -> matches w' k s.
Proof.
  intros w w' k s L E (A & B & C). split; [|split]; try congruence. intros r. rewrite <- E. apply C.
Qed.

Lemma unlink_in : forall r (s : st) q n, q <> r -> In q (obs (unlink r s) n) <-> In q (obs s n).
Proof.
  intros. cbn. rewrite filter_In. split; [tauto|]. intros. split; auto. apply negb_true_iff, Nat.eqb_neq. auto.
Qed.

Lemma m_relink : forall r o n (s : st) m, get r s = Some o -> (forall k, ~ In r (obs s k)) ->
  match cbs o with [] => None | _ => n end = Some m <->
  In r (obs (relink r (R n (cbs o)) (set_obj r (Some (R n (cbs o))) s)) m).
Proof.
  intros r o n s m G Gone. unfold relink. cbn [cbs node]. destruct (cbs o) as [|c l].
  - split; [discriminate|]. intros C. contradiction (Gone m).
  - destruct n as [j|].
    + cbn. destruct (m =? j) eqn:E.
      * apply Nat.eqb_eq in E. subst. split; auto. intros _. apply in_or_app. right. now left.
      * apply Nat.eqb_neq in E. split; [intros X; injection X as ->; contradiction|]. intros C. contradiction (Gone m).
    + split; [discriminate|]. intros C. contradiction (Gone m).
Qed.
Lemma relink_in : forall r o (s : st) q n, q <> r -> In q (obs (relink r o s) n) <-> In q (obs s n).
Proof.
  intros r o s q n Ne. unfold relink. destruct (cbs o), (node o); try tauto. cbn.
  destruct (n =? n0); try tauto. rewrite in_app_iff. cbn. split; [intros [|[|[]]]; auto; congruence|auto].
Qed.
Lemma relink_readers : forall r o (s : st), readers (relink r o s) = readers s /\ ncb (relink r o s) = ncb s.
Proof. intros. unfold relink. destruct (cbs o), (node o); auto. Qed.

Lemma map_nil_match : forall {X Y} (f : X -> Y) l {Z} (a b : Z),
  match map f l with [] => a | _ => b end = match l with [] => a | _ => b end.
Proof. intros. destruct l; auto. Qed.

Lemma m_watch : forall w k s r f o, inv s -> matches w k s -> get r s = Some o ->
  matches (fst (object_step (Watch r f) (w, k))) (S k) (do_watch r f o s).
Proof.
  intros w k s r f o I M G. pose proof M as (L & K & H). destruct (m_get w k s M _ _ G) as (x & Ax & An & Ah & Af).
  pose proof (m_lt w k s M _ _ G) as Lr.
  unfold object_step. rewrite Ax. cbn [fst].
  unfold do_watch. set (s1 := match cbs o with [] => _ | _ => _ end).
  assert (R1 : readers s1 = readers s /\ ncb s1 = ncb s) by (unfold s1; destruct (cbs o), (node o); auto).
  destruct R1 as [R1 N1].
  cut (matches (put w r (Some (O (at_node x) (match has x with [] => at_node x | _ => follows x end) (has x ++ [k])))) k
         (St (readers (set_obj r (Some (R (node o) (cbs o ++ [(ncb s, f)]))) s1)) (obs s1) (value s1) (ncb s1) (log s1))).
  { intros (A & B & C). split; [exact A|]. split; [cbn in *; now f_equal|exact C]. }
  eapply m_set; eauto.
  - cbn. rewrite R1. reflexivity.
  - intros q n Ne. cbn. unfold s1. destruct (cbs o), (node o); try tauto. cbn. destruct (n =? n0); try tauto.
    rewrite in_app_iff. cbn. split; [intros [|[|[]]]; auto; congruence|auto].
  - cbn. split; [auto|]. split; [rewrite Ah, map_app, K; auto|].
    rewrite Ah, map_nil_match, An. intros n. unfold s1. destruct (cbs o) eqn:Ec; [|apply Af].
    pose proof (not_linked _ _ _ I G Ec) as NL.
    destruct (node o) as [j|]; [|split; [discriminate|intros C; contradiction (NL n)]].
    cbn. destruct (n =? j) eqn:E.
    + apply Nat.eqb_eq in E. subst. split; auto. intros _. apply in_or_app. right. now left.
    + apply Nat.eqb_neq in E. split; [intros X; injection X as ->; contradiction|]. intros C. contradiction (NL n).
Qed.

Lemma at_nth : forall (w : world) f r, (f None = None) -> at_ (map f w) r = f (at_ w r).
Proof. intros. unfold at_. rewrite <- H at 1. apply map_nth. Qed.
Lemma m_expire : forall w k s n, inv s -> matches w k s ->
  matches (fst (object_step (@Expire V n) (w, k))) k (fold_left (fun s r => unlink r s) (obs s n) s).
Proof.
  intros w k s n I M. pose proof M as (L & K & H). cbn [object_step fst].
  assert (E : forall m, obs (fold_left (fun s r => unlink r s) (obs s n) s) m = if m =? n then [] else obs s m).
  { intros m. destruct (expire_obs (obs s n) s m) as (-> & _ & _). destruct (m =? n) eqn:E.
    - apply Nat.eqb_eq in E. subst. apply filter_false. intros r Hr. apply negb_false_iff, existsb_exists.
      exists r. split; auto. apply Nat.eqb_refl.
    - apply Nat.eqb_neq in E. apply filter_true. intros r Hr. apply negb_true_iff, not_true_is_false. intros C.
      apply existsb_exists in C as (q & Hq & X). apply Nat.eqb_eq in X. subst q. apply E. eapply i_one; eauto. }
  destruct (expire_obs (obs s n) s 0) as (_ & Er & En).
  split; [|split].
  - rewrite map_length. congruence.
  - congruence.
  - intros r. rewrite at_nth by auto. unfold get. rewrite Er. fold (get r s). specialize (H r).
    destruct (at_ w r) as [o|], (get r s) as [o'|]; cbn [option_map]; auto. destruct H as (A & B & C).
    assert (D : (match follows o with Some m => if m =? n then O (at_node o) None (has o) else o | None => o end)
                  = O (at_node o) (match follows o with Some j => if j =? n then None else Some j | None => None end) (has o)).
    { destruct o as [a [j|] b]; cbn; auto. destruct (j =? n); auto. }
    rewrite D. cbn. split; [auto|split; auto]. intros m. rewrite E.
    destruct (m =? n) eqn:Em.
    + split; [|contradiction]. apply Nat.eqb_eq in Em. subst m. destruct (follows o) as [j|]; [|discriminate].
      destruct (j =? n) eqn:Ej; [discriminate|]. intros X. injection X as ->. rewrite Nat.eqb_refl in Ej. discriminate.
    + rewrite <- (C m). apply Nat.eqb_neq in Em. destruct (follows o) as [j|]; [|tauto].
      destruct (j =? n) eqn:Ej; [|tauto]. apply Nat.eqb_eq in Ej. subst j. split; [discriminate|].
      intros X. injection X as ->. congruence.
Qed.

Lemma quiet_ext : forall s s', quiet s ->
  (forall r o', get r s' = Some o' -> (exists o, get r s = Some o /\ cbs o' = cbs o) \/ cbs o' = []) -> quiet s'.
Proof.
  intros s s' Q H r o' G. destruct (H r o' G) as [(o & G1 & ->)| ->]; [eauto|constructor].
Qed.
Lemma quiet_set : forall r o o' (s : st), quiet s -> get r s = Some o' ->
  match o with Some o => cbs o = cbs o' \/ cbs o = [] | None => True end -> quiet (set_obj r o s).
Proof.
  intros r o o' s Q G H. eapply quiet_ext; eauto. intros q oq Hq. destruct (Nat.eq_dec r q) as [<-|Ne].
  - rewrite get_set_same in Hq by (eapply get_lt; eauto). subst o. destruct H; eauto.
  - rewrite get_set_other in Hq by auto. eauto.
Qed.
Lemma quiet_new : forall n (s : st), quiet s -> quiet (new_obj (R n []) s).
Proof.
  intros n s Q. eapply quiet_ext; eauto. intros q oq Hq. rewrite get_new in Hq.
  destruct (q =? _); [injection Hq as <-; auto|eauto].
Qed.
Lemma quiet_watch : forall r f o (s : st), quiet s -> get r s = Some o -> (forall l, f l = []) ->
  quiet (do_watch r f o s).
Proof.
  intros r f o s Q G Hf q oq Hq. unfold do_watch, get in Hq. cbn in Hq.
  set (s1 := match cbs o with [] => _ | _ => _ end) in Hq.
  assert (R1 : readers s1 = readers s) by (unfold s1; destruct (cbs o), (node o); auto). rewrite R1 in Hq.
  destruct (Nat.eq_dec r q) as [<-|Ne].
  - rewrite nth_set_same in Hq by (eapply get_lt; eauto). injection Hq as <-. cbn.
    apply Forall_app. split; [eauto|]. constructor; auto.
  - rewrite nth_set_other in Hq by auto. fold (get q s) in Hq. eauto.
Qed.

Lemma run_matches : forall fuel prog w k (s s' : st),
  silent prog -> quiet s -> inv s -> matches w k s -> exec fuel (TOps prog) s = Done s' ->
  let wk := fold_left (fun wk x => object_step x wk) prog (w, k) in
  quiet s' /\ matches (fst wk) (snd wk) s'.
Proof.
  induction fuel as [|fl IH]; intros prog w k s s' Si Q I M H; [discriminate|].
  destruct prog as [|x l]; cbn [exec] in H; [injection H as <-; auto|].
  inversion_clear Si as [|? ? Sx Sl]. cbn [fold_left].
  assert (Kx : forall s1 w1 k1, object_step x (w, k) = (w1, k1) -> quiet s1 -> inv s1 -> matches w1 k1 s1 ->
            exec fl (TOps l) s1 = Done s' ->
            let wk := fold_left (fun wk x => object_step x wk) l (object_step x (w, k)) in
            quiet s' /\ matches (fst wk) (snd wk) s').
  { intros s1 w1 k1 E Q1 I1 M1 H1. rewrite E. eapply IH; eauto. }
  destruct x; cbn [silent1] in Sx.
  - eapply Kx; [reflexivity| | | |exact H]; [now apply quiet_new|now apply new_ok|now apply m_new].
  - destruct (get r s) as [o|] eqn:G; [|discriminate]. destruct (m_get w k s M _ _ G) as (x & Ax & An & Ah & Af).
    eapply Kx; [cbn; rewrite Ax, An; reflexivity| | | |exact H]; [now apply quiet_new|now apply new_ok|now apply m_new].
  - destruct (get r s) as [o|] eqn:G; [|discriminate]. destruct (m_get w k s M _ _ G) as (x & Ax & An & Ah & Af).
    pose proof (m_lt w k s M _ _ G) as Lr.
    destruct (point_ok r None o s G I) as [I1 _].
    eapply Kx; [cbn; rewrite Ax, An; reflexivity| | | |exact H].
    + apply quiet_new. eapply quiet_set; eauto.
    + now apply new_ok.
    + apply m_new; auto. eapply (m_set w k s r); [exact M|exact Lr|reflexivity|reflexivity|tauto|]. cbn. auto.
  - destruct (get r s) as [o|] eqn:G; [|discriminate]. destruct (get r' s) as [o'|] eqn:G'; [|discriminate].
    destruct (m_get w k s M _ _ G) as (x & Ax & An & Ah & Af).
    destruct (m_get w k s M _ _ G') as (x' & Ax' & An' & Ah' & Af').
    pose proof (m_lt w k s M _ _ G) as Lr.
    eapply Kx; [cbn; rewrite Ax, Ax'; reflexivity| | | |exact H].
    + assert (Q1 : quiet (set_obj r (Some (R (node o') (cbs o))) (unlink r s))) by (eapply quiet_set; eauto; cbn; auto).
      intros q oq Hq. apply (Q1 q). unfold get in *. now rewrite (proj1 (relink_readers _ _ _)) in Hq.
    + apply (assign_good 0 r o (node o') s I G).
    + eapply m_set; eauto.
      * rewrite (proj1 (relink_readers _ _ _)). reflexivity.
      * rewrite (proj2 (relink_readers _ _ _)). reflexivity.
      * intros q n Ne. rewrite relink_in by auto. apply unlink_in; auto.
      * cbn. split; [auto|split; auto]. intros n. rewrite Ah, map_nil_match, An'.
        apply (m_relink r o (node o') (unlink r s) n G). apply unlink_gone.
  - destruct (get r s) as [o|] eqn:G; [|discriminate]. destruct (get r' s) as [o'|] eqn:G'; [|discriminate].
    destruct (m_get w k s M _ _ G) as (x & Ax & An & Ah & Af).
    destruct (m_get w k s M _ _ G') as (x' & Ax' & An' & Ah' & Af').
    pose proof (m_lt w k s M _ _ G) as Lr. pose proof (m_lt w k s M _ _ G') as Lr'.
    set (s1 := set_obj r' (Some (R None (cbs o'))) (unlink r s)) in *.
    assert (Q1 : quiet s1) by (eapply quiet_set; eauto; cbn; auto).
    assert (exists q, get r s1 = Some q /\ cbs q = cbs o) as (q & Hq & Eq).
    { unfold s1. destruct (Nat.eq_dec r' r) as [->|Ne].
      - rewrite get_set_same by (apply (get_lt _ (unlink r s) _ G')).
        eexists. split; [reflexivity|]. cbn. congruence.
      - rewrite get_set_other by auto. eauto. }
    eapply Kx; [cbn; rewrite Ax, Ax'; reflexivity| | | |exact H].
    + assert (Q2 : quiet (set_obj r (Some (R (node o') (cbs o))) s1)) by (eapply quiet_set; eauto; cbn; auto).
      intros z oz Hz. apply (Q2 z). unfold get in *. now rewrite (proj1 (relink_readers _ _ _)) in Hz.
    + apply (move_assign_good 0 r r' o o' s I G G').
    + (* the object moved from, then the object assigned to *)
      assert (Mu : matches (put w r (Some (O (at_node x) None (has x)))) k (unlink r s)).
        { eapply (m_set w k s r _ (Some o)); eauto; cbn.
          - clear - G. unfold get in G. revert r G. induction (readers s) as [|y t IHt]; intros [|r] G; cbn in *; try discriminate; auto.
            + now subst.
            + f_equal. auto.
          - intros z n Ne. apply unlink_in. auto.
          - split; [auto|split; auto]. intros n. split; [discriminate|]. intros C. contradiction (unlink_gone r s n). }
      assert (M2 : matches (put (put w r (Some (O (at_node x) None (has x)))) r'
                     (Some (O None (if r' =? r then None else follows x') (has x')))) k s1).
        { eapply m_set; [exact Mu| | | | |].
          - now rewrite put_length.
          - reflexivity.
          - reflexivity.
          - intros; tauto.
          - cbn. split; [auto|split; auto]. intros n. destruct (r' =? r) eqn:E.
            + apply Nat.eqb_eq in E. subst. split; [discriminate|]. intros C. contradiction (unlink_gone r s n).
            + apply Nat.eqb_neq in E. rewrite (Af' n). symmetry. apply unlink_in. auto. }
      assert (M3 : matches (put (put (put w r (Some (O (at_node x) None (has x)))) r'
                     (Some (O None (if r' =? r then None else follows x') (has x')))) r
                     (Some (O (at_node x') (match has x with [] => None | _ => at_node x' end) (has x)))) k
                   (relink r (R (node o') (cbs o)) (set_obj r (Some (R (node o') (cbs o))) s1))).
      { eapply m_set; [exact M2| | | | |].
        - rewrite !put_length; auto. now rewrite put_length.
        - rewrite (proj1 (relink_readers _ _ _)). reflexivity.
        - rewrite (proj2 (relink_readers _ _ _)). reflexivity.
        - intros z n Ne. rewrite relink_in by auto. tauto.
        - cbn. split; [auto|split; auto]. intros n. rewrite Ah, map_nil_match, An'. rewrite <- Eq.
          apply (m_relink r q (node o') s1 n Hq). apply (unlink_gone r s). }
      eapply m_ext; [| |exact M3].
      * rewrite !put_length; auto; rewrite ?put_length; auto; rewrite ?put_length; auto.
      * intros z. destruct (Nat.eq_dec r z) as [<-|Ne]; [rewrite !at_put_same; rewrite ?put_length; auto; now rewrite put_length|].
        rewrite (at_put_other _ r z) by (rewrite ?put_length; auto; now rewrite put_length).
        rewrite (at_put_other (put w r' _) r z) by (rewrite ?put_length; auto).
        destruct (Nat.eq_dec r' z) as [<-|Ne'].
        -- rewrite !at_put_same by (rewrite ?put_length; auto).
           rewrite (proj2 (Nat.eqb_neq r' r)) by auto. auto.
        -- rewrite !at_put_other by (rewrite ?put_length; auto). auto.
  - destruct (get r s) as [o|] eqn:G; [|discriminate].
    eapply Kx; [reflexivity| | | |exact H]; [now apply quiet_watch|now apply watch_ok|].
    apply (m_watch w k s r f o I M G).
  - destruct (get r s) as [o|] eqn:G; [|discriminate]. destruct (node o) as [n|]; [|discriminate].
    rewrite Sx in H. destruct fl as [|fl']; [discriminate|]. remember (S fl') as fl.
    set (s0 := emit (EBind r (value s n)) s) in *.
    assert (X : exec fl (TOps []) s0 = Done s0) by (subst fl; auto).
    rewrite X in H. cbn [andthen] in H. change (get r s0) with (get r s) in H. rewrite G in H.
    assert (S0 : same s s0) by apply same_emit.
    eapply Kx; [reflexivity| | | |exact H].
    + apply quiet_watch; auto.
    + apply watch_ok; auto. now apply emit_inv.
    + apply (m_watch w k s0 r f o); auto; now apply emit_inv.
  - destruct (get r s) as [o|] eqn:G; [|discriminate]. destruct (node o) as [n|]; [|discriminate].
    destruct (exec fl (TReader _ r _) _) as [s1| | |] eqn:H1; try discriminate. cbn [andthen] in H.
    set (s0 := emit _ s) in H1. assert (S0 : same s s0) by apply same_emit.
    destruct (reader_silent _ _ _ _ _ _ (same_inv _ _ S0 I) (same_quiet _ _ S0 Q) H1) as [S1 _].
    assert (S2 : same s (emit (EPassed (length (log s))) (emit (EEnd (length (log s)) r) s1))).
    { eapply same_trans; [exact S0|]. eapply same_trans; [exact S1|]. repeat split. }
    eapply Kx; [reflexivity| | | |exact H]; [eapply same_quiet|eapply same_inv|eapply m_same]; eauto.
  - destruct (get r s) as [o|] eqn:G; [|discriminate]. destruct (m_get w k s M _ _ G) as (x & Ax & An & Ah & Af).
    pose proof (m_lt w k s M _ _ G) as Lr.
    eapply Kx; [cbn; rewrite Ax; reflexivity| | | |exact H].
    + eapply quiet_set; eauto; cbn; auto.
    + eapply (clear_good 0); eauto.
    + eapply (m_set w k s r); [exact M|exact Lr|reflexivity|reflexivity| |].
      * intros q n Ne. apply unlink_in. auto.
      * cbn. split; [auto|split; auto]. intros n. split; [discriminate|]. intros C. contradiction (unlink_gone r s n).
  - destruct (get r s) as [o|] eqn:G; [|discriminate].
    pose proof (m_lt w k s M _ _ G) as Lr.
    eapply Kx; [reflexivity| | | |exact H].
    + eapply quiet_set; eauto; cbn; auto.
    + eapply (clear_good 0); eauto.
    + eapply (m_set w k s r); [exact M|exact Lr|reflexivity|reflexivity| |exact Logic.I].
      intros q n Ne. apply unlink_in. auto.
  - destruct (exec fl (TPass _ n _ v) _) as [s1| | |] eqn:H1; try discriminate. cbn [andthen] in H.
    set (s0 := emit _ _) in H1. assert (S0 : same s s0) by repeat split.
    destruct (pass_silent _ _ _ _ _ _ _ [] (obs s n) (same_inv _ _ S0 I) (same_quiet _ _ S0 Q) H1) as [S1 _]; auto.
    assert (S2 : same s (emit (EPassed (length (log s))) s1)).
    { eapply same_trans; [exact S0|]. eapply same_trans; [exact S1|]. repeat split. }
    eapply Kx; [reflexivity| | | |exact H]; [eapply same_quiet|eapply same_inv|eapply m_same]; eauto.
  - destruct (existsb _ _); [discriminate|].
    eapply Kx; [reflexivity| | | |exact H].
    + intros r o G. apply (Q r). unfold get in *. now rewrite (proj1 (proj2 (expire_obs (obs s n) s 0))) in G.
    + apply (expire_good 0); auto.
    + apply m_expire; auto.
Qed.

Lemma own_slots : forall p v l, calls (slot_events p v l) = map (fun c => (c, v)) l.
Proof.
  intros. unfold calls, slot_events. rewrite rev_involutive. induction l; cbn; auto. now rewrite IHl.
Qed.
Lemma calls_app : forall a b : list event, calls (a ++ b) = calls b ++ calls a.
Proof. intros. unfold calls. now rewrite rev_app_distr, flat_map_app. Qed.
Lemma calls_pass : forall p v w, calls (pass_events p v w) = map (fun c => (c, v)) (flat_map snd w).
Proof.
  intros. unfold pass_events. induction w as [|x w IH]; auto. cbn [map rev flat_map].
  rewrite concat_app, calls_app, map_app. cbn [concat]. rewrite app_nil_r. f_equal; auto.
  change (EEnd p (fst x) :: reader_events p v x) with ([EEnd p (fst x)] ++ reader_events p v x).
  rewrite calls_app. unfold reader_events. rewrite calls_app, own_slots. apply app_nil_r.
Qed.

(** A change of a node, in a program whose callbacks do nothing. *)
Lemma notify_silent : forall fuel n v (s s' : st), inv s -> quiet s ->
  exec fuel (TOps [Notify n v]) s = Done s' ->
  exists new, log s' = new ++ log s /\ calls new = map (fun c => (c, v)) (flat_map snd (attached s n)).
Proof.
  intros fuel n v s s' I Q H. destruct (one _ _ _ _ H) as [fl ->].
  remember (S fl) as fl1. cbn [exec] in H. set (p := length (log s)) in *. set (s0 := emit _ _) in H.
  destruct (exec fl1 (TPass p n (hd_error (obs s n)) v) s0) as [s1| | |] eqn:H1; try discriminate.
  cbn [andthen] in H. subst fl1. injection H as <-.
  assert (S0 : same s s0) by repeat split.
  destruct (pass_silent _ _ _ _ _ _ _ [] (obs s n) (same_inv _ _ S0 I) (same_quiet _ _ S0 Q) H1) as [_ L]; auto.
  cbn [log emit]. rewrite L. exists (EPassed p :: pass_events p v (map (fun r => (r, ids s0 r)) (obs s n)) ++ [EPass p (attached s n)]).
  split; [cbn; rewrite <- app_assoc; auto|].
  change (EPassed p :: pass_events p v (map (fun r => (r, ids s0 r)) (obs s n)) ++ [EPass p (attached s n)])
    with ([EPassed p] ++ pass_events p v (attached s n) ++ [EPass p (attached s n)]).
  rewrite !calls_app, calls_pass. apply app_nil_r.
Qed.

Theorem exactly_the_followers : forall fuel fuel' prog val n v (s s' : st),
  silent prog -> exec fuel (TOps prog) (init val) = Done s -> exec fuel' (TOps [Notify n v]) s = Done s' ->
  exists new, log s' = new ++ log s /\ NoDup (map fst (calls new)) /\
    forall c u, In (c, u) (calls new) <->
      u = v /\ exists r o, at_ (objects prog) r = Some o /\ follows o = Some n /\ In c (has o).
Proof.
  intros fuel fuel' prog val n v s s' Si H H'.
  assert (M0 : matches [] 0 (init val : st)).
  { split; [auto|split; auto]. intros r. unfold at_, get. cbn. destruct r; cbn; auto. }
  assert (Q0 : quiet (init val : st)).
  { intros r o G. unfold get in G. cbn in G. destruct r; discriminate. }
  destruct (run_matches _ _ _ _ _ _ Si Q0 (inv_init val) M0 H) as [Q M]. cbv zeta in M.
  change (fst (fold_left (fun wk x => object_step x wk) prog ([], 0))) with (objects prog) in M.
  assert (I : inv s) by (apply reach_inv; do 3 eexists; eauto).
  destruct (notify_silent _ _ _ _ _ I Q H') as (new & L & C).
  exists new. rewrite C. split; [auto|]. split.
  - rewrite map_map. cbn. rewrite map_id. unfold attached. rewrite flat_map_concat_map, map_map, <- flat_map_concat_map.
    cbn [snd]. pose proof (i_nodup _ I n) as N. induction (obs s n) as [|r l IH]; cbn; [constructor|].
    inversion_clear N. apply nodup_app; auto; [apply (i_ids _ I)|].
    intros c Hc Hl. apply in_flat_map in Hl as (q & Hq & Hc'). pose proof (i_own _ I _ _ _ Hc Hc'). subst. contradiction.
  - intros c u. destruct M as (_ & _ & M). rewrite in_map_iff. split.
    + intros (x & E & Hx). injection E as -> <-. split; auto. apply in_flat_map in Hx as ((r, l) & Hr & Hc).
      unfold attached in Hr. apply in_map_iff in Hr as (q & E & Hq). injection E as -> <-. cbn in Hc.
      specialize (M r). unfold ids in Hc. destruct (get r s) as [o'|]; [|contradiction].
      destruct (at_ (objects prog) r) as [o|] eqn:Ao; [|contradiction]. destruct M as (_ & Mh & Mf).
      exists r, o. rewrite Mh, Mf. auto.
    + intros (-> & r & o & Ao & Fo & Ho). exists c. split; auto. apply in_flat_map. exists (r, ids s r).
      specialize (M r). rewrite Ao in M. destruct (get r s) as [o'|] eqn:G; [|contradiction].
      destruct M as (_ & Mh & Mf). split.
      * unfold attached. apply in_map_iff. exists r. split; auto. now apply Mf.
      * cbn. rewrite (ids_get _ _ _ G), <- Mh. auto.
Qed.

(** Such a change always runs to its end. *)
Lemma slots_runs : forall p r v rem s pre fuel, inv s -> quiet s -> ids s r = pre ++ rem ->
  (exists o, get r s = Some o) -> length rem + 2 <= fuel ->
  exists s', exec fuel (TSlots p r (hd_error rem) v) s = Done s'.
Proof.
  induction rem as [|c post IH]; intros s pre fuel I Q Ei [o G] L; cbn [length] in L.
  - destruct fuel; [lia|]. cbn. eauto.
  - destruct fuel as [|[|fl]]; try lia. remember (S fl) as fl1. cbn [exec hd_error]. rewrite G.
    assert (Hc : In c (map fst (cbs o))).
    { rewrite <- (ids_get _ _ _ G), Ei. apply in_or_app. right. now left. }
    destruct (found c (cbs o) Hc) as [f Ef]. rewrite Ef, (quiet_find _ _ _ _ _ Q G Ef).
    assert (X : exec fl1 (TOps []) (emit (ECall p c v) s) = Done (emit (ECall p c v) s)) by (subst; auto).
    rewrite X. cbn [andthen]. change (get r (emit (ECall p c v) s)) with (get r s). rewrite G.
    assert (Ea : after c (map fst (cbs o)) = Some (hd_error post)).
    { rewrite <- (ids_get _ _ _ G), Ei. pose proof (i_ids _ I r) as Nd. rewrite Ei in Nd.
      apply nodup_mid in Nd as [Nd _]. clear - Nd. induction pre as [|y pre IHp]; cbn.
      - now rewrite Nat.eqb_refl.
      - destruct (y =? c) eqn:E; [apply Nat.eqb_eq in E; subst; contradiction Nd; now left|].
        apply IHp. intros C. apply Nd. now right. }
    rewrite Ea. apply (IH _ (pre ++ [c])).
    + now apply emit_inv.
    + eapply same_quiet; [apply same_emit|]; auto.
    + change (ids (emit (ECall p c v) s) r) with (ids s r). rewrite Ei, <- app_assoc. auto.
    + eauto.
    + lia.
Qed.
Lemma reader_runs : forall p r v s fuel, inv s -> quiet s -> (exists o, get r s = Some o) ->
  length (ids s r) + 3 <= fuel -> exists s', exec fuel (TReader p r v) s = Done s'.
Proof.
  intros p r v s [|fl] I Q [o G] L; [lia|]. cbn [exec].
  change (get r (emit (EBegin p r) s)) with (get r s). rewrite G, <- (ids_get _ _ _ G).
  apply (slots_runs p r v (ids s r) (emit (EBegin p r) s) []); auto.
  - now apply emit_inv.
  - exists o. auto.
  - lia.
Qed.
Lemma pass_runs : forall p n v rem s pre fuel, inv s -> quiet s -> obs s n = pre ++ rem ->
  length (flat_map (ids s) rem) + length rem + 4 <= fuel ->
  exists s', exec fuel (TPass p n (hd_error rem) v) s = Done s'.
Proof.
  induction rem as [|r rest IH]; intros s pre fuel I Q Eo L; cbn [flat_map length] in L.
  - destruct fuel; [lia|]. cbn. eauto.
  - rewrite app_length in L. destruct fuel as [|fl]; [lia|]. cbn [exec hd_error].
    destruct (i_alive _ I n r) as (o & G & _); [rewrite Eo; apply in_or_app; right; now left|].
    destruct (reader_runs p r v s fl I Q) as [s1 E1]; eauto; [lia|]. rewrite E1. cbn [andthen].
    destruct (reader_silent _ _ _ _ _ _ I Q E1) as [S1 _].
    assert (Eo1 : obs s1 n = obs s n) by (destruct S1 as (_ & -> & _); auto).
    assert (Ea : after r (obs s1 n) = Some (hd_error rest)).
    { rewrite Eo1, Eo. pose proof (i_nodup _ I n) as Nd. rewrite Eo in Nd.
      apply nodup_mid in Nd as [Nd _]. clear - Nd. induction pre as [|y pre IHp]; cbn.
      - now rewrite Nat.eqb_refl.
      - destruct (y =? r) eqn:E; [apply Nat.eqb_eq in E; subst; contradiction Nd; now left|].
        apply IHp. intros C. apply Nd. now right. }
    rewrite Ea. assert (S2 : same s (emit (EEnd p r) s1)) by (eapply same_trans; [exact S1|apply same_emit]).
    apply (IH _ (pre ++ [r])).
    + eapply same_inv; eauto.
    + eapply same_quiet; eauto.
    + change (obs (emit (EEnd p r) s1) n) with (obs s1 n). rewrite Eo1, Eo, <- app_assoc. auto.
    + rewrite (flat_map_ext _ (ids s)); [lia|]. intros q. apply (same_ids _ _ _ S2).
Qed.
Theorem notify_runs : forall fuel prog val n v (s : st), silent prog -> exec fuel (TOps prog) (init val) = Done s ->
  exists fuel' s', exec fuel' (TOps [Notify n v]) s = Done s'.
Proof.
  intros fuel prog val n v s Si H.
  assert (M0 : matches [] 0 (init val : st)).
  { split; [auto|split; auto]. intros r. unfold at_, get. cbn. destruct r; cbn; auto. }
  assert (Q0 : quiet (init val : st)).
  { intros r o G. unfold get in G. cbn in G. destruct r; discriminate. }
  destruct (run_matches _ _ _ _ _ _ Si Q0 (inv_init val) M0 H) as [Q _].
  assert (I : inv s) by (apply reach_inv; do 3 eexists; eauto).
  set (s0 := emit (EPass (length (log s)) (attached s n)) (set_value n v s)).
  assert (S0 : same s s0) by repeat split.
  set (N := length (flat_map (ids s) (obs s n)) + length (obs s n) + 4).
  destruct (pass_runs (length (log s)) n v (obs s n) s0 [] (S N)) as [s1 E1]; auto.
  - eapply same_inv; eauto.
  - exists (S (S N)), (emit (EPassed (length (log s))) s1).
    change (exec (S (S N)) (TOps [Notify n v]) s) with
      (andthen (exec (S N) (TPass (length (log s)) n (hd_error (obs s n)) v) s0)
         (fun s1 => exec (S N) (TOps []) (emit (EPassed (length (log s))) s1))).
    rewrite E1. reflexivity.
Qed.
End Silent.
