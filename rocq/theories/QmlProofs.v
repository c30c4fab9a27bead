(** Proofs about the QML event loop. *)
From Coq Require Import List Arith Bool Lia.
From Verif Require Import LoopModel LoopSpec LoopProofs QmlModel QmlSpec.
Import ListNotations.

(** ** [step()] exists *)
Lemma no_such : forall (J W : Type) (code : J -> prog J W) fuel t s, exec code false fuel t s <> NoSuch.
Proof.
  intros J W code. induction fuel as [|f IH]; intros t s; [discriminate|]. cbn [exec].
  assert (A : forall t s k, (forall x, k x <> NoSuch) -> andthen (exec code false f t s) k <> NoSuch).
  { intros t0 s0 k HK. specialize (IH t0 s0). destruct (exec code false f t0 s0); cbn [andthen]; auto; discriminate. }
  destruct t as [[| |j k|k|k|w k|p k]|j| |i]; try discriminate; auto.
  - pose proof (IH (TProg p) s). destruct (exec code false f (TProg p) s); auto; discriminate.
  - destruct (idx s <? length (q s)); [|discriminate].
    destruct (nth_error (q s) (idx s)) as [[id [j|]]|]; try discriminate.
    match goal with |- context [exec code false f (TProg (code j)) ?x] => pose proof (IH (TProg (code j)) x);
      destruct (exec code false f (TProg (code j)) x); auto; discriminate end.
  - destruct (i <? length (q s)); [|discriminate].
    destruct (nth_error (q s) i) as [[id [j|]]|]; try discriminate.
    match goal with |- context [exec code false f (TProg (code j)) ?x] => pose proof (IH (TProg (code j)) x);
      destruct (exec code false f (TProg (code j)) x); auto; discriminate end.
Qed.

(** ** Entries of the queue are never changed *)
Section Keep.
Variables (J W : Type) (code : J -> prog J W).

Definition kept (s s' : st J W) : Prop :=
  next s <= next s' /\ forall id j, In (id, Some j) (q s') -> id < next s -> In (id, Some j) (q s).
Lemma kept_refl : forall s, kept s s.
Proof. split; auto. Qed.
Lemma kept_trans : forall a b c, kept a b -> kept b c -> kept a c.
Proof. intros a b c [A B] [C D]. split; [lia|]. intros id j HI HL. apply B; auto. apply D; auto. lia. Qed.
Lemma in_move_out : forall id j (l : queue J) i, In (id, Some j) (move_out i l) -> In (id, Some j) l.
Proof.
  induction l as [|[x y] l IH]; intros [|i] H; simpl in *; auto.
  - destruct H as [H|H]; auto. discriminate.
  - destruct H as [H|H]; auto. right. eapply IH; eauto.
Qed.
Lemma in_erase : forall (e : nat * option J) i l, In e (erase i l) -> In e l.
Proof.
  intros e i l H. unfold erase in H. rewrite <- (firstn_skipn i l). apply in_or_app. auto.
Qed.
Lemma kept_exec : forall fuel t s,
  match exec code false fuel t s with Done s' | Thrown s' => kept s s' | _ => True end.
Proof.
  induction fuel as [|f IH]; intros t s; [exact I|]. cbn [exec].
  destruct t as [[| |j k|k|k|w k|p k]|j| |i].
  - apply kept_refl.
  - apply kept_refl.
  - pose proof (IH (TPost j) s) as A. destruct (exec code false f (TPost j) s) as [a|a| | |]; cbn [andthen]; auto.
    pose proof (IH (TProg k) a) as B. destruct (exec code false f (TProg k) a); auto; eapply kept_trans; eauto.
  - pose proof (IH (TStep 0) s) as A. destruct (exec code false f (TStep 0) s) as [a|a| | |]; cbn [andthen]; auto.
    assert (A' : kept s (St [] (idx a) (next a) (world a) (log a))).
    { split; [apply A|]. intros id j []. }
    pose proof (IH (TProg k) (St [] (idx a) (next a) (world a) (log a))) as B.
    destruct (exec code false f (TProg k) _); auto; eapply kept_trans; eauto.
  - apply IH.
  - apply (IH (TProg k) (St (q s) (idx s) (next s) w (log s))).
  - pose proof (IH (TProg p) s) as A. destruct (exec code false f (TProg p) s) as [a|a| | |]; auto.
    + pose proof (IH (TProg (k true)) a) as B. destruct (exec code false f (TProg (k true)) a); auto; eapply kept_trans; eauto.
    + pose proof (IH (TProg (k false)) a) as B. destruct (exec code false f (TProg (k false)) a); auto; eapply kept_trans; eauto.
  - split; [simpl; lia|]. simpl. unfold push. intros id j' H HL. apply in_app_iff in H. destruct H as [H|[H|[]]]; auto.
    injection H as <- _. lia.
  - destruct (idx s <? length (q s)); [|apply kept_refl].
    destruct (nth_error (q s) (idx s)) as [[id [j|]]|]; auto.
    match goal with |- context [exec code false f (TProg (code j)) ?x] => set (s1 := x) end.
    assert (K : kept s s1). { split; [simpl; lia|]. intros id' j' H _. eapply in_move_out, H. }
    pose proof (IH (TProg (code j)) s1) as A. destruct (exec code false f (TProg (code j)) s1) as [a|a| | |]; auto.
    + pose proof (IH TLoop (emit (EEnd id) a)) as B. destruct (exec code false f TLoop _); auto;
        (eapply kept_trans; [exact K|]; eapply kept_trans; [exact A|]; exact B).
    + eapply kept_trans; [exact K|exact A].
  - destruct (i <? length (q s)); [|apply kept_refl].
    destruct (nth_error (q s) i) as [[id [j|]]|]; auto.
    match goal with |- context [exec code false f (TProg (code j)) ?x] => set (s1 := x) end.
    assert (K : kept s s1). { split; [simpl; lia|]. intros id' j' H _. eapply in_move_out, H. }
    pose proof (IH (TProg (code j)) s1) as A. destruct (exec code false f (TProg (code j)) s1) as [a|a| | |]; auto.
    + pose proof (IH (TStep (S i)) (emit (EEnd id) a)) as B. destruct (exec code false f (TStep (S i)) _); auto;
        (eapply kept_trans; [exact K|]; eapply kept_trans; [exact A|]; exact B).
    + eapply kept_trans; [exact K|]. eapply kept_trans; [exact A|]. split; [simpl; lia|].
      intros id' j' H _. eapply in_erase, H.
Qed.
End Keep.

Section Proofs.
Variables (J W : Type) (code : J -> prog J W) (contents : bool).
Hypothesis HN : forall j, no_step (code j).
Notation qst := (qst J W).
Notation act := (act code contents).
Notation Calm := (Calm J W).

Lemma calm_in : forall l : st J W, Calm l -> forall e, In e (q l) ->
  exists id j, e = (id, Some j) /\ id < next l.
Proof.
  intros l C [id o] HI. pose proof (calm_ran J W l C) as R. destruct C as [[A _ (a & b & E & L & M & P) _] _ _].
  destruct a; [|discriminate]. simpl in E. subst b.
  unfold present in P. rewrite Forall_forall in P. specialize (P _ HI). simpl in P.
  destruct o as [j|]; [|now destruct P]. exists id, j. split; auto.
  assert (X : In id (posted (log l))). { rewrite <- R. apply in_or_app. right. apply (in_map fst) in HI. exact HI. }
  rewrite A in X. apply in_seq in X. lia.
Qed.

(** Code of the thread: what it did to the queue. *)
Definition thread (p : prog J W) (l l' : st J W) (ok : bool) : Prop :=
  exists fuel, exec code false fuel (TProg p) l = if ok then Done l' else Thrown l'.
Lemma thread_calm : forall p l l' ok, thread p l l' ok -> Calm l -> Calm l'.
Proof.
  intros p l l' ok (fuel & E) C. pose proof (prog_calm J W code false HN fuel p l C) as H.
  rewrite E in H. destruct ok; exact H.
Qed.
Lemma thread_kept : forall p l l' ok, thread p l l' ok -> kept J W l l'.
Proof.
  intros p l l' ok (fuel & E). pose proof (kept_exec J W code fuel (TProg p) l) as H.
  rewrite E in H. destruct ok; exact H.
Qed.
Definition after (l' : st J W) (s : qst) : qst :=
  Q l' (inbox s) (pend s || (next (loop s) <? next l')) (polished s) (timer s) (dirty s) (sent s) (hist s).
Lemma on_thread_done : forall fuel p s k s', on_thread code fuel p s k = QDone s' ->
  exists l' ok, thread p (loop s) l' ok /\ s' = k (after l' s) ok.
Proof.
  unfold on_thread. intros fuel p s k s' H.
  destruct (exec code false fuel (TProg p) (loop s)) as [l|l| | |] eqn:E; try discriminate.
  - injection H as <-. exists l, true. split; [now exists fuel|reflexivity].
  - injection H as <-. exists l, false. split; [now exists fuel|reflexivity].
Qed.

(** The cases of one action. *)
Lemma act_cases : forall fuel a s s', act fuel a s = QDone s' ->
  (exists l ok p, (a = Code p \/ a = Timeout /\ timer s = true /\ p = step_prog) /\
     thread p (loop s) l ok /\ s' = after l s) \/
  (exists j, a = Remote j /\ s' =
     Q (loop s) (inbox s ++ [MPost (sent s) j]) (pend s) (polished s) (timer s)
       (dirty s) (S (sent s)) (QSent (sent s) j :: hist s)) \/
  (exists r j rest, a = Deliver /\ inbox s = MPost r j :: rest /\ s' =
     Q (do_push j (loop s)) rest true (polished s) (timer s) (dirty s) (sent s)
       (QEnter r (next (loop s)) :: hist s)) \/
  (exists rest, a = Deliver /\ inbox s = MPolish :: rest /\ s' =
     Q (loop s) rest true (polished s) (timer s) (dirty s) (sent s) (hist s)) \/
  (a = Polish /\ pend s = true /\ polished s = true /\ s' =
     Q (loop s) (inbox s ++ [MPolish]) false true (timer s) (dirty s) (sent s) (hist s)) \/
  (exists l, a = Polish /\ pend s = true /\ polished s = false /\ thread step_prog (loop s) l true /\ s' =
     Q l (inbox s ++ [MPolish]) (next (loop s) <? next l) true true (dirty s || contents) (sent s)
       (QPolishStep :: hist s)) \/
  (exists l, a = Polish /\ pend s = true /\ polished s = false /\ thread step_prog (loop s) l false /\ s' =
     Q l (inbox s) (next (loop s) <? next l) true true (dirty s) (sent s)
       (QPolishFail :: QPolishStep :: hist s)) \/
  (a = Paint /\ contents = true /\ s' =
     Q (loop s) (inbox s) (pend s) false (timer s) false (sent s) (QPaint :: hist s)).
Proof.
  intros fuel a s s' H. destruct a as [p|j| | | |]; cbn [QmlModel.act] in H.
  - apply on_thread_done in H. destruct H as (l & ok & T & E). left. exists l, ok, p. auto.
  - injection H as <-. right; left. eauto.
  - destruct (inbox s) as [|[r j|] rest] eqn:E; [discriminate| |]; injection H as <-.
    + do 2 right; left. eauto 10.
    + do 3 right; left. eauto.
  - destruct (pend s) eqn:P; [|discriminate]. destruct (polished s) eqn:D.
    + injection H as <-. do 4 right; left. auto.
    + apply on_thread_done in H. destruct H as (l & ok & T & E). destruct ok.
      * do 5 right; left. exists l. repeat split; auto.
      * do 6 right; left. exists l. repeat split; auto.
  - destruct contents; [|discriminate]. injection H as <-. do 7 right. auto.
  - destruct (timer s) eqn:E; [|discriminate]. apply on_thread_done in H.
    destruct H as (l & ok & T & E'). left. exists l, ok, step_prog. auto 6.
Qed.

Lemma act_moved : forall fuel a s, Calm (loop s) -> act fuel a s <> QMoved.
Proof.
  assert (T : forall fuel p s k, Calm (loop s) -> on_thread code fuel p s k <> QMoved).
  { intros fuel p s k C. unfold on_thread. pose proof (prog_calm J W code false HN fuel p _ C) as H.
    destruct (exec code false fuel (TProg p) (loop s)); try discriminate. destruct H. }
  intros fuel a s C. destruct a; cbn [QmlModel.act]; auto; try discriminate.
  - destruct (inbox s) as [|[]]; discriminate.
  - destruct (pend s); [|discriminate]. destruct (polished s); [discriminate|]. now apply T.
  - destruct contents; discriminate.
  - destruct (timer s); [|discriminate]. now apply T.
Qed.

Record QInv (s : qst) : Prop := {
  i_calm : Calm (loop s);
  i_sent : map fst (sent_by (hist s)) = seq 0 (sent s);
  i_way : map fst (entered (hist s)) ++ on_way (inbox s) = seq 0 (sent s);
  i_ids : Forall (fun e => snd e < next (loop s)) (entered (hist s));
  i_nodup : NoDup (map snd (entered (hist s)));
  i_msg : forall r j, In (MPost r j) (inbox s) -> In (r, j) (sent_by (hist s));
  i_in : forall r id j, In (r, id) (entered (hist s)) -> In (id, Some j) (q (loop s)) ->
    In (r, j) (sent_by (hist s));
  i_timer : polished s = true -> timer s = true;
  i_wait : q (loop s) <> [] -> timer s = true \/ pend s = true /\ polished s = false;
  i_rate : forall newer older, hist s = newer ++ older -> since_paint older <= 1;
  i_fresh : polished s = false -> since_paint (hist s) = 0;
  i_bare : contents = false -> polish_steps (hist s) = if polished s then 1 else 0;
  i_chain : In QPolishFail (hist s) \/
    (next (loop s) > 0 -> pend s = true \/ In MPolish (inbox s)) /\
    (polished s = true -> contents = true -> dirty s = true) }.

Lemma qinit_QInv : forall w, QInv (qinit w).
Proof.
  intros w. split; simpl; auto; try contradiction; try discriminate.
  - apply init_Calm.
  - constructor.
  - intros newer older E. destruct newer, older; try discriminate. simpl. lia.
  - right. split; [lia|discriminate].
Qed.

Lemma on_way_app : forall a b : list (msg J), on_way (a ++ b) = on_way a ++ on_way b.
Proof. intros. unfold on_way. apply flat_map_app. Qed.

Lemma seq_snoc : forall n, seq 0 n ++ [n] = 0 :: seq 1 n.
Proof. intros n. symmetry. exact (seq_S n 0). Qed.
Lemma NoDup_snoc : forall (l : list nat) x, NoDup l -> ~ In x l -> NoDup (l ++ [x]).
Proof.
  intros l x H N. apply NoDup_rev in H. rewrite <- (rev_involutive (l ++ [x])). apply NoDup_rev.
  rewrite rev_app_distr. simpl. constructor; auto. now rewrite <- in_rev.
Qed.
Lemma suffix_cons : forall (e : qev J) l (P : list (qev J) -> Prop), P (e :: l) ->
  (forall newer older, l = newer ++ older -> P older) ->
  forall newer older, e :: l = newer ++ older -> P older.
Proof.
  intros e l P H1 H2 [|x newer] older E; simpl in E; [now subst|]. injection E as _ E. eauto.
Qed.

(** What changes when the thread of the item ran something. *)
Lemma thread_facts : forall p s l ok, QInv s -> thread p (loop s) l ok ->
  Calm l /\ next (loop s) <= next l /\
  Forall (fun e => snd e < next l) (entered (hist s)) /\
  (forall r id j, In (r, id) (entered (hist s)) -> In (id, Some j) (q l) -> In (r, j) (sent_by (hist s))) /\
  (q l <> [] -> next (loop s) < next l \/ q (loop s) <> []).
Proof.
  intros p s l ok [] T. pose proof (thread_calm _ _ _ _ T i_calm0) as C.
  pose proof (thread_kept _ _ _ _ T) as [K1 K2]. split; auto. split; auto. split; [|split].
  - eapply Forall_impl; [|exact i_ids0]. simpl. lia.
  - intros r id j H1 H2. eapply i_in0; eauto. apply K2; auto.
    rewrite Forall_forall in i_ids0. apply (i_ids0 _ H1).
  - intros HQ. destruct (q l) as [|e t] eqn:E; [easy|].
    destruct (calm_in l C e) as (id & j & -> & L). { rewrite E. now left. }
    destruct (Nat.lt_ge_cases id (next (loop s))) as [X|X]; [|left; lia].
    right. intros E'. assert (Y : In (id, Some j) (q (loop s))) by (apply K2; [left; auto|auto]).
    rewrite E' in Y. destruct Y.
Qed.

Lemma act_QInv : forall fuel a s s', act fuel a s = QDone s' -> QInv s -> QInv s'.
Proof.
  intros fuel a s s' H HI. pose proof HI as I0.
  destruct (act_cases _ _ _ _ H) as
    [(l & ok & p & HA & T & ->)|[(j & -> & ->)|[(r & j & rest & -> & E & ->)|[(rest & -> & E & ->)|
     [(-> & EP & ED & ->)|[(l & -> & EP & ED & T & ->)|[(l & -> & EP & ED & T & ->)|(-> & EC & ->)]]]]]]].
  - destruct (thread_facts _ _ _ _ HI T) as (C & HL & F & G & HQ). destruct HI.
    split; simpl; auto.
    + intros HW. destruct (HQ HW) as [X|X].
      * apply Nat.ltb_lt in X. rewrite X, orb_true_r. destruct (polished s); auto.
      * destruct (i_wait0 X) as [Y|[Y Z]]; auto. rewrite Y. auto.
    + destruct i_chain0 as [X|[X Y]]; auto. right. split; auto. intros HP.
      destruct (Nat.ltb_spec (next (loop s)) (next l)) as [Z|Z]; [left; apply orb_true_r|].
      destruct X as [X|X]; [lia| |]; auto. rewrite X. auto.
  - destruct HI. split; simpl; auto.
    + rewrite map_app, i_sent0. apply seq_snoc.
    + rewrite on_way_app, app_assoc, i_way0. apply seq_snoc.
    + intros r j' HI. apply in_app_iff in HI. apply in_or_app. destruct HI as [HI|[HI|[]]].
      * left; auto.
      * injection HI as <- <-. right; now left.
    + intros r id j' A B. apply in_or_app. left. eauto.
    + apply (suffix_cons _ _ (fun l => since_paint l <= 1)); auto. apply (i_rate0 [] (hist s)); auto.
    + destruct i_chain0 as [X|[X Y]]; [auto|]. right. split; auto. intros HP.
      destruct (X HP); auto. right. apply in_or_app. auto.
  - destruct HI. split; simpl; auto.
    + now apply push_Calm.
    + rewrite map_app, <- app_assoc. simpl. rewrite E in i_way0. exact i_way0.
    + apply Forall_app. split; [|repeat constructor; simpl; lia].
      eapply Forall_impl; [|exact i_ids0]. simpl. lia.
    + rewrite map_app. simpl. apply NoDup_snoc; auto. intros HI.
      apply in_map_iff in HI. destruct HI as ([x y] & EQ & HI). rewrite Forall_forall in i_ids0.
      specialize (i_ids0 _ HI). simpl in i_ids0. simpl in EQ. lia.
    + intros r' j' HI. apply i_msg0. rewrite E. now right.
    + intros r' id j' A B. unfold push in B. apply in_app_iff in A. apply in_app_iff in B.
      destruct B as [B|[B|[]]].
      * destruct A as [A|[A|[]]]; [eauto|]. injection A as <- <-.
        destruct (calm_in _ i_calm0 _ B) as (id & j'' & X & L). injection X as <- _. lia.
      * injection B as <- <-. destruct A as [A|[A|[]]].
        -- rewrite Forall_forall in i_ids0. specialize (i_ids0 _ A). simpl in i_ids0. lia.
        -- injection A as <-. apply i_msg0. rewrite E. now left.
    + intros _. destruct (polished s); auto.
    + apply (suffix_cons _ _ (fun l => since_paint l <= 1)); auto. apply (i_rate0 [] (hist s)); auto.
    + destruct i_chain0 as [X|[X Y]]; auto.
  - destruct HI. split; simpl; auto.
    + rewrite E in i_way0. exact i_way0.
    + intros r' j' HI. apply i_msg0. rewrite E. now right.
    + intros HW. destruct (i_wait0 HW) as [X|[_ X]]; auto.
    + destruct i_chain0 as [X|[X Y]]; auto.
  - destruct HI. rewrite ED in *. split; simpl; auto; try discriminate.
    + rewrite on_way_app, app_nil_r. exact i_way0.
    + intros r' j' HI. apply in_app_iff in HI. destruct HI as [HI|[HI|[]]]; [auto|discriminate].
    + destruct i_chain0 as [X|[X Y]]; auto. right. split; auto. intros _. right. apply in_or_app.
      right; now left.
  - destruct (thread_facts _ _ _ _ HI T) as (C & HL & F & G & HQ). destruct HI. rewrite ED in *.
    split; simpl; auto; try discriminate.
    + rewrite on_way_app, app_nil_r. exact i_way0.
    + intros r' j' HI. apply in_app_iff in HI. destruct HI as [HI|[HI|[]]]; [auto|discriminate].
    + apply (suffix_cons _ _ (fun l => since_paint l <= 1)); auto. simpl. rewrite i_fresh0; auto.
    + destruct i_chain0 as [X|[X Y]]; auto. right. split.
      * intros _. right. apply in_or_app. right; now left.
      * intros _ ->. apply orb_true_r.
  - destruct (thread_facts _ _ _ _ HI T) as (C & HL & F & G & HQ). destruct HI. rewrite ED in *.
    split; simpl; auto; try discriminate.
    + apply (suffix_cons _ _ (fun l => since_paint l <= 1)); [simpl; rewrite i_fresh0; auto|].
      apply (suffix_cons _ _ (fun l => since_paint l <= 1)); auto. simpl. rewrite i_fresh0; auto.
  - destruct HI. split; simpl; auto; try discriminate.
    + intros HW. destruct (i_wait0 HW) as [X|[X _]]; auto.
    + apply (suffix_cons _ _ (fun l => since_paint l <= 1)); auto.
    + congruence.
    + destruct i_chain0 as [X|[X Y]]; auto.
Qed.

Lemma reach_QInv : forall w s, reach code contents w s -> QInv s.
Proof.
  intros w s H. induction H; [apply qinit_QInv|]. eapply act_QInv; eauto.
Qed.
(** ** The statements *)
Lemma order : forall w s, reach code contents w s ->
  (forall fuel a, act fuel a s <> QMoved) /\
  let l := loop s in
  posted (log l) = seq 0 (next l) /\
  ran (log l) ++ map fst (q l) = posted (log l) /\
  (forall newer older, log l = newer ++ older ->
     running older <> None /\ exists rest, ran older ++ rest = posted older) /\
  running (log l) = Some None.
Proof.
  intros w s H. pose proof (i_calm _ (reach_QInv w s H)) as C. split; [intros; now apply act_moved|].
  cbv zeta. pose proof (calm_ran J W _ C) as HR. destruct C as [[A B S0 O] _ R].
  split; auto. split; auto. split; auto. intros l1 l2 E. split; [|eapply O; eauto].
  apply (running_ok l1). rewrite <- E, R. discriminate.
Qed.

Lemma remote : forall w s, reach code contents w s ->
  map fst (sent_by (hist s)) = seq 0 (sent s) /\
  map fst (entered (hist s)) ++ on_way (inbox s) = map fst (sent_by (hist s)) /\
  NoDup (map snd (entered (hist s))) /\
  (forall r id, In (r, id) (entered (hist s)) -> In id (posted (log (loop s)))) /\
  (forall r id j, In (r, id) (entered (hist s)) -> In (id, Some j) (q (loop s)) ->
     In (r, j) (sent_by (hist s))).
Proof.
  intros w s H. destruct (reach_QInv w s H). split; auto. split; [congruence|]. split; auto.
  split; auto. intros r id HI. rewrite Forall_forall in i_ids0. specialize (i_ids0 _ HI).
  simpl in i_ids0. destruct i_calm0 as [[A _ _ _] _ _]. rewrite A. apply in_seq. lia.
Qed.

Lemma step_shape : forall fuel (s : qst) k, Calm (loop s) ->
  (forall x b, loop (k x b) = loop x) -> drains (on_thread code fuel step_prog s k) s.
Proof.
  intros fuel s k C HK. unfold on_thread.
  pose proof (step_calm J W code false HN eq_refl fuel (loop s) C) as H. fold (@step_prog J W) in H.
  destruct (exec code false fuel (TProg step_prog) (loop s)) as [l|l| | |] eqn:E; simpl; auto.
  - rewrite HK. simpl. destruct H as (C' & Q & F). left. split; auto. split; auto. now apply calm_drained.
  - rewrite HK. simpl. destruct H as (C' & id & l' & El & F). right. exists id. rewrite El. simpl. now rewrite F.
  - now destruct (no_such J W code fuel (TProg step_prog) (loop s)).
Qed.

Lemma runs : forall w s, reach code contents w s ->
  (q (loop s) <> [] -> timer s = true \/ pend s = true /\ polished s = false) /\
  (timer s = true -> forall fuel, drains (act fuel Timeout s) s) /\
  (pend s = true -> polished s = false -> forall fuel, drains (act fuel Polish s) s).
Proof.
  intros w s H. destruct (reach_QInv w s H). split; auto. split.
  - intros E fuel. cbn [QmlModel.act]. rewrite E. now apply step_shape.
  - intros E1 E2 fuel. cbn [QmlModel.act]. rewrite E1, E2.
    match goal with |- drains (on_thread code fuel step_prog ?x ?k) s =>
      apply (step_shape fuel x k); [exact i_calm0|intros y []; reflexivity] end.
Qed.

Lemma pace : forall w s, reach code contents w s ->
  (forall newer older, hist s = newer ++ older -> since_paint older <= 1) /\
  (contents = false -> polish_steps (hist s) <= 1).
Proof.
  intros w s H. destruct (reach_QInv w s H). split; auto. intros E. rewrite (i_bare0 E).
  destruct (polished s); auto.
Qed.

Lemma chain : forall w s, reach code contents w s -> ~ In QPolishFail (hist s) ->
  (next (loop s) > 0 -> pend s = true \/ In MPolish (inbox s)) /\
  (polished s = true -> contents = true -> dirty s = true).
Proof. intros w s H N. destruct (reach_QInv w s H). destruct i_chain0; auto. Qed.

Lemma hidden : forall w s s', reach code contents w s -> timer s = false ->
  later code contents unpolished s s' -> ran (log (loop s')) = ran (log (loop s)) /\ timer s' = false.
Proof.
  intros w s s' _ HT H. induction H as [|s1 a fuel s2 _ [IH1 IH2] HU HA]; auto.
  destruct (act_cases _ _ _ _ HA) as
    [(l & ok & p & [->|(_ & T' & _)] & T & ->)|[(j & -> & ->)|[(r & j & rest & -> & E & ->)|[(rest & -> & E & ->)|
     [(-> & EP & ED & ->)|[(l & -> & EP & ED & T & ->)|[(l & -> & EP & ED & T & ->)|(-> & EC & ->)]]]]]]];
    simpl; auto; try now destruct HU.
  - split; auto. destruct T as (f & T). pose proof (body_posts J W code false f p (loop s1) HU) as B.
    rewrite T in B. assert (P : posts J W (loop s1) l) by (destruct ok; exact B).
    rewrite <- IH1. clear - P. induction P; auto.
  - congruence.
Qed.
End Proofs.
