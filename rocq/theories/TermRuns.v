(** What the invariant says about runs. *)
From Coq Require Import List Arith Bool ZArith Lia.
Import ListNotations.
From Verif Require Import TermModel TermSpec TermProofs.
Local Open Scope Z_scope.

Lemma run_inv ls : forall ls0 s s', inv ls0 s -> run ls s = Next s' -> inv (ls0 ++ ls) s'.
Proof.
  induction ls as [|l r IH]; intros ls0 s s' I E; cbn in E.
  - injection E as <-. rewrite app_nil_r. exact I.
  - destruct (step s l) as [s1| |] eqn:E1; try discriminate.
    change (l :: r) with ([l] ++ r). rewrite app_assoc.
    exact (IH _ _ _ (step_inv _ _ _ _ I E1) E).
Qed.

Lemma reached_inv ls s : run ls start = Next s -> inv ls s.
Proof. exact (run_inv ls [] start s start_inv). Qed.

Lemma run_app a : forall b s, run (a ++ b) s =
  match run a s with Next s' => run b s' | x => x end.
Proof.
  induction a as [|l r IH]; intros b s; cbn; [reflexivity|].
  destruct (step s l); [apply IH|reflexivity|reflexivity].
Qed.

Lemma run_fails ls : forall s s', run ls s = Fails s' ->
  exists a l b s1, ls = a ++ l :: b /\ run a s = Next s1 /\ step s1 l = Fails s'.
Proof.
  induction ls as [|l r IH]; intros s s' E; cbn in E; [discriminate|].
  destruct (step s l) as [s1|s1|] eqn:E1; try discriminate.
  - destruct (IH _ _ E) as (a & l' & b & s2 & -> & R & F).
    exists (l :: a), l', b, s2. split; [reflexivity|]. split; [|exact F]. cbn. rewrite E1. exact R.
  - injection E as <-. exists [], l, r, s. auto.
Qed.

Lemma step_fails s l s' : step s l = Fails s' ->
  handler s = false /\ handed s' = handed s /\
  ((exists k, typed s = k :: typed s') \/ In (JResize true) (ready s)).
Proof.
  unfold step. destruct (finished s); [discriminate|]. destruct l as [k| | | |io| | |].
  - discriminate.
  - destruct (waits s); discriminate.
  - discriminate.
  - destruct (typed s); [discriminate|]. destruct (reads s); discriminate.
  - destruct (looping s); [discriminate|]. destruct (ready s) as [|j r]; [discriminate|].
    destruct j as [[]|[]|a|]; cbn [call]; try discriminate.
    destruct io; [|discriminate]. unfold next_resize. cbn [signals].
    destruct (signals s); cbn [handler draw]; destruct (handler s); try discriminate;
      intro E; injection E as <-; split; try reflexivity; split; try reflexivity;
      right; left; reflexivity.
  - destruct (looping s); [|discriminate]. destruct (typed s) as [|k r]; [discriminate|].
    cbn [next_key handler]. destruct (handler s); [discriminate|]. intro E. injection E as <-.
    split; [reflexivity|]. split; [reflexivity|]. left. exists k. reflexivity.
  - destruct (looping s); [|discriminate]. destruct (typed s); discriminate.
  - destruct (looping s); [discriminate|]. destruct (ready s); [|discriminate].
    destruct (reads s); [|discriminate]. destruct (waits s); discriminate.
Qed.

Lemma winch_dec ls : In Winch ls \/ ~ In Winch ls.
Proof.
  induction ls as [|l r IH]; [right; intros []|].
  destruct l; try (left; left; reflexivity);
    (destruct IH as [I | N]; [left; right; exact I|right; intros [E | I]; [discriminate|exact (N I)]]).
Qed.

Lemma fails ls s : run ls start = Fails s ->
  exists k, hd_error (handed s) = Some k /\ quits k /\
    (In Winch ls \/ exists k' l, typed_in ls = rev (handed s) ++ k' :: l).
Proof.
  intro E. destruct (run_fails _ _ _ E) as (a & l & b & s1 & -> & R & F).
  pose proof (reached_inv _ _ R) as I. destruct (step_fails _ _ _ F) as (O & H & C).
  destruct (i_off _ _ I O) as (_ & k & h & EH & Q & _).
  exists k. split; [rewrite H, EH; reflexivity|]. split; [exact Q|].
  destruct C as [(k' & T) | J].
  - right. exists k', (typed s ++ typed_in (l :: b)). rewrite typed_in_app, (i_typed _ _ I), H, T.
    rewrite <- app_assoc. reflexivity.
  - destruct (winch_dec a) as [W | N].
    + left. apply in_or_app. left. exact W.
    + destruct (i_size _ _ I N) as (X & _). contradiction.
Qed.

Lemma order ls s : run ls start = Next s -> typed_in ls = rev (handed s) ++ typed s.
Proof. intro E. exact (i_typed _ _ (reached_inv _ _ E)). Qed.

Lemma until_quit ls s k l x : run ls start = Next s -> handed s = k :: l -> In x l -> ~ quits x.
Proof.
  intros E H I. pose proof (reached_inv _ _ E) as V. destruct (handler s) eqn:O.
  - apply (i_on _ _ V O). rewrite H. right. exact I.
  - destruct (i_off _ _ V O) as (_ & k' & l' & H' & _ & N). apply N. congruence.
Qed.

Lemma off_quit ls s : run ls start = Next s ->
  (handler s = false <-> exists k l, handed s = k :: l /\ quits k).
Proof.
  intro E. pose proof (reached_inv _ _ E) as V. split.
  - intro O. destruct (i_off _ _ V O) as (_ & k & l & H & Q & _). eauto.
  - intros (k & l & H & Q). destruct (handler s) eqn:O; [|reflexivity].
    destruct (i_on _ _ V O k); [|exact Q]. rewrite H. left. reflexivity.
Qed.

(** ** The number *)
Lemma ups_app a b : ups (a ++ b) = (ups a + ups b)%nat.
Proof. unfold ups. rewrite filter_app, app_length. reflexivity. Qed.
Lemma downs_app a b : downs (a ++ b) = (downs a + downs b)%nat.
Proof. unfold downs. rewrite filter_app, app_length. reflexivity. Qed.

Lemma counts_acts l : counts l (fold_left update (acts l) 0).
Proof.
  induction l as [|k l IH] using rev_ind.
  - exists [], []. cbn. split; [reflexivity|]. split; [left; reflexivity|]. split; [tauto|reflexivity].
  - rewrite acts_app, fold_left_app. destruct IH as (l1 & l2 & -> & S1 & N & V).
    set (v := fold_left update (acts (l1 ++ l2)) 0) in *.
    assert (k <> KSpace -> ~ In KSpace (l2 ++ [k])) as N'.
    { intros D I. apply in_app_or in I. destruct I as [I | [I | []]]; [exact (N I)|congruence]. }
    destruct k; cbn;
      try (match goal with |- counts ((_ ++ _) ++ [?k]) _ => exists l1, (l2 ++ [k]) end;
           split; [rewrite app_assoc; reflexivity|];
           split; [exact S1|]; split; [apply N'; discriminate|];
           rewrite ups_app, downs_app; cbn; lia).
    exists ((l1 ++ l2) ++ [KSpace]), []. rewrite app_nil_r. split; [reflexivity|].
    split; [right; exists (l1 ++ l2); reflexivity|]. split; [tauto|]. reflexivity.
Qed.

Lemma reduces_idle l : (forall a, ~ In (JReduce a) l) -> reduces l = [].
Proof.
  induction l as [|j r IH]; intro N; [reflexivity|]. cbn.
  destruct j; try (apply IH; intros b I; exact (N b (or_intror I))).
  destruct (N a). left. reflexivity.
Qed.

Lemma value ls s : run ls start = Next s -> idle s ->
  counts (rev (handed s)) (last s) /\ hd_error (screen s) = Some (last s).
Proof.
  intros E (NR & NN). pose proof (reached_inv _ _ E) as I. split; [|exact (i_screen _ _ I)].
  pose proof (i_value _ _ I) as V. rewrite (reduces_idle _ NR) in V. cbn in V.
  pose proof (i_dirty _ _ I) as D. destruct (dirty s); [contradiction|].
  rewrite D, V. apply counts_acts.
Qed.

(** ** Keys are heard *)
Lemma not_finished ls s : inv ls s -> noise_free ls -> handler s = true -> finished s = false.
Proof.
  intros I N O. destruct (finished s) eqn:F; [|reflexivity].
  rewrite (i_finished _ _ I F N) in O. discriminate.
Qed.

Lemma call_other s j r :
  looping s = false -> finished s = false -> handler s = true -> ready s = j :: r ->
  j <> JKey true ->
  exists s' x, step s (Call true) = Next s' /\ ready s' = r ++ x /\ looping s' = false /\
    finished s' = false /\ handler s' = true /\ typed s' = typed s /\ handed s' = handed s.
Proof.
  intros L F H R D. unfold step. rewrite F, L, R.
  destruct j as [[]|[]|a|]; [contradiction| | | | |]; cbn [call].
  - eexists _, []. rewrite app_nil_r. split; [reflexivity|]. cbn. auto 10.
  - unfold next_resize. cbn [signals]. destruct (signals s); cbn [handler draw]; rewrite H.
    + eexists _, []. rewrite app_nil_r. split; [reflexivity|]. cbn. auto 10.
    + eexists _, _. split; [reflexivity|]. cbn. auto 10.
  - eexists _, []. rewrite app_nil_r. split; [reflexivity|]. cbn. auto 10.
  - eexists _, _. split; [reflexivity|]. cbn. auto 10.
  - destruct (dirty s); cbn [dirty]; eexists _, []; rewrite app_nil_r;
      (split; [reflexivity|]); cbn; auto 10.
Qed.

Lemma split_first (l : list job) : In (JKey true) l ->
  exists p q, l = p ++ JKey true :: q /\ ~ In (JKey true) p.
Proof.
  induction l as [|j r IH]; [intros []|]. intro I.
  assert (j = JKey true \/ j <> JKey true) as [-> | D].
  { destruct j as [[]|b|a|]; [left; reflexivity| | | |]; right; discriminate. }
  - exists [], r. split; [reflexivity|intros []].
  - destruct I as [E | I]; [contradiction|]. destruct (IH I) as (p & q & -> & N).
    exists (j :: p), q. split; [reflexivity|]. intros [E | J]; [contradiction|exact (N J)].
Qed.

Lemma drain p : forall s q,
  looping s = false -> finished s = false -> handler s = true ->
  ready s = p ++ JKey true :: q -> ~ In (JKey true) p ->
  exists ls s', Forall own ls /\ run ls s = Next s' /\ looping s' = true /\
    finished s' = false /\ handler s' = true /\ typed s' = typed s /\ handed s' = handed s.
Proof.
  induction p as [|j p IH]; intros s q L F H R N.
  - exists [Call true]. cbn [run]. unfold step. rewrite F, L, R. cbn [app call].
    eexists. split; [repeat constructor|]. split; [reflexivity|]. cbn. auto 10.
  - destruct (call_other s j (p ++ JKey true :: q) L F H R) as
      (s1 & x & E & R1 & L1 & F1 & H1 & T1 & D1).
    { intros ->. apply N. left. reflexivity. }
    destruct (IH s1 (q ++ x) L1 F1 H1) as (ls & s2 & O & E2 & X).
    + rewrite R1, <- app_assoc. reflexivity.
    + intro I. apply N. right. exact I.
    + exists (Call true :: ls), s2. split; [constructor; [exact I|exact O]|].
      split; [cbn; rewrite E; exact E2|]. rewrite <- T1, <- D1. exact X.
Qed.

Lemma hears ls s k r :
  run ls start = Next s -> noise_free ls -> handler s = true -> typed s = k :: r ->
  exists ls' s', Forall own ls' /\ run ls' s = Next s' /\
                 handed s' = k :: handed s /\ typed s' = r.
Proof.
  intros E N H T. pose proof (reached_inv _ _ E) as I.
  pose proof (not_finished _ _ I N H) as F.
  assert (forall s, looping s = true -> finished s = false -> handler s = true ->
          typed s = k :: r ->
          exists s', run [ReadKey] s = Next s' /\ handed s' = k :: handed s /\ typed s' = r) as RD.
  { clear. intros s L F H T. cbn [run]. unfold step. rewrite F, L, T. cbn [next_key handler].
    rewrite H. unfold on_key. destruct (intent_of k); eexists; split; try reflexivity;
      cbn; auto. }
  assert (forall s, looping s = false -> finished s = false -> handler s = true ->
          typed s = k :: r -> In (JKey true) (ready s) ->
          exists ls' s', Forall own ls' /\ run ls' s = Next s' /\
                         handed s' = k :: handed s /\ typed s' = r) as QU.
  { clear - RD. intros s L F H T J. destruct (split_first _ J) as (p & q & R & NP).
    destruct (drain p s q L F H R NP) as (l1 & s1 & O1 & E1 & L1 & F1 & H1 & T1 & D1).
    destruct (RD s1 L1 F1 H1 (eq_trans T1 T)) as (s2 & E2 & D2 & T2).
    exists (l1 ++ [ReadKey]), s2. split; [apply Forall_app; split; [exact O1|repeat constructor]|].
    rewrite run_app, E1, <- D1. auto. }
  destruct (looping s) eqn:L.
  - destruct (RD s L F H T) as (s' & X). exists [ReadKey], s'. split; [repeat constructor|exact X].
  - destruct (i_hears _ _ I N H) as [R | (_ & [X | J])]; [|congruence|exact (QU s L F H T J)].
    destruct (reads s) as [|n] eqn:RN; [contradiction|].
    set (s1 := complete_reads s).
    assert (step s Complete = Next s1) as E1 by (unfold step; rewrite F, T, RN; reflexivity).
    assert (In (JKey true) (ready s1)) as J1.
    { unfold s1, complete_reads. cbn [ready]. rewrite RN. apply in_or_app. right. left. reflexivity. }
    destruct (QU s1 L F H T J1) as (l2 & s2 & O2 & E2 & X).
    exists (Complete :: l2), s2. split; [constructor; [exact Logic.I|exact O2]|].
    split; [cbn [run]; rewrite E1; exact E2|exact X].
Qed.

Lemma runs_on ls s :
  run ls start = Next s -> noise_free ls -> handler s = true -> step s Return = Not.
Proof.
  intros E N H. pose proof (reached_inv _ _ E) as I. unfold step.
  rewrite (not_finished _ _ I N H). destruct (looping s) eqn:L; [reflexivity|].
  destruct (ready s) eqn:RD; [|reflexivity]. destruct (reads s) eqn:RE; [|reflexivity].
  exfalso. destruct (i_hears _ _ I N H) as [R | (_ & [X | J])].
  - contradiction.
  - congruence.
  - rewrite RD in J. destruct J.
Qed.

(** ** Quitting *)
Lemma last_quit (a l : list key) q : a ++ [q] = l -> (forall x, In x a -> ~ quits x) ->
  forall b c, l = b ++ c -> (exists k, In k b /\ quits k) -> c = [].
Proof.
  intros <- N b c E (k & I & Q). destruct c as [|x c] using rev_ind; [reflexivity|clear IHc].
  rewrite app_assoc in E. apply app_inj_tail in E. destruct E as (-> & _).
  destruct (N k); [apply in_or_app; left; exact I|exact Q].
Qed.

Lemma quits_cleanly ls a q s :
  typed_in ls = a ++ [q] -> (forall x, In x a -> ~ quits x) -> fixed_size ls ->
  run ls start <> Fails s.
Proof.
  intros T N W E. destruct (fails _ _ E) as (k & H & Q & [X | (k' & l & T')]); [exact (W X)|].
  assert (k' :: l = []) as Y; [|discriminate].
  apply (last_quit a (typed_in ls) q (eq_sym T) N _ _ T'). exists k. split; [|exact Q].
  rewrite <- in_rev. destruct (handed s); [discriminate|]. injection H as ->. left. reflexivity.
Qed.

Definition weight (j : job) : nat :=
  match j with JKey true | JReduce _ => 2 | _ => 1 end.
Definition measure (s : st) : nat :=
  (list_sum (map weight (ready s)) + if looping s then 1 else 0)%nat.

Lemma own_typed ls : Forall own ls -> typed_in ls = [].
Proof.
  induction 1 as [|l r O _ IH]; [reflexivity|]. destruct l; try exact IH. destruct O.
Qed.
Lemma own_fixed a ls : Forall own ls -> fixed_size a -> fixed_size (a ++ ls).
Proof.
  intros O W I. apply in_app_or in I. destruct I as [I | I]; [exact (W I)|].
  rewrite Forall_forall in O. exact (O _ I).
Qed.

Lemma returns_steps n : forall ls s,
  (measure s <= n)%nat -> inv ls s -> fixed_size ls -> handler s = false -> typed s = [] ->
  finished s = false ->
  exists ls' s', Forall own ls' /\ run ls' s = Next s' /\ finished s' = true /\ ready s' = [].
Proof.
  induction n as [|n IH]; intros ls s M I W H T F.
  all: assert (finished s = false -> looping s = false -> ready s = [] ->
    exists s', step s Return = Next s' /\ finished s' = true /\ ready s' = []) as RT.
  1, 3: destruct (i_off _ _ I H) as (RE & _); destruct (i_size _ _ I W) as (_ & _ & WA);
    intros _ L R; unfold step; rewrite F, L, R, RE, (WA H); eexists; split; [reflexivity|];
    cbn; auto.
  - unfold measure in M. destruct (looping s) eqn:L; [lia|]. destruct (ready s) as [|j r] eqn:R.
    + destruct (RT F eq_refl eq_refl) as (s' & E & X). exists [Return], s'.
      split; [repeat constructor|]. split; [cbn [run]; rewrite E; reflexivity|exact X].
    + cbn in M. destruct j as [[]|[]|a|]; cbn in M; lia.
  - destruct (looping s) eqn:L.
    + assert (exists s1, step s LoopEnd = Next s1 /\ (measure s1 < measure s)%nat /\
              handler s1 = false /\ typed s1 = [] /\ finished s1 = false)
        as (s1 & E1 & M1 & H1 & T1 & F1).
      { unfold step. rewrite F, L, T. eexists. split; [reflexivity|].
        unfold measure. cbn [ready looping handler typed finished]. rewrite L.
        split; [lia|]. auto. }
      destruct (IH (ls ++ [LoopEnd]) s1) as (l2 & s2 & O2 & E2 & X); try assumption.
      * lia.
      * exact (step_inv _ _ _ _ I E1).
      * apply own_fixed; [repeat constructor|exact W].
      * exists (LoopEnd :: l2), s2. split; [constructor; [exact Logic.I|exact O2]|].
        split; [cbn [run]; rewrite E1; exact E2|exact X].
    + destruct (ready s) as [|j r] eqn:R.
      * destruct (RT F eq_refl eq_refl) as (s' & E & X). exists [Return], s'.
        split; [repeat constructor|]. split; [cbn [run]; rewrite E; reflexivity|exact X].
      * assert (j <> JResize true) as NJ.
        { intros ->. destruct (i_size _ _ I W) as (A & _). apply A. rewrite R. left. reflexivity. }
        assert (exists s1, step s (Call true) = Next s1 /\ (measure s1 < measure s)%nat /\
                handler s1 = false /\ typed s1 = [] /\ finished s1 = false)
          as (s1 & E1 & M1 & H1 & T1 & F1).
        { unfold step. rewrite F, L, R.
          destruct j as [[]|[]|a|]; [| |contradiction| | |]; cbn [call].
          1-4: eexists; (split; [reflexivity|]); unfold measure;
            cbn [ready looping handler typed finished]; rewrite L, R; cbn [map];
            try (rewrite map_app, list_sum_app); unfold list_sum; cbn; split; [lia|]; auto.
          destruct (dirty s) eqn:DI; cbn [dirty]; eexists; (split; [reflexivity|]);
            unfold measure; cbn [ready looping handler typed finished]; rewrite L, R; cbn [map];
            unfold list_sum; cbn; (split; [lia|]); auto. }
        destruct (IH (ls ++ [Call true]) s1) as (l2 & s2 & O2 & E2 & X); try assumption.
        -- lia.
        -- exact (step_inv _ _ _ _ I E1).
        -- apply own_fixed; [repeat constructor|exact W].
        -- exists (Call true :: l2), s2. split; [constructor; [exact Logic.I|exact O2]|].
           split; [cbn [run]; rewrite E1; exact E2|exact X].
Qed.

Lemma returns ls s :
  run ls start = Next s -> fixed_size ls -> handler s = false -> typed s = [] ->
  finished s = false ->
  exists ls' s', Forall own ls' /\ run ls' s = Next s' /\ finished s' = true /\
    counts (typed_in ls) (last s') /\ hd_error (screen s') = Some (last s').
Proof.
  intros E W H T F. pose proof (reached_inv _ _ E) as I.
  destruct (returns_steps _ ls s (Nat.le_refl _) I W H T F) as (l2 & s2 & O2 & E2 & F2 & R2).
  exists l2, s2. split; [exact O2|]. split; [exact E2|]. split; [exact F2|].
  assert (run (ls ++ l2) start = Next s2) as E3 by (rewrite run_app, E; exact E2).
  assert (idle s2) as ID by (unfold idle; rewrite R2; split; [intros a []|intros []]).
  destruct (value _ _ E3 ID) as (V & S2). split; [|exact S2].
  pose proof (order _ _ E3) as T3. rewrite typed_in_app, (own_typed _ O2), app_nil_r in T3.
  pose proof (run_inv _ _ _ _ I E2) as I2.
  assert (typed s2 = []) as T2.
  { destruct (off_quit _ _ E) as (Q & _). destruct (Q H) as (k & h & HD & QK).
    pose proof (order _ _ E) as T0. rewrite T, app_nil_r, HD in T0. cbn in T0.
    assert (forall x, In x (rev h) -> ~ quits x) as NH.
    { intros x X. apply in_rev in X. exact (until_quit _ _ _ _ _ E HD X). }
    apply (last_quit (rev h) (typed_in ls) k (eq_sym T0) NH _ _ T3).
    destruct (handler s2) eqn:H2.
    - exfalso. assert (forall l a b, run l a = Next b -> handler a = false -> handler b = false) as M.
      { clear. induction l as [|x l IH]; intros a b E H; cbn in E; [congruence|].
        destruct (step a x) as [c| |] eqn:S1; try discriminate. apply (IH _ _ E). clear IH E.
        unfold step in S1. destruct (finished a); [discriminate|].
        destruct x as [k| | | |io| | |].
        - injection S1 as <-. exact H.
        - destruct (waits a); injection S1 as <-; exact H.
        - injection S1 as <-. exact H.
        - destruct (typed a); [discriminate|]. destruct (reads a); [discriminate|].
          injection S1 as <-. exact H.
        - destruct (looping a); [discriminate|]. destruct (ready a) as [|j r]; [discriminate|].
          destruct j as [[]|[]|v|]; cbn [call] in S1; try (injection S1 as <-; exact H).
          + unfold next_resize in S1. cbn [signals] in S1.
            destruct (signals a); cbn [handler draw] in S1; destruct io; rewrite ?H in S1;
              try discriminate; injection S1 as <-; cbn; first [exact H | reflexivity].
          + cbn [dirty] in S1. destruct (dirty a); injection S1 as <-; exact H.
        - destruct (looping a); [|discriminate]. destruct (typed a); [discriminate|].
          cbn [next_key handler] in S1. rewrite H in S1. discriminate.
        - destruct (looping a); [|discriminate]. destruct (typed a); [|discriminate].
          injection S1 as <-. exact H.
        - destruct (looping a); [discriminate|]. destruct (ready a); [|discriminate].
          destruct (reads a); [|discriminate]. destruct (waits a); [|discriminate].
          injection S1 as <-. exact H. }
      rewrite (M _ _ _ E2 H) in H2. discriminate.
    - destruct (i_off _ _ I2 H2) as (_ & k2 & l3 & HD2 & Q2 & _).
      exists k2. split; [|exact Q2]. rewrite <- in_rev, HD2. left. reflexivity. }
  rewrite T2, app_nil_r in T3. rewrite T3. exact V.
Qed.

Lemma counts_fold l2 : forall v, ~ In KSpace l2 ->
  fold_left update (acts l2) v = v + Z.of_nat (ups l2) - Z.of_nat (downs l2).
Proof.
  induction l2 as [|k r IH]; intros v N; [cbn; lia|].
  assert (~ In KSpace r) as N' by (intro I; apply N; right; exact I).
  change (k :: r) with ([k] ++ r). rewrite acts_app, fold_left_app, IH, ups_app, downs_app by exact N'.
  destruct k; cbn; try lia. destruct N. left. reflexivity.
Qed.

Lemma counts_one l v w : counts l v -> counts l w -> v = w.
Proof.
  assert (forall v, counts l v -> v = fold_left update (acts l) 0) as D.
  { clear. intros v (l1 & l2 & -> & S1 & N & ->). rewrite acts_app, fold_left_app, counts_fold by exact N.
    destruct S1 as [-> | (l0 & ->)]; [reflexivity|]. rewrite acts_app, fold_left_app. reflexivity. }
  intros V W. rewrite (D _ V), (D _ W). reflexivity.
Qed.

(** ** Every way of returning *)
Definition left_ (s : st) : nat := (measure s + if finished s then 0 else 1)%nat.

Lemma own_step ls s l s1 :
  inv ls s -> fixed_size ls -> handler s = false -> typed s = [] -> own l -> step s l = Next s1 ->
  (left_ s1 < left_ s)%nat /\ handler s1 = false /\ typed s1 = [].
Proof.
  intros I W H T O E. unfold step in E. destruct (finished s) eqn:F; [discriminate|].
  assert (left_ s = measure s + 1)%nat as LS by (unfold left_; rewrite F; reflexivity).
  rewrite LS. clear LS. destruct l as [k| | | |io| | |]; try destruct O.
  - rewrite T in E. discriminate.
  - destruct (looping s) eqn:L; [discriminate|]. destruct (ready s) as [|j r] eqn:R; [discriminate|].
    assert (j <> JResize true) as NJ.
    { intros ->. destruct (i_size _ _ I W) as (A & _). apply A. rewrite R. left. reflexivity. }
    destruct j as [[]|[]|a|]; [| |contradiction| | |]; cbn [call] in E.
    1-4: injection E as <-; unfold left_, measure;
      cbn [ready looping handler typed finished]; rewrite L, R; cbn [map];
      try (rewrite map_app, list_sum_app); unfold list_sum; cbn; (split; [lia|]); auto.
    cbn [dirty] in E. destruct (dirty s); injection E as <-; unfold left_, measure;
      cbn [ready looping handler typed finished]; rewrite L, R; unfold list_sum; cbn;
      (split; [lia|]); auto.
  - destruct (looping s); [|discriminate]. rewrite T in E. discriminate.
  - destruct (looping s) eqn:L; [|discriminate]. rewrite T in E. injection E as <-.
    unfold left_, measure. cbn [ready looping handler typed finished]. rewrite L.
    split; [lia|auto].
  - destruct (looping s) eqn:L; [discriminate|]. destruct (ready s) eqn:R; [|discriminate].
    destruct (reads s); [|discriminate]. destruct (waits s); [|discriminate].
    injection E as <-. unfold left_, measure. cbn [ready looping handler typed finished].
    rewrite L, R. cbn. split; [lia|auto].
Qed.

Lemma own_progress ls s :
  inv ls s -> fixed_size ls -> handler s = false -> typed s = [] -> finished s = false ->
  exists l s', own l /\ step s l = Next s'.
Proof.
  intros I W H T F. destruct (looping s) eqn:L.
  - exists LoopEnd. unfold step. rewrite F, L, T. eexists. split; [exact Logic.I|reflexivity].
  - destruct (ready s) as [|j r] eqn:R.
    + destruct (i_off _ _ I H) as (RE & _). destruct (i_size _ _ I W) as (_ & _ & WA).
      exists Return. unfold step. rewrite F, L, R, RE, (WA H).
      eexists. split; [exact Logic.I|reflexivity].
    + exists (Call true). unfold step. rewrite F, L, R.
      assert (j <> JResize true) as NJ.
      { intros ->. destruct (i_size _ _ I W) as (A & _). apply A. rewrite R. left. reflexivity. }
      destruct j as [[]|[]|a|]; [| |contradiction| | |]; cbn [call]; eexists;
        (split; [exact Logic.I|reflexivity]).
Qed.

Lemma own_run ls' : forall ls s s',
  inv ls s -> fixed_size ls -> handler s = false -> typed s = [] -> Forall own ls' ->
  run ls' s = Next s' ->
  (List.length ls' + left_ s' <= left_ s)%nat /\ handler s' = false /\ typed s' = [].
Proof.
  induction ls' as [|l r IH]; intros ls s s' I W H T O E; cbn in E.
  - injection E as <-. cbn. auto.
  - inversion O as [|x y OL OR X]; subst. destruct (step s l) as [s1| |] eqn:E1; try discriminate.
    destruct (own_step _ _ _ _ I W H T OL E1) as (M & H1 & T1).
    destruct (IH (ls ++ [l]) s1 s' (step_inv _ _ _ _ I E1)) as (M2 & H2 & T2); try assumption.
    { apply own_fixed; [constructor; [exact OL|constructor]|exact W]. }
    cbn. split; [lia|auto].
Qed.

Lemma returns_always ls s :
  run ls start = Next s -> fixed_size ls -> handler s = false -> typed s = [] ->
  exists n, forall ls' s', Forall own ls' -> run ls' s = Next s' ->
    (List.length ls' <= n)%nat /\
    (finished s' = false -> exists l s'', own l /\ step s' l = Next s'').
Proof.
  intros E W H T. pose proof (reached_inv _ _ E) as I. exists (left_ s). intros l s' O R.
  destruct (own_run _ _ _ _ I W H T O R) as (M & H' & T'). split; [lia|]. intro F.
  exact (own_progress (ls ++ l) s' (run_inv _ _ _ _ I R) (own_fixed _ _ O W) H' T' F).
Qed.

(** ** Deaf *)
Definition deaf_in (s : st) : Prop :=
  reads s = O /\ looping s = false /\ Forall (eq (JResize true)) (ready s) /\
  handler s = true /\ handed s = [] /\ finished s = false /\
  (waits s <> O \/ ready s <> []).

Lemma repeat_all {A} (x : A) n : Forall (eq x) (repeat x n).
Proof. induction n; constructor; auto. Qed.

Lemma deaf_step s l s' : deaf_in s -> step s l = Next s' -> deaf_in s'.
Proof.
  intros (RE & L & RD & H & HD & F & WR) E. unfold step in E. rewrite F in E.
  destruct l as [k| | | |io| | |].
  - injection E as <-. unfold deaf_in. cbn. auto 10.
  - destruct (waits s) as [|n] eqn:WN; injection E as <-; unfold deaf_in; cbn.
    + destruct WR as [X | X]; [contradiction|]. auto 10.
    + assert (Forall (eq (JResize true)) (ready s ++ JResize true :: repeat (JResize true) n)) as RA.
      { apply Forall_app. exact (conj RD (repeat_all (JResize true) (S n))). }
      repeat (split; [assumption || reflexivity|]). right. intro Y. apply app_eq_nil in Y. destruct Y as (_ & Y). discriminate.
  - injection E as <-. unfold deaf_in, complete_reads. cbn. rewrite RE. cbn.
    rewrite app_nil_r. auto 10.
  - destruct (typed s); [discriminate|]. rewrite RE in E. discriminate.
  - rewrite L in E. destruct (ready s) as [|j r] eqn:R; [discriminate|].
    inversion RD as [|x y J RR X]; subst. cbn [call] in E. unfold next_resize in E.
    cbn [signals] in E. destruct (signals s); cbn [handler draw] in E; rewrite H in E.
    + destruct io; injection E as <-; unfold deaf_in; cbn;
        repeat (split; [assumption || reflexivity|]); left; discriminate.
    + assert (Forall (eq (JResize true)) (r ++ [JResize true])) as RA.
      { apply Forall_app. exact (conj RR (repeat_all (JResize true) 1)). }
      destruct io; injection E as <-; unfold deaf_in; cbn;
        repeat (split; [assumption || reflexivity|]); right; intro Y;
        apply app_eq_nil in Y; destruct Y as (_ & Y); discriminate.
  - rewrite L in E. discriminate.
  - rewrite L in E. discriminate.
  - rewrite L in E. destruct (ready s); [|discriminate]. rewrite RE in E.
    destruct (waits s); [|discriminate]. exfalso. destruct WR as [X | X]; contradiction.
Qed.

Lemma deaf_run ls : forall s s', deaf_in s -> run ls s = Next s' -> deaf_in s'.
Proof.
  induction ls as [|l r IH]; intros s s' D E; cbn in E; [congruence|].
  destruct (step s l) as [s1| |] eqn:E1; try discriminate. exact (IH _ _ (deaf_step _ _ _ D E1) E).
Qed.

Lemma deaf : forall ls s',
  run ls (St [] O 1 O [] false true 0 0 false [0] [] false) = Next s' ->
  handed s' = [] /\ finished s' = false.
Proof.
  intros ls s' E. assert (deaf_in s') as (_ & _ & _ & _ & H & F & _); [|auto].
  apply (deaf_run ls _ _) in E; [exact E|]. unfold deaf_in. cbn.
  repeat (split; [reflexivity || constructor|]). left. discriminate.
Qed.
