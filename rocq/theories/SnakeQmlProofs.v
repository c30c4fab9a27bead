(** C82: proofs. *)
From Coq Require Import List ZArith Bool Lia Arith.
From Verif Require Import SnakeModel SnakeSpec SnakeProofs SnakeQmlModel SnakeQmlSpec.
Import ListNotations.

Definition start_body : list point := [(12, 12); (11, 12); (10, 12)]%Z.
Definition noreset (q : list entry) : Prop := ~ In (Reduce Reset_) q.
Definition notick (q : list entry) : Prop := ~ In (Reduce Tick) q.
Lemma notin_snoc : forall (x y : entry) q, ~ In x q -> y <> x -> ~ In x (q ++ [y]).
Proof. intros x y q N D I. apply in_app_iff in I. destruct I as [I | [I | []]]; [exact (N I)|exact (D I)]. Qed.
Lemma notin_tl : forall (x y : entry) q, ~ In x (y :: q) -> ~ In x q.
Proof. intros x y q N I. apply N. right. exact I. Qed.
Lemma notin_hd : forall (x y : entry) q, ~ In x (y :: q) -> y <> x.
Proof. intros x y q N ->. apply N. left. reflexivity. Qed.

Section Rnd.
Variable rnd : nat -> Z.
Notation step := (step rnd). Notation steps := (steps rnd). Notation take := (take rnd). Notation init := (init rnd).

Lemma update_over : forall m a m', update rnd m a = Some m' -> a <> Reset_ -> over (the m) = true -> over (the m') = true.
Proof.
  intros m a m' U N O. destruct a; cbn in U; try (injection U as <-; exact O); [destruct (N eq_refl)|].
  destruct (body (the m)) as [|z b]; [discriminate U|]. destruct (move_body (z :: b) (dir (the m))) as [[|h r]|]; try discriminate U.
  destruct (existsb (same h) r || negb (in_bounds h)); [injection U as <-; reflexivity|].
  destruct (same _ _); injection U as <-; exact O.
Qed.
Lemma update_turn : forall m a m', update rnd m a = Some m' -> a <> Reset_ -> a <> Tick -> over (the m') = over (the m) /\ body (the m') = body (the m).
Proof. intros m a m' U N T. destruct a; cbn in U; try (injection U as <-; split; reflexivity); [destruct (N eq_refl)|destruct (T eq_refl)]. Qed.
Lemma show_opens : forall v g d, opens (fst (show v g)) (snd (show v g)) d = if negb (v_over v) && over g then true else d.
Proof.
  intros [b a o] g d. unfold show, opens. cbn [v_body v_apple v_over].
  destruct (same_body b (body g)), (same a (apple g)), o, (over g); reflexivity.
Qed.

Inductive phase (s : st) : Prop :=
| Playing : v_over (shown s) = false -> dialog s = false -> noreset (queue s) -> phase s
| Asking : v_over (shown s) = true -> dialog s = true -> over (the (model s)) = true -> noreset (queue s) -> phase s
| Accepted : v_over (shown s) = true -> dialog s = false -> over (the (model s)) = true ->
    forall q1 q2, queue s = q1 ++ Reduce Reset_ :: q2 -> noreset q1 -> noreset q2 -> notick q2 -> phase s
| Restarted : v_over (shown s) = true -> dialog s = false -> over (the (model s)) = false -> body (the (model s)) = start_body ->
    dirty s = true -> noreset (queue s) -> notick (queue s) -> phase s.
(** Dismissed *)
Definition stuck (s : st) : Prop :=
  v_over (shown s) = true /\ dialog s = false /\ over (the (model s)) = true /\ noreset (queue s).
(** A new game that is shown, before the first tick *)
Definition fresh (s : st) : Prop :=
  v_over (shown s) = false /\ dialog s = false /\ over (the (model s)) = false /\ body (the (model s)) = start_body /\
  noreset (queue s) /\ notick (queue s).
Definition view_of (m : app) : view := View (body (the m)) (apple (the m)) (over (the m)).
Record sound (s : st) : Prop := {
  s_inv : inv rnd (model s);
  s_dirty : dirty s = true -> In Notify (queue s);
  s_clean : dirty s = false -> shown s = view_of (model s) }.

Lemma sound_step : forall l s s', sound s -> step l s = Some s' -> sound s'.
Proof.
  intros l s s' [I D C] H.
  assert (P : forall a d, sound (dispatch a (St (queue s) (model s) (dirty s) (shown s) d))).
  { intros a d. constructor; cbn [dispatch queue model dirty shown]; auto. intros E. apply in_app_iff. left. exact (D E). }
  destruct l as [|k| | |]; cbn in H.
  - destruct (running s); [|discriminate H]. injection H as <-. exact (P Tick (dialog s)).
  - destruct (pressed k) as [a|]; injection H as <-; [exact (P a (dialog s))|constructor; assumption].
  - destruct (dialog s); [|discriminate H]. injection H as <-. exact (P Reset_ false).
  - destruct (dialog s); [|discriminate H]. injection H as <-. constructor; assumption.
  - unfold SnakeQmlModel.take in H. destruct (queue s) as [|[a|] r]; [discriminate H| |].
    + destruct (inv_step rnd (model s) a I) as (m' & U & I'). rewrite U in H. injection H as <-.
      constructor; cbn [queue model dirty shown]; [exact I'| |discriminate]. intros _. apply in_app_iff. right. left. reflexivity.
    + destruct (dirty s) eqn:E; [|injection H as <-; constructor; cbn [queue model dirty shown]; auto; discriminate].
      destruct (show (shown s) (the (model s))) as [v es] eqn:S. injection H as <-. constructor; cbn [queue model dirty shown]; [exact I|discriminate|].
      intros _. pose proof (show_eq (shown s) (the (model s))) as X. rewrite S in X. exact X.
Qed.
Lemma sound_init : sound init.
Proof.
  constructor; [apply (inv_game rnd 0)|discriminate|]. intros _. cbn [SnakeQmlModel.init shown model]. rewrite show_eq. reflexivity.
Qed.
Lemma sound_steps : forall ls s s', sound s -> steps ls s = Some s' -> sound s'.
Proof.
  induction ls as [|l ls IH]; intros s s' I H; cbn in H; [injection H as <-; exact I|].
  destruct (step l s) as [m|] eqn:E; [|discriminate H]. exact (IH _ _ (sound_step _ _ _ I E) H).
Qed.

(** What is taken from the queue *)
Inductive taken (s s' : st) : Prop :=
| TReduce : forall a r m, queue s = Reduce a :: r -> update rnd (model s) a = Some m ->
    s' = St (r ++ [Notify]) m true (shown s) (dialog s) -> taken s s'
| TNotify : forall r, queue s = Notify :: r -> dirty s = true ->
    s' = St r (model s) false (view_of (model s)) (if negb (v_over (shown s)) && over (the (model s)) then true else dialog s) -> taken s s'
| TSkip : forall r, queue s = Notify :: r -> dirty s = false -> s' = St r (model s) false (shown s) (dialog s) -> taken s s'.
Lemma take_taken : forall s s', take s = Some s' -> taken s s'.
Proof.
  intros s s' H. unfold SnakeQmlModel.take in H. destruct (queue s) as [|[a|] r] eqn:Q; [discriminate H| |].
  - destruct (update rnd (model s) a) as [m|] eqn:U; [|discriminate H]. injection H as <-. eapply TReduce; eauto.
  - destruct (dirty s) eqn:E; [|injection H as <-; eapply TSkip; eauto].
    pose proof (show_eq (shown s) (the (model s))) as X. pose proof (show_opens (shown s) (the (model s)) (dialog s)) as Y.
    destruct (show (shown s) (the (model s))) as [v es]. cbn [fst snd] in X, Y. injection H as <-. eapply TNotify; eauto. rewrite Y, X. reflexivity.
Qed.
Lemma not_reset : forall a r, noreset (Reduce a :: r) -> a <> Reset_.
Proof. intros a r N ->. apply N. left. reflexivity. Qed.
Lemma not_tick : forall a r, notick (Reduce a :: r) -> a <> Tick.
Proof. intros a r N ->. apply N. left. reflexivity. Qed.
Ltac notin := first [assumption | apply notin_snoc; [notin|discriminate] | eapply notin_tl; eassumption].

Lemma stuck_step : forall l s s', sound s -> stuck s -> step l s = Some s' -> stuck s'.
Proof.
  intros l s s' Z (V & D & O & N) H. destruct l as [|k| | |]; cbn in H.
  - unfold running in H. rewrite V in H. discriminate H.
  - destruct k; cbn in H; injection H as <-; repeat split; cbn; auto; apply notin_snoc; auto; discriminate.
  - rewrite D in H. discriminate H.
  - rewrite D in H. discriminate H.
  - apply take_taken in H. destruct H as [a r m Q U -> | r Q E -> | r Q E ->]; rewrite Q in N; repeat split; cbn [shown dialog model queue v_over view_of]; auto.
    + apply (update_over _ _ _ U); [exact (not_reset _ _ N)|exact O].
    + unfold noreset in *. notin.
    + rewrite V. exact D.
    + unfold noreset in *. notin.
    + unfold noreset in *. notin.
Qed.
Lemma phase_step : forall l s s', sound s -> phase s -> l <> LReject -> step l s = Some s' -> phase s'.
Proof.
  intros l s s' Z P NR H.
  assert (W : forall k a, pressed k = Some a -> a <> Reset_ /\ a <> Tick) by (intros [] a E; cbn in E; try discriminate E; injection E as <-; split; discriminate).
  destruct l as [|k| | |]; cbn in H.
  - unfold running in H. destruct (v_over (shown s)) eqn:V; [discriminate H|]. injection H as <-.
    destruct P as [V' D N | V' _ _ _ | V' _ _ _ _ _ _ _ _ | V' _ _ _ _ _ _]; try (rewrite V in V'; discriminate V').
    apply Playing; cbn; auto. apply notin_snoc; [exact N|discriminate].
  - destruct (pressed k) as [a|] eqn:K; injection H as <-; [|exact P]. destruct (W _ _ K) as [W1 W2].
    assert (X1 : Reduce a <> Reduce Reset_) by congruence. assert (X2 : Reduce a <> Reduce Tick) by congruence.
    destruct P as [V D N | V D O N | V D O q1 q2 Q N1 N2 T | V D O B E N T].
    + apply Playing; cbn; auto. apply notin_snoc; assumption.
    + apply Asking; cbn; auto. apply notin_snoc; assumption.
    + apply (Accepted (dispatch a s) V D O q1 (q2 ++ [Reduce a])); [cbn; rewrite Q, <- app_assoc; reflexivity|exact N1| |]; apply notin_snoc; assumption.
    + apply Restarted; cbn; auto; apply notin_snoc; assumption.
  - destruct (dialog s) eqn:D; [|discriminate H]. injection H as <-.
    destruct P as [V D' _ | V D' O N | V D' _ _ _ _ _ _ _ | V D' _ _ _ _ _]; try (rewrite D in D'; discriminate D').
    apply (Accepted (dispatch Reset_ (St (queue s) (model s) (dirty s) (shown s) false)) V eq_refl O (queue s) [] eq_refl N); intros X; destruct X.
  - destruct (NR eq_refl).
  - apply take_taken in H. destruct P as [V D N | V D O N | V D O q1 q2 Q' N1 N2 T | V D O B E' N T].
    + destruct H as [a r m Q U -> | r Q E -> | r Q E ->]; rewrite Q in N.
      * apply Playing; cbn [shown dialog queue]; auto. unfold noreset in *. notin.
      * rewrite V. cbn [negb andb]. destruct (over (the (model s))) eqn:O.
        -- apply Asking; cbn [shown dialog queue model v_over view_of]; auto. unfold noreset in *. notin.
        -- apply Playing; cbn [shown dialog queue model v_over view_of]; auto. unfold noreset in *. notin.
      * apply Playing; cbn [shown dialog queue]; auto. unfold noreset in *. notin.
    + destruct H as [a r m Q U -> | r Q E -> | r Q E ->]; rewrite Q in N; apply Asking; cbn [shown dialog model queue v_over view_of]; auto;
        try (unfold noreset in *; notin).
      * apply (update_over _ _ _ U); [exact (not_reset _ _ N)|exact O].
      * rewrite V. exact D.
    + destruct H as [a r m Q U -> | r Q E -> | r Q E ->]; rewrite Q' in Q.
      * destruct q1 as [|x q1]; [injection Q as <- <-|injection Q as -> <-].
        -- cbn in U. injection U as <-. apply Restarted; cbn [shown dialog model queue dirty]; auto; apply notin_snoc; auto; discriminate.
        -- apply (Accepted (St ((q1 ++ Reduce Reset_ :: q2) ++ [Notify]) m true (shown s) (dialog s)) V D
             (update_over _ _ _ U (not_reset _ _ N1) O) q1 (q2 ++ [Notify])).
           ++ cbn [queue]. rewrite <- app_assoc. reflexivity.
           ++ exact (notin_tl _ _ _ N1).
           ++ apply notin_snoc; [exact N2|discriminate].
           ++ apply notin_snoc; [exact T|discriminate].
      * destruct q1 as [|x q1]; [discriminate Q|]. injection Q as -> <-. rewrite V. cbn [negb andb].
        exact (Accepted (St (q1 ++ Reduce Reset_ :: q2) (model s) false (view_of (model s)) (dialog s)) O D O q1 q2 eq_refl (notin_tl _ _ _ N1) N2 T).
      * destruct q1 as [|x q1]; [discriminate Q|]. injection Q as -> <-.
        exact (Accepted (St (q1 ++ Reduce Reset_ :: q2) (model s) false (shown s) (dialog s)) V D O q1 q2 eq_refl (notin_tl _ _ _ N1) N2 T).
    + destruct H as [a r m Q U -> | r Q E -> | r Q E ->]; rewrite Q in N, T.
      * destruct (update_turn _ _ _ U (not_reset _ _ N) (not_tick _ _ T)) as [U1 U2].
        apply Restarted; cbn [shown dialog model queue dirty]; auto; try congruence; unfold noreset, notick in *; notin.
      * apply Playing; cbn [shown dialog model queue v_over view_of]; auto; [rewrite V; exact D|]. unfold noreset in *; notin.
      * rewrite E' in E. discriminate E.
Qed.
Lemma phase_steps : forall ls s s', sound s -> phase s -> steps ls s = Some s' -> ~ In LReject ls -> phase s'.
Proof.
  induction ls as [|l ls IH]; intros s s' Z P H N; cbn in H; [injection H as <-; exact P|].
  destruct (step l s) as [m|] eqn:E; [|discriminate H]. apply (IH m s' (sound_step _ _ _ Z E)); [|exact H|intros X; apply N; right; exact X].
  apply (phase_step l s m Z P); [|exact E]. intros ->. apply N. left. reflexivity.
Qed.
Lemma stuck_steps : forall ls s s', sound s -> stuck s -> steps ls s = Some s' -> stuck s'.
Proof.
  induction ls as [|l ls IH]; intros s s' Z P H; cbn in H; [injection H as <-; exact P|].
  destruct (step l s) as [m|] eqn:E; [|discriminate H]. exact (IH m s' (sound_step _ _ _ Z E) (stuck_step _ _ _ Z P E) H).
Qed.
Lemma either : forall ls s s', sound s -> phase s -> steps ls s = Some s' -> phase s' \/ stuck s' /\ In LReject ls.
Proof.
  induction ls as [|l ls IH]; intros s s' Z P H; cbn in H; [injection H as <-; left; exact P|].
  destruct (step l s) as [m|] eqn:E; [|discriminate H]. pose proof (sound_step _ _ _ Z E) as Z'.
  destruct l; try (destruct (IH m s' Z') as [X | [X Y]]; [refine (phase_step _ s m Z P _ E); discriminate|exact H|left; exact X|right; split; [exact X|right; exact Y]]).
  right. split; [|left; reflexivity]. apply (stuck_steps ls m s' Z'); [|exact H]. cbn in E. destruct (dialog s) eqn:D; [|discriminate E]. injection E as <-.
  destruct P as [V D' _ | V D' O N | V D' _ _ _ _ _ _ _ | V D' _ _ _ _ _]; try (rewrite D in D'; discriminate D'). repeat split; assumption.
Qed.
Lemma phase_init : phase init.
Proof. apply Playing; cbn [SnakeQmlModel.init shown dialog queue]; [rewrite show_eq; reflexivity|reflexivity|intros X; destruct X]. Qed.

Theorem dialog_over : forall ls s, steps ls init = Some s -> dialog s = true -> running s = false /\ over (the (model s)) = true.
Proof.
  intros ls s H D. destruct (either _ _ _ sound_init phase_init H) as [P | [(_ & D' & _) _]]; [|congruence].
  unfold running. destruct P as [V D' _ | V D' O N | V D' _ _ _ _ _ _ _ | V D' _ _ _ _ _]; try congruence. rewrite V. auto.
Qed.
Theorem settled : forall ls s, steps ls init = Some s -> queue s = [] ->
  shown s = View (body (the (model s))) (apple (the (model s))) (over (the (model s))) /\
  (running s = true \/ dialog s = true \/ In LReject ls).
Proof.
  intros ls s H Q. pose proof (sound_steps _ _ _ sound_init H) as Z. split.
  - apply (s_clean _ Z). destruct (dirty s) eqn:D; [|reflexivity]. pose proof (s_dirty _ Z D) as X. rewrite Q in X. destruct X.
  - destruct (either _ _ _ sound_init phase_init H) as [P | [_ R]]; [|auto]. unfold running.
    destruct P as [V D _ | V D O N | V D O q1 q2 Q' _ _ _ | V D O B E N T]; [rewrite V; auto|auto| |].
    + rewrite Q in Q'. destruct q1; discriminate Q'.
    + pose proof (s_dirty _ Z E) as X. rewrite Q in X. destruct X.
Qed.
Theorem dismissed : forall ls s s1, steps ls init = Some s -> step LReject s = Some s1 ->
  forall ls2 s2, steps ls2 s1 = Some s2 ->
  v_over (shown s2) = true /\ over (the (model s2)) = true /\ step LTimer s2 = None /\ step LAccept s2 = None.
Proof.
  intros ls s s1 H R ls2 s2 H2. pose proof (sound_steps _ _ _ sound_init H) as Z.
  destruct (either _ _ _ sound_init phase_init H) as [P | [(_ & D & _) _]]; [|cbn in R; rewrite D in R; discriminate R].
  assert (S : stuck s2).
  { apply (stuck_steps ls2 s1 s2 (sound_step _ _ _ Z R)); [|exact H2]. cbn in R. destruct (dialog s) eqn:D; [|discriminate R]. injection R as <-.
    destruct P as [V D' _ | V D' O N | V D' _ _ _ _ _ _ _ | V D' _ _ _ _ _]; try congruence. repeat split; assumption. }
  destruct S as (V & D & O & N). cbn. unfold running. rewrite V, D. auto.
Qed.

(** ** The queue is worked off *)
Definition load (q : list entry) : nat := list_sum (map (fun e => match e with Reduce _ => 2 | Notify => 1 end) q).
Lemma take_load : forall s, sound s -> queue s <> [] -> exists s', take s = Some s' /\ load (queue s') < load (queue s).
Proof.
  intros s Z N. unfold SnakeQmlModel.take. destruct (queue s) as [|[a|] r]; [destruct (N eq_refl)| |].
  - destruct (inv_step rnd (model s) a (s_inv _ Z)) as (m & U & _). rewrite U. eexists. split; [reflexivity|]. cbn [queue].
    change (load (Reduce a :: r)) with (2 + load r). unfold load. rewrite map_app, list_sum_app. cbn. lia.
  - destruct (dirty s); [destruct (show _ _) as [v es]|]; eexists; (split; [reflexivity|]); cbn [queue]; change (load (Notify :: r)) with (1 + load r); lia.
Qed.
Lemma worked_off : forall (P : st -> Prop), (forall s s', sound s -> P s -> take s = Some s' -> P s') ->
  forall s, sound s -> P s -> exists k s', steps (repeat LTake k) s = Some s' /\ queue s' = [] /\ P s' /\ sound s'.
Proof.
  intros P PS s Z Y. remember (load (queue s)) as n eqn:E. revert s Z Y E. induction n as [n IH] using lt_wf_ind. intros s Z Y ->.
  destruct (queue s) as [|e r] eqn:Q; [exists 0, s; auto|].
  destruct (take_load s Z) as (m & T & L); [rewrite Q; discriminate|]. rewrite Q in L.
  destruct (IH _ L m (sound_step LTake _ _ Z T) (PS _ _ Z Y T) eq_refl) as (k & s' & G & D). exists (S k), s'. split; [|exact D]. cbn. rewrite T. exact G.
Qed.
Theorem runs : forall ls s, steps ls init = Some s -> exists k s', steps (repeat LTake k) s = Some s' /\ queue s' = [].
Proof.
  intros ls s H. destruct (worked_off (fun _ => True) (fun _ _ _ _ _ => I) s (sound_steps _ _ _ sound_init H) I) as (k & s' & A & B & _). eauto.
Qed.
Definition anew (s : st) : Prop := fresh s \/ phase s /\ v_over (shown s) = true /\ dialog s = false.
Lemma anew_take : forall s s', sound s -> anew s -> take s = Some s' -> anew s'.
Proof.
  intros s s' Z A H. destruct A as [(V & D & O & B & N & T) | (P & V & D)].
  - left. apply take_taken in H. destruct H as [a r m Q U -> | r Q E -> | r Q E ->]; rewrite Q in N, T; repeat split; cbn [shown dialog model queue v_over view_of]; auto;
      try (unfold noreset, notick in *; notin).
    + destruct (update_turn _ _ _ U (not_reset _ _ N) (not_tick _ _ T)) as [U1 U2]. congruence.
    + destruct (update_turn _ _ _ U (not_reset _ _ N) (not_tick _ _ T)) as [U1 U2]. congruence.
    + rewrite O, andb_false_r. exact D.
  - pose proof (phase_step LTake s s' Z P) as P'. specialize (P' ltac:(discriminate) H). apply take_taken in H.
    destruct H as [a r m Q U -> | r Q E -> | r Q E ->]; [right; auto| |right; auto].
    destruct (over (the (model s))) eqn:O; [right; split; [exact P'|]; cbn [shown dialog v_over view_of]; rewrite V; auto|].
    left. destruct P as [V' _ _ | _ D' _ _ | _ _ O' _ _ _ _ _ _ | _ _ _ B _ N T]; try congruence. rewrite Q in N, T.
    repeat split; cbn [shown dialog model queue v_over view_of]; auto; try (unfold noreset, notick in *; notin). rewrite V. exact D.
Qed.
Theorem restarts : forall ls s, steps ls init = Some s -> dialog s = true ->
  exists k s', steps (LAccept :: repeat LTake k) s = Some s' /\ queue s' = [] /\ running s' = true /\ dialog s' = false /\ v_body (shown s') = start_body.
Proof.
  intros ls s H D. pose proof (sound_steps _ _ _ sound_init H) as Z.
  destruct (either _ _ _ sound_init phase_init H) as [P | [(_ & D' & _) _]]; [|congruence].
  assert (E : exists s1, step LAccept s = Some s1) by (cbn; rewrite D; eauto). destruct E as [s1 E].
  assert (A : anew s1).
  { right. split; [apply (phase_step LAccept s s1 Z P); [discriminate|exact E]|]. cbn in E. rewrite D in E. injection E as <-.
    destruct P as [V D' _ | V D' _ _ | V D' _ _ _ _ _ _ _ | V D' _ _ _ _ _]; try congruence. auto. }
  destruct (worked_off anew anew_take s1 (sound_step _ _ _ Z E) A) as (k & s' & G & Q & A' & Z').
  exists k, s'. cbn [SnakeQmlModel.steps]. rewrite E. split; [exact G|]. split; [exact Q|].
  assert (ND : dirty s' = false) by (destruct (dirty s') eqn:X; [pose proof (s_dirty _ Z' X) as Y; rewrite Q in Y; destruct Y|reflexivity]).
  destruct A' as [(V & D1 & O & B & _) | (P' & V & D1)].
  - unfold running. rewrite V. repeat split; auto. rewrite (s_clean _ Z' ND). exact B.
  - destruct P' as [V' _ _ | _ D' _ _ | _ _ _ q1 q2 Q' _ _ _ | _ _ _ _ X _ _]; try congruence. rewrite Q in Q'. destruct q1; discriminate Q'.
Qed.

(** ** What is asked is done, in order *)
Fixpoint reduces (q : list entry) : list action :=
  match q with [] => [] | Reduce a :: r => a :: reduces r | Notify :: r => reduces r end.
Lemma reduces_app : forall p q, reduces (p ++ q) = reduces p ++ reduces q.
Proof. induction p as [|[a|] p IH]; intros q; cbn; rewrite ?IH; reflexivity. Qed.
Definition ordered (acts : list action) (s : st) : Prop :=
  exists l1, acts = l1 ++ reduces (queue s) /\ after rnd l1 = Some (model s).
Lemma ordered_step : forall l acts s s', ordered acts s -> step l s = Some s' -> ordered (acts ++ asks l) s'.
Proof.
  intros l acts s s' (l1 & -> & A) H.
  assert (P : forall a d, ordered ((l1 ++ reduces (queue s)) ++ [a]) (dispatch a (St (queue s) (model s) (dirty s) (shown s) d))).
  { intros a d. exists l1. cbn [dispatch queue model]. rewrite reduces_app, app_assoc. auto. }
  destruct l as [|k| | |]; cbn in H.
  - destruct (running s); [|discriminate H]. injection H as <-. exact (P Tick (dialog s)).
  - destruct k; cbn in H; injection H as <-;
      [exact (P GoLeft (dialog s))|exact (P GoRight (dialog s))|exact (P GoUp (dialog s))|exact (P GoDown (dialog s))|].
    exists l1. cbn [asks]. rewrite app_nil_r. auto.
  - destruct (dialog s); [|discriminate H]. injection H as <-. exact (P Reset_ false).
  - destruct (dialog s); [|discriminate H]. injection H as <-. exists l1. cbn. rewrite app_nil_r. auto.
  - cbn [asks]. rewrite app_nil_r. apply take_taken in H. destruct H as [a r m Q U -> | r Q E -> | r Q E ->]; rewrite Q; cbn [reduces].
    + exists (l1 ++ [a]). cbn [queue model]. rewrite reduces_app. cbn. rewrite app_nil_r, <- app_assoc. split; [reflexivity|].
      unfold after in *. rewrite updates_app, A. cbn. rewrite U. reflexivity.
    + exists l1. auto.
    + exists l1. auto.
Qed.
Theorem in_order : forall ls s, steps ls init = Some s ->
  exists l1 l2, asked ls = l1 ++ l2 /\ after rnd l1 = Some (model s) /\ (queue s = [] -> l2 = []).
Proof.
  assert (G : forall ls acts s s', ordered acts s -> steps ls s = Some s' -> ordered (acts ++ asked ls) s').
  { induction ls as [|l ls IH]; intros acts s s' O H; cbn in H; [injection H as <-; unfold asked; cbn; rewrite app_nil_r; exact O|].
    destruct (step l s) as [m|] eqn:E; [|discriminate H]. unfold asked. cbn [flat_map]. rewrite app_assoc. exact (IH _ _ _ (ordered_step _ _ _ _ O E) H). }
  intros ls s H. destruct (G ls [] init s) as (l1 & E & A); [exists []; split; reflexivity|exact H|].
  exists l1, (reduces (queue s)). split; [exact E|]. split; [exact A|]. intros ->. reflexivity.
Qed.
End Rnd.

Theorem intervals : forall n, (3 <= n -> 10 <= interval n <= 100 /\ (interval n = 10 <-> 48 <= n) /\ interval (n + 1) <= interval n)%Z.
Proof. intros n L. unfold interval. pose proof (Z.div_mod (n - 3) 5). pose proof (Z.mod_pos_bound (n - 3) 5). pose proof (Z.div_le_mono (n - 3) (n + 1 - 3) 5). lia. Qed.
