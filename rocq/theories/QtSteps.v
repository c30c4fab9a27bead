From Coq Require Import List Arith Bool Lia.
From Verif Require Import WatchModel WatchSpec WatchFrame WatchPass WatchLog WatchLaws WatchSilent WatchValues QtModel QtSpec QtProofs.
Import ListNotations.

Section Proofs.
Context {V : Type}.
Variable veq : V -> V -> bool.
Notation st := (st V).
Notation op := (op V).
Notation qst := (qst V).
Notation qop := (qop V).
Notation qstep := (qstep veq).
Notation qrun := (qrun veq).
Notation tell := (tell veq).
Notation told := (told veq).

(** The world after each kind of step *)
Lemma w_new : forall (w : world) k n,
  let l := [New n; Watch (length w) (fun _ => []); Copy (length w); Destroy (S (length w))] : list op in
  let wk := fold_left (fun wk x => object_step x wk) l (w, k) in
  snd wk = S k /\ length (fst wk) = S (S (length w)) /\
  forall q, at_ (fst wk) q = if q =? length w then Some (O n n [k]) else if q =? S (length w) then None else at_ w q.
Proof.
  intros w k n l wk. set (r := length w) in *.
  set (w1 := w ++ [Some (O n None [])]). assert (L1 : length w1 = S r) by (unfold w1; rewrite app_length; cbn; subst r; lia).
  assert (A1 : at_ w1 r = Some (O n None [])) by (unfold w1; rewrite at_app; subst r; now rewrite Nat.eqb_refl).
  set (w2 := put w1 r (Some (O n n [k]))). assert (L2 : length w2 = S r) by (unfold w2; rewrite put_length; lia).
  assert (A2 : at_ w2 r = Some (O n n [k])) by (unfold w2; rewrite at_put_same; auto; lia).
  set (w3 := w2 ++ [Some (O n None [])]). assert (L3 : length w3 = S (S r)) by (unfold w3; rewrite app_length; cbn; lia).
  assert (E : wk = (put w3 (S r) None, S k)).
  { unfold wk, l. cbn [fold_left object_step]. fold w1. rewrite A1. cbn [at_node has follows app]. fold w2. rewrite A2.
    reflexivity. }
  rewrite E. cbn [fst snd]. split; [auto|]. split; [rewrite put_length; lia|].
  intros q. destruct (Nat.eqb_spec q (S r)) as [->|Ne].
  - rewrite at_put_same by lia. destruct (Nat.eqb_spec (S r) r); [lia|auto].
  - rewrite at_put_other by (auto; lia). unfold w3. rewrite at_app, L2. destruct (Nat.eqb_spec q (S r)); [contradiction|].
    destruct (Nat.eqb_spec q r) as [->|Nr]; auto. unfold w2. rewrite at_put_other by (auto; lia).
    unfold w1. rewrite at_app. fold r. destruct (Nat.eqb_spec q r); [contradiction|auto].
Qed.
Lemma w_assign : forall (w : world) k n m j r,
  at_ w r = Some (O m m [j]) ->
  let l := [New n; MoveAssign r (length w); Destroy (length w)] : list op in
  let wk := fold_left (fun wk x => object_step x wk) l (w, k) in
  snd wk = k /\ length (fst wk) = S (length w) /\
  forall q, at_ (fst wk) q = if q =? r then Some (O n n [j]) else at_ w q.
Proof.
  intros w k n m j r A l wk. set (t := length w) in *.
  assert (Lr : r < t) by (unfold t, at_ in *; eapply nth_lt; exact A).
  set (w1 := w ++ [Some (O n None [])]). assert (L1 : length w1 = S t) by (unfold w1; rewrite app_length; cbn; subst t; lia).
  assert (A1 : at_ w1 t = Some (O n None [])) by (unfold w1; rewrite at_app; subst t; now rewrite Nat.eqb_refl).
  assert (A1r : at_ w1 r = Some (O m m [j])).
  { unfold w1. rewrite at_app. fold t. destruct (Nat.eqb_spec r t); [lia|auto]. }
  set (w2 := put w1 t (Some (O None None []))). assert (L2 : length w2 = S t) by (unfold w2; rewrite put_length; lia).
  set (w3 := put w2 r (Some (O n n [j]))). assert (L3 : length w3 = S t) by (unfold w3; rewrite put_length; lia).
  assert (E : wk = (put w3 t None, k)).
  { unfold wk, l. cbn [fold_left object_step]. fold w1. rewrite A1r, A1. cbn [at_node has follows]. fold w2 w3. reflexivity. }
  rewrite E. cbn [fst snd]. split; [auto|]. split; [rewrite put_length; lia|].
  intros q. destruct (Nat.eqb_spec q r) as [->|Nr].
  - rewrite at_put_other by lia. unfold w3. apply at_put_same. lia.
  - destruct (Nat.eq_dec q t) as [->|Nt].
    + rewrite at_put_same by lia. unfold at_. rewrite nth_overflow; auto.
    + rewrite at_put_other by lia. unfold w3. rewrite at_put_other by lia. unfold w2. rewrite at_put_other by lia.
      unfold w1. rewrite at_app. fold t. destruct (Nat.eqb_spec q t); [contradiction|auto].
Qed.

Ltac plain := repeat first [apply Forall_nil|apply Forall_cons; [cbn; auto|]].
Ltac nonotify := intros ? ? ? Hin ->; cbn in Hin; repeat (destruct Hin as [Hin|Hin]; [discriminate|]); contradiction.

Lemma step_sound : forall fuel x w (s : qst) y s', sound w s y -> qstep fuel x s = Fine s' ->
  sensible x y /\ exists w', sound w' s' (tell y x).
Proof.
  intros fuel x w s y s' Sn H. pose proof Sn as (Qu & I & M & Rp & Va & Si).
  pose proof Rp as (Rl & Rk & Rr). pose proof M as (ML & MN & MG).
  destruct x as [n|k n|k v|n v|k]; cbn [qstep QtModel.qstep] in H.
  - (* QNew *) split; [exact Logic.I|]. unfold construct in H. rewrite <- ML in H.
    pose proof (fun P Sl NN => below_plain _ _ _ _ _ _ _ Sn P Sl NN H) as B; destruct B as (E & Q' & I' & M' & V' & S'); [plain|plain; reflexivity|nonotify|].
    destruct (w_new w (length (members s)) n) as (K & L & A).
    set (wk := fold_left _ _ (w, length (members s))) in *. clearbody wk.
    exists (fst wk). split; [exact Q'|]. split; [exact I'|]. rewrite K in M'. split.
    { rewrite E, app_length, Nat.add_1_r. exact M'. }
    split; [|split; [exact V'|exact S']].
    cbn [shows QtSpec.tell]. rewrite E. split; [rewrite !app_length; cbn; lia|]. split.
    + intros k. destruct (Nat.lt_ge_cases k (length (members s))).
      * rewrite !app_nth1 by lia. specialize (Rk k). destruct (nth k (members s) None) as [r|] eqn:Er; auto.
        destruct (nth k (shows y) None); auto. rewrite A.
        assert (r < length w) by (unfold at_ in Rk; eapply nth_lt; exact Rk).
        destruct (Nat.eqb_spec r (length w)); [lia|]. destruct (Nat.eqb_spec r (S (length w))); [lia|auto].
      * rewrite !app_nth2 by lia. rewrite <- Rl. destruct (k - length (members s)) as [|d] eqn:D.
        -- cbn. rewrite A, Nat.eqb_refl. replace k with (length (members s)) by lia. auto.
        -- cbn. destruct d; auto.
    + intros r o Ao. rewrite A in Ao. destruct (Nat.eqb_spec r (length w)) as [->|].
      * exists (length (members s)). rewrite app_nth2, Nat.sub_diag; auto.
      * destruct (r =? S (length w)); [discriminate|]. destruct (Rr _ _ Ao) as (k & Ek). exists k.
        rewrite app_nth1; auto. eapply nth_lt; exact Ek.
  - (* QAssign *) rewrite member_nth in H. specialize (Rk k) as Rk'. destruct (nth k (members s) None) as [r|] eqn:Er; [|discriminate].
    pose proof (nth_lt _ _ _ Er) as Lk.
    destruct (nth k (shows y) None) as [m|] eqn:Es; [|contradiction]. split; [unfold sensible, shown; rewrite Es; discriminate|].
    unfold assign in H. rewrite <- ML in H.
    pose proof (fun P Sl NN => below_plain _ _ _ _ _ _ _ Sn P Sl NN H) as B; destruct B as (E & Q' & I' & M' & V' & S'); [plain|plain; reflexivity|nonotify|].
    destruct (w_assign w (length (members s)) n m k r Rk') as (K & L & A).
    set (wk := fold_left _ _ (w, length (members s))) in *. clearbody wk.
    exists (fst wk). split; [exact Q'|]. split; [exact I'|]. rewrite K in M'. split; [rewrite E; exact M'|].
    split; [|split; [exact V'|exact S']].
    cbn [shows QtSpec.tell]. rewrite E. split; [rewrite now_length; lia|]. split.
    + intros j. destruct (Nat.eq_dec j k) as [->|Ne].
      * rewrite Er, now_same by lia. now rewrite A, Nat.eqb_refl.
      * rewrite now_other by lia. specialize (Rk j). destruct (nth j (members s) None) as [q|] eqn:Eq; auto.
        destruct (nth j (shows y) None); auto. rewrite A. destruct (Nat.eqb_spec q r) as [->|]; auto. congruence.
    + intros q o Ao. rewrite A in Ao. destruct (Nat.eqb_spec q r) as [->|]; eauto.
  - (* QSet *) rewrite member_nth in H. specialize (Rk k) as Rk'. destruct (nth k (members s) None) as [r|] eqn:Er; [|discriminate].
    destruct (nth k (shows y) None) as [m|] eqn:Es; [|contradiction].
    specialize (MG r). rewrite Rk' in MG. destruct (get r (under s)) as [[[n|] l]|]; try discriminate.
    destruct MG as (MG & _). cbn in MG. subst m.
    split; [exists n; exact Es|]. cbn [QtSpec.tell]. unfold shown. rewrite Es, <- Va.
    destruct (veq v (value (under s) n)); [injection H as <-; eauto|].
    exists w. eapply notify_sound; eauto.
  - (* QChange *) split; [exact Logic.I|]. exists w. eapply notify_sound; eauto.
  - (* QDelete *) rewrite member_nth in H. specialize (Rk k) as Rk'. destruct (nth k (members s) None) as [r|] eqn:Er; [|discriminate].
    pose proof (nth_lt _ _ _ Er) as Lk.
    destruct (nth k (shows y) None) as [m|] eqn:Es; [|contradiction]. split; [unfold sensible, shown; rewrite Es; discriminate|].
    pose proof (fun P Sl NN => below_plain _ _ _ _ _ _ _ Sn P Sl NN H) as B; destruct B as (E & Q' & I' & M' & V' & S'); [plain|plain|nonotify|].
    cbn [fold_left object_step fst snd] in M'.
    assert (Lr : r < length w) by (unfold at_ in Rk'; eapply nth_lt; exact Rk').
    eexists. split; [exact Q'|]. split; [exact I'|]. split; [rewrite E, set_nth_length; exact M'|].
    split; [|split; [exact V'|exact S']].
    cbn [shows QtSpec.tell]. rewrite E. split; [rewrite now_length, set_nth_length; lia|]. split.
    + intros j. rewrite nth_set by auto. destruct (Nat.eqb_spec j k) as [->|Ne].
      * rewrite now_same by lia. auto.
      * rewrite now_other by lia. specialize (Rk j). destruct (nth j (members s) None) as [q|] eqn:Eq; auto.
        destruct (nth j (shows y) None); auto. rewrite at_put_other; auto. congruence.
    + intros q o Ao. destruct (Nat.eq_dec r q) as [<-|Nq]; [rewrite at_put_same in Ao by auto; discriminate|].
      rewrite at_put_other in Ao by auto. destruct (Rr _ _ Ao) as (j & Ej). exists j. rewrite nth_set by auto.
      destruct (Nat.eqb_spec j k) as [->|]; auto. congruence.
Qed.

(** ** Steps can be taken *)
Lemma chain : forall fuel x l w k (s s1 : st), silent1 x -> quiet s -> inv s -> matches w k s ->
  exec fuel (TOps [x]) s = Done s1 ->
  quiet s1 /\ inv s1 /\ matches (fst (object_step x (w, k))) (snd (object_step x (w, k))) s1 /\
  forall fuel' s2, exec fuel' (TOps l) s1 = Done s2 -> exists F, exec F (TOps (x :: l)) s = Done s2.
Proof.
  intros fuel x l w k s s1 Sx Q I M H.
  destruct (run_matches _ [x] _ _ _ _ (Forall_cons _ Sx (Forall_nil _)) Q I M H) as [Q' M'].
  split; auto. split; [apply (exec_good _ _ 0 _ _ I (Nat.le_0_l _) (ends_of _ _ H))|]. split; auto.
  intros fuel' s2 H2. eapply join; eauto.
Qed.
Fixpoint refs_ok (l : list op) (wk : world * nat) : Prop :=
  match l with
  | [] => True
  | x :: r => plain1 x /\ (forall n, x <> Expire n) /\ silent1 x /\
              Forall (fun r => at_ (fst wk) r <> None) (refs x) /\ refs_ok r (object_step x wk)
  end.
Lemma plain_list_runs : forall l w k (s : st), quiet s -> inv s -> matches w k s -> refs_ok l (w, k) ->
  exists F s', exec F (TOps l) s = Done s'.
Proof.
  induction l as [|x l IH]; intros w k s Q I M R; [exists 1, s; reflexivity|].
  destruct R as (P & NE & Sx & Rx & Rl). destruct (plain_runs w k s x M P NE Rx) as (s1 & H1).
  destruct (chain _ _ l _ _ _ _ Sx Q I M H1) as (Q1 & I1 & M1 & J).
  destruct (object_step x (w, k)) as [w1 k1] eqn:E.
  destruct (IH w1 k1 s1 Q1 I1 M1 Rl) as (F & s2 & H2).
  destruct (J _ _ H2) as (G & HG). eauto.
Qed.
Lemma below_runs : forall l ms (s : qst) , (exists F u, exec F (TOps l) (under s) = Done u) ->
  exists fuel s', below fuel l ms s = Fine s'.
Proof. intros l ms s (F & u & H). exists F, (Q u ms). unfold below. now rewrite H. Qed.
Lemma notify_state : forall n v (s : st), inv s -> quiet s -> exists F u, exec F (TOps [Notify n v]) s = Done u.
Proof.
  intros n v s I Qs. set (s0 := emit (EPass (length (log s)) (attached s n)) (set_value n v s)).
  assert (S0 : same s s0) by repeat split.
  set (N := length (flat_map (ids s) (obs s n)) + length (obs s n) + 4).
  destruct (pass_runs (length (log s)) n v (obs s n) s0 [] (S N)) as [s1 E1]; auto.
  - eapply same_inv; eauto.
  - exists (S (S N)), (emit (EPassed (length (log s))) s1).
    change (exec (S (S N)) (TOps [Notify n v]) s) with
      (andthen (exec (S N) (TPass (length (log s)) n (hd_error (obs s n)) v) s0)
         (fun s1 => exec (S N) (TOps []) (emit (EPassed (length (log s))) s1))).
    rewrite E1. reflexivity.
Qed.
Lemma step_runs : forall x w (s : qst) y, sound w s y -> sensible x y -> exists fuel s', qstep fuel x s = Fine s'.
Proof.
  intros x w s y Sn Se. pose proof Sn as (Qu & I & M & Rp & Va & Si).
  pose proof Rp as (Rl & Rk & Rr). pose proof M as (ML & MN & MG).
  destruct x as [n|k n|k v|n v|k]; cbn [QtModel.qstep sensible] in *.
  - apply below_runs. apply (plain_list_runs _ w (length (members s))); auto. rewrite <- ML.
    cbn [refs_ok plain1 silent1 refs object_step fst].
    set (w1 := w ++ _). assert (A1 : at_ w1 (length w) = Some (O n None [])) by (unfold w1; now rewrite at_app, Nat.eqb_refl).
    assert (L1 : length w1 = S (length w)) by (unfold w1; rewrite app_length; cbn; lia).
    rewrite A1. cbn [at_node has app]. set (w2 := put w1 _ _).
    assert (A2 : at_ w2 (length w) = Some (O n n [length (members s)])) by (unfold w2; rewrite at_put_same; auto; lia).
    assert (L2 : length w2 = S (length w)) by (unfold w2; rewrite put_length; lia).
    repeat split; try discriminate; repeat constructor; rewrite ?A1, ?A2; try discriminate.
    rewrite at_app, L2, Nat.eqb_refl. discriminate.
  - rewrite member_nth. specialize (Rk k). unfold shown in Se.
    destruct (nth k (shows y) None) as [m|]; [|contradiction]. destruct (nth k (members s) None) as [r|]; [|contradiction].
    apply below_runs. apply (plain_list_runs _ w (length (members s))); auto. rewrite <- ML.
    cbn [refs_ok plain1 silent1 refs object_step fst].
    set (w1 := w ++ _). assert (A1 : at_ w1 (length w) = Some (O n None [])) by (unfold w1; now rewrite at_app, Nat.eqb_refl).
    assert (L1 : length w1 = S (length w)) by (unfold w1; rewrite app_length; cbn; lia).
    assert (Lr : r < length w) by (unfold at_ in Rk; eapply nth_lt; exact Rk).
    assert (Ar : at_ w1 r = Some (O m m [k])) by (unfold w1; rewrite at_app; destruct (Nat.eqb_spec r (length w)); [lia|auto]).
    rewrite A1, Ar. cbn [at_node has app follows fst].
    repeat split; try discriminate; repeat constructor; rewrite ?A1, ?Ar; try discriminate.
    rewrite at_put_other by (try rewrite put_length; lia). rewrite at_put_same by lia. discriminate.
  - destruct Se as [n Se]. rewrite member_nth. specialize (Rk k). unfold shown in Se. rewrite Se in Rk.
    destruct (nth k (members s) None) as [r|]; [|contradiction]. specialize (MG r). rewrite Rk in MG.
    destruct (get r (under s)) as [[[m|] l]|]; [| |contradiction].
    + destruct (veq v (value (under s) m)); [exists 0; eauto|]. apply below_runs, notify_state; auto.
    + destruct MG as (MG & _). discriminate.
  - apply below_runs, notify_state; auto.
  - rewrite member_nth. specialize (Rk k). unfold shown in Se.
    destruct (nth k (shows y) None) as [m|]; [|contradiction]. destruct (nth k (members s) None) as [r|]; [|contradiction].
    apply below_runs. apply (plain_list_runs _ w (length (members s))); auto.
    cbn [refs_ok plain1 silent1 refs fst]. repeat split; try discriminate. repeat constructor. rewrite Rk. discriminate.
Qed.

(** ** Runs *)
Lemma step_enough : forall f f' x (s s' : qst), f <= f' -> qstep f x s = Fine s' -> qstep f' x s = Fine s'.
Proof.
  intros f f' x s s' L H.
  assert (B : forall l ms, below f l ms s = Fine s' -> below f' l ms s = Fine s').
  { intros l ms. unfold below. destruct (exec f (TOps l) (under s)) eqn:E; try discriminate. now rewrite (enough _ _ _ _ _ L E). }
  destruct x; cbn [QtModel.qstep] in *.
  - now apply B.
  - destruct (member k s); [now apply B|discriminate].
  - destruct (member k s); [|discriminate]. destruct (get _ _) as [[[m|] l]|]; try discriminate.
    destruct (veq v _); auto.
  - now apply B.
  - destruct (member k s); [now apply B|discriminate].
Qed.
Lemma run_enough : forall l f f' (s s' : qst), f <= f' -> qrun f l s = Fine s' -> qrun f' l s = Fine s'.
Proof.
  induction l as [|x l IH]; intros f f' s s' L H; auto. cbn in *.
  destruct (qstep f x s) eqn:E; [|discriminate]. rewrite (step_enough _ _ _ _ _ L E). eauto.
Qed.
Lemma run_app : forall l l' f (s : qst),
  qrun f (l ++ l') s = match qrun f l s with Fine s1 => qrun f l' s1 | b => b end.
Proof. induction l as [|x l IH]; intros; cbn; auto. destruct (qstep f x s); auto. Qed.
Lemma sound_init : forall val : nat -> V, sound [] (qinit val) (told val []).
Proof.
  intros val. split; [apply quiet_init|]. split; [apply inv_init|]. split; [apply matches_init|].
  split; [|split; auto]. split; [auto|]. split.
  - intros [|k]; exact Logic.I.
  - intros [|r] o A; discriminate.
Qed.
Lemma told_snoc : forall val l x, told val (l ++ [x]) = tell (told val l) x.
Proof. intros. unfold QtSpec.told. now rewrite fold_left_app. Qed.
Lemma run_sound : forall l fuel (val : nat -> V) s, qrun fuel l (qinit val) = Fine s ->
  all_sensible veq val l /\ exists w, sound w s (told val l).
Proof.
  induction l as [|x l IH] using rev_ind; intros fuel val s H.
  - injection H as <-. split; [|eexists; apply sound_init]. intros a x b E. destruct a; discriminate.
  - rewrite run_app in H. destruct (qrun fuel l (qinit val)) as [s1|] eqn:E1; [|discriminate].
    destruct (IH _ _ _ E1) as [A (w & S1)]. cbn in H. destruct (qstep fuel x s1) eqn:E; [|discriminate]. injection H as <-.
    destruct (step_sound _ _ _ _ _ _ S1 E) as [Sx (w' & S')]. rewrite told_snoc. split; [|eauto].
    intros a z b Eq. destruct b as [|b0 b] using rev_ind.
    + apply app_inj_tail in Eq as [-> ->]. exact Sx.
    + rewrite app_comm_cons, app_assoc in Eq. apply app_inj_tail in Eq as [-> ->]. eapply A. reflexivity.
Qed.
Lemma run_runs : forall l (val : nat -> V), all_sensible veq val l -> exists fuel s, qrun fuel l (qinit val) = Fine s.
Proof.
  induction l as [|x l IH] using rev_ind; intros val A; [exists 0; eexists; reflexivity|].
  destruct (IH val) as (f & s & H).
  { intros a z b E. apply (A a z (b ++ [x])). now rewrite E, <- app_assoc. }
  destruct (run_sound _ _ _ _ H) as [_ (w & Sn)].
  destruct (step_runs x w s (told val l) Sn) as (f' & s' & H').
  { apply (A l x []). reflexivity. }
  exists (f + f'), s'. rewrite run_app, (run_enough _ _ (f + f') _ _ (Nat.le_add_r _ _) H). cbn.
  now rewrite (step_enough _ (f + f') _ _ _ (Nat.le_add_l _ _) H').
Qed.

(** ** What is seen *)
Theorem follow : forall fuel l (val : nat -> V) s, qrun fuel l (qinit val) = Fine s -> forall k,
  signals k s = said (told val l) k /\ read k s = seen (shown k (told val l)) (told val l).
Proof.
  intros fuel l val s H k. destruct (run_sound _ _ _ _ H) as [_ (w & _ & _ & M & Rp & Va & Si)].
  split; [apply Si|]. unfold read, shown, seen. rewrite member_nth. destruct Rp as (_ & Rk & _). specialize (Rk k).
  destruct (nth k (members s) None) as [r|], (nth k (shows (told val l)) None) as [m|]; try contradiction; auto.
  destruct M as (_ & _ & MG). specialize (MG r). rewrite Rk in MG.
  destruct (get r (under s)) as [[n c]|]; [|contradiction]. destruct MG as (MG & _). cbn in MG. subst m.
  destruct n; auto. now rewrite Va.
Qed.
Theorem runs : forall l (val : nat -> V), all_sensible veq val l <-> exists fuel s, qrun fuel l (qinit val) = Fine s.
Proof.
  intros l val. split; [apply run_runs|]. intros (f & s & H). apply (run_sound _ _ _ _ H).
Qed.

(** ** The last signal *)
Lemma now_ge : forall k o l, length l <= length (now k o l).
Proof. intros. unfold now. rewrite app_length. cbn [length]. rewrite firstn_length, skipn_length. lia. Qed.
Lemma said_later : forall l (val : nat -> V) k, length (shows (told val l)) <= k -> said (told val l) k = [].
Proof.
  induction l as [|x l IH] using rev_ind; intros val k L; auto. rewrite told_snoc in *.
  assert (C : forall n v, length (shows (told val l)) <= k -> said (change n v (told val l)) k = []).
  { intros n v Lk. cbn. rewrite (IH _ _ Lk). unfold shown. now rewrite nth_overflow. }
  destruct x as [n|j n|j v|n v|j]; cbn [QtSpec.tell] in *.
  - cbn in *. rewrite app_length in L. cbn in L. apply IH. lia.
  - cbn [shows said] in *. apply IH. pose proof (now_ge j (Some n) (shows (told val l))). lia.
  - destruct (shown j (told val l)) as [[n|]|]; try (now apply IH).
    destruct (veq v (holds (told val l) n)); [now apply IH|now apply C].
  - now apply C.
  - cbn [shows said] in *. apply IH. pose proof (now_ge j None (shows (told val l))). lia.
Qed.
Lemma now_shown : forall j o (l : list (option (option nat))) k, j <> k -> k < length l -> nth k (now j o l) None = nth k l None.
Proof.
  intros j o l k Ne L. destruct (Nat.lt_ge_cases j (length l)); [now apply now_other; auto|].
  unfold now. rewrite firstn_all2, app_nth1 by lia. auto.
Qed.
Lemma last_snoc : forall {X} (l : list X) x d, last (l ++ [x]) d = x.
Proof. intros. apply last_last. Qed.
Lemma said_last : forall b k n d (y : story), kept_as k b -> shown k y = Some (Some n) -> last (said y k) d = holds y n ->
  let y' := fold_left tell b y in shown k y' = Some (Some n) /\ last (said y' k) d = holds y' n.
Proof.
  induction b as [|x b IH]; intros k n d y K Sk L; [auto|]. inversion_clear K as [|? ? Kx Kb]. cbn [fold_left].
  assert (C : forall m v, shown k (change m v y) = Some (Some n) /\ last (said (change m v y) k) d = holds (change m v y) n).
  { intros m v. split; [exact Sk|]. cbn. rewrite Sk. destruct (n =? m); [apply last_snoc|now rewrite app_nil_r]. }
  assert (Lk : k < length (shows y)) by (eapply nth_lt; exact Sk).
  apply IH; auto; destruct x as [m|j m|j v|m v|j]; cbn [QtSpec.tell]; try apply C; auto.
  - unfold shown in *. cbn. now rewrite app_nth1.
  - unfold shown in *. cbn. now rewrite now_shown.
  - destruct (shown j y) as [[m|]|]; auto. destruct (veq v _); [auto|apply C].
  - unfold shown in *. cbn. now rewrite now_shown.
  - destruct (shown j y) as [[m|]|]; auto. destruct (veq v _); [auto|apply C].
Qed.
Theorem last_signal : forall fuel a n b (val : nat -> V) s,
  let k := length (shows (told val a)) in
  qrun fuel (a ++ QNew (Some n) :: b) (qinit val) = Fine s -> kept_as k b ->
  read k s = Value (last (signals k s) (holds (told val a) n)).
Proof.
  intros fuel a n b val s k H K. destruct (follow _ _ _ _ H k) as [-> ->].
  replace (told val (a ++ QNew (Some n) :: b)) with (fold_left tell b (told val (a ++ [QNew (Some n)]))).
  2:{ unfold QtSpec.told. now rewrite <- fold_left_app, <- app_assoc. }
  destruct (said_last b k n (holds (told val a) n) (told val (a ++ [QNew (Some n)]))) as [A B]; auto.
  - rewrite told_snoc. unfold shown. cbn. rewrite app_nth2 by (unfold k; lia). unfold k. now rewrite Nat.sub_diag.
  - rewrite told_snoc. cbn. now rewrite said_later by (unfold k; lia).
  - rewrite A. unfold seen. now rewrite B.
Qed.

(** ** Writing *)
Theorem write : forall fuel l (val : nat -> V) s s' k v,
  (forall a b, veq a b = true <-> a = b) ->
  qrun fuel l (qinit val) = Fine s -> qstep fuel (QSet k v) s = Fine s' ->
  exists n u, shown k (told val l) = Some (Some n) /\ read k s = Value u /\
  forall j,
    (shown j (told val l) = Some (Some n) ->
       read j s' = Value v /\ (u = v -> signals j s' = signals j s) /\ (u <> v -> signals j s' = signals j s ++ [v])) /\
    (shown j (told val l) <> Some (Some n) -> read j s' = read j s /\ signals j s' = signals j s).
Proof.
  intros fuel l val s s' k v Ve H Hs.
  assert (H' : qrun fuel (l ++ [QSet k v]) (qinit val) = Fine s') by (rewrite run_app, H; cbn [QtModel.qrun]; now rewrite Hs).
  destruct (run_sound _ _ _ _ H') as [A _]. destruct (A l (QSet k v) [] eq_refl) as [n Sn].
  pose proof (follow _ _ _ _ H) as F. pose proof (follow _ _ _ _ H') as F'. rewrite told_snoc in F'. cbn [QtSpec.tell] in F'.
  rewrite Sn in F'. set (y := told val l) in *.
  exists n, (holds y n). split; [auto|]. split; [destruct (F k) as [_ ->]; now rewrite Sn|].
  intros j. destruct (F j) as [-> ->], (F' j) as [-> ->].
  destruct (veq v (holds y n)) eqn:E.
  - apply Ve in E. subst v. split; intros Sj.
    + rewrite Sj. cbn. repeat split; auto. intros C. contradiction.
    + auto.
  - assert (Ne : v <> holds y n) by (intros C; apply Ve in C; congruence).
    change (shown j (change n v y)) with (shown j y). split; intros Sj.
    + cbn. rewrite Sj. cbn. rewrite Nat.eqb_refl. repeat split; auto. intros C. symmetry in C. contradiction.
    + cbn. destruct (shown j y) as [[m|]|]; cbn; rewrite ?app_nil_r; auto.
      destruct (Nat.eqb_spec m n) as [->|]; [contradiction|]. rewrite app_nil_r. auto.
Qed.
End Proofs.
