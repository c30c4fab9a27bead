(** All passes of a run; when behaviour is undefined. *)
From Coq Require Import List Arith Bool Lia.
From Verif Require Import WatchModel WatchSpec WatchFrame WatchPass.
Import ListNotations.

Section Log.
Context {V : Type}.
Notation event := (event V).
Notation op := (op V).
Notation st := (st V).

Definition right_calls (p : nat) (w : list (nat * list nat)) (l : list event) : Prop :=
  undisturbed p l -> filter (among (kept w l)) (own p l) = kept w l.
Definition okl (l : list event) : Prop :=
  (forall l1 l2 p w, l = l2 ++ EPass p w :: l1 -> length l1 = p) /\
  (forall p w l1 l2 l3, l = l3 ++ EPassed p :: l2 ++ EPass p w :: l1 -> right_calls p w l2).

Lemma okl_nil : okl [].
Proof.
  split.
  - intros l1 l2 p w H. destruct l2; discriminate.
  - intros p w l1 l2 l3 H. destruct l3; discriminate.
Qed.
Lemma okl_cons : forall e l, okl l -> (forall p w, e <> EPass p w) -> (forall p, e <> EPassed p) -> okl (e :: l).
Proof.
  intros e l [A B] N1 N2. split.
  - intros l1 [|x l2] p w H; cbn in H; injection H as -> H; [now contradiction (N1 p w)|eauto].
  - intros p w l1 l2 [|x l3] H; cbn in H; injection H as -> H; [now contradiction (N2 p)|eauto].
Qed.
Lemma okl_pass : forall w l, okl l -> okl (EPass (length l) w :: l).
Proof.
  intros w l [A B]. split.
  - intros l1 [|x l2] p w' H; cbn in H; [injection H as <- _ <-; auto|injection H as _ H; eauto].
  - intros p w' l1 l2 [|x l3] H; cbn in H; [discriminate|injection H as _ H; eauto].
Qed.
Lemma okl_passed : forall p w l1 l2, okl (l2 ++ EPass p w :: l1) -> right_calls p w l2 ->
  okl (EPassed p :: l2 ++ EPass p w :: l1).
Proof.
  intros p w l1 l2 [A B] R. split.
  - intros k1 [|x k2] q w' H; cbn in H; [discriminate|]. injection H as _ H. eapply A, H.
  - intros q w' k1 k2 [|x k3] H; cbn in H.
    + injection H as <- H. pose proof (A _ _ _ _ eq_refl) as P1. pose proof (A _ _ _ _ H) as P2.
      assert (length l2 = length k2).
      { apply (f_equal (@length event)) in H. rewrite !app_length in H. cbn in H. lia. }
      assert (l2 = k2 /\ EPass p w :: l1 = EPass p w' :: k1) as [-> E].
      { clear - H H0. revert k2 H H0. induction l2 as [|y l2 IH]; intros [|z k2] H L; try discriminate; auto.
        cbn in H. injection H as -> H. destruct (IH k2 H) as [-> ?]; auto. }
      injection E as <- <-. auto.
    + injection H as _ H. eapply B, H.
Qed.

Lemma kept_attached : forall (s : st) n (l : list event),
  kept (attached s n) l = cat s (filter (fun r => negb (dropped l r)) (obs s n)).
Proof.
  intros. unfold kept, attached, cat. induction (obs s n) as [|r q IH]; auto.
  cbn [map filter fst]. destruct (dropped l r); cbn [negb flat_map snd]; auto. now rewrite IH.
Qed.

Lemma notify_right : forall fuel p n v (s s' : st) (new : list event),
  inv s -> p < length (log s) -> exec fuel (TPass p n (hd_error (obs s n)) v) s = Done s' ->
  log s' = new ++ log s -> right_calls p (attached s n) new.
Proof.
  intros fuel p n v s s' new I Lp H En U. rewrite kept_attached.
  destruct (pass_calls _ _ _ _ _ _ _ _ [] (obs s n) I Lp H En eq_refl eq_refl U) as [_ B]. exact B.
Qed.
Lemma nudge_right : forall fuel p r v (s s' : st) (new : list event),
  inv s -> p < length (log s) -> exec fuel (TReader p r v) s = Done s' ->
  log s' = new ++ log s -> right_calls p [(r, ids s r)] (EEnd p r :: new).
Proof.
  intros fuel p r v s s' new I Lp H En U.
  destruct (reader_calls _ _ _ _ _ _ _ I Lp H En) as (A & B & (mid & Em & Nm)).
  assert (D : dropped new r = false).
  { rewrite Em, dropped_app. rewrite (U r [] mid []); auto. now rewrite Em. }
  assert (O : own p (EEnd p r :: new) = own p new).
  { change (EEnd p r :: new) with ([EEnd p r] ++ new). rewrite own_app. apply app_nil_r. }
  rewrite O. unfold kept. cbn [filter fst]. change (dropped (EEnd p r :: new) r) with (dropped new r).
  rewrite D. cbn. rewrite app_nil_r. rewrite <- (B D) at 2.
  apply filter_ext_in. intros x Hx. destruct (A x Hx) as [X|X].
  - rewrite (proj2 (Nat.ltb_lt _ _)) by (eapply i_lt; eauto). now apply among_in.
  - rewrite (proj2 (Nat.ltb_ge _ _)) by auto. apply among_not. intros C. apply (i_lt _ I) in C. lia.
Qed.

Lemma relink_log : forall r o (s : st), log (relink r o s) = log s.
Proof. intros. unfold relink. destruct (cbs o), (node o); auto. Qed.
Lemma watch_log : forall r f o (s : st), log (do_watch r f o s) = log s.
Proof. intros. unfold do_watch. destruct (cbs o), (node o); auto. Qed.
Lemma expire_log : forall l (s : st), okl (log s) -> okl (log (fold_left (fun s r => unlink r s) l s)).
Proof.
  induction l as [|r l IH]; intros s H; auto. cbn [fold_left]. apply IH. cbn.
  apply okl_cons; auto; discriminate.
Qed.

Ltac no_end H := now contradiction (ends_misuse _ H).

Lemma exec_log : forall fuel t (s s' : st), inv s -> okl (log s) ->
  match task_pass t with Some p => p < length (log s) | None => True end ->
  ends (exec fuel t s) s' -> okl (log s').
Proof.
  induction fuel as [|fl IH]; intros t s s' I O Lp H; [destruct H as [H|[w H]]; discriminate|].
  destruct t as [l|p n [r|] v|p r v|p r [c|] v]; cbn [exec task_pass] in *.
  - destruct l as [|x l]; [apply ends_done in H; subst; auto|].
    assert (K : forall s1, good 0 s s1 None -> okl (log s1) -> ends (exec fl (TOps l) s1) s' -> okl (log s')).
    { intros s1 G O1 E. apply (IH (TOps l) _ _ (proj1 G) O1 Logic.I E). }
    destruct x.
    + eapply K; [| |exact H]; auto. destruct (new_ok n s I). apply good_frame; auto.
    + destruct (get r s) as [o|] eqn:G; [|no_end H]. eapply K; [| |exact H]; auto.
      destruct (new_ok (node o) s I). apply good_frame; auto.
    + destruct (get r s) as [o|] eqn:G; [|no_end H]. eapply K; [| |exact H]; auto. apply move_good; auto.
    + destruct (get r s) as [o|] eqn:G; [|no_end H]. destruct (get r' s) as [o'|] eqn:G'; [|no_end H].
      eapply K; [| |exact H]; [apply assign_good; auto|]. rewrite relink_log. cbn. apply okl_cons; auto; discriminate.
    + destruct (get r s) as [o|] eqn:G; [|no_end H]. destruct (get r' s) as [o'|] eqn:G'; [|no_end H].
      eapply K; [| |exact H]; [apply move_assign_good; auto|]. rewrite relink_log. cbn. apply okl_cons; auto; discriminate.
    + destruct (get r s) as [o|] eqn:G; [|no_end H]. eapply K; [| |exact H].
      * destruct (watch_ok r f o s G I). apply good_frame; auto.
      * now rewrite watch_log.
    + destruct (get r s) as [o|] eqn:G; [|no_end H]. destruct (node o) as [n|]; [|apply ends_undefined in H; subst; auto].
      set (s0 := emit (EBind r (value s n)) s) in *.
      assert (G0 : good 0 s s0 None) by (apply good_emit; [auto|discriminate|exact Logic.I]).
      assert (O0 : okl (log s0)) by (apply okl_cons; auto; discriminate).
      apply andthen_ends in H as [(s1 & H1 & H)|[H1 _]].
      * apply ends_of in H1. pose proof (IH (TOps _) _ _ (proj1 G0) O0 Logic.I H1) as O1.
        apply (exec_good _ _ 0) in H1 as G1; [|apply G0|lia].
        destruct (get r s1) as [o1|] eqn:Gr; [|apply ends_undefined in H; subst; auto].
        eapply K; [| |exact H].
        -- eapply good_trans; [exact G0|]. eapply good_trans; [exact G1|].
           destruct (watch_ok r f o1 s1 Gr (proj1 G1)). apply good_frame; auto.
        -- now rewrite watch_log.
      * apply (IH (TOps _) _ _ (proj1 G0) O0 Logic.I H1).
    + destruct (get r s) as [o|] eqn:G; [|no_end H]. destruct (node o) as [n|]; [|apply ends_undefined in H; subst; auto].
      set (p := length (log s)) in *. set (s0 := emit (EPass p [(r, ids s r)]) s) in *.
      assert (I0 : inv s0) by now apply emit_inv.
      assert (O0 : okl (log s0)) by now apply okl_pass.
      assert (Lp0 : p < length (log s0)) by (unfold s0; cbn; lia).
      apply andthen_ends in H as [(s1 & H1 & H)|[H1 _]].
      * assert (H1' := ends_of _ _ H1). pose proof (IH (TReader p r (value s n)) _ _ I0 O0 Lp0 H1') as O1.
        destruct (run_new _ _ _ _ I0 H1') as (I1 & new & L1 & F1 & P1).
        assert (G1 : good 0 s s1 None).
        { split; auto. exists (new ++ [EPass p [(r, ids s r)]]). split.
          - eapply frame_trans; [apply emit_frame; discriminate|exact F1].
          - apply Forall_forall. intros e _. unfold fresh. destruct (pass_of e); auto. left. lia. }
        eapply K; [| |exact H].
        -- eapply good_trans; [exact G1|]. apply (good_trans _ _ (emit (EEnd p r) s1)); apply good_emit;
             try discriminate; try (unfold fresh; cbn; left; lia); auto. now apply emit_inv.
        -- cbn. rewrite L1 in *. cbn in *. change (EEnd p r :: new ++ EPass p [(r, ids s r)] :: log s)
             with ((EEnd p r :: new) ++ EPass p [(r, ids s r)] :: log s). apply okl_passed; auto.
           ++ cbn. apply okl_cons; auto; discriminate.
           ++ apply (nudge_right _ _ _ _ _ _ _ I0 Lp0 H1 L1).
      * apply (IH (TReader p r (value s n)) _ _ I0 O0 Lp0 H1).
    + destruct (get r s) as [o|] eqn:G; [|no_end H]. eapply K; [| |exact H]; [eapply clear_good; eauto|].
      cbn. apply okl_cons; auto; discriminate.
    + destruct (get r s) as [o|] eqn:G; [|no_end H]. eapply K; [| |exact H]; [eapply clear_good; eauto|].
      cbn. apply okl_cons; auto; discriminate.
    + set (p := length (log s)) in *. set (s0 := emit _ _) in H.
      assert (I0 : inv s0) by now apply emit_inv, value_inv.
      assert (O0 : okl (log s0)) by (apply okl_pass; auto).
      assert (Lp0 : p < length (log s0)) by (unfold s0; cbn; lia).
      assert (F0 : frame s s0 [EPass p (attached s n)]).
      { apply (frame_trans _ _ _ [] [EPass p (attached s n)] (value_frame n v s)). apply emit_frame. discriminate. }
      apply andthen_ends in H as [(s1 & H1 & H)|[H1 _]].
      * assert (H1' := ends_of _ _ H1). pose proof (IH (TPass p n _ v) _ _ I0 O0 Lp0 H1') as O1.
        destruct (run_new _ _ _ _ I0 H1') as (I1 & new & L1 & F1 & P1).
        assert (G1 : good 0 s s1 None).
        { split; auto. exists (new ++ [EPass p (attached s n)]). split.
          - eapply frame_trans; [exact F0|exact F1].
          - apply Forall_forall. intros e _. unfold fresh. destruct (pass_of e); auto. left. lia. }
        eapply K; [| |exact H].
        -- eapply good_trans; [exact G1|]. apply good_emit; [auto|discriminate|]. unfold fresh. cbn. left. lia.
        -- cbn. rewrite L1 in *. cbn in *. apply okl_passed; auto.
           apply (notify_right _ _ _ _ _ _ _ I0 Lp0 H1 L1).
      * apply (IH (TPass p n _ v) _ _ I0 O0 Lp0 H1).
    + destruct (existsb _ _); [no_end H|]. eapply K; [| |exact H]; [apply expire_good; auto|]. now apply expire_log.
  - apply andthen_ends in H as [(s1 & H1 & H)|[H1 _]].
    + apply ends_of in H1. pose proof (IH (TReader p r v) _ _ I O Lp H1) as O1.
      apply (exec_good _ _ 0) in H1 as G1; [|auto|lia]. pose proof (good_len _ _ _ _ G1).
      destruct (after r (obs s1 n)) as [r'|] eqn:E; [|apply ends_undefined in H; subst; auto].
      apply (IH (TPass p n r' v) (emit (EEnd p r) s1)); auto; [apply emit_inv, G1| |cbn; lia].
      apply okl_cons; auto; discriminate.
    + apply (IH (TReader p r v) s); auto.
  - apply ends_done in H. subst. auto.
  - set (s0 := emit (EBegin p r) s) in *.
    assert (I0 : inv s0) by now apply emit_inv.
    assert (O0 : okl (log s0)) by (apply okl_cons; auto; discriminate).
    assert (Lp0 : p < length (log s0)) by (unfold s0; cbn; lia).
    destruct (get r s0) as [o|] eqn:G; [|apply ends_undefined in H; subst; auto].
    apply (IH (TSlots p r _ v) _ _ I0 O0 Lp0 H).
  - destruct (get r s) as [o|] eqn:G; [|apply ends_undefined in H; subst; auto].
    destruct (find c (cbs o)) as [f|]; [|apply ends_undefined in H; subst; auto].
    set (s0 := emit (ECall p c v) s) in *.
    assert (I0 : inv s0) by now apply emit_inv.
    assert (O0 : okl (log s0)) by (apply okl_cons; auto; discriminate).
    apply andthen_ends in H as [(s1 & H1 & H)|[H1 _]].
    + apply ends_of in H1. pose proof (IH (TOps _) _ _ I0 O0 Logic.I H1) as O1.
      apply (exec_good _ _ 0) in H1 as G1; [|auto|lia]. pose proof (good_len _ _ _ _ G1) as L1. cbn in L1.
      destruct (get r s1) as [o2|]; [|apply ends_undefined in H; subst; auto].
      destruct (after c _) as [c'|]; [|apply ends_undefined in H; subst; auto].
      apply (IH (TSlots p r c' v) s1); auto; [apply G1|]. cbn. lia.
    + apply (IH (TOps _) _ _ I0 O0 Logic.I H1).
  - apply ends_done in H. subst. auto.
Qed.

Theorem every_pass : forall fuel prog val s p w l1 l2 l3,
  ends (exec fuel (TOps prog) (init val : st)) s ->
  log s = l3 ++ EPassed p :: l2 ++ EPass p w :: l1 ->
  undisturbed p l2 -> filter (among (kept w l2)) (own p l2) = kept w l2.
Proof.
  intros fuel prog val s p w l1 l2 l3 H E.
  destruct (exec_log fuel (TOps prog) (init val) s (inv_init val) okl_nil Logic.I H) as [_ B].
  apply (B _ _ _ _ _ E).
Qed.

(** ** Undefined behaviour *)
(** Where a task can be in the lists. *)
Definition placed (t : task V) (s : st) : Prop :=
  match t with
  | TOps _ => True
  | TPass p n r _ => p < length (log s) /\ forall q, r = Some q -> In q (obs s n)
  | TReader p r _ => p < length (log s) /\ exists o, get r s = Some o
  | TSlots p r c _ => p < length (log s) /\ forall q, c = Some q -> In q (ids s r)
  end.
(** [new]: what happened since the task was started. *)
Definition blame (t : task V) (new : list event) : Prop :=
  pulled_away new \/
  match t with TSlots p r _ _ => dropped new r = true /\ ~ In (EEnd p r) new | _ => False end.

Lemma pulled_app : forall (a b : list event), pulled_away b -> pulled_away (b ++ a).
Proof.
  intros a b [(p & r & l1 & l2 & -> & N & D)|(r & v & l1 & l2 & -> & D)].
  - left. exists p, r, (l1 ++ a), l2. rewrite <- app_assoc. auto.
  - right. exists r, v, (l1 ++ a), l2. rewrite <- app_assoc. auto.
Qed.

Lemma gone_dropped : forall (s s' : st) (new : list event) r o, frame s s' new -> get r s = Some o -> get r s' = None -> dropped new r = true.
Proof.
  intros s s' new r o F H H'. destruct (dropped new r) eqn:D; auto.
  destruct (f_keep _ _ _ F r o H D) as (o' & _ & H2 & _). congruence.
Qed.

Lemma exec_blame : forall fuel t (s s' : st), inv s -> placed t s ->
  exec fuel t s = Undefined s' Astray -> exists new, log s' = new ++ log s /\ blame t new.
Proof.
  induction fuel as [|fl IH]; intros t s s' I Pl H; [discriminate|].
  destruct t as [l|p n [r|] v|p r v|p r [c|] v]; cbn [exec] in H.
  - destruct l as [|x l]; [discriminate|].
    assert (K : forall s1, good 0 s s1 None -> exec fl (TOps l) s1 = Undefined s' Astray ->
              exists new, log s' = new ++ log s /\ blame (TOps l) new).
    { intros s1 [I1 (n1 & F1 & _)] E. destruct (IH (TOps _) _ _ I1 Logic.I E) as (n2 & L2 & [B|[]]).
      exists (n2 ++ n1). rewrite L2, (f_log _ _ _ F1), app_assoc. split; auto. left. now apply pulled_app. }
    destruct x.
    + eapply K; [|exact H]. destruct (new_ok n s I). apply good_frame; auto.
    + destruct (get r s) as [o|] eqn:G; [|discriminate]. eapply K; [|exact H].
      destruct (new_ok (node o) s I). apply good_frame; auto.
    + destruct (get r s) as [o|] eqn:G; [|discriminate]. eapply K; [|exact H]. apply move_good; auto.
    + destruct (get r s) as [o|] eqn:G; [|discriminate]. destruct (get r' s) as [o'|] eqn:G'; [|discriminate].
      eapply K; [|exact H]. apply assign_good; auto.
    + destruct (get r s) as [o|] eqn:G; [|discriminate]. destruct (get r' s) as [o'|] eqn:G'; [|discriminate].
      eapply K; [|exact H]. apply move_assign_good; auto.
    + destruct (get r s) as [o|] eqn:G; [|discriminate]. eapply K; [|exact H].
      destruct (watch_ok r f o s G I). apply good_frame; auto.
    + destruct (get r s) as [o|] eqn:G; [|discriminate]. destruct (node o) as [n|]; [|discriminate].
      set (s0 := emit (EBind r (value s n)) s) in *.
      assert (I0 : inv s0) by now apply emit_inv.
      destruct (exec fl (TOps (f (log s0))) s0) as [s1| |s1 w|] eqn:H1; try discriminate; cbn [andthen] in H.
      * destruct (run_new _ _ _ _ I0 (ends_of _ _ H1)) as (I1 & n1 & L1 & F1 & _).
        assert (F : frame s s1 (n1 ++ [EBind r (value s n)])).
        { eapply frame_trans; [apply emit_frame; discriminate|exact F1]. }
        destruct (get r s1) as [o1|] eqn:Gr.
        -- eapply K; [|exact H]. apply (good_trans _ _ s1).
           ++ split; auto. eexists. split; [exact F|]. apply Forall_forall. intros e _.
              unfold fresh. destruct (pass_of e); auto. left. lia.
           ++ destruct (watch_ok r f o1 s1 Gr I1). apply good_frame; auto.
        -- injection H as <-. exists (n1 ++ [EBind r (value s n)]). split; [apply F|].
           left. right. exists r, (value s n), [], n1. split; auto. eapply gone_dropped; eauto.
      * injection H as -> ->. destruct (IH (TOps _) _ _ I0 Logic.I H1) as (n1 & L1 & [B|[]]).
        exists (n1 ++ [EBind r (value s n)]). rewrite L1, <- app_assoc. split; auto. left. now apply pulled_app.
    + destruct (get r s) as [o|] eqn:G; [|discriminate]. destruct (node o) as [n|]; [|discriminate].
      set (p := length (log s)) in *. set (s0 := emit (EPass p [(r, ids s r)]) s) in *.
      assert (I0 : inv s0) by now apply emit_inv.
      destruct (exec fl (TReader p r (value s n)) s0) as [s1| |s1 w|] eqn:H1; try discriminate; cbn [andthen] in H.
      * destruct (run_new _ _ _ _ I0 (ends_of _ _ H1)) as (I1 & n1 & L1 & F1 & _).
        eapply K; [|exact H]. apply (good_trans _ _ s1).
        -- split; auto. exists (n1 ++ [EPass p [(r, ids s r)]]). split.
           ++ eapply frame_trans; [apply emit_frame; discriminate|exact F1].
           ++ apply Forall_forall. intros e _. unfold fresh. destruct (pass_of e); auto. left. lia.
        -- apply (good_trans _ _ (emit (EEnd p r) s1)); apply good_emit;
             try discriminate; try (unfold fresh; cbn; left; lia); auto. now apply emit_inv.
      * injection H as -> ->. destruct (fun P => IH _ _ _ I0 P H1) as (n1 & L1 & [B|[]]).
        { cbn. split; [lia|]. exists o. auto. }
        exists (n1 ++ [EPass p [(r, ids s r)]]). rewrite L1, <- app_assoc. split; auto. left. now apply pulled_app.
    + destruct (get r s) as [o|] eqn:G; [|discriminate]. eapply K; [|exact H]. eapply clear_good; eauto.
    + destruct (get r s) as [o|] eqn:G; [|discriminate]. eapply K; [|exact H]. eapply clear_good; eauto.
    + set (p := length (log s)) in *. set (s0 := emit _ _) in H.
      assert (I0 : inv s0) by now apply emit_inv, value_inv.
      assert (F0 : frame s s0 [EPass p (attached s n)]).
      { apply (frame_trans _ _ _ [] [EPass p (attached s n)] (value_frame n v s)). apply emit_frame. discriminate. }
      destruct (exec fl (TPass p n _ v) s0) as [s1| |s1 w|] eqn:H1; try discriminate; cbn [andthen] in H.
      * destruct (run_new _ _ _ _ I0 (ends_of _ _ H1)) as (I1 & n1 & L1 & F1 & _).
        eapply K; [|exact H]. apply (good_trans _ _ s1).
        -- split; auto. exists (n1 ++ [EPass p (attached s n)]). split.
           ++ eapply frame_trans; [exact F0|exact F1].
           ++ apply Forall_forall. intros e _. unfold fresh. destruct (pass_of e); auto. left. lia.
        -- apply good_emit; [auto|discriminate|]. unfold fresh. cbn. left. lia.
      * injection H as -> ->. destruct (fun P => IH _ _ _ I0 P H1) as (n1 & L1 & [B|[]]).
        { cbn. split; [lia|]. intros q Hq. destruct (obs s n); [discriminate|]. injection Hq as <-. now left. }
        exists (n1 ++ [EPass p (attached s n)]). rewrite L1, <- app_assoc. split; auto. left. now apply pulled_app.
    + destruct (existsb _ _); [discriminate|]. eapply K; [|exact H]. apply expire_good; auto.
  - destruct Pl as [Lp Pl]. specialize (Pl r eq_refl).
    destruct (i_alive _ I n r Pl) as (o & Ho & _).
    destruct (exec fl (TReader p r v) s) as [s1| |s1 w|] eqn:H1; try discriminate; cbn [andthen] in H.
    + destruct (run_new _ _ _ _ I (ends_of _ _ H1)) as (I1 & n1 & L1 & F1 & _).
      destruct (after r (obs s1 n)) as [r'|] eqn:E.
      * assert (I1' : inv (emit (EEnd p r) s1)) by now apply emit_inv.
        destruct (fun P => IH _ _ _ I1' P H) as (n2 & L2 & [B|[]]).
        { cbn. split; [rewrite L1, app_length; lia|]. intros q ->.
          apply after_spec in E as (a & b & E & _ & Eb). destruct b; [discriminate|]. injection Eb as ->.
          rewrite E. apply in_or_app. right. right. now left. }
        exists (n2 ++ EEnd p r :: n1). rewrite L2. cbn. rewrite L1, <- app_assoc. split; auto.
        left. now apply pulled_app.
      * injection H as <-. exists n1. split; auto. left. left.
        destruct (reader_calls _ _ _ _ _ _ _ I Lp H1 L1) as (_ & _ & mid & Em & Nm).
        (* the slot left the list while its callbacks were called *)
        assert (D : dropped n1 r = true).
        { destruct (dropped n1 r) eqn:D; auto. exfalso. apply after_none in E. apply E.
          destruct (f_obs _ _ _ F1 n) as (ad & Ead & _).
          assert (X : In r (filter (fun r => negb (dropped n1 r)) (obs s1 n))).
          { rewrite Ead. apply in_or_app. left. apply filter_In. split; auto. now rewrite D. }
          apply filter_In in X. tauto. }
        exists p, r, [], mid. rewrite Em in D |- *. split; [auto|split; auto].
        rewrite dropped_app in D. now rewrite orb_false_r in D.
    + injection H as -> ->. destruct (fun P => IH _ _ _ I P H1) as (n1 & L1 & [B|[]]).
      { cbn. eauto. }
      exists n1. split; auto. now left.
  - discriminate.
  - destruct Pl as [Lp [o Ho]]. set (s0 := emit (EBegin p r) s) in *.
    change (get r s0) with (get r s) in H. rewrite Ho in H.
    assert (I0 : inv s0) by now apply emit_inv.
    destruct (fun P => IH _ _ _ I0 P H) as (n1 & L1 & B).
    { cbn. split; [lia|]. intros q Hq. change (ids s0 r) with (ids s r). rewrite (ids_get _ _ _ Ho).
      destruct (map fst (cbs o)); [discriminate|]. injection Hq as <-. now left. }
    exists (n1 ++ [EBegin p r]). rewrite L1, <- app_assoc. split; auto. left.
    destruct B as [B|[D N]]; [now apply pulled_app|]. left. exists p, r, [], n1. auto.
  - destruct Pl as [Lp Pl]. specialize (Pl c eq_refl). unfold ids in Pl.
    destruct (get r s) as [o|] eqn:G; [|contradiction].
    destruct (found c (cbs o) Pl) as [f Ef]. rewrite Ef in H.
    set (s0 := emit (ECall p c v) s) in *. assert (I0 : inv s0) by now apply emit_inv.
    destruct (exec fl (TOps (f (log s0))) s0) as [s1| |s1 w|] eqn:H1; try discriminate; cbn [andthen] in H.
    + destruct (run_new _ _ _ _ I0 (ends_of _ _ H1)) as (I1 & n1 & L1 & F1 & P1). cbn [task_pass] in P1.
      assert (Lp1 : p < length (log s1)) by (rewrite L1, app_length; unfold s0; cbn; lia).
      assert (NE : ~ In (EEnd p r) (n1 ++ [ECall p c v])).
      { intros C. apply in_app_or in C as [C|[C|[]]]; [|discriminate]. rewrite Forall_forall in P1.
        apply P1 in C. cbn in C. unfold s0 in C. cbn in C. destruct C; [lia|discriminate]. }
      assert (Ls : log s1 = (n1 ++ [ECall p c v]) ++ log s) by (rewrite L1, <- app_assoc; auto).
      assert (F : frame s s1 (n1 ++ [ECall p c v])).
      { eapply frame_trans; [apply emit_frame; discriminate|exact F1]. }
      destruct (get r s1) as [o1|] eqn:G1.
      2:{ injection H as <-. exists (n1 ++ [ECall p c v]). split; auto. right. split; auto.
          eapply gone_dropped; eauto. }
      destruct (after c (map fst (cbs o1))) as [c'|] eqn:E.
      * destruct (fun P => IH _ _ _ I1 P H) as (n2 & L2 & B).
        { cbn. split; auto. intros q ->. rewrite (ids_get _ _ _ G1).
          apply after_spec in E as (a & b & E & _ & Eb). destruct b; [discriminate|]. injection Eb as ->.
          rewrite E. apply in_or_app. right. right. now left. }
        exists (n2 ++ n1 ++ [ECall p c v]). rewrite L2, Ls, app_assoc. split; auto.
        destruct B as [B|[D N]]; [left; now apply pulled_app|]. right. split.
        -- rewrite dropped_app, D. auto.
        -- intros C. apply in_app_or in C as [C|C]; auto.
      * injection H as <-. exists (n1 ++ [ECall p c v]). split; auto. right. split; auto.
        destruct (dropped (n1 ++ [ECall p c v]) r) eqn:D; auto. exfalso.
        destruct (keep_ids _ _ _ r F D) as (ext & Ex & _); eauto.
        apply after_none in E. apply E. rewrite <- (ids_get _ _ _ G1), Ex, (ids_get _ _ _ G).
        apply in_or_app. auto.
    + injection H as -> ->. destruct (IH (TOps _) _ _ I0 Logic.I H1) as (n1 & L1 & [B|[]]).
      exists (n1 ++ [ECall p c v]). rewrite L1, <- app_assoc. split; auto. left. now apply pulled_app.
  - discriminate.
Qed.

Theorem only_if_pulled_away : forall fuel prog val s,
  exec fuel (TOps prog) (init val : st) = Undefined s Astray -> pulled_away (log s).
Proof.
  intros fuel prog val s H.
  destruct (exec_blame _ (TOps _) _ _ (inv_init val) Logic.I H) as (new & E & [B|[]]).
  rewrite E. now apply pulled_app.
Qed.
End Log.
