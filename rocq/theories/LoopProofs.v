(** Proofs about the manual and the queue loop. *)
From Coq Require Import List Arith Bool Lia.
From Verif Require Import LoopModel LoopSpec.
Import ListNotations.

Section Proofs.
Variables (J W : Type) (code : J -> prog J W) (manual : bool).
Notation exec := (exec code manual).
Notation st := (st J W).

(** ** Queue lemmas *)
Lemma waiting_app : forall (a b : queue J), waiting (a ++ b) = waiting a ++ waiting b.
Proof. intros. unfold waiting. apply flat_map_app. Qed.
Definition moved (q : queue J) := Forall (fun e => snd e = None) q.
Definition present (q : queue J) := Forall (fun e => snd e <> None) q.
Lemma waiting_moved : forall q, moved q -> waiting q = [].
Proof. induction 1; simpl; auto. now rewrite H. Qed.
Lemma waiting_present : forall q, present q -> waiting q = map fst q.
Proof.
  induction 1 as [|[id [j|]] q H]; simpl; auto; [now f_equal|]. now destruct H.
Qed.
Lemma move_out_split : forall (a : queue J) id j b,
  move_out (length a) (a ++ (id, Some j) :: b) = a ++ (id, None) :: b.
Proof. induction a as [|[x y] a IH]; intros; simpl; auto. now rewrite IH. Qed.

(** ** Posting only *)
Inductive posts : st -> st -> Prop :=
| p_none s : posts s s
| p_push s s1 j : posts s s1 -> posts s (do_push j s1)
| p_put s s1 w : posts s s1 -> posts s (St (q s1) (idx s1) (next s1) w (log s1)).
Lemma posts_trans : forall a b c, posts a b -> posts b c -> posts a c.
Proof. intros a b c H H0. induction H0; auto; constructor; auto. Qed.
Lemma posts_idx : forall a b, posts a b -> idx b = idx a.
Proof. induction 1; simpl; auto. Qed.

(** Code running inside a function of the loop only posts. *)
Definition inside (r : res J W) (s : st) : Prop :=
  match r with Done s' | Thrown s' => posts s s' | Moved => False | _ => True end.
Lemma body_posts : forall fuel p s,
  (if manual then idx s <> 0 else no_step p) -> inside (exec fuel (TProg p) s) s.
Proof.
  induction fuel as [|f IH]; intros p s HP; [exact I|].
  assert (Seq : forall s s1 p, posts s s1 -> (if manual then idx s <> 0 else no_step p) ->
     inside (exec f (TProg p) s1) s).
  { intros s0 s1 p0 P H. assert (Q : inside (exec f (TProg p0) s1) s1).
    { apply IH. destruct manual; auto. now rewrite (posts_idx _ _ P). }
    destruct (exec f (TProg p0) s1); simpl in *; auto; eapply posts_trans; eauto. }
  destruct p as [| |j k|k|k|w k|p k]; cbn [LoopModel.exec].
  - constructor.
  - constructor.
  - destruct f as [|f]; [exact I|].
    assert (E : exec (S f) (TPost j) s = Done (do_push j s)).
    { cbn [LoopModel.exec]. destruct manual; auto.
      change (idx (do_push j s)) with (idx s). destruct (Nat.eqb_spec (idx s) 0); auto. now destruct HP. }
    rewrite E. cbn [andthen]. apply Seq; [repeat constructor|].
    destruct manual; auto. now inversion HP.
  - destruct manual; [exact I|]. inversion HP.
  - apply Seq; [constructor|]. destruct manual; auto. inversion HP; auto.
  - apply (Seq s (St (q s) (idx s) (next s) w (log s))); [apply p_put; constructor|].
    destruct manual; auto. now inversion HP.
  - assert (P : inside (exec f (TProg p) s) s).
    { apply IH. destruct manual; auto. now inversion HP. }
    destruct (exec f (TProg p) s) as [s1|s1| | |]; simpl in P; auto.
    + apply Seq; auto. destruct manual; auto. inversion HP; auto.
    + apply Seq; auto. destruct manual; auto. inversion HP; auto.
Qed.

(** ** Invariant; [c] functions of the queue were taken *)
Definition ordered (l : list event) : Prop :=
  forall l1 l2, l = l1 ++ l2 -> exists rest, ran l2 ++ rest = posted l2.
Record Inv (c : nat) (s : st) : Prop := {
  inv_posted : posted (log s) = seq 0 (next s);
  inv_order : ran (log s) ++ waiting (q s) = posted (log s);
  inv_split : exists a b, q s = a ++ b /\ length a = c /\ moved a /\ present b;
  inv_ordered : ordered (log s) }.

Lemma ordered_cons : forall e l, ordered l -> (exists rest, ran (e :: l) ++ rest = posted (e :: l)) ->
  ordered (e :: l).
Proof.
  intros e l H H0 [|e' l1] l2 E; simpl in E; [now subst|]. injection E as -> E. eauto.
Qed.

Lemma posts_Inv : forall s s', posts s s' -> forall c, Inv c s ->
  Inv c s' /\ running (log s') = running (log s) /\ failed (log s') = failed (log s) /\
  (exists b, q s' = q s ++ b).
Proof.
  induction 1 as [s|s s1 j H IH|s s1 w H IH]; intros c HI.
  - split; auto. split; auto. split; auto. exists []. now rewrite app_nil_r.
  - destruct (IH c HI) as (I1 & R1 & F1 & b & B1).
    destruct I1 as [A B (x & y & E & L & M & P) O].
    split; [|split; [exact R1|split; [exact F1|]]].
    + split; cbn [do_push log q next idx world posted ran].
      * rewrite A. symmetry. apply (seq_S (next s1) 0).
      * unfold push. rewrite waiting_app. simpl. rewrite app_assoc, B. reflexivity.
      * exists x, (y ++ [(next s1, Some j)]). unfold push. rewrite E, app_assoc.
        split; auto. split; auto. split; auto. apply Forall_app. split; auto.
        constructor; auto. discriminate.
      * apply ordered_cons; auto. exists (waiting (q s1) ++ [next s1]). simpl.
        now rewrite app_assoc, B.
    + exists (b ++ [(next s1, Some j)]). simpl. unfold push. now rewrite B1, app_assoc.
  - destruct (IH c HI) as (I1 & R1 & F1 & b & B1). split; [|split; [exact R1|split; [exact F1|]]].
    + destruct I1. split; auto.
    + exists b. exact B1.
Qed.

(** Taking the function at position [c]. *)
Lemma take_Inv : forall c s id oj i', Inv c s -> nth_error (q s) c = Some (id, oj) ->
  exists j, oj = Some j /\
  Inv (S c) (St (move_out c (q s)) i' (next s) (world s) (ERun id :: log s)).
Proof.
  intros c s id oj i' [A B (x & y & E & L & M & P) O] H.
  rewrite E, nth_error_app2 in H by lia. rewrite L, Nat.sub_diag in H.
  destruct y as [|[id' oj'] y]; [discriminate|]. simpl in H. injection H as -> ->.
  inversion P as [|? ? P1 P2]; subst. simpl in P1. destruct oj as [j|]; [|now destruct P1].
  exists j. split; auto.
  assert (B' : (ran (log s) ++ [id]) ++ waiting y = posted (log s)).
  { rewrite <- B, E, waiting_app, (waiting_moved x M). simpl. now rewrite <- app_assoc. }
  split; simpl; auto.
  - rewrite E, move_out_split, waiting_app, (waiting_moved x M). simpl. exact B'.
  - exists (x ++ [(id, None)]), y. rewrite E, move_out_split, <- app_assoc.
    split; auto. rewrite app_length. simpl. split; [lia|]. split; auto.
    apply Forall_app. split; auto.
  - apply ordered_cons; auto. exists (waiting y). simpl. exact B'.
Qed.
Lemma take_some : forall c s, Inv c s -> c < length (q s) ->
  exists id j, nth_error (q s) c = Some (id, Some j).
Proof.
  intros c s HI L. destruct (nth_error (q s) c) as [[id oj]|] eqn:E.
  - destruct (take_Inv c s id oj 0 HI E) as (j & -> & _). eauto.
  - apply nth_error_None in E. lia.
Qed.

Lemma emit_Inv : forall c e s, Inv c s -> (forall i, e <> EPost i) -> (forall i, e <> ERun i) ->
  Inv c (emit e s).
Proof.
  intros c e s [A B C O] H1 H2.
  assert (P : posted (e :: log s) = posted (log s) /\ ran (e :: log s) = ran (log s)).
  { destruct e; simpl; auto; [now destruct (H1 id)|now destruct (H2 id)]. }
  destruct P as [P1 P2]. split; unfold emit; cbn [log q next]; rewrite ?P1, ?P2; auto.
  apply ordered_cons; auto. rewrite P1, P2. eauto.
Qed.
Lemma clear_Inv : forall c s i, Inv c s -> length (q s) <= c ->
  Inv 0 (St [] i (next s) (world s) (log s)).
Proof.
  intros c s i [A B (x & y & E & L & M & P) O] HL.
  assert (y = []).
  { rewrite E, app_length in HL. destruct y; simpl in HL; auto. lia. }
  subst y. split; simpl; auto.
  - rewrite E, app_nil_r, (waiting_moved x M) in B. now rewrite B.
  - exists [], []. repeat split; auto; constructor.
Qed.
Lemma erase_Inv : forall c s i, Inv c s ->
  Inv 0 (St (erase c (q s)) i (next s) (world s) (log s)).
Proof.
  intros c s i [A B (x & y & E & L & M & P) O].
  assert (ER : erase c (q s) = y).
  { unfold erase. rewrite E, <- L, skipn_app, skipn_all, Nat.sub_diag. reflexivity. }
  split; cbn [q log next]; rewrite ?ER; auto.
  - rewrite <- B, E, waiting_app, (waiting_moved x M). reflexivity.
  - exists [], y. repeat split; auto; constructor.
Qed.

Lemma failed_app : forall l l', failed (l ++ l') = failed l ++ failed l'.
Proof. induction l as [|[] l IH]; intros; simpl; auto. now rewrite IH. Qed.

Definition no_steps := if manual then True else forall j, no_step (code j).
Hypothesis steps_ok : no_steps.

(** ** Draining *)
Lemma loop_drains : manual = true -> forall fuel s, Inv (idx s) s -> running (log s) = Some None ->
  match exec fuel TLoop s with
  | Done s' => Inv (idx s') s' /\ running (log s') = Some None /\ length (q s') <= idx s' /\
               failed (log s') = failed (log s) /\ idx s <= idx s'
  | Thrown s' => Inv (idx s') s' /\ running (log s') = Some None /\ 0 < idx s' /\
               exists id l, log s' = EFail id :: l /\ failed l = failed (log s)
  | Moved => False
  | _ => True
  end.
Proof.
  intros HM. induction fuel as [|f IH]; intros s HI HR; [exact I|].
  cbn [LoopModel.exec]. destruct (idx s <? length (q s)) eqn:C.
  2: { apply Nat.ltb_ge in C. auto. }
  apply Nat.ltb_lt in C. destruct (take_some _ _ HI C) as (id & j & E). rewrite E.
  destruct (take_Inv _ _ _ _ (S (idx s)) HI E) as (j' & E' & I1). injection E' as <-.
  set (s1 := St (move_out (idx s) (q s)) (S (idx s)) (next s) (world s) (ERun id :: log s)) in *.
  assert (R1 : running (log s1) = Some (Some id)) by (simpl; now rewrite HR).
  pose proof (body_posts f (code j) s1) as B.
  assert (HB : if manual then idx s1 <> 0 else no_step (code j)) by (rewrite HM; discriminate).
  specialize (B HB). destruct (exec f (TProg (code j)) s1) as [s2|s2| | |]; simpl in B; auto.
  - destruct (posts_Inv _ _ B _ I1) as (I2 & R2 & F2 & _). pose proof (posts_idx _ _ B) as X2.
    assert (I3 : Inv (idx (emit (EEnd id) s2)) (emit (EEnd id) s2)).
    { apply emit_Inv; try discriminate. simpl. now rewrite X2. }
    assert (R3 : running (log (emit (EEnd id) s2)) = Some None).
    { simpl. rewrite R2, R1, Nat.eqb_refl. reflexivity. }
    specialize (IH _ I3 R3). destruct (exec f TLoop (emit (EEnd id) s2)) as [s3|s3| | |]; auto.
    + destruct IH as (A & B' & C' & D & L). repeat split; auto; try apply A.
      * rewrite D. simpl. now rewrite F2.
      * simpl in L. rewrite X2 in L. simpl in L. lia.
    + destruct IH as (A & B' & C' & id' & l & E3 & D). repeat split; auto; try apply A.
      exists id', l. split; auto. rewrite D. simpl. now rewrite F2.
  - destruct (posts_Inv _ _ B _ I1) as (I2 & R2 & F2 & _). pose proof (posts_idx _ _ B) as X2.
    split; [|split; [|split]].
    + apply emit_Inv; try discriminate. simpl. now rewrite X2.
    + simpl. rewrite R2, R1, Nat.eqb_refl. reflexivity.
    + simpl. rewrite X2. simpl. lia.
    + exists id, (log s2). split; auto.
Qed.

Lemma step_drains : manual = false -> forall fuel i s, Inv i s -> running (log s) = Some None ->
  match exec fuel (TStep i) s with
  | Done s' => (exists c, Inv c s' /\ length (q s') <= c) /\ running (log s') = Some None /\
               failed (log s') = failed (log s) /\ idx s' = idx s
  | Thrown s' => Inv 0 s' /\ running (log s') = Some None /\ idx s' = idx s /\
               exists id l, log s' = EFail id :: l /\ failed l = failed (log s)
  | Moved => False
  | _ => True
  end.
Proof.
  intros HM. induction fuel as [|f IH]; intros i s HI HR; [exact I|].
  cbn [LoopModel.exec]. destruct (i <? length (q s)) eqn:C.
  2: { apply Nat.ltb_ge in C. repeat split; eauto. }
  apply Nat.ltb_lt in C. destruct (take_some _ _ HI C) as (id & j & E). rewrite E.
  destruct (take_Inv _ _ _ _ (idx s) HI E) as (j' & E' & I1). injection E' as <-.
  set (s1 := St (move_out i (q s)) (idx s) (next s) (world s) (ERun id :: log s)) in *.
  assert (R1 : running (log s1) = Some (Some id)) by (simpl; now rewrite HR).
  pose proof (body_posts f (code j) s1) as B.
  assert (HB : if manual then idx s1 <> 0 else no_step (code j)).
  { unfold no_steps in steps_ok. rewrite HM in *. apply steps_ok. }
  specialize (B HB). destruct (exec f (TProg (code j)) s1) as [s2|s2| | |]; simpl in B; auto.
  - destruct (posts_Inv _ _ B _ I1) as (I2 & R2 & F2 & _). pose proof (posts_idx _ _ B) as X2.
    assert (I3 : Inv (S i) (emit (EEnd id) s2)) by (apply emit_Inv; auto; discriminate).
    assert (R3 : running (log (emit (EEnd id) s2)) = Some None).
    { simpl. rewrite R2, R1, Nat.eqb_refl. reflexivity. }
    specialize (IH _ _ I3 R3). destruct (exec f (TStep (S i)) (emit (EEnd id) s2)) as [s3|s3| | |]; auto.
    + destruct IH as (A & B' & D & L). repeat split; auto.
      * rewrite D. simpl. now rewrite F2.
      * rewrite L. exact X2.
    + destruct IH as (A & B' & L & id' & l & E3 & D). repeat split; auto; try apply A.
      * rewrite L. exact X2.
      * exists id', l. split; auto. rewrite D. simpl. now rewrite F2.
  - destruct (posts_Inv _ _ B _ I1) as (I2 & R2 & F2 & _). pose proof (posts_idx _ _ B) as X2.
    split; [|split; [|split]].
    + apply (erase_Inv (S i) (emit (EFail id) s2)). apply emit_Inv; auto; discriminate.
    + simpl. rewrite R2, R1, Nat.eqb_refl. reflexivity.
    + exact X2.
    + exists id, (log s2). split; auto.
Qed.

(** ** Client code outside the loop *)
Record Calm (s : st) : Prop := {
  calm_inv : Inv 0 s;
  calm_idx : idx s = 0;
  calm_idle : running (log s) = Some None }.
Definition calm (r : res J W) : Prop :=
  match r with Done s' | Thrown s' => Calm s' | Moved => False | _ => True end.

Lemma push_Calm : forall j s, Calm s -> Calm (do_push j s).
Proof.
  intros j s [A B C].
  destruct (posts_Inv s (do_push j s)) with (c := 0) as (D & E & _); [repeat constructor|auto|].
  split; auto.
Qed.

(** One outermost [post]. *)
Lemma post_calm : forall fuel j s, Calm s ->
  match exec fuel (TPost j) s with
  | Done s' => Calm s' /\ failed (log s') = failed (log s) /\
               (if manual then q s' = [] else s' = do_push j s)
  | Thrown s' => Calm s' /\ manual = true /\
               exists id l, log s' = EFail id :: l /\ failed l = failed (log s)
  | Moved => False
  | _ => True
  end.
Proof.
  intros fuel j s HC. destruct fuel as [|f]; [exact I|]. cbn [LoopModel.exec].
  destruct manual eqn:HM.
  - pose proof (push_Calm j s HC) as [A B C]. rewrite B. cbn [Nat.eqb].
    assert (A' : Inv (idx (do_push j s)) (do_push j s)) by (now rewrite B).
    pose proof (loop_drains HM f _ A' C) as H. rewrite HM in H.
    destruct (LoopModel.exec code true f TLoop (do_push j s)) as [s2|s2| | |]; auto.
    + destruct H as (H1 & H2 & H3 & H4 & _). split; [|split; auto].
      split; simpl; auto. eapply clear_Inv; eauto.
    + destruct H as (H1 & H2 & H3 & id & l & E & F). split; [|split; auto; exists id, l; split; auto].
      split; simpl; auto. apply erase_Inv; auto.
  - split; [now apply push_Calm|]. auto.
Qed.

Lemma prog_calm : forall fuel p s, Calm s -> calm (exec fuel (TProg p) s).
Proof.
  induction fuel as [|f IH]; intros p s HC; [exact I|].
  destruct p as [| |j k|k|k|w k|p k]; cbn [LoopModel.exec]; auto.
  - pose proof (post_calm f j s HC) as H. destruct (exec f (TPost j) s) as [s1|s1| | |]; simpl; auto.
    + apply IH, H.
    + apply H.
  - destruct manual eqn:HM; [exact I|]. destruct HC as [A B C].
    pose proof (step_drains HM f 0 s A C) as H. rewrite HM in H.
    destruct (LoopModel.exec code false f (TStep 0) s) as [s1|s1| | |]; simpl; auto.
    + destruct H as ((c & H1 & H2) & H3 & H4 & H5). apply IH.
      split; simpl; auto; [|congruence]. eapply clear_Inv; eauto.
    + destruct H as (H1 & H2 & H3 & _). split; auto. congruence.
  - apply IH. destruct HC as [A B C]. split; simpl; auto. destruct A. split; auto.
  - specialize (IH p s HC) as H. destruct (exec f (TProg p) s) as [s1|s1| | |]; simpl in H; auto.
Qed.

(** One outermost [step()]. *)
Lemma step_calm : manual = false -> forall fuel s, Calm s ->
  match exec fuel (TProg (PStep PRet)) s with
  | Done s' => Calm s' /\ q s' = [] /\ failed (log s') = failed (log s)
  | Thrown s' => Calm s' /\ exists id l, log s' = EFail id :: l /\ failed l = failed (log s)
  | Moved => False
  | _ => True
  end.
Proof.
  intros HM fuel s [A B C]. destruct fuel as [|f]; [exact I|]. cbn [LoopModel.exec].
  pose proof (step_drains HM f 0 s A C) as H. rewrite HM in *.
  destruct (LoopModel.exec code false f (TStep 0) s) as [s1|s1| | |]; simpl; auto.
  - destruct H as ((c & H1 & H2) & H3 & H4 & H5). destruct f as [|f]; [exact I|]. cbn [LoopModel.exec].
    split; [|split; auto]. split; simpl; auto; [|congruence]. eapply clear_Inv; eauto.
  - destruct H as (H1 & H2 & H3 & id & l & E & F). split; [|eauto]. split; auto. congruence.
Qed.

Lemma init_Calm : forall w, Calm (init w).
Proof.
  intros w. split; simpl; auto. split; simpl; auto.
  - exists [], []. repeat split; auto; constructor.
  - intros l1 l2 E. destruct l1, l2; try discriminate. exists []. reflexivity.
Qed.

Lemma run_calm : forall fuel w p, calm (run code manual fuel w p).
Proof. intros. apply prog_calm, init_Calm. Qed.

Lemma calm_waiting : forall s, Calm s -> waiting (q s) = map fst (q s).
Proof.
  intros s [[_ _ (a & b & E & L & M & P) _] _ _]. destruct a; [|discriminate].
  rewrite E. simpl. now apply waiting_present.
Qed.

Lemma running_ok : forall l1 l2, running (l1 ++ l2) <> None -> running l2 <> None.
Proof.
  induction l1 as [|e l1 IH]; simpl; auto. intros l2 H. apply IH. intros E. apply H.
  destruct e; rewrite E; auto.
Qed.
Lemma run_order : forall fuel w p,
  run code manual fuel w p <> Moved /\
  forall s, finished (run code manual fuel w p) s ->
    posted (log s) = seq 0 (next s) /\
    ran (log s) ++ map fst (q s) = posted (log s) /\
    (forall later earlier, log s = later ++ earlier ->
       running earlier <> None /\ exists rest, ran earlier ++ rest = posted earlier) /\
    running (log s) = Some None.
Proof.
  intros fuel w p. pose proof (run_calm fuel w p) as H. split.
  - intros E. now rewrite E in H.
  - intros s HF. assert (C : Calm s) by (destruct HF as [E|E]; rewrite E in H; exact H).
    pose proof (calm_waiting s C) as HW. destruct C as [[A B S O] _ R]. rewrite <- HW.
    split; auto. split; auto. split; auto. intros l1 l2 E. split; [|eapply O; eauto].
    apply (running_ok l1). rewrite <- E, R. discriminate.
Qed.
Lemma finished_Calm : forall fuel w p s, finished (run code manual fuel w p) s -> Calm s.
Proof.
  intros fuel w p s HF. pose proof (run_calm fuel w p) as H.
  destruct HF as [E|E]; rewrite E in H; exact H.
Qed.
Lemma calm_ran : forall s, Calm s -> ran (log s) ++ map fst (q s) = posted (log s).
Proof. intros s C. rewrite <- (calm_waiting s C). destruct C as [[_ B _ _] _ _]. exact B. Qed.
Lemma calm_drained : forall s, Calm s -> q s = [] -> ran (log s) = posted (log s).
Proof. intros s C E. pose proof (calm_ran s C) as H. now rewrite E, app_nil_r in H. Qed.

End Proofs.

Lemma post_drains : forall (J W : Type) (code : J -> prog J W) fuel0 w p s fuel j,
  finished (run code true fuel0 w p) s ->
  match exec code true fuel (TPost j) s with
  | Done s' => q s' = [] /\ ran (log s') = posted (log s') /\ failed (log s') = failed (log s)
  | Thrown s' => (exists id l, log s' = EFail id :: l /\ failed l = failed (log s)) /\
                 ran (log s') ++ map fst (q s') = posted (log s') /\ idx s' = 0
  | Moved => False
  | _ => True
  end.
Proof.
  intros J W code fuel0 w p s fuel j HF.
  pose proof (finished_Calm J W code true I _ _ _ _ HF) as C.
  pose proof (post_calm J W code true fuel j s C) as H.
  destruct (exec code true fuel (TPost j) s) as [s'|s'| | |]; auto.
  - destruct H as (C' & F & Q). split; auto. split; auto. now apply calm_drained.
  - destruct H as (C' & _ & F). split; auto. split; [now apply calm_ran|]. now destruct C'.
Qed.
Lemma step_drains_all : forall (J W : Type) (code : J -> prog J W),
  (forall j, no_step (code j)) -> forall fuel0 w p s fuel,
  finished (run code false fuel0 w p) s ->
  match exec code false fuel (TProg (PStep PRet)) s with
  | Done s' => q s' = [] /\ ran (log s') = posted (log s') /\ failed (log s') = failed (log s)
  | Thrown s' => (exists id l, log s' = EFail id :: l /\ failed l = failed (log s)) /\
                 ran (log s') ++ map fst (q s') = posted (log s')
  | Moved => False
  | _ => True
  end.
Proof.
  intros J W code HN fuel0 w p s fuel HF.
  pose proof (finished_Calm J W code false HN _ _ _ _ HF) as C.
  pose proof (step_calm J W code false HN eq_refl fuel s C) as H.
  destruct (exec code false fuel (TProg (PStep PRet)) s) as [s'|s'| | |]; auto.
  - destruct H as (C' & Q & F). split; auto. split; auto. now apply calm_drained.
  - destruct H as (C' & F). split; auto. now apply calm_ran.
Qed.
Lemma post_only : forall (J W : Type) (code : J -> prog J W) fuel j s s',
  exec code false fuel (TPost j) s = Done s' -> ran (log s') = ran (log s) /\ world s' = world s.
Proof. intros J W code [|f] j s s' H; [discriminate|]. injection H as <-. auto. Qed.
