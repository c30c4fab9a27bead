(** A store with a debugger owns itself. *)
From Coq Require Import List Arith Bool Lia.
Import ListNotations.
From Verif Require Import OwnModel OwnSpec OwnProofs.

(** The object that serves, the store and the node in between own each other; the store owns
    its dependencies. *)
Definition ring (k : nat) (deps : list nat) h : Prop :=
  owns h (k + 1) k /\ owns h k (k + 2) /\ owns h (k + 2) (k + 1) /\
  forall d, In d deps -> owns h (k + 1) d.

Lemma destroy_ring k deps h x : ring k deps h -> unowned h = Some x -> ring k deps (destroy x h).
Proof.
  intros (A & B & C & D) U. apply unowned_some in U. destruct U as (_ & _ & N).
  assert (k + 1 <> x) as N1 by (intros <-; exact (N _ C)).
  assert (k <> x) as N0 by (intros <-; exact (N _ A)).
  assert (k + 2 <> x) as N2 by (intros <-; exact (N _ B)).
  split; [apply destroy_owns; auto|]. split; [apply destroy_owns; auto|].
  split; [apply destroy_owns; auto|]. intros d I. apply destroy_owns. auto.
Qed.

Lemma settle_ring k deps n h : ring k deps h -> ring k deps (settle_with n h).
Proof.
  revert h. induction n as [|n IH]; intros h R; cbn; [exact R|].
  destruct (unowned h) eqn:U; [|exact R]. apply IH. exact (destroy_ring _ _ _ _ R U).
Qed.

Lemma same_ring k deps h h' : objs h' = objs h -> ring k deps h -> ring k deps h'.
Proof. unfold ring, owns. intros ->. tauto. Qed.

Lemma put_ring k deps h o ms :
  o <> k -> o <> k + 1 -> o <> k + 2 -> ring k deps h ->
  ring k deps (Heap (set_nth o (Obj true ms) (objs h)) (held h)).
Proof.
  intros N0 N1 N2 (A & B & C & D).
  split; [apply put_owns_other; auto|]. split; [apply put_owns_other; auto|].
  split; [apply put_owns_other; auto|]. intros d I. apply put_owns_other; auto.
Qed.

Lemma new_ring k deps h ms :
  ring k deps h -> ring k deps (Heap (objs h ++ [Obj true ms]) (length (objs h) :: held h)).
Proof.
  intros (A & B & C & D).
  split; [apply new_owns; auto|]. split; [apply new_owns; auto|].
  split; [apply new_owns; auto|]. intros d I. apply new_owns. auto.
Qed.

Lemma step_ring w p h' deps :
  allowed w p = true -> ring (first w) deps (ofheap w) -> step (ofheap w) p = Some h' ->
  ring (first w) deps h'.
Proof.
  intros A R E. destruct p as [ms|x|o x|o x|o x|x]; cbn [step] in E.
  - destruct (forallb _ ms); [|discriminate]. injection E as <-. exact (new_ring _ _ _ _ R).
  - destruct (mem x _); [|discriminate]. injection E as <-. revert R. apply same_ring. reflexivity.
  - destruct (mem o _ && _); [|discriminate]. injection E as <-. revert R. apply same_ring.
    reflexivity.
  - destruct (mem o _ && _); [|discriminate]. injection E as <-.
    cbn in A. apply negb_true_iff in A. unfold private in A.
    apply orb_false_iff in A. destruct A as (A & A2). apply orb_false_iff in A.
    destruct A as (A0 & A1). apply Nat.eqb_neq in A0, A1, A2. apply put_ring; assumption.
  - destruct (mem o _ && _); [|discriminate]. injection E as <-.
    cbn in A. apply negb_true_iff in A. unfold private in A.
    apply orb_false_iff in A. destruct A as (A & A2). apply orb_false_iff in A.
    destruct A as (A0 & A1). apply Nat.eqb_neq in A0, A1, A2.
    apply settle_ring. apply put_ring; assumption.
  - destruct (mem x _); [|discriminate]. injection E as <-. apply settle_ring.
    revert R. apply same_ring. reflexivity.
Qed.

Lemma wstep_ring w p w' deps :
  ring (first w) deps (ofheap w) -> wstep w p = Fine w' ->
  first w' = first w /\ ring (first w') deps (ofheap w').
Proof.
  intros R E. destruct p as [p| |q]; cbn in E.
  - destruct (allowed w p) eqn:A; [|discriminate].
    destruct (step (ofheap w) p) as [h|] eqn:F; [|discriminate]. injection E as <-.
    split; [reflexivity|]. exact (step_ring _ _ _ _ A R F).
  - injection E as <-. auto.
  - destruct (is_there (ofheap w) (served w)).
    + destruct q; [injection E as <-; auto|].
      destruct (is_there (ofheap w) (store_of w)); [|discriminate].
      destruct (loop_there w); [|discriminate]. injection E as <-. auto.
    + injection E as <-. auto.
Qed.

Lemma ring_present k deps h : closed h -> ring k deps h ->
  present h k /\ present h (k + 1) /\ present h (k + 2) /\ forall d, In d deps -> present h d.
Proof.
  intros (_ & O) (A & B & C & D). split; [exact (O _ _ A)|]. split; [exact (O _ _ C)|].
  split; [exact (O _ _ B)|]. intros d I. exact (O _ _ (D d I)).
Qed.

Lemma wstep_closed w p w' :
  closed (ofheap w) /\ settled (ofheap w) -> wstep w p = Fine w' ->
  closed (ofheap w') /\ settled (ofheap w').
Proof.
  intros (C & S) E. destruct p as [p| |q]; cbn in E.
  - destruct (allowed w p) eqn:A; [|discriminate].
    destruct (step (ofheap w) p) as [h|] eqn:F; [|discriminate]. injection E as <-.
    exact (step_inv _ _ _ C S F).
  - injection E as <-. auto.
  - destruct (is_there (ofheap w) (served w)).
    + destruct q; [injection E as <-; auto|].
      destruct (is_there (ofheap w) (store_of w)); [|discriminate].
      destruct (loop_there w); [|discriminate]. injection E as <-. auto.
    + injection E as <-. auto.
Qed.

Lemma wrun_ring ps : forall w w' deps,
  closed (ofheap w) /\ settled (ofheap w) -> ring (first w) deps (ofheap w) ->
  wrun ps w = Fine w' ->
  first w' = first w /\ (closed (ofheap w') /\ settled (ofheap w')) /\
  ring (first w') deps (ofheap w').
Proof.
  induction ps as [|p r IH]; intros w w' deps C R E; cbn in E.
  - injection E as <-. auto.
  - destruct (wstep w p) as [w1|u|] eqn:E1; try discriminate.
    destruct (wstep_ring _ _ _ _ R E1) as (F & R1). pose proof (wstep_closed _ _ _ C E1) as C1.
    destruct (IH _ _ _ C1 R1 E) as (F2 & C2 & R2). split; [congruence|]. auto.
Qed.

Lemma step_make h ms h' :
  step h (Make ms) = Some h' -> h' = Heap (objs h ++ [Obj true ms]) (length (objs h) :: held h).
Proof. cbn [step]. destruct (forallb _ ms); [|discriminate]. intro E. injection E as <-. reflexivity. Qed.

Lemma step_assign h o x h' :
  step h (Assign o x) = Some h' ->
  h' = Heap (set_nth o (Obj true (x :: members_of h o)) (objs h)) (held h).
Proof.
  cbn [step]. destruct (mem o _ && _); [|discriminate]. intro E. injection E as <-. reflexivity.
Qed.

Lemma step_drop h x h' :
  step h (Drop x) = Some h' -> h' = settle (Heap (objs h) (remove1 x (held h))).
Proof. cbn [step]. destruct (mem x _); [|discriminate]. intro E. injection E as <-. reflexivity. Qed.

(** ** Making the store *)
Lemma made before deps w :
  start before deps = Some w ->
  closed (ofheap w) /\ settled (ofheap w) /\ ring (first w) deps (ofheap w) /\
  In (store_of w) (held (ofheap w)) /\ loop_there w = true.
Proof.
  unfold start. destruct (run before nothing) as [h|] eqn:B; [|discriminate].
  destruct (run (with_debugger (length (objs h)) deps) h) as [h'|] eqn:E; [|discriminate].
  intro W. injection W as <-. unfold store_of. cbn [ofheap first loop_there].
  destruct nothing_inv as (C0 & S0). destruct (run_inv _ _ _ C0 S0 B) as (C & S).
  destruct (run_inv _ _ _ C S E) as (C' & S'). split; [exact C'|]. split; [exact S'|].
  set (k := length (objs h)) in *. unfold with_debugger, make_store in E.
  cbn [app run] in E.
  (* 204 *)
  destruct (step h (Make [])) as [h1|] eqn:E1; [|discriminate]. apply step_make in E1.
  assert (length (objs h1) = k + 1) as L1 by (rewrite E1; cbn; rewrite app_length; reflexivity).
  assert (present h1 k) as P1 by (rewrite E1; apply new_present; left; reflexivity).
  assert (held h1 = k :: held h) as H1 by (rewrite E1; reflexivity).
  (* 205 *)
  destruct (step h1 (Make (k :: deps))) as [h2|] eqn:E2; [|discriminate]. apply step_make in E2.
  assert (forall d, In d (k :: deps) -> owns h2 (k + 1) d) as O2.
  { intros d I. rewrite E2. apply new_owns. left. split; [congruence|exact I]. }
  assert (length (objs h2) = k + 2) as L2.
  { rewrite E2. cbn [objs]. rewrite app_length, L1. cbn. lia. }
  assert (present h2 k) as P2 by (rewrite E2; apply new_present; right; exact P1).
  assert (held h2 = k + 1 :: k :: held h) as H2 by (rewrite E2; cbn [held]; congruence).
  (* 215 *)
  destruct (step h2 (Make [k + 1])) as [h3|] eqn:E3; [|discriminate]. apply step_make in E3.
  assert (forall d, In d (k :: deps) -> owns h3 (k + 1) d) as O3.
  { intros d I. rewrite E3. apply new_owns. right. exact (O2 d I). }
  assert (owns h3 (k + 2) (k + 1)) as Q3.
  { rewrite E3. apply new_owns. left. split; [congruence|left; reflexivity]. }
  assert (present h3 k) as P3 by (rewrite E3; apply new_present; right; exact P2).
  assert (held h3 = k + 2 :: k + 1 :: k :: held h) as H3 by (rewrite E3; cbn [held]; congruence).
  (* 261 *)
  destruct (step h3 (Assign k (k + 2))) as [h4|] eqn:E4; [|discriminate].
  apply step_assign in E4.
  assert (ring k deps h4) as R4.
  { rewrite E4.
    split; [apply put_owns_other; [lia|apply O3; left; reflexivity]|].
    split; [apply put_owns_same; [exact P3|left; reflexivity]|].
    split; [apply put_owns_other; [lia|exact Q3]|].
    intros d I. apply put_owns_other; [lia|]. apply O3. right. exact I. }
  assert (held h4 = k + 2 :: k + 1 :: k :: held h) as H4 by (rewrite E4; exact H3).
  (* the two pointers that are dropped *)
  destruct (step h4 (Drop (k + 2))) as [h5|] eqn:E5; [|discriminate]. apply step_drop in E5.
  assert (ring k deps h5) as R5.
  { rewrite E5. apply settle_ring. revert R4. apply same_ring. reflexivity. }
  assert (held h5 = k + 1 :: k :: held h) as H5.
  { rewrite E5, settle_held. cbn [held]. rewrite H4. cbn [remove1]. rewrite Nat.eqb_refl.
    reflexivity. }
  destruct (step h5 (Drop k)) as [h6|] eqn:E6; [|discriminate]. apply step_drop in E6.
  injection E as <-.
  split; [|split; [|reflexivity]].
  - rewrite E6. apply settle_ring. revert R5. apply same_ring. reflexivity.
  - rewrite E6, settle_held. cbn [held]. rewrite H5. cbn [remove1].
    destruct (k =? k + 1) eqn:K; [apply Nat.eqb_eq in K; lia|]. left. reflexivity.
Qed.

(** The store can be made with any dependencies that the program has. *)
Lemma can_make before deps h :
  run before nothing = Some h -> incl deps (held h) ->
  exists w, start before deps = Some w /\
            held (ofheap w) = store_of w :: held h /\ first w = length (objs h).
Proof.
  intros B I. unfold start. rewrite B. set (k := length (objs h)).
  unfold with_debugger, make_store. cbn [app run].
  change (step h (Make [])) with (Some (Heap (objs h ++ [Obj true []]) (k :: held h))).
  set (h1 := Heap (objs h ++ [Obj true []]) (k :: held h)).
  assert (length (objs h1) = k + 1) as L1 by (cbn; rewrite app_length; reflexivity).
  cbv iota beta.
  assert (step h1 (Make (k :: deps)) =
          Some (Heap (objs h1 ++ [Obj true (k :: deps)]) (k + 1 :: held h1))) as E2.
  { cbn [step]. rewrite L1.
    assert (forallb (fun m => mem m (held h1)) (k :: deps) = true) as ->; [|reflexivity].
    apply forallb_forall. intros d [<- | D]; apply mem_In; [left; reflexivity|right].
    exact (I d D). }
  rewrite E2. set (h2 := Heap (objs h1 ++ [Obj true (k :: deps)]) (k + 1 :: held h1)).
  assert (length (objs h2) = k + 2) as L2.
  { unfold h2. cbn [objs]. rewrite app_length, L1. cbn. lia. }
  assert (step h2 (Make [k + 1]) =
          Some (Heap (objs h2 ++ [Obj true [k + 1]]) (k + 2 :: held h2))) as E3.
  { cbn [step]. rewrite L2.
    assert (forallb (fun m => mem m (held h2)) [k + 1] = true) as ->; [|reflexivity].
    apply forallb_forall. intros d [<- | []]. apply mem_In. left. reflexivity. }
  rewrite E3. set (h3 := Heap (objs h2 ++ [Obj true [k + 1]]) (k + 2 :: held h2)).
  assert (mem k (held h3) = true) as M3.
  { apply mem_In. right. right. left. reflexivity. }
  assert (mem (k + 2) (held h3) = true) as N3.
  { apply mem_In. left. reflexivity. }
  assert (step h3 (Assign k (k + 2)) =
          Some (Heap (set_nth k (Obj true (k + 2 :: members_of h3 k)) (objs h3)) (held h3)))
    as E4 by (cbn [step]; rewrite M3, N3; reflexivity).
  rewrite E4.
  set (h4 := Heap (set_nth k (Obj true (k + 2 :: members_of h3 k)) (objs h3)) (held h3)).
  assert (remove1 (k + 2) (held h4) = k + 1 :: k :: held h) as H4.
  { unfold h4, h3. cbn [held remove1]. rewrite Nat.eqb_refl. reflexivity. }
  assert (step h4 (Drop (k + 2)) = Some (settle (Heap (objs h4) (k + 1 :: k :: held h)))) as E5.
  { cbn [step]. change (held h4) with (held h3) at 1. rewrite N3, H4. reflexivity. }
  rewrite E5. set (h5 := settle (Heap (objs h4) (k + 1 :: k :: held h))).
  assert (held h5 = k + 1 :: k :: held h) as H5 by apply settle_held.
  assert (step h5 (Drop k) = Some (settle (Heap (objs h5) (k + 1 :: held h)))) as E6.
  { cbn [step]. rewrite H5.
    assert (mem k (k + 1 :: k :: held h) = true) as ->.
    { apply mem_In. right. left. reflexivity. }
    cbn [remove1]. destruct (k =? k + 1) eqn:K; [apply Nat.eqb_eq in K; lia|].
    rewrite Nat.eqb_refl. reflexivity. }
  rewrite E6. eexists. split; [reflexivity|]. cbn [ofheap first]. split; [|reflexivity].
  rewrite settle_held. reflexivity.
Qed.

(** ** The server *)
Lemma server_stays before deps w ps w' :
  start before deps = Some w -> wrun ps w = Fine w' ->
  present (ofheap w') (served w') /\ present (ofheap w') (store_of w') /\
  forall d, In d deps -> present (ofheap w') d.
Proof.
  intros A E. destruct (made _ _ _ A) as (C & S & R & _).
  destruct (wrun_ring _ _ _ _ (conj C S) R E) as (_ & (C' & _) & R').
  destruct (ring_present _ _ _ C' R') as (P0 & P1 & _ & D). auto.
Qed.

Lemma freed_loop ps : forall w u deps,
  closed (ofheap w) /\ settled (ofheap w) -> ring (first w) deps (ofheap w) ->
  wrun ps w = Freed u -> u = LoopGone /\ (loop_there w = true -> In EndLoop ps).
Proof.
  induction ps as [|p r IH]; intros w u deps C R E; cbn in E; [discriminate|].
  destruct (wstep w p) as [w1|v|] eqn:E1; [| |discriminate].
  - destruct (wstep_ring _ _ _ _ R E1) as (_ & R1). pose proof (wstep_closed _ _ _ C E1) as C1.
    destruct (IH _ _ _ C1 R1 E) as (U & L). split; [exact U|]. intro T.
    destruct p as [p| |q]; cbn in E1.
    + destruct (allowed w p); [|discriminate]. destruct (step (ofheap w) p); [|discriminate].
      injection E1 as <-. right. exact (L T).
    + left. reflexivity.
    + right. apply L. destruct (is_there (ofheap w) (served w)); [|injection E1 as <-; exact T].
      destruct q; [injection E1 as <-; exact T|].
      destruct (is_there (ofheap w) (store_of w)); [|discriminate]. rewrite T in E1.
      injection E1 as <-. reflexivity.
  - injection E as <-. destruct C as (C & _). destruct (ring_present _ _ _ C R) as (_ & P1 & _).
    apply is_there_present in P1.
    destruct p as [p| |q]; cbn in E1; try discriminate.
    + destruct (allowed w p); [|discriminate]. destruct (step (ofheap w) p); discriminate.
    + destruct (is_there (ofheap w) (served w)); [|discriminate]. destruct q; [discriminate|].
      unfold store_of in E1. rewrite P1 in E1. destruct (loop_there w); [discriminate|].
      injection E1 as <-. split; [reflexivity|discriminate].
Qed.

Lemma server_node before deps w ps :
  start before deps = Some w -> wrun ps w <> Freed NodeGone.
Proof.
  intros A E. destruct (made _ _ _ A) as (C & S & R & _).
  destruct (freed_loop _ _ _ _ (conj C S) R E) as (U & _). discriminate.
Qed.

Lemma server_loop before deps w ps u :
  start before deps = Some w -> ~ In EndLoop ps -> wrun ps w <> Freed u.
Proof.
  intros A N E. destruct (made _ _ _ A) as (C & S & R & _ & L).
  destruct (freed_loop _ _ _ _ (conj C S) R E) as (_ & F). exact (N (F L)).
Qed.

(** Whatever the program does before: after its loop is gone the next action of the debugger
    uses it. *)
Lemma server_uses before deps w ps w' :
  start before deps = Some w -> wrun ps w = Fine w' -> loop_there w' = false ->
  wstep w' (Ask Act) = Freed LoopGone.
Proof.
  intros A E L. destruct (server_stays _ _ _ _ _ A E) as (P0 & P1 & _).
  apply is_there_present in P0. apply is_there_present in P1. cbn. rewrite P0, P1, L.
  reflexivity.
Qed.

(** All actions are answered, as long as the loop is there. *)
Lemma server_answers before deps w ps w' q :
  start before deps = Some w -> wrun ps w = Fine w' -> loop_there w' = true ->
  exists w2, wstep w' (Ask q) = Fine w2 /\
             answers w2 = (match q with Act => true | Look => false end) :: answers w' /\
             ofheap w2 = ofheap w'.
Proof.
  intros A E L. destruct (server_stays _ _ _ _ _ A E) as (P0 & P1 & _).
  apply is_there_present in P0. apply is_there_present in P1. cbn. rewrite P0.
  destruct q; [eexists; eauto|]. rewrite P1, L. eexists. eauto.
Qed.
