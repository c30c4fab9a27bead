(** C66: exceptions thrown by computations of the graph. *)
From Coq Require Import List Arith Bool Lia Permutation.
From Verif Require Import ThrowModel ThrowSpec ThrowProofs ThrowCommit ThrowLate ThrowWrite.
Import ListNotations.

(** Writes and commits always end, normally or with the exception. *)
Theorem C66_ends : forall (V : Type) (changed : V -> V -> bool) g w o s,
  built g -> reflexive changed -> fair w -> valid g o -> do changed g w o s <> OutOfFuel.
Proof. exact (fun V changed g w o s B R F H => total changed g w B F o s H). Qed.
Print Assumptions C66_ends.

(** Whatever a program sets and commits, and whatever throws meanwhile: a reader that does
    not agree with its parents is below a root with a value not committed, or below a node
    that was passed over: a parent of that one sent down a value, then something threw, and
    it was not reached since. *)
Theorem C66_stale : forall (V : Type) (changed : V -> V -> bool) g w s n,
  built g -> reflexive changed -> reach changed g w s -> inner g n -> ~ agrees changed g n s ->
  exists m, above g m n /\ ((~ inner g m /\ uncommitted m (log s)) \/ passed_over g m (log s)).
Proof. exact (fun V changed g w s n B R => stale changed g w B R s n). Qed.
Print Assumptions C66_stale.

(** In particular all is well where nothing threw and everything is committed. *)
Theorem C66_clean : forall (V : Type) (changed : V -> V -> bool) g w s n,
  built g -> reflexive changed -> reach changed g w s -> inner g n ->
  (forall x, ~ In (EFail x) (log s)) -> (forall m, ~ inner g m -> ~ uncommitted m (log s)) ->
  agrees changed g n s.
Proof. exact clean. Qed.
Print Assumptions C66_clean.

(** A commit that does not throw repairs every node that it reaches, whatever threw
    before: it agrees with its parents if these are committed. *)
Theorem C66_recovers : forall (V : Type) (changed : V -> V -> bool) g w s rs s' e n,
  built g -> reflexive changed -> reach changed g w s -> valid g (Commit rs) ->
  do changed g w (Commit rs) s = Done s' -> log s' = e ++ log s ->
  In (EDown n) e -> inner g n -> (forall p, In p (parents g n) -> ~ uncommitted p (log s')) ->
  agrees changed g n s'.
Proof. exact (fun V changed g w s rs s' e n B R => recovers changed g w B R s rs s' e n). Qed.
Print Assumptions C66_recovers.

(** It reaches all children of a node that it sends down. *)
Theorem C66_arrives : forall (V : Type) (changed : V -> V -> bool) g w s rs s' e n p,
  built g -> reflexive changed ->
  do changed g w (Commit rs) s = Done s' -> log s' = e ++ log s ->
  In (ESent p) e -> In p (parents g n) -> In (EDown n) e.
Proof. exact (fun V changed g w s rs s' e n p B R => arrives changed g w B R s rs s' e n p). Qed.
Print Assumptions C66_arrives.

(** Readers only change when their node is sent down, throwing or not, and then show its
    value. *)
Theorem C66_shown : forall (V : Type) (changed : V -> V -> bool) g w o s s' e,
  built g -> reflexive changed ->
  end_of (do changed g w o s) = Some s' -> log s' = e ++ log s ->
  (forall m, ~ In (ESent m) e -> last s' m = last s m) /\
  (forall m l1 l2, e = l1 ++ ESent m :: l2 -> ~ In (EPush m) l1 -> last s' m = cur s' m).
Proof. exact (fun V changed g w o s s' e B R => shown changed g w R o s s' e). Qed.
Print Assumptions C66_shown.

(** A commit that throws calls no watcher ... *)
Theorem C66_silent : forall (V : Type) (changed : V -> V -> bool) g w rs s s',
  built g -> reflexive changed ->
  do changed g w (Commit rs) s = Threw s' -> calls (log s') = calls (log s).
Proof. exact (fun V changed g w rs s s' B R => silent changed g w B R rs s s'). Qed.
Print Assumptions C66_silent.

(** ... and if it is repeated and then does not throw, it calls those of all nodes that it
    had sent down: no notification is lost. *)
Theorem C66_late : forall (V : Type) (changed : V -> V -> bool) g w rs s s1 s2 e e' n,
  built g -> reflexive changed ->
  do changed g w (Commit rs) s = Threw s1 -> do changed g w (Commit rs) s1 = Done s2 ->
  log s1 = e ++ log s -> log s2 = e' ++ log s1 -> In (ESent n) e -> In (ECall n) e'.
Proof. exact (fun V changed g w rs s s1 s2 e e' n B R => late changed g w R rs s s1 s2 e e' n). Qed.
Print Assumptions C66_late.

(** Watchers are called once for every time that their node was sent down. *)
Theorem C66_owed : forall (V : Type) (changed : V -> V -> bool) g w s n l1 l2,
  reach changed g w s -> log s = l1 ++ ECall n :: l2 ->
  exists a b, l2 = a ++ ESent n :: b /\ ~ In (ECall n) a.
Proof. exact (fun V changed g w s n l1 l2 => owed changed g w s n l1 l2). Qed.
Print Assumptions C66_owed.

(** A root has the value that it was set to, even if that throws. *)
Theorem C66_set : forall (V : Type) (changed : V -> V -> bool) g w n b v s s',
  reflexive changed -> built g -> kind_of g n = Root b ->
  end_of (do changed g w (Set_ n v) s) = Some s' -> changed v (cur s' n) = false.
Proof. exact (fun V changed g w n b v s s' => set_root changed g w n b v s s'). Qed.
Print Assumptions C66_set.

(** A write through a cursor that does not throw arrives at the roots that it is made of,
    in whatever order they are written to; ... *)
Theorem C66_accepted : forall (V : Type) (changed : V -> V -> bool) g w n b v vs s s',
  reflexive changed -> built g -> fair w -> kind_of g n = Inner b ->
  NoDup (parents g n) -> (forall p, In p (parents g n) -> kind_of g p = Root false) ->
  put g n (map (cur s) (parents g n)) v = Some vs ->
  do changed g w (Set_ n v) s = Done s' ->
  forall p u, In (p, u) (combine (parents g n) vs) -> changed u (cur s' p) = false.
Proof. exact (fun V changed g w n b v vs s s' => accepted changed g w n b v vs s s'). Qed.
Print Assumptions C66_accepted.

(** ... one that the transducer of the cursor rejects changes no root and nothing that is
    shown, throwing or not. *)
Theorem C66_rejected : forall (V : Type) (changed : V -> V -> bool) g w n b v s s',
  kind_of g n = Inner b -> (forall vs, put g n vs v = None) ->
  end_of (do changed g w (Set_ n v) s) = Some s' ->
  (forall m, ~ inner g m -> cur s' m = cur s m) /\ (forall m, last s' m = last s m) /\
  calls (log s') = calls (log s).
Proof. exact (fun V changed g w n b v s s' => rejected changed g w n b v s s'). Qed.
Print Assumptions C66_rejected.

(** A sensor that is committed shows what it gave meanwhile. *)
Theorem C66_sensors : forall (V : Type) (changed : V -> V -> bool) g w r rs s s',
  built g -> reflexive changed -> reach changed g w s -> valid g (Commit rs) ->
  kind_of g r = Sensor -> In r rs -> do changed g w (Commit rs) s = Done s' ->
  exists t, clock s <= t < clock s' /\ throws w t = false /\ changed (sense w t) (last s' r) = false.
Proof. exact (fun V changed g w r rs s s' => sensors changed g w r rs s s'). Qed.
Print Assumptions C66_sensors.

(** ** Where it is not as one would like *)
Definition differ (x y : nat) : bool := negb (x =? y).
Lemma differ_refl : reflexive differ.
Proof. intro v; unfold differ; rewrite Nat.eqb_refl; auto. Qed.
Definition calm : world nat := World (fun _ => false) (fun _ => 0) (fun _ l => l) (fun _ l => l).
Definition once_at (k : nat) : world nat :=
  World (fun n => n =? k) (fun _ => 0) (fun _ l => l) (fun _ l => l).
(** Parents are refreshed and written to in the other order. *)
Definition reversed (k : nat) : world nat :=
  World (fun n => n =? k) (fun _ => 0) (fun _ l => rev l) (fun _ l => rev l).
Example once_at_fair k : fair (once_at k) /\ fair (reversed k).
Proof. split; split; intros; cbn; auto using Permutation_refl, Permutation_sym, Permutation_rev. Qed.

(** A root with two children that show its value *)
Definition fan (automatic : bool) : graph nat :=
  Graph 3 (fun n => match n with 1 | 2 => Inner true | _ => Root automatic end)
    (fun n => match n with 1 | 2 => [0] | _ => [] end) (fun n => match n with 0 => [1; 2] | _ => [] end)
    (fun _ vs => Some (hd 0 vs)) (fun _ _ v => Some [v]).
Lemma fan_built a : built (fan a).
Proof.
  split; intros [|[|[|n]]] [|[|[|p]]]; cbn; try tauto; try lia; eauto; repeat split; intuition (try lia; try discriminate).
Qed.
(** A root, its tens, and these again *)
Definition tens : graph nat :=
  Graph 3 (fun n => match n with 1 | 2 => Inner true | _ => Root false end)
    (fun n => match n with 1 => [0] | 2 => [1] | _ => [] end) (fun n => match n with 0 => [1] | 1 => [2] | _ => [] end)
    (fun n vs => Some (match n with 1 => hd 0 vs / 10 | _ => hd 0 vs end)) (fun _ _ v => Some [v]).
Lemma tens_built : built tens.
Proof.
  split; intros [|[|[|n]]] [|[|[|p]]]; cbn; try tauto; try lia; eauto; repeat split; intuition (try lia; try discriminate).
Qed.
(** Two roots; a lens on the second; the first and that one, merged *)
Definition both : graph nat :=
  Graph 4 (fun n => match n with 2 => Inner true | 3 => Inner false | _ => Root false end)
    (fun n => match n with 2 => [1] | 3 => [0; 2] | _ => [] end)
    (fun n => match n with 0 => [3] | 1 => [2] | 2 => [3] | _ => [] end)
    (fun _ vs => Some (fold_right Nat.add 0 vs)) (fun n _ v => Some match n with 3 => [v; v] | _ => [v] end).
Lemma both_built : built both.
Proof.
  split; intros [|[|[|[|n]]]] [|[|[|[|p]]]]; cbn; try tauto; try lia; eauto; repeat split; intuition (try lia; try discriminate).
Qed.
Definition zeros : nat -> nat := fun _ => 0.
Definition after (g : graph nat) (w : world nat) (ops : list (op nat)) : st nat :=
  match run differ g w ops (init zeros) with Some s => s | None => init zeros end.
Definition ends (g : graph nat) (w : world nat) (ops : list (op nat)) : bool :=
  match run differ g w ops (init zeros) with Some _ => true | None => false end.
Lemma reached g w ops : starts differ g zeros -> Forall (valid g) ops ->
  ends g w ops = true -> reach differ g w (after g w ops).
Proof.
  intros Z F N; exists zeros, ops; split; auto; split; auto; unfold after; unfold ends in N.
  destruct (run differ g w ops (init zeros)); [auto|discriminate].
Qed.
Lemma fan_reach a w ops : Forall (valid (fan a)) ops -> ends (fan a) w ops = true ->
  reach differ (fan a) w (after (fan a) w ops).
Proof. apply reached; intros [|[|[|n]]] b v _ E; injection E as <-; reflexivity. Qed.
Lemma tens_reach w ops : Forall (valid tens) ops -> ends tens w ops = true ->
  reach differ tens w (after tens w ops).
Proof. apply reached; intros [|[|[|n]]] b v _ E; injection E as <-; reflexivity. Qed.
Lemma both_reach w ops : Forall (valid both) ops -> ends both w ops = true ->
  reach differ both w (after both w ops).
Proof. apply reached; intros [|[|[|[|n]]]] b v _ E; injection E as <-; reflexivity. Qed.
Ltac ok := solve [vm_compute; reflexivity | repeat constructor; cbn; auto with arith].
(** Where an operation ends *)
Definition fin (o : outcome nat) : st nat := match o with Done s | Threw s => s | OutOfFuel => init zeros end.
Definition how (o : outcome nat) : bool := match o with Done _ => true | _ => false end.
Definition threw (o : outcome nat) : bool := match o with Threw _ => true | _ => false end.
Lemma is_done o : how o = true -> o = Done (fin o). Proof. destruct o; try discriminate; auto. Qed.
Lemma is_threw o : threw o = true -> o = Threw (fin o). Proof. destruct o; try discriminate; auto. Qed.
Ltac done := apply is_done; vm_compute; reflexivity.
Ltac failed := apply is_threw; vm_compute; reflexivity.
Ltac no := let X := fresh in intro X; try specialize (X _ eq_refl); vm_compute in X; discriminate X.
Lemma committed m l : unsent m l = false -> ~ uncommitted m l.
Proof. intros E U; apply un_unsent in U; congruence. Qed.

(** A commit that throws is not undone, nor completed: some readers show new values, others
    old ones ... *)
Theorem C66_atomic_refuted : exists g w s rs s', built g /\ reach differ g w s /\
  do differ g w (Commit rs) s = Threw s' /\
  (exists m, inner g m /\ last s' m <> last s m) /\ (exists n, inner g n /\ ~ agrees differ g n s').
Proof.
  pose (g := fan false); pose (w := once_at 1); pose (s := after g w [Set_ 0 5]).
  exists g, w, s, [0], (fin (do differ g w (Commit [0]) s)).
  split; [apply fan_built|split; [apply fan_reach; ok|split; [failed|]]].
  split; [exists 1|exists 2]; (split; [exists true; reflexivity|no]).
Qed.
Print Assumptions C66_atomic_refuted.

(** ... and to commit again does not repair them, though everything is committed and
    nothing throws any more ... *)
Theorem C66_stale_refuted : exists g w s rs s' n, built g /\ reach differ g w s /\
  do differ g w (Commit rs) s = Done s' /\ (forall m, ~ inner g m -> m < size g -> In m rs) /\
  (forall m, m < size g -> ~ uncommitted m (log s')) /\ inner g n /\ ~ agrees differ g n s'.
Proof.
  pose (g := fan false); pose (w := once_at 0); pose (s := after g w [Set_ 0 5; Commit [0]]).
  exists g, w, s, [0], (fin (do differ g w (Commit [0]) s)), 2.
  split; [apply fan_built|split; [apply fan_reach; ok|split; [done|]]].
  split; [|split; [|split; [exists true; reflexivity|no]]].
  - intros [|[|[|m]]] N L; cbn in *; auto; try lia; destruct N; exists true; reflexivity.
  - intros [|[|[|m]]] L; cbn in L; try lia; apply committed; vm_compute; reflexivity.
Qed.
Print Assumptions C66_stale_refuted.

(** ... not even if the root has changed again, if a node between does not. *)
Theorem C66_lasting_refuted : exists g w s v rs s1 s' n, built g /\ reach differ g w s /\
  do differ g w (Set_ 0 v) s = Done s1 /\ last s1 0 <> v /\
  do differ g w (Commit rs) s1 = Done s' /\ last s' 0 = v /\
  (forall m, m < size g -> ~ uncommitted m (log s')) /\ inner g n /\ ~ agrees differ g n s'.
Proof.
  pose (g := tens); pose (w := once_at 1); pose (s := after g w [Set_ 0 15; Commit [0]]).
  pose (s1 := fin (do differ g w (Set_ 0 17) s)).
  exists g, w, s, 17, [0], s1, (fin (do differ g w (Commit [0]) s1)), 2.
  split; [apply tens_built|split; [apply tens_reach; ok|split; [done|]]].
  split; [no|split; [done|split; [vm_compute; reflexivity|]]].
  split; [|split; [exists true; reflexivity|no]].
  intros [|[|[|m]]] L; cbn in L; try lia; apply committed; vm_compute; reflexivity.
Qed.
Print Assumptions C66_lasting_refuted.

(** Setting an automatic state can throw and yet have set it. *)
Theorem C66_set_refuted : exists g w s v s', built g /\ reach differ g w s /\
  do differ g w (Set_ 0 v) s = Threw s' /\ last s 0 <> v /\ last s' 0 = v.
Proof.
  pose (g := fan true); pose (w := once_at 0); pose (s := after g w []).
  exists g, w, s, 5, (fin (do differ g w (Set_ 0 5) s)).
  split; [apply fan_built|split; [apply fan_reach; ok|split; [failed|]]]; split; [no|vm_compute; reflexivity].
Qed.
Print Assumptions C66_set_refuted.

(** A write through a merged cursor can throw and yet have written to the first of its
    parents; the next commit shows that. *)
Theorem C66_write_refuted : exists g w s v s' s'', built g /\ reach differ g w s /\
  do differ g w (Set_ 3 v) s = Threw s' /\ do differ g w (Commit [0; 1]) s' = Done s'' /\
  parents g 3 = [0; 2] /\ last s'' 0 = v /\ last s'' 2 = last s 2 /\ last s 2 <> v.
Proof.
  pose (g := both); pose (w := once_at 2); pose (s := after g w []); pose (s1 := fin (do differ g w (Set_ 3 7) s)).
  exists g, w, s, 7, s1, (fin (do differ g w (Commit [0; 1]) s1)).
  split; [apply both_built|split; [apply both_reach; ok|split; [failed|split; [done|]]]].
  split; [reflexivity|split; [vm_compute; reflexivity|split; [vm_compute; reflexivity|no]]].
Qed.
Print Assumptions C66_write_refuted.

(** ** Examples *)
(** The hypotheses are met, with exceptions: the fan after a commit that threw ... *)
Example C66_stale_demo :
  let s := after (fan false) (once_at 0) [Set_ 0 5; Commit [0]] in
  reach differ (fan false) (once_at 0) s /\ ~ agrees differ (fan false) 1 s /\ passed_over (fan false) 1 (log s).
Proof.
  split; [apply fan_reach; ok|split; [no|]].
  exists 0, [EFail 1], [EDown 0; EPush 0]; split; [left; reflexivity|split; [vm_compute; reflexivity|]].
  split; [intros [C | []]; discriminate|exists 1; left; reflexivity].
Qed.
(** ... which is repaired by the next value, for the node that threw and the other; ... *)
Example C66_recovers_demo :
  let s := after (fan false) (once_at 0) [Set_ 0 5; Commit [0]; Set_ 0 6] in
  exists s' e, reach differ (fan false) (once_at 0) s /\ do differ (fan false) (once_at 0) (Commit [0]) s = Done s' /\
    log s' = e ++ log s /\ In (EDown 1) e /\ In (EDown 2) e /\
    ~ agrees differ (fan false) 1 s /\ agrees differ (fan false) 1 s' /\ agrees differ (fan false) 2 s' /\
    map (last s') [0; 1; 2] = [6; 6; 6].
Proof.
  intro s; exists (fin (do differ (fan false) (once_at 0) (Commit [0]) s)),
    [ECall 2; ECall 1; ECall 0; ESent 2; EPush 2; EDown 2; ESent 1; EPush 1; EDown 1; ESent 0; EDown 0].
  split; [apply fan_reach; ok|split; [done|split; [vm_compute; reflexivity|]]].
  split; [cbn; auto 20|split; [cbn; auto 20|split; [no|]]].
  split; [intros v E; injection E as <-; vm_compute; reflexivity|split; [|vm_compute; reflexivity]].
  intros v E; injection E as <-; vm_compute; reflexivity.
Qed.
(** ... without exceptions it is as in NodesModel. *)
Example C66_clean_demo :
  let s := after tens calm [Set_ 0 5; Commit [0]; Set_ 2 3; Commit [0]] in
  reach differ tens calm s /\ map (last s) [0; 1; 2] = [3; 0; 0] /\ calls (log s) = [0; 0].
Proof. intro s; split; [apply tens_reach; ok|split; vm_compute; reflexivity]. Qed.
(** The watchers of the root are called by the second commit. *)
Example C66_late_demo :
  let s := after (fan false) (once_at 0) [Set_ 0 5] in
  exists s1 s2, do differ (fan false) (once_at 0) (Commit [0]) s = Threw s1 /\
    do differ (fan false) (once_at 0) (Commit [0]) s1 = Done s2 /\
    log s1 = [EFail 1; ESent 0; EDown 0] ++ log s /\ log s2 = [ECall 0; EDown 0] ++ log s1 /\ calls (log s1) = [].
Proof.
  intro s; pose (s1 := fin (do differ (fan false) (once_at 0) (Commit [0]) s)).
  exists s1, (fin (do differ (fan false) (once_at 0) (Commit [0]) s1)).
  split; [failed|split; [done|split; [vm_compute; reflexivity|split; vm_compute; reflexivity]]].
Qed.
(** A sensor that throws at first, and a node below it. *)
Definition probe : graph nat :=
  Graph 2 (fun n => match n with 0 => Sensor | _ => Inner true end) (fun n => match n with 1 => [0] | _ => [] end)
    (fun n => match n with 0 => [1] | _ => [] end) (fun _ vs => Some (hd 0 vs)) (fun _ _ v => Some [v]).
Definition rising : world nat := World (fun n => n =? 0) (fun n => 7 + n) (fun _ l => l) (fun _ l => l).
Example C66_sensors_demo :
  built probe /\ kind_of probe 0 = Sensor /\ clock (after probe rising [Commit [0]]) = 1 /\
  map (last (after probe rising [Commit [0]])) [0; 1] = [0; 0] /\
  map (last (after probe rising [Commit [0]; Commit [0]])) [0; 1] = [8; 8].
Proof.
  split; [|vm_compute; auto].
  split; intros [|[|n]] [|[|p]]; cbn; try tauto; try lia; eauto; repeat split; intuition (try lia; try discriminate).
Qed.
(** A transducer that lets even values through, in both directions: the reader keeps the
    value that was let through last; an odd value is not written. *)
Definition evens : graph nat :=
  let even_only vs := if Nat.even (hd 0 vs) then Some (hd 0 vs) else None in
  Graph 2 (fun n => match n with 0 => Root false | _ => Inner false end)
    (fun n => match n with 1 => [0] | _ => [] end) (fun n => match n with 0 => [1] | _ => [] end)
    (fun _ vs => even_only vs) (fun _ _ v => if Nat.even v then Some [v] else None).
Example C66_rejects_demo :
  let s := after evens calm [Set_ 0 4; Commit [0]; Set_ 0 5; Commit [0]] in
  built evens /\ map (last s) [0; 1] = [5; 4] /\ agrees differ evens 1 s /\
  fin (do differ evens calm (Set_ 1 7) s) = tick s /\
  cur (fin (do differ evens calm (Set_ 1 8) s)) 0 = 8.
Proof.
  split; [|split; [vm_compute; reflexivity|split; [discriminate|split; vm_compute; reflexivity]]].
  split; intros [|[|n]] [|[|p]]; cbn; try tauto; try lia; eauto; repeat split; intuition (try lia; try discriminate).
Qed.
(** Whether a parent was written to when something throws depends on the order. *)
Example C66_order_demo :
  let s := after both (once_at 2) [] in
  cur (fin (do differ both (once_at 2) (Set_ 3 7) s)) 0 = 7 /\
  cur (fin (do differ both (reversed 2) (Set_ 3 7) s)) 0 = 0.
Proof. split; vm_compute; reflexivity. Qed.
(** Two roots and a lens on both, written to in the other order *)
Definition two : graph nat :=
  Graph 3 (fun n => match n with 2 => Inner true | _ => Root false end)
    (fun n => match n with 2 => [0; 1] | _ => [] end) (fun n => match n with 0 | 1 => [2] | _ => [] end)
    (fun _ vs => Some (fold_right Nat.add 0 vs)) (fun _ vs v => Some [v; hd 0 vs]).
Example C66_accepted_demo :
  let s := after two (reversed 9) [Set_ 0 4; Commit [0]] in
  built two /\ put two 2 (map (cur s) (parents two 2)) 6 = Some [6; 4] /\
  how (do differ two (reversed 9) (Set_ 2 6) s) = true /\
  map (cur (fin (do differ two (reversed 9) (Set_ 2 6) s))) [0; 1] = [6; 4].
Proof.
  split; [|vm_compute; repeat split].
  split; intros [|[|[|n]]] [|[|[|p]]]; cbn; try tauto; try lia; eauto; repeat split; intuition (try lia; try discriminate).
Qed.
