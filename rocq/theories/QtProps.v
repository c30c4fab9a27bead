(** C61: Qt properties that show readers and cursors. *)
From Coq Require Import List Arith Bool.
From Verif Require Import WatchModel QtModel QtSpec QtSteps.
Import ListNotations.

(** Each object emits the signal once, with the new value, for each change of the node
    that it shows, in order, and for nothing else; READ gives the value of that node.
    Which node that is, and what it holds, is told without readers and callbacks. *)
Theorem C61_follow : forall V (veq : V -> V -> bool) fuel l val s,
  qrun veq fuel l (qinit val) = Fine s -> forall k,
  signals k s = said (told veq val l) k /\
  read k s = seen (shown k (told veq val l)) (told veq val l).
Proof. exact (fun V veq => @follow V veq). Qed.
Print Assumptions C61_follow.

(** The programs that run are those in which no object is used that does not exist and
    none without a node is written to. *)
Theorem C61_runs : forall V (veq : V -> V -> bool) l val,
  all_sensible veq val l <-> exists fuel s, qrun veq fuel l (qinit val) = Fine s.
Proof. exact (fun V veq => @runs V veq). Qed.
Print Assumptions C61_runs.

(** What NOTIFY is for: an object made to show [n], and whose member is not assigned,
    READs as the last signal said, or if there was none, as it did when it was made. *)
Theorem C61_last : forall V (veq : V -> V -> bool) fuel a n b val s,
  let k := length (shows (told veq val a)) in
  qrun veq fuel (a ++ QNew (Some n) :: b) (qinit val) = Fine s -> kept_as k b ->
  read k s = Value (last (signals k s) (holds (told veq val a) n)).
Proof. exact (fun V veq => @last_signal V veq). Qed.
Print Assumptions C61_last.

(** WRITE: the object, and every other one that shows the same node, READs the value
    written, and emits the signal once if it differs and not at all otherwise (so that
    a loop of bindings ends); no other object is affected. *)
Theorem C61_write : forall V (veq : V -> V -> bool) fuel l val s s' k v,
  (forall a b, veq a b = true <-> a = b) ->
  qrun veq fuel l (qinit val) = Fine s -> qstep veq fuel (QSet k v) s = Fine s' ->
  exists n u, shown k (told veq val l) = Some (Some n) /\ read k s = Value u /\
  forall j,
    (shown j (told veq val l) = Some (Some n) ->
       read j s' = Value v /\ (u = v -> signals j s' = signals j s) /\ (u <> v -> signals j s' = signals j s ++ [v])) /\
    (shown j (told veq val l) <> Some (Some n) -> read j s' = read j s /\ signals j s' = signals j s).
Proof. exact (fun V veq => @write V veq). Qed.
Print Assumptions C61_write.

(** Three objects: two of node 0, one made without a node and then assigned node 1. *)
Definition some_prog : list (qop nat) :=
  [QNew (Some 0); QNew None; QNew (Some 0); QChange 0 5; QAssign 1 (Some 1); QSet 2 7; QSet 0 7; QChange 1 8;
   QDelete 0; QChange 0 9; QSet 1 3].
Definition final (l : list (qop nat)) : qst nat :=
  match qrun Nat.eqb 20 l (qinit (fun n => n)) with Fine s => s | Bad _ => qinit (fun n => n) end.
Definition fine (r : qres nat) : bool := match r with Fine _ => true | Bad _ => false end.
Lemma final_run : forall l, fine (qrun Nat.eqb 20 l (qinit (fun n => n))) = true ->
  qrun Nat.eqb 20 l (qinit (fun n => n)) = Fine (final l).
Proof. intros l H. unfold final. destruct (qrun _ _ _ _); [auto|discriminate]. Qed.
Lemma final_step : forall l x, fine (qrun Nat.eqb 20 (l ++ [x]) (qinit (fun n => n))) = true ->
  fine (qrun Nat.eqb 20 l (qinit (fun n => n))) = true ->
  qstep Nat.eqb 20 x (final l) = Fine (final (l ++ [x])).
Proof.
  intros l x H H0. unfold final in *. rewrite run_app in *. destruct (qrun Nat.eqb 20 l _) as [s|]; [|discriminate].
  cbn [qrun] in *. destruct (qstep Nat.eqb 20 x s); [auto|discriminate].
Qed.

Example C61_ex : qrun Nat.eqb 20 some_prog (qinit (fun n => n)) = Fine (final some_prog) /\
  map (fun k => signals k (final some_prog)) [0; 1; 2] = [[5; 7]; [8; 3]; [5; 7; 9]] /\
  map (fun k => read k (final some_prog)) [0; 1; 2] = [Gone; Value 3; Value 9].
Proof. split; [apply final_run; vm_compute; reflexivity|]. split; vm_compute; reflexivity. Qed.
Example C61_ex_story :
  map (said (told Nat.eqb (fun n => n) some_prog)) [0; 1; 2] = [[5; 7]; [8; 3]; [5; 7; 9]] /\
  shows (told Nat.eqb (fun n => n) some_prog) = [None; Some (Some 1); Some (Some 0)].
Proof. split; vm_compute; reflexivity. Qed.
Example C61_ex_last :
  let b := [QChange 0 5; QSet 0 3; QSet 1 6] in
  let l := [QNew (Some 1)] ++ QNew (Some 0) :: b in
  qrun Nat.eqb 20 l (qinit (fun n => n)) = Fine (final l) /\
  kept_as 1 b /\ signals 1 (final l) = [5; 6] /\ read 1 (final l) = Value 6.
Proof.
  split; [apply final_run; vm_compute; reflexivity|]. split; [repeat constructor|]. split; vm_compute; reflexivity.
Qed.
Example C61_ex_write :
  let l := [QNew (Some 0); QNew (Some 1); QNew (Some 0)] in
  qrun Nat.eqb 20 l (qinit (fun n => n)) = Fine (final l) /\
  qstep Nat.eqb 20 (QSet 0 7) (final l) = Fine (final (l ++ [QSet 0 7])) /\
  map (fun k => signals k (final (l ++ [QSet 0 7]))) [0; 1; 2] = [[7]; []; [7]].
Proof.
  split; [apply final_run; vm_compute; reflexivity|]. split; [apply final_step; vm_compute; reflexivity|].
  vm_compute; reflexivity.
Qed.

(** ** What does not hold *)

(** Assigning the member changes what the property READs, and nobody is told: the
    interface shows the old value until the node changes. *)
Theorem C61_assign_refuted : ~ (forall V (veq : V -> V -> bool) fuel l val s,
  qrun veq fuel l (qinit val) = Fine s ->
  forall k n v, read k s = Value v ->
  forall s', qstep veq fuel (QAssign k n) s = Fine s' -> read k s' = Value v \/ signals k s' <> signals k s).
Proof.
  intros H.
  assert (R : fine (qrun Nat.eqb 20 [QNew (Some 0)] (qinit (fun n => n))) = true) by (vm_compute; reflexivity).
  assert (R' : fine (qrun Nat.eqb 20 ([QNew (Some 0)] ++ [QAssign 0 (Some 1)]) (qinit (fun n => n))) = true) by (vm_compute; reflexivity).
  assert (E : read 0 (final [QNew (Some 0)]) = Value 0) by (vm_compute; reflexivity).
  destruct (H nat Nat.eqb 20 [QNew (Some 0)] (fun n => n) _ (final_run _ R) 0 (Some 1) 0 E _ (final_step _ _ R' R)) as [C|C].
  - vm_compute in C. discriminate.
  - apply C. vm_compute. reflexivity.
Qed.
Print Assumptions C61_assign_refuted.

(** A property whose member was default constructed cannot be READ or WRITTEN: there is
    no node. *)
Theorem C61_null_refuted : ~ (forall V (veq : V -> V -> bool) fuel l val s,
  qrun veq fuel l (qinit val) = Fine s -> forall k, k < length (members s) -> read k s = Gone \/ exists v, read k s = Value v).
Proof.
  intros H.
  assert (R : fine (qrun Nat.eqb 20 [QNew None] (qinit (fun n => n))) = true) by (vm_compute; reflexivity).
  assert (L : 0 < length (members (final [QNew None]))) by (vm_compute; auto).
  destruct (H nat Nat.eqb 20 [QNew None] (fun n => n) _ (final_run _ R) 0 L) as [C|[v C]]; vm_compute in C; discriminate.
Qed.
Print Assumptions C61_null_refuted.
