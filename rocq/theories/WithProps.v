(** Property C18: chains of [with(...)].

    Executions as in NodesProps.v.  A chain is a list of method calls, each with
    a flag: whether the client makes a reader (or cursor) after this call and goes
    on from there.  So one list of calls with different flags is the same
    expression, written at once or step by step.  [chain_nodes] are the nodes
    the library makes for it, the last of them is the result. *)
From Coq Require Import List Arith Cantor Bool Lia Permutation.
From Verif Require Import NodesModel NodesSpec NodesTrackSpec NodesProps WithModel WithSpec WithFacts WithCalls
                          WithLatest.
Import ListNotations.

Section Props.
Context {V W : Type}.
Variable dv : V.
Variable changed : V -> V -> bool.
Hypothesis changed_sound : forall a b, changed a b = false -> a = b.
Variable ordV : graph V W -> nat -> list (nat * V) -> list (nat * V).
Hypothesis ordV_perm : forall g n l, Permutation l (ordV g n l).
Variable ordN : graph V W -> nat -> list nat -> list nat.
Hypothesis ordN_perm : forall g n l, Permutation l (ordN g n l).
Variable tup : list V -> V.
Variable untup : V -> list V.

Notation exec := (exec changed ordV ordN).
Notation run := (run dv changed ordV ordN).
Notation chain_nodes := (@chain_nodes V W tup untup).

(** Every chain of calls gives a reader, except when a two-way transducer is called on
    what a one-way transducer gave with no reader made in between. *)
Theorem C18_methods : forall next rd ns os, chain_nodes next (EWith rd ns) os = None <-> no_method os.
Proof. exact (methods (W := W) tup untup). Qed.
(** What one call shows of the sources and writes to them: [map], [filter], [xform] of
    these and of [update], one-way and two-way, and [zoom]. *)
Theorem C18_calls : forall c xs v,
  (forall y, read1 tup (call_op tup c) xs = Some y <-> call_reads tup c xs y) /\
  (forall u, write1 tup (call_op tup c) xs v = Some u <-> call_writes tup c xs v u).
Proof. exact (call_meaning tup). Qed.
(** The theorems below apply to chains of such calls on one source; for writing, if the
    calls are two-way ones and no [update] directly follows a two-way transducer. *)
Theorem C18_calls_fit : forall n cs, steps_fit [n] (map (call_op tup) (map fst cs)) /\
  (Forall two_way (map fst cs) -> updates_first false cs ->
   Forall op_writes (map (call_op tup) (map fst cs)) /\
   apart false (map (fun x => (call_op tup (fst x), snd x)) cs)).
Proof. exact (fun n cs => conj (call_keeps tup (map fst cs) n) (call_fits tup cs)). Qed.

(** Making the nodes of a chain puts them in the graph. *)
Theorem C18_built : forall fuel d ks s s', exec fuel (TProg (make_all d ks)) s = Done s' ->
  built (gr s') (cnt (gr s)) ks.
Proof. exact (make_all_done changed changed_sound ordV ordN). Qed.

(** Wherever readers were made in between, the reader at the end shows what the
    calls, one after the other, give of what the sources show. *)
Theorem C18_reads : forall fuel w p s next rd ns os ks v, visible (run fuel w p) s ->
  chain_nodes next (EWith rd ns) os = Some ks -> built (gr s) next ks ->
  (forall q, In q ns -> plain (gr s) q) ->
  alive (gr s) (next + length ks - 1) = true -> clean (gr s) (log s) (next + length ks - 1) ->
  steps_fit ns (map fst os) ->
  chain_reads tup (map fst os) (map (last (gr s)) ns) = Some v ->
  last (gr s) (next + length ks - 1) = v.
Proof. exact (chain_consistent dv changed changed_sound ordV ordN tup untup). Qed.

(** With steps that reject values: wherever readers were made in between, the reader at
    the end shows what the calls give of the most recent value of the source that all of
    them accept, of those shown since the reader was made; else what it was made with. *)
Theorem C18_latest : forall fuel w p s next rd q os ks, visible (run fuel w p) s ->
  chain_nodes next (EWith rd [q]) os = Some ks -> built (gr s) next ks ->
  alive (gr s) (next + length ks - 1) = true -> not_reread (gr s) next ->
  steps_fit [q] (map fst os) ->
  exists v0, made_with (log s) (next + length ks - 1) = Some v0 /\
    last (gr s) (next + length ks - 1) =
    latest (fun x => chain_reads tup (map fst os) [x]) (shown_since (log s) q (next + length ks - 1)) v0.
Proof.
  exact (chain_latest dv changed changed_sound ordV ordN
           (fun g n l x => Permutation_in x (Permutation_sym (ordN_perm g n l))) tup untup).
Qed.

(** From several sources, told by a reader of them all that is older than the chain and only
    merges them: the same of the tuples it has shown, with the one it showed when the reader
    at the end was made counted or not.  A node is told of every source that changes,
    also if the tuple is then the same as before. *)
Theorem C18_latest_many : forall fuel w p s next rd rd' ns m os ks, visible (run fuel w p) s ->
  2 <= length ns -> (forall xs, length xs = length ns -> untup (tup xs) = xs) ->
  chain_nodes next (EWith rd ns) os = Some ks -> built (gr s) next ks ->
  alive (gr s) (next + length ks - 1) = true -> not_reread (gr s) next ->
  steps_fit ns (map fst os) ->
  m < next -> built (gr s) m [make_node tup untup (EWith rd' ns)] -> alive (gr s) m = true -> not_reread (gr s) m ->
  exists v0 t0, made_with (log s) (next + length ks - 1) = Some v0 /\
    shown_when (log s) m (next + length ks - 1) = Some t0 /\
    let all x := chain_reads tup (map fst os) (untup x) in
    let seen := shown_since (log s) m (next + length ks - 1) in
    last (gr s) (next + length ks - 1) = latest all seen v0 \/
    last (gr s) (next + length ks - 1) = latest all (seen ++ [t0]) v0.
Proof.
  exact (chain_latest_many dv changed changed_sound ordV ordN
           (fun g n l x => Permutation_in x (Permutation_sym (ordN_perm g n l))) tup untup).
Qed.

(** Wherever cursors were made in between, setting the cursor at the end does
    to the states what setting the sources to the parts of [chain_writes] does:
    the new values are computed from the values of the sources as last written,
    and the sources are written in some order. *)
Theorem C18_writes : forall fuel0 w p fuel s s' next ns os ks v env, visible (run fuel0 w p) s ->
  chain_nodes next (EWith false ns) os = Some ks -> built (gr s) next ks ->
  steps_fit ns (map fst os) -> Forall op_writes (map fst os) -> apart false os ->
  (forall q, In q ns -> writable (gr s) q) ->
  (forall r a, kind_of (gr s) r = KState a -> written (log s) r = Some (env r)) ->
  finished (exec fuel (TCmd (CSet (next + length ks - 1) v)) s) s' ->
  exists vs l ws, Forall2 (value_of (gr s) env) ns vs /\
    match chain_writes tup (map fst os) vs v with
    | Some u => Permutation (combine ns (parts untup ns u)) l
    | None => l = []
    end /\ puts (gr s) env l ws /\ log s' = logged ws ++ log s.
Proof. exact (chain_sets dv changed changed_sound ordV ordV_perm ordN ordN_perm tup untup). Qed.

(** From one source made of one state, there is no choice: fused or step by
    step, the same is written. *)
Theorem C18_writes_same : forall fuel0 w p fuel1 fuel2 s s1 s2 next1 next2 ns os1 os2 ks1 ks2 v,
  visible (run fuel0 w p) s -> map fst os1 = map fst os2 ->
  chain_nodes next1 (EWith false ns) os1 = Some ks1 -> built (gr s) next1 ks1 ->
  chain_nodes next2 (EWith false ns) os2 = Some ks2 -> built (gr s) next2 ks2 ->
  steps_fit ns (map fst os1) -> Forall op_writes (map fst os1) -> apart false os1 -> apart false os2 ->
  (forall q, In q ns -> writable (gr s) q) ->
  length ns <= 1 -> (forall q m, In q ns -> source (gr s) m q -> length (parents (gr s) m) <= 1) ->
  finished (exec fuel1 (TCmd (CSet (next1 + length ks1 - 1) v)) s) s1 ->
  finished (exec fuel2 (TCmd (CSet (next2 + length ks2 - 1) v)) s) s2 ->
  log s1 = log s2.
Proof. exact (chain_sets_same dv changed changed_sound ordV ordV_perm ordN ordN_perm tup untup). Qed.
End Props.
Print Assumptions C18_methods.
Print Assumptions C18_calls.
Print Assumptions C18_calls_fit.
Print Assumptions C18_built.
Print Assumptions C18_reads.
Print Assumptions C18_latest.
Print Assumptions C18_latest_many.
Print Assumptions C18_writes.
Print Assumptions C18_writes_same.

(** * Concrete cases

    Pairs of digits: 23 is (2, 3). *)
Definition pair2 (l : list nat) : nat := match l with [a; b] => 10 * a + b | _ => 0 end.
Definition unpair2 (v : nat) : list nat := [v / 10; v mod 10].
Definition tens : @lens nat := Lens (fun x => x / 10) (fun x v => 10 * v + x mod 10).
Definition plus1 : @op nat := OXform2 (x_map (fun l => hd 0 l + 1)) (w_map pred).
Definition cuts (flags : list bool) (os : list (@op nat)) := combine os flags.
Definition nodes2 next ns flags os : list (kind nat nat * list nat) :=
  match chain_nodes pair2 unpair2 next (EWith false ns) (cuts flags os) with Some ks => ks | None => [] end.

(** with(0, 1).zoom(tens).map(+1, -1): states 0 and 1; once fused (but the zoom
    and the map do not fuse), once step by step. *)
Definition ops1 : list (@op nat) := [OZoom tens; plus1; plus1].
Definition ks1 := nodes2 2 [0; 1] [false; false; false] ops1.
Definition ks2 := nodes2 4 [0; 1] [true; true; true] ops1.
Definition prg18 : prog nat nat :=
  PDo (CNew (KState false) [] (Some 4)) (fun _ => PDo (CNew (KState false) [] (Some 7)) (fun _ =>
    make_all (Some 0) (ks1 ++ ks2))).
Definition s18 := st_of (nrun 60 0 prg18).
Example C18_run : nrun 60 0 prg18 = Done s18 /\ length ks1 = 2 /\ length ks2 = 4. Proof. split; [runs|]. now_vm. Qed.
Example C18_case_fit : steps_fit [0; 1] ops1 /\ Forall op_writes ops1 /\
  forall f, apart false (cuts f ops1).
Proof.
  assert (K : @op_keeps nat plus1) by (intros a ys E; injection E as <-; eauto).
  assert (P : @op_writes nat plus1) by (split; [discriminate|right; intros ? ? ?; reflexivity]).
  split; [split|split].
  - repeat (apply Forall_cons; [first [exact I|exact K]|]). apply Forall_nil.
  - right. exact I.
  - repeat (apply Forall_cons; [first [exact I|exact P]|]). apply Forall_nil.
  - intros [|a [|b [|c f]]]; cbn; repeat split; auto; intros _ ? ? ?; reflexivity.
Qed.
Lemma built_check : forall g next (ks : list (kind nat nat * list nat)),
  (forall i, i < length ks -> nth_error ks i = Some (kind_of g (next + i), parents g (next + i))) -> built g next ks.
Proof.
  intros g next ks H i k ps E. assert (L : i < length ks) by (apply nth_error_Some; congruence).
  specialize (H i L). rewrite E in H. injection H as -> ->. auto.
Qed.
Example C18_case_built : built (gr s18) 2 ks1 /\ built (gr s18) 4 ks2.
Proof.
  split; apply built_check; intros i L.
  - assert (L2 : i < 2) by exact L.
    do 2 (destruct i as [|i]; [vm_compute; reflexivity|]). lia.
  - assert (L4 : i < 4) by exact L.
    do 4 (destruct i as [|i]; [vm_compute; reflexivity|]). lia.
Qed.
Example C18_case_plain : forall q, In q [0; 1] -> plain (gr s18) q /\ writable (gr s18) q.
Proof.
  intros q [<-|[<-|[]]]; (split; [apply plain_root; vm_compute; reflexivity|]); intros m S;
    (inversion S as [|? p ? ? HP]; subst; [vm_compute; exact I|vm_compute in HP; contradiction]).
Qed.
Example C18_case_reads : alive (gr s18) 3 = true /\ alive (gr s18) 7 = true /\
  chain_reads pair2 ops1 [4; 7] = Some 6 /\ last (gr s18) 3 = 6 /\ last (gr s18) 7 = 6 /\
  uncommitted (log s18) 0 = false /\ uncommitted (log s18) 1 = false.
Proof. now_vm. Qed.
(** Setting either to 9 writes 7 to the first state, and 7, its own value, to the second. *)
Example C18_case_writes : exists s1 s2, nexec 60 (TCmd (CSet 3 9)) s18 = Done s1 /\
  nexec 60 (TCmd (CSet 7 9)) s18 = Done s2 /\
  chain_writes pair2 ops1 [4; 7] 9 = Some 77 /\ unpair2 77 = [7; 7] /\
  since s18 s1 = logged [(0, 7); (1, 7)] /\ since s18 s2 = logged [(0, 7); (1, 7)].
Proof. eexists _, _. split; [runs|]. split; [runs|]. now_vm. Qed.

(** with(0).map(+1, -1).xform(id, update(+)), a cursor made in between, set to 5: the update
    gets the mapped value, 2. *)
Definition calls5 : list (@call nat * bool) :=
  [(CMap2 (fun l => hd 0 l + 1) pred, true); (CXform2 (RMap (hd 0)) (WUpdate Nat.add), false)].
Definition ops5 := map (fun x => (call_op pair2 (fst x), snd x)) calls5.
Definition ks5 := match chain_nodes (W := nat) pair2 unpair2 1 (EWith false [0]) ops5 with Some ks => ks | None => [] end.
Definition s18c := st_of (nrun 60 0 (PDo (CNew (KState false) [] (Some 1)) (fun _ => make_all (W := nat) (Some 0) ks5))).
Example C18_case_update : Forall two_way (map fst calls5) /\ updates_first false calls5 /\
  length ks5 = 2 /\ exists s1, nexec 60 (TCmd (CSet 2 5)) s18c = Done s1 /\ since s18c s1 = logged [(0, 6)] /\
  chain_writes pair2 (map fst ops5) [1] 5 = Some 6.
Proof.
  split; [repeat constructor|]. split; [cbn; repeat split; discriminate|]. split; [reflexivity|].
  eexists. split; [runs|]. now_vm.
Qed.
Example C18_case_none : chain_nodes (W := nat) pair2 unpair2 1 (EWith false [0])
  (cuts [false; false] [OXform (x_map (hd 0)); plus1]) = None.
Proof. reflexivity. Qed.

(** One source: the three cases of C18_writes_same. *)
Definition ops3 : list (@op nat) := [plus1; OZoom tens; OZoom tens].
Definition ks3 := nodes2 1 [0] [false; false; false] ops3.
Definition ks4 := nodes2 3 [0] [false; true; false] ops3.
Definition prg18b : prog nat nat := PDo (CNew (KState false) [] (Some 46)) (fun _ => make_all (Some 0) (ks3 ++ ks4)).
Definition s18b := st_of (nrun 60 0 prg18b).
Example C18_case_same : nrun 60 0 prg18b = Done s18b /\ length ks3 = 2 /\ length ks4 = 3 /\
  last (gr s18b) 2 = 0 /\ last (gr s18b) 5 = 0 /\
  exists s1 s2, nexec 60 (TCmd (CSet 2 1)) s18b = Done s1 /\ nexec 60 (TCmd (CSet 5 1)) s18b = Done s2 /\
  since s18b s1 = logged [(0, 146)] /\ since s18b s2 = logged [(0, 146)] /\
  parents (gr s18b) 0 = [] /\ chain_writes pair2 ops3 [46] 1 = Some 146.
Proof. split; [runs|]. do 4 (split; [vm_compute; reflexivity|]). eexists _, _. split; [runs|]. split; [runs|]. now_vm. Qed.

(** * What does not hold *)

(** A filter that rejects: with(0).filter(even).map(+1), the state being 1.  The
    fused reader starts with the default value of its type, 0; step by step the
    filtered reader starts with 0 and the mapped one with 1. *)
Definition opsF : list (@op nat) := [OXform (x_filter (fun l => Nat.even (hd 0 l))); OXform (x_map (fun l => hd 0 l + 1))].
Definition ksF1 := nodes2 1 [0] [false; false] opsF.
Definition ksF2 := nodes2 2 [0] [true; false] opsF.
Definition prgF18 : prog nat nat := PDo (CNew (KState false) [] (Some 1)) (fun _ => make_all (Some 0) (ksF1 ++ ksF2)).
Theorem C18_filter_default_refuted : exists ks1 ks2 s,
  chain_nodes pair2 unpair2 1 (EWith false [0]) (cuts [false; false] opsF) = Some ks1 /\
  chain_nodes pair2 unpair2 2 (EWith false [0]) (cuts [true; false] opsF) = Some ks2 /\
  nrun 60 0 (PDo (CNew (KState false) [] (Some 1)) (fun _ => make_all (Some 0) (ks1 ++ ks2))) = Done s /\
  steps_fit [0] opsF /\ length ks1 = 1 /\ length ks2 = 2 /\ last (gr s) 1 = 0 /\ last (gr s) 3 = 1.
Proof.
  exists ksF1, ksF2. eexists. split; [reflexivity|]. split; [reflexivity|]. split; [runs|]. split.
  - split; [|now left]. repeat constructor.
    + intros a ys E. unfold x_filter in E. destruct (Nat.even (hd 0 [a])); [|discriminate].
      injection E as <-. eauto.
    + intros a ys E. injection E as <-. eauto.
  - now_vm.
Qed.
Print Assumptions C18_filter_default_refuted.

(** The same two readers over a state that is 4 when they are made, then 6, 7, 8, 8, 3: both
    show 9. *)
Definition prgL18 : prog nat nat := PDo (CNew (KState true) [] (Some 4)) (fun _ =>
  PDo (CNew (fst (hd (KConst, []) ksF1)) [0] (Some 0)) (fun _ =>
  PDo (CNew (fst (hd (KConst, []) ksF2)) [0] (Some 0)) (fun _ =>
  PDo (CNew (fst (hd (KConst, []) (tl ksF2))) [2] (Some 0)) (fun _ =>
  PDo (CSet 0 6) (fun _ => PDo (CSet 0 7) (fun _ => PDo (CSet 0 8) (fun _ => PDo (CSet 0 8) (fun _ =>
  PDo (CSet 0 3) (fun _ => PRet))))))))).
Definition sL18 := st_of (nrun 60 0 prgL18).
Example C18_case_latest : nrun 60 0 prgL18 = Done sL18 /\ built (gr sL18) 1 ksF1 /\ built (gr sL18) 2 ksF2 /\
  not_reread (gr sL18) 1 /\ not_reread (gr sL18) 2 /\
  shown_since (log sL18) 0 1 = [3; 8; 7; 6] /\ shown_since (log sL18) 0 3 = [3; 8; 7; 6] /\
  last (gr sL18) 0 = 3 /\ last (gr sL18) 1 = 9 /\ last (gr sL18) 3 = 9 /\
  alive (gr sL18) 1 = true /\ alive (gr sL18) 3 = true.
Proof.
  split; [runs|]. split; [|split].
  - apply built_check; intros i L. assert (L1 : i < 1) by exact L.
    destruct i as [|i]; [vm_compute; reflexivity|]. lia.
  - apply built_check; intros i L. assert (L2 : i < 2) by exact L.
    do 2 (destruct i as [|i]; [vm_compute; reflexivity|]). lia.
  - assert (N : forall m, ~ rereads (gr sL18) m).
    { intros m. do 4 (destruct m as [|m]; [vm_compute; tauto|]). vm_compute. tauto. }
    split; [intros m _; apply N|]. split; [intros m _; apply N|]. now_vm.
Qed.

(** with(0, 1).map(sum).filter(even).map(+1), fused (3) and step by step (4 to 6), beside the
    reader of both (2).  The states are 1 and 2 when they are made; then the first is 4, the
    second 5, the first 6, the second 4 and then 5. *)
Definition pairC (l : list nat) : nat := match l with [a; b] => Cantor.to_nat (a, b) | _ => 0 end.
Definition unpairC (v : nat) : list nat := let (a, b) := Cantor.of_nat v in [a; b].
Lemma unpairC_pairC : forall xs, length xs = 2 -> unpairC (pairC xs) = xs.
Proof.
  intros [|a [|b [|? ?]]] E; try discriminate. unfold unpairC, pairC. now rewrite Cantor.cancel_of_to.
Qed.
Definition opsM : list (@op nat) := [OXform (x_map (fun l => hd 0 l + nth 1 l 0));
  OXform (x_filter (fun l => Nat.even (hd 0 l))); OXform (x_map (fun l => hd 0 l + 1))].
Definition nodesM next flags : list (kind nat nat * list nat) :=
  match chain_nodes pairC unpairC next (EWith true [0; 1]) (cuts flags opsM) with Some ks => ks | None => [] end.
Definition ksM1 := nodesM 3 [false; false; false].
Definition ksM2 := nodesM 4 [true; true; false].
Definition prgM18 : prog nat nat := PDo (CNew (KState true) [] (Some 1)) (fun _ =>
  PDo (CNew (KState true) [] (Some 2)) (fun _ =>
  PDo (CNew (fst (@make_node nat nat pairC unpairC (EWith true [0; 1]))) [0; 1] (Some 0)) (fun _ =>
  PDo (CNew (fst (hd (KConst, []) ksM1)) [0; 1] (Some 0)) (fun _ =>
  PDo (CNew (fst (hd (KConst, []) ksM2)) [0; 1] (Some 0)) (fun _ =>
  PDo (CNew (fst (hd (KConst, []) (tl ksM2))) [4] (Some 0)) (fun _ =>
  PDo (CNew (fst (hd (KConst, []) (tl (tl ksM2)))) [5] (Some 0)) (fun _ =>
  PDo (CSet 0 4) (fun _ => PDo (CSet 1 5) (fun _ => PDo (CSet 0 6) (fun _ => PDo (CSet 1 4) (fun _ =>
  PDo (CSet 1 5) (fun _ => PRet)))))))))))).
Definition sM18 := st_of (nrun 90 0 prgM18).
Example C18_case_latest_many : nrun 90 0 prgM18 = Done sM18 /\
  chain_nodes pairC unpairC 3 (EWith true [0; 1]) (cuts [false; false; false] opsM) = Some ksM1 /\
  chain_nodes pairC unpairC 4 (EWith true [0; 1]) (cuts [true; true; false] opsM) = Some ksM2 /\
  built (gr sM18) 2 [make_node pairC unpairC (EWith true [0; 1])] /\
  built (gr sM18) 3 ksM1 /\ built (gr sM18) 4 ksM2 /\ steps_fit [0; 1] opsM /\
  (forall n, not_reread (gr sM18) n) /\
  map (alive (gr sM18)) [2; 3; 4; 5; 6] = [true; true; true; true; true] /\
  map unpairC (shown_since (log sM18) 2 3) = [[6; 5]; [6; 4]; [6; 5]; [4; 5]; [4; 2]] /\
  last (gr sM18) 3 = 11 /\ last (gr sM18) 6 = 11 /\ last (gr sM18) 4 = 11 /\ last (gr sM18) 5 = 10.
Proof.
  split; [runs|]. split; [reflexivity|]. split; [reflexivity|]. split; [|split; [|split; [|split; [|split]]]].
  - apply built_check; intros i L. assert (L1 : i < 1) by exact L.
    destruct i as [|i]; [vm_compute; reflexivity|]. lia.
  - apply built_check; intros i L. assert (L1 : i < 1) by exact L.
    destruct i as [|i]; [vm_compute; reflexivity|]. lia.
  - apply built_check; intros i L. assert (L3 : i < 3) by exact L.
    do 3 (destruct i as [|i]; [vm_compute; reflexivity|]). lia.
  - split; [|right; intros xs ys E; injection E as <-; eauto]. repeat constructor.
    + intros a ys E. injection E as <-. eauto.
    + intros a ys E. unfold x_filter in E. destruct (Nat.even (hd 0 [a])); [|discriminate].
      injection E as <-. eauto.
    + intros a ys E. injection E as <-. eauto.
  - intros n m _. do 8 (destruct m as [|m]; [vm_compute; tauto|]). vm_compute. tauto.
  - now_vm.
Qed.

(** A writing transducer that updates: with(0).map(+1, -1).xform(id, update(+)),
    the state being 1, set to 5.  Step by step the update gets the mapped value,
    2; fused it gets the value of the state. *)
Definition opsU : list (@op nat) := [plus1; OXform2 (x_map (hd 0)) (w_update pair2 Nat.add)].
Definition ksU1 := nodes2 1 [0] [false; false] opsU.
Definition ksU2 := nodes2 2 [0] [true; false] opsU.
Theorem C18_update_refuted : exists ks1 ks2 s s1 s2,
  chain_nodes pair2 unpair2 1 (EWith false [0]) (cuts [false; false] opsU) = Some ks1 /\
  chain_nodes pair2 unpair2 2 (EWith false [0]) (cuts [true; false] opsU) = Some ks2 /\
  nrun 60 0 (PDo (CNew (KState false) [] (Some 1)) (fun _ => make_all (Some 0) (ks1 ++ ks2))) = Done s /\
  length ks1 = 1 /\ length ks2 = 2 /\ last (gr s) 1 = last (gr s) 3 /\
  nexec 60 (TCmd (CSet 1 5)) s = Done s1 /\ nexec 60 (TCmd (CSet 3 5)) s = Done s2 /\
  since s s1 = logged [(0, 5)] /\ since s s2 = logged [(0, 6)].
Proof.
  exists ksU1, ksU2. eexists _, _, _. split; [reflexivity|]. split; [reflexivity|]. split; [runs|].
  do 3 (split; [vm_compute; reflexivity|]). split; [runs|]. split; [runs|]. now_vm.
Qed.
Print Assumptions C18_update_refuted.
