(** Properties C01-C13, C15, C16: the reader/cursor graph.

    [run fuel w p] executes an arbitrary client program [p] (including all its
    callbacks) from nothing; [visible r s]: client code observes the state [s]
    during or at the end of the execution [r]; [exec fuel (TCmd c) s] is one
    more API call [c] made in [s].  No bound on programs, graphs or histories.

    [changed] is the negation of [==]; [changed_sound] says that values which
    compare equal are equal.  [ordV]/[ordN] are the unspecified evaluation orders. *)
From Coq Require Import List Arith Bool Permutation.
From Verif Require Import NodesModel NodesSpec NodesFacts NodesWrite NodesApi NodesApi2.
Import ListNotations.

Section Props.
Context {V W : Type}.
Variable dv : V.
Variable changed : V -> V -> bool.
Hypothesis changed_sound : forall a b, changed a b = false -> a = b.
Variable ordV : graph V W -> nat -> list (nat * V) -> list (nat * V).
Variable ordN : graph V W -> nat -> list nat -> list nat.

Notation exec := (exec changed ordV ordN).
Notation run := (run dv changed ordV ordN).
Let vreach := visible_reach dv changed changed_sound ordV ordN.

(** * C01 *)

(** Any reader whose roots have no uncommitted write agrees with its sources,
    and shows exactly what the committed values of the roots determine. *)
Theorem C01_committed_consistent : forall fuel w p s n, visible (run fuel w p) s ->
  plain (gr s) n -> alive (gr s) n = true -> clean (gr s) (log s) n ->
  agrees (gr s) n /\ (forall v, denotes (gr s) (log s) n v -> last (gr s) n = v).
Proof. exact (consistent_visible dv changed changed_sound ordV ordN). Qed.

(** In particular when a commit that names all the roots written so far returns
    (or throws), and no callback wrote them. *)
Theorem C01_after_commit : forall fuel0 w p fuel ns s s' l n, visible (run fuel0 w p) s ->
  finished (exec fuel (TCmd (CCommit ns)) s) s' -> log s' = l ++ log s -> l <> [] ->
  (forall r, source (gr s') r n -> is_root (kind_of (gr s') r) = true ->
     (In r ns \/ uncommitted (log s) r = false) /\ writes l r = []) ->
  plain (gr s') n -> alive (gr s') n = true ->
  agrees (gr s') n /\ (forall v, denotes (gr s') (log s') n v -> last (gr s') n = v).
Proof.
  exact (fun fuel0 w p fuel ns s s' l n HV HF =>
    consistent_commit dv changed changed_sound ordV ordN fuel0 w p fuel ns s s' l n HV (or_intror HF)).
Qed.

(** The value determined by the roots exists, if derivations are total. *)
Theorem C01_value_exists : forall fuel w p s n, visible (run fuel w p) s ->
  plain (gr s) n -> alive (gr s) n = true ->
  (forall m down up, source (gr s) m n -> kind_of (gr s) m = KInner down up ->
     forall vs, down vs <> None) ->
  exists v, denotes (gr s) (log s) n v.
Proof. exact (denotes_visible dv changed changed_sound ordV ordN). Qed.

(** * C02 *)

(** At every moment client code runs during a commit. *)
Theorem C02_callbacks_see_consistent : forall fuel0 w p fuel ns s s' l n,
  visible (run fuel0 w p) s ->
  moment (exec fuel (TCmd (CCommit ns)) s) s' -> log s' = l ++ log s -> l <> [] ->
  (forall r, source (gr s') r n -> is_root (kind_of (gr s') r) = true ->
     (In r ns \/ uncommitted (log s) r = false) /\ writes l r = []) ->
  plain (gr s') n -> alive (gr s') n = true ->
  agrees (gr s') n /\ (forall v, denotes (gr s') (log s') n v -> last (gr s') n = v).
Proof.
  exact (fun fuel0 w p fuel ns s s' l n HV HF =>
    consistent_commit dv changed changed_sound ordV ordN fuel0 w p fuel ns s s' l n HV (or_introl HF)).
Qed.

(** All roots named in the commit show what was last written to them, already
    when the first callback runs: they are not propagated one after the other. *)
Theorem C02_roots_committed_together : forall fuel0 w p fuel ns s s' l r v,
  visible (run fuel0 w p) s ->
  visible (exec fuel (TCmd (CCommit ns)) s) s' -> log s' = l ++ log s -> l <> [] ->
  In r ns -> match kind_of (gr s') r with KState _ | KStore => True | _ => False end ->
  writes l r = [] -> written (log s) r = Some v -> last (gr s') r = v.
Proof. exact (commit_shows_written dv changed changed_sound ordV ordN). Qed.

(** With automatic roots: always, whatever callbacks do. *)
Theorem C02_automatic : forall fuel w p s n, visible (run fuel w p) s ->
  plain (gr s) n -> alive (gr s) n = true ->
  (forall r, source (gr s) r n ->
     match kind_of (gr s) r with KState false | KStore => False | _ => True end) ->
  agrees (gr s) n /\ (forall v, denotes (gr s) (log s) n v -> last (gr s) n = v).
Proof. exact (auto_visible dv changed changed_sound ordV ordN). Qed.

(** * C03 *)

(** [propagations l = 1]: no callback committed or wrote an automatic state. *)
Theorem C03_at_most_once : forall fuel0 w p fuel ns s s' l n sid, visible (run fuel0 w p) s ->
  finished (exec fuel (TCmd (CCommit ns)) s) s' -> log s' = l ++ log s ->
  propagations l = 1 -> calls l n sid <= 1.
Proof.
  exact (fun fuel0 w p fuel ns s s' l n sid HV HF EL HP =>
    eq_ind (propagations l) (fun k => calls l n sid <= k)
      (calls_visible dv changed changed_sound ordV ordN fuel0 w p fuel ns s s' l n sid HV HF EL) 1 HP).
Qed.

(** In general: at most one call for each propagation started meanwhile. *)
Theorem C03_at_most_once_each : forall fuel0 w p fuel ns s s' l n sid, visible (run fuel0 w p) s ->
  finished (exec fuel (TCmd (CCommit ns)) s) s' -> log s' = l ++ log s ->
  calls l n sid <= propagations l.
Proof. exact (calls_visible dv changed changed_sound ordV ordN). Qed.

(** * C04 *)
Theorem C04_change_notified : (forall a, changed a a = false) ->
  forall fuel0 w p fuel ns s s' l n sid cb, visible (run fuel0 w p) s ->
  exec fuel (TCmd (CCommit ns)) s = Done s' -> log s' = l ++ log s ->
  escapes l = false -> propagations l = 1 ->
  (forall r, source (gr s') r n -> is_root (kind_of (gr s') r) = true ->
     (In r ns \/ uncommitted (log s) r = false) /\ writes l r = []) ->
  plain (gr s') n ->
  In (sid, cb) (slots (gr s) n) -> In (sid, cb) (slots (gr s') n) ->
  last (gr s') n <> last (gr s) n ->
  calls l n sid = 1 /\ seen (log s') n sid = Some (last (gr s') n).
Proof. exact (told_visible dv changed changed_sound ordV ordN). Qed.

(** * C05 *)

(** No hypothesis on what callbacks do, except that no exception leaves them. *)
Theorem C05_nobody_left_stale : (forall a, changed a a = false) ->
  forall fuel w p s n sid cb, finished (run fuel w p) s -> escapes (log s) = false ->
  plain (gr s) n -> clean (gr s) (log s) n -> In (sid, cb) (slots (gr s) n) ->
  seen (log s) n sid = Some (last (gr s) n).
Proof. exact (rest_told dv changed changed_sound ordV ordN). Qed.

(** * C06 *)

(** Nothing happens but the evaluation of the committed sensors: same graph, and
    no call in the log. *)
Theorem C06_idle_commit_silent : (forall a, changed a a = false) ->
  forall fuel w p s ns, finished (run fuel w p) s -> escapes (log s) = false ->
  (forall r, In r ns -> handle (gr s) r = true /\ is_root (kind_of (gr s) r) = true /\
     uncommitted (log s) r = false /\
     forall f, kind_of (gr s) r = KSensor f -> f (world (gr s)) = last (gr s) r) ->
  exists l, Forall (fun e => exists r v, e = ESample r v) l /\
  forall k, exec (length ns + 2 + k) (TCmd (CCommit ns)) s =
    Done (St (gr s) (l ++ ECommit ns (world (gr s)) :: log s)).
Proof. exact (idle_commit dv changed changed_sound ordV ordN). Qed.

(** A watcher is never called more often than its reader was assigned. *)
Theorem C06_calls_need_assignments : forall fuel w p s n sid, finished (run fuel w p) s ->
  calls (log s) n sid <= assigned (log s) n.
Proof. exact (calls_assigned dv changed changed_sound ordV ordN). Qed.

(** * C08 *)
Theorem C08_set_visible_on_return : forall fuel0 w p fuel s s' r v, visible (run fuel0 w p) s ->
  kind_of (gr s) r = KState true -> finished (exec fuel (TCmd (CSet r v)) s) s' ->
  alive (gr s') r = true ->
  exists l, log s' = l ++ EWrite r v :: log s /\ (writes l r = [] -> last (gr s') r = v).
Proof. exact (set_auto_value dv changed changed_sound ordV ordN). Qed.

(** Everything derived from automatic states is consistent after every call. *)
Theorem C08_derived_consistent_on_return : forall fuel0 w p fuel c s s' n,
  visible (run fuel0 w p) s -> finished (exec fuel (TCmd c) s) s' ->
  plain (gr s') n -> alive (gr s') n = true ->
  (forall r, source (gr s') r n ->
     match kind_of (gr s') r with KState false | KStore => False | _ => True end) ->
  agrees (gr s') n /\ (forall v, denotes (gr s') (log s') n v -> last (gr s') n = v).
Proof.
  exact (fun fuel0 w p fuel c s s' n HV HF =>
    auto_after dv changed changed_sound ordV ordN w fuel (TCmd c) s s' n (vreach _ _ _ _ HV) HF).
Qed.

(** * C13 *)

(** One commit evaluates a sensor once per mention, all with the same world. *)
Theorem C13_sampled_once_per_mention : forall fuel0 w p fuel ns s s' l r f,
  visible (run fuel0 w p) s ->
  finished (exec fuel (TCmd (CCommit ns)) s) s' -> log s' = l ++ log s -> propagations l = 1 ->
  kind_of (gr s) r = KSensor f ->
  samples l r = repeat (f (world (gr s))) (count_occ Nat.eq_dec ns r).
Proof. exact (commit_samples dv changed changed_sound ordV ordN). Qed.

(** At all times a sensor shows the sample of its last commit (or creation);
    with C01, so does everything derived from it. *)
Theorem C13_shows_last_sample : forall fuel w p s r f, visible (run fuel w p) s ->
  kind_of (gr s) r = KSensor f -> sampled f (log s) r = Some (last (gr s) r).
Proof. exact (sensor_visible dv changed changed_sound ordV ordN). Qed.

(** * C15 *)

(** The values after a commit that threw are those of a commit whose callbacks
    do nothing. *)
Theorem C15_commit_values_despite_throw : forall fuel0 w p fuel fuel' ns s s' s2 l,
  visible (run fuel0 w p) s ->
  exec fuel (TCmd (CCommit ns)) s = Thrown s' -> log s' = l ++ log s -> propagations l = 1 ->
  finished (exec fuel' (TCmd (CCommit ns)) (mute s)) s2 ->
  forall n, n < cnt (gr s) -> last (gr s') n = last (gr s2) n.
Proof.
  exact (fun fuel0 w p fuel fuel' ns s s' s2 l HV HT =>
    commit_values dv changed changed_sound ordV ordN fuel0 w p fuel fuel' ns s s' s2 l HV (or_intror HT)).
Qed.

Theorem C15_set_values_despite_throw : forall fuel0 w p fuel fuel' r v s s' s2 l,
  visible (run fuel0 w p) s -> kind_of (gr s) r = KState true ->
  exec fuel (TCmd (CSet r v)) s = Thrown s' -> log s' = l ++ log s -> propagations l = 1 ->
  finished (exec fuel' (TCmd (CSet r v)) (mute s)) s2 ->
  forall n, n < cnt (gr s) -> last (gr s') n = last (gr s2) n.
Proof.
  exact (fun fuel0 w p fuel fuel' r v s s' s2 l HV K HT =>
    set_values dv changed changed_sound ordV ordN fuel0 w p fuel fuel' r v s s' s2 l HV K (or_intror HT)).
Qed.

(** Between outermost calls no node is marked as being notified, however many
    exceptions were thrown before. (C01, C02, C03 also hold for such histories.) *)
Theorem C15_no_node_left_notifying : forall fuel w p s, finished (run fuel w p) s ->
  forall n, ntf (gr s) n = false.
Proof. exact (run_ntf dv changed changed_sound ordV ordN). Qed.

(** * C16 *)

(** Only watchers connected at that time are called, with the value of their
    (live) reader: expired ones never are. *)
Theorem C16_only_connected_called : forall fuel w p s n sid v g, visible (run fuel w p) s ->
  In (ECall n sid v g) (log s) -> v = last g n /\ exists cb, In (sid, cb) (slots g n).
Proof. exact (fun fuel w p s n sid v g HV => reach_call dv changed ordN w s (vreach fuel w p s HV) n sid v g). Qed.

(** Evaluation orders only permute. *)
Hypothesis ordV_perm : forall g n l, Permutation l (ordV g n l).
Hypothesis ordN_perm : forall g n l, Permutation l (ordN g n l).

(** * C16, continued *)

(** The library itself never touches a destroyed node, nor reads past the end of
    a list of children; whatever callbacks create or destroy. *)
Theorem C16_no_use_after_free : forall fuel w p, run fuel w p <> UBlib.
Proof.
  exact (run_no_UBlib dv changed changed_sound ordV ordN
    (fun g n l x => Permutation_in x (Permutation_sym (ordV_perm g n l)))).
Qed.

(** * C07 *)
Theorem C07_transactional_writes_invisible : forall fuel p s s', only_writes (gr s) p ->
  finished (exec fuel (TProg p) s) s' ->
  (forall m, last (gr s') m = last (gr s) m) /\ (forall m, slots (gr s') m = slots (gr s) m) /\
  exists l, log s' = l ++ log s /\ Forall invisible l.
Proof. exact (writes_unseen changed ordV ordV_perm ordN). Qed.

(** * C09 *)
Theorem C09_set_through_lenses : forall fuel0 w p fuel s s' r auto n gv gs x v,
  visible (run fuel0 w p) s ->
  chain (gr s) r n gv gs -> kind_of (gr s) r = KState auto -> written (log s) r = Some x ->
  finished (exec fuel (TCmd (CSet n v)) s) s' ->
  exists l, log s' = l ++ EWrite r (gs x v) :: log s /\ (auto = false -> l = []).
Proof.
  exact (fun fuel0 w p fuel s s' r auto n gv gs x v HV =>
    set_chain dv changed changed_sound ordV ordV_perm ordN ordN_perm w fuel s s' r auto n gv gs x v
      (vreach _ _ _ _ HV)).
Qed.

(** After the commit every cursor [m] of that state shows its part of the new
    whole: the written one shows [v] by the law below, others their old part
    wherever [gv' (gs x v) = gv' x]. *)
Theorem C09_after_commit : forall fuel0 w p fuel s s' r n gv gs x v,
  visible (run fuel0 w p) s ->
  chain (gr s) r n gv gs -> kind_of (gr s) r = KState false -> written (log s) r = Some x ->
  exec fuel (TProg (PDo (CSet n v) (fun _ => PDo (CCommit [r]) (fun _ => PRet)))) s = Done s' ->
  exists l, log s' = l ++ EWrite r (gs x v) :: log s /\
    (writes l r = [] -> forall m gv' gs', chain (gr s) r m gv' gs' ->
       alive (gr s') m = true -> last (gr s') m = gv' (gs x v)).
Proof. exact (set_commit_chain dv changed changed_sound ordV ordV_perm ordN ordN_perm). Qed.

Theorem C09_composed_lens_lawful : forall (g : graph V W) r n gv gs, chain g r n gv gs ->
  (forall m p vw st, lens_node g m p vw st -> lawful vw st) -> lawful gv gs.
Proof. exact chain_lawful. Qed.

(** * C10 *)
Theorem C10_siblings_compose : forall fuel0 w p r fuel l gss s s' x, visible (run fuel0 w p) s ->
  Forall2 (fun nv gs => exists gv, chain (gr s) r (fst nv) gv gs) l gss ->
  kind_of (gr s) r = KState false -> written (log s) r = Some x ->
  exec fuel (TProg (set_all l)) s = Done s' ->
  written (log s') r = Some (fold_left (fun y vg => snd vg y (fst vg)) (combine (map snd l) gss) x) /\
  (forall m, m <> r -> written (log s') m = written (log s) m).
Proof.
  exact (fun fuel0 w p r fuel l gss s s' x HV =>
    sets_chain dv changed changed_sound ordV ordV_perm ordN ordN_perm w r fuel l gss s s' x
      (vreach _ _ _ _ HV)).
Qed.

(** * C11 *)
Theorem C11_update_reads_latest : forall fuel0 w p fuel s s' r auto n gv gs x fn,
  visible (run fuel0 w p) s ->
  chain (gr s) r n gv gs -> kind_of (gr s) r = KState auto -> written (log s) r = Some x ->
  n = r \/ (clean (gr s) (log s) n /\ handle (gr s) n = true) ->
  finished (exec fuel (TCmd (CUpdate n fn)) s) s' ->
  exists l, log s' = l ++ EWrite r (gs x (fn (gv x))) :: log s /\ (auto = false -> l = []).
Proof.
  exact (fun fuel0 w p fuel s s' r auto n gv gs x fn HV =>
    update_chain dv changed changed_sound ordV ordV_perm ordN ordN_perm w fuel s s' r auto n gv gs x fn
      (vreach _ _ _ _ HV)).
Qed.

Theorem C11_updates_compose : forall fuel0 w p r fuel l s s' x, visible (run fuel0 w p) s ->
  kind_of (gr s) r = KState false -> written (log s) r = Some x ->
  exec fuel (TProg (update_all r l)) s = Done s' ->
  written (log s') r = Some (fold_left (fun y f => f y) l x).
Proof.
  exact (fun fuel0 w p r fuel l s s' x HV =>
    updates_root dv changed changed_sound ordV ordV_perm ordN ordN_perm w r fuel l s s' x
      (vreach _ _ _ _ HV)).
Qed.

(** * C12 *)
Theorem C12_merge_writes_components : forall fuel0 w p0 fuel s s' n comps t (rt : nat -> nat) gv gs x,
  visible (run fuel0 w p0) s ->
  merge_node (gr s) n comps -> length (comps t) = length (parents (gr s) n) ->
  (forall p, In p (parents (gr s) n) -> chain (gr s) (rt p) p (gv p) (gs p) /\
     kind_of (gr s) (rt p) = KState false /\ written (log s) (rt p) = Some (x p)) ->
  NoDup (map rt (parents (gr s) n)) ->
  finished (exec fuel (TCmd (CSet n t)) s) s' ->
  exists l, log s' = l ++ log s /\ length l = length (parents (gr s) n) /\
    (forall p c, In (p, c) (combine (parents (gr s) n) (comps t)) ->
       In (EWrite (rt p) (gs p (x p) c)) l /\
       written (log s') (rt p) = Some (gs p (x p) c)) /\
    (forall m, ~ In m (map rt (parents (gr s) n)) -> written (log s') m = written (log s) m).
Proof. exact (set_merge_result dv changed changed_sound ordV ordV_perm ordN ordN_perm). Qed.

End Props.

Print Assumptions C01_committed_consistent.
Print Assumptions C01_after_commit.
Print Assumptions C01_value_exists.
Print Assumptions C02_callbacks_see_consistent.
Print Assumptions C02_roots_committed_together.
Print Assumptions C02_automatic.
Print Assumptions C03_at_most_once.
Print Assumptions C03_at_most_once_each.
Print Assumptions C04_change_notified.
Print Assumptions C05_nobody_left_stale.
Print Assumptions C06_idle_commit_silent.
Print Assumptions C06_calls_need_assignments.
Print Assumptions C08_set_visible_on_return.
Print Assumptions C08_derived_consistent_on_return.
Print Assumptions C13_sampled_once_per_mention.
Print Assumptions C13_shows_last_sample.
Print Assumptions C15_commit_values_despite_throw.
Print Assumptions C15_set_values_despite_throw.
Print Assumptions C15_no_node_left_notifying.
Print Assumptions C16_no_use_after_free.
Print Assumptions C16_only_connected_called.
Print Assumptions C07_transactional_writes_invisible.
Print Assumptions C09_set_through_lenses.
Print Assumptions C09_after_commit.
Print Assumptions C09_composed_lens_lawful.
Print Assumptions C10_siblings_compose.
Print Assumptions C11_update_reads_latest.
Print Assumptions C11_updates_compose.
Print Assumptions C12_merge_writes_components.

(** * Concrete cases: the hypotheses above are met by executions like these. *)
Definition nch (a b : nat) : bool := negb (a =? b).
Definition idV (g : graph nat nat) (n : nat) (l : list (nat * nat)) := l.
Definition idN (g : graph nat nat) (n : nat) (l : list nat) := l.
Notation nrun := (run 0 nch idV idN).
Notation nexec := (exec nch idV idN).
Definition st_of (r : res nat nat) : st nat nat :=
  match r with Done s | Thrown s => s | _ => init_st 0 0 end.
Definition since (s s' : st nat nat) : list (event nat nat) :=
  firstn (length (log s') - length (log s)) (log s').
Definition is_done (r : res nat nat) : bool := match r with Done _ => true | _ => false end.
Definition is_thrown (r : res nat nat) : bool := match r with Thrown _ => true | _ => false end.
Lemma done_of : forall r, is_done r = true -> r = Done (st_of r).
Proof. intros [s|s| | |] H; try discriminate. reflexivity. Qed.
Lemma thrown_of : forall r, is_thrown r = true -> r = Thrown (st_of r).
Proof. intros [s|s| | |] H; try discriminate. reflexivity. Qed.
Lemma nch_sound : forall a b, nch a b = false -> a = b.
Proof. intros a b H. apply negb_false_iff in H. now apply Nat.eqb_eq. Qed.
Lemma nch_refl : forall a, nch a a = false.
Proof. intros a. unfold nch. now rewrite Nat.eqb_refl. Qed.

Lemma since_log : forall fuel0 w p fuel t s s', visible (nrun fuel0 w p) s ->
  finished (nexec fuel t s) s' -> log s' = since s s' ++ log s.
Proof.
  intros fuel0 w p fuel t s s' HV HF.
  destruct (log_grows 0 nch nch_sound idV idN _ _ _ _ _ _ _ HV HF) as (l & E).
  unfold since. rewrite E, app_length, Nat.add_sub, firstn_app, Nat.sub_diag, firstn_all.
  simpl. now rewrite app_nil_r.
Qed.

Definition map1 (f : nat -> nat) : kind nat nat :=
  KInner (fun l => match l with [x] => Some (f x) | _ => None end) UNone.
Definition sum2 : kind nat nat :=
  KInner (fun l => match l with [x; y] => Some (x + y) | _ => None end) UNone.
Definition zoom (vw : nat -> nat) (st : nat -> nat -> nat) : kind nat nat :=
  KInner (fun l => match l with [x] => Some (vw x) | _ => None end)
         (UWrite true (fun l v => match l with [x] => [[st x v]] | _ => [] end)).
Fixpoint seq_of (cs : list (cmd nat nat)) (p : prog nat nat) : prog nat nat :=
  match cs with [] => p | c :: r => PDo c (fun _ => seq_of r p) end.

(** A diamond over one state, with a watcher on its bottom:
    0 = state, 1 = 0+1, 2 = 2*0, 3 = 1 + 2. *)
Definition diamond (auto : bool) (cb : nat -> obs nat -> prog nat nat) : list (cmd nat nat) :=
  [CNew (KState auto) [] (Some 1); CNew (map1 S) [0] None; CNew (map1 (Nat.mul 2)) [0] None;
   CNew sum2 [1; 2] None; CWatch 3 cb].
Definition prgA := seq_of (diamond false (fun _ _ => PRet) ++ [CSet 0 5]) PRet.
Definition sA := st_of (nrun 30 0 prgA).
Definition sA' := st_of (nexec 30 (TCmd (CCommit [0])) sA).

Ltac now_vm := vm_compute; repeat split; reflexivity.
Ltac all_nodes r := do 6 (try (destruct r as [|r]; [vm_compute; auto; fail|])); vm_compute; auto.

Ltac runs := first [apply done_of|apply thrown_of]; vm_compute; reflexivity.
Ltac ends := eexists; split; [runs|].

Example A_run : nrun 30 0 prgA = Done sA. Proof. runs. Qed.
Example A_commit : nexec 30 (TCmd (CCommit [0])) sA = Done sA'. Proof. runs. Qed.
Example A_log : log sA' = since sA sA' ++ log sA.
Proof.
  eapply since_log; [right; left; exact A_run|left; exact A_commit].
Qed.
Example A_plain : plain (gr sA') 3.
Proof.
  assert (E3 : parents (gr sA') 3 = [1; 2]) by (vm_compute; reflexivity).
  assert (E2 : parents (gr sA') 2 = [0]) by (vm_compute; reflexivity).
  assert (E1 : parents (gr sA') 1 = [0]) by (vm_compute; reflexivity).
  eapply plain_inner; [vm_compute; reflexivity|]. rewrite E3.
  intros p [<-|[<-|[]]]; (eapply plain_inner; [vm_compute; reflexivity|]); rewrite ?E1, ?E2;
    intros p [<-|[]]; apply plain_root; vm_compute; reflexivity.
Qed.
Example A_clean : clean (gr sA') (log sA') 3.
Proof. intros r _ _. all_nodes r. Qed.

(** C01: the reader shows 6 + 10 and not 2 + 2. *)
Example C01_demo : last (gr sA) 3 = 4 /\ last (gr sA') 3 = 16 /\ alive (gr sA') 3 = true /\
  uncommitted (log sA) 0 = true /\ writes (since sA sA') 0 = [].
Proof. now_vm. Qed.
Example C01_demo_denotes : denotes (gr sA') (log sA') 3 16.
Proof.
  assert (D : denotes (gr sA') (log sA') 0 5) by (apply den_state; vm_compute; auto).
  eapply (den_inner _ _ 3) with (vs := [6; 10]); [vm_compute; reflexivity| |reflexivity].
  replace (parents (gr sA') 3) with [1; 2] by (vm_compute; reflexivity).
  assert (E2 : parents (gr sA') 2 = [0]) by (vm_compute; reflexivity).
  assert (E1 : parents (gr sA') 1 = [0]) by (vm_compute; reflexivity).
  constructor; [|constructor; [|constructor]].
  - eapply (den_inner _ _ 1) with (vs := [5]); [vm_compute; reflexivity| |reflexivity]. rewrite E1. constructor; [exact D|constructor].
  - eapply (den_inner _ _ 2) with (vs := [5]); [vm_compute; reflexivity| |reflexivity]. rewrite E2. constructor; [exact D|constructor].
Qed.
(** Not all written roots committed: then derived readers may disagree, since
    recomputing reads uncommitted values. *)
Definition prgP := seq_of [CNew (KState false) [] (Some 1); CNew (KState false) [] (Some 1);
  CNew sum2 [0; 1] None; CSet 0 5; CSet 1 7; CCommit [0]] PRet.
Theorem C01_partial_commit_refuted : exists s, nrun 30 0 prgP = Done s /\
  alive (gr s) 2 = true /\ ~ agrees (gr s) 2.
Proof.
  ends. split; [vm_compute; reflexivity|].
  intros H. assert (E : exists down up, kind_of (gr (st_of (nrun 30 0 prgP))) 2 = KInner down up /\
    down [5; 1] = Some 6) by (eexists _, _; split; vm_compute; reflexivity).
  destruct E as (down & up & K & E). specialize (H down up 6 K).
  assert (H' : last (gr (st_of (nrun 30 0 prgP))) 2 = 6).
  { apply H. replace (map _ _) with [5; 1] by (vm_compute; reflexivity). exact E. }
  vm_compute in H'. discriminate.
Qed.
Print Assumptions C01_partial_commit_refuted.

(** C02, C03, C04: the watcher ran once, and saw the final value. *)
Definition call_views (l : list (event nat nat)) :=
  flat_map (fun e => match e with ECall n i v g => [(n, i, v, map (last g) [0; 1; 2; 3])] | _ => [] end) l.
Example C02_demo : call_views (since sA sA') = [(3, 0, 16, [5; 6; 10; 16])].
Proof. now_vm. Qed.
Example C02_demo_auto : exists s, nrun 40 0 (seq_of (diamond true (fun v _ =>
     if v <? 100 then PDo (CSet 0 v) (fun _ => PRet) else PRet) ++ [CSet 0 5]) PRet) = Done s /\
  map (last (gr s)) [0; 1; 2; 3] = [49; 50; 98; 148] /\
  calls (log s) 3 0 = 3.
Proof. ends. now_vm. Qed.
Example C03_demo : propagations (since sA sA') = 1 /\ calls (since sA sA') 3 0 = 1.
Proof. now_vm. Qed.
Example C04_demo : escapes (since sA sA') = false /\ seen (log sA') 3 0 = Some 16 /\
  In (0, fun _ _ => PRet) (slots (gr sA) 3) /\ In (0, fun _ _ => PRet) (slots (gr sA') 3) /\
  last (gr sA') 3 <> last (gr sA) 3.
Proof. vm_compute. repeat split; auto. discriminate. Qed.

(** C05: the watcher writes and commits again, until the value is large; another
    watcher connected after it still ends up with the final value. *)
Definition prgB := seq_of (diamond false (fun v _ =>
    if v <? 100 then seq_of [CSet 0 v; CCommit [0]] PRet else PRet)
  ++ [CWatch 3 (fun _ _ => PRet); CSet 0 5; CCommit [0]]) PRet.
Example C05_demo : exists s, nrun 60 0 prgB = Done s /\ escapes (log s) = false /\
  (forall r, uncommitted (log s) r = false) /\ last (gr s) 3 = 148 /\
  seen (log s) 3 1 = Some 148 /\ calls (log s) 3 1 = 3.
Proof.
  ends. split; [reflexivity|].
  split; [intros r; all_nodes r|]. now_vm.
Qed.

(** C06: committing again does nothing. *)
Example C06_demo : forall r, In r [0] -> handle (gr sA') r = true /\
  is_root (kind_of (gr sA') r) = true /\ uncommitted (log sA') r = false /\
  forall f, kind_of (gr sA') r = KSensor f -> f (world (gr sA')) = last (gr sA') r.
Proof. intros r [<-|[]]. vm_compute. repeat split. discriminate. Qed.
(** Writing another value and then the committed one again is not "nothing
    written": the watcher is called although the value did not change. *)
Theorem C06_written_back_refuted : exists s s', nrun 30 0 (seq_of (diamond false (fun _ _ => PRet)
    ++ [CWatch 0 (fun _ _ => PRet); CSet 0 5; CCommit [0]; CSet 0 6; CSet 0 5]) PRet) = Done s /\
  nexec 30 (TCmd (CCommit [0])) s = Done s' /\
  last (gr s') 0 = last (gr s) 0 /\ calls (since s s') 0 1 = 1 /\ calls (since s s') 3 0 = 0.
Proof.
  eexists _, _. split; [runs|]. split; [runs|]. now_vm.
Qed.
Print Assumptions C06_written_back_refuted.

(** C07, C09, C10, C11: a state holding a number, zoomed into its half twice, and
    into its last bit:  1 = half of 0,  2 = half of 1,  3 = last bit of 0. *)
Definition half := zoom (fun x => x / 2) (fun x v => 2 * v + x mod 2).
Definition bit0 := zoom (fun x => x mod 2) (fun x v => 2 * (x / 2) + v mod 2).
Definition prgL := seq_of [CNew (KState false) [] (Some 13); CNew half [0] None; CNew half [1] None;
  CNew bit0 [0] None; CWatch 2 (fun _ _ => PRet)] PRet.
Definition sL := st_of (nrun 30 0 prgL).
Lemma half_node : forall n p, kind_of (gr sL) n = half -> parents (gr sL) n = [p] ->
  lens_node (gr sL) n p (fun x => x / 2) (fun x v => 2 * v + x mod 2).
Proof. intros n p K P. exists (fun l => match l with [x] => Some (x / 2) | _ => None end).
  eexists. split; [exact K|]. repeat split; auto. Qed.
Example L_run : nrun 30 0 prgL = Done sL. Proof. runs. Qed.
Example L_chain : chain (gr sL) 0 2 (fun x => x / 2 / 2)
  (fun x v => 2 * (2 * v + (x / 2) mod 2) + x mod 2).
Proof.
  refine (chain_zoom _ _ 1 2 (fun x => x / 2) (fun x v => 2 * v + x mod 2)
    (fun x => x / 2) (fun x v => 2 * v + x mod 2) _ _).
  - refine (chain_zoom _ _ 0 1 (fun x => x) (fun _ v => v)
      (fun x => x / 2) (fun x v => 2 * v + x mod 2) (chain_here _ _) _).
    apply half_node; vm_compute; reflexivity.
  - apply half_node; vm_compute; reflexivity.
Qed.
Example L_chain_bit : chain (gr sL) 0 3 (fun x => x mod 2) (fun x v => 2 * (x / 2) + v mod 2).
Proof.
  refine (chain_zoom _ _ 0 3 (fun x => x) (fun _ v => v)
    (fun x => x mod 2) (fun x v => 2 * (x / 2) + v mod 2) (chain_here _ _) _).
  eexists _, _. split; [vm_compute; reflexivity|]. split; [vm_compute; reflexivity|]. split; auto.
Qed.
Example half_lawful : lawful (fun x => x / 2) (fun x v => 2 * v + x mod 2).
Proof.
  assert (D : forall x v, (2 * v + x mod 2) / 2 = v).
  { intros x v. rewrite (Nat.mul_comm 2 v), Nat.div_add_l by discriminate.
    rewrite (Nat.div_small (x mod 2)); [apply Nat.add_0_r|].
    apply Nat.mod_upper_bound. discriminate. }
  repeat split; [exact D| |].
  - intros x. symmetry. apply Nat.div_mod. discriminate.
  - intros x v v'. f_equal. rewrite (Nat.mul_comm 2 v), Nat.add_comm, Nat.mod_add by discriminate.
    apply Nat.mod_mod. discriminate.
Qed.
Example C07_demo : only_writes (gr sL) (seq_of [CSet 2 9; CUpdate 3 S; CSet 1 4] PRet) /\
  exists s, nexec 30 (TProg (seq_of [CSet 2 9; CUpdate 3 S; CSet 1 4] PRet)) sL = Done s /\
    written (log s) 0 = Some 8 /\ map (last (gr s)) [0; 1; 2; 3] = [13; 6; 3; 1].
Proof.
  assert (T : forall n, transactional (gr sL) n).
  { intros n r _. all_nodes r. }
  split.
  - apply ow_set; auto. intros _. apply ow_update; auto. intros _. apply ow_set; auto.
    intros _. apply ow_ret.
  - ends. now_vm.
Qed.
Example C09_demo : exists s, kind_of (gr sL) 0 = KState false /\ written (log sL) 0 = Some 13 /\
  nexec 30 (TProg (PDo (CSet 2 9) (fun _ => PDo (CCommit [0]) (fun _ => PRet)))) sL = Done s /\
  map (last (gr s)) [0; 1; 2; 3] = [37; 18; 9; 1] /\ map (alive (gr s)) [0; 1; 2; 3] = [true; true; true; true].
Proof. eexists. split; [vm_compute; reflexivity|]. split; [vm_compute; reflexivity|]. split; [runs|]. now_vm. Qed.
Example C10_demo : exists s, nexec 30 (TProg (set_all [(2, 9); (3, 0); (1, 20); (2, 7)])) sL = Done s /\
  written (log s) 0 = Some 28.
Proof. ends. now_vm. Qed.
Example C11_demo : exists s, nexec 30 (TCmd (CUpdate 2 (fun x => x + 5))) sL = Done s /\
  (forall r, uncommitted (log sL) r = false) /\ written (log s) 0 = Some 33.
Proof. ends. split; [intros r; all_nodes r|reflexivity]. Qed.
(** On a derived cursor, in the middle of a transaction, update reads a stale
    value: two increments, one is lost. *)
Theorem C11_stale_update_refuted : exists s, nexec 30 (TProg (update_all 2 [S; S])) sL = Done s /\
  last (gr sL) 2 = 3 /\ option_map (fun x => x / 2 / 2) (written (log s) 0) = Some 4.
Proof. ends. now_vm. Qed.
Print Assumptions C11_stale_update_refuted.

(** C08: an automatic state. *)
Definition sU := st_of (nrun 30 0 (seq_of (diamond true (fun _ _ => PRet)) PRet)).
Example C08_demo : exists s, nexec 30 (TCmd (CSet 0 5)) sU = Done s /\
  map (last (gr s)) [0; 1; 2; 3] = [5; 6; 10; 16] /\ writes (since sU s) 0 = [5].
Proof. ends. now_vm. Qed.

(** C12: 2 = half of state 0, 3 = with(2, 1). *)
Definition prgM := seq_of [CNew (KState false) [] (Some 13); CNew (KState false) [] (Some 4);
  CNew half [0] None;
  CNew (KInner (fun l => match l with [x; y] => Some (10 * x + y) | _ => None end)
               (UWrite false (fun _ v => [[v / 10; v mod 10]]))) [2; 1] None] PRet.
Definition sM := st_of (nrun 30 0 prgM).
Example C12_demo : merge_node (gr sM) 3 (fun v => [v / 10; v mod 10]) /\
  exists s, nexec 30 (TCmd (CSet 3 78)) sM = Done s /\
    written (log s) 0 = Some 15 /\ written (log s) 1 = Some 8.
Proof.
  split; [eexists _, _; split; [vm_compute; reflexivity|auto]|].
  ends. now_vm.
Qed.

(** C13: a sensor read twice by one commit while the world stays at 9. *)
Definition sS := st_of (nrun 30 4 (seq_of [CNew (KSensor (Nat.mul 10)) [] None; CNew (map1 S) [0] None;
  CWorld 9] PRet)).
Example C13_demo : exists s, nexec 30 (TCmd (CCommit [0; 0])) sS = Done s /\
  last (gr sS) 0 = 40 /\ last (gr sS) 1 = 41 /\ samples (since sS s) 0 = [90; 90] /\
  last (gr s) 0 = 90 /\ last (gr s) 1 = 91.
Proof. ends. now_vm. Qed.

(** C15: the first watcher throws, the second is not called, values are there. *)
Definition sT := st_of (nrun 30 0 (seq_of (diamond false (fun _ _ => PThrow)
  ++ [CWatch 3 (fun _ _ => PRet); CSet 0 5]) PRet)).
Example C15_demo : exists s s2, nexec 30 (TCmd (CCommit [0])) sT = Thrown s /\
  nexec 30 (TCmd (CCommit [0])) (mute sT) = Done s2 /\ propagations (since sT s) = 1 /\
  map (last (gr s)) [0; 1; 2; 3] = [5; 6; 10; 16] /\ calls (since sT s) 3 0 = 1 /\
  calls (since sT s) 3 1 = 0 /\ calls (since sT s2) 3 1 = 1.
Proof.
  eexists _, _. split; [runs|]. split; [runs|]. now_vm.
Qed.

(** C16: the watcher of the state drops the other readers; the commit goes on. *)
Definition prgD := seq_of [CNew (KState false) [] (Some 1); CNew (map1 S) [0] None;
  CNew (map1 (Nat.mul 2)) [0] None; CWatch 0 (fun _ _ => seq_of [CDrop 1] PRet);
  CWatch 2 (fun _ _ => PRet); CSet 0 5; CCommit [0]; CCommit [0]] PRet.
Example C16_demo : exists s, nrun 40 0 prgD = Done s /\ alive (gr s) 1 = false /\
  children (gr s) 0 = [2] /\ last (gr s) 2 = 10 /\ seen (log s) 2 1 = Some 10.
Proof. ends. now_vm. Qed.
