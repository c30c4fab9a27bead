(** Property C16, second half: dropping a reader is invisible to the others, and
    children that are gone are forgotten.

    The definitions the theorems use are in NodesDropSpec.v: [psame n o p p'] says
    that the client program [p] is [p'] with some destructions of reader objects
    on the node [n] added anywhere, also inside callbacks, setter functions and
    [try] blocks; [same_end] compares two executions. *)
From Coq Require Import List Arith Bool Permutation.
From Verif Require Import NodesModel NodesSpec NodesFacts NodesDropSpec NodesDrop NodesDropRun
                          NodesDropCmd NodesDropSim NodesForget.
Import ListNotations.

Section DropProps.
Context {V W : Type}.
Variable dv : V.
Variable changed : V -> V -> bool.
Hypothesis changed_sound : forall a b, changed a b = false -> a = b.
Variable ordV : graph V W -> nat -> list (nat * V) -> list (nat * V).
Variable ordN : graph V W -> nat -> list nat -> list nat.

Notation exec := (exec changed ordV ordN).
Notation run := (run dv changed ordV ordN).

(** A commit which returned, and whose first root had a new value: the children
    the root still lists were alive when the commit began, or are new. *)
Theorem C16_commit_forgets : forall fuel0 w p fuel r ns s s' v c,
  visible (run fuel0 w p) s ->
  exec fuel (TCmd (CCommit (r :: ns))) s = Done s' -> ntf (gr s) r = false ->
  match kind_of (gr s) r with KState _ | KStore => True | _ => False end ->
  written (log s) r = Some v -> v <> last (gr s) r ->
  In c (children (gr s') r) -> c < cnt (gr s) -> alive (gr s) c = true.
Proof. exact (commit_forget_visible dv changed changed_sound ordV ordN). Qed.

(** The same for any node [m], about its own notification ([nn]: it has a new value
    to tell; [ntf]: it is not already telling one). *)
Theorem C16_notify_forgets : forall fuel0 w p fuel m s s' c, visible (run fuel0 w p) s ->
  exec fuel (TNotify m) s = Done s' ->
  nn (gr s) m = true -> nsd (gr s) m = false -> ntf (gr s) m = false ->
  In c (children (gr s') m) -> c < cnt (gr s) -> alive (gr s) c = true.
Proof. exact (notify_forget_visible dv changed changed_sound ordV ordN). Qed.

(** Unspecified evaluation orders: the two programs are compared under the same
    choice, which may depend on the node and the arguments in any way. *)
Hypothesis ordN_perm : forall g n l, Permutation l (ordN g n l).
Hypothesis ordN_graph : forall g g' m l, ordN g m l = ordN g' m l.
Hypothesis ordV_graph : forall g g' m l, ordV g m l = ordV g' m l.

(** Whatever the program with the drops does, the program without them does too:
    the same callbacks of all other readers in the same order with the same values,
    the same exceptions, the same end, the same values in all other readers. *)
Theorem C16_drop_invisible : forall n fuel w p p',
  psame n (get_obs (init_st dv w)) p p' -> NodesDropSpec.finished (run fuel w p) ->
  exists fuel', forall fuel2, fuel' <= fuel2 ->
    same_end n (run fuel w p) (run fuel2 w p').
Proof.
  exact (drop_invisible dv changed changed_sound ordV ordN
    (fun g m l x => Permutation_in x (Permutation_sym (ordN_perm g m l))) ordN_graph ordV_graph).
Qed.

End DropProps.

Print Assumptions C16_commit_forgets.
Print Assumptions C16_notify_forgets.
Print Assumptions C16_drop_invisible.

(** * Concrete cases *)
Definition nch (a b : nat) : bool := negb (a =? b).
Definition idV (g : graph nat nat) (n : nat) (l : list (nat * nat)) := l.
Definition idN (g : graph nat nat) (n : nat) (l : list nat) := l.
Notation nrun := (run 0 nch idV idN).
Notation nexec := (exec nch idV idN).
Definition map1 (f : nat -> nat) : kind nat nat :=
  KInner (fun ps => match ps with [a] => Some (f a) | _ => None end) UNone.
Fixpoint seq_of (cs : list (cmd nat nat)) (p : prog nat nat) : prog nat nat :=
  match cs with [] => p | c :: r => PDo c (fun _ => seq_of r p) end.

Lemma seq_same : forall n cs cs' p p', Forall2 (csame n) cs cs' ->
  (forall o, psame n o p p') -> forall o, psame n o (seq_of cs p) (seq_of cs' p').
Proof.
  intros n cs cs' p p' F H. induction F as [|c c' l l' Hc F IH]; intros o; simpl; auto.
  apply same_do; auto.
Qed.

(** A state (0) and two watched readers of it (1, 2).  The watcher of the state
    destroys both reader objects on 1 while the commit is going on; the watcher of 2
    throws in the next commit, which the client catches. *)
Definition build (cb : nat -> obs nat -> prog nat nat) : list (cmd nat nat) :=
  [CNew (KState false) [] (Some 1); CNew (map1 S) [0] None; CNew (map1 (Nat.mul 2)) [0] None;
   CWatch 0 cb; CWatch 1 (fun _ _ => PRet); CWatch 2 (fun v o => if v =? 10 then PThrow else PRet);
   CSet 0 4; CCommit [0]; CSet 0 5].
Definition drop1 : nat -> obs nat -> prog nat nat :=
  fun v _ => if v =? 4 then seq_of [CDrop 1; CUnwatch 1 1] PRet else PRet.
Definition keep1 : nat -> obs nat -> prog nat nat := fun _ _ => PRet.
Definition final : prog nat nat :=
  PTry (seq_of [CCommit [0]] PRet) (fun b o => if b then PRet else seq_of [CSet 0 6; CCommit [0]] PRet).
Definition with_drop := seq_of (build drop1) final.
Definition without := seq_of (build keep1) final.

Example C16_same : forall o, psame 1 o with_drop without.
Proof.
  apply seq_same.
  - repeat constructor; try discriminate.
    + intros v x x' L. unfold drop1, keep1. destruct (v =? 4); [|constructor].
      apply same_drop; [constructor|]. intros y _.
      apply same_drop; [constructor|]. intros z _. constructor.
    + intros v x x' L. destruct (v =? 10); constructor.
  - intros o. constructor.
    + apply seq_same; repeat constructor.
    + intros [] x x' L; [constructor|]. apply seq_same; repeat constructor.
Qed.
Definition st_of (r : res nat nat) : st nat nat :=
  match r with Done s | Thrown s => s | _ => init_st 0 0 end.
Definition is_done (r : res nat nat) : bool := match r with Done _ => true | _ => false end.

(** The first execution drops the node 1 while the root notifies, the second has
    it until the end; both saw the same: two calls of the watchers of 0 and 2
    before the exception, one more of each after it. *)
Example C16_drop_demo :
  is_done (nrun 60 0 with_drop) = true /\
  alive (gr (st_of (nrun 60 0 with_drop))) 1 = false /\
  alive (gr (st_of (nrun 60 0 without))) 1 = true /\
  last (gr (st_of (nrun 60 0 without))) 1 = 7 /\
  length (filter (fun e => match e with Called _ _ _ _ => true | _ => false end)
            (trace 1 (log (st_of (nrun 60 0 with_drop))))) = 6 /\
  trace 1 (log (st_of (nrun 60 0 with_drop))) = trace 1 (log (st_of (nrun 60 0 without))).
Proof. vm_compute. repeat split. Qed.
Example C16_drop_demo_hyp : NodesDropSpec.finished (nrun 60 0 with_drop).
Proof. vm_compute. exact I. Qed.

(** The list of children of the root: the dropped node is in it until the commit. *)
Definition base := seq_of [CNew (KState false) [] (Some 1); CNew (map1 S) [0] None;
  CNew (map1 (Nat.mul 2)) [0] None; CDrop 1; CSet 0 4] PRet.
Definition s0 := st_of (nrun 20 0 base).
Definition s1 := st_of (nexec 20 (TCmd (CCommit [0])) s0).
Example C16_forget_demo :
  is_done (nrun 20 0 base) = true /\ is_done (nexec 20 (TCmd (CCommit [0])) s0) = true /\
  ntf (gr s0) 0 = false /\ written (log s0) 0 = Some 4 /\ last (gr s0) 0 = 1 /\
  children (gr s0) 0 = [1; 2] /\ alive (gr s0) 1 = false /\ children (gr s1) 0 = [2].
Proof. vm_compute. repeat split. Qed.
