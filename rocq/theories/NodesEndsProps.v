(** Property C77: writes and commits come to an end. *)
From Coq Require Import List Arith Bool Permutation.
From Verif Require Import NodesModel NodesEndsSpec NodesEnds NodesEndless.
Import ListNotations.

(** If watchers and setters only look, whatever the client does has a result, with every
    amount of fuel from some amount on: no write and no commit goes on for ever. *)
Theorem C77_ends : forall (V W : Type) (dv : V) (changed : V -> V -> bool)
    (ordV : graph V W -> nat -> list (nat * V) -> list (nat * V)) (ordN : graph V W -> nat -> list nat -> list nat),
  (forall g n l, Permutation l (ordV g n l)) -> forall w p, tame p ->
  exists fuel r, r <> OutOfFuel /\ forall f, fuel <= f -> run dv changed ordV ordN f w p = r.
Proof.
  exact (fun V W dv changed ordV ordN P w p T =>
    run_stops changed ordV ordN (fun g n l x H => Permutation_in x (Permutation_sym (P g n l)) H) dv w p T).
Qed.
Print Assumptions C77_ends.

(** A diamond with watchers: one throws, one destroys a reader, one makes another reader; a
    setter that throws; writes at the bottom. *)
Notation nrun := (run 0 (fun a b => negb (a =? b)) (fun (_ : graph nat nat) _ l => l) (fun _ _ l => l)).
Fixpoint cmds (l : list (cmd nat nat)) (p : prog nat nat) : prog nat nat :=
  match l with [] => p | c :: r => PDo c (fun _ => cmds r p) end.
Definition add1 : kind nat nat :=
  KInner (fun l => match l with a :: _ => Some (S a) | [] => None end) (UWrite true (fun _ v => [[pred v]])).
Definition sum : kind nat nat :=
  KInner (fun l => match l with [a; b] => Some (a + b) | _ => None end) (UWrite false (fun _ v => [[v; v]])).
Definition client : prog nat nat :=
  cmds [CNew (KState true) [] (Some 1); CNew add1 [0] None; CNew add1 [0] None; CNew sum [1; 2] None;
        CNew add1 [3] None; CNew (KSetter true (fun v _ => if v =? 9 then PThrow else PRet)) [1] None;
        CWatch 1 (fun v _ => cmds [CNew add1 [1] None; CWorld v] PRet);
        CWatch 2 (fun v _ => if v =? 5 then PDo (CDrop 4) (fun _ => PThrow) else PRet);
        CWatch 3 (fun _ _ => PTry PThrow (fun _ _ => PRet));
        CSet 3 4]
    (PTry (PDo (CUpdate 3 (fun v => v - 3)) (fun _ => PRet)) (fun _ _ =>
       cmds [CSet 5 7] (PTry (PDo (CSet 5 9) (fun _ => PRet)) (fun _ _ => PDo (CCommit [0]) (fun _ => PRet))))).
Ltac go_tame :=
  lazymatch goal with
  | |- tame (PDo _ _) => apply T_do; [|intros ?; go_tame]
  | |- tame (PTry _ _) => apply T_try; [go_tame|intros ? ?; go_tame]
  | |- tame _ => constructor
  end.
Example C77_tame : tame client.
Proof.
  unfold client. cbn [cmds]. go_tame. all: try exact I. all: try (apply K_other; exact I).
  - apply K_setter. intros v _. destruct (v =? 9); constructor.
  - intros v _. apply L_do; [constructor; apply K_other; exact I|]. intros _. apply L_do; [constructor|]. intros _. constructor.
  - intros v _. destruct (v =? 5); [|constructor]. apply L_do; [constructor|]. intros _. constructor.
  - intros v _. apply L_try; [constructor|]. intros _ _. constructor.
Qed.
Example C77_demo : match nrun 60 0 client with
  | Done s => map (cur (gr s)) [0; 1; 2; 3] = [4; 5; 5; 10] /\ handle (gr s) 4 = false /\ cnt (gr s) = 8
  | _ => False
  end.
Proof. vm_compute. auto. Qed.

(** A watcher that writes may be called for ever: here one that counts. *)
Theorem C77_endless : exists p : prog nat nat, forall fuel w, nrun fuel w p = OutOfFuel.
Proof. exists (counts_up (W := nat)). exact (counts_for_ever (W := nat)). Qed.
Print Assumptions C77_endless.
