(** Property C78: what clients of a store do comes to an end. *)
From Coq Require Import List Arith Bool Lia.
From Verif Require Import StoreModel StoreSpec StoreEndsSpec StoreEnds StoreEndless.
Import ListNotations.

(** If effects dispatch only actions of smaller rank, watchers only look and other threads
    stop sending actions at some time, whatever the client does has a result, with every
    amount of fuel from some amount on. *)
Theorem C78_ends : forall (M A W : Type) (reducer : M -> A -> option (M * option (prog M A W))) eqb trans futures manual ext rank,
  falling rank reducer -> (manual = true \/ exists n, forall t, n <= t -> ext t = []) ->
  forall n m w p, below rank n p ->
  exists fuel r, r <> OutOfFuel /\ forall f, fuel <= f -> run reducer eqb trans futures manual ext f m w p = r.
Proof.
  exact (fun M A W reducer eqb trans futures manual ext rank F E n m w p B =>
    match E with
    | or_introl E => client_stops reducer eqb trans futures manual ext rank F 0 (or_introl E) n m w p B
    | or_intror (ex_intro _ t E) => client_stops reducer eqb trans futures manual ext rank F t (or_intror E) n m w p B
    end).
Qed.
Print Assumptions C78_ends.

(** Actions are numbers: each is added, and dispatches the one before it twice, the second
    time when the first is done. *)
Definition twice (a : nat) : prog nat nat nat :=
  PDispatch a (fun f => PThen f (PDispatch a (fun g => PRet g)) (fun g => PRet g)).
Definition adds (m a : nat) : option (nat * option (prog nat nat nat)) :=
  match a with
  | 0 => None
  | 1 => Some (m + 1, None)
  | S a => Some (m + S a, Some (twice a))
  end.
(** A client that watches, dispatches, posts, uses a promise and catches what is thrown. *)
Definition user : prog nat nat nat :=
  PWatch (fun m => PWorld (fun w => PSet (w + m) (PRet None))) (fun _ =>
  PDispatch 3 (fun f => PThen f (PDispatch 2 (fun g => PRet g)) (fun _ =>
  PPost (PDispatch 1 (fun _ => PRet None)) (PPromise (fun n =>
  PThen (Some n) (PMark 5 (PRet None)) (fun _ => PTry (PFulfil n PThrow) (fun _ => PStep (PGet (fun m => PMark m (PRet None)))))))))).
Example C78_meets : falling (fun a => a) adds /\ below (fun a => a) 4 user.
Proof.
  split.
  - intros m a m' e E. destruct a as [|[|a]]; try discriminate E. injection E as _ <-.
    apply B_dispatch; [lia|]. intros f. apply B_then; [|intros g; constructor]. apply B_dispatch; [lia|]. intros g. constructor.
  - apply B_watch; [intros m; constructor; intros w; repeat constructor|]. intros _. apply B_dispatch; [lia|]. intros f.
    apply B_then; [apply B_dispatch; [lia|]; intros g; constructor|]. intros _.
    apply B_post; [apply B_dispatch; [lia|]; intros g; constructor|]. apply B_promise. intros n.
    apply B_then; [repeat constructor|]. intros _. apply B_try; [repeat constructor|]. intros b. repeat constructor.
Qed.
(** With a queue, and other threads that dispatch 2 at every one of the first three moments. *)
Definition others (t : nat) : list nat := if t <? 3 then [2] else [].
Example C78_demo :
  match run adds Nat.eqb false true false others 200 0 0 user with
  | Done _ s => actions (log s) = [2; 2; 3; 2; 1; 1; 1; 2; 1; 1; 1; 1; 1; 1; 2; 1; 1; 2; 1; 1]
  | _ => False
  end.
Proof. vm_compute. reflexivity. Qed.

(** An effect that dispatches its own action goes on for ever. *)
Theorem C78_endless : exists (reducer : nat -> unit -> option (nat * option (prog nat unit unit))) p,
  forall fuel m w, run reducer Nat.eqb false false true (fun _ => []) fuel m w p = OutOfFuel.
Proof. exists again, once_more. exact never_ends. Qed.
Print Assumptions C78_endless.
