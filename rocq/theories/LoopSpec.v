(** Vocabulary for the properties of the event loops, in terms of the log only. *)
From Coq Require Import List Arith Bool.
From Verif Require Import LoopModel.
Import ListNotations.

(** Functions posted and functions started, oldest first. *)
Fixpoint posted (l : list event) : list nat :=
  match l with [] => [] | EPost id :: r => posted r ++ [id] | _ :: r => posted r end.
Fixpoint ran (l : list event) : list nat :=
  match l with [] => [] | ERun id :: r => ran r ++ [id] | _ :: r => ran r end.
(** Functions left by an exception, newest first. *)
Fixpoint failed (l : list event) : list nat :=
  match l with [] => [] | EFail id :: r => id :: failed r | _ :: r => failed r end.

(** The function running at the end of the log: [Some None] if none is,
    [None] if the log shows one function running inside another one, or
    one ending that is not running. *)
Fixpoint running (l : list event) : option (option nat) :=
  match l with
  | [] => Some None
  | EPost _ :: r => running r
  | ERun id :: r => match running r with Some None => Some (Some id) | _ => None end
  | EEnd id :: r | EFail id :: r =>
      match running r with
      | Some (Some id') => if id =? id' then Some None else None
      | _ => None
      end
  end.

(** Posted but not started yet, given what is in the queue. *)
Definition waiting {J} (q : queue J) : list nat :=
  flat_map (fun e => match snd e with Some _ => [fst e] | None => [] end) q.

Definition finished {J W} (r : res J W) (s : st J W) : Prop := r = Done s \/ r = Thrown s.

(** Functions that do not call [step()]. *)
Inductive no_step {J W} : prog J W -> Prop :=
| ns_ret : no_step PRet
| ns_throw : no_step PThrow
| ns_post j k : no_step k -> no_step (PPost j k)
| ns_get k : (forall w, no_step (k w)) -> no_step (PGet k)
| ns_put w k : no_step k -> no_step (PPut w k)
| ns_try p k : no_step p -> (forall b, no_step (k b)) -> no_step (PTry p k).

(** Functions that only post functions of a smaller rank than [n]. *)
Inductive posts_below {J W} (rank : J -> nat) (n : nat) : prog J W -> Prop :=
| pb_ret : posts_below rank n PRet
| pb_throw : posts_below rank n PThrow
| pb_post j k : rank j < n -> posts_below rank n k -> posts_below rank n (PPost j k)
| pb_step k : posts_below rank n k -> posts_below rank n (PStep k)
| pb_get k : (forall w, posts_below rank n (k w)) -> posts_below rank n (PGet k)
| pb_put w k : posts_below rank n k -> posts_below rank n (PPut w k)
| pb_try p k : posts_below rank n p -> (forall b, posts_below rank n (k b)) -> posts_below rank n (PTry p k).

(** * The thread-safe queue *)

(** Functions posted by thread [t], functions started that were posted by [t];
    oldest first. *)
Fixpoint sposted (t : nat) (l : list sevent) : list nat :=
  match l with
  | [] => []
  | SPost t' id :: r => if t' =? t then sposted t r ++ [id] else sposted t r
  | _ :: r => sposted t r
  end.
Fixpoint sran (l : list sevent) : list nat :=
  match l with [] => [] | SRun _ id :: r => sran r ++ [id] | _ :: r => sran r end.
Definition sran_of (t : nat) (l : list sevent) : list nat :=
  filter (fun id => existsb (Nat.eqb id) (sposted t l)) (sran l).
Fixpoint sall (l : list sevent) : list nat :=
  match l with [] => [] | SPost _ id :: r => sall r ++ [id] | _ :: r => sall r end.

(** Executions in which the owner thread does not change. *)
Inductive fixed_owner {J} : sst J -> sst J -> Prop :=
| fo_none s : fixed_owner s s
| fo_more s s1 s2 : fixed_owner s s1 -> sstep s1 s2 -> owner s2 = owner s1 -> fixed_owner s s2.

(** What happens during one call of [step()], by any thread: [s0] when it is
    called, [s] later, at most when it has returned or thrown. *)
Inductive during_step {J} (s0 : sst J) : sst J -> Prop :=
| ds_call s : ctrl s0 = Idle -> sstep s0 s -> ctrl s = Loop false 0 -> during_step s0 s
| ds_more s s' : during_step s0 s -> ctrl s <> Idle -> sstep s s' -> during_step s0 s'.
(** Exceptions that left [step()]. *)
Fixpoint sfails (l : list sevent) : nat :=
  match l with [] => 0 | SFail _ :: r => S (sfails r) | _ :: r => sfails r end.
