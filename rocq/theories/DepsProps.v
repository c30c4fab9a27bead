(** C42: bags of dependencies. *)
From Coq Require Import List Bool Arith.
From Verif Require Import DepsModel DepsSpec DepsProofs DepsExact.
Import ListNotations.

(** The key of a specification, and when it is required. *)
Theorem C42_key : forall ty (s : spec ty) k, keyed s k <-> key_of s = k.
Proof. exact (fun ty => @keyed_iff ty). Qed.
Print Assumptions C42_key.
Theorem C42_optional : forall ty (s : spec ty), optional s <-> required s = false.
Proof. exact (fun ty => @optional_iff ty). Qed.
Print Assumptions C42_optional.

(** What is in a bag can be asked for by its key. *)
Theorem C42_get : forall ty (ty_dec : forall a b : ty, {a = b} + {a <> b})
  V L W (b : list (spec ty * stor V L W)) s x k w,
  proper b -> In (s, x) b -> keyed s k ->
  get ty_dec w k b = Some (get_of s w x) /\ has ty_dec k b = Some (has_of s x).
Proof. exact (fun ty ty_dec V L W => @get_keyed ty ty_dec V L W). Qed.
Print Assumptions C42_get.
(** An optional one is there if the object is not empty. *)
Theorem C42_there : forall ty V L W (s : spec ty) (x : stor V L W),
  has_of s x = true <-> ~ optional s \/ (x <> SOpt None /\ x <> SFn None).
Proof. exact (fun ty V L W => @has_exact ty V L W). Qed.
Print Assumptions C42_there.
(** [with] gives the keys their objects. *)
Theorem C42_with : forall ty (ty_dec : forall a b : ty, {a = b} + {a <> b}) V L W (ds : list (spec ty)) (xs : list (stor V L W)) b,
  with_ ty_dec ds xs = Some b <-> NoDup (map key_of ds) /\ map fst b = ds /\ map snd b = xs.
Proof. exact (fun ty ty_dec V L W => @with_exact ty ty_dec V L W). Qed.
Print Assumptions C42_with.

(** Which conversions compile: the keys are distinct, what is required is required of the
    source and can be made from what it has there, and so can be what is optional if the source
    has something. *)
Theorem C42_compiles : forall ty (ty_dec : forall a b : ty, {a = b} + {a <> b})
  V L W (deref : W -> L -> V) w ds (b : list (spec ty * stor V L W)), proper b ->
  convert ty_dec deref w ds b <> Rejected <->
  NoDup (map key_of ds) /\
  forall d, In d ds -> available (in_bag b) d /\ (~ optional d -> firm b (key_of d)).
Proof. exact (fun ty ty_dec V L W deref => @convert_compiles ty ty_dec V L W deref). Qed.
Print Assumptions C42_compiles.
(** Which throw: those that have to call an empty function. *)
Theorem C42_throws : forall ty (ty_dec : forall a b : ty, {a = b} + {a <> b})
  V L W (deref : W -> L -> V) w ds (b : list (spec ty * stor V L W)), proper b ->
  convert ty_dec deref w ds b = Thrown <->
  convert ty_dec deref w ds b <> Rejected /\ calls_empty (in_bag b) ds.
Proof. exact (fun ty ty_dec V L W deref => @convert_thrown ty ty_dec V L W deref). Qed.
Print Assumptions C42_throws.
(** The same for two bags. *)
Theorem C42_two_compiles : forall ty (ty_dec : forall a b : ty, {a = b} + {a <> b})
  V L W (deref : W -> L -> V) w ds (b1 b2 : list (spec ty * stor V L W)), proper b1 -> proper b2 ->
  convert2 ty_dec deref w ds b1 b2 <> Rejected <->
  NoDup (map key_of ds) /\ forall d, In d ds -> available (in_bags b1 b2) d /\
    (~ optional d -> firm b1 (key_of d) \/ firm b2 (key_of d)).
Proof. exact (fun ty ty_dec V L W deref => @convert2_compiles ty ty_dec V L W deref). Qed.
Print Assumptions C42_two_compiles.
Theorem C42_two_throws : forall ty (ty_dec : forall a b : ty, {a = b} + {a <> b})
  V L W (deref : W -> L -> V) w ds (b1 b2 : list (spec ty * stor V L W)), proper b1 -> proper b2 ->
  convert2 ty_dec deref w ds b1 b2 = Thrown <->
  convert2 ty_dec deref w ds b1 b2 <> Rejected /\ calls_empty (in_bags b1 b2) ds.
Proof. exact (fun ty ty_dec V L W deref => @convert2_thrown ty ty_dec V L W deref). Qed.
Print Assumptions C42_two_throws.
Theorem C42_two : forall ty (ty_dec : forall a b : ty, {a = b} + {a <> b})
  V L W (deref : W -> L -> V) w ds (b1 b2 b' : list (spec ty * stor V L W)), proper b1 -> proper b2 ->
  convert2 ty_dec deref w ds b1 b2 = Made b' ->
  map fst b' = ds /\ proper b' /\ forall d, In d ds -> forall w', required d = false \/ w' = w ->
  forall s x, in_bags b1 b2 (key_of d) s x ->
  exists now, get ty_dec w' (key_of d) b' = Some now /\ same deref w' (get_of s w' x) now.
Proof. exact (fun ty ty_dec V L W deref => @convert2_made ty ty_dec V L W deref). Qed.
Print Assumptions C42_two.

(** A required dependency is there after the conversion and is the one of the source. *)
Theorem C42_required : forall ty (ty_dec : forall a b : ty, {a = b} + {a <> b})
  V L W (deref : W -> L -> V) w ds (b b' : list (spec ty * stor V L W)) d,
  proper b -> convert ty_dec deref w ds b = Made b' -> In d ds -> required d = true ->
  exists was now, get ty_dec w (key_of d) b = Some was /\ get ty_dec w (key_of d) b' = Some now /\
    same deref w was now /\ now <> Missing /\ has ty_dec (key_of d) b' = Some true.
Proof. exact (fun ty ty_dec V L W deref => @convert_required ty ty_dec V L W deref). Qed.
Print Assumptions C42_required.

(** It stays so: whenever it is asked for, the two bags give the same, unless only the
    source obtains it from a function; that function was called by the conversion. *)
Theorem C42_later : forall ty (ty_dec : forall a b : ty, {a = b} + {a <> b})
  V L W (deref : W -> L -> V) w ds (b b' : list (spec ty * stor V L W)) d s,
  proper b -> convert ty_dec deref w ds b = Made b' -> In d ds -> declares b (key_of d) s ->
  required d = false \/ by_fn d = by_fn s ->
  forall w', get ty_dec w' (key_of d) b' = get ty_dec w' (key_of d) b.
Proof. exact (fun ty ty_dec V L W deref => @convert_later ty ty_dec V L W deref). Qed.
Print Assumptions C42_later.

Theorem C42_frozen : forall ty (ty_dec : forall a b : ty, {a = b} + {a <> b})
  V L W (deref : W -> L -> V) w ds (b b' : list (spec ty * stor V L W)) d s,
  proper b -> convert ty_dec deref w ds b = Made b' -> In d ds -> declares b (key_of d) s ->
  required d = true -> by_fn d = false -> by_fn s = true ->
  exists l, get ty_dec w (key_of d) b = Some (RRef l) /\
  forall w', get ty_dec w' (key_of d) b' = Some (RRef l) \/
             get ty_dec w' (key_of d) b' = Some (RVal (deref w l)).
Proof. exact (fun ty ty_dec V L W deref => @convert_frozen ty ty_dec V L W deref). Qed.
Print Assumptions C42_frozen.

(** An optional key that the source does not declare is reported missing. *)
Theorem C42_missing : forall ty (ty_dec : forall a b : ty, {a = b} + {a <> b})
  V L W (deref : W -> L -> V) w ds (b b' : list (spec ty * stor V L W)) d,
  convert ty_dec deref w ds b = Made b' -> In d ds -> required d = false ->
  (forall s, ~ declares b (key_of d) s) ->
  has ty_dec (key_of d) b' = Some false /\
  forall w', get ty_dec w' (key_of d) b' = Some Missing \/
             (by_fn d = true /\ get ty_dec w' (key_of d) b' = Some BadCall).
Proof. exact (fun ty ty_dec V L W deref => @convert_missing ty ty_dec V L W deref). Qed.
Print Assumptions C42_missing.

(** [has] is the same as in the source, for specifications that are not optional twice
    over. *)
Theorem C42_has : forall ty (ty_dec : forall a b : ty, {a = b} + {a <> b})
  V L W (deref : W -> L -> V) w ds (b b' : list (spec ty * stor V L W)) d s,
  proper b -> convert ty_dec deref w ds b = Made b' -> In d ds -> declares b (key_of d) s ->
  tidy d -> tidy s -> has ty_dec (key_of d) b' = has ty_dec (key_of d) b.
Proof. exact (fun ty ty_dec V L W deref => @convert_has ty ty_dec V L W deref). Qed.
Print Assumptions C42_has.

(** A part of a bag can always be made: nothing is rejected, nothing throws. *)
Theorem C42_part : forall ty (ty_dec : forall a b : ty, {a = b} + {a <> b})
  V L W (deref : W -> L -> V) w (b : list (spec ty * stor V L W)) ds,
  proper b -> NoDup (map key_of ds) -> incl ds (map fst b) ->
  exists b', convert ty_dec deref w ds b = Made b' /\ incl b' b /\ map fst b' = ds.
Proof. exact (fun ty ty_dec V L W deref => @convert_subset ty ty_dec V L W deref). Qed.
Print Assumptions C42_part.

(** [merge]: always possible; each key is provided by the other bag if it declares it,
    and by this one otherwise. *)
Theorem C42_merge : forall ty (ty_dec : forall a b : ty, {a = b} + {a <> b})
  V L W (deref : W -> L -> V) w (b1 b2 : list (spec ty * stor V L W)),
  proper b1 -> proper b2 ->
  exists m, merge ty_dec deref w b1 b2 = Made m /\ proper m /\
  forall k w',
    (declared k b2 -> get ty_dec w' k m = get ty_dec w' k b2 /\ has ty_dec k m = has ty_dec k b2) /\
    (~ declared k b2 -> get ty_dec w' k m = get ty_dec w' k b1 /\ has ty_dec k m = has ty_dec k b1) /\
    (declared k m <-> declared k b1 \/ declared k b2).
Proof. exact (fun ty ty_dec V L W deref => @merge_spec ty ty_dec V L W deref). Qed.
Print Assumptions C42_merge.

(** The dependencies of a store: for each key those of the last [with_deps] with it. *)
Theorem C42_store : forall ty (ty_dec : forall a b : ty, {a = b} + {a <> b})
  V L W (deref : W -> L -> V) w (news : list (list (spec ty * stor V L W))) b,
  proper b -> (forall n, In n news -> proper n) ->
  exists m, enhance ty_dec deref w b news = Made m /\ proper m /\
  forall k w',
    (forall pre n post, news = pre ++ n :: post -> declared k n ->
       (forall n', In n' post -> ~ declared k n') ->
       get ty_dec w' k m = get ty_dec w' k n /\ has ty_dec k m = has ty_dec k n) /\
    ((forall n, In n news -> ~ declared k n) ->
       get ty_dec w' k m = get ty_dec w' k b /\ has ty_dec k m = has ty_dec k b).
Proof. exact (fun ty ty_dec V L W deref => @enhance_spec ty ty_dec V L W deref). Qed.
Print Assumptions C42_store.

(** Converted any number of times, a dependency is that of the source, or was dropped
    on the way and is reported missing; a required one is never dropped. *)
Theorem C42_chain : forall ty (ty_dec : forall a b : ty, {a = b} + {a <> b})
  V L W (deref : W -> L -> V) steps w (b b' : list (spec ty * stor V L W)),
  proper b -> (forall st, In st steps -> fst st = w) ->
  pass_on ty_dec deref b steps = Made b' ->
  proper b' /\ forall k now, get ty_dec w k b' = Some now ->
  (exists was, get ty_dec w k b = Some was /\ same deref w was now) \/ lost now.
Proof. exact (fun ty ty_dec V L W deref => @pass_on_spec ty ty_dec V L W deref). Qed.
Print Assumptions C42_chain.

Theorem C42_chain_required : forall ty (ty_dec : forall a b : ty, {a = b} + {a <> b})
  V L W (deref : W -> L -> V) steps (b b' : list (spec ty * stor V L W)) w k,
  proper b -> (forall st, In st steps -> fst st = w) ->
  pass_on ty_dec deref b steps = Made b' -> In k (required_keys (map fst b')) ->
  In k (required_keys (map fst b)) /\
  exists was now, get ty_dec w k b = Some was /\ get ty_dec w k b' = Some now /\
    same deref w was now /\ now <> Missing.
Proof. exact (fun ty ty_dec V L W deref => @pass_on_required ty ty_dec V L W deref). Qed.
Print Assumptions C42_chain_required.

(** The dependencies of a sequence of two effects can be handed to each of them, if they
    declare the keys they share alike. *)
Theorem C42_sequence : forall ty (ty_dec : forall a b : ty, {a = b} + {a <> b})
  V L W (deref : W -> L -> V) w (b1 b2 m : list (spec ty * stor V L W)),
  proper b1 -> proper b2 -> merge ty_dec deref w b1 b2 = Made m ->
  (forall k s1 s2, declares b1 k s1 -> declares b2 k s2 -> s1 = s2) ->
  (exists c, convert ty_dec deref w (map fst b1) m = Made c) /\
  convert ty_dec deref w (map fst b2) m = Made b2.
Proof. exact (fun ty ty_dec V L W deref => @merge_back ty ty_dec V L W deref). Qed.
Print Assumptions C42_sequence.

(** ** What does not hold *)

(** If one requires what is optional for the other, it cannot. *)
Theorem C42_sequence_refuted : exists (b1 b2 m : list (spec nat * stor nat nat nat)),
  proper b1 /\ proper b2 /\ merge Nat.eq_dec (fun _ l => l) 0 b1 b2 = Made m /\
  convert Nat.eq_dec (fun _ l => l) 0 (map fst b1) m = Rejected.
Proof.
  exists [(Val 1, SVal 7)], [(Opt (Val 1), SOpt (Some (SVal 8)))],
         [(Opt (Val 1), SOpt (Some (SVal 8)))].
  repeat split; cbn; try (repeat constructor; cbn; tauto).
  - intros s x [E|[]]; injection E as <- <-; constructor.
  - intros s x [E|[]]; injection E as <- <-; repeat constructor.
Qed.
Print Assumptions C42_sequence_refuted.

(** An [opt<opt<T>>] made from an [opt<T>] that has nothing says that it has something,
    and [get] throws. *)
Theorem C42_has_refuted : exists (b b' : list (spec nat * stor nat nat nat)),
  proper b /\ convert Nat.eq_dec (fun _ l => l) 0 [Opt (Opt (Val 1))] b = Made b' /\
  has Nat.eq_dec 1 b = Some false /\ has Nat.eq_dec 1 b' = Some true /\
  get Nat.eq_dec 0 1 b' = Some Missing.
Proof.
  exists [(Opt (Val 1), SOpt None)], [(Opt (Opt (Val 1)), SOpt (Some (SOpt None)))].
  repeat split; cbn; try (repeat constructor; cbn; tauto).
  intros s x [E|[]]; injection E as <- <-; constructor.
Qed.
Print Assumptions C42_has_refuted.

(** An [fn<opt<T>>] that the source does not declare throws another exception. *)
Theorem C42_missing_refuted : exists (b b' : list (spec nat * stor nat nat nat)),
  proper b /\ convert Nat.eq_dec (fun _ l => l) 0 [Fn (Opt (Val 1))] b = Made b' /\
  (forall s, ~ declares b 1 s) /\ get Nat.eq_dec 0 1 b' = Some BadCall.
Proof.
  exists [], [(Fn (Opt (Val 1)), SFn None)].
  split; [split; [constructor|intros s x []]|]. split; [reflexivity|].
  split; [intros s (x & [] & _)|reflexivity].
Qed.
Print Assumptions C42_missing_refuted.

(** ** Cases *)
(** A value of type 1, a reference to a 2 with key 5, a function returning a reference
    to a 3; the world is the offset of what is found at locations. *)
Definition some_bag : list (spec nat * stor nat nat nat) :=
  [(Val 1, SVal 7); (Key 5 (Ref 2), SRef 10); (Fn (Ref 3), SFn (Some (fun w => SRef (20 + w))))].
Definition at_ (w l : nat) : nat := w + l.

Example some_bag_proper : proper some_bag.
Proof.
  split; cbn.
  - repeat constructor; cbn; intuition discriminate.
  - intros s x H. repeat (destruct H as [H|H]; [injection H as <- <-; repeat constructor|]). contradiction.
Qed.

Definition wanted : list (spec nat) := [Ref 3; Opt (Key 5 (Ref 2)); Opt (Val 4); Val 1].
Example some_conversion :
  convert Nat.eq_dec at_ 1 wanted some_bag =
  Made [(Ref 3, SRef 21); (Opt (Key 5 (Ref 2)), SOpt (Some (SRef 10))); (Opt (Val 4), SOpt None); (Val 1, SVal 7)].
Proof. reflexivity. Qed.
Example some_conversion_has :
  match convert Nat.eq_dec at_ 1 wanted some_bag with
  | Made b => has Nat.eq_dec 5 b = Some true /\ get Nat.eq_dec 3 5 b = Some (RRef 10) /\
              has Nat.eq_dec 4 b = Some false /\ get Nat.eq_dec 3 4 b = Some Missing /\
              get Nat.eq_dec 3 3 b = Some (RRef 21) /\ get Nat.eq_dec 3 3 some_bag = Some (RRef 23)
  | _ => False
  end.
Proof. repeat split. Qed.
Example all_tidy : forall s, In s (wanted ++ map fst some_bag) -> tidy s.
Proof. cbn; intros s H. repeat (destruct H as [<-|H]; [exact I|]). contradiction. Qed.

Definition other_bag : list (spec nat * stor nat nat nat) :=
  [(Opt (Val 1), SOpt None); (Val 6, SVal 60)].
Example other_bag_proper : proper other_bag.
Proof.
  split; cbn.
  - repeat constructor; cbn; intuition discriminate.
  - intros s x H. repeat (destruct H as [H|H]; [injection H as <- <-; repeat constructor|]). contradiction.
Qed.
Example some_merge :
  match merge Nat.eq_dec at_ 0 some_bag other_bag with
  | Made m => has Nat.eq_dec 1 m = Some false /\ get Nat.eq_dec 2 6 m = Some (RVal 60) /\
              get Nat.eq_dec 2 3 m = Some (RRef 22) /\ get Nat.eq_dec 2 8 m = None
  | _ => False
  end.
Proof. repeat split. Qed.
Example some_chain :
  match pass_on Nat.eq_dec at_ some_bag [(0, [Val 3; Opt (Val 1); Opt (Val 4)]); (0, [Opt (Val 1); Val 3])] with
  | Made b => get Nat.eq_dec 0 1 b = Some (RVal 7) /\ get Nat.eq_dec 0 3 b = Some (RVal 20)
  | _ => False
  end.
Proof. repeat split. Qed.
Example rejected_without_required : convert Nat.eq_dec at_ 0 [Val 1] [(Opt (Val 1), SOpt (Some (SVal 3)))] = Rejected.
Proof. reflexivity. Qed.
(** An empty function has to be called; it is provided where something else is wanted; a required one is
    declared by both of two bags, in the second as optional. *)
Example exceptions :
  convert Nat.eq_dec at_ 0 [Ref 3] [(Fn (Ref 3), SFn None)] = Thrown /\
  convert Nat.eq_dec at_ 0 [Ref 3; Val 8] [(Fn (Ref 3), SFn None)] = Rejected /\
  convert Nat.eq_dec at_ 0 [Fn (Ref 3)] [(Fn (Ref 3), SFn None)] = Made [(Fn (Ref 3), SFn None)] /\
  convert Nat.eq_dec at_ 0 [Opt (Val 3)] [(Ref 3, SRef 4)] = Rejected /\
  convert2 Nat.eq_dec at_ 0 [Val 1] [(Val 1, SVal 5)] [(Opt (Val 1), SOpt None)] = Rejected /\
  convert2 Nat.eq_dec at_ 0 [Opt (Val 1); Val 2] [(Val 1, SVal 5)] [(Val 2, SVal 6)] =
    Made [(Opt (Val 1), SOpt (Some (SVal 5))); (Val 2, SVal 6)].
Proof. repeat split. Qed.
Example empty_called : calls_empty (in_bag [(Fn (Ref 3), SFn (V := nat) (L := nat) (W := nat) None)]) [Ref 3].
Proof.
  exists (Ref 3), (Fn (Ref 3)). split; [left; reflexivity|]. split; [intros O; inversion O|].
  split; [split; [left; reflexivity|repeat constructor]|]. intros B. inversion B.
Qed.
