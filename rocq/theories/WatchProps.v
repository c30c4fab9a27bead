(** C17: reader objects and their callbacks. *)
From Coq Require Import List Arith Bool.
From Verif Require Import WatchModel WatchSpec WatchFrame WatchPass WatchLog WatchLaws WatchSilent WatchValues.
Import ListNotations.

(** ** Which callbacks a node will call, after each operation
    [attached s n]: the reader objects that observe [n], in order, with their callbacks. *)

(** A new reader object, a copy of one, or one made from another that is moved from,
    takes no callbacks with it, and none is lost. *)
Theorem C17_new : forall V (s s' : st V) fuel o,
  exec fuel (TOps [New o]) s = Done s' -> forall n, attached s' n = attached s n.
Proof. exact (fun V s s' fuel => @law_new V s s' fuel). Qed.
Print Assumptions C17_new.
Theorem C17_copy : forall V (s s' : st V) fuel r,
  exec fuel (TOps [Copy r]) s = Done s' -> forall n, attached s' n = attached s n.
Proof. exact (fun V s s' fuel => @law_copy V s s' fuel). Qed.
Print Assumptions C17_copy.
Theorem C17_move : forall V (s s' : st V) fuel r,
  exec fuel (TOps [Move r]) s = Done s' -> forall n, attached s' n = attached s n.
Proof. exact (fun V s s' fuel => @law_move V s s' fuel). Qed.
Print Assumptions C17_move.

(** A new callback comes after those of the same reader object; the first one puts the
    reader object after all others of its node. *)
Theorem C17_watch : forall V (s s' : st V) fuel r f, reach s ->
  exec fuel (TOps [Watch r f]) s = Done s' ->
  exists c, (forall q, ~ In c (ids s q)) /\
  forall n, attached s' n =
    match ids s r with
    | [] => attached s n ++ (if match node_of s r with Some k => k =? n | None => false end then [(r, [c])] else [])
    | _ => map (fun x => if fst x =? r then (fst x, snd x ++ [c]) else x) (attached s n)
    end.
Proof. exact (fun V s s' fuel r f Rs => @law_watch V s s' fuel Rs r f). Qed.
Print Assumptions C17_watch.

(** Unbinding or destroying a reader object removes its callbacks and no others. *)
Theorem C17_unbind : forall V (s s' : st V) fuel r,
  exec fuel (TOps [Unbind r]) s = Done s' ->
  forall n, attached s' n = filter (fun x => negb (fst x =? r)) (attached s n).
Proof. exact (fun V s s' fuel => @law_unbind V s s' fuel). Qed.
Print Assumptions C17_unbind.
Theorem C17_destroy : forall V (s s' : st V) fuel r,
  exec fuel (TOps [Destroy r]) s = Done s' ->
  forall n, attached s' n = filter (fun x => negb (fst x =? r)) (attached s n).
Proof. exact (fun V s s' fuel => @law_destroy V s s' fuel). Qed.
Print Assumptions C17_destroy.

(** Assignment takes the callbacks of the reader object assigned to over to the new
    node, after all others there; those of the other reader object stay. *)
Theorem C17_assign : forall V (s s' : st V) fuel r r',
  exec fuel (TOps [Assign r r']) s = Done s' ->
  forall n, attached s' n = filter (fun x => negb (fst x =? r)) (attached s n) ++
    (if match node_of s r' with Some k => k =? n | None => false end then
       match ids s r with [] => [] | l => [(r, l)] end else []).
Proof. exact (fun V s s' fuel => @law_assign V s s' fuel). Qed.
Print Assumptions C17_assign.
Theorem C17_move_assign : forall V (s s' : st V) fuel r r',
  exec fuel (TOps [MoveAssign r r']) s = Done s' ->
  forall n, attached s' n = filter (fun x => negb (fst x =? r)) (attached s n) ++
    (if match node_of s r' with Some k => k =? n | None => false end then
       match ids s r with [] => [] | l => [(r, l)] end else []).
Proof. exact (fun V s s' fuel => @law_move_assign V s s' fuel). Qed.
Print Assumptions C17_move_assign.

(** A node that disappears takes only its own observers out. *)
Theorem C17_expire : forall V (s s' : st V) fuel n, reach s ->
  exec fuel (TOps [Expire n]) s = Done s' ->
  attached s' n = [] /\ forall m, m <> n -> attached s' m = attached s m.
Proof. exact (fun V => @law_expire V). Qed.
Print Assumptions C17_expire.

(** ** Which callbacks are called *)
(** Callbacks that do nothing to reader objects: a change of a node calls, once each,
    exactly the callbacks connected to reader objects that follow it.  What a reader
    object follows is told from the program alone ([objects]). *)
Theorem C17_exactly_once : forall V fuel fuel' prog val n v (s s' : st V),
  silent prog -> exec fuel (TOps prog) (init val) = Done s -> exec fuel' (TOps [Notify n v]) s = Done s' ->
  exists new, log s' = new ++ log s /\ NoDup (map fst (calls new)) /\
    forall c u, In (c, u) (calls new) <->
      u = v /\ exists r o, at_ (objects prog) r = Some o /\ follows o = Some n /\ In c (has o).
Proof. exact (fun V => @exactly_the_followers V). Qed.
Print Assumptions C17_exactly_once.
Theorem C17_notify_ends : forall V fuel prog val n v (s : st V),
  silent prog -> exec fuel (TOps prog) (init val) = Done s ->
  exists fuel' s', exec fuel' (TOps [Notify n v]) s = Done s'.
Proof. exact (fun V => @notify_runs V). Qed.
Print Assumptions C17_notify_ends.

(** In such programs, the value of a node is what its last change set; [bind] gives it to
    the new callback and to no other, [nudge] to all callbacks of the reader object and
    to no others. *)
Theorem C17_value : forall V fuel prog val (s : st V) n,
  silent prog -> exec fuel (TOps prog) (init val) = Done s -> value s n = latest n prog (val n).
Proof. exact (fun V => @values V). Qed.
Print Assumptions C17_value.
Theorem C17_bind : forall V fuel fuel' prog val r f (s s' : st V),
  silent prog -> (forall l, f l = []) ->
  exec fuel (TOps prog) (init val) = Done s -> exec fuel' (TOps [Bind r f]) s = Done s' ->
  exists o n, at_ (objects prog) r = Some o /\ at_node o = Some n /\
    log s' = EBind r (latest n prog (val n)) :: log s.
Proof. exact (fun V => @bind_calls V). Qed.
Print Assumptions C17_bind.
Theorem C17_nudge : forall V fuel fuel' prog val r (s s' : st V),
  silent prog -> exec fuel (TOps prog) (init val) = Done s -> exec fuel' (TOps [Nudge r]) s = Done s' ->
  exists o n new, at_ (objects prog) r = Some o /\ at_node o = Some n /\ log s' = new ++ log s /\
    calls new = map (fun c => (c, latest n prog (val n))) (has o).
Proof. exact (fun V => @nudge_calls V). Qed.
Print Assumptions C17_nudge.
(** A node can go exactly when no reader object points to it. *)
Theorem C17_expire_when : forall V fuel prog val n (s : st V),
  silent prog -> exec fuel (TOps prog) (init val) = Done s ->
  ((exists fuel', exec fuel' (TOps [Expire n]) s = Misuse) <-> pointed_to n (objects prog)) /\
  ((exists fuel' s', exec fuel' (TOps [Expire n]) s = Done s') <-> ~ pointed_to n (objects prog)).
Proof. exact (fun V => @expire_iff V). Qed.
Print Assumptions C17_expire_when.

(** Callbacks that do anything, in any pass of a run, also within another one: a pass in
    which no reader object is unbound, assigned to or destroyed while its own
    callbacks are called, calls those that were connected when it started to reader
    objects that stay, once each and in order. *)
Theorem C17_every_pass : forall V fuel prog val (s : st V) p w l1 l2 l3,
  exec fuel (TOps prog) (init val) = Done s ->
  log s = l3 ++ EPassed p :: l2 ++ EPass p w :: l1 ->
  undisturbed p l2 -> filter (among (kept w l2)) (own p l2) = kept w l2.
Proof. exact (fun V fuel prog val s p w l1 l2 l3 H => @every_pass V fuel prog val s p w l1 l2 l3 (or_introl H)). Qed.
Print Assumptions C17_every_pass.

(** Apart from a reader with no node in [bind] or [nudge], behaviour is undefined only
    when that happens to the reader object whose callbacks are being called. *)
Theorem C17_undefined_only_if : forall V fuel prog val (s : st V),
  exec fuel (TOps prog) (init val) = Undefined s Astray -> pulled_away (log s).
Proof. exact (fun V => @only_if_pulled_away V). Qed.
Print Assumptions C17_undefined_only_if.

(** ** A case *)
Definition nothing : list (event nat) -> list (op nat) := fun _ => [].
(** Readers 0 and 1 of node 0, 2 of node 1; 0 watched twice, 1 once, 2 once; 3 is a
    copy of 0, 4 is made by moving from 1; 2 = 0; 5 = copy of 2. *)
Definition sample : list (op nat) :=
  [New (Some 0); New (Some 0); New (Some 1); Watch 0 nothing; Watch 1 nothing; Watch 0 nothing;
   Watch 2 nothing; Copy 0; Move 1; Notify 1 3; Assign 2 0; Copy 2].
Example C17_case :
  match exec 100 (TOps sample) (init (fun _ => 0)) with
  | Done s => attached s 0 = [(0, [0; 2]); (1, [1]); (2, [3])] /\ attached s 1 = [] /\
              calls (log s) = [(3, 3)] /\
              match exec 100 (TOps [Notify 0 7]) s with
              | Done s' => calls (log s') = [(3, 3); (0, 7); (2, 7); (1, 7); (3, 7)]
              | _ => False
              end
  | _ => False
  end.
Proof. vm_compute. auto. Qed.
Example C17_case_silent : silent sample.
Proof. repeat constructor. Qed.
Example C17_case_objects : objects sample =
  [Some (O (Some 0) (Some 0) [0; 2]); Some (O None (Some 0) [1]); Some (O (Some 0) (Some 0) [3]);
   Some (O (Some 0) None []); Some (O (Some 0) None []); Some (O (Some 0) None [])].
Proof. reflexivity. Qed.

Example C17_case_nudge :
  match exec 100 (TOps sample) (init (fun _ => 0)) with
  | Done s =>
      match exec 100 (TOps [Notify 0 7; Nudge 2; Bind 5 nothing]) s, exec 100 (TOps [Expire 1]) s, exec 100 (TOps [Expire 0]) s with
      | Done s', Done _, Misuse =>
          calls (log s') = [(3, 3); (0, 7); (2, 7); (1, 7); (3, 7); (3, 7)] /\ hd_error (log s') = Some (EBind 5 7)
      | _, _, _ => False
      end
  | _ => False
  end.
Proof. vm_compute. auto. Qed.

(** Callbacks that act: the first unbinds reader 1 and connects one more to itself, so
    that callback 1 is not called and callback 3 is. *)
Definition acting : list (op nat) :=
  [New (Some 0); New (Some 0); New (Some 0);
   Watch 0 (fun l => match own 0 l with [_] => [Unbind 1; Watch 0 nothing] | _ => [] end);
   Watch 1 nothing; Watch 2 nothing; Notify 0 5].
Example C17_acting :
  match exec 100 (TOps acting) (init (fun _ => 0)) with
  | Done s => own 0 (log s) = [0; 3; 2] /\
      exists l2, log s = [] ++ EPassed 0 :: l2 ++ EPass 0 [(0, [0]); (1, [1]); (2, [2])] :: [] /\
        kept [(0, [0]); (1, [1]); (2, [2])] l2 = [0; 2]
  | _ => False
  end.
Proof. vm_compute. split; auto. eexists (_ :: _ :: _ :: _ :: _ :: _ :: _ :: _ :: []). auto. Qed.
Example C17_acting_undisturbed :
  undisturbed 0 [EEnd 0 2; ECall 0 2 5; EBegin 0 2; EEnd 0 0; ECall 0 3 5; EDrop 1; ECall 0 0 5; EBegin 0 0].
Proof.
  intros r l1 l2 l3 E _. set (l := [_; _; _; _; _; _; _; _]) in E.
  assert (A : In (EBegin 0 r) l).
  { rewrite E. apply in_or_app. right. right. apply in_or_app. right. now left. }
  assert (D : forall x, In x l2 -> In x l).
  { intros x H. rewrite E. apply in_or_app. right. right. apply in_or_app. now left. }
  destruct (dropped l2 r) eqn:F; auto. apply existsb_exists in F as ([] & H & F); try discriminate.
  apply Nat.eqb_eq in F. subst. apply D in H. cbn in A, H. exfalso.
  repeat (destruct H as [H|H]; [try discriminate; injection H as H; subst|]); try contradiction.
  repeat (destruct A as [A|A]; [discriminate|]). contradiction.
Qed.

(** ** What does not hold *)
(** A reader object unbound by its own callback: the callback is destroyed while it runs. *)
Theorem C17_unbind_in_callback_refuted : exists prog : list (op nat), forall val,
  match exec 100 (TOps prog) (init val) with Undefined _ Astray => True | _ => False end.
Proof. exists [New (Some 0); Watch 0 (fun _ => [Unbind 0]); Notify 0 1]. intros. vm_compute. exact I. Qed.
Print Assumptions C17_unbind_in_callback_refuted.
(** The same if it is assigned a reader of another node ... *)
Theorem C17_assign_in_callback_refuted : exists prog : list (op nat), forall val,
  match exec 100 (TOps prog) (init val) with Undefined _ Astray => True | _ => False end.
Proof.
  exists [New (Some 0); New (Some 1); Watch 0 (fun _ => [Assign 0 1]); Notify 0 1]. intros. vm_compute. exact I.
Qed.
Print Assumptions C17_assign_in_callback_refuted.
(** ... and if it is assigned one of the same node, callbacks of other reader objects are
    not called. *)
Theorem C17_assign_skips_others_refuted : exists prog : list (op nat), forall val,
  match exec 100 (TOps prog) (init val) with
  | Done s => attached s 0 = [(1, [1]); (0, [0])] /\ calls (log s) = [(0, 5)]
  | _ => False
  end.
Proof.
  exists [New (Some 0); New (Some 0); Watch 0 (fun _ => [Assign 0 1]); Watch 1 nothing; Notify 0 5].
  intros. vm_compute. auto.
Qed.
Print Assumptions C17_assign_skips_others_refuted.
(** A reader object assigned to by the callback of a later one is called twice. *)
Theorem C17_twice_refuted : exists prog : list (op nat), forall val,
  match exec 100 (TOps prog) (init val) with
  | Done s => calls (log s) = [(0, 5); (1, 5); (0, 5)]
  | _ => False
  end.
Proof.
  exists [New (Some 0); New (Some 0); Watch 0 nothing;
          Watch 1 (fun _ => [Assign 0 1]); Notify 0 5].
  intros. vm_compute. auto.
Qed.
Print Assumptions C17_twice_refuted.
