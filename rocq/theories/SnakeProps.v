(** C59: the game of snake in the examples *)
From Coq Require Import List ZArith Bool.
From Verif Require Import SnakeModel SnakeSpec SnakeProofs.
Import ListNotations.
Local Open Scope Z_scope.

(** ** What holds after any actions, whatever numbers are drawn *)
Theorem C59_defined : forall rnd l, exists m, after rnd l = Some m.
Proof. exact defined. Qed.
Print Assumptions C59_defined.
(** Three cells or more, on the board, each next to the one before; so is the apple. *)
Theorem C59_shape : forall rnd, (forall i, 0 <= rnd i < 25) -> forall l m, after rnd l = Some m ->
  (3 <= length (body (the m)))%nat /\ Forall on_board (body (the m)) /\ chain (body (the m)) /\ on_board (apple (the m)).
Proof. exact shape. Qed.
Print Assumptions C59_shape.
(** The snake is where its head was last. *)
Theorem C59_trail : forall rnd l m, after rnd l = Some m ->
  body (the m) = firstn (length (body (the m))) (trail rnd [(12, 12); (11, 12); (10, 12)] (make_initial rnd) l).
Proof. exact follows. Qed.
Print Assumptions C59_trail.

(** ** Each action *)
(** The direction is taken unless it is the opposite one. *)
Theorem C59_turn : forall rnd l m a d, after rnd l = Some m -> wanted a = Some d -> exists m', update rnd m a = Some m' /\
  drawn m' = drawn m /\ body (the m') = body (the m) /\ apple (the m') = apple (the m) /\ over (the m') = over (the m) /\
  (d = opposite (dir (the m)) -> dir (the m') = dir (the m)) /\
  (d <> opposite (dir (the m)) -> dir (the m') = d).
Proof. exact turn. Qed.
Print Assumptions C59_turn.
(** The head moves on unless it would leave the board or run into the snake, and then the
    game is over.  The snake grows when the end of its tail leaves the apple, and then
    the next two numbers are where the new one is. *)
Theorem C59_tick : forall rnd l m, after rnd l = Some m -> exists h m', head (the m) = Some h /\ update rnd m Tick = Some m' /\
  dir (the m') = dir (the m) /\
  (blocked (the m) -> body (the m') = body (the m) /\ apple (the m') = apple (the m) /\ drawn m' = drawn m /\
                      over (the m') = true) /\
  (~ blocked (the m) -> over (the m') = over (the m) /\ head (the m') = Some (ahead (dir (the m)) h) /\
     (on_apple (the m) -> length (body (the m')) = S (length (body (the m))) /\ drawn m' = (2 + drawn m)%nat /\
        apple (the m') = (rnd (drawn m), rnd (S (drawn m)))) /\
     (~ on_apple (the m) -> length (body (the m')) = length (body (the m)) /\ drawn m' = drawn m /\
        apple (the m') = apple (the m))).
Proof. exact tick. Qed.
Print Assumptions C59_tick.
Theorem C59_reset : forall rnd m, update rnd m Reset_ =
  Some (App (2 + drawn m) (Game [(12, 12); (11, 12); (10, 12)] DRight (rnd (drawn m), rnd (S (drawn m))) false)) /\
  make_initial rnd = App 2 (Game [(12, 12); (11, 12); (10, 12)] DRight (rnd 0%nat, rnd 1%nat) false).
Proof. split; reflexivity. Qed.
Print Assumptions C59_reset.

(** ** The end of the game *)
(** It is over exactly if, since it was started, the head could not move on. *)
Theorem C59_over : forall rnd l m, after rnd l = Some m ->
  (over (the m) = true <->
   exists l1 l2 m1, l = l1 ++ Tick :: l2 /\ ~ In Reset_ l2 /\ after rnd l1 = Some m1 /\ blocked (the m1)).
Proof. exact over_when. Qed.
Print Assumptions C59_over.
(** Without a turn nothing happens then. *)
Theorem C59_still : forall rnd l m k, after rnd l = Some m -> blocked (the m) -> over (the m) = true ->
  updates rnd m (repeat Tick k) = Some m.
Proof. exact still. Qed.
Print Assumptions C59_still.
(** No cell is taken twice, unless the head once moved to where the end of the tail was,
    and the apple too. *)
Theorem C59_overlap : forall rnd l m, after rnd l = Some m -> NoDup (body (the m)) \/
  exists l1 l2 m1 h, l = l1 ++ Tick :: l2 /\ ~ In Reset_ l2 /\ after rnd l1 = Some m1 /\
    ~ blocked (the m1) /\ on_apple (the m1) /\ head (the m1) = Some h /\ ahead (dir (the m1)) h = apple (the m1).
Proof. exact overlap. Qed.
Print Assumptions C59_overlap.

(** ** What is shown *)
Theorem C59_view : forall gs v g, fst (shown v (gs ++ [g])) = View (body g) (apple g) (over g).
Proof. exact shown_last. Qed.
Print Assumptions C59_view.
Theorem C59_signals : forall v g,
  (In BodyReset (snd (show v g)) <-> v_body v <> body g) /\
  (forall p, In (AppleChanged p) (snd (show v g)) <-> p = apple g /\ v_apple v <> p) /\
  (In OverChanged (snd (show v g)) <-> v_over v <> over g) /\ NoDup (snd (show v g)).
Proof. exact show_signals. Qed.
Print Assumptions C59_signals.

(** ** A game *)
Definition numbers (l : list Z) (i : nat) : Z := nth i l 0.
Lemma numbers_fit : forall l, forallb (fun z => (0 <=? z) && (z <? 25)) l = true -> forall i, 0 <= numbers l i < 25.
Proof.
  intros l H i. unfold numbers. destruct (nth_in_or_default i l 0) as [X| ->]; [|split; [discriminate|reflexivity]].
  rewrite forallb_forall in H. apply H in X. apply andb_prop in X as [A B]. apply Z.leb_le in A. apply Z.ltb_lt in B. auto.
Qed.
(** The first apple is where the tail is, the second one where a turn will lead. *)
Definition ex_rnd : nat -> Z := numbers [10; 12; 12; 12; 3; 24; 5; 6].
Definition ex_game : list action := [Tick; GoDown; GoUp; Tick; GoLeft; Tick; GoUp].
Example C59_ex : option_map the (after ex_rnd ex_game) =
  Some (Game [(12, 13); (13, 13); (13, 12); (12, 12)] DUp (12, 12) false) /\ (forall i, 0 <= ex_rnd i < 25) /\
  option_map the (after ex_rnd (ex_game ++ [GoLeft; Tick; Tick; Reset_])) =
  Some (Game [(12, 12); (11, 12); (10, 12)] DRight (5, 6) false).
Proof. split; [reflexivity|]. split; [apply numbers_fit; reflexivity|reflexivity]. Qed.
Definition wall : app := Eval vm_compute in
  match after ex_rnd (repeat Tick 14) with Some m => m | None => make_initial ex_rnd end.
Example C59_ex_wall : after ex_rnd (repeat Tick 14) = Some wall /\ blocked (the wall) /\ over (the wall) = true.
Proof.
  split; [reflexivity|]. split; [|reflexivity]. exists (24, 12). split; [reflexivity|].
  left. intros [[_ A] _]. vm_compute in A. discriminate.
Qed.
Example C59_ex_view : shown blank [the (make_initial ex_rnd); the wall] =
  (View (body (the wall)) (apple (the wall)) true,
   [BodyReset; AppleChanged (10, 12); BodyReset; AppleChanged (3, 24); OverChanged]).
Proof. reflexivity. Qed.

(** ** What does not hold *)
(** A snake can lie over itself although the game is not over: the head moves to where the
    tail was, and the tail stays because it was on the apple. *)
Theorem C59_overlap_refuted : exists rnd l m, (forall i, 0 <= rnd i < 25) /\ after rnd l = Some m /\
  over (the m) = false /\ ~ NoDup (body (the m)).
Proof.
  exists ex_rnd, (ex_game ++ [Tick]). eexists. split; [apply numbers_fit; reflexivity|].
  split; [reflexivity|]. split; [reflexivity|]. intros N. inversion N as [|? ? A _]. apply A. simpl. auto 10.
Qed.
Print Assumptions C59_overlap_refuted.
(** Two turns before a tick reverse the snake, which then runs into itself. *)
Theorem C59_reverse_refuted : exists rnd l m, (forall i, 0 <= rnd i < 25) /\ after rnd l = Some m /\
  dir (the m) = DRight /\ over (the m) = false /\
  option_map (fun m => (dir (the m), over (the m))) (updates rnd m [GoUp; GoLeft; Tick]) = Some (DLeft, true).
Proof.
  exists ex_rnd, []. eexists. split; [apply numbers_fit; reflexivity|]. repeat split.
Qed.
Print Assumptions C59_reverse_refuted.
(** When the game is over the snake can still be moved. *)
Theorem C59_over_refuted : exists rnd l m m', (forall i, 0 <= rnd i < 25) /\ after rnd l = Some m /\
  over (the m) = true /\ updates rnd m [GoDown; Tick] = Some m' /\ body (the m') <> body (the m) /\ over (the m') = true.
Proof.
  exists ex_rnd, (repeat Tick 14), wall. eexists. split; [apply numbers_fit; reflexivity|].
  split; [reflexivity|]. split; [reflexivity|]. split; [reflexivity|]. split; [discriminate|reflexivity].
Qed.
Print Assumptions C59_over_refuted.
(** The apple can be placed on the snake, and the head can pass over it without eating it. *)
Theorem C59_apple_refuted : exists rnd l m, (forall i, 0 <= rnd i < 25) /\ after rnd l = Some m /\
  In (apple (the m)) (body (the m)).
Proof.
  exists ex_rnd, []. eexists. split; [apply numbers_fit; reflexivity|]. split; [reflexivity|]. simpl. auto.
Qed.
Print Assumptions C59_apple_refuted.
