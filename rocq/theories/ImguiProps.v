(** Property C80: the user interface of the example program "todo" with ImGui. *)
From Coq Require Import List Arith Bool Lia.
From Verif Require Import TodoModel ImguiModel ImguiSpec ImguiProofs.
Import ListNotations.

(** What is clicked in a frame changes the items it was drawn for, and what is entered is
    added, if a text is not entered in the same frame as a click and nothing is clicked
    below an item in the frame in which that is deleted. *)
Theorem C80_frame_partial : forall f m, one_by_one f m -> next m f = meant m f.
Proof. exact means. Qed.
Print Assumptions C80_frame_partial.
(** So after any number of such frames. *)
Theorem C80_frames_partial : forall fs m,
  (forall l1 f l2, fs = l1 ++ f :: l2 -> one_by_one f (fold_left meant l1 m)) ->
  fold_left next fs m = fold_left meant fs m.
Proof. exact means_all. Qed.
Print Assumptions C80_frames_partial.

Definition nothing (_ : nat) : bool := false.
Definition three : model := [Item false [1]; Item true [2]; Item false [3]].
(** Two items are checked and a third one deleted at once. *)
Definition busy_frame : frame := Frame (Some []) (fun i => i <? 2) (fun i => i =? 2).
Example C80_demo : one_by_one busy_frame three /\ next three busy_frame = [Item true [1]; Item false [2]].
Proof.
  split; [|reflexivity]. split; [exact I|]. intros i j L D. cbn in *. apply Nat.eqb_eq in D. lia.
Qed.

(** An item is added and another one is deleted in one frame: the wrong one is deleted. *)
Theorem C80_enter_refuted : exists f m x y, m = [x; y] /\ (forall i, deleted f i = true <-> i = 1) /\
  entered f = Some [3] /\ meant m f = [Item false [3]; x] /\ next m f = [Item false [3]; y].
Proof.
  exists (Frame (Some [3]) nothing (fun i => i =? 1)), [Item false [1]; Item false [2]], (Item false [1]), (Item false [2]).
  split; [reflexivity|]. split; [intros i; apply Nat.eqb_eq|]. repeat split.
Qed.
Print Assumptions C80_enter_refuted.
(** Two items are deleted in one frame: the second is not the one that was clicked. *)
Theorem C80_two_refuted : exists f m, entered f = None /\ meant m f <> next m f /\ length (meant m f) = length (next m f).
Proof.
  exists (Frame None nothing (fun i => i <? 2)), three. split; [reflexivity|]. split; [vm_compute; discriminate|reflexivity].
Qed.
Print Assumptions C80_two_refuted.
