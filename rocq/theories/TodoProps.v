(** C60: the example program "todo" *)
From Coq Require Import List Arith Bool.
From Verif Require Import TodoModel TodoSpec TodoProofs.
Import ListNotations.

(** ** The list of items *)
(** An item that was added is where the actions since then have brought it, with its text,
    and done if it was toggled an odd number of times. *)
Theorem C60_follow : forall m l1 t l2 p d, t <> [] -> follow l2 0 false = Some (p, d) ->
  nth_error (edits m (l1 ++ Add t :: l2)) p = Some (Item d t).
Proof. exact follows. Qed.
Print Assumptions C60_follow.
(** Every item comes from an action that added it, and has a text, or was there before. *)
Theorem C60_origin : forall l m p d t, nth_error (edits m l) p = Some (Item d t) ->
  (exists l1 l2, l = l1 ++ Add t :: l2 /\ t <> [] /\ follow l2 0 false = Some (p, d)) \/
  (exists p0 d0, nth_error m p0 = Some (Item d0 t) /\ follow l p0 d0 = Some (p, d)).
Proof. exact origin. Qed.
Print Assumptions C60_origin.
(** Items added later stand before items added earlier (so they are not the same). *)
Theorem C60_order : forall u l2 l3 p d q e, u <> [] ->
  follow (l2 ++ Add u :: l3) 0 false = Some (p, d) -> follow l3 0 false = Some (q, e) -> q < p.
Proof. exact order. Qed.
Print Assumptions C60_order.
Theorem C60_distinct : forall l p q d e p' d' e',
  follow l p d = Some (p', d') -> follow l q e = Some (p', e') -> p = q.
Proof. exact follow_distinct. Qed.
Print Assumptions C60_distinct.

(** ** The running program *)
(** Actions are applied in the order in which they were dispatched, and none is lost. *)
Theorem C60_serial : forall ls d w, acts ls (init d) = Some w ->
  filter user (applied (init d) ls ++ waiting w) = filter user (asked ls).
Proof. exact serial. Qed.
Print Assumptions C60_serial.
(** The document is what was loaded last with the edits applied since then. *)
Theorem C60_document : forall ls d w, acts ls (init d) = Some w ->
  (no_load (applied (init d) ls) -> doc (state w) = edits [] (edits_of (applied (init d) ls))) /\
  (forall l1 f m l2, applied (init d) ls = l1 ++ LoadResult f m :: l2 -> no_load l2 ->
     doc (state w) = edits m (edits_of l2)).
Proof. exact document. Qed.
Print Assumptions C60_document.
Theorem C60_file : forall ls d w, acts ls (init d) = Some w ->
  ((forall a, In a (applied (init d) ls) -> names a = None) -> file (state w) = Path [] None) /\
  (forall l1 a l2 f, applied (init d) ls = l1 ++ a :: l2 -> names a = Some f ->
     (forall b, In b l2 -> names b = None) -> file (state w) = f).
Proof. exact file_name. Qed.
Print Assumptions C60_file.
(** What is written to a file is the document as it was when the action to save it was
    applied, whatever happened since. *)
Theorem C60_saved : forall ls d w f m q w', acts ls (init d) = Some w -> queue w = Eff (ESave f m) :: q ->
  act (LRun Fine) w = Some w' ->
  disk w' f = Some m /\ (forall g, g <> f -> disk w' g = disk w g) /\ state w' = state w /\ errors w' = errors w /\
  exists ls1 ls2 w1 g r o, ls = ls1 ++ LRun o :: ls2 /\ acts ls1 (init d) = Some w1 /\ queue w1 = Act (Save g) :: r /\
    f = dot_todo g /\ m = doc (state w1).
Proof. exact saved. Qed.
Print Assumptions C60_saved.
(** What is loaded was in the file. *)
Theorem C60_loaded : forall ls d w f m q, acts ls (init d) = Some w -> queue w = Act (LoadResult f m) :: q ->
  ~ In (LoadResult f m) (asked ls) ->
  exists ls1 ls2 w1 r, ls = ls1 ++ LRun Fine :: ls2 /\ acts ls1 (init d) = Some w1 /\ queue w1 = Eff (ELoad f) :: r /\
    disk w1 f = Some m.
Proof. exact loaded. Qed.
Print Assumptions C60_loaded.
(** Saving, editing and loading again brings the document back. *)
Theorem C60_restores : forall w f l, queue w = [] ->
  option_map state (acts ([LUser (Save f); LRun Fine; LRun Fine] ++ flat_map (fun a => [LUser (Edit a); LRun Fine]) l ++
    [LUser (Load (dot_todo f)); LRun Fine; LRun Fine; LRun Fine]) w) = Some (App (doc (state w)) (dot_todo f)).
Proof. exact restores. Qed.
Print Assumptions C60_restores.
(** Failures are told to the logger and change nothing (but the file to be saved). *)
Theorem C60_load_fails : forall w f q o w', queue w = Eff (ELoad f) :: q -> (o <> Fine \/ disk w f = None) ->
  act (LRun o) w = Some w' -> w' = World (state w) q (disk w) (f :: errors w).
Proof. exact failed. Qed.
Print Assumptions C60_load_fails.
Theorem C60_save_fails : forall w f m q l w', queue w = Eff (ESave f m) :: q -> act (LRun (Fails l)) w = Some w' ->
  state w' = state w /\ queue w' = q /\ errors w' = f :: errors w /\ forall g, g <> f -> disk w' g = disk w g.
Proof. exact failed_save. Qed.
Print Assumptions C60_save_fails.

(** ** Cases *)
Definition ex_edits : list model_action :=
  [Add [1]; Add [2]; Add []; Add [3]; At 2 Toggle; At 1 Remove; At 7 Remove; At 7 Toggle; At 0 Toggle; At 0 Toggle].
Example C60_ex_list : edits [] ex_edits = [Item false [3]; Item true [1]] /\
  ex_edits = [] ++ Add [1] :: skipn 1 ex_edits /\ follow (skipn 1 ex_edits) 0 false = Some (1, true) /\
  follow (skipn 2 ex_edits) 0 false = None /\ follow (skipn 4 ex_edits) 0 false = Some (0, false).
Proof. repeat split. Qed.
Definition a_file := Path [97] None.
(** Saving, an edit before the document is written, loading what was written, an edit *)
Definition ex_run : list label :=
  [LUser (Edit (Add [1])); LUser (Save a_file); LUser (Edit (Add [2])); LRun Fine; LRun Fine; LRun Fine; LRun Fine;
   LUser (Load (dot_todo a_file)); LRun Fine; LRun Fine; LUser (Edit (At 0 Toggle)); LRun Fine; LRun Fine].
Example C60_ex_run :
  match acts (firstn 6 ex_run) (init (fun _ => None)), acts (firstn 11 ex_run) (init (fun _ => None)),
        acts ex_run (init (fun _ => None)) with
  | Some w1, Some w2, Some w =>
      queue w1 = [Eff (ESave (dot_todo a_file) [Item false [1]])] /\ doc (state w1) = [Item false [2]; Item false [1]] /\
      queue w2 = [Act (LoadResult (dot_todo a_file) [Item false [1]]); Act (Edit (At 0 Toggle))] /\
      state w = App [Item true [1]] (dot_todo a_file) /\
      applied (init (fun _ => None)) ex_run =
        [Edit (Add [1]); Save a_file; Edit (Add [2]); Load (dot_todo a_file)] ++
        LoadResult (dot_todo a_file) [Item false [1]] :: [Edit (At 0 Toggle)]
  | _, _, _ => False
  end.
Proof. vm_compute. repeat split. Qed.

(** ** What does not hold *)
(** An edit applied while a document is being loaded is lost. *)
Theorem C60_lost_refuted : exists d ls w, acts ls (init d) = Some w /\ queue w = [] /\
  (exists l1 f l2 t l3 m l4, t <> [] /\ applied (init d) ls = l1 ++ Load f :: l2 ++ Edit (Add t) :: l3 ++ LoadResult f m :: l4) /\
  doc (state w) = [].
Proof.
  exists (fun _ => Some []), [LUser (Load a_file); LUser (Edit (Add [1])); LRun Fine; LRun Fine; LRun Fine; LRun Fine].
  eexists. split; [reflexivity|]. split; [reflexivity|]. split; [|reflexivity].
  exists [], a_file, [], [1], [], [], []. split; [discriminate|reflexivity].
Qed.
Print Assumptions C60_lost_refuted.
(** The document is said to be from a file that it could not be written to. *)
Theorem C60_path_refuted : exists ls w, acts ls (init (fun _ => None)) = Some w /\ queue w = [] /\
  disk w (file (state w)) = None /\ file (state w) = dot_todo a_file /\ errors w = [dot_todo a_file].
Proof.
  exists [LUser (Save a_file); LRun Fine; LRun (Fails None)]. eexists. repeat split.
Qed.
Print Assumptions C60_path_refuted.
(** An item is named by its place at the time when the action is applied: to remove the item
    shown twice (before the first removal is seen) removes two. *)
Theorem C60_twice_refuted : exists m t u, t <> u /\ m = [Item false t; Item false u] /\
  edits m [At 0 Remove; At 0 Remove] = [].
Proof. exists [Item false [1]; Item false [2]], [1], [2]. repeat split. discriminate. Qed.
Print Assumptions C60_twice_refuted.
