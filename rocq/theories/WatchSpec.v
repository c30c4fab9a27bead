(** What is said of reader objects and their callbacks. *)
From Coq Require Import List Arith Bool.
From Verif Require Import WatchModel.
Import ListNotations.

Section Spec.
Context {V : Type}.
Notation event := (event V).
Notation op := (op V).
Notation st := (st V).

(** The calls made by pass [p], in order. *)
Definition own (p : nat) (l : list event) : list nat :=
  flat_map (fun e => match e with ECall q c _ => if q =? p then [c] else [] | _ => [] end) (rev l).
(** All calls, in order. *)
Definition calls (l : list event) : list (nat * V) :=
  flat_map (fun e => match e with ECall _ c v => [(c, v)] | _ => [] end) (rev l).

Definition dropped (l : list event) (r : nat) : bool :=
  existsb (fun e => match e with EDrop q => q =? r | _ => false end) l.
(** No reader object is unbound, assigned to or destroyed by one of its own callbacks
    (or by what happens meanwhile) in pass [p]. *)
Definition undisturbed (p : nat) (l : list event) : Prop :=
  forall r l1 l2 l3,
    l = l3 ++ EEnd p r :: l2 ++ EBegin p r :: l1 ->
    ~ In (EEnd p r) l2 -> dropped l2 r = false.

(** The callbacks connected, when the pass started, to the reader objects that are not
    unbound, assigned to or destroyed before it ends. *)
Definition kept (w : list (nat * list nat)) (l : list event) : list nat :=
  flat_map snd (filter (fun x => negb (dropped l (fst x))) w).
Definition among (w : list nat) (c : nat) : bool := existsb (Nat.eqb c) w.

(** The reader object whose callbacks are being called has lost its slots: the events
    newest first. *)
Definition pulled_away (l : list event) : Prop :=
  (exists p r l1 l2, l = l2 ++ EBegin p r :: l1 /\ ~ In (EEnd p r) l2 /\ dropped l2 r = true) \/
  (exists r v l1 l2, l = l2 ++ EBind r v :: l1 /\ dropped l2 r = true).

(** Callbacks that do nothing to reader objects or nodes. *)
Definition silent1 (x : op) : Prop :=
  match x with Watch _ f | Bind _ f => forall l, f l = [] | _ => True end.
Definition silent : list op -> Prop := Forall silent1.

(** For programs of this kind, what happens to each reader object: the node it
    points to, the node whose changes its callbacks follow, its callbacks.  There are
    no lists of observers here. *)
Record object := O { at_node : option nat; follows : option nat; has : list nat }.
Definition world := list (option object).
Definition at_ (w : world) (r : nat) : option object := nth r w None.
Definition put (w : world) (r : nat) (o : option object) : world :=
  firstn r w ++ o :: skipn (S r) w.
(** The effect of one step; [k] callbacks were connected before. *)
Definition object_step (x : op) (wk : world * nat) : world * nat :=
  let (w, k) := wk in
  let node_of r := match at_ w r with Some o => at_node o | None => None end in
  match x with
  | New n => (w ++ [Some (O n None [])], k)
  | Copy r => (w ++ [Some (O (node_of r) None [])], k)
  | Move r =>
      (match at_ w r with
       | Some o => put w r (Some (O None (follows o) (has o))) ++ [Some (O (at_node o) None [])]
       | None => w
       end, k)
  | Assign r r' =>
      (match at_ w r with
       | Some o => put w r (Some (O (node_of r') (match has o with [] => None | _ => node_of r' end) (has o)))
       | None => w
       end, k)
  | MoveAssign r r' =>
      (match at_ w r, at_ w r' with
       | Some o, Some o' =>
           put (put w r' (Some (O None (follows o') (has o')))) r
             (Some (O (node_of r') (match has o with [] => None | _ => node_of r' end) (has o)))
       | _, _ => w
       end, k)
  | Watch r _ | Bind r _ =>
      (match at_ w r with
       | Some o =>
           put w r (Some (O (at_node o) (match has o with [] => at_node o | _ => follows o end) (has o ++ [k])))
       | None => w
       end, S k)
  | Unbind r => (match at_ w r with Some o => put w r (Some (O (at_node o) None [])) | None => w end, k)
  | Destroy r => (put w r None, k)
  | Notify _ _ | Nudge _ => (w, k)
  | Expire n =>
      (map (option_map (fun o =>
         match follows o with
         | Some m => if m =? n then O (at_node o) None (has o) else o
         | None => o
         end)) w, k)
  end.
Definition objects (l : list op) : world :=
  fst (fold_left (fun wk x => object_step x wk) l ([], 0)).

(** The value of node [n] after a program of this kind: what the last change set. *)
Definition latest (n : nat) (l : list op) (v : V) : V :=
  fold_left (fun u x => match x with Notify k w => if k =? n then w else u | _ => u end) l v.
(** A reader object that exists points to node [n]. *)
Definition pointed_to (n : nat) (w : world) : Prop :=
  exists r o, at_ w r = Some o /\ at_node o = Some n.
End Spec.
