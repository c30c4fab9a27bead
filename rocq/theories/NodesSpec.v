(** Vocabulary for stating properties of the reader/cursor graph.
    Everything here is about what client code does (the log of writes, commits,
    creations) and what it can see ([get()], i.e. [last]). It does not mention
    the flags or the algorithms of the library. *)
From Coq Require Import List Arith Bool.
From Verif Require Import NodesModel.
Import ListNotations.

Section Spec.
Context {V W : Type}.
Implicit Types g : graph V W.
Implicit Types l : list (event V W).          (* newest event first *)

(** Ancestors: the readers a reader is derived from, transitively. *)
Inductive source g : nat -> nat -> Prop :=
| source_refl n : source g n n
| source_step a p n : source g a p -> In p (parents g n) -> source g a n.

(** Derived only through stateless derivations (lenses, merges, maps, filters)
    from states, stores, sensors and constants. *)
Inductive plain g : nat -> Prop :=
| plain_root n : is_root (kind_of g n) = true -> plain g n
| plain_inner n down up : kind_of g n = KInner down up ->
    (forall p, In p (parents g n) -> plain g p) -> plain g n.

(** Last value written to a root (or the initial one). *)
Fixpoint written l (r : nat) : option V :=
  match l with
  | [] => None
  | EWrite n v :: l' => if n =? r then Some v else written l' r
  | ENew n v _ :: l' => if n =? r then Some v else written l' r
  | _ :: l' => written l' r
  end.

(** Value of a root at its last commit (or the initial one). *)
Fixpoint committed l (r : nat) : option V :=
  match l with
  | [] => None
  | ECommit ns _ :: l' => if mem r ns then written l' r else committed l' r
  | ENew n v _ :: l' => if n =? r then Some v else committed l' r
  | _ :: l' => committed l' r
  end.

(** Sample of a sensor with function [f] at its last commit (or creation). *)
Fixpoint sampled (f : W -> V) l (r : nat) : option V :=
  match l with
  | [] => None
  | ECommit ns w :: l' => if mem r ns then Some (f w) else sampled f l' r
  | ENew n _ w :: l' => if n =? r then Some (f w) else sampled f l' r
  | _ :: l' => sampled f l' r
  end.

(** The root was written after its last commit. *)
Fixpoint uncommitted l (r : nat) : bool :=
  match l with
  | [] => false
  | EWrite n _ :: l' => if n =? r then true else uncommitted l' r
  | ECommit ns _ :: l' => if mem r ns then false else uncommitted l' r
  | ENew n _ _ :: l' => if n =? r then false else uncommitted l' r
  | _ :: l' => uncommitted l' r
  end.

(** No root that [m] derives from has uncommitted writes. *)
Definition clean g l (m : nat) : Prop :=
  forall r, source g r m -> is_root (kind_of g r) = true -> uncommitted l r = false.

(** [get()] of [m] is its derivation applied to [get()] of its sources. *)
Definition agrees g (m : nat) : Prop :=
  forall down up v, kind_of g m = KInner down up ->
    down (map (last g) (parents g m)) = Some v -> last g m = v.

(** The value a reader ought to have, from the committed values only. *)
Inductive denotes g l : nat -> V -> Prop :=
| den_state r v : (match kind_of g r with KState _ | KStore | KConst => True | _ => False end) ->
    committed l r = Some v -> denotes g l r v
| den_sensor r f v : kind_of g r = KSensor f -> sampled f l r = Some v -> denotes g l r v
| den_inner m down up vs v : kind_of g m = KInner down up ->
    Forall2 (denotes g l) (parents g m) vs -> down vs = Some v -> denotes g l m v.

(** Graphs seen by client code: when a callback starts, and after every API call. *)
Definition snap (e : event V W) : option (graph V W) :=
  match e with ECall _ _ _ g => Some g | ESee g => Some g | ESetter _ _ g => Some g | _ => None end.

(** Value last received by watcher [sid] of [n] (or [get()] when it was connected). *)
Fixpoint seen l (n sid : nat) : option V :=
  match l with
  | [] => None
  | ECall m i v _ :: l' => if (m =? n) && (i =? sid) then Some v else seen l' n sid
  | EWatch m i v :: l' => if (m =? n) && (i =? sid) then Some v else seen l' n sid
  | _ :: l' => seen l' n sid
  end.

(** Number of calls of watcher [sid] of [n]. *)
Fixpoint calls l (n sid : nat) : nat :=
  match l with
  | [] => 0
  | ECall m i _ _ :: l' => (if (m =? n) && (i =? sid) then 1 else 0) + calls l' n sid
  | _ :: l' => calls l' n sid
  end.

(** Number of propagations started: commits, and [set()] on automatic states and
    automatic with_setter cursors. *)
Fixpoint propagations l : nat :=
  match l with
  | [] => 0
  | ECommit _ _ :: l' => S (propagations l')
  | _ :: l' => propagations l'
  end.

(** Number of times the visible value of [n] was assigned. *)
Fixpoint assigned l (n : nat) : nat :=
  match l with
  | [] => 0
  | ESend m _ :: l' => (if m =? n then 1 else 0) + assigned l' n
  | _ :: l' => assigned l' n
  end.

(** Values obtained by evaluating the function of sensor [n], newest first. *)
Fixpoint samples l (n : nat) : list V :=
  match l with
  | [] => []
  | ESample m v :: l' => if m =? n then v :: samples l' n else samples l' n
  | _ :: l' => samples l' n
  end.

(** An exception left some watcher. *)
Definition escapes l : bool :=
  existsb (fun e => match e with EEscape _ _ => true | _ => false end) l.

(** States in which client code runs during the execution [r]: when a watcher
    starts, or after an API call returned. *)
Definition moment (r : res V W) (s : st V W) : Prop :=
  exists s', (r = Done s' \/ r = Thrown s') /\
  exists l1 e l2, log s' = l1 ++ e :: l2 /\ snap e = Some (gr s) /\ log s = e :: l2.

(** The call returned or threw. *)
Definition finished (r : res V W) (s : st V W) : Prop := r = Done s \/ r = Thrown s.

(** Everything client code gets to see of an execution. *)
Definition visible (r : res V W) (s : st V W) : Prop := moment r s \/ finished r s.

(** The same graph, with callbacks that do nothing. *)
Definition mute (s : st V W) : st V W :=
  St (Graph (cnt (gr s))
            (fun n => set_slots (map (fun sl => (fst sl, fun _ _ => PRet)) (slots (gr s) n))
                                (nd (gr s) n))
            (nexts (gr s)) (pins (gr s)) (world (gr s)))
     (log s).

(** ** Writing *)

(** Values written to [r], newest first. *)
Fixpoint writes l (r : nat) : list V :=
  match l with
  | [] => []
  | EWrite m v :: l' => if m =? r then v :: writes l' r else writes l' r
  | _ :: l' => writes l' r
  end.

(** Cursors over transactional states only (and not through with_setter). *)
Definition transactional g (n : nat) : Prop :=
  forall r, source g r n ->
    match kind_of g r with KState true | KSetter _ _ => False | _ => True end.

(** Programs that only call [set] and [update] on such cursors. *)
Inductive only_writes g : prog V W -> Prop :=
| ow_ret : only_writes g PRet
| ow_throw : only_writes g PThrow
| ow_set n v k : transactional g n -> (forall o, only_writes g (k o)) ->
    only_writes g (PDo (CSet n v) k)
| ow_update n f k : transactional g n -> (forall o, only_writes g (k o)) ->
    only_writes g (PDo (CUpdate n f) k)
| ow_try p k : only_writes g p -> (forall b o, only_writes g (k b o)) ->
    only_writes g (PTry p k).

(** Nothing that readers or watchers could notice. *)
Definition invisible (e : event V W) : Prop :=
  match e with EWrite _ _ | ESee _ | EThrow => True | _ => False end.

(** [n] is a cursor zoomed from [p] with the lens [vw]/[st]. *)
Definition lens_node g (n p : nat) (vw : V -> V) (st : V -> V -> V) : Prop :=
  exists down up, kind_of g n = KInner down (UWrite true up) /\ parents g n = [p] /\
    (forall x, down [x] = Some (vw x)) /\ (forall x v, up [x] v = [[st x v]]).

(** [n] is obtained from [r] through a chain of zooms; [gv]/[gs] is the composed lens. *)
Inductive chain g (r : nat) : nat -> (V -> V) -> (V -> V -> V) -> Prop :=
| chain_here : chain g r r (fun x => x) (fun _ v => v)
| chain_zoom p n gv gs vw st : chain g r p gv gs -> lens_node g n p vw st ->
    chain g r n (fun x => vw (gv x)) (fun x v => gs x (st (gv x) v)).

Definition lawful (vw : V -> V) (st : V -> V -> V) : Prop :=
  (forall x v, vw (st x v) = v) /\ (forall x, st x (vw x) = x) /\
  (forall x v v', st (st x v) v' = st x v').

(** A transaction: several [set] calls in a row. *)
Fixpoint set_all (l : list (nat * V)) : prog V W :=
  match l with
  | [] => PRet
  | (n, v) :: r => PDo (CSet n v) (fun _ => set_all r)
  end.

(** Several [update] calls in a row on one cursor. *)
Fixpoint update_all (n : nat) (l : list (V -> V)) : prog V W :=
  match l with
  | [] => PRet
  | f :: r => PDo (CUpdate n f) (fun _ => update_all n r)
  end.

(** [n] is the cursor [with(ps...)]; [comps] takes a value apart. *)
Definition merge_node g (n : nat) (comps : V -> list V) : Prop :=
  exists down up, kind_of g n = KInner down (UWrite false up) /\
    forall ps v, up ps v = [comps v].

End Spec.
