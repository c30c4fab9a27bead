(** Model of reader objects and their callbacks
      /repo/lager/watch.hpp          (watchable_base)
      /repo/lager/detail/signal.hpp  (signal, forwarder)

    A reader object has a pointer to a node, and callbacks in the order in which they
    were connected.  It is itself a slot in the list of observers of a node, or of
    none.  The lists are boost::intrusive::list with auto_unlink hooks: a slot is in
    at most one list and leaves it when it is destroyed.

    Simplifications:
    - Reader objects, callbacks and nodes are numbers, given in order of creation
      for the first two.  What the nodes compute is the subject of the Nodes files:
      here a node's value changes by [Notify].
    - A node stays until [Expire], which is only allowed if no reader object points
      to it (they share ownership); other nodes may own it as well.
    - Callbacks do not throw.  What they do may depend on everything that happened
      before, given by the log. *)
From Coq Require Import List Arith Bool.
Import ListNotations.

Section Watch.
Variable V : Type.

(** What happens, for the statements and for the callbacks to act upon: pass [p] starts,
    in which a node notifies the reader objects [w] with the callbacks that they have
    then, or in which one is nudged; the pass begins and ends with the callbacks of [r];
    callback [c] is called in it; the pass ends; [bind] calls the callback it is given;
    the slot of [r] is taken out of its list, or would be if it was in one. *)
Inductive event :=
| EPass (p : nat) (w : list (nat * list nat))
| EBegin (p r : nat)
| ECall (p c : nat) (v : V)
| EEnd (p r : nat)
| EPassed (p : nat)
| EBind (r : nat) (v : V)
| EDrop (r : nat).

Inductive op :=
| New (n : option nat)                          (* a reader of node [n]; [None]: default constructed *)
| Copy (r : nat)                                (* watch.hpp:60-62 *)
| Move (r : nat)                                (* watch.hpp:64-66 *)
| Assign (r r' : nat)                           (* r = r', watch.hpp:68-75 *)
| MoveAssign (r r' : nat)                       (* r = std::move(r'), watch.hpp:77-84 *)
| Watch (r : nat) (f : list event -> list op)   (* watch.hpp:86-93 *)
| Bind (r : nat) (f : list event -> list op)    (* watch.hpp:95-100 *)
| Nudge (r : nat)                               (* watch.hpp:102 *)
| Unbind (r : nat)                              (* watch.hpp:104-108 *)
| Destroy (r : nat)
| Notify (n : nat) (v : V)                      (* the node changes and notifies its observers *)
| Expire (n : nat).                             (* the node is destroyed *)

Notation body := (list event -> list op).
(** conns_ and slots_ of the forwarder hold the same slots, in the same order. *)
Record robj := R { node : option nat; cbs : list (nat * body) }.
Record st := St {
  readers : list (option robj);                 (* [None]: destroyed *)
  obs : nat -> list nat;                        (* observers() of each node: reader objects *)
  value : nat -> V;                             (* last() of each node *)
  ncb : nat;
  log : list event }.                           (* newest first *)

Fixpoint set_nth {X} (n : nat) (x : X) (l : list X) : list X :=
  match l, n with
  | [], _ => []
  | _ :: r, 0 => x :: r
  | y :: r, S n' => y :: set_nth n' x r
  end.
Definition get (r : nat) (s : st) : option robj :=
  match nth_error (readers s) r with Some o => o | None => None end.
Definition set_obj (r : nat) (o : option robj) (s : st) : st :=
  St (set_nth r o (readers s)) (obs s) (value s) (ncb s) (log s).
Definition new_obj (o : robj) (s : st) : st :=
  St (readers s ++ [Some o]) (obs s) (value s) (ncb s) (log s).
Definition set_obs (f : nat -> list nat) (s : st) : st :=
  St (readers s) f (value s) (ncb s) (log s).
Definition set_value (n : nat) (v : V) (s : st) : st :=
  St (readers s) (obs s) (fun k => if k =? n then v else value s k) (ncb s) (log s).
Definition emit (e : event) (s : st) : st :=
  St (readers s) (obs s) (value s) (ncb s) (e :: log s).

(** unlink() of a hook in whichever list it is *)
Definition unlink (r : nat) (s : st) : st :=
  set_obs (fun n => filter (fun x => negb (x =? r)) (obs s n)) (emit (EDrop r) s).
(** signal::add, signal.hpp:71: push_back *)
Definition add (n r : nat) (s : st) : st :=
  set_obs (fun k => if k =? n then obs s k ++ [r] else obs s k) s.
(** The slot after [x]; [None]: [x] is not in the list.  (It is then in no list, or
    in another one: incrementing the iterator goes astray.) *)
Fixpoint after (x : nat) (l : list nat) : option (option nat) :=
  match l with
  | [] => None
  | y :: r => if y =? x then Some (hd_error r) else after x r
  end.
Definition find (c : nat) (l : list (nat * body)) : option body :=
  option_map snd (List.find (fun x => fst x =? c) l).

(** The callbacks of a reader object, and the reader objects that observe a node with
    their callbacks *)
Definition ids (s : st) (r : nat) : list nat :=
  match get r s with Some o => map fst (cbs o) | None => [] end.
Definition attached (s : st) (n : nat) : list (nat * list nat) :=
  map (fun r => (r, ids s r)) (obs s n).

Inductive cause :=
| NoNode                                        (* dereferences a null pointer to a node *)
| Astray.                                       (* uses a slot that is gone, or an iterator to it *)
Inductive res :=
| Done (s : st)
| Misuse                                        (* an object that does not exist, etc. *)
| Undefined (s : st) (why : cause)              (* undefined behaviour *)
| OutOfFuel.
Definition andthen (r : res) (k : st -> res) : res :=
  match r with Done s => k s | r => r end.

Inductive task :=
| TOps (l : list op)
| TPass (p n : nat) (r : option nat) (v : V)    (* the observers of [n] from [r] on *)
| TReader (p r : nat) (v : V)                   (* the callbacks of [r] *)
| TSlots (p r : nat) (c : option nat) (v : V).  (* the callbacks of [r] from [c] on *)

(** connect, signal.hpp:62-69, through watch.hpp:86-93 *)
Definition do_watch (r : nat) (f : body) (o : robj) (s : st) : st :=
  let s1 := match cbs o, node o with [], Some n => add n r s | _, _ => s end in
  let s2 := set_obj r (Some (R (node o) (cbs o ++ [(ncb s, f)]))) s1 in
  St (readers s2) (obs s2) (value s2) (S (ncb s2)) (log s2).
(** watch.hpp:68-75; [o] is the reader object with its new node *)
Definition relink (r : nat) (o : robj) (s : st) : st :=
  match cbs o, node o with _ :: _, Some n => add n r s | _, _ => s end.

Fixpoint exec (fuel : nat) (t : task) (s : st) : res :=
  match fuel with
  | 0 => OutOfFuel
  | S fl =>
    match t with
    | TOps [] => Done s
    | TOps (x :: l) =>
        let next s := exec fl (TOps l) s in
        match x with
        | New n => next (new_obj (R n []) s)
        | Copy r =>
            match get r s with Some o => next (new_obj (R (node o) []) s) | None => Misuse end
        | Move r =>
            match get r s with
            | Some o => next (new_obj (R (node o) []) (set_obj r (Some (R None (cbs o))) s))
            | None => Misuse
            end
        | Assign r r' =>
            match get r s, get r' s with
            | Some o, Some o' =>
                let x := R (node o') (cbs o) in
                next (relink r x (set_obj r (Some x) (unlink r s)))
            | _, _ => Misuse
            end
        | MoveAssign r r' =>
            match get r s, get r' s with
            | Some o, Some o' =>
                let x := R (node o') (cbs o) in
                (* of a shared_ptr moved to itself nothing is lost *)
                next (relink r x (set_obj r (Some x) (set_obj r' (Some (R None (cbs o'))) (unlink r s))))
            | _, _ => Misuse
            end
        | Watch r f =>
            match get r s with Some o => next (do_watch r f o s) | None => Misuse end
        | Bind r f =>
            match get r s with
            | Some o =>
                match node o with
                | None => Undefined s NoNode
                | Some n =>
                    let s0 := emit (EBind r (value s n)) s in
                    andthen (exec fl (TOps (f (log s0))) s0) (fun s1 =>
                    match get r s1 with
                    | Some o1 => next (do_watch r f o1 s1)
                    | None => Undefined s1 Astray
                    end)
                end
            | None => Misuse
            end
        | Nudge r =>
            match get r s with
            | Some o =>
                match node o with
                | None => Undefined s NoNode
                | Some n =>
                    let p := length (log s) in
                    andthen (exec fl (TReader p r (value s n)) (emit (EPass p [(r, ids s r)]) s)) (fun s1 =>
                    next (emit (EPassed p) (emit (EEnd p r) s1)))
                end
            | None => Misuse
            end
        | Unbind r =>
            match get r s with
            | Some o => next (set_obj r (Some (R (node o) [])) (unlink r s))
            | None => Misuse
            end
        | Destroy r =>
            match get r s with
            | Some _ => next (set_obj r None (unlink r s))
            | None => Misuse
            end
        | Notify n v =>
            let p := length (log s) in
            let s0 := emit (EPass p (attached s n)) (set_value n v s) in
            andthen (exec fl (TPass p n (hd_error (obs s n)) v) s0) (fun s1 =>
            next (emit (EPassed p) s1))
        | Expire n =>
            if existsb (fun o => match o with
                                 | Some (R (Some k) _) => k =? n
                                 | _ => false
                                 end) (readers s) then Misuse
            else next (fold_left (fun s r => unlink r s) (obs s n) s)
        end
    (* signal.hpp:73-78 *)
    | TPass p n None v => Done s
    | TPass p n (Some r) v =>
        andthen (exec fl (TReader p r v) s) (fun s1 =>
        match after r (obs s1 n) with
        | None => Undefined s1 Astray
        | Some r' => exec fl (TPass p n r' v) (emit (EEnd p r) s1)
        end)
    (* forwarder::operator(), signal.hpp:95-98 *)
    | TReader p r v =>
        let s0 := emit (EBegin p r) s in
        match get r s0 with
        | None => Undefined s0 Astray
        | Some o =>
            exec fl (TSlots p r (hd_error (map fst (cbs o))) v) s0
        end
    (* signal.hpp:73-78 for the forwarder's own signal *)
    | TSlots p r None v => Done s
    | TSlots p r (Some c) v =>
        match get r s with
        | None => Undefined s Astray
        | Some o =>
            match find c (cbs o) with
            | None => Undefined s Astray
            | Some f =>
                let s1 := emit (ECall p c v) s in
                andthen (exec fl (TOps (f (log s1))) s1) (fun s2 =>
                match get r s2 with
                | None => Undefined s2 Astray
                | Some o2 =>
                    match after c (map fst (cbs o2)) with
                    | None => Undefined s2 Astray
                    | Some c' => exec fl (TSlots p r c' v) s2
                    end
                end)
            end
        end
    end
  end.

Definition init (val : nat -> V) : st := St [] (fun _ => []) val 0 [].
End Watch.
Arguments EPass {V}. Arguments EBegin {V}. Arguments ECall {V}. Arguments EPassed {V}. Arguments ids {V}. Arguments attached {V}. Arguments EEnd {V}. Arguments EBind {V}. Arguments EDrop {V}. Arguments New {V}. Arguments Copy {V}. Arguments Move {V}. Arguments Assign {V}.
Arguments MoveAssign {V}. Arguments Watch {V}. Arguments Bind {V}. Arguments Nudge {V}. Arguments Unbind {V}.
Arguments Destroy {V}. Arguments Notify {V}. Arguments Expire {V}.
Arguments R {V}. Arguments node {V}. Arguments cbs {V}. Arguments St {V}. Arguments readers {V}. Arguments obs {V}.
Arguments value {V}. Arguments ncb {V}. Arguments log {V}. Arguments get {V}. Arguments set_obj {V}.
Arguments new_obj {V}. Arguments set_obs {V}. Arguments set_value {V}. Arguments emit {V}. Arguments unlink {V}.
Arguments add {V}. Arguments find {V}. Arguments Done {V}. Arguments Misuse {V}. Arguments Undefined {V}.
Arguments OutOfFuel {V}. Arguments andthen {V}. Arguments TOps {V}. Arguments TPass {V}. Arguments TReader {V}. Arguments TSlots {V}.
Arguments do_watch {V}. Arguments relink {V}. Arguments exec {V}. Arguments init {V}.
