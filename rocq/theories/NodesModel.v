(** Model of the reader/cursor node graph:
      /repo/lager/detail/nodes.hpp        (propagation, notification)
      /repo/lager/detail/lens_nodes.hpp   /repo/lager/detail/merge_nodes.hpp
      /repo/lager/detail/xform_nodes.hpp  /repo/lager/detail/signal.hpp
      /repo/lager/state.hpp  sensor.hpp  constant.hpp  setter.hpp  commit.hpp
      /repo/lager/writer.hpp reader.hpp  and the node part of store.hpp.

    Nodes are numbered in creation order.  All values live in one type [V]
    (C++ uses one type per node; the type discipline is not needed here).

    Client code is an arbitrary interactive program ([prog]): it issues API
    calls, reads the [get()] of any reader between calls, may throw and may
    catch.  Watcher callbacks and with_setter functions are such programs too,
    so every re-entrant use of the API is an execution of the model.

    Simplifications, all stated where they occur:
    - functions given to the library other than watchers and setters (lenses,
      transducers, sensors, update functions, ==) are pure and do not throw;
    - transducers in the writing direction keep no state;
    - one reader object holds one callback (watch.hpp is modelled in WatchModel);
    - shared_ptr/weak_ptr lifetimes are modelled by reachability. *)
From Coq Require Import List Arith Bool.
Import ListNotations.

Section Nodes.

Variable V : Type.                    (* values held by readers *)
Variable W : Type.                    (* outside world read by sensors *)
Variable dv : V.                      (* filler for unused table entries *)

(** nodes.hpp:103-113, has_changed: [!(a == b)], or [true] without [==]. *)
Variable changed : V -> V -> bool.

(** What client code can observe between API calls: [get()] of the readers it
    has an object for (reader.hpp:35, the node's [last()]), and the identity of
    objects it creates (number of nodes, next watcher id). *)
Record obs := Obs { o_cnt : nat; o_sid : nat; o_get : nat -> option V }.

(** How a cursor node writes, i.e. its [send_up] (when it is not a root):
    [UWrite rf f]: if [rf] call [refresh()] first, then for each tuple in
    [f (current values of the parents) value] call [push_up(tuple)].
    - lens_nodes.hpp:87-98: [UWrite true (fun ps v => [set lens ps v])]
    - merge_nodes.hpp:67-68: [UWrite false (fun _ v => [components of v])]
    - xform_nodes.hpp:109-117,140-141: [UWrite false (fun _ v => outputs of the
      stateless transducer for v)]; with the [update] transducer
      (with.hpp:60-68) it is [UWrite true ...]. *)
Inductive upk :=
| UNone
| UWrite (rf : bool) (f : list V -> V -> list (list V)).

Inductive prog :=
| PRet
| PThrow
| PDo (c : cmd) (k : obs -> prog)
| PTry (p : prog) (k : bool -> obs -> prog)   (* try { p } catch (...) {} ; k *)
with cmd :=
| CSet (n : nat) (v : V)                      (* cursor.set(v) *)
| CUpdate (n : nat) (f : V -> V)              (* cursor.update(f) *)
| CCommit (ns : list nat)                     (* lager::commit(roots...) *)
| CPush (n : nat) (v : V)                     (* store's push_down *)
| CNew (k : kind) (ps : list nat) (d : option V)  (* make a node, with parents *)
| CDrop (n : nat)                             (* destroy a reader object *)
| CWatch (n : nat) (cb : V -> obs -> prog)    (* new reader object + watch(cb) *)
| CUnwatch (n : nat) (sid : nat)              (* destroy such an object *)
| CWorld (w : W)                              (* the outside world changes *)
with kind :=
| KState (auto : bool)                        (* state.hpp:31-59 *)
| KSensor (f : W -> V)                        (* sensor.hpp:32-48 *)
| KConst                                      (* constant.hpp:30 *)
| KStore                                      (* store.hpp:31-60, the root node *)
| KInner (down : list V -> option V) (up : upk) (* stateless inner node *)
| KXform (step : list (list V) -> list V -> list V) (up : upk)
| KSetter (auto : bool) (fn : V -> obs -> prog). (* setter.hpp:25-74 *)

(** For [KInner down]: [down ps] is the value pushed by one [recompute] when
    the parents hold [ps]: always one for lenses (lens_nodes.hpp:63-66), merges
    (merge_nodes.hpp:52) and maps, possibly none for filters
    (xform_nodes.hpp:31-45,98-102).
    For [KXform step]: any other transducer, with state or pushing several
    values in one step; [step h ps] are the values pushed when the inputs of the
    previous steps were [h] (most recent first). *)

Definition slot : Type := (nat * (V -> obs -> prog))%type.

(** One node: nodes.hpp:258-263 (current_, last_, flags), 181-182 (observers_,
    children_), 288 (parents_), setter.hpp:32 (recomputed_). *)
Record node := Node {
  n_kind : kind;
  n_parents : list nat;
  n_children : list nat;      (* weak pointers, in link order *)
  n_cur : V;
  n_last : V;
  n_nsd : bool;               (* needs_send_down_ *)
  n_nn : bool;                (* needs_notify_ *)
  n_ntf : bool;               (* notifying_ *)
  n_rcp : bool;               (* recomputed_ (setter nodes) *)
  n_hist : list (list V);     (* transducer state (KXform nodes) *)
  n_held : nat;               (* reader objects without callback *)
  n_slots : list slot         (* reader objects with a callback *)
}.

Record graph := Graph {
  cnt : nat;
  nd : nat -> node;
  nexts : nat;                (* next watcher id *)
  pins : list nat;            (* nodes kept alive by local shared_ptrs *)
  world : W
}.

Definition dummy_node : node :=
  Node KConst [] [] dv dv false false false false [] 0 [].

Definition empty_graph (w : W) : graph := Graph 0 (fun _ => dummy_node) 0 [] w.

(** What is recorded of an execution:
    - [ECall]: a watcher is called with a value; [g] is the graph at that time;
    - [ESee]: client code runs (again) and may read any [get()] of the graph [g];
    - [EWatch]: a watcher is registered, [v] is [get()] at that time;
    - [EWrite]: a value is written to a state or store;
    - [ECommit]: propagation from the nodes [ns] starts (a commit, or the
      automatic propagation of [set()]); [w] is the outside world;
    - [ESend]: the visible value of a node is assigned;
    - [ENew]: a node is created with a value; [EThrow]: an exception starts;
    - [EEscape]: an exception leaves a watcher;
    - [ESetter]: a with_setter function is called with a value; [g] is the graph;
    - [ESample]: a commit evaluates the function of a sensor. *)
Inductive event :=
| ECall (n sid : nat) (v : V) (g : graph)
| ESee (g : graph)
| EWatch (n sid : nat) (v : V)
| EWrite (n : nat) (v : V)
| ECommit (ns : list nat) (w : W)
| ESend (n : nat) (v : V)
| ENew (n : nat) (v : V) (w : W)
| EThrow
| EEscape (n sid : nat)
| ESetter (n : nat) (v : V) (g : graph)
| ESample (n : nat) (v : V).

Record st := St { gr : graph; log : list event }.

Inductive res :=
| Done (s : st)
| Thrown (s : st)       (* an exception propagates *)
| UBuser                (* client broke a precondition (see uses below) *)
| UBlib                 (* the library itself would access freed memory *)
| OutOfFuel.

(** ** Accessors and updates *)
Definition upd (g : graph) (n : nat) (h : node -> node) : graph :=
  Graph (cnt g) (fun m => if m =? n then h (nd g m) else nd g m)
        (nexts g) (pins g) (world g).

Definition set_children x (a : node) :=
  Node (n_kind a) (n_parents a) x (n_cur a) (n_last a) (n_nsd a) (n_nn a)
       (n_ntf a) (n_rcp a) (n_hist a) (n_held a) (n_slots a).
Definition set_cur x (a : node) :=   (* current_ = x; needs_send_down_ = true *)
  Node (n_kind a) (n_parents a) (n_children a) x (n_last a) true (n_nn a)
       (n_ntf a) (n_rcp a) (n_hist a) (n_held a) (n_slots a).
Definition set_sent (a : node) :=    (* nodes.hpp:217-219 *)
  Node (n_kind a) (n_parents a) (n_children a) (n_cur a) (n_cur a) false true
       (n_ntf a) (n_rcp a) (n_hist a) (n_held a) (n_slots a).
Definition set_nn x (a : node) :=
  Node (n_kind a) (n_parents a) (n_children a) (n_cur a) (n_last a) (n_nsd a) x
       (n_ntf a) (n_rcp a) (n_hist a) (n_held a) (n_slots a).
Definition set_ntf x (a : node) :=
  Node (n_kind a) (n_parents a) (n_children a) (n_cur a) (n_last a) (n_nsd a)
       (n_nn a) x (n_rcp a) (n_hist a) (n_held a) (n_slots a).
Definition set_rcp x (a : node) :=
  Node (n_kind a) (n_parents a) (n_children a) (n_cur a) (n_last a) (n_nsd a)
       (n_nn a) (n_ntf a) x (n_hist a) (n_held a) (n_slots a).
Definition set_hist x (a : node) :=
  Node (n_kind a) (n_parents a) (n_children a) (n_cur a) (n_last a) (n_nsd a)
       (n_nn a) (n_ntf a) (n_rcp a) x (n_held a) (n_slots a).
Definition set_held x (a : node) :=
  Node (n_kind a) (n_parents a) (n_children a) (n_cur a) (n_last a) (n_nsd a)
       (n_nn a) (n_ntf a) (n_rcp a) (n_hist a) x (n_slots a).
Definition set_slots x (a : node) :=
  Node (n_kind a) (n_parents a) (n_children a) (n_cur a) (n_last a) (n_nsd a)
       (n_nn a) (n_ntf a) (n_rcp a) (n_hist a) (n_held a) x.

Definition set_pins (g : graph) (ps : list nat) : graph :=
  Graph (cnt g) (nd g) (nexts g) ps (world g).
Definition set_world (g : graph) (w : W) : graph :=
  Graph (cnt g) (nd g) (nexts g) (pins g) w.

Definition kind_of g n := n_kind (nd g n).
Definition parents g n := n_parents (nd g n).
Definition children g n := n_children (nd g n).
Definition cur g n := n_cur (nd g n).
Definition last g n := n_last (nd g n).
Definition nsd g n := n_nsd (nd g n).
Definition nn g n := n_nn (nd g n).
Definition ntf g n := n_ntf (nd g n).
Definition slots g n := n_slots (nd g n).

Definition mem (n : nat) (l : list nat) : bool := existsb (Nat.eqb n) l.

(** The client has a reader/cursor object on the node. *)
Definition handle (g : graph) (n : nat) : bool :=
  (n <? cnt g) &&
  ((0 <? n_held (nd g n)) || negb (match slots g n with [] => true | _ => false end)).

(** [n] is [m] or one of its ancestors. Each node owns its parents
    (nodes.hpp:288), parents are created before children. *)
Fixpoint ancb (fuel : nat) (g : graph) (n m : nat) : bool :=
  match fuel with
  | 0 => false
  | S f => (n =? m) || existsb (ancb f g n) (parents g m)
  end.

(** The node object exists: some reader object or local shared_ptr owns it or
    one of its descendants.  (Exact meaning of the reference counts, as the
    ownership graph is acyclic.)  [weak_ptr::lock] succeeds iff [alive]. *)
Definition alive (g : graph) (n : nat) : bool :=
  existsb (fun m => (handle g m || mem m (pins g)) && ancb (S m) g n m)
          (seq 0 (cnt g)).

Definition is_root (k : kind) : bool :=
  match k with KState _ | KSensor _ | KConst | KStore => true | _ => false end.

(** Order in which [noop(f(args)...)] evaluates its arguments is unspecified in
    C++ (nodes.hpp:298, 320-322): any order, possibly different at each call. *)
Variable ordV : graph -> nat -> list (nat * V) -> list (nat * V).
Variable ordN : graph -> nat -> list nat -> list nat.

(** ** Downward propagation *)

(** nodes.hpp:204-211 *)
Definition push_down (n : nat) (v : V) (g : graph) : graph :=
  if changed v (cur g n) then upd g n (set_cur v) else g.

(** Successive pushes by a transducer step, xform_nodes.hpp:31-45. *)
Definition push_all (n : nat) (vs : list V) (g : graph) : graph :=
  fold_left (fun g v => push_down n v g) vs g.

(** nodes.hpp:341-348 *)
Definition current_from (g : graph) (ps : list nat) : list V := map (cur g) ps.

(** [recompute()]: state.hpp:43 and constant.hpp:30 and store.hpp:43 (nothing),
    sensor.hpp:44, lens_nodes.hpp:63-66, merge_nodes.hpp:52,
    xform_nodes.hpp:98-102, setter.hpp:43-49. *)
Definition recompute (n : nat) (g : graph) : graph :=
  match kind_of g n with
  | KState _ | KConst | KStore => g
  | KSensor f => push_down n (f (world g)) g
  | KInner down _ =>
      match down (current_from g (parents g n)) with
      | Some v => push_down n v g
      | None => g
      end
  | KXform step _ =>
      let ps := current_from g (parents g n) in
      let h := n_hist (nd g n) in
      push_all n (step h ps) (upd g n (set_hist (ps :: h)))
  | KSetter _ _ =>
      if n_rcp (nd g n) then upd g n (set_rcp false)
      else match parents g n with
           | p :: _ => push_down n (cur g p) g
           | [] => g
           end
  end.

(** nodes.hpp:296-301 for inner nodes; roots (338) and setters (setter.hpp:51)
    do nothing.  Fuel: parents have smaller numbers, [S n] is always enough. *)
Fixpoint refresh (fuel : nat) (n : nat) (g : graph) : graph :=
  match fuel with
  | 0 => g
  | S f =>
      match kind_of g n with
      | KInner _ _ | KXform _ _ =>
          recompute n (fold_left (fun g p => refresh f p g)
                                 (ordN g n (parents g n)) g)
      | _ => g
      end
  end.

(** sensor.hpp:44: the recomputation of a sensor evaluates its function. *)
Definition sample (n : nat) (s : st) : list event :=
  match kind_of (gr s) n with
  | KSensor f => ESample n (f (world (gr s))) :: log s
  | _ => log s
  end.

(** nodes.hpp:213-226.  Fuel: children have larger numbers, [cnt] is enough. *)
Fixpoint send_down (fuel : nat) (n : nat) (s : st) : st :=
  match fuel with
  | 0 => s
  | S f =>
      let g1 := recompute n (gr s) in
      if nsd g1 n then
        let g2 := upd g1 n set_sent in
        fold_left (fun s c => if alive (gr s) c then send_down f c s else s)
                  (children g2 n)
                  (St g2 (ESend n (last g2 n) :: sample n s))
      else St g1 (sample n s)
  end.
Definition send_down_node (n : nat) (s : st) : st :=
  send_down (S (cnt (gr s))) n s.

(** nodes.hpp:164-171 *)
Definition collect (n : nat) (g : graph) : graph :=
  upd g n (set_children (filter (alive g) (children g n))).

(** ** Creating nodes *)

(** Initial value: roots get theirs; sensors sample (sensor.hpp:40);
    lens_nodes.hpp:56-61 and merge_nodes.hpp:48 compute it from the parents'
    current values; xform_nodes.hpp:47-63 runs the transducer once on a fresh
    copy and falls back to the default-constructed value [d], if any;
    setter.hpp:37-41 copies the parent's current value. *)
Definition initial (g : graph) (k : kind) (ps : list nat) (d : option V)
  : option V :=
  match k with
  | KState _ | KConst | KStore => d
  | KSensor f => Some (f (world g))
  | KInner down _ =>
      match down (current_from g ps) with Some v => Some v | None => d end
  | KXform step _ =>
      match rev (step [] (current_from g ps)) with v :: _ => Some v | [] => d end
  | KSetter _ _ => match ps with p :: _ => Some (cur g p) | [] => None end
  end.

Fixpoint nodupb (l : list nat) : bool :=
  match l with [] => true | x :: r => negb (mem x r) && nodupb r end.

Definition arity_ok (k : kind) (ps : list nat) : bool :=
  match k, ps with
  | KInner _ _, _ :: _ | KXform _ _, _ :: _ => true
  | KSetter _ _, [_] => true
  | KInner _ _, [] | KXform _ _, [] | KSetter _ _, _ => false
  | _, [] => true
  | _, _ :: _ => false
  end.

(** nodes.hpp:145-154 (link) and 350-355 (link_to_parents) *)
Definition link_to (n : nat) (ps : list nat) (g : graph) : graph :=
  fold_left (fun g p => upd g p (fun a => set_children (n_children a ++ [n]) a)) ps g.

Definition add_node (k : kind) (ps : list nat) (v : V) (g : graph) : graph :=
  let n := cnt g in
  link_to n ps
    (Graph (S n)
       (fun m => if m =? n
                 then Node k ps [] v v false false false false [] 1 []
                 else nd g m)
       (nexts g) (pins g) (world g)).

(** ** Execution *)
Inductive task :=
| TProg (p : prog)
| TCmd (c : cmd)
| TSend (n : nat) (v : V)                      (* node->send_up(v) *)
| TPushAll (n : nat) (vs : list (list V))      (* push_up of each tuple *)
| TPush (l : list (nat * V))                   (* the send_ups of one push_up *)
| TRoots (ns : list nat)                       (* notify_root of each *)
| TNotify (n : nat)                            (* node->notify() *)
| TSlots (n : nat) (from : nat)                (* observers()(last_) *)
| TKids (n i size : nat) (garbage old : bool). (* nodes.hpp:243-253 *)

Definition get_obs (s : st) : obs :=
  Obs (cnt (gr s)) (nexts (gr s))
      (fun n => if handle (gr s) n then Some (last (gr s) n) else None).
Definition with_gr (s : st) (f : graph -> graph) : st := St (f (gr s)) (log s).
Definition emit (e : event) (s : st) : st := St (gr s) (e :: log s).
Definition see (s : st) : st := emit (ESee (gr s)) s.
Definition ask (n : nat) (v : V) (s : st) : st := emit (ESetter n v (gr s)) s.

Definition andthen (r : res) (k : st -> res) : res :=
  match r with Done s => k s | _ => r end.
(** Destructors of local objects run on both exits. *)
Definition finally (r : res) (h : st -> st) : res :=
  match r with Done s => Done (h s) | Thrown s => Thrown (h s) | _ => r end.

Definition pin (n : nat) (s : st) : st :=
  with_gr s (fun g => set_pins g (n :: pins g)).
Definition unpin (s : st) : st :=
  with_gr s (fun g => set_pins g (tl (pins g))).

(** commit.hpp:43: [send_down_root] of each root. *)
Definition send_roots (ns : list nat) (s : st) : st :=
  fold_left (fun s n => send_down_node n s) ns
            (emit (ECommit ns (world (gr s))) s).

(** Node [n] was destroyed while it was notifying. Roots passed to [commit] (or
    [notify]) by reference are kept alive by the caller: destroying the last owner
    in a callback is the client's mistake.  Derived nodes are not: the parent's
    loop holds a reference while it notifies them (nodes.hpp:246, [lock()]). *)
Definition gone (n : nat) (s : st) : res :=
  if is_root (kind_of (gr s) n) then UBuser else UBlib.

(** Next element of the intrusive list: watcher ids increase along the list. *)
Definition next_slot (from : nat) (l : list slot) : option slot :=
  find (fun sl => from <=? fst sl) l.

Fixpoint exec (fuel : nat) (t : task) (s : st) : res :=
  match fuel with
  | 0 => OutOfFuel
  | S f =>
    match t with
    | TProg PRet => Done s
    | TProg PThrow => Thrown (emit EThrow s)
    | TProg (PDo c k) =>
        andthen (exec f (TCmd c) s)
                (fun s' => exec f (TProg (k (get_obs s'))) (see s'))
    | TProg (PTry p k) =>
        match exec f (TProg p) s with
        | Done s' => exec f (TProg (k true (get_obs s'))) (see s')
        | Thrown s' => exec f (TProg (k false (get_obs s'))) (see s')
        | r => r
        end

    (* writer.hpp:31-35; node_() (71-78) returns a shared_ptr copy *)
    | TCmd (CSet n v) =>
        if handle (gr s) n then finally (exec f (TSend n v) (pin n s)) unpin
        else UBuser
    (* writer.hpp:37-41 *)
    | TCmd (CUpdate n fn) =>
        if handle (gr s) n
        then finally (exec f (TSend n (fn (cur (gr s) n))) (pin n s)) unpin
        else UBuser
    (* commit.hpp:41-45 *)
    | TCmd (CCommit ns) =>
        if forallb (fun n => handle (gr s) n && is_root (kind_of (gr s) n)) ns
        then exec f (TRoots ns) (send_roots ns s)
        else UBuser
    (* store.hpp:163-166: the store pushes the reducer's result *)
    | TCmd (CPush n v) =>
        if handle (gr s) n
        then match kind_of (gr s) n with
             | KStore => Done (with_gr (emit (EWrite n v) s) (push_down n v))
             | _ => UBuser
             end
        else UBuser
    | TCmd (CNew k ps d) =>
        if forallb (handle (gr s)) ps && nodupb ps && arity_ok k ps
        then match initial (gr s) k ps d with
             | Some v => Done (with_gr (emit (ENew (cnt (gr s)) v (world (gr s))) s)
                                       (add_node k ps v))
             | None => Thrown (emit EThrow s)
             end
        else UBuser
    | TCmd (CDrop n) =>
        if (n <? cnt (gr s)) && (0 <? n_held (nd (gr s) n))
        then Done (with_gr s (fun g => upd g n (fun a => set_held (pred (n_held a)) a)))
        else UBuser
    (* watch.hpp:86-93, signal.hpp:62-69 *)
    | TCmd (CWatch n cb) =>
        if handle (gr s) n
        then
          let g := gr s in
          let g' := upd g n (fun a => set_slots (n_slots a ++ [(nexts g, cb)]) a) in
          Done (St (Graph (cnt g') (nd g') (S (nexts g)) (pins g') (world g'))
                   (EWatch n (nexts g) (last g n) :: log s))
        else UBuser
    (* destructor of a watching reader object: the slot unlinks itself *)
    | TCmd (CUnwatch n sid) =>
        if (n <? cnt (gr s)) && existsb (fun sl => fst sl =? sid) (slots (gr s) n)
        then Done (with_gr s (fun g => upd g n (fun a =>
               set_slots (filter (fun sl => negb (fst sl =? sid)) (n_slots a)) a)))
        else UBuser
    | TCmd (CWorld w) => Done (with_gr s (fun g => set_world g w))

    | TSend n v =>
        if alive (gr s) n then
        match kind_of (gr s) n with
        (* state.hpp:45-61 *)
        | KState auto =>
            let s1 := with_gr (emit (EWrite n v) s) (push_down n v) in
            if auto then exec f (TNotify n) (send_roots [n] s1) else Done s1
        (* setter.hpp:53-73 *)
        | KSetter auto fn =>
            andthen (exec f (TProg (fn v (get_obs s))) (ask n v s)) (fun s' =>
              let s1 := with_gr s' (push_down n v) in
              if auto then
                exec f (TNotify n)
                  (send_roots [n] (with_gr s1 (fun g => upd g n (set_rcp true))))
              else Done s1)
        (* lens_nodes.hpp:87-98, merge_nodes.hpp:67-68, xform_nodes.hpp:140-141 *)
        | KInner _ (UWrite rf up) | KXform _ (UWrite rf up) =>
            let s1 := if rf then with_gr s (refresh (S n) n) else s in
            exec f (TPushAll n (up (current_from (gr s1) (parents (gr s1) n)) v)) s1
        | _ => UBuser                     (* not a cursor: does not compile *)
        end
        else UBlib                        (* the node was destroyed *)
    | TPushAll n [] => Done s
    | TPushAll n (t :: ts) =>
        (* nodes.hpp:316-329 *)
        andthen (exec f (TPush (ordV (gr s) n (combine (parents (gr s) n) t))) s)
                (fun s' => exec f (TPushAll n ts) s')
    | TPush [] => Done s
    | TPush ((p, v) :: r) =>
        andthen (exec f (TSend p v) s) (fun s' => exec f (TPush r) s')

    | TRoots [] => Done s
    | TRoots (n :: r) =>
        (* the root object must still exist: it was passed by reference *)
        if handle (gr s) n
        then andthen (exec f (TNotify n) s) (fun s' => exec f (TRoots r) s')
        else UBuser

    (* nodes.hpp:228-255 *)
    | TNotify n =>
        if negb (alive (gr s) n) then UBlib    (* the node was destroyed *)
        else if nn (gr s) n && negb (nsd (gr s) n) then
          let old := ntf (gr s) n in
          let s1 := with_gr s (fun g => upd g n (fun a => set_ntf true (set_nn false a))) in
          let restore := fun s => with_gr s (fun g => upd g n (set_ntf old)) in
          match andthen (exec f (TSlots n 0) s1) (fun s2 =>
                  exec f (TKids n 0 (length (children (gr s2) n)) false old) s2) with
          | Done s3 => Done (restore s3)
          | Thrown s3 => if alive (gr s3) n then Thrown (restore s3) else gone n s3
          | r => r
          end
        else Done s
    (* signal.hpp:73-78; [last_] is passed by reference at each call *)
    | TSlots n from =>
        match next_slot from (slots (gr s) n) with
        | None => Done s
        | Some (sid, cb) =>
            let s1 := emit (ECall n sid (last (gr s) n) (gr s)) s in
            match exec f (TProg (cb (last (gr s) n) (get_obs s1))) s1 with
            | Done s2 =>
              (* the iterator sits on this slot, and the node must exist *)
              if alive (gr s2) n then
                if existsb (fun sl => fst sl =? sid) (slots (gr s2) n)
                then exec f (TSlots n (S sid)) s2
                else UBuser              (* disconnected by its own callback *)
              else gone n s2
            | Thrown s2 => Thrown (emit (EEscape n sid) s2)
            | r => r
            end
        end
    (* nodes.hpp:243-253 *)
    | TKids n i size garbage old =>
        if i <? size then
          match nth_error (children (gr s) n) i with
          | None => UBlib                (* children[i] past the end *)
          | Some c =>
              if alive (gr s) c then
                andthen (finally (exec f (TNotify c) (pin c s)) unpin) (fun s2 =>
                  if alive (gr s2) n then exec f (TKids n (S i) size garbage old) s2
                  else gone n s2)
              else exec f (TKids n (S i) size true old) s
          end
        else Done (if garbage && negb old then with_gr s (collect n) else s)
    end
  end.

Definition init_st (w : W) : st := St (empty_graph w) [].

(** A whole client program, from nothing. *)
Definition run (fuel : nat) (w : W) (p : prog) : res :=
  exec fuel (TProg p) (init_st w).

End Nodes.

Arguments Obs {V}. Arguments o_cnt {V}. Arguments o_sid {V}. Arguments o_get {V}.
Arguments UNone {V}. Arguments UWrite {V}.
Arguments PRet {V W}. Arguments PThrow {V W}. Arguments PDo {V W}. Arguments PTry {V W}.
Arguments CSet {V W}. Arguments CUpdate {V W}. Arguments CCommit {V W}.
Arguments CPush {V W}. Arguments CNew {V W}. Arguments CDrop {V W}.
Arguments CWatch {V W}. Arguments CUnwatch {V W}. Arguments CWorld {V W}.
Arguments KState {V W}. Arguments KSensor {V W}. Arguments KConst {V W}.
Arguments KStore {V W}. Arguments KInner {V W}. Arguments KXform {V W}.
Arguments KSetter {V W}.
Arguments Node {V W}. Arguments n_kind {V W}. Arguments n_parents {V W}.
Arguments n_children {V W}. Arguments n_cur {V W}. Arguments n_last {V W}.
Arguments n_nsd {V W}. Arguments n_nn {V W}. Arguments n_ntf {V W}.
Arguments n_rcp {V W}. Arguments n_hist {V W}. Arguments n_held {V W}.
Arguments n_slots {V W}.
Arguments Graph {V W}. Arguments cnt {V W}. Arguments nd {V W}.
Arguments nexts {V W}. Arguments pins {V W}. Arguments world {V W}.
Arguments ECall {V W}. Arguments EWatch {V W}. Arguments ESend {V W}.
Arguments ECommit {V W}. Arguments ENew {V W}. Arguments ESee {V W}.
Arguments EWrite {V W}. Arguments emit {V W}. Arguments see {V W}. Arguments send_roots {V W}. Arguments EThrow {V W}.
Arguments EEscape {V W}. Arguments ESetter {V W}. Arguments ESample {V W}.
Arguments sample {V W}. Arguments ask {V W}.
Arguments St {V W}. Arguments gr {V W}. Arguments log {V W}.
Arguments Done {V W}. Arguments Thrown {V W}. Arguments UBuser {V W}.
Arguments UBlib {V W}. Arguments OutOfFuel {V W}.
Arguments upd {V W}. Arguments set_children {V W}. Arguments set_cur {V W}.
Arguments set_sent {V W}. Arguments set_nn {V W}. Arguments set_ntf {V W}.
Arguments set_rcp {V W}. Arguments set_hist {V W}. Arguments set_held {V W}.
Arguments set_slots {V W}. Arguments set_pins {V W}. Arguments set_world {V W}.
Arguments kind_of {V W}. Arguments parents {V W}. Arguments children {V W}.
Arguments cur {V W}. Arguments last {V W}. Arguments nsd {V W}. Arguments nn {V W}.
Arguments ntf {V W}. Arguments slots {V W}. Arguments handle {V W}.
Arguments ancb {V W}. Arguments alive {V W}. Arguments is_root {V W}.
Arguments push_down {V W}. Arguments push_all {V W}. Arguments current_from {V W}.
Arguments recompute {V W}. Arguments refresh {V W}. Arguments send_down {V W}.
Arguments send_down_node {V W}. Arguments collect {V W}. Arguments initial {V W}.
Arguments arity_ok {V W}. Arguments link_to {V W}. Arguments add_node {V W}.
Arguments TProg {V W}. Arguments TCmd {V W}. Arguments TSend {V W}.
Arguments TPushAll {V W}. Arguments TPush {V W}. Arguments TRoots {V W}.
Arguments TNotify {V W}. Arguments TSlots {V W}. Arguments TKids {V W}.
Arguments get_obs {V W}. Arguments with_gr {V W}. Arguments andthen {V W}.
Arguments finally {V W}. Arguments pin {V W}. Arguments unpin {V W}.
Arguments next_slot {V W}. Arguments gone {V W}. Arguments exec {V W}. Arguments init_st {V W}.
Arguments run {V W}. Arguments empty_graph {V W}. Arguments dummy_node {V W}.
