(** What a chain of method calls on [with(...)] means, step by step, and what
    writing to a cursor does to the states it is made from. *)
From Coq Require Import List Arith Bool Permutation.
From Verif Require Import NodesModel NodesSpec WithModel.
Import ListNotations.

Section Spec.
Context {V W : Type}.
Variable tup : list V -> V.
Notation op := (@op V).

(** ** One step, and a chain of steps with a reader after each *)
Definition read1 (o : op) (xs : list V) : option V :=
  match o with
  | OXform x | OXform2 x _ => option_map (tuplify tup) (x xs)
  | OZoom l => Some (l_view l (tuplify tup xs))
  end.
Fixpoint reads (os : list op) (x : V) : option V :=
  match os with
  | [] => Some x
  | o :: r => match read1 o [x] with Some y => reads r y | None => None end
  end.
Definition chain_reads (os : list op) (xs : list V) : option V :=
  match os with
  | [] => Some (tuplify tup xs)
  | o :: r => match read1 o xs with Some y => reads r y | None => None end
  end.

(** The new value of the whole when [v] is written at the end of the chain. *)
Definition write1 (o : op) (xs : list V) (v : V) : option V :=
  match o with
  | OXform _ => None
  | OXform2 _ w => w_run w xs v
  | OZoom l => Some (l_set l (tuplify tup xs) v)
  end.
Fixpoint chain_writes (os : list op) (xs : list V) (v : V) : option V :=
  match os with
  | [] => Some v
  | o :: r => match read1 o xs with
              | Some y => match chain_writes r [y] v with
                          | Some u => write1 o xs u
                          | None => None
                          end
              | None => None
              end
  end.

(** ** Which chains *)

(** A transducer hands on one value when it gets one. *)
Definition keeps_one (x : @xf V) : Prop :=
  forall a ys, x [a] = Some ys -> exists y, ys = [y].
(** A transducer hands on one value whatever it gets ([map]; not [filter] of several). *)
Definition gives_one (x : @xf V) : Prop :=
  forall xs ys, x xs = Some ys -> exists y, ys = [y].
Definition op_keeps (o : op) : Prop :=
  match o with OXform x | OXform2 x _ => keeps_one x | OZoom _ => True end.
Definition op_gives (o : op) : Prop :=
  match o with OXform x | OXform2 x _ => gives_one x | OZoom _ => True end.
(** All steps can be done one after another: with several sources the first step
    makes one value of them. *)
Definition steps_fit (ns : list nat) (os : list op) : Prop :=
  Forall op_keeps os /\
  (length ns = 1 \/ match os with o :: _ => op_gives o | [] => True end).

(** A writing transducer that does not look at the sources (no [update]). *)
Definition w_ignores (w : @wxf V) : Prop := forall a b v, w_run w a v = w_run w b v.
(** Steps that keep a cursor: two-way transducers that never reject what they read, and
    zooms.  A writing transducer that looks at the sources has them read again. *)
Definition op_writes (o : op) : Prop :=
  match o with
  | OXform _ => False
  | OXform2 x w => (forall xs, x xs <> None) /\ (w_ref w = true \/ w_ignores w)
  | OZoom _ => True
  end.
(** No step with [update] directly follows another two-way transducer. [after]: one
    comes before the first. *)
Fixpoint apart (after : bool) (os : list (op * bool)) : Prop :=
  match os with
  | [] => True
  | (OXform2 _ w, cut) :: r => (after = true -> w_ignores w) /\ apart (negb cut) r
  | (_, _) :: r => apart false r
  end.

(** ** What clients write *)
Notation rt := (@rt V).
Notation wt := (@wt V).
Notation call := (@call V).

(** A two-way transducer called on what a one-way transducer gave, with no reader made
    in between: there is no such method. *)
Definition plain_call (oc : op * bool) : Prop :=
  snd oc = false /\ match fst oc with OXform2 _ _ => False | _ => True end.
Definition no_method (os : list (op * bool)) : Prop :=
  exists a x m y w c b,
    os = a ++ (OXform x, false) :: m ++ (OXform2 y w, c) :: b /\ Forall plain_call m.

(** What a transducer passes on of what it reads. *)
Inductive passes : rt -> list V -> list V -> Prop :=
| passes_map f xs : passes (RMap f) xs [f xs]
| passes_filter p xs : p xs = true -> passes (RFilter p) xs xs
| passes_then a b xs ys zs : passes a xs ys -> passes b ys zs -> passes (RThen a b) xs zs.
(** What is written when [v] is set and the source has the value [x] at that time. *)
Inductive gives (x : V) : wt -> V -> V -> Prop :=
| gives_map f v : gives x (WMap f) v (f v)
| gives_filter p v : p v = true -> gives x (WFilter p) v v
| gives_update u v : gives x (WUpdate u) v (u x v)
| gives_then a b v w z : gives x a v w -> gives x b w z -> gives x (WThen a b) v z.
(** What the reader made by a call shows of the sources' values, if anything. *)
Inductive call_reads : call -> list V -> V -> Prop :=
| reads_map f xs : call_reads (CMap f) xs (f xs)
| reads_map2 f g xs : call_reads (CMap2 f g) xs (f xs)
| reads_filter p xs : p xs = true -> call_reads (CFilter p) xs (tuplify tup xs)
| reads_filter2 p q xs : p xs = true -> call_reads (CFilter2 p q) xs (tuplify tup xs)
| reads_xform t xs ys : passes t xs ys -> call_reads (CXform t) xs (tuplify tup ys)
| reads_xform2 t w xs ys : passes t xs ys -> call_reads (CXform2 t w) xs (tuplify tup ys)
| reads_zoom l xs : call_reads (CZoom l) xs (l_view l (tuplify tup xs)).
(** What the cursor made by a call writes to the source, or the tuple of sources. *)
Inductive call_writes : call -> list V -> V -> V -> Prop :=
| writes_map2 f g xs v : call_writes (CMap2 f g) xs v (g v)
| writes_filter2 p q xs v : q v = true -> call_writes (CFilter2 p q) xs v v
| writes_xform2 t w xs v u : gives (tuplify tup xs) w v u -> call_writes (CXform2 t w) xs v u
| writes_zoom l xs v : call_writes (CZoom l) xs v (l_set l (tuplify tup xs) v).
Fixpoint updates (w : wt) : Prop :=
  match w with WUpdate _ => True | WThen a b => updates a \/ updates b | _ => False end.
(** Two-way calls that never reject what they read. *)
Fixpoint accepts_all (t : rt) : Prop :=
  match t with RMap _ => True | RFilter p => forall xs, p xs = true | RThen a b => accepts_all a /\ accepts_all b end.
Definition two_way (c : call) : Prop :=
  match c with
  | CMap2 _ _ | CZoom _ => True
  | CFilter2 p _ => forall xs, p xs = true
  | CXform2 t _ => accepts_all t
  | _ => False
  end.
(** No call with [update] directly follows another two-way transducer. *)
Fixpoint updates_first (after : bool) (cs : list (call * bool)) : Prop :=
  match cs with
  | [] => True
  | (CXform2 _ w, cut) :: r => (after = true -> ~ updates w) /\ updates_first (negb cut) r
  | (CMap2 _ _, cut) :: r | (CFilter2 _ _, cut) :: r => updates_first (negb cut) r
  | (_, _) :: r => updates_first false r
  end.

(** ** The nodes of a chain are in the graph, numbered from [next] *)
Definition built (g : graph V W) (next : nat) (ks : list (kind V W * list nat)) : Prop :=
  forall i k ps, nth_error ks i = Some (k, ps) ->
    kind_of g (next + i) = k /\ parents g (next + i) = ps.

(** ** Writing, seen from the states *)

(** Value of [n] when the states hold [env], committed or not. *)
Inductive value_of (g : graph V W) (env : nat -> V) : nat -> V -> Prop :=
| val_state r a : kind_of g r = KState a -> value_of g env r (env r)
| val_inner n down up vs v : kind_of g n = KInner down up ->
    Forall2 (value_of g env) (parents g n) vs -> down vs = Some v -> value_of g env n v.

(** [puts g env l ws]: writing the values [l], one after the other, to cursors
    can write [ws] to the states, in this order.  A cursor made from several
    others writes to them in any order. *)
Inductive puts (g : graph V W) : (nat -> V) -> list (nat * V) -> list (nat * V) -> Prop :=
| puts_nil env : puts g env [] []
| puts_state env env' r v t ws : kind_of g r = KState false ->
    (forall m, env' m = if m =? r then v else env m) ->
    puts g env' t ws -> puts g env ((r, v) :: t) ((r, v) :: ws)
| puts_inner env n v t down rf up vs ls ws :
    kind_of g n = KInner down (UWrite rf up) ->
    Forall2 (value_of g env) (parents g n) vs ->
    Forall2 (fun o l => Permutation (combine (parents g n) o) l) (up vs v) ls ->
    puts g env (concat ls ++ t) ws -> puts g env ((n, v) :: t) ws.

(** Cursors over transactional states, through total derivations; what is
    written up depends on the sources only if they are read again first. *)
Definition writable (g : graph V W) (n : nat) : Prop :=
  forall m, source g m n ->
    match kind_of g m with
    | KState false => True
    | KInner down (UWrite rf up) =>
        (forall vs, down vs <> None) /\ (rf = true \/ forall a b v, up a v = up b v)
    | _ => False
    end.

(** Writes, as logged. *)
Definition logged (ws : list (nat * V)) : list (event V W) :=
  rev (map (fun rv => EWrite (fst rv) (snd rv)) ws).
End Spec.
