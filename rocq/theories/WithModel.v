(** The expression builder [with(...)]: lager/with.hpp.

    Values of several sources are passed as a list.  [tup]/[untup] stand for
    making and taking apart a std::tuple.  Transducers are those of [xform_mixin]
    (with.hpp:73-99), [zug::map] and [zug::filter]; they give at most one output.

    Simplifications: an expression is consumed when it is used ([&&] methods),
    so it is just a value here; [operator[]] (with.hpp:167-173) is [zoom] with the
    lens chosen by smart_lens; [setter] (213-218) is [make] followed by
    with_setter; writer-only expressions are like cursors without reading. *)
From Coq Require Import List Arith Bool.
From Verif Require Import NodesModel.
Import ListNotations.

Section With.
Context {V W : Type}.
Variable tup : list V -> V.
Variable untup : V -> list V.
(** Default-constructed value of a node's type, if it has one. *)
Variable d : option V.

(** zug::tuplify: one value is not wrapped. *)
Definition tuplify (xs : list V) : V := match xs with [x] => x | _ => tup xs end.
(** nodes.hpp:316-333: push_up gives each parent its component; the only parent
    gets the whole. *)
Definition parts (ps : list nat) (v : V) : list V :=
  match ps with [_] => [v] | _ => untup v end.

(** Transducers used for reading: what is passed on, if anything. *)
Definition xf := list V -> option (list V).
Definition x_map (f : list V -> V) : xf := fun xs => Some [f xs].
Definition x_filter (p : list V -> bool) : xf := fun xs => if p xs then Some xs else None.
(** zug::comp(a, b): values go through [a] first. *)
Definition x_comp (a b : xf) : xf := fun xs => match a xs with Some ys => b ys | None => None end.

(** Transducers used for writing; [update] (60-68) reads the parents again, and
    its function gets their values. [w_ref]: contains an [update]. (Simplified:
    the parents are then read again even if a filter before it rejects.) *)
Record wxf := Wxf { w_ref : bool; w_run : list V -> V -> option V }.
Definition w_map (f : V -> V) : wxf := Wxf false (fun _ v => Some (f v)).
Definition w_filter (p : V -> bool) : wxf := Wxf false (fun _ v => if p v then Some v else None).
Definition w_update (u : V -> V -> V) : wxf := Wxf true (fun ps v => Some (u (tuplify ps) v)).
Definition w_comp (a b : wxf) : wxf :=
  Wxf (w_ref a || w_ref b)
      (fun ps v => match w_run a ps v with Some u => w_run b ps u | None => None end).

Record lens := Lens { l_view : V -> V; l_set : V -> V -> V }.
(** [view] and [set] (lenses.hpp:71-87) of zug::comp(a, b): first [a], then [b] in
    its part (proved of the functor encoding in LensProps, C31). *)
Definition l_comp (a b : lens) : lens :=
  Lens (fun x => l_view b (l_view a x)) (fun x v => l_set a x (l_set b (l_view a x) v)).

(** The four kinds of expressions; [rd]: the result is a reader, not a cursor. *)
Inductive expr :=
| EWith (rd : bool) (ns : list nat)                        (* 231-275 *)
| EXform (x : xf) (ns : list nat)                          (* 277-315 *)
| EWxform (rd : bool) (x : xf) (w : wxf) (ns : list nat)   (* 316-374 *)
| ELens (rd : bool) (l : lens) (ns : list nat).            (* 375-430 *)

Definition x_node (x : xf) (up : upk V) : kind V W :=      (* xform_nodes.hpp:69-103 *)
  KInner (fun xs => option_map tuplify (x xs)) up.

(** [make_node_] (220-228) and the [make_reader_node_]/[make_cursor_node_] of
    each expression: kind and parents of the new node. *)
Definition make_node (e : expr) : kind V W * list nat :=
  match e with
  | EWith rd ns =>                                         (* 241-249, merge_nodes.hpp *)
      (KInner (fun xs => Some (tuplify xs))
              (if rd then UNone else UWrite false (fun _ v => [parts ns v])), ns)
  | EXform x ns => (x_node x UNone, ns)                    (* 288-291 *)
  | EWxform rd x w ns =>                                   (* 332-341, xform_nodes.hpp:123-142 *)
      (x_node x (if rd then UNone
                 else UWrite (w_ref w) (fun ps v => match w_run w ps v with
                                                    | Some u => [parts ns u]
                                                    | None => [] end)), ns)
  | ELens rd l ns =>                                       (* 387-396, lens_nodes.hpp *)
      (KInner (fun xs => Some (l_view l (tuplify xs)))
              (if rd then UNone
               else UWrite true (fun ps v => [parts ns (l_set l (tuplify ps) v)])), ns)
  end.

Definition is_reader (e : expr) : bool :=
  match e with EWith rd _ | EWxform rd _ _ _ | ELens rd _ _ => rd | EXform _ _ => true end.

(** Steps of a chain. *)
Inductive op :=
| OXform (x : xf)                 (* .xform(x), .map(f), .filter(p) *)
| OXform2 (x : xf) (w : wxf)      (* .xform(x, w), .map(f, g), .filter(p, q) *)
| OZoom (l : lens).               (* .zoom(l), [key] *)

Definition x_view (l : lens) : xf := x_map (fun xs => l_view l (tuplify xs)).

(** One method call.  [next]: number of the next node.  Gives the nodes made by
    it and the new expression; None: there is no such method. *)
Definition apply_op (next : nat) (e : expr) (o : op)
  : option (list (kind V W * list nat) * expr) :=
  match e, o with
  | EWith _ ns, OXform x => Some ([], EXform x ns)                         (* 256-260 *)
  | EWith rd ns, OXform2 x w => Some ([], EWxform rd x w ns)               (* 262-267 *)
  | EWith rd ns, OZoom l => Some ([], ELens rd l ns)                       (* 269-274 *)
  | EXform x ns, OXform y => Some ([], EXform (x_comp x y) ns)             (* 300-305 *)
  | EXform x ns, OXform2 _ _ => None
  | EXform x ns, OZoom l => Some ([], EXform (x_comp x (x_view l)) ns)     (* 307-313 *)
  | EWxform _ x _ ns, OXform y => Some ([], EXform (x_comp x y) ns)        (* 351-357 *)
  | EWxform rd x w ns, OXform2 y w' =>                                     (* 359-366 *)
      Some ([], EWxform rd (x_comp x y) (w_comp w' w) ns)
  | EWxform rd x w ns, OZoom l => Some ([make_node e], ELens rd l [next])  (* 368-372 *)
  | ELens _ l ns, OXform y => Some ([], EXform (x_comp (x_view l) y) ns)   (* 404-413 *)
  | ELens rd l ns, OXform2 x w => Some ([make_node e], EWxform rd x w [next]) (* 415-420 *)
  | ELens rd l ns, OZoom l' => Some ([], ELens rd (l_comp l l') ns)        (* 422-428 *)
  end.

(** A chain of method calls.  The flag of a step says whether the client then
    makes a reader or cursor of the expression and goes on from that one:
    reader.hpp:45-55 and writer.hpp:49-60 call [with] on it. *)
Fixpoint chain_nodes (next : nat) (e : expr) (os : list (op * bool))
  : option (list (kind V W * list nat)) :=
  match os with
  | [] => Some [make_node e]
  | (o, cut) :: r =>
      match apply_op next e o with
      | None => None
      | Some (ks, e') =>
          if cut then
            match chain_nodes (next + length ks + 1) (EWith (is_reader e') [next + length ks]) r with
            | Some rest => Some (ks ++ make_node e' :: rest)
            | None => None
            end
          else
            match chain_nodes (next + length ks) e' r with
            | Some rest => Some (ks ++ rest)
            | None => None
            end
      end
  end.

(** Transducers as clients write them: zug::map, zug::filter, zug::comp, and for writing
    also [update] (with.hpp:60-68). *)
Inductive rt := RMap (f : list V -> V) | RFilter (p : list V -> bool) | RThen (a b : rt).
Fixpoint rt_run (t : rt) : xf :=
  match t with RMap f => x_map f | RFilter p => x_filter p | RThen a b => x_comp (rt_run a) (rt_run b) end.
Inductive wt := WMap (f : V -> V) | WFilter (p : V -> bool) | WUpdate (u : V -> V -> V) | WThen (a b : wt).
Fixpoint wt_run (t : wt) : wxf :=
  match t with
  | WMap f => w_map f
  | WFilter p => w_filter p
  | WUpdate u => w_update u
  | WThen a b => w_comp (wt_run a) (wt_run b)
  end.
(** Method calls: xform_mixin (with.hpp:73-99) makes [xform] of [map] and [filter]. *)
Inductive call :=
| CMap (f : list V -> V)
| CMap2 (f : list V -> V) (g : V -> V)
| CFilter (p : list V -> bool)
| CFilter2 (p : list V -> bool) (q : V -> bool)
| CXform (t : rt)
| CXform2 (t : rt) (w : wt)
| CZoom (l : lens).
Definition call_op (c : call) : op :=
  match c with
  | CMap f => OXform (x_map f)
  | CMap2 f g => OXform2 (x_map f) (w_map g)
  | CFilter p => OXform (x_filter p)
  | CFilter2 p q => OXform2 (x_filter p) (w_filter q)
  | CXform t => OXform (rt_run t)
  | CXform2 t w => OXform2 (rt_run t) (wt_run w)
  | CZoom l => OZoom l
  end.

(** Making these nodes. *)
Fixpoint make_all (ks : list (kind V W * list nat)) : prog V W :=
  match ks with
  | [] => PRet
  | (k, ps) :: r => PDo (CNew k ps d) (fun _ => make_all r)
  end.
End With.
