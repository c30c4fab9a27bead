(** C58: what [operator[]] of readers and cursors selects *)
From Coq Require Import List Arith Bool.
From Verif Require Import LensModel SmartModel SmartSpec SmartFacts.
Import ListNotations.

(** Which paths of keys and pointers to members the compiler accepts, and the type of
    the value shown *)
Theorem C58_type : forall t p q,
  (exists l, select t (map arg_of p) = Some (existT _ q l)) <->
  exists e d, leads t p e d /\ q = shown d (by_key p) e.
Proof. exact select_types. Qed.
Print Assumptions C58_type.

(** What is read and written *)
Theorem C58_read : forall t q p (l : lens (den t) (den q)),
  select t (map arg_of p) = Some (existT _ q l) ->
  forall x, tree_of q (view l x) = read p (tree_of t x).
Proof. exact sel_view. Qed.
Print Assumptions C58_read.
Theorem C58_write : forall t q p (l : lens (den t) (den q)),
  select t (map arg_of p) = Some (existT _ q l) ->
  forall x y, tree_of t (set l x y) = write p (tree_of q y) (tree_of t x).
Proof. exact sel_set. Qed.
Print Assumptions C58_write.

(** Writing to a place that is not there, or an empty optional, changes nothing; otherwise
    what is written is read, the last write counts, and what was read can be written back.
    Nothing else changes. *)
Theorem C58_missing : forall t q p (l : lens (den t) (den q)),
  select t (map arg_of p) = Some (existT _ q l) ->
  forall x y, place p (tree_of t x) = None -> set l x y = x.
Proof. exact sel_missing. Qed.
Print Assumptions C58_missing.
Theorem C58_empty : forall t q p (l : lens (den t) (den q)),
  select t (map arg_of p) = Some (existT _ q l) ->
  forall x y, direct p (tree_of t x) = false -> tree_of q y = Opt None -> set l x y = x.
Proof. exact sel_empty. Qed.
Print Assumptions C58_empty.
Theorem C58_put_get : forall t q p (l : lens (den t) (den q)),
  select t (map arg_of p) = Some (existT _ q l) ->
  forall x y, place p (tree_of t x) <> None ->
  (direct p (tree_of t x) = false -> tree_of q y <> Opt None) -> view l (set l x y) = y.
Proof. exact sel_put_get. Qed.
Print Assumptions C58_put_get.
Theorem C58_get_put : forall t q p (l : lens (den t) (den q)),
  select t (map arg_of p) = Some (existT _ q l) -> forall x, set l x (view l x) = x.
Proof. exact sel_get_put. Qed.
Print Assumptions C58_get_put.
Theorem C58_put_put : forall t q p (l : lens (den t) (den q)),
  select t (map arg_of p) = Some (existT _ q l) ->
  forall x y y', (direct p (tree_of t x) = false -> tree_of q y' <> Opt None) ->
  set l (set l x y) y' = set l x y'.
Proof. exact sel_put_put. Qed.
Print Assumptions C58_put_put.
Theorem C58_elsewhere : forall t p q (l : lens (den t) (den q)) r k (m : lens (den t) (den k)),
  select t (map arg_of p) = Some (existT _ q l) -> select t (map arg_of r) = Some (existT _ k m) ->
  part_ways p r -> forall x y, view m (set l x y) = view m x.
Proof. exact sel_elsewhere. Qed.
Print Assumptions C58_elsewhere.

(** ** A case *)
(** class 2 { optional<int> }; class 1 { int; optional<class 2> };
    vector<map<class 1>>, one map with an object under key 7. *)
Definition inner : ty := TClass 2 (MCons (TOpt TNum) MNil).
Definition outer : ty := TClass 1 (MCons TNum (MCons (TOpt inner) MNil)).
Definition whole : ty := TVec false (TMap true outer).
Definition path : list step := [AtKey 1; AtKey 7; Field 1 1; Field 2 0].
Definition value : den whole := [[]; [(4, (1, (None, tt))); (7, (5, (Some (Some 9, tt), tt)))]].
Example C58_case :
  exists l : lens (den whole) (den (TOpt TNum)),
    select whole (map arg_of path) = Some (existT _ (TOpt TNum) l) /\
    leads whole path (TOpt TNum) false /\
    place path (tree_of whole value) = Some (Opt (Some (Num 9))) /\
    view l value = Some 9 /\
    set l value (Some 3) = [[]; [(4, (1, (None, tt))); (7, (5, (Some (Some 3, tt), tt)))]] /\
    set l value None = value /\
    view l [[]] = None /\ set l [[]] (Some 3) = [[]].
Proof.
  eexists. split; [reflexivity|]. split; [|vm_compute; repeat split].
  repeat (eapply LVec || eapply LMap || eapply LOpt || (eapply LMember; [reflexivity|]) || apply LHere).
Qed.
Example C58_case_direct :
  exists l : lens (den outer) (den (TOpt inner)),
    select outer (map arg_of [Field 1 1]) = Some (existT _ (TOpt inner) l) /\
    direct [Field 1 1] (tree_of outer (5, (Some (Some 9, tt), tt))) = true /\
    set l (5, (Some (Some 9, tt), tt)) None = (5, (None, tt)) /\
    part_ways [Field 1 1; Field 2 0] [Field 1 0].
Proof. eexists. split; [reflexivity|]. vm_compute. repeat split. right. right. discriminate. Qed.

(** Not everything that is written is read: through an optional, an optional member can
    not be emptied, although it can be directly. *)
Theorem C58_empty_refuted : exists t p (l : lens (den t) (den (TOpt TNum))) x,
  select t (map arg_of p) = Some (existT _ (TOpt TNum) l) /\
  place p (tree_of t x) = Some (Opt (Some (Num 9))) /\ view l (set l x None) <> None.
Proof.
  exists (TOpt inner), [Field 2 0].
  assert (E : exists l : lens (den (TOpt inner)) (den (TOpt TNum)),
    select (TOpt inner) (map arg_of [Field 2 0]) = Some (existT _ (TOpt TNum) l) /\
    view l (set l (Some (Some 9, tt)) None) <> None).
  { eexists. split; [reflexivity|]. vm_compute. discriminate. }
  destruct E as (l & A & B). exists l, (Some (Some 9, tt)). repeat split; auto.
Qed.
Print Assumptions C58_empty_refuted.

(** ** Lenses *)
(** A lens that can be applied to the value is used as it is; one that can not, but to
    what is in the optional, is lifted, if the compiler can tell. *)
Theorem C58_as_is : forall t w L, on w t = Some L -> make t (Obj w) = Some L.
Proof. exact make_as_is. Qed.
Print Assumptions C58_as_is.
Theorem C58_lifted : forall w t q l n, on w t = Some (existT _ q l) -> constrained w = true ->
  (forall k, k <= n -> on w (opts (S k) t) = None) ->
  exists q' l', make (opts (S n) t) (Obj w) = Some (existT _ q' l') /\
    q' = shown false false q /\
    (forall x, deep (S n) t x = None -> tree_of q' (view l' x) = Opt None /\ forall y, set l' x y = x) /\
    (forall v, tree_of q' (view l' (wrap (S n) t v)) = as_opt false (tree_of q (view l v))) /\
    (forall v y, tree_of q' y = Opt None -> set l' (wrap (S n) t v) y = wrap (S n) t v) /\
    (forall v y z, tree_of q' y = as_opt false (tree_of q z) -> tree_of q z <> Opt None ->
       set l' (wrap (S n) t v) y = wrap (S n) t (set l v z)).
Proof. exact object_lifts. Qed.
Print Assumptions C58_lifted.

(** A lens of lager for the first member of class 2, once constrained and once as it is *)
Definition first_of_2 (b : bool) : lens_object := Lens (fun t => base_make t (Ptr 2 0)) b.
Example C58_case_lens :
  (exists l, on (first_of_2 true) inner = Some (existT _ (TOpt TNum) l)) /\
  on (first_of_2 true) (opts 1 inner) = None /\ on (first_of_2 true) (opts 2 inner) = None /\
  exists l : lens (den (opts 2 inner)) (den (TOpt TNum)),
    make (opts 2 inner) (Obj (first_of_2 true)) = Some (existT _ (TOpt TNum) l) /\
    view l (Some (Some (Some 9, tt))) = Some 9 /\
    set l (Some (Some (Some 9, tt))) (Some 3) = Some (Some (Some 3, tt)) /\
    set l (Some None) (Some 3) = Some None.
Proof. repeat split; try (eexists; reflexivity). eexists. split; [reflexivity|]. vm_compute. repeat split. Qed.

(** The lenses of lager are not: [x[&T::m]] is accepted for an optional of [T] but
    [x[attr(&T::m)]] is not. *)
Theorem C58_lens_refuted : exists t c n w, constrained w = false /\
  (exists L, make t (Ptr c n) = Some L /\ make t (Obj w) = Some L) /\
  (exists L, make (TOpt t) (Ptr c n) = Some L) /\ make (TOpt t) (Obj w) = None.
Proof.
  exists inner, 2, 0, (first_of_2 false). split; [reflexivity|]. split; [eexists; split; reflexivity|].
  split; [eexists; reflexivity|reflexivity].
Qed.
Print Assumptions C58_lens_refuted.
