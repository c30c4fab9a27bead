(** Properties C31-C35: lenses.  Every statement mentions only the API
    ([view], [set], [over], [|]) and the vocabulary of LensSpec. *)
From Coq Require Import List Arith Bool.
From Verif Require Import LensModel LensSpec LensProofs.
Import ListNotations.

(** * C31: the built-in lenses obey the lens laws *)

Theorem C31_builtin_lenses_lawful : forall S A (l : lens S A), builtin S A l ->
  (forall x v, view l (set l x v) = v) /\
  (forall x, set l x (view l x) = x) /\
  (forall x v w, set l (set l x v) w = set l x w) /\
  (forall x f, over l x f = set l x (f (view l x))).
Proof.
  exact (fun S A l H => let L := builtin_lawful_aux S A l H in
    conj (law_put_get _ L) (conj (law_get_put _ L)
      (conj (law_put_put _ L) (law_over _ L)))).
Qed.
Print Assumptions C31_builtin_lenses_lawful.

(** Composition with any two lawful (not only built-in) lenses is lawful, and is
    what one expects in terms of the two lenses. *)
Theorem C31_composition : forall S A B (l1 : lens S A) (l2 : lens A B),
  lawful l1 -> lawful l2 ->
  lawful (compose l1 l2) /\
  (forall x, view (compose l1 l2) x = view l2 (view l1 x)) /\
  (forall x v, set (compose l1 l2) x v = set l1 x (set l2 (view l1 x) v)).
Proof.
  exact (fun S A B l1 l2 L1 L2 =>
    match compose_view_set S A B l1 l2 (law_uniform _ L1) (law_uniform _ L2) with
    | conj Hv (conj Hs _) => conj (compose_lawful S A B l1 l2 L1 L2) (conj Hv Hs)
    end).
Qed.
Print Assumptions C31_composition.

(** Erasing the type of a lens (lager::lens) changes neither view nor set. *)
Theorem C31_type_erasure_transparent : forall S A (l : lens S A),
  (forall x, view (erase l) x = view l x) /\
  (forall x v, set (erase l) x v = set l x v) /\
  (forall x f, over (erase l) x f = set l x (f (view l x))) /\
  uniform (erase l).
Proof. exact erase_same. Qed.
Print Assumptions C31_type_erasure_transparent.

(** A person record with a nested address, zipped with a box. *)
Definition address : Type := nat * bool.
Definition person : Type := address * nat.
Definition addr_m : member person address := Member fst (fun s a => (a, snd s)).
Definition zipcode_m : member address nat := Member fst (fun s a => (a, snd s)).
Definition demo_whole : list Type := @cons Type person (@cons Type (box nat) nil).
Definition demo_parts : list Type := @cons Type nat (@cons Type nat nil).
Definition demo_lens : lens (tup demo_whole) (tup demo_parts) :=
  zip (LPcons (compose (attr addr_m) (attr zipcode_m)) (LPcons unbox LPnil)).
Example C31_demo_builtin : builtin _ _ demo_lens.
Proof.
  apply B_zip. constructor; [|constructor; constructor].
  apply B_comp; apply B_attr; apply pair_fst_member_ok.
Qed.
Example C31_demo : set demo_lens (((1, true), 30), (Box 4, tt)) (7, (8, tt))
                   = (((7, true), 30), (Box 8, tt)).
Proof. reflexivity. Qed.

(** * C32: fan *)
Theorem C32_fan_lawful : forall W ps (ls : fan_pack W ps), fan_lawful ls ->
  lawful (fan ls).
Proof. exact fan_lawful_lens. Qed.
Print Assumptions C32_fan_lawful.

(** With overlapping parts the first lens wins... *)
Theorem C32_fan_head_wins : forall W P ps (l : lens W P) (r : fan_pack W ps),
  lawful l -> forall w p, view l (set (fan (FPcons l r)) w p) = fst p.
Proof. exact fan_head_wins. Qed.
Print Assumptions C32_fan_head_wins.

(** ... and put-get fails. *)
Theorem C32_fan_overlap_refuted : exists (l : lens (nat * nat) nat), lawful l /\
  ~ put_get (fan (FPcons l (FPcons l FPnil))).
Proof. exact fan_overlap_witness. Qed.
Print Assumptions C32_fan_overlap_refuted.

Definition demo_triple : list Type := @cons Type nat (@cons Type bool (@cons Type nat nil)).
Example C32_demo :
  fan_lawful (FPcons (element (IZ : idx demo_triple nat))
             (FPcons (element (IS (IS IZ) : idx demo_triple nat)) FPnil)).
Proof.
  refine (conj (element_lawful _ _ _) (conj (conj _ I)
           (conj (element_lawful _ _ _) (conj I I)))).
  split; [|split]; intros; reflexivity.
Qed.

(** * C33: at() *)
Theorem C33_at_vector : forall A (k : nat) (w : list A),
  (view (at_vector k) w = nth_error w k) /\
  (view (at_vector k) w = None <-> length w <= k) /\
  (forall p, length (set (at_vector k) w p) = length w) /\
  (forall p j, j <> k -> nth_error (set (at_vector k) w p) j = nth_error w j) /\
  (forall v, k < length w -> nth_error (set (at_vector k) w (Some v)) k = Some v) /\
  (forall p, length w <= k -> set (at_vector k) w p = w) /\
  (set (at_vector k) w None = w) /\
  (set (at_vector k) w (view (at_vector k) w) = w) /\
  (forall v u, set (at_vector k) (set (at_vector k) w v) (Some u)
               = set (at_vector k) w (Some u)).
Proof.
  exact (fun A k w =>
    conj eq_refl (conj (nth_error_None w k) (conj (at_vector_set_length A k w)
    (conj (at_vector_other A k w)
    (conj (at_vector_put_get A k w) (conj (at_vector_absent A k w)
    (conj (at_vector_set_none A k w) (conj (at_vector_get_put A k w)
    (at_vector_put_put A k w))))))))).
Qed.
Print Assumptions C33_at_vector.

Theorem C33_at_map : forall K A (eqk : K -> K -> bool),
  (forall a b, eqk a b = true <-> a = b) ->
  forall (k : K) (w : list (K * A)),
  (view (at_map eqk k) w = None <-> ~ In k (map fst w)) /\
  (forall a, view (at_map eqk k) w = Some a -> In (k, a) w) /\
  (forall a, NoDup (map fst w) -> In (k, a) w -> view (at_map eqk k) w = Some a) /\
  (forall p, map fst (set (at_map eqk k) w p) = map fst w) /\
  (forall p j, j <> k -> view (at_map eqk j) (set (at_map eqk k) w p) = view (at_map eqk j) w) /\
  (forall v, view (at_map eqk k) w <> None ->
     view (at_map eqk k) (set (at_map eqk k) w (Some v)) = Some v) /\
  (forall p, view (at_map eqk k) w = None -> set (at_map eqk k) w p = w) /\
  (set (at_map eqk k) w None = w) /\
  (set (at_map eqk k) w (view (at_map eqk k) w) = w) /\
  (forall v u, set (at_map eqk k) (set (at_map eqk k) w v) (Some u)
               = set (at_map eqk k) w (Some u)).
Proof.
  exact (fun K A eqk E k w =>
    conj (amap_at_none_iff K A eqk E w k) (conj (amap_at_some_in K A eqk E w k)
    (conj (amap_in_at K A eqk E w k) (conj (at_map_keys K A eqk E k w)
    (conj (at_map_other K A eqk E k w) (conj (at_map_put_get K A eqk E k w)
    (conj (at_map_absent K A eqk E k w) (conj eq_refl
    (conj (at_map_get_put K A eqk k w) (at_map_put_put K A eqk E k w)))))))))).
Qed.
Print Assumptions C33_at_map.

(** The immer containers behave like their standard counterparts. *)
Theorem C33_immer_same : forall A K B (eqk : K -> K -> bool),
  (forall a b, eqk a b = true <-> a = b) ->
  (forall k (w : list A), view (at_immer_vector k) w = view (at_vector k) w /\
     forall p, set (at_immer_vector k) w p = set (at_vector k) w p) /\
  (forall k (w : list (K * B)), view (at_immer_map eqk k) w = view (at_map eqk k) w /\
     forall p, set (at_immer_map eqk k) w p = set (at_map eqk k) w p).
Proof.
  exact (fun A K B eqk E => conj (at_immer_vector_same A) (at_immer_map_same K B eqk E)).
Qed.
Print Assumptions C33_immer_same.

(** at_or is at with a default; so everything above transfers. *)
Theorem C33_at_or : forall A K B (eqk : K -> K -> bool),
  (forall a b, eqk a b = true <-> a = b) ->
  (forall k (d : A) (w : list A),
     view (at_or_vector k d) w = match view (at_vector k) w with Some v => v | None => d end /\
     forall v, set (at_or_vector k d) w v = set (at_vector k) w (Some v)) /\
  (forall k (d : A) (w : list A),
     view (at_or_immer_vector k d) w = match view (at_vector k) w with Some v => v | None => d end /\
     forall v, set (at_or_immer_vector k d) w v = set (at_vector k) w (Some v)) /\
  (forall k (d : B) (w : list (K * B)),
     view (at_or_map eqk k d) w = match view (at_map eqk k) w with Some v => v | None => d end /\
     forall v, set (at_or_map eqk k d) w v = set (at_map eqk k) w (Some v)) /\
  (forall k (d : B) (w : list (K * B)),
     view (at_or_immer_map eqk k d) w = match view (at_map eqk k) w with Some v => v | None => d end /\
     forall v, set (at_or_immer_map eqk k d) w v = set (at_map eqk k) w (Some v)).
Proof.
  exact (fun A K B eqk E => conj (at_or_vector_at A) (conj (at_or_immer_vector_at A)
    (conj (at_or_map_at K B eqk) (at_or_immer_map_at K B eqk E)))).
Qed.
Print Assumptions C33_at_or.

(** Built without exceptions the same lens results, and nothing ever aborts. *)
Theorem C33_no_exceptions_same : forall A K B (eqk : K -> K -> bool),
  (forall a b, eqk a b = true <-> a = b) ->
  (forall (w : list A) k p,
     noexc_view vec_has vec_at w k = Some (view (at_vector k) w) /\
     noexc_set_mutable vec_has vec_assign w p k = Some (set (at_vector k) w p) /\
     noexc_set_immer vec_has vec_at vec_set w p k = Some (set (at_immer_vector k) w p)) /\
  (forall (w : list (K * B)) k p,
     noexc_view (amap_count eqk) (amap_at eqk) w k = Some (view (at_map eqk k) w) /\
     noexc_set_mutable (amap_count eqk) (amap_assign eqk) w p k = Some (set (at_map eqk k) w p) /\
     noexc_set_immer (amap_count eqk) (amap_at eqk) (amap_set eqk) w p k
       = Some (set (at_immer_map eqk k) w p)).
Proof. exact (fun A K B eqk E => conj (noexc_vector A) (noexc_map K B eqk E)). Qed.
Print Assumptions C33_no_exceptions_same.

(** Setting on an absent key is lost: put-get does not hold there. *)
Theorem C33_at_absent_refuted : exists (w : list nat) k v,
  view (at_vector k) (set (at_vector k) w (Some v)) <> Some v.
Proof. exact at_absent_witness. Qed.
Print Assumptions C33_at_absent_refuted.

(** immer::table: an element carrying its own id is inserted under that id, so
    the shape is preserved when the id is already present... *)
Theorem C33_at_table_partial : forall K A (eqk : K -> K -> bool) (idof : A -> K),
  (forall a b, eqk a b = true <-> a = b) ->
  forall (w : list A) (v : A),
  let l := at_immer_table eqk idof (idof v) in
  view l (set l w (Some v)) = Some v /\
  set l w None = w /\
  (forall k, k <> idof v ->
     view (at_immer_table eqk idof k) (set l w (Some v)) = view (at_immer_table eqk idof k) w) /\
  (In (idof v) (map idof w) -> map idof (set l w (Some v)) = map idof w).
Proof.
  exact (fun K A eqk idof E w v =>
    conj (table_insert_get K A eqk E idof w v) (conj eq_refl
    (conj (fun k N => table_insert_other K A eqk E idof w v k N)
          (table_insert_present K A eqk E idof w v)))).
Qed.
Print Assumptions C33_at_table_partial.

(** ... but at() on a table can add elements: the full claim is false there. *)
Theorem C33_at_table_shape_refuted : exists (w : list (nat * nat)) (k : nat) (v : nat * nat),
  length (set (at_immer_table Nat.eqb fst k) w (Some v)) <> length w.
Proof. exact table_shape_witness. Qed.
Print Assumptions C33_at_table_shape_refuted.

Example C33_demo :
  set (at_vector 1) [10; 20; 30] (Some 5) = [10; 5; 30] /\
  set (at_vector 7) [10; 20; 30] (Some 5) = [10; 20; 30] /\
  set (at_map Nat.eqb 2) [(1, true); (2, true)] (Some false) = [(1, true); (2, false)] /\
  view (at_or_map Nat.eqb 9 true) [(1, false)] = true.
Proof. repeat split; reflexivity. Qed.

(** * C34: alternative *)
Theorem C34_alternative : forall ts T (i : idx ts T) (w : variant ts),
  (* views the value exactly when the variant holds that alternative *)
  (forall x, view (alternative i) w = Some x <-> w = vmake i x) /\
  (* set keeps the alternative, whichever it is *)
  (forall p U (j : idx ts U),
     view (alternative j) (set (alternative i) w p) = None <-> view (alternative j) w = None) /\
  (* set changes nothing unless held and given *)
  (forall p, view (alternative i) w = None -> set (alternative i) w p = w) /\
  (set (alternative i) w None = w) /\
  (forall x, view (alternative i) w <> None ->
     view (alternative i) (set (alternative i) w (Some x)) = Some x) /\
  (set (alternative i) w (view (alternative i) w) = w).
Proof. exact alternative_props. Qed.
Print Assumptions C34_alternative.
Definition demo_alts : list Type := @cons Type nat (@cons Type bool nil).
Example C34_demo :
  let w : variant demo_alts := inr (inl true) in
  set (alternative (IS IZ : idx demo_alts bool)) w (Some false) = inr (inl false) /\
  set (alternative (IZ : idx demo_alts nat)) w (Some 3) = w.
Proof. split; reflexivity. Qed.

(** * C35: optionals *)
Theorem C35_map_opt : forall W P (l : lens W P),
  view (map_opt l) None = None /\
  (forall p, set (map_opt l) None p = None) /\
  (forall w, view (map_opt l) (Some w) = Some (view l w)) /\
  (forall w v, set (map_opt l) (Some w) (Some v) = Some (set l w v)) /\
  (forall w, set (map_opt l) (Some w) None = Some w).
Proof.
  exact (fun W P l => conj eq_refl (conj (fun p => eq_refl) (conj (fun w => eq_refl)
    (conj (fun w v => eq_refl) (fun w => eq_refl))))).
Qed.
Print Assumptions C35_map_opt.

Theorem C35_map_opt_laws : forall W P (l : lens W P), lawful l ->
  (forall w v, view (map_opt l) (set (map_opt l) (Some w) (Some v)) = Some v) /\
  get_put (map_opt l) /\
  (forall w v u, set (map_opt l) (set (map_opt l) w v) (Some u) = set (map_opt l) w (Some u)) /\
  over_law (map_opt l).
Proof. exact map_opt_laws. Qed.
Print Assumptions C35_map_opt_laws.

Theorem C35_bind_opt : forall W P (l : lens W (option P)),
  view (bind_opt l) None = None /\
  (forall p, set (bind_opt l) None p = None) /\
  (forall w, view (bind_opt l) (Some w) = view l w) /\
  (forall w v, set (bind_opt l) (Some w) (Some v) = Some (set l w (Some v))) /\
  (forall w, set (bind_opt l) (Some w) None = Some w).
Proof.
  exact (fun W P l => conj eq_refl (conj (fun p => eq_refl) (conj (fun w => eq_refl)
    (conj (fun w v => eq_refl) (fun w => eq_refl))))).
Qed.
Print Assumptions C35_bind_opt.

Theorem C35_bind_opt_laws : forall W P (l : lens W (option P)),
  get_put l ->
  (forall w v u, set l (set l w v) (Some u) = set l w (Some u)) ->
  get_put (bind_opt l) /\
  (forall w v u, set (bind_opt l) (set (bind_opt l) w v) (Some u) = set (bind_opt l) w (Some u)) /\
  (forall w v, view l (set l w (Some v)) = Some v ->
     view (bind_opt l) (set (bind_opt l) (Some w) (Some v)) = Some v) /\
  over_law (bind_opt l).
Proof. exact bind_opt_laws. Qed.
Print Assumptions C35_bind_opt_laws.

Theorem C35_value_or : forall A (t : A),
  view (value_or t) None = t /\
  (forall a, view (value_or t) (Some a) = a) /\
  (forall w v, set (value_or t) w v = Some v) /\
  (forall w v, view (value_or t) (set (value_or t) w v) = v) /\
  (forall a, set (value_or t) (Some a) (view (value_or t) (Some a)) = Some a) /\
  (forall w v u, set (value_or t) (set (value_or t) w v) u = set (value_or t) w u) /\
  over_law (value_or t).
Proof.
  exact (fun A t => conj eq_refl (conj (fun a => eq_refl) (conj (fun w v => eq_refl)
    (conj (fun w v => eq_refl) (conj (fun a => eq_refl) (conj (fun w v u => eq_refl)
    (uniform_over _ _ _ (value_or_uniform A t)))))))).
Qed.
Print Assumptions C35_value_or.

(** get-put fails for value_or on nullopt: writing back what was read stores
    the default. *)
Theorem C35_value_or_get_put_refuted : forall A (t : A),
  set (value_or t) None (view (value_or t) None) <> None.
Proof. exact value_or_get_put_witness. Qed.
Print Assumptions C35_value_or_get_put_refuted.

Theorem C35_force_opt : forall A,
  (forall a : A, view force_opt a = Some a) /\
  (forall a v : A, set force_opt a (Some v) = v) /\
  (forall a : A, set force_opt a None = a) /\
  get_put (@force_opt A) /\ over_law (@force_opt A).
Proof.
  exact (fun A => conj (fun a => eq_refl) (conj (fun a v => eq_refl) (conj (fun a => eq_refl)
    (conj (fun a => eq_refl) (uniform_over _ _ _ (force_opt_uniform A)))))).
Qed.
Print Assumptions C35_force_opt.

Example C35_demo :
  set (map_opt (attr addr_m)) (Some ((1, true), 2)) (Some (9, false)) = Some ((9, false), 2) /\
  view (bind_opt (at_vector 1)) (Some [4; 5]) = Some 5 /\
  set (bind_opt (at_vector 1)) (Some [4; 5]) (Some 6) = Some [4; 6] /\
  (get_put (@at_vector nat 1)).
Proof. repeat split; try reflexivity. apply at_vector_get_put. Qed.
