(** C71, C72: lenses on things that are moved from. *)
From Coq Require Import List.
From Verif Require Import LensModel LensSpec SmartModel SmartSpec MoveModel MoveSpec
  MoveProofs MoveSmartModel MoveSmart.
Import ListNotations.

(** ** A class with two strings *)

Definition text : Type := list nat.
(** A string that was moved from is empty (libstdc++, libc++). *)
Definition emptied (_ : text) : text := [].
(** name, mail *)
Definition person : Type := (text * text)%type.
Definition emptied2 (_ : person) : person := ([], []).
Definition name : member person text := Member fst (fun p x => (x, snd p)).
Lemma name_ok : member_ok name.
Proof. split; cbn; intros; try destruct s; reflexivity. Qed.

Definition ada : person := ([1; 2], [7]).
Definition eve : person := ([3], [8; 9]).

(** [at(k)] on std::vector *)
Definition at_ {A} (k : nat) : lx (list A) (option A) :=
  XAt vec_at (at_setter_mutable vec_assign) k.
(** [at(k) | with_opt(attr(&person::name))], what [x[k][&person::name]] is *)
Definition name_at (k : nat) : lx (list person) (option text) :=
  XCompose (at_ k) (XMapOpt emptied (XAttr name)).

(** ** C71 *)

Theorem C71_view : forall S A (l : lx S A) h c s,
  mview h (moving l) c s = view (plain l) s.
Proof. exact view_moving. Qed.
Print Assumptions C71_view.

Theorem C71_stays : forall S A (l : lx S A) h s, sane l ->
  after_view h (moving l) L s = s.
Proof. exact after_L. Qed.
Print Assumptions C71_stays.

Example C71_case : mview emptied (moving (XAttr name)) R ada = [1; 2]
  /\ after_view emptied (moving (XAttr name)) R ada = ([], [7])
  /\ after_view emptied (moving (XAttr name)) L ada = ada.
Proof. repeat split. Qed.

(** ** C72 *)

Theorem C72_trivial_moves : forall S A (l : lx S A), inert l -> forall c s v,
  mset (moving l) c s v = set (plain l) s v.
Proof. exact set_inert. Qed.
Print Assumptions C72_trivial_moves.

Theorem C72_trivial_moves_over : forall S A (l : lx S A) h, inert l -> (forall a, h a = a) ->
  forall by_value c s fn, mover by_value h (moving l) c s fn = over (plain l) s fn.
Proof. exact over_inert. Qed.
Print Assumptions C72_trivial_moves_over.

(** The same lens as in the refutations below, on pairs of numbers. *)
Definition first_of_pair : member (nat * nat) nat := Member fst (fun p x => (x, snd p)).
Definition first_at (k : nat) : lx (list (nat * nat)) (option nat) :=
  XCompose (at_ k) (XMapOpt (fun a => a) (XAttr first_of_pair)).
Example C72_trivial_case : inert (first_at 0)
  /\ mset (moving (first_at 0)) L [(1, 2)] None = [(1, 2)]
  /\ mset (moving (first_at 0)) L [(1, 2)] (Some 5) = [(5, 2)].
Proof.
  split; [|split; reflexivity].
  cbn. repeat split; auto; cbn; intros; try destruct s; reflexivity.
Qed.

(** Missing: lenses that are not [tame]; see the refutations. *)
Theorem C72_set_partial : forall S A (l : lx S A) c, tame c l -> forall s v,
  mset (moving l) c s v = set (plain l) s v.
Proof. exact set_tame. Qed.
Print Assumptions C72_set_partial.

Theorem C72_over_partial : forall S A (l : lx S A) c, tame c l -> forall by_value h s fn,
  mover by_value h (moving l) c s fn = over (plain l) s fn.
Proof. exact over_tame. Qed.
Print Assumptions C72_over_partial.

(** [fan(attr(&person::name), attr(&person::mail))] on a temporary *)
Definition mail : member person text := Member snd (fun p x => (fst p, x)).
Definition both : lx person (tup [text : Type; text]) :=
  XFan (XFcons (XAttr name) (XFcons (XAttr mail) XFnil)).
Example C72_tame_case : tame R both
  /\ mset (moving both) R ada ([5], ([6], tt)) = ([5], [6])
  /\ tame L (XMapOpt emptied (XAttr name))
  /\ mset (moving (XMapOpt emptied (XAttr name))) L (Some ada) None = Some ada.
Proof.
  assert (mail_ok : member_ok mail) by (split; cbn; intros; try destruct s; reflexivity).
  repeat split; cbn; auto using name_ok; try (intros; try destruct s; reflexivity).
Qed.

(** A value is written to a place that [operator[]] leads to. *)
Theorem C72_operator_partial : forall S A (l : lx S (option A)), chain S A l ->
  forall c s v, mset (moving l) c s (Some v) = set (plain l) s (Some v).
Proof. exact chain_set. Qed.
Print Assumptions C72_operator_partial.

(** nullopt is written to a place that is not there. *)
Theorem C72_operator_none_partial : forall S A (l : lx S (option A)), chain S A l ->
  forall c s, view (plain l) s = None -> mset (moving l) c s None = set (plain l) s None.
Proof. exact chain_clear. Qed.
Print Assumptions C72_operator_none_partial.

Lemma name_at_chain : forall k, chain _ _ (name_at k).
Proof. intros k. apply chain_map; [apply chain_start; intros; exact I | exact name_ok]. Qed.
Example C72_operator_case : chain _ _ (name_at 1)
  /\ mset (moving (name_at 1)) L [eve; ada] (Some [4; 4]) = [eve; ([4; 4], [7])]
  /\ view (plain (name_at 5)) [eve; ada] = None
  /\ mset (moving (name_at 5)) L [eve; ada] None = [eve; ada].
Proof. split; [apply name_at_chain | repeat split]. Qed.

Theorem C72_force_opt : forall A (h : A -> A) c s v,
  mset (moving (XForceOpt h)) c s v = set force_opt s v.
Proof. exact force_opt_set. Qed.
Print Assumptions C72_force_opt.

(** nullopt is written to a place that is there: the part stays as it was after it was
    read from a temporary. *)
Theorem C72_cleared : forall W K A P look_up (st : W -> option A -> K -> W) k h
    (l : lx A P) c s,
  mset (moving (XCompose (XAt look_up st k) (XMapOpt h l))) c s None =
  st s (match look_up s k with
        | Some w => Some (after_view h (moving l) R w)
        | None => None
        end) k.
Proof. exact at_map_opt_none. Qed.
Print Assumptions C72_cleared.

(** [set(at(1) | with_opt(attr(&person::name)), people, std::nullopt)] should change
    nothing, and empties the name of the person; [people] is not moved from. *)
Theorem C72_clear_refuted : exists (l : lx (list person) (option text)) s,
  chain _ _ l /\ set (plain l) s None = s /\
  mset (moving l) L s None = [eve; ([], [7])] /\ s = [eve; ada].
Proof. exists (name_at 1), [eve; ada]. split; [apply name_at_chain | repeat split]. Qed.
Print Assumptions C72_clear_refuted.

(** [set(alternative<std::string>, std::variant<..>{..}, std::nullopt)] on a temporary *)
Theorem C72_variant_refuted : exists (l : lx (variant [nat : Type; text]) (option text)) s,
  sane l /\ set (plain l) s None = s /\ mset (moving l) R s None <> s /\
  mset (moving l) L s None = s.
Proof.
  exists (XAlternative emptied (IS IZ)), (inr (inl [1; 2])).
  repeat split. discriminate.
Qed.
Print Assumptions C72_variant_refuted.

(** [set(force_opt | map_opt(attr(&person::name)), p, std::nullopt)]; [p] is not moved from *)
Theorem C72_force_opt_refuted : exists (l : lx person (option text)) s,
  sane l /\ set (plain l) s None = s /\ mset (moving l) L s None = ([], [7]) /\ s = ada.
Proof.
  exists (XCompose (XForceOpt emptied2) (XMapOpt emptied (XAttr name))), ada.
  repeat split; apply name_ok.
Qed.
Print Assumptions C72_force_opt_refuted.

(** A name is written to the element of a vector of variants, and the mail is lost: the
    person was moved out of the variant to look at the name.
    [at(0) | map_opt(alternative<person> | map_opt(attr(&person::name)))] *)
Theorem C72_value_refuted :
  exists (l : lx (list (variant [nat : Type; person])) (option (option text))) s v,
  sane l /\ set (plain l) s (Some (Some v)) = [inr (inl (v, [7]))] /\
  mset (moving l) L s (Some (Some v)) = [inr (inl (v, []))] /\ s = [inr (inl ada)].
Proof.
  exists (XCompose (at_ 0)
            (XMapOpt (option_map emptied)
               (XCompose (XAlternative emptied2 (IS IZ)) (XMapOpt emptied (XAttr name))))),
         [inr (inl ada)], [4].
  repeat split; apply name_ok.
Qed.
Print Assumptions C72_value_refuted.

(** getset with a getter that takes the whole by value, on a temporary *)
Theorem C72_getset_refuted : exists (l : lx person text) s v,
  lawful (plain l) /\ mset (moving l) R s v = (v, []) /\ set (plain l) s v = (v, [7]).
Proof.
  exists (XGetset true emptied2 fst (fun p x => (x, snd p))), ada, [4].
  split; [|repeat split].
  apply LensProofs.getset_lawful; cbn; intros; try destruct x; reflexivity.
Qed.
Print Assumptions C72_getset_refuted.

(** ** x[a][b]... of C58, with moves *)

(** It is the same lens, *)
Theorem C72_select : forall h t p,
  select t (map arg_of p) =
  option_map (fun L : mpart t => match L with existT _ q l => a_part q (plain l) end)
             (mselect h t (map arg_of p)).
Proof. exact select_same. Qed.
Print Assumptions C72_select.

(** reads the same, *)
Theorem C71_select_read : forall h t p q (l : lx (den t) (den q)),
  mselect h t (map arg_of p) = Some (existT _ q l) ->
  forall g c x, tree_of q (mview g (moving l) c x) = read p (tree_of t x).
Proof. exact select_read. Qed.
Print Assumptions C71_select_read.

(** and writes the same, except when nothing is written to what is there. *)
Theorem C72_select_write_partial : forall h t p q (l : lx (den t) (den q)),
  mselect h t (map arg_of p) = Some (existT _ q l) ->
  forall c x y, (direct p (tree_of t x) = false -> tree_of q y = Opt None ->
                 place p (tree_of t x) = None) ->
  tree_of t (mset (moving l) c x y) = write p (tree_of q y) (tree_of t x).
Proof. exact select_write. Qed.
Print Assumptions C72_select_write_partial.

(** struct 1 { vector<int>; int }; vector<struct 1>.  Vectors are empty when they were
    moved from. *)
Definition item : ty := TClass 1 (MCons (TVec false TNum) (MCons TNum MNil)).
Definition emptied_vectors (t : ty) : den t -> den t :=
  match t return den t -> den t with TVec _ _ => fun _ => [] | _ => fun x => x end.
Definition items : den (TVec false item) := [([4; 5], (6, tt))].

(** [x[0][&item::numbers].set(nullopt)] empties the numbers; with a value it does what it
    should. *)
Theorem C72_select_empty_refuted :
  exists h t p (l : lx (den t) (den (TOpt (TVec false TNum)))) x,
  mselect h t (map arg_of p) = Some (existT _ (TOpt (TVec false TNum)) l) /\
  write p (Opt None) (tree_of t x) = tree_of t x /\
  tree_of t (mset (moving l) L x None) <> tree_of t x.
Proof.
  exists emptied_vectors, (TVec false item), [AtKey 0; Field 1 0].
  eexists. exists items. split; [reflexivity|]. split; [reflexivity|].
  cbn. discriminate.
Qed.
Print Assumptions C72_select_empty_refuted.

Example C72_select_case : exists l : lx (den (TVec false item)) (den (TOpt (TVec false TNum))),
  mselect emptied_vectors (TVec false item) (map arg_of [AtKey 0; Field 1 0])
    = Some (existT _ (TOpt (TVec false TNum)) l) /\
  mset (moving l) L items (Some [9]) = [([9], (6, tt))] /\
  mset (moving l) L items None = [([], (6, tt))].
Proof. eexists. split; [reflexivity|]. split; reflexivity. Qed.

(** ** Cursors: their lenses are always given temporaries *)

(** A cursor shows what its lenses show, *)
Theorem C71_cursor : forall S A (n : nodes S A) x, node_value n x = view (route n) x.
Proof. exact node_value_view. Qed.
Print Assumptions C71_cursor.

(** and writes what they write, if moves leave no trace, or the lenses are tame; *)
Theorem C72_cursor_trivial_moves : forall S A (n : nodes S A), all_lenses (@inert) n ->
  forall x v, node_write n x v = set (route n) x v.
Proof. exact cursor_inert. Qed.
Print Assumptions C72_cursor_trivial_moves.

Theorem C72_cursor_partial : forall S A (n : nodes S A), all_lenses (fun A B => tame R) n ->
  forall x v, node_write n x v = set (route n) x v.
Proof. exact cursor_tame. Qed.
Print Assumptions C72_cursor_partial.

(** or if a value is written where [operator[]] leads. *)
Theorem C72_cursor_operator_partial : forall S W A (p : nodes S W) (l : lx W (option A)),
  all_lenses (fun A B => tame R) p -> chain W A l ->
  forall x v, node_write (NZoom p l) x (Some v) = set (route (NZoom p l)) x (Some v).
Proof. exact cursor_chain. Qed.
Print Assumptions C72_cursor_operator_partial.

(** A state with a person, people that they know, and a cursor to the name of one of these *)
Definition group : Type := (person * list person)%type.
Definition known : member group (list person) := Member snd (fun p x => (fst p, x)).
Definition name_of_known (k : nat) : nodes group (option text) :=
  NZoom (NZoom NRoot (XAttr known)) (name_at k).
Example C72_cursor_case :
  all_lenses (fun A B => tame R) (NZoom (NRoot (S := group)) (XAttr known)) /\
  chain _ _ (name_at 1) /\
  node_value (name_of_known 1) (ada, [ada; eve]) = Some [3] /\
  node_write (name_of_known 1) (ada, [ada; eve]) (Some [5]) = (ada, [ada; ([5], [8; 9])]).
Proof.
  repeat split; try apply name_at_chain; intros; try destruct s; reflexivity.
Qed.

(** The lens of the manual (doc/lenses.rst:43-69):
      struct Mouse { ...; pair<Eye, Eye> eyes; vector<Leg> legs; ... };
      getset([](Mouse mouse) { return mouse.eyes; },
             [](Mouse mouse, pair<Eye, Eye> eyes) { mouse.eyes = eyes; return mouse; })
    With a cursor it loses the legs: the copy of the mouse was moved into the argument of
    the getter before it is given to the setter. *)
Definition mouse : Type := ((nat * nat) * list nat)%type.
Definition eyes : lx mouse (nat * nat) :=
  XGetset true (fun m => (fst m, [])) fst (fun m e => (e, snd m)).
Theorem C72_cursor_refuted : exists S A (n : nodes S A) x v,
  lawful (route n) /\ node_value n x <> v /\
  view (route n) (node_write n x v) = v /\ node_write n x v <> set (route n) x v.
Proof.
  exists mouse, (nat * nat)%type, (NZoom NRoot eyes), ((1, 2), [10; 20; 30; 40]), (3, 4).
  split; [|repeat split; discriminate].
  cbn [route]. apply LensProofs.compose_lawful; [apply LensProofs.id_lens_lawful|].
  apply LensProofs.getset_lawful; cbn; intros; try destruct x; reflexivity.
Qed.
Print Assumptions C72_cursor_refuted.
Example C72_mouse :
  node_write (NZoom NRoot eyes) ((1, 2), [10; 20; 30; 40]) (3, 4) = ((3, 4), []) /\
  set (route (NZoom NRoot eyes)) ((1, 2), [10; 20; 30; 40]) (3, 4) = ((3, 4), [10; 20; 30; 40]).
Proof. split; reflexivity. Qed.

(** A cursor zoomed by [alternative<std::string>]: to write nullopt empties the string. *)
Theorem C72_cursor_variant_refuted :
  exists (n : nodes (variant [nat : Type; text]) (option text)) x,
  set (route n) x None = x /\ node_write n x None = inr (inl []) /\ x = inr (inl [1; 2]).
Proof.
  exists (NZoom NRoot (XAlternative emptied (IS IZ))), (inr (inl [1; 2])). repeat split.
Qed.
Print Assumptions C72_cursor_variant_refuted.
