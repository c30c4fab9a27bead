(** C50: serialization with names. *)
From Coq Require Import List Bool Arith.
From Verif Require Import ExtraModel CerealModel CerealSpec JsonModel JsonSpec JsonProofs JsonExact.
Import ListNotations.

(** Reflected structs, whether or not the archive can be asked for names. *)
Theorem C50_struct : forall Name name_eqb, (forall a b : Name, name_eqb a b = true <-> a = b) ->
  forall has_name (ts : list Type) same (fs : fields Name ts) x a,
  NoDup (field_names fs) -> tall_return same fs x a ->
  treturns (same_members same) (tstruct name_eqb has_name fs) x a.
Proof. exact (fun Name => @tstruct_returns Name). Qed.
Print Assumptions C50_struct.
(** In the file the members may have any order, and there may be others. *)
Theorem C50_any_order : forall Name name_eqb, (forall a b : Name, name_eqb a b = true <-> a = b) ->
  forall has_name (ts : list Type) same (fs : fields Name ts) x a l,
  NoDup (map fst l) -> incl (fields_save fs a) l -> tall_return same fs x a ->
  exists y, tload (tstruct name_eqb has_name fs) x (Object l) = (y, true) /\ same_members same y a.
Proof. exact (fun Name => @tstruct_any_order Name). Qed.
Print Assumptions C50_any_order.
(** Some may be missing, if the archive can be asked for names: they are as before. *)
Theorem C50_by_name : forall Name name_eqb, (forall a b : Name, name_eqb a b = true <-> a = b) ->
  forall (ts : list Type) (fs : fields Name ts) x l, NoDup (map fst l) ->
  (loadable fs l x <-> exists y, tload (tstruct name_eqb true fs) x (Object l) = (y, true)) /\
  (forall y, tload (tstruct name_eqb true fs) x (Object l) = (y, true) -> by_name fs l x y).
Proof. exact (fun Name => @tstruct_by_name Name). Qed.
Print Assumptions C50_by_name.
(** Otherwise an exception is thrown. *)
Theorem C50_missing : forall Name name_eqb, (forall a b : Name, name_eqb a b = true <-> a = b) ->
  forall (ts : list Type) (fs : fields Name ts) x l,
  (exists s, In s (field_names fs) /\ ~ In s (map fst l)) ->
  snd (tload (tstruct name_eqb false fs) x (Object l)) = false.
Proof. exact (fun Name => @tstruct_missing Name). Qed.
Print Assumptions C50_missing.

Theorem C50_sequence : forall Name A (c : tcodec Name A) fresh (same : A -> A -> Prop) x v,
  (forall a, In a v -> treturns same c fresh a) ->
  v <> [] \/ x = [] -> treturns (Forall2 same) (tsequence c fresh) x v.
Proof. exact (fun Name A => @tsequence_returns Name A). Qed.
Print Assumptions C50_sequence.
Theorem C50_box : forall Name name_eqb, (forall a b : Name, name_eqb a b = true <-> a = b) ->
  forall A (c : tcodec Name A) fresh (same : A -> A -> Prop) value x a,
  treturns same c fresh a -> treturns same (tbox name_eqb c fresh value) x a.
Proof. exact (fun Name => @tbox_returns Name). Qed.
Print Assumptions C50_box.
Theorem C50_map : forall Name name_eqb, (forall a b : Name, name_eqb a b = true <-> a = b) ->
  forall K A key_eqb (ck : tcodec Name K) (c : tcodec Name A) fresh_key fresh key value (same : A -> A -> Prop),
  (forall a b, key_eqb a b = true <-> a = b) -> forall v, NoDup (map fst v) ->
  (forall k a, In (k, a) v -> treturns eq ck fresh_key k /\ treturns same c fresh a) ->
  treturns (same_map same) (tdict name_eqb key_eqb ck c fresh_key fresh key value) [] v.
Proof. exact (fun Name => @tmap_returns Name). Qed.
Print Assumptions C50_map.
Theorem C50_enum : forall Name name_eqb, (forall a b : Name, name_eqb a b = true <-> a = b) ->
  forall (E : Type) (eqb : E -> E -> bool), (forall a b, eqb a b = true <-> a = b) ->
  forall (value_of : Name -> E) names none x a, In a (map value_of names) ->
  treturns eq (tenum name_eqb eqb (apply value_of names) none) x a.
Proof. exact (fun Name => @tenum_returns Name). Qed.
Print Assumptions C50_enum.
Theorem C50_variant : forall Name name_eqb, (forall a b : Name, name_eqb a b = true <-> a = b) ->
  forall type data (l : list (talternative Name)) same (x v : tvariant_of l),
  NoDup (map taname l) -> theld_returns same v ->
  treturns (tsame_variant same) (tvariant name_eqb type data l) x v.
Proof. exact (fun Name => @tvariant_returns Name). Qed.
Print Assumptions C50_variant.
Theorem C50_data_first : forall Name name_eqb, (forall a b : Name, name_eqb a b = true <-> a = b) ->
  forall type data, type <> data -> forall (l : list (talternative Name)) same (x v : tvariant_of l),
  NoDup (map taname l) -> theld_returns same v ->
  exists w, tload (tvariant name_eqb type data l) x (Object (rev (tvariant_save type data v))) = (w, true) /\
            tsame_variant same w v.
Proof. exact (fun Name => @tvariant_data_first Name). Qed.
Print Assumptions C50_data_first.

(** Tuples, sets, and maps of objects with ids. *)
Theorem C50_tuple : forall Name (ts : list Type) same (cs : tcodecs Name ts) x a,
  tall_return_tuple same cs x a -> treturns (same_members same) (ttuple cs) x a.
Proof. exact (fun Name => @ttuple_returns Name). Qed.
Print Assumptions C50_tuple.
Theorem C50_set : forall Name A (c : tcodec Name A) fresh eqb, (forall a b, eqb a b = true <-> a = b) ->
  forall v, NoDup v -> (forall a, In a v -> treturns eq c fresh a) ->
  tload (tset c fresh eqb) [] (tsave (tset c fresh eqb) v) = (v, true).
Proof. exact (fun Name => @tset_returns Name). Qed.
Print Assumptions C50_set.
Theorem C50_auto_map : forall Name K A key_eqb (c : tcodec Name A) fresh (id : A -> K),
  (forall a b, key_eqb a b = true <-> a = b) ->
  forall same : A -> A -> Prop, (forall x y, same x y -> id x = id y) ->
  forall v, NoDup (map fst v) -> (forall k a, In (k, a) v -> id a = k /\ treturns same c fresh a) ->
  treturns (same_map same) (tauto_dict key_eqb c fresh id) [] v.
Proof. exact (fun Name => @tauto_returns Name). Qed.
Print Assumptions C50_auto_map.

(** ** Loading succeeds exactly for the files that contain a value of the type, and gives that value *)
Theorem C50_number_exact : forall Name (x y : nat) (n : node Name), reads tword x n y <-> n = Num y.
Proof. exact (fun Name => @tword_exact Name). Qed.
Print Assumptions C50_number_exact.
Theorem C50_string_exact : forall Name (x y : Name) (n : node Name), reads ttext x n y <-> n = Str y.
Proof. exact (fun Name => @ttext_exact Name). Qed.
Print Assumptions C50_string_exact.
Theorem C50_struct_exact : forall Name name_eqb, (forall a b : Name, name_eqb a b = true <-> a = b) ->
  forall has_name (ts : list Type) (fs : fields Name ts) x n y, clear n ->
  reads (tstruct name_eqb has_name fs) x n y <->
  exists l, n = Object l /\ by_name fs l x y /\
            (has_name = false -> incl (field_names fs) (map fst l)).
Proof. exact (fun Name => @tstruct_exact Name). Qed.
Print Assumptions C50_struct_exact.
Theorem C50_sequence_exact : forall Name A (c : tcodec Name A) fresh x n y,
  reads (tsequence c fresh) x n y <->
  exists l, n = Array l /\ (l = [] /\ y = x \/ l <> [] /\ Forall2 (reads c fresh) l y).
Proof. exact (fun Name A => @tsequence_exact Name A). Qed.
Print Assumptions C50_sequence_exact.
Theorem C50_box_exact : forall Name name_eqb, (forall a b : Name, name_eqb a b = true <-> a = b) ->
  forall A (c : tcodec Name A) fresh value x n y, clear n ->
  reads (tbox name_eqb c fresh value) x n y <->
  exists l m, n = Object l /\ In (value, m) l /\ reads c fresh m y.
Proof. exact (fun Name name_eqb iff A => @tbox_exact Name name_eqb iff A). Qed.
Print Assumptions C50_box_exact.
Theorem C50_tuple_exact : forall Name (ts : list Type) (cs : tcodecs Name ts) x n y,
  reads (ttuple cs) x n y <-> exists l, n = Array l /\ all_read cs x l y.
Proof. exact (fun Name => @ttuple_exact Name). Qed.
Print Assumptions C50_tuple_exact.
(** For sets and maps the number of elements afterwards must be that of the file: what is already there
    may only be replaced. *)
Theorem C50_set_exact : forall Name A (c : tcodec Name A) fresh eqb, (forall a b, eqb a b = true <-> a = b) ->
  forall m n r, reads (tset c fresh eqb) m n r <->
  exists l v, n = Array l /\ Forall2 (reads c fresh) l v /\ adds v m r /\ length r = length l.
Proof. exact (fun Name A => @tset_exact Name A). Qed.
Print Assumptions C50_set_exact.
Theorem C50_map_exact : forall Name name_eqb, (forall a b : Name, name_eqb a b = true <-> a = b) ->
  forall K A key_eqb, (forall a b, key_eqb a b = true <-> a = b) ->
  forall (ck : tcodec Name K) (c : tcodec Name A) fresh_key fresh key value m n r, clear_items n ->
  reads (tdict name_eqb key_eqb ck c fresh_key fresh key value) m n r <->
  exists l v, n = Array l /\ Forall2 (item_is ck c fresh_key fresh key value) l v /\
    puts v m r /\ length r = length l.
Proof. exact (fun Name name_eqb iff K A => @tdict_exact Name name_eqb iff K A). Qed.
Print Assumptions C50_map_exact.
Theorem C50_auto_map_exact : forall Name K A key_eqb, (forall a b, key_eqb a b = true <-> a = b) ->
  forall (c : tcodec Name A) fresh (id : A -> K) m n r,
  reads (tauto_dict key_eqb c fresh id) m n r <->
  exists l v, n = Array l /\ Forall2 (reads c fresh) l (map snd v) /\ map fst v = map id (map snd v) /\
    puts v m r /\ length r = length l.
Proof. exact (fun Name K A => @tauto_exact Name K A). Qed.
Print Assumptions C50_auto_map_exact.
Theorem C50_enum_exact : forall Name name_eqb, (forall a b : Name, name_eqb a b = true <-> a = b) ->
  forall (E : Type) (eqb : E -> E -> bool) (t : list (E * Name)) none x n y,
  (forall s a b, In (a, s) t -> In (b, s) t -> a = b) ->
  reads (tenum name_eqb eqb t none) x n y <-> exists s, n = Str s /\ In (y, s) t.
Proof. exact (fun Name => @tenum_exact Name). Qed.
Print Assumptions C50_enum_exact.
Theorem C50_variant_exact : forall Name name_eqb, (forall a b : Name, name_eqb a b = true <-> a = b) ->
  forall type data (l : list (talternative Name)) (x : tvariant_of l) n y, clear n ->
  reads (tvariant name_eqb type data l) x n y <->
  exists ms s m, n = Object ms /\ In (type, Str s) ms /\ In (data, m) ms /\ reads_alternative s m y.
Proof. exact (fun Name => @tvariant_exact Name). Qed.
Print Assumptions C50_variant_exact.

(** ** What is left behind by an exception *)

(** Nothing changes for sequences, boxes, enumerations and variants. *)
Theorem C50_unchanged : forall Name name_eqb,
  (forall A (c : tcodec Name A) fresh x n, snd (tload (tsequence c fresh) x n) = false ->
     fst (tload (tsequence c fresh) x n) = x) /\
  (forall A (c : tcodec Name A) fresh value x n, snd (tload (tbox name_eqb c fresh value) x n) = false ->
     fst (tload (tbox name_eqb c fresh value) x n) = x) /\
  (forall (E : Type) eqb (t : list (E * Name)) none x n, snd (tload (tenum name_eqb eqb t none) x n) = false ->
     fst (tload (tenum name_eqb eqb t none) x n) = x) /\
  (forall type data (l : list (talternative Name)) (x : tvariant_of l) n,
     snd (tload (tvariant name_eqb type data l) x n) = false -> fst (tload (tvariant name_eqb type data l) x n) = x).
Proof.
  exact (fun Name name_eqb =>
    conj (fun A => @tsequence_unchanged Name A) (conj (@tbox_unchanged Name name_eqb)
    (conj (@tenum_unchanged Name name_eqb) (@tvariant_unchanged Name name_eqb)))).
Qed.
Print Assumptions C50_unchanged.
(** Sets and maps keep the elements before the bad one. *)
Theorem C50_set_thrown : forall Name A (c : tcodec Name A) fresh eqb, (forall a b, eqb a b = true <-> a = b) ->
  forall m n r, tload (tset c fresh eqb) m n = (r, false) ->
  (r = m /\ forall l, n <> Array l) \/
  exists l1 l2 v, n = Array (l1 ++ l2) /\ Forall2 (reads c fresh) l1 v /\ adds v m r /\
    match l2 with
    | n' :: _ => snd (tload c fresh n') = false
    | [] => length r <> length l1
    end.
Proof. exact (fun Name A => @tset_thrown Name A). Qed.
Print Assumptions C50_set_thrown.
Theorem C50_map_thrown : forall Name name_eqb, (forall a b : Name, name_eqb a b = true <-> a = b) ->
  forall K A key_eqb, (forall a b, key_eqb a b = true <-> a = b) ->
  forall (ck : tcodec Name K) (c : tcodec Name A) fresh_key fresh key value m n r, clear_items n ->
  tload (tdict name_eqb key_eqb ck c fresh_key fresh key value) m n = (r, false) ->
  (r = m /\ forall l, n <> Array l) \/
  exists l1 l2 v, n = Array (l1 ++ l2) /\ Forall2 (item_is ck c fresh_key fresh key value) l1 v /\ puts v m r /\
    match l2 with
    | n' :: _ => forall kx, ~ item_is ck c fresh_key fresh key value n' kx
    | [] => length r <> length l1
    end.
Proof. exact (fun Name name_eqb iff K A => @tdict_thrown Name name_eqb iff K A). Qed.
Print Assumptions C50_map_thrown.
Theorem C50_auto_map_thrown : forall Name K A key_eqb, (forall a b, key_eqb a b = true <-> a = b) ->
  forall (c : tcodec Name A) fresh (id : A -> K) m n r,
  tload (tauto_dict key_eqb c fresh id) m n = (r, false) ->
  (r = m /\ forall l, n <> Array l) \/
  exists l1 l2 v, n = Array (l1 ++ l2) /\ Forall2 (reads c fresh) l1 (map snd v) /\
    map fst v = map id (map snd v) /\ puts v m r /\
    match l2 with
    | n' :: _ => snd (tload c fresh n') = false
    | [] => length r <> length l1
    end.
Proof. exact (fun Name K A => @tauto_thrown Name K A). Qed.
Print Assumptions C50_auto_map_thrown.

(** ** What does not hold *)

(** An empty vector in the file does not replace one that is not empty. *)
Theorem C50_empty_refuted : exists (x v : list nat),
  tload (tsequence (tword (Name := nat)) 0) x (tsave (tsequence (tword (Name := nat)) 0) v) = (x, true) /\ x <> v.
Proof. exists [7], []. split; [reflexivity|discriminate]. Qed.
Print Assumptions C50_empty_refuted.
(** The key appears twice in a file; or there is already another key: an exception, but the map has
    changed. *)
Theorem C50_map_strong_refuted : exists (m : list (nat * nat)) n r,
  tload (tdict Nat.eqb Nat.eqb tword tword 0 0 60 61) m n = (r, false) /\ r <> m.
Proof.
  exists [(1, 1)], (Array [Object [(60, Num 2); (61, Num 3)]]), [(1, 1); (2, 3)].
  split; [reflexivity|discriminate].
Qed.
Print Assumptions C50_map_strong_refuted.

(** ** A case *)
Lemma tword_returns : forall x a : nat, treturns eq (tword (Name := nat)) x a.
Proof. intros x a. exists a. auto. Qed.
Definition ex_types : list Type := [nat : Type; list nat : Type; nat : Type].
Definition ex_fields : fields nat ex_types := ((1, tword), ((2, tsequence tword 0), ((3, tword), tt))).
Definition ex_object : members ex_types := (10, ([20; 21], (30, tt))).
Definition ex_default : members ex_types := (0, ([], (9, tt))).
Example ex_returns : tall_return (ts := ex_types) (eq, (Forall2 eq, (eq, tt))) ex_fields ex_default ex_object.
Proof.
  split; [apply tword_returns|]. split; [|split; [apply tword_returns|exact I]].
  apply C50_sequence; [intros; apply tword_returns|auto].
Qed.
Example ex_names : NoDup (field_names ex_fields).
Proof. repeat constructor; cbn; intuition discriminate. Qed.
(** Another order, something unknown, and the third member missing. *)
Example ex_load : tload (tstruct Nat.eqb true ex_fields) ex_default
  (Object [(2, Array [Num 5; Num 6]); (8, Str 0); (1, Num 7)]) = ((7, ([5; 6], (9, tt))), true).
Proof. reflexivity. Qed.
Example ex_load_derived : snd (tload (tstruct Nat.eqb false ex_fields) ex_default
  (Object [(2, Array [Num 5; Num 6]); (8, Str 0); (1, Num 7)])) = false.
Proof. reflexivity. Qed.
Definition ex_alternatives : list (talternative nat) :=
  [TAlt nat tword 0 1; TAlt (list nat) (tsequence tword 0) [] 2].
Example ex_variant : tsave (tvariant Nat.eqb 50 51 ex_alternatives) (inr (inl [4])) = Object [(50, Str 2); (51, Array [Num 4])] /\
  tload (tvariant Nat.eqb 50 51 ex_alternatives) (inl 0) (Object [(51, Array [Num 4]); (50, Str 2)]) = (inr (inl [4]), true).
Proof. split; reflexivity. Qed.
Example ex_map : tload (tdict Nat.eqb Nat.eqb tword tword 0 0 60 61) []
  (Array [Object [(60, Num 1); (61, Num 2)]; Object [(61, Num 4); (60, Num 3)]]) = ([(1, 2); (3, 4)], true).
Proof. reflexivity. Qed.
(** A set with something in it already, and files that are not of the type. *)
Example ex_set : tload (tset (tword (Name := nat)) 0 Nat.eqb) [7] (Array [Num 7; Num 8]) = ([7; 8], true) /\
  tload (tset (tword (Name := nat)) 0 Nat.eqb) [6] (Array [Num 7; Num 8]) = ([6; 7; 8], false) /\
  tload (tset (tword (Name := nat)) 0 Nat.eqb) [] (Array [Num 7; Str 0; Num 8]) = ([7], false).
Proof. repeat split; reflexivity. Qed.
Example ex_tuple : tload (ttuple (Name := nat) (ts := [nat : Type; list nat : Type]) (tword, (tsequence tword 0, tt))) (0, ([1], tt))
  (Array [Num 4; Array [Num 5]]) = ((4, ([5], tt)), true).
Proof. reflexivity. Qed.
Example ex_auto : tload (tauto_dict Nat.eqb (tword (Name := nat)) 0 (fun x => 10 * x)) [(40, 9)] (Array [Num 4; Num 5]) = ([(40, 4); (50, 5)], true).
Proof. reflexivity. Qed.
Example ex_puts : puts [(40, 4); (50, 5)] [(40, 9)] [(40, 4); (50, 5)].
Proof.
  exists [(40, 4)]. split; [left; exists [], 9, []; cbn; intuition|].
  exists [(40, 4); (50, 5)]. split; [right; cbn; intuition discriminate|reflexivity].
Qed.
Example ex_wrong : tload (tstruct Nat.eqb true ex_fields) ex_default (Array [Num 7]) = (ex_default, false) /\
  tload (tvariant Nat.eqb 50 51 ex_alternatives) (inl 3) (Object [(51, Array [Num 4]); (50, Str 9)]) = (inl 3, false) /\
  clear (Object [(51, Array [Num 4]); (50, Str 9)]).
Proof. split; [reflexivity|]. split; [reflexivity|]. repeat constructor; cbn; intuition discriminate. Qed.
