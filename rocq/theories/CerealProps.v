(** C45: what is saved is what is loaded. *)
From Coq Require Import List Bool Arith.
From Verif Require Import ExtraModel CerealModel CerealSpec CerealProofs CerealExact.
Import ListNotations.

(** Vectors, flex_vectors, arrays: for every codec of the elements, if each element
    returns when loaded into a fresh object. *)
Theorem C45_sequence : forall Name A (c : codec Name A) fresh (same : A -> A -> Prop) v,
  (forall a, In a v -> returns same c fresh a) -> returns (Forall2 same) (sequence c fresh) [] v.
Proof. exact (fun Name A c fresh same v R => sequence_returns c fresh same [] v R (or_intror eq_refl)). Qed.
Print Assumptions C45_sequence.
Theorem C45_sequence_into : forall Name A (c : codec Name A) fresh (same : A -> A -> Prop) x v,
  (forall a, In a v -> returns same c fresh a) ->
  v <> [] \/ x = [] -> returns (Forall2 same) (sequence c fresh) x v.
Proof. exact (fun Name A => @sequence_returns Name A). Qed.
Print Assumptions C45_sequence_into.
Theorem C45_sequence_throws : forall Name A (c : codec Name A) fresh x ts x',
  load (sequence c fresh) x ts = (x', None) -> x' = x.
Proof. exact (fun Name A => @sequence_throws Name A). Qed.
Print Assumptions C45_sequence_throws.
Theorem C45_sequence_size : forall Name A (c : codec Name A) fresh x n ts r rest, n <> 0 ->
  load (sequence c fresh) x (Size n :: ts) = (r, Some rest) -> length r = n.
Proof. exact (fun Name A => @sequence_size Name A). Qed.
Print Assumptions C45_sequence_size.

Theorem C45_box : forall Name A (c : codec Name A) fresh (same : A -> A -> Prop) x a,
  returns same c fresh a -> returns same (box c fresh) x a.
Proof. exact (fun Name A => @box_returns Name A). Qed.
Print Assumptions C45_box.

Theorem C45_set : forall Name A (c : codec Name A) fresh eqb, (forall a b, eqb a b = true <-> a = b) ->
  forall v, NoDup v -> (forall a, In a v -> returns eq c fresh a) ->
  returns same_set (set c fresh eqb) [] v.
Proof. exact (fun Name A => @set_returns Name A). Qed.
Print Assumptions C45_set.
(** Into any set: an exception is thrown unless all its elements are among those saved. *)
Theorem C45_set_into : forall Name A (c : codec Name A) fresh eqb, (forall a b, eqb a b = true <-> a = b) ->
  forall x v, NoDup x -> NoDup v -> (forall a, In a v -> returns eq c fresh a) ->
  forall rest, exists r,
  (forall y, In y r <-> In y x \/ In y v) /\ NoDup r /\
  ((incl x v /\ load (set c fresh eqb) x (save (set c fresh eqb) v ++ rest) = (r, Some rest)) \/
   (~ incl x v /\ load (set c fresh eqb) x (save (set c fresh eqb) v ++ rest) = (r, None))).
Proof. exact (fun Name A => @set_into Name A). Qed.
Print Assumptions C45_set_into.
Theorem C45_set_size : forall Name A (c : codec Name A) fresh eqb x n ts r rest,
  load (set c fresh eqb) x (Size n :: ts) = (r, Some rest) -> length r = n.
Proof. exact (fun Name A => @set_size Name A). Qed.
Print Assumptions C45_set_size.

Theorem C45_map : forall Name K A key_eqb (ck : codec Name K) (c : codec Name A) fresh_key fresh (same : A -> A -> Prop),
  (forall a b, key_eqb a b = true <-> a = b) -> forall v, NoDup (map fst v) ->
  (forall k a, In (k, a) v -> returns eq ck fresh_key k /\ returns same c fresh a) ->
  returns (same_map same) (dict key_eqb ck c fresh_key fresh) [] v.
Proof. exact (fun Name K A => @map_returns Name K A). Qed.
Print Assumptions C45_map.
Theorem C45_map_into : forall Name K A key_eqb (ck : codec Name K) (c : codec Name A) fresh_key fresh (same : A -> A -> Prop),
  (forall a b, key_eqb a b = true <-> a = b) -> forall m v, NoDup (map fst m) -> NoDup (map fst v) ->
  (forall k a, In (k, a) v -> returns eq ck fresh_key k /\ returns same c fresh a) ->
  forall rest, exists r, loaded same m v r /\
  ((incl (map fst m) (map fst v) /\
    load (dict key_eqb ck c fresh_key fresh) m (save (dict key_eqb ck c fresh_key fresh) v ++ rest) = (r, Some rest)) \/
   (~ incl (map fst m) (map fst v) /\
    load (dict key_eqb ck c fresh_key fresh) m (save (dict key_eqb ck c fresh_key fresh) v ++ rest) = (r, None))).
Proof. exact (fun Name K A => @map_into Name K A). Qed.
Print Assumptions C45_map_into.
Theorem C45_map_size : forall Name K A key_eqb (ck : codec Name K) (c : codec Name A) fresh_key fresh m n ts r rest,
  load (dict key_eqb ck c fresh_key fresh) m (Size n :: ts) = (r, Some rest) -> length r = n.
Proof. exact (fun Name K A => @map_size Name K A). Qed.
Print Assumptions C45_map_size.

(** Maps of objects that have an id: if each is kept under its id. *)
Theorem C45_auto : forall Name K A key_eqb (c : codec Name A) fresh (same : A -> A -> Prop),
  (forall a b : K, key_eqb a b = true <-> a = b) -> forall id v,
  (forall x y, same x y -> id x = id y) -> NoDup (map fst v) ->
  (forall k a, In (k, a) v -> id a = k /\ returns same c fresh a) ->
  returns (same_map same) (auto_dict key_eqb c fresh id) [] v.
Proof. exact (fun Name K A => @auto_returns Name K A). Qed.
Print Assumptions C45_auto.

Theorem C45_enum : forall Name name_eqb, (forall a b : Name, name_eqb a b = true <-> a = b) ->
  forall (E : Type) (eqb : E -> E -> bool), (forall a b, eqb a b = true <-> a = b) ->
  forall (value_of : Name -> E) names x a, In a (map value_of names) ->
  returns eq (enumeration name_eqb eqb (apply value_of names)) x a.
Proof. exact (fun Name => @enum_returns Name). Qed.
Print Assumptions C45_enum.

(** Structs and tuples: if each member returns when loaded into the member of the target. *)
Theorem C45_struct : forall Name (ts : list Type) same (cs : codecs Name ts) (x a : members ts),
  all_return same cs x a -> returns (same_members same) (struct cs) x a.
Proof. exact (fun Name => @struct_returns Name). Qed.
Print Assumptions C45_struct.
Theorem C45_tuple : forall Name (ts : list Type) same (cs : codecs Name ts) (x a : members ts),
  all_return same cs x a -> returns (same_members same) (tuple cs) x a.
Proof. exact (fun Name => @tuple_returns Name). Qed.
Print Assumptions C45_tuple.

(** Variants of types with different names. *)
Theorem C45_variant : forall Name name_eqb, (forall a b : Name, name_eqb a b = true <-> a = b) ->
  forall (l : list (alternative Name)) same (x v : variant_of l),
  NoDup (map aname l) -> held_returns same v -> returns (same_variant same) (variant name_eqb l) x v.
Proof. exact (fun Name => @variant_returns Name). Qed.
Print Assumptions C45_variant.
Theorem C45_variant_unknown : forall Name name_eqb, (forall a b : Name, name_eqb a b = true <-> a = b) ->
  forall (l : list (alternative Name)) (x : variant_of l) s i, ~ In s (map aname l) ->
  load (variant name_eqb l) x (Text s :: i) = (x, None).
Proof. exact (fun Name => @variant_unknown Name). Qed.
Print Assumptions C45_variant_unknown.
Theorem C45_variant_throws : forall Name name_eqb (l : list (alternative Name)) (x x' : variant_of l) i,
  load (variant name_eqb l) x i = (x', None) -> x' = x.
Proof. exact (fun Name => @variant_throws Name). Qed.
Print Assumptions C45_variant_throws.

(** Different values are saved differently, also with something after them. *)
Theorem C45_injective : forall Name A (same : A -> A -> Prop) (c : codec Name A) x a b,
  returns same c x a -> returns same c x b -> (forall a b a', same a' a -> same a' b -> same a b) ->
  forall r r', save c a ++ r = save c b ++ r' -> same a b /\ r = r'.
Proof. exact (fun Name A => @save_inj Name A). Qed.
Print Assumptions C45_injective.

(** ** What does not hold *)

(** A default-constructed object may have a vector that is not empty: an empty vector
    that was saved is not loaded into it. *)
Definition vector_types : list Type := [nat : Type; list nat : Type].
Definition with_vector : codec nat (members vector_types) :=
  struct (ts := vector_types) (word, (sequence word 0, tt)).
Theorem C45_default_refuted : exists (default a : members vector_types) r,
  load with_vector default (save with_vector a) = (r, Some []) /\ r <> a.
Proof.
  exists (0, ([7], tt)), (3, ([], tt)), (3, ([7], tt)). split; [reflexivity|discriminate].
Qed.
Print Assumptions C45_default_refuted.
(** Or a map that is not empty: an exception is thrown. *)
Definition map_types : list Type := [nat : Type; list (nat * nat) : Type].
Definition with_map : codec nat (members map_types) :=
  struct (ts := map_types) (word, (dict Nat.eqb word word 0 0, tt)).
Theorem C45_default_map_refuted : exists (default a : members map_types) r,
  load with_map default (save with_map a) = (r, None).
Proof. exists (0, ([(7, 70)], tt)), (3, ([(8, 80)], tt)), (3, ([(7, 70); (8, 80)], tt)). reflexivity. Qed.
Print Assumptions C45_default_map_refuted.

(** Objects that are not kept under their id change their key, or are lost. *)
Definition pair_of_words : codec nat (nat * nat) :=
  Codec (fun x => [Word (fst x); Word (snd x)])
        (fun x ts => match ts with Word a :: Word b :: ts => ((a, b), Some ts) | _ => (x, None) end).
Theorem C45_auto_refuted : exists (v r : list (nat * (nat * nat))),
  NoDup (map fst v) /\
  load (auto_dict Nat.eqb pair_of_words (0, 0) fst) [] (save (auto_dict Nat.eqb pair_of_words (0, 0) fst) v) = (r, Some []) /\
  map fst r <> map fst v.
Proof.
  exists [(1, (5, 50)); (2, (6, 60))], [(5, (5, 50)); (6, (6, 60))].
  split; [repeat constructor; cbn; intuition discriminate|]. split; [reflexivity|discriminate].
Qed.
Print Assumptions C45_auto_refuted.

(** Variants with the same type twice, or types of the same name: the first is loaded. *)
Theorem C45_variant_refuted : exists (l : list (alternative nat)) (x v w : variant_of l),
  load (variant Nat.eqb l) x (save (variant Nat.eqb l) v) = (w, Some []) /\ w <> v.
Proof.
  exists [Alt nat word 0 9; Alt nat word 0 9].
  exists (inl 0), (inr (inl 3)), (inl 3). split; [reflexivity|discriminate].
Qed.
Print Assumptions C45_variant_refuted.

(** ** Exactly which archives load, and what they load

    [elements], [pairs], [members_read] and [held_read] say what the archive starts with. *)
Theorem C45_sequence_exact : forall Name A (c : codec Name A) fresh x ts r rest,
  load (sequence c fresh) x ts = (r, Some rest) <->
  exists l ts1, ts = Size (length l) :: ts1 /\ elements c fresh l ts1 rest /\
    (l = [] /\ r = x \/ l <> [] /\ r = l).
Proof. exact (fun Name A => @sequence_exact Name A). Qed.
Print Assumptions C45_sequence_exact.
Theorem C45_box_exact : forall Name A (c : codec Name A) fresh x ts r rest,
  load (box c fresh) x ts = (r, Some rest) <-> load c fresh ts = (r, Some rest).
Proof. exact (fun Name A => @box_exact Name A). Qed.
Print Assumptions C45_box_exact.
(** Sets: the number must be that of the elements the set has afterwards. *)
Theorem C45_set_exact : forall Name A (c : codec Name A) fresh eqb, (forall a b, eqb a b = true <-> a = b) ->
  forall x ts rest, NoDup x ->
  (forall r, load (set c fresh eqb) x ts = (r, Some rest) ->
     exists l ts1, ts = Size (length l) :: ts1 /\ elements c fresh l ts1 rest /\
       union x l r /\ length r = length l) /\
  (forall l ts1 u, ts = Size (length l) :: ts1 -> elements c fresh l ts1 rest ->
     union x l u -> length u = length l -> exists r, load (set c fresh eqb) x ts = (r, Some rest)).
Proof. exact (fun Name A => @set_exact Name A). Qed.
Print Assumptions C45_set_exact.
Theorem C45_set_fresh : forall Name A (c : codec Name A) fresh eqb, (forall a b, eqb a b = true <-> a = b) ->
  forall ts rest, (exists r, load (set c fresh eqb) [] ts = (r, Some rest)) <->
  exists l ts1, ts = Size (length l) :: ts1 /\ elements c fresh l ts1 rest /\ NoDup l.
Proof. exact (fun Name A => @set_fresh Name A). Qed.
Print Assumptions C45_set_fresh.
Theorem C45_map_exact : forall Name K A key_eqb (ck : codec Name K) (c : codec Name A) fresh_key fresh,
  (forall a b, key_eqb a b = true <-> a = b) -> forall m ts rest, NoDup (map fst m) ->
  (forall r, load (dict key_eqb ck c fresh_key fresh) m ts = (r, Some rest) ->
     exists l ts1, ts = Size (length l) :: ts1 /\ pairs ck c fresh_key fresh l ts1 rest /\
       assigned m l r /\ length r = length l) /\
  (forall l ts1 u, ts = Size (length l) :: ts1 -> pairs ck c fresh_key fresh l ts1 rest ->
     union (map fst m) (map fst l) u -> length u = length l ->
     exists r, load (dict key_eqb ck c fresh_key fresh) m ts = (r, Some rest)).
Proof. exact (fun Name K A => @map_exact Name K A). Qed.
Print Assumptions C45_map_exact.
Theorem C45_auto_exact : forall Name K A key_eqb (c : codec Name A) fresh,
  (forall a b : K, key_eqb a b = true <-> a = b) -> forall id m ts rest, NoDup (map fst m) ->
  (forall r, load (auto_dict key_eqb c fresh id) m ts = (r, Some rest) ->
     exists l ts1, ts = Size (length l) :: ts1 /\ elements c fresh l ts1 rest /\
       assigned m (map (fun x => (id x, x)) l) r /\ length r = length l) /\
  (forall l ts1 u, ts = Size (length l) :: ts1 -> elements c fresh l ts1 rest ->
     union (map fst m) (map id l) u -> length u = length l ->
     exists r, load (auto_dict key_eqb c fresh id) m ts = (r, Some rest)).
Proof. exact (fun Name K A => @auto_exact Name K A). Qed.
Print Assumptions C45_auto_exact.
Theorem C45_enum_exact : forall Name name_eqb, (forall a b : Name, name_eqb a b = true <-> a = b) ->
  forall (E : Type) (eqb : E -> E -> bool) (value_of : Name -> E) names x r ts rest,
  load (enumeration name_eqb eqb (apply value_of names)) x ts = (r, Some rest) <->
  exists s, In s names /\ ts = Text s :: rest /\ r = value_of s.
Proof. exact (fun Name => @enum_exact Name). Qed.
Print Assumptions C45_enum_exact.
Theorem C45_struct_exact : forall Name (ts : list Type) (cs : codecs Name ts) (x r : members ts) i rest,
  load (struct cs) x i = (r, Some rest) <-> members_read cs x r i rest.
Proof. exact (fun Name => @struct_exact Name). Qed.
Print Assumptions C45_struct_exact.
Theorem C45_tuple_exact : forall Name (ts : list Type) (cs : codecs Name ts) (x r : members ts) i rest,
  load (tuple cs) x i = (r, Some rest) <-> exists n i1, i = Size n :: i1 /\ members_read cs x r i1 rest.
Proof. exact (fun Name => @tuple_exact Name). Qed.
Print Assumptions C45_tuple_exact.
Theorem C45_variant_exact : forall Name name_eqb, (forall a b : Name, name_eqb a b = true <-> a = b) ->
  forall (l : list (alternative Name)) (x r : variant_of l) ts rest,
  load (variant name_eqb l) x ts = (r, Some rest) <->
  exists s i, ts = Text s :: i /\ held_read r s i rest.
Proof. exact (fun Name => @variant_exact Name). Qed.
Print Assumptions C45_variant_exact.
Theorem C45_plain : forall (Name : Type) (x r : Name) (y n : nat) (ts rest : list (token Name)),
  (load text x ts = (r, Some rest) <-> ts = Text r :: rest) /\
  (load word y ts = (n, Some rest) <-> ts = Word n :: rest) /\
  returns eq text x r /\ returns eq (word (Name := Name)) y n.
Proof.
  exact (fun Name x r y n ts rest => conj (text_exact Name x r ts rest)
    (conj (word_exact Name y n ts rest) (conj (text_returns Name x r) (CerealExact.word_returns Name y n)))).
Qed.
Print Assumptions C45_plain.
(** An archive with a key twice: loads into a map that has another key already. *)
Example C45_case_exact :
  load (dict Nat.eqb word word 0 0) [(1, 10)] [Size 2; Word 2; Word 20; Word 2; Word 21; Word 9]
    = ([(1, 10); (2, 21)], Some [Word (Name := nat) 9]) /\
  pairs word word 0 0 [(2, 20); (2, 21)] [Word 2; Word 20; Word 2; Word 21; Word 9] [Word (Name := nat) 9] /\
  load (auto_dict Nat.eqb pair_of_words (0, 0) fst) [] [Size 2; Word 2; Word 20; Word 2] = ([(2, (2, 20))], None).
Proof. repeat split. repeat (econstructor; [reflexivity|reflexivity|]). constructor. Qed.

(** ** A case with several of them *)
Definition word_returns : forall (x a : nat), returns eq (word (Name := nat)) x a := CerealExact.word_returns nat.
Definition ex_colours := apply (fun n => n - 100) [100; 101; 102].
Definition ex_alternatives : list (alternative nat) :=
  [Alt nat word 0 1; Alt (list nat) (sequence word 0) [] 2].
(** A struct of a colour, a map of numbers to vectors of numbers, and a variant. *)
Definition ex_types : list Type := [nat : Type; list (nat * list nat) : Type; variant_of ex_alternatives].
Definition ex_codec : codec nat (members ex_types) :=
  struct (ts := ex_types)
    (enumeration Nat.eqb Nat.eqb ex_colours,
      (dict Nat.eqb word (sequence word 0) 0 [], (variant Nat.eqb ex_alternatives, tt))).
Definition ex_default : members ex_types := (0, ([], (inl 0, tt))).
Definition ex_object : members ex_types := (2, ([(5, [50; 51]); (6, [])], (inr (inl [7; 8]), tt))).
Example ex_saved : save ex_codec ex_object =
  [Text 102; Size 2; Word 5; Size 2; Word 50; Word 51; Word 6; Size 0; Text 2; Size 2; Word 7; Word 8].
Proof. reflexivity. Qed.
Example ex_loaded : load ex_codec ex_default (save ex_codec ex_object ++ [Word 1]) = (ex_object, Some [Word 1]).
Proof. reflexivity. Qed.
Definition ex_same : relations ex_types :=
  (eq, (same_map (Forall2 eq), (same_variant (l := ex_alternatives) (eq, (Forall2 eq, tt)), tt))).
Example ex_returns : all_return (ts := ex_types) ex_same
    (enumeration Nat.eqb Nat.eqb ex_colours,
      (dict Nat.eqb word (sequence word 0) 0 [], (variant Nat.eqb ex_alternatives, tt))) ex_default ex_object.
Proof.
  assert (forall v, returns (Forall2 eq) (sequence (word (Name := nat)) 0) [] v) as S
    by (intros v; apply C45_sequence; intros; apply word_returns).
  split; [|split; [|split; [|exact I]]].
  - apply C45_enum; try (intros; apply Nat.eqb_eq). cbn. auto.
  - apply C45_map; [intros; apply Nat.eqb_eq|repeat constructor; cbn; intuition discriminate|].
    intros k a _. split; [apply word_returns|apply S].
  - apply C45_variant; [intros; apply Nat.eqb_eq|repeat constructor; cbn; intuition discriminate|]. apply S.
Qed.
Example ex_set : load (set word 0 Nat.eqb) [] (save (set (Name := nat) word 0 Nat.eqb) [3; 1; 2]) = ([3; 1; 2], Some [])
  /\ load (set (Name := nat) word 0 Nat.eqb) [9] [Size 1; Word 3] = ([9; 3], None)
  /\ load (set (Name := nat) word 0 Nat.eqb) [] [Size 2; Word 3; Word 3] = ([3], None).
Proof. repeat split. Qed.
Example ex_auto : load (auto_dict (Name := nat) Nat.eqb word 0 (fun x => x / 10)) []
    (save (auto_dict (Name := nat) Nat.eqb word 0 (fun x => x / 10)) [(5, 50); (6, 61)]) = ([(5, 50); (6, 61)], Some []).
Proof. reflexivity. Qed.
