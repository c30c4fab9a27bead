(** C46, C47: enumerations with names, derived equality and hash. *)
From Coq Require Import List Bool NArith Arith.
From Verif Require Import ExtraModel ExtraProofs.
Import ListNotations.

(** ** C46: for every enumeration ([value_of] gives the value of each name) and every
    list of its names. *)
Theorem C46_round_trip : forall (E Name : Type) (eqb : E -> E -> bool) (name_eqb : Name -> Name -> bool),
  (forall a b, eqb a b = true <-> a = b) -> (forall a b, name_eqb a b = true <-> a = b) ->
  forall (value_of : Name -> E) names x, In x (map value_of names) ->
  exists n, to_string eqb (apply value_of names) x = Some n /\
            to_enum name_eqb (apply value_of names) n = Some x /\ In n names.
Proof. exact (fun E Name eqb name_eqb H1 H2 => round_trip eqb name_eqb H1 H2). Qed.
Print Assumptions C46_round_trip.

(** Of several names for a value it is the first in the list. *)
Theorem C46_first_name : forall (E Name : Type) (eqb : E -> E -> bool),
  (forall a b, eqb a b = true <-> a = b) ->
  forall (value_of : Name -> E) names x n,
  to_string eqb (apply value_of names) x = Some n <->
  exists pre post, names = pre ++ n :: post /\ value_of n = x /\ forall m, In m pre -> value_of m <> x.
Proof. exact (fun E Name eqb H => first_name eqb H). Qed.
Print Assumptions C46_first_name.

(** What is not listed throws. *)
Theorem C46_unknown_value : forall (E Name : Type) (eqb : E -> E -> bool),
  (forall a b, eqb a b = true <-> a = b) ->
  forall (value_of : Name -> E) names x,
  to_string eqb (apply value_of names) x = None <-> ~ In x (map value_of names).
Proof. exact (fun E Name eqb H => unknown_value eqb H). Qed.
Print Assumptions C46_unknown_value.
Theorem C46_unknown_name : forall (E Name : Type) (name_eqb : Name -> Name -> bool),
  (forall a b, name_eqb a b = true <-> a = b) ->
  forall (value_of : Name -> E) names s,
  to_enum name_eqb (apply value_of names) s = None <-> ~ In s names.
Proof. exact (fun E Name name_eqb H => unknown_name name_eqb H). Qed.
Print Assumptions C46_unknown_name.

(** The names round-trip only if they are the first for their value. *)
Theorem C46_names_refuted : exists (value_of : nat -> nat) names n,
  In n names /\ to_enum Nat.eqb (apply value_of names) n <> None /\
  match to_enum Nat.eqb (apply value_of names) n with
  | Some x => to_string Nat.eqb (apply value_of names) x <> Some n
  | None => False
  end.
Proof. exists (fun n => Nat.div n 2), [4; 5; 6], 5. cbn. repeat split; try discriminate. auto. Qed.
Print Assumptions C46_names_refuted.

(** Names 10, 20, 21, 30 where 20 and 21 are two names of one value. *)
Definition ex_value (n : nat) : nat := Nat.div n 10.
Definition ex_table := apply ex_value [10; 20; 21; 30].
Example ex_strings : map (to_string Nat.eqb ex_table) [1; 2; 3; 4] = [Some 10; Some 20; Some 30; None].
Proof. reflexivity. Qed.
Example ex_enums : map (to_enum Nat.eqb ex_table) [10; 20; 21; 30; 22] = [Some 1; Some 2; Some 2; Some 3; None].
Proof. reflexivity. Qed.

(** ** C47 *)
Theorem C47_eq : forall (S : Type) (ms : list (member S)) a b, derived_eq ms a b = true <->
  forall m, In m ms -> meq m (mget m a) (mget m b) = true.
Proof. exact (fun S => @eq_iff S). Qed.
Print Assumptions C47_eq.
Theorem C47_ne : forall (S : Type) (ms : list (member S)) a b,
  derived_ne ms a b = true <-> ~ derived_eq ms a b = true.
Proof. exact (fun S ms a b => conj (fun H E => eq_true_false_abs _ E (proj1 (negb_true_iff _) H))
                                   (fun H => proj2 (negb_true_iff _) (not_true_is_false _ H))). Qed.
Print Assumptions C47_ne.
(** If the members determine the object, and equality of members is equality, the derived
    one is. *)
Theorem C47_leibniz : forall (S : Type) (ms : list (member S)),
  (forall m, In m ms -> forall x y, meq m x y = true <-> x = y) ->
  (forall a b : S, (forall m, In m ms -> mget m a = mget m b) -> a = b) ->
  forall a b, derived_eq ms a b = true <-> a = b.
Proof. exact (fun S => @eq_leibniz S). Qed.
Print Assumptions C47_leibniz.
Theorem C47_equivalence : forall (S : Type) (ms : list (member S)),
  (forall m, In m ms -> (forall x, meq m x x = true) /\
     (forall x y, meq m x y = true -> meq m y x = true) /\
     (forall x y z, meq m x y = true -> meq m y z = true -> meq m x z = true)) ->
  (forall a, derived_eq ms a a = true) /\
  (forall a b, derived_eq ms a b = true -> derived_eq ms b a = true) /\
  (forall a b c, derived_eq ms a b = true -> derived_eq ms b c = true -> derived_eq ms a c = true).
Proof. exact (fun S => @eq_equivalence S). Qed.
Print Assumptions C47_equivalence.

(** Equal objects have equal hashes if this is so of each member. *)
Theorem C47_hash : forall (S : Type) bits (ms : list (member S)) a b,
  (forall m, In m ms -> forall x y, meq m x y = true -> mhash m x = mhash m y) ->
  derived_eq ms a b = true ->
  derived_hash bits plain_seed ms a = derived_hash bits plain_seed ms b.
Proof. exact (fun S bits ms a b H => hash_eq bits plain_seed ms a b H eq_refl). Qed.
Print Assumptions C47_hash.
(** For templates, if also the type of the objects has the same hash. *)
Theorem C47_hash_template : forall (S : Type) bits (type_hash : S -> N) (ms : list (member S)) a b,
  (forall m, In m ms -> forall x y, meq m x y = true -> mhash m x = mhash m y) ->
  type_hash a = type_hash b -> derived_eq ms a b = true ->
  derived_hash bits type_hash ms a = derived_hash bits type_hash ms b.
Proof. exact (fun S => @hash_eq S). Qed.
Print Assumptions C47_hash_template.
(** It need not have: [typeid(x)] is the dynamic type where the class is polymorphic. *)
Theorem C47_hash_template_refuted : exists (S : Type) bits (type_hash : S -> N) (ms : list (member S)) a b,
  (forall m, In m ms -> forall x y, meq m x y = true -> mhash m x = mhash m y) /\
  derived_eq ms a b = true /\
  derived_hash bits type_hash ms a <> derived_hash bits type_hash ms b.
Proof.
  exists (bool * nat)%type, 64%N, (fun x : bool * nat => if fst x then 1%N else 2%N),
    [Member nat snd Nat.eqb N.of_nat], (true, 5), (false, 5).
  split; [|split; [reflexivity|vm_compute; discriminate]].
  intros m [<-|[]] x y H; cbn in *. apply Nat.eqb_eq in H. congruence.
Qed.
Print Assumptions C47_hash_template_refuted.

(** A struct of a number and a flag, and a member that is not listed. *)
Definition ex_members : list (member (nat * bool * nat)) :=
  [Member nat (fun s => fst (fst s)) Nat.eqb N.of_nat;
   Member bool (fun s => snd (fst s)) Bool.eqb (fun b => if b then 1%N else 0%N)].
Example ex_members_ok : forall m, In m ex_members -> forall x y, meq m x y = true -> mhash m x = mhash m y.
Proof.
  intros m [<-|[<-|[]]] x y H; cbn in *.
  - apply Nat.eqb_eq in H. subst; reflexivity.
  - apply Bool.eqb_prop in H. subst; reflexivity.
Qed.
Example ex_eq : derived_eq ex_members (1, true, 2) (1, true, 3) = true /\
                derived_eq ex_members (1, true, 2) (1, false, 2) = false /\
                derived_eq ex_members (2, true, 2) (1, true, 2) = false.
Proof. repeat split. Qed.
Example ex_hash : derived_hash 64 plain_seed ex_members (1, true, 2) = derived_hash 64 plain_seed ex_members (1, true, 3)
  /\ derived_hash 64 plain_seed ex_members (1, true, 2) <> derived_hash 64 plain_seed ex_members (1, false, 2).
Proof. vm_compute. split; [reflexivity|discriminate]. Qed.
