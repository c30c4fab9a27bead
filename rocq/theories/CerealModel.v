(** Serialization: lager/extra/cereal/*.hpp, lager/extra/derive/cereal.hpp.

    The archive is one that writes what it is given one after the other, as cereal's
    binary archives do: names of name-value pairs are not written, size tags are.  What
    is written for a number, a string or a size is one token.  Values are what the code
    sees of them: immer's vectors, flex_vectors and arrays are lists; maps are lists of
    pairs and sets are lists, in the order in which they are iterated.  (immer iterates
    in an order given by the hashes; here it is the order of insertion.  What is proved
    does not depend on the order.) *)
From Coq Require Import List Bool Arith.
From Verif Require Import ExtraModel.
Import ListNotations.

(** What an archive contains. *)
Inductive token (Name : Type) : Type :=
| Size (n : nat)
| Word (n : nat)
| Text (s : Name).
Arguments Size {Name}. Arguments Word {Name}. Arguments Text {Name}.

Section Model.
Context {Name : Type} (name_eqb : Name -> Name -> bool).
Notation tokens := (list (token Name)).

(** How a type is saved and loaded.  [load x ts] loads into the object [x]: it gives
    what [x] is then, and what of the archive has not been read, or [None] if an
    exception was thrown. *)
Record codec (A : Type) : Type := Codec {
  save : A -> tokens;
  load : A -> tokens -> A * option tokens
}.
Arguments Codec {A}. Arguments save {A}. Arguments load {A}.

(** ** What cereal provides itself *)
Definition word : codec nat := Codec (fun n => [Word n])
  (fun x ts => match ts with Word n :: ts => (n, Some ts) | _ => (x, None) end).
Definition text : codec Name := Codec (fun s => [Text s])
  (fun x ts => match ts with Text s :: ts => (s, Some ts) | _ => (x, None) end).

Section Element.
(** The codec of the elements, and an object as it is before it is loaded into: [T x;]. *)
Context {A : Type} (c : codec A) (fresh : A).

(** ** Sequences: immer_vector.hpp:27-62; the code in immer_flex_vector.hpp:26-62,
    immer_array.hpp:26-52 is the same.  Also the one for vectors of boxes,
    immer_vector.hpp:64-100, where the boxes' contents are saved and loaded. *)
Definition sequence_save (v : list A) : tokens := Size (length v) :: flat_map (save c) v.

(** The loop in [load]; the transient is destroyed if an element throws. *)
Fixpoint sequence_loop (n : nat) (acc : list A) (ts : tokens) : option (list A * tokens) :=
  match n with
  | 0 => Some (acc, ts)
  | S n => match load c fresh ts with
           | (x, Some ts) => sequence_loop n (acc ++ [x]) ts
           | (_, None) => None
           end
  end.
(** [if (!size) return;] leaves the target as it is. *)
Definition sequence_load (v : list A) (ts : tokens) : list A * option tokens :=
  match ts with
  | Size 0 :: ts => (v, Some ts)
  | Size n :: ts => match sequence_loop n [] ts with
                    | Some (r, ts) => (r, Some ts)
                    | None => (v, None)
                    end
  | _ => (v, None)
  end.
Definition sequence : codec (list A) := Codec sequence_save sequence_load.

(** ** Boxes: immer_box.hpp:21-33. *)
Definition box : codec A := Codec (save c)
  (fun b ts => match load c fresh ts with
               | (x, Some ts) => (x, Some ts)
               | (_, None) => (b, None)
               end).

(** ** Sets: immer_set.hpp.  [insert] of immer::set. *)
Context (eqb : A -> A -> bool).
Definition insert (x : A) (m : list A) : list A := if existsb (eqb x) m then m else m ++ [x].

Fixpoint set_loop (n : nat) (m : list A) (ts : tokens) : list A * option tokens :=
  match n with
  | 0 => (m, Some ts)
  | S n => match load c fresh ts with
           | (x, Some ts) => set_loop n (insert x m) ts
           | (_, None) => (m, None)
           end
  end.
(** immer_set.hpp:23-41, 43-54. *)
Definition set_load (m : list A) (ts : tokens) : list A * option tokens :=
  match ts with
  | Size n :: ts => match set_loop n m ts with
                    | (m, Some ts) => if n =? length m then (m, Some ts) else (m, None)
                    | (m, None) => (m, None)
                    end
  | _ => (m, None)
  end.
Definition set : codec (list A) := Codec sequence_save set_load.
End Element.

(** ** Maps: immer_map.hpp. *)
Section Map.
Context {K A : Type} (key_eqb : K -> K -> bool) (ck : codec K) (c : codec A) (fresh_key : K) (fresh : A).

(** [set] of immer::map. *)
Fixpoint assign (k : K) (x : A) (m : list (K * A)) : list (K * A) :=
  match m with
  | [] => [(k, x)]
  | (k', x') :: m => if key_eqb k k' then (k, x) :: m else (k', x') :: assign k x m
  end.

(** 76-97; [make_map_item] saves and loads the key, then the value. *)
Fixpoint map_loop (n : nat) (m : list (K * A)) (ts : tokens) : list (K * A) * option tokens :=
  match n with
  | 0 => (m, Some ts)
  | S n => match load ck fresh_key ts with
           | (k, Some ts) => match load c fresh ts with
                             | (x, Some ts) => map_loop n (assign k x m) ts
                             | (_, None) => (m, None)
                             end
           | (_, None) => (m, None)
           end
  end.
Definition map_load (m : list (K * A)) (ts : tokens) : list (K * A) * option tokens :=
  match ts with
  | Size n :: ts => match map_loop n m ts with
                    | (m, Some ts) => if n =? length m then (m, Some ts) else (m, None)
                    | (m, None) => (m, None)
                    end
  | _ => (m, None)
  end.
(** 99-112 *)
Definition map_save (m : list (K * A)) : tokens :=
  Size (length m) :: flat_map (fun kx => save ck (fst kx) ++ save c (snd kx)) m.
Definition dict : codec (list (K * A)) := Codec map_save map_load.

(** Maps of objects that have a member [id] of the type of the key, 38-74: only the
    objects are saved. *)
Context (id : A -> K).
Fixpoint auto_loop (n : nat) (m : list (K * A)) (ts : tokens) : list (K * A) * option tokens :=
  match n with
  | 0 => (m, Some ts)
  | S n => match load c fresh ts with
           | (x, Some ts) => auto_loop n (assign (id x) x m) ts
           | (_, None) => (m, None)
           end
  end.
Definition auto_load (m : list (K * A)) (ts : tokens) : list (K * A) * option tokens :=
  match ts with
  | Size n :: ts => match auto_loop n m ts with
                    | (m, Some ts) => if n =? length m then (m, Some ts) else (m, None)
                    | (m, None) => (m, None)
                    end
  | _ => (m, None)
  end.
Definition auto_save (m : list (K * A)) : tokens :=
  Size (length m) :: flat_map (fun kx => save c (snd kx)) m.
Definition auto_dict : codec (list (K * A)) := Codec auto_save auto_load.
End Map.

(** ** Enumerations: enum.hpp:97-109, cereal/enum.hpp:21-33; the name is saved.  Saving a
    value without a name throws: what is saved then is nothing. *)
Definition enumeration {E : Type} (eqb : E -> E -> bool) (t : list (E * Name)) : codec E :=
  Codec (fun x => match to_string eqb t x with Some n => [Text n] | None => [] end)
        (fun x ts => match ts with
                     | Text s :: ts => match to_enum name_eqb t s with
                                       | Some y => (y, Some ts)
                                       | None => (x, None)
                                       end
                     | _ => (x, None)
                     end).

(** ** Structs and tuples *)
Fixpoint members (ts : list Type) : Type :=
  match ts with [] => unit | t :: ts => (t * members ts)%type end.
Fixpoint codecs (ts : list Type) : Type :=
  match ts with [] => unit | t :: ts => (codec t * codecs ts)%type end.

(** The members one after the other.  Structs: struct.hpp:65-85 with
    optional_nvp.hpp:32-49 (nothing is skipped, because the archive is not a text
    archive); derive/cereal.hpp:21-33.  [serialize] both saves and loads; each member is
    loaded into the member of the target. *)
Fixpoint members_save {ts : list Type} : codecs ts -> members ts -> tokens :=
  match ts with
  | [] => fun _ _ => []
  | t :: ts => fun cs x => save (fst cs) (fst x) ++ members_save (snd cs) (snd x)
  end.
Fixpoint members_load {ts : list Type} : codecs ts -> members ts -> tokens -> members ts * option tokens :=
  match ts with
  | [] => fun _ x i => (x, Some i)
  | t :: ts => fun cs x i =>
      match load (fst cs) (fst x) i with
      | (y, Some i) => let r := members_load (snd cs) (snd x) i in ((y, fst r), snd r)
      | (y, None) => ((y, snd x), None)
      end
  end.
Definition struct {ts : list Type} (cs : codecs ts) : codec (members ts) :=
  Codec (members_save cs) (members_load cs).

(** tuple.hpp:22-51: the number of members comes first.  The number read is not used;
    the assertion that it is the number of members is not modelled. *)
Definition tuple {ts : list Type} (cs : codecs ts) : codec (members ts) :=
  Codec (fun x => Size (length ts) :: members_save cs x)
        (fun x i => match i with Size _ :: i => members_load cs x i | _ => (x, None) end).

(** ** Variants: variant_with_name.hpp.  An alternative: its type, how it is saved and
    loaded, how it is before it is loaded into, and its name, 40-45. *)
Record alternative : Type := Alt {
  atype : Type;
  acodec : codec atype;
  afresh : atype;
  aname : Name
}.
Fixpoint variant_of (l : list alternative) : Type :=
  match l with [] => Empty_set | a :: l => (atype a + variant_of l)%type end.

(** 73-81 *)
Fixpoint variant_save {l : list alternative} : variant_of l -> tokens :=
  match l with
  | [] => fun v => match v with end
  | a :: l => fun v => match v with
                       | inl x => Text (aname a) :: save (acodec a) x
                       | inr v => variant_save v
                       end
  end.
(** [load_variant], 47-69: the first alternative with the name read; [None]: an exception
    was thrown. *)
Fixpoint load_variant {l : list alternative} (target : Name) (i : tokens) : option (variant_of l * tokens) :=
  match l with
  | [] => None
  | a :: l => if name_eqb (aname a) target
              then match load (acodec a) (afresh a) i with
                   | (x, Some i) => Some (inl x, i)
                   | (_, None) => None
                   end
              else match load_variant (l := l) target i with
                   | Some (v, i) => Some (inr v, i)
                   | None => None
                   end
  end.
(** 84-91 *)
Definition variant (l : list alternative) : codec (variant_of l) :=
  Codec variant_save
    (fun v i => match i with
                | Text s :: i => match load_variant s i with
                                 | Some (v, i) => (v, Some i)
                                 | None => (v, None)
                                 end
                | _ => (v, None)
                end).
End Model.
Arguments codec : clear implicits.
Arguments Codec {Name A}. Arguments save {Name A}. Arguments load {Name A}.
Arguments Alt {Name}. Arguments atype {Name}. Arguments acodec {Name}. Arguments afresh {Name}. Arguments aname {Name}.
Arguments alternative : clear implicits.
Arguments codecs : clear implicits.
