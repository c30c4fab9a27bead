(** Serialization with names: the code of CerealModel.v with an archive that keeps them,
    as cereal's JSON archives do; lager/extra/cereal/*.hpp, json.hpp.

    The archive is cereal's and is not part of lager.  What is assumed of it: an object
    of class type is one node; a name-value pair is a member of the node with that name;
    values after a size tag are the elements of an array, and the size read is the number
    of elements.  When a name-value pair is loaded, the member at the current position is
    taken if it has the name, else the first one with the name; the position then is the
    one after it; if there is none an exception is thrown. *)
From Coq Require Import List Bool Arith.
From Verif Require Import ExtraModel CerealModel.
Import ListNotations.

Inductive node (Name : Type) : Type :=
| Num (n : nat)
| Str (s : Name)
| Object (l : list (Name * node Name))
| Array (l : list (node Name)).
Arguments Num {Name}. Arguments Str {Name}. Arguments Object {Name}. Arguments Array {Name}.

Section Model.
Context {Name : Type} (name_eqb : Name -> Name -> bool).
Notation node := (node Name).

(** [tload x n] loads into [x] from [n]: what [x] is then, and whether no exception was
    thrown. *)
Record tcodec (A : Type) : Type := TCodec {
  tsave : A -> node;
  tload : A -> node -> A * bool
}.
Arguments TCodec {A}. Arguments tsave {A}. Arguments tload {A}.

Definition tword : tcodec nat := TCodec Num
  (fun x n => match n with Num n => (n, true) | _ => (x, false) end).
Definition ttext : tcodec Name := TCodec Str
  (fun x n => match n with Str s => (s, true) | _ => (x, false) end).

(** ** Members with names *)

(** The first member from [i] on that has the name; and the one that the archive finds
    from position [pos]. *)
Fixpoint search (s : Name) (l : list (Name * node)) (i : nat) : option (nat * node) :=
  match l with
  | [] => None
  | (s', n) :: l => if name_eqb s' s then Some (i, n) else search s l (S i)
  end.
Definition find_member (s : Name) (l : list (Name * node)) (pos : nat) : option (nat * node) :=
  match nth_error l pos with
  | Some (s', n) => if name_eqb s' s then Some (pos, n) else search s l 0
  | None => search s l 0
  end.

Fixpoint fields (ts : list Type) : Type :=
  match ts with [] => unit | t :: ts => ((Name * tcodec t) * fields ts)%type end.

(** struct.hpp:65-85, derive/cereal.hpp:21-33. *)
Fixpoint fields_save {ts : list Type} : fields ts -> members ts -> list (Name * node) :=
  match ts with
  | [] => fun _ _ => []
  | t :: ts => fun fs x => (fst (fst fs), tsave (snd (fst fs)) (fst x)) :: fields_save (snd fs) (snd x)
  end.
(** optional_nvp.hpp:32-49: if the archive can tell whether a name is there
    ([has_name]), a member whose name is not there is left as it is.  [LAGER_DERIVE]
    (derive/cereal.hpp) does not check. *)
Fixpoint fields_load (has_name : bool) {ts : list Type} :
  fields ts -> members ts -> list (Name * node) -> nat -> members ts * bool :=
  match ts with
  | [] => fun _ x _ _ => (x, true)
  | t :: ts => fun fs x l pos =>
      match find_member (fst (fst fs)) l pos with
      | Some (i, n) => match tload (snd (fst fs)) (fst x) n with
                       | (y, true) => let r := fields_load has_name (snd fs) (snd x) l (S i) in ((y, fst r), snd r)
                       | (y, false) => ((y, snd x), false)
                       end
      | None => if has_name
                then let r := fields_load has_name (snd fs) (snd x) l pos in ((fst x, fst r), snd r)
                else (x, false)
      end
  end.
Definition tstruct (has_name : bool) {ts : list Type} (fs : fields ts) : tcodec (members ts) :=
  TCodec (fun x => Object (fields_save fs x))
         (fun x n => match n with Object l => fields_load has_name fs x l 0 | _ => (x, false) end).

(** ** Sequences, boxes, sets *)
Section Element.
Context {A : Type} (c : tcodec A) (fresh : A).

(** As [sequence_load]. *)
Fixpoint tsequence_loop (l : list node) (acc : list A) : option (list A) :=
  match l with
  | [] => Some acc
  | n :: l => match tload c fresh n with
              | (x, true) => tsequence_loop l (acc ++ [x])
              | (_, false) => None
              end
  end.
Definition tsequence : tcodec (list A) := TCodec (fun v => Array (map (tsave c) v))
  (fun v n => match n with
              | Array [] => (v, true)
              | Array l => match tsequence_loop l [] with Some r => (r, true) | None => (v, false) end
              | _ => (v, false)
              end).
(** immer_box.hpp:21-33: a node with a member "value". *)
Context (value : Name).
Definition tbox : tcodec A := TCodec (fun b => Object [(value, tsave c b)])
  (fun b n => match n with
              | Object l => match find_member value l 0 with
                            | Some (_, n) => match tload c fresh n with
                                             | (x, true) => (x, true)
                                             | (_, false) => (b, false)
                                             end
                            | None => (b, false)
                            end
              | _ => (b, false)
              end).
(** immer_set.hpp:23-54, as [set_load]. *)
Context (eqb : A -> A -> bool).
Fixpoint tset_loop (l : list node) (m : list A) : list A * bool :=
  match l with
  | [] => (m, true)
  | n :: l => match tload c fresh n with
              | (x, true) => tset_loop l (insert eqb x m)
              | (_, false) => (m, false)
              end
  end.
Definition tset : tcodec (list A) := TCodec (fun v => Array (map (tsave c) v))
  (fun m n => match n with
              | Array l => match tset_loop l m with
                           | (r, true) => (r, length l =? length r)
                           | (r, false) => (r, false)
                           end
              | _ => (m, false)
              end).
End Element.

(** ** Maps: immer_map.hpp:76-112; an item is a node with members "key" and "value". *)
Section Map.
Context {K A : Type} (key_eqb : K -> K -> bool) (ck : tcodec K) (c : tcodec A) (fresh_key : K) (fresh : A).
Context (key value : Name).
Definition item : tcodec (K * A) := TCodec (fun kx => Object [(key, tsave ck (fst kx)); (value, tsave c (snd kx))])
  (fun kx n => match n with
    | Object l =>
        match find_member key l 0 with
        | Some (i, n) =>
            match tload ck (fst kx) n with
            | (k, true) => match find_member value l (S i) with
                           | Some (_, n) => match tload c (snd kx) n with (x, b) => ((k, x), b) end
                           | None => ((k, snd kx), false)
                           end
            | (k, false) => ((k, snd kx), false)
            end
        | None => (kx, false)
        end
    | _ => (kx, false)
    end).
Fixpoint tmap_loop (l : list node) (m : list (K * A)) : list (K * A) * bool :=
  match l with
  | [] => (m, true)
  | n :: l => match tload item (fresh_key, fresh) n with
              | ((k, x), true) => tmap_loop l (assign key_eqb k x m)
              | (_, false) => (m, false)
              end
  end.
Definition tdict : tcodec (list (K * A)) := TCodec (fun m => Array (map (tsave item) m))
  (fun m n => match n with
              | Array l => match tmap_loop l m with
                           | (r, true) => (r, length l =? length r)
                           | (r, false) => (r, false)
                           end
              | _ => (m, false)
              end).
(** Maps of objects with a member [id]: 38-74; an array of the objects. *)
Context (id : A -> K).
Fixpoint tauto_loop (l : list node) (m : list (K * A)) : list (K * A) * bool :=
  match l with
  | [] => (m, true)
  | n :: l => match tload c fresh n with
              | (x, true) => tauto_loop l (assign key_eqb (id x) x m)
              | (_, false) => (m, false)
              end
  end.
Definition tauto_dict : tcodec (list (K * A)) := TCodec (fun m => Array (map (fun kx => tsave c (snd kx)) m))
  (fun m n => match n with
              | Array l => match tauto_loop l m with
                           | (r, true) => (r, length l =? length r)
                           | (r, false) => (r, false)
                           end
              | _ => (m, false)
              end).
End Map.

(** ** Tuples: tuple.hpp:22-51; an array.  The assertion on its size is not modelled;
    reading past the end of an array throws, elements too many are ignored. *)
Fixpoint tcodecs (ts : list Type) : Type :=
  match ts with [] => unit | t :: ts => (tcodec t * tcodecs ts)%type end.
Fixpoint tmembers_save {ts : list Type} : tcodecs ts -> members ts -> list node :=
  match ts with
  | [] => fun _ _ => []
  | t :: ts => fun cs x => tsave (fst cs) (fst x) :: tmembers_save (snd cs) (snd x)
  end.
Fixpoint tmembers_load {ts : list Type} : tcodecs ts -> members ts -> list node -> members ts * bool :=
  match ts with
  | [] => fun _ x _ => (x, true)
  | t :: ts => fun cs x l =>
      match l with
      | n :: l => match tload (fst cs) (fst x) n with
                  | (y, true) => let r := tmembers_load (snd cs) (snd x) l in ((y, fst r), snd r)
                  | (y, false) => ((y, snd x), false)
                  end
      | [] => (x, false)
      end
  end.
Definition ttuple {ts : list Type} (cs : tcodecs ts) : tcodec (members ts) :=
  TCodec (fun x => Array (tmembers_save cs x))
         (fun x n => match n with Array l => tmembers_load cs x l | _ => (x, false) end).

(** ** Enumerations: the name. *)
Definition tenum {E : Type} (eqb : E -> E -> bool) (t : list (E * Name)) (none : Name) : tcodec E :=
  TCodec (fun x => Str (match to_string eqb t x with Some n => n | None => none end))
         (fun x n => match n with
                     | Str s => match to_enum name_eqb t s with Some y => (y, true) | None => (x, false) end
                     | _ => (x, false)
                     end).

(** ** Variants: variant_with_name.hpp; a node with members "type" and "data". *)
Record talternative : Type := TAlt {
  tatype : Type;
  tacodec : tcodec tatype;
  tafresh : tatype;
  taname : Name
}.
Fixpoint tvariant_of (l : list talternative) : Type :=
  match l with [] => Empty_set | a :: l => (tatype a + tvariant_of l)%type end.
Context (type data : Name).
Fixpoint tvariant_save {l : list talternative} : tvariant_of l -> list (Name * node) :=
  match l with
  | [] => fun v => match v with end
  | a :: l => fun v => match v with
                       | inl x => [(type, Str (taname a)); (data, tsave (tacodec a) x)]
                       | inr v => tvariant_save v
                       end
  end.
Fixpoint tload_variant {l : list talternative} (target : Name) (n : option node) : option (tvariant_of l) :=
  match l with
  | [] => None
  | a :: l => if name_eqb (taname a) target
              then match n with
                   | Some n => match tload (tacodec a) (tafresh a) n with
                               | (x, true) => Some (inl x)
                               | (_, false) => None
                               end
                   | None => None
                   end
              else match tload_variant (l := l) target n with
                   | Some v => Some (inr v)
                   | None => None
                   end
  end.
Definition tvariant (l : list talternative) : tcodec (tvariant_of l) :=
  TCodec (fun v => Object (tvariant_save v))
    (fun v n => match n with
      | Object ms =>
          match find_member type ms 0 with
          | Some (i, Str s) =>
              match tload_variant s (match find_member data ms (S i) with Some (_, n) => Some n | None => None end) with
              | Some v => (v, true)
              | None => (v, false)
              end
          | _ => (v, false)
          end
      | _ => (v, false)
      end).
End Model.
Arguments tcodec : clear implicits.
Arguments TCodec {Name A}. Arguments tsave {Name A}. Arguments tload {Name A}.
Arguments TAlt {Name}. Arguments tatype {Name}. Arguments tacodec {Name}. Arguments tafresh {Name}. Arguments taname {Name}.
Arguments talternative : clear implicits.
Arguments fields : clear implicits.
Arguments tcodecs : clear implicits.
