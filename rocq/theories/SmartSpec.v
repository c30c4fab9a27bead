(** What [x[a][b]...] should be, said of plain trees of values and without lenses. *)
From Coq Require Import List Arith Bool.
From Verif Require Import SmartModel.
Import ListNotations.

Inductive tree :=
| Num (n : nat)
| Opt (o : option tree)
| Seq (l : list tree)
| Dict (l : list (nat * tree))
| Rec (c : nat) (l : list tree).

Inductive step := AtKey (k : nat) | Field (c n : nat).

Definition is_opt (v : tree) : bool := match v with Opt _ => true | _ => false end.

(** What is in an optional, in an optional in an optional, ... *)
Fixpoint content (v : tree) : option tree :=
  match v with
  | Opt None => None
  | Opt (Some w) => content w
  | w => Some w
  end.
(** The element or member that a step leads to *)
Definition index (s : step) (v : tree) : option tree :=
  match s, v with
  | AtKey k, Seq l => nth_error l k
  | AtKey k, Dict l => option_map snd (find (fun e => fst e =? k) l)
  | Field c n, Rec c' l => if c =? c' then nth_error l n else None
  | _, _ => None
  end.
(** The place that a path leads to, through all optionals on the way *)
Fixpoint place (p : list step) (v : tree) : option tree :=
  match p with
  | [] => Some v
  | s :: r =>
      match content v with
      | Some w => match index s w with Some e => place r e | None => None end
      | None => None
      end
  end.
(** A path that can not fail: members only, and no optionals on the way *)
Fixpoint direct (p : list step) (v : tree) : bool :=
  match p with
  | [] => true
  | Field c n :: r =>
      negb (is_opt v) && match index (Field c n) v with Some e => direct r e | None => false end
  | AtKey _ :: _ => false
  end.

(** Reading: the value at the place; if the path may fail an optional, which is not
    wrapped again if it was a member that is one already. *)
Definition by_key (p : list step) : bool := match last p (Field 0 0) with AtKey _ => true | _ => false end.
Definition as_opt (key : bool) (e : tree) : tree :=
  if key then Opt (Some e) else if is_opt e then e else Opt (Some e).
Definition read (p : list step) (v : tree) : tree :=
  match place p v with
  | Some e => if direct p v then e else as_opt (by_key p) e
  | None => Opt None
  end.

(** Writing [y]: the tree with the place changed.  If the path may fail, [y] is an
    optional; an empty one changes nothing. *)
Definition new_value (d key : bool) (y e : tree) : tree :=
  if d then y
  else match y with
       | Opt (Some z) => if negb key && is_opt e then y else z
       | _ => e
       end.
Fixpoint inside (f : tree -> tree) (v : tree) : tree :=
  match v with
  | Opt None => v
  | Opt (Some w) => Opt (Some (inside f w))
  | w => f w
  end.
Fixpoint nth_changed (n : nat) (f : tree -> tree) (l : list tree) : list tree :=
  match l, n with
  | [], _ => []
  | x :: r, 0 => f x :: r
  | x :: r, S k => x :: nth_changed k f r
  end.
Fixpoint key_changed (k : nat) (f : tree -> tree) (l : list (nat * tree)) : list (nat * tree) :=
  match l with
  | [] => []
  | (k', x) :: r => if k' =? k then (k', f x) :: r else (k', x) :: key_changed k f r
  end.
Definition changed (s : step) (f : tree -> tree) (v : tree) : tree :=
  match s, v with
  | AtKey k, Seq l => Seq (nth_changed k f l)
  | AtKey k, Dict l => Dict (key_changed k f l)
  | Field c n, Rec c' l => if c =? c' then Rec c' (nth_changed n f l) else v
  | _, _ => v
  end.
Fixpoint changed_at (p : list step) (f : tree -> tree) (v : tree) : tree :=
  match p with
  | [] => f v
  | s :: r => inside (changed s (changed_at r f)) v
  end.
Definition write (p : list step) (y v : tree) : tree :=
  changed_at p (new_value (direct p v) (by_key p) y) v.

(** Two paths that part: at some point they take different steps. *)
Fixpoint part_ways (p q : list step) : Prop :=
  match p, q with
  | s :: p', s' :: q' =>
      s = s' /\ part_ways p' q' \/
      match s, s' with
      | AtKey k, AtKey k' => k <> k'
      | Field c n, Field c' n' => c <> c' \/ n <> n'
      | _, _ => True
      end
  | _, _ => False
  end.

(** ** Trees and types *)
Fixpoint tree_of (t : ty) : den t -> tree :=
  match t with
  | TNum => Num
  | TOpt a => fun x => Opt (option_map (tree_of a) x)
  | TVec _ a => fun x => Seq (map (tree_of a) x)
  | TMap _ a => fun x => Dict (map (fun e => (fst e, tree_of a (snd e))) x)
  | TClass c ms => fun x => Rec c (trees_of ms x)
  end
with trees_of (ms : members) : dens ms -> list tree :=
  match ms with
  | MNil => fun _ => []
  | MCons a r => fun x => tree_of a (fst x) :: trees_of r (snd x)
  end.
Definition arg_of (s : step) : arg :=
  match s with AtKey k => Key k | Field c n => Ptr c n end.
Fixpoint nth_member (ms : members) (n : nat) : option ty :=
  match ms, n with
  | MNil, _ => None
  | MCons a _, 0 => Some a
  | MCons _ r, S k => nth_member r k
  end.

(** Where a path leads in the values of a type, and whether it can not fail *)
Inductive leads : ty -> list step -> ty -> bool -> Prop :=
| LHere t : leads t [] t true
| LOpt t s p e d : leads t (s :: p) e d -> leads (TOpt t) (s :: p) e false
| LVec b t k p e d : leads t p e d -> leads (TVec b t) (AtKey k :: p) e false
| LMap b t k p e d : leads t p e d -> leads (TMap b t) (AtKey k :: p) e false
| LMember c ms n m p e d : nth_member ms n = Some m -> leads m p e d ->
    leads (TClass c ms) (Field c n :: p) e d.
Definition shown (d key : bool) (e : ty) : ty :=
  if d then e else if key then TOpt e else match e with TOpt _ => e | _ => TOpt e end.
Definition is_topt (t : ty) : bool := match t with TOpt _ => true | _ => false end.

(** [t] as an optional, an optional of optionals, ... *)
Fixpoint opts (n : nat) (t : ty) : ty := match n with 0 => t | S k => TOpt (opts k t) end.
Fixpoint wrap (n : nat) (t : ty) (v : den t) : den (opts n t) :=
  match n return den (opts n t) with 0 => v | S k => Some (wrap k t v) end.
Fixpoint deep (n : nat) (t : ty) : den (opts n t) -> option (den t) :=
  match n return den (opts n t) -> option (den t) with
  | 0 => fun x => Some x
  | S k => fun x => match x with Some y => deep k t y | None => None end
  end.
