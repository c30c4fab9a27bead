(** What the counter in the terminal should do, said of the keys that were typed. *)
From Coq Require Import List Arith Bool ZArith.
Import ListNotations.
From Verif Require Import TermModel.
Local Open Scope Z_scope.

(** The keys that were typed, oldest first *)
Definition typed_in (ls : list label) : list key :=
  flat_map (fun l => match l with Type_ k => [k] | _ => [] end) ls.

Definition quits (k : key) : Prop := k = KQ \/ k = KEsc.

Definition ups (l : list key) : nat :=
  List.length (filter (fun k => match k with KUp => true | _ => false end) l).
Definition downs (l : list key) : nat :=
  List.length (filter (fun k => match k with KDown => true | _ => false end) l).

(** The number after the keys [l]: how often up and not down since the last space *)
Definition counts (l : list key) (v : Z) : Prop :=
  exists l1 l2, l = l1 ++ l2 /\ (l1 = [] \/ exists l0, l1 = l0 ++ [KSpace]) /\
                ~ In KSpace l2 /\ v = Z.of_nat (ups l2) - Z.of_nat (downs l2).

(** Steps of the program itself *)
Definition own (l : label) : Prop :=
  match l with Complete | Call _ | ReadKey | LoopEnd | Return => True | _ => False end.

(** The store has nothing left to do. *)
Definition idle (s : st) : Prop :=
  (forall a, ~ In (JReduce a) (ready s)) /\ ~ In JNotify (ready s).
