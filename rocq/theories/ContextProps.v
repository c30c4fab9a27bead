(** C43, C44: contexts and lists of actions. *)
From Coq Require Import List Bool Arith Eqdep_dec.
From Verif Require Import DepsModel DepsSpec DepsProofs ContextModel ContextSpec ContextProofs.
Import ListNotations.

(** ** C44 *)

(** What is accepted by the merged actions is what is accepted by one or the other. *)
Theorem C44_accepts : forall ty (is_convertible : ty -> ty -> bool),
  (forall x, is_convertible x x = true) ->
  (forall x y z, is_convertible x y = true -> is_convertible y z = true -> is_convertible x z = true) ->
  forall t1 t2 m, merge_actions is_convertible t1 t2 = Some m ->
  forall x, accepts is_convertible (as_actions m) x <->
    accepts is_convertible (as_actions t1) x \/ accepts is_convertible (as_actions t2) x.
Proof.
  exact (fun ty cv Rf Tr t1 t2 m H x =>
    eq_ind_r (fun l => accepts cv l x <-> accepts cv (as_actions t1) x \/ accepts cv (as_actions t2) x)
      (merge_accepts cv Rf Tr _ _ x) (merge_actions_some cv t1 t2 m H)).
Qed.
Print Assumptions C44_accepts.

(** Each action listed by one or the other is accepted, also if conversions do not
    compose (those defined by the user do not). *)
Theorem C44_listed : forall ty (is_convertible : ty -> ty -> bool),
  (forall x, is_convertible x x = true) ->
  forall t1 t2 m, merge_actions is_convertible t1 t2 = Some m ->
  forall x, In x (as_actions t1 ++ as_actions t2) -> accepts is_convertible (as_actions m) x.
Proof.
  exact (fun ty cv Rf t1 t2 m H x I =>
    eq_ind_r (fun l => accepts cv l x) (merge_listed cv Rf _ _ x I) (merge_actions_some cv t1 t2 m H)).
Qed.
Print Assumptions C44_listed.

(** Two lists that are not empty can be merged; the result is the first list with some
    of the second, in order. *)
Theorem C44_defined : forall ty (is_convertible : ty -> ty -> bool) t1 t2,
  as_actions t1 <> [] -> as_actions t2 <> [] -> exists m, merge_actions is_convertible t1 t2 = Some m.
Proof. exact (fun ty => @merge_actions_defined ty). Qed.
Print Assumptions C44_defined.
Theorem C44_shape : forall ty (is_convertible : ty -> ty -> bool) t1 t2 m,
  merge_actions is_convertible t1 t2 = Some m ->
  exists rest, as_actions m = as_actions t1 ++ rest /\ some_of rest (as_actions t2).
Proof.
  exact (fun ty cv t1 t2 m H =>
    eq_ind_r (fun l => exists rest, l = as_actions t1 ++ rest /\ some_of rest (as_actions t2))
      (merge_prefix cv _ _) (merge_actions_some cv t1 t2 m H)).
Qed.
Print Assumptions C44_shape.

(** No action is convertible to an earlier one, unless it was so in the first list. *)
Theorem C44_irredundant : forall ty (is_convertible : ty -> ty -> bool) t1 t2 m,
  merge_actions is_convertible t1 t2 = Some m ->
  irredundant is_convertible (as_actions t1) -> irredundant is_convertible (as_actions m).
Proof.
  exact (fun ty cv t1 t2 m H I =>
    eq_ind_r (irredundant cv) (merge_irredundant cv _ _ I) (merge_actions_some cv t1 t2 m H)).
Qed.
Print Assumptions C44_irredundant.
Theorem C44_new : forall ty (is_convertible : ty -> ty -> bool) t1 t2 m,
  merge_actions is_convertible t1 t2 = Some m ->
  forall pre y post, as_actions m = as_actions t1 ++ pre ++ y :: post ->
  forall x, In x (as_actions t1 ++ pre) -> is_convertible y x = false.
Proof.
  exact (fun ty cv t1 t2 m H pre y post E =>
    merge_new cv _ _ pre y post (eq_trans (eq_sym (merge_actions_some cv t1 t2 m H)) E)).
Qed.
Print Assumptions C44_new.

(** The action that is chosen for another one: the first that it is convertible to. *)
Theorem C44_found : forall ty (is_convertible : ty -> ty -> bool) a l t,
  find_convertible is_convertible a l = Some t <->
  exists pre post, l = pre ++ t :: post /\ is_convertible a t = true /\
                   forall u, In u pre -> is_convertible a u = false.
Proof. exact (fun ty => @find_convertible_first ty). Qed.
Print Assumptions C44_found.

(** As stated, "no action type convertible to an earlier kept one" is false: the first
    list is kept as it is. *)
Theorem C44_redundant_refuted : exists (is_convertible : nat -> nat -> bool) t1 t2 m,
  (forall x, is_convertible x x = true) /\
  (forall x y z, is_convertible x y = true -> is_convertible y z = true -> is_convertible x z = true) /\
  merge_actions is_convertible t1 t2 = Some m /\ ~ irredundant is_convertible (as_actions m).
Proof.
  exists (fun a b => b <=? a), (AMany [0; 1]), (AOne 0), (AMany [0; 1]).
  repeat split.
  - intros x; apply Nat.leb_refl.
  - intros x y z A B. apply Nat.leb_le in A, B. apply Nat.leb_le. eapply Nat.le_trans; eauto.
  - intros I. pose proof (I [] 0 [] 1 [] eq_refl) as E. cbn in E. discriminate.
Qed.
Print Assumptions C44_redundant_refuted.

(** Earlier actions convertible to a later one are kept, too: [remove_convertibles]
    never removes anything. *)
Theorem C44_covered_refuted : exists (is_convertible : nat -> nat -> bool) t1 t2 m,
  (forall x, is_convertible x x = true) /\
  (forall x y z, is_convertible x y = true -> is_convertible y z = true -> is_convertible x z = true) /\
  merge_actions is_convertible t1 t2 = Some m /\ as_actions m = [1; 0] /\ is_convertible 1 0 = true.
Proof.
  exists (fun a b => b <=? a), (AOne 1), (AOne 0), (AMany [1; 0]).
  repeat split.
  - intros x; apply Nat.leb_refl.
  - intros x y z A B. apply Nat.leb_le in A, B. apply Nat.leb_le. eapply Nat.le_trans; eauto.
Qed.
Print Assumptions C44_covered_refuted.

(** Without composition of conversions what only one of them accepts by a conversion may
    be refused by the merged actions. *)
Theorem C44_accepts_refuted : exists (is_convertible : nat -> nat -> bool) t1 t2 m x,
  (forall x, is_convertible x x = true) /\ merge_actions is_convertible t1 t2 = Some m /\
  accepts is_convertible (as_actions t2) x /\ ~ accepts is_convertible (as_actions m) x.
Proof.
  exists (fun a b => (a =? b) || (a =? S b)), (AOne 0), (AOne 1), (AOne 0), 2.
  repeat split.
  - intros x; rewrite Nat.eqb_refl; reflexivity.
  - exists 1; cbn; auto.
  - intros (y & [<-|[]] & E); discriminate.
Qed.
Print Assumptions C44_accepts_refuted.

Example merging : merge_actions (fun a b => (a =? b) || (b =? 9)) (AMany [1; 2]) (AMany [2; 3; 9; 4])
  = Some (AMany [1; 2; 3; 9]).
Proof. reflexivity. Qed.
Example merging_one : merge_actions (fun a b => (a =? b) || (b =? 9)) (AOne 9) (AMany [2; 3]) = Some (AOne 9).
Proof. reflexivity. Qed.

(** ** C43 *)

(** One action, the conversions composed, is given to the dispatch function of the store,
    once. *)
Theorem C43_dispatch : forall ty (ty_dec : forall a b : ty, {a = b} + {a <> b})
  (val : ty -> Type) (conv : forall a b, option (val a -> val b)) R V L W LP (deref : W -> L -> V)
  root (deliver : val root -> R) (loop : LP) deps c0 c steps a f,
  store_context val conv root deliver loop deps = Some c0 ->
  hand_down ty_dec val conv deref c0 steps = Made c ->
  dispatch ty_dec val conv c a = Some f ->
  forall x, exists y, arrives val conv root (rev steps) a x y /\ f x = deliver y.
Proof.
  exact (fun ty ty_dec val conv R V L W LP deref => @dispatch_arrives ty ty_dec val conv R V L W LP deref).
Qed.
Print Assumptions C43_dispatch.

(** So with a meaning of actions that conversions keep: the converters are applied to
    it, the last one first. *)
Theorem C43_meaning : forall ty (ty_dec : forall a b : ty, {a = b} + {a <> b})
  (val : ty -> Type) (conv : forall a b, option (val a -> val b)) R V L W LP (deref : W -> L -> V)
  M (mean : forall a, val a -> M), kept_by_conversion val conv mean ->
  forall root (deliver : val root -> R) (loop : LP) deps c0 c steps a f,
  store_context val conv root deliver loop deps = Some c0 ->
  hand_down ty_dec val conv deref c0 steps = Made c ->
  dispatch ty_dec val conv c a = Some f ->
  forall ms, Forall2 (acts_as val mean) (rev steps) ms ->
  forall x, exists y, f x = deliver y /\ mean root y = fold_left (fun v m => m v) ms (mean a x).
Proof.
  exact (fun ty ty_dec val conv R V L W LP deref => @dispatch_means ty ty_dec val conv R V L W LP deref).
Qed.
Print Assumptions C43_meaning.

(** Every action listed can be dispatched. *)
Theorem C43_listed : forall ty (ty_dec : forall a b : ty, {a = b} + {a <> b})
  (val : ty -> Type) (conv : forall a b, option (val a -> val b)) R V L W LP (deref : W -> L -> V)
  root (deliver : val root -> R) (loop : LP) deps c0 c steps a,
  store_context val conv root deliver loop deps = Some c0 ->
  hand_down ty_dec val conv deref c0 steps = Made c ->
  In a (actions_after val root (rev steps)) -> exists f, dispatch ty_dec val conv c a = Some f.
Proof.
  exact (fun ty ty_dec val conv R V L W LP deref => @dispatch_listed ty ty_dec val conv R V L W LP deref).
Qed.
Print Assumptions C43_listed.

(** A context converts whenever the conditions on its constructors hold. *)
Theorem C43_convertible : forall ty (ty_dec : forall a b : ty, {a = b} + {a <> b})
  (val : ty -> Type) (conv : forall a b, option (val a -> val b)) R V L W LP (deref : W -> L -> V)
  s (c : @context ty val R V L W LP) d,
  match sconv s with
  | None => are_compatible val conv (sactions s) (types val (cdisp c)) = true
  | Some k => are_compatible_with val conv k (sactions s) (types val (cdisp c)) = true
  end ->
  convert ty_dec deref (sworld s) (sdeps s) (cdeps c) = Made d ->
  exists c', convert_context ty_dec val conv deref s c = Made c'.
Proof.
  exact (fun ty ty_dec val conv R V L W LP deref => @convertible_enough ty ty_dec val conv R V L W LP deref).
Qed.
Print Assumptions C43_convertible.

(** And only then; it throws if converting its dependencies does (C42_throws says when). *)
Theorem C43_exactly : forall ty (ty_dec : forall a b : ty, {a = b} + {a <> b})
  (val : ty -> Type) (conv : forall a b, option (val a -> val b)) R V L W LP (deref : W -> L -> V)
  s (c : @context ty val R V L W LP),
  ((exists c', convert_context ty_dec val conv deref s c = Made c') <->
   fitting val conv s (types val (cdisp c)) /\
   exists d, convert ty_dec deref (sworld s) (sdeps s) (cdeps c) = Made d) /\
  (convert_context ty_dec val conv deref s c = Thrown <->
   fitting val conv s (types val (cdisp c)) /\
   convert ty_dec deref (sworld s) (sdeps s) (cdeps c) = Thrown).
Proof.
  exact (fun ty ty_dec val conv R V L W LP deref => @convert_context_exact ty ty_dec val conv R V L W LP deref).
Qed.
Print Assumptions C43_exactly.

(** The event loop is that of the store, and the dependencies are those of the store
    converted as often (C42_chain says which these are). *)
Theorem C43_shared : forall ty (ty_dec : forall a b : ty, {a = b} + {a <> b})
  (val : ty -> Type) (conv : forall a b, option (val a -> val b)) R V L W LP (deref : W -> L -> V)
  root (deliver : val root -> R) (loop : LP) deps c0 c steps,
  store_context val conv root deliver loop deps = Some c0 ->
  hand_down ty_dec val conv deref c0 steps = Made c ->
  cloop c = loop /\
  pass_on ty_dec deref deps (map (fun s => (sworld s, sdeps s)) steps) = Made (cdeps c).
Proof.
  exact (fun ty ty_dec val conv R V L W LP deref => @handed_down ty ty_dec val conv R V L W LP deref).
Qed.
Print Assumptions C43_shared.

(** *** A case: the store takes numbers or flags; a context for numbers only is made of
    it, then one for flags by a converter, then one for both flags and units. *)
Definition ex_val (a : nat) : Type :=
  match a with 0 => (nat + bool)%type | 1 => nat | 2 => bool | _ => unit end.
Definition ex_conv (a b : nat) : option (ex_val a -> ex_val b) :=
  match a as a, b as b return option (ex_val a -> ex_val b) with
  | 0, 0 => Some (fun x => x)
  | 1, 0 => Some inl
  | 2, 0 => Some inr
  | 1, 1 => Some (fun x => x)
  | 2, 2 => Some (fun x => x)
  | S (S (S _)), S (S (S _)) => Some (fun x => x)
  | _, _ => None
  end.
(** Flags to numbers. *)
Definition ex_number : converter ex_val := fun a =>
  match a as a return option {r : nat & ex_val a -> ex_val r} with
  | 2 => Some (existT (fun r => ex_val 2 -> ex_val r) 1 (fun x : bool => if x then 5 else 6))
  | _ => None
  end.
(** Flags to flags, anything else to [true]. *)
Definition ex_flag : converter ex_val := fun a =>
  match a as a return option {r : nat & ex_val a -> ex_val r} with
  | 2 => Some (existT (fun r => ex_val 2 -> ex_val r) 2 negb)
  | S (S (S _)) => Some (existT (fun r => unit -> ex_val r) 2 (fun _ => true))
  | _ => None
  end.
Definition ex_deps : list (spec nat * stor nat nat nat) := [(Val 1, SVal 7); (Val 2, SVal 8)].
Definition ex_steps : list (step ex_val) :=
  [Step 0 [Val 1; Val 2] [1] None; Step 0 [Val 2] [2] (Some ex_number); Step 0 [Opt (Val 2)] [2; 3] (Some ex_flag)].
(** The store notes the actions it gets. *)
Definition ex_deliver (y : ex_val 0) (l : list (nat + bool)) : list (nat + bool) := l ++ [y].

Definition ex_run : list (option (list (nat + bool))) :=
  match store_context ex_val ex_conv 0 ex_deliver 77 ex_deps with
  | Some c0 =>
      match hand_down Nat.eq_dec ex_val ex_conv (fun _ l : nat => l) c0 ex_steps with
      | Made c =>
          [match dispatch Nat.eq_dec ex_val ex_conv c 2 with Some f => Some (f true []) | None => None end;
           match dispatch Nat.eq_dec ex_val ex_conv c 3 with Some f => Some (f tt [inr false]) | None => None end;
           match dispatch Nat.eq_dec ex_val ex_conv c 1 with Some f => Some (f 4 []) | None => None end]
      | _ => []
      end
  | None => []
  end.
Example ex_run_is : ex_run = [Some [inl 6]; Some [inr false; inl 5]; None].
Proof. reflexivity. Qed.

Example ex_deps_are :
  match store_context ex_val ex_conv 0 ex_deliver 77 ex_deps with
  | Some c0 =>
      match hand_down Nat.eq_dec ex_val ex_conv (fun _ l : nat => l) c0 ex_steps with
      | Made c => cloop c = 77 /\ get Nat.eq_dec 0 2 (cdeps c) = Some (RVal 8) /\ get Nat.eq_dec 0 1 (cdeps c) = None
      | _ => False
      end
  | None => False
  end.
Proof. repeat split. Qed.

(** Conversions keep the meaning "a number or a flag" of actions. *)
Definition ex_mean (a : nat) : ex_val a -> option (nat + bool) :=
  match a as a return ex_val a -> option (nat + bool) with
  | 0 => Some
  | 1 => fun n => Some (inl n)
  | 2 => fun b => Some (inr b)
  | _ => fun _ => None
  end.
Example ex_mean_kept : kept_by_conversion ex_val ex_conv ex_mean.
Proof.
  intros [|[|[|a]]] [|[|[|b]]] c x H; cbn in *; try discriminate; injection H as <-; reflexivity.
Qed.
Definition ex_means : list (option (nat + bool) -> option (nat + bool)) :=
  [(fun v : option (nat + bool) => match v with None => Some (inr true) | Some (inr b) => Some (inr (negb b)) | Some (inl n) => v end);
   (fun v : option (nat + bool) => match v with Some (inr b) => Some (inl (if b then 5 else 6)) | _ => v end);
   (fun v : option (nat + bool) => v)].
Example ex_acts : Forall2 (acts_as ex_val ex_mean) (rev ex_steps) ex_means.
Proof.
  assert (forall (k : converter ex_val) m,
    (forall a p x, k a = Some p -> ex_mean (projT1 p) (projT2 p x) = m (ex_mean a x)) ->
    forall w d l, acts_as ex_val ex_mean (Step (W := nat) w d l (Some k)) m) as A.
  { intros k m H w d l a r g x E. exact (H a (existT _ r g) x E). }
  constructor; [|constructor; [|constructor; [|constructor]]].
  - apply A. intros [|[|[|a]]] p x H; cbn in H; try discriminate; injection H as <-; reflexivity.
  - apply A. intros [|[|[|a]]] p x H; cbn in H; try discriminate; injection H as <-; reflexivity.
  - intros x; reflexivity.
Qed.

(** What is accepted for conversion cannot always be dispatched as it is: two conversions
    are ambiguous. *)
Theorem C43_ambiguous_refuted : exists (conv : nat -> nat -> option (unit -> unit))
    (c0 c : @context nat (fun _ => unit) unit nat nat nat unit),
  store_context (fun _ : nat => unit) conv 0 (fun _ => tt) tt [] = Some c0 /\
  hand_down Nat.eq_dec (fun _ : nat => unit) conv (fun _ l : nat => l) c0 [Step 0 [] [1; 2] None] = Made c /\
  are_compatible (fun _ : nat => unit) conv [3] (types (fun _ : nat => unit) (cdisp c)) = true /\
  dispatch Nat.eq_dec (fun _ : nat => unit) conv c 3 = None.
Proof.
  exists (fun a b => if b <=? a then Some (fun x => x) else None).
  eexists. eexists. split; [reflexivity|]. split; [reflexivity|]. split; reflexivity.
Qed.
Print Assumptions C43_ambiguous_refuted.
