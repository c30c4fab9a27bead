(** C63: [match]. *)
From Coq Require Import List Bool Arith Permutation.
From Verif Require Import UtilModel UtilSpec UtilProofs UtilRank.
Import ListNotations.

(** ** One handler is called
    with the values held, in order: the one that takes them better than any other.  Its
    result is returned. *)
Theorem C63_calls : forall conv value (vs : list (vexpr value)) hs i vals r,
  Forall sound vs -> match_ conv vs hs = Called i vals r ->
  exists l h, holding vs l vals /\ best conv hs l i h /\ length vals = length vs /\
    (forall x, stands_for vals (does h vals) x -> r = RVal x).
Proof. exact calls. Qed.
Print Assumptions C63_calls.
(** There is no other such handler. *)
Theorem C63_unique : forall conv value (hs : list (handler value)) l i h j k,
  best conv hs l i h -> best conv hs l j k -> i = j /\ h = k.
Proof. exact best_unique. Qed.
Print Assumptions C63_unique.

(** ** It compiles exactly if there is one for every combination of alternatives, all with
    the same type of result. *)
Theorem C63_compiles : forall conv value (vs : list (vexpr value)) hs, Forall sound vs ->
  (match_ conv vs hs <> IllFormed <->
   Forall variant vs /\
   exists R, forall l, alternatives vs l -> exists i h, best conv hs l i h /\ gives h (map ty l) = R).
Proof. exact compiles. Qed.
Print Assumptions C63_compiles.
(** Without a handler for one of them it does not compile. *)
Corollary C63_missing : forall conv value (vs : list (vexpr value)) hs l, Forall sound vs ->
  alternatives vs l -> (forall h, In h hs -> viable conv l (takes h) = false) ->
  match_ conv vs hs = IllFormed.
Proof.
  intros conv value vs hs l F A N.
  assert (X : ~ match_ conv vs hs <> IllFormed).
  { intros X. apply C63_compiles in X as [_ [R G]]; auto. destruct (G l A) as (i & h & (E & V & _) & _).
    rewrite (N h (nth_error_In _ _ E)) in V. discriminate. }
  destruct (match_ conv vs hs); auto; exfalso; apply X; discriminate.
Qed.
Print Assumptions C63_missing.
(** Two handlers with the same parameters: neither is called. *)
Theorem C63_not_twice : forall conv value (hs : list (handler value)) l i h j h',
  best conv hs l i h -> nth_error hs j = Some h' -> takes h' = takes h -> j = i.
Proof. exact not_twice. Qed.
Print Assumptions C63_not_twice.

(** ** It throws exactly if a variant is valueless, and no handler is called then. *)
Theorem C63_throws : forall conv value (vs : list (vexpr value)) hs, Forall sound vs ->
  match_ conv vs hs <> IllFormed ->
  (match_ conv vs hs = Threw <-> exists v, In v vs /\ held v = None).
Proof. exact throws. Qed.
Print Assumptions C63_throws.

(** ** The order in which the handlers are written does not matter. *)
Theorem C63_order : forall conv value (vs : list (vexpr value)) hs hs', Forall sound vs -> Permutation hs hs' ->
  match match_ conv vs hs with
  | Called i vals r => exists j, match_ conv vs hs' = Called j vals r /\ nth_error hs' j = nth_error hs i
  | o => match_ conv vs hs' = o
  end.
Proof. exact order. Qed.
Print Assumptions C63_order.

(** ** What inherits from a variant is like the variant. *)
Theorem C63_inherits : forall conv value (vs : list (vexpr value)) hs,
  match_ conv (map as_base vs) hs = match_ conv vs hs.
Proof. exact inherits. Qed.
Print Assumptions C63_inherits.

(** ** A handler made for what is held is the one, whatever else could take it, if
    parameters are taken by value or by reference to const. *)
Theorem C63_specific : forall conv value (hs : list (handler value)) l i h,
  nth_error hs i = Some h -> made_for h (map ty l) ->
  (forall j h', nth_error hs j = Some h' -> modest_sig (takes h')) ->
  (forall j h', nth_error hs j = Some h' -> made_for h' (map ty l) -> j = i) ->
  best conv hs l i h.
Proof. exact specific. Qed.
Print Assumptions C63_specific.

(** ** Which is preferred
    For one argument.  What can take it at all, apart from conversions: *)
Theorem C63_ways : forall conv a w,
  viable conv [a] (sig_of (ty a) w) = true <-> w = T_ \/ w = A_ \/ In w (ladder (cst a) (rv a)).
Proof. exact viable_ways. Qed.
Print Assumptions C63_ways.
(** References: the earlier in the list *)
Theorem C63_ladder : forall conv a i j w u, nth_error (ladder (cst a) (rv a)) i = Some w ->
  nth_error (ladder (cst a) (rv a)) j = Some u -> i < j ->
  better conv [a] (sig_of (ty a) w) (sig_of (ty a) u) = true.
Proof. exact ladder_better. Qed.
Print Assumptions C63_ladder.
(** By value: as good as other plain ones, better than generic ones; [auto]: as good as
    other generic ones, worse than plain ones *)
Theorem C63_by_value : forall conv a w, w <> T_ -> viable conv [a] (sig_of (ty a) w) = true ->
  (plain_way w -> better conv [a] (sig_of (ty a) T_) (sig_of (ty a) w) = false /\
                  better conv [a] (sig_of (ty a) w) (sig_of (ty a) T_) = false) /\
  (~ plain_way w -> better conv [a] (sig_of (ty a) T_) (sig_of (ty a) w) = true).
Proof. exact by_value. Qed.
Print Assumptions C63_by_value.
Theorem C63_by_auto : forall conv a w, w <> A_ -> viable conv [a] (sig_of (ty a) w) = true ->
  (plain_way w -> better conv [a] (sig_of (ty a) w) (sig_of (ty a) A_) = true) /\
  (~ plain_way w -> better conv [a] (sig_of (ty a) A_) (sig_of (ty a) w) = false /\
                    better conv [a] (sig_of (ty a) w) (sig_of (ty a) A_) = false).
Proof. exact by_auto. Qed.
Print Assumptions C63_by_auto.
(** A parameter of another type takes what converts to it, but worse. *)
Theorem C63_converted : forall conv p t a, takes_type p t -> t <> ty a ->
  viable conv [a] (Plain [p]) = match conv (ty a) t with Some _ => true | None => false end.
Proof. exact unlike. Qed.
Print Assumptions C63_converted.
Theorem C63_exact_first : forall conv p q t a, takes_type q t -> t <> ty a -> viable conv [a] (Plain [q]) = true ->
  In p [ByVal (ty a); CRef (ty a); LRef (ty a); RRef (ty a)] -> viable conv [a] (Plain [p]) = true ->
  better conv [a] (Plain [p]) (Plain [q]) = true.
Proof. exact exact_first. Qed.
Print Assumptions C63_exact_first.
(** Promotions are better than conversions, these better than those defined by users. *)
Theorem C63_ranks : forall conv p q t u a c d, takes_type p t -> takes_type q u -> t <> ty a -> u <> ty a ->
  conv (ty a) t = Some c -> conv (ty a) u = Some d -> worse_than d c ->
  better conv [a] (Plain [p]) (Plain [q]) = true.
Proof. exact ranks. Qed.
Print Assumptions C63_ranks.
Theorem C63_same_rank : forall conv p q t u a c, takes_type p t -> takes_type q u -> t <> ty a -> u <> ty a ->
  conv (ty a) t = Some c -> conv (ty a) u = Some c ->
  better conv [a] (Plain [p]) (Plain [q]) = true <->
  p = RRef t /\ q = CRef u /\ (c = User -> t = u).
Proof. exact same_rank. Qed.
Print Assumptions C63_same_rank.
(** For several arguments: worse at none, and better at one *)
Theorem C63_positions : forall conv l ps qs, viable conv l (Plain ps) = true -> viable conv l (Plain qs) = true ->
  better conv l (Plain ps) (Plain qs) = true <->
  (forall k a p q, position l ps k a p -> position l qs k a q -> better conv [a] (Plain [q]) (Plain [p]) = false) /\
  (exists k a p q, position l ps k a p /\ position l qs k a q /\ better conv [a] (Plain [p]) (Plain [q]) = true).
Proof. exact each_position. Qed.
Print Assumptions C63_positions.
Theorem C63_pack : forall conv p a, viable conv [a] (Generic [p]) = true ->
  better conv [a] (Generic [p]) (Variadic p) = true.
Proof. exact pack. Qed.
Print Assumptions C63_pack.
(** Generic ones of several const arguments: nowhere another one that is not better, and
    somewhere better; so those that are better at different places are ambiguous.  A
    pack is like as many parameters. *)
Theorem C63_generic : forall conv l ps qs, Forall const_arg l -> Forall ref_auto ps -> Forall ref_auto qs ->
  length ps = length l -> length qs = length l ->
  better conv l (Generic ps) (Generic qs) = true <->
  (forall k a p q, nth_error l k = Some a -> nth_error ps k = Some p -> nth_error qs k = Some q ->
     p = q \/ better conv [a] (Generic [p]) (Generic [q]) = true) /\
  (exists k a p q, nth_error l k = Some a /\ nth_error ps k = Some p /\ nth_error qs k = Some q /\
     better conv [a] (Generic [p]) (Generic [q]) = true).
Proof. exact const_position. Qed.
Print Assumptions C63_generic.
Theorem C63_packs : forall conv l p q, l <> [] ->
  better conv l (Variadic p) (Variadic q) =
  better conv l (Generic (repeat p (length l))) (Generic (repeat q (length l))).
Proof. exact packs. Qed.
Print Assumptions C63_packs.
Example C63_ex_generic : forall conv, let a := Arg 0 true false in
  better conv [a; a] (Generic [AutoCRef; AutoLRef]) (Generic [AutoFwd; AutoLRef]) = true /\
  better conv [a; a] (Generic [AutoCRef; AutoFwd]) (Generic [AutoFwd; AutoCRef]) = false /\
  better conv [a; a] (Generic [AutoFwd; AutoCRef]) (Generic [AutoCRef; AutoFwd]) = false /\
  better conv [a; a] (Variadic AutoCRef) (Variadic AutoFwd) = true.
Proof. repeat split; reflexivity. Qed.

(** ** Cases
    int is 0, float 1, std::string 2, double 3 *)
Definition std_conv (a b : nat) : option conversion :=
  match a, b with
  | 0, 1 | 0, 3 | 1, 0 | 3, 0 | 3, 1 => Some Conversion
  | 1, 3 => Some Promotion
  | _, _ => None
  end.
Definition takes_ (s : sig) : handler nat := Handler s (fun _ => TVal 0) (fun l => RVal (hd 0 l)).
Definition v3 (n x : nat) : vexpr nat := Vexpr IsVariant [0; 1; 2] false false (Some (n, x)).
Example C63_sound : Forall sound [v3 0 42; v3 2 7].
Proof.
  repeat apply Forall_cons; try apply Forall_nil; (split; [discriminate|cbn; intros n x H; injection H as <- <-; auto]).
Qed.
(** test/util.cpp *)
Example C63_ex_match : match_ std_conv [v3 0 42] [takes_ (Plain [ByVal 0]); takes_ (Generic [Auto])] = Called 0 [42] (RVal 42).
Proof. reflexivity. Qed.
Example C63_ex_catch : match_ std_conv [v3 2 7] [takes_ (Plain [ByVal 0]); takes_ (Generic [Auto])] = Called 1 [7] (RVal 7).
Proof. reflexivity. Qed.
Example C63_ex_inherits : match_ std_conv [Vexpr InheritsVariant [0; 1; 2] false false (Some (0, 42))]
  [takes_ (Plain [ByVal 0]); takes_ (Generic [Auto])] = Called 0 [42] (RVal 42).
Proof. reflexivity. Qed.
Example C63_ex_two : match_ std_conv [v3 0 1; v3 2 2]
  [takes_ (Plain [CRef 0; CRef 2]); takes_ (Variadic AutoFwd); takes_ (Generic [AutoCRef; Auto])] = Called 1 [1; 2] (RVal 1) /\
  match_ std_conv [v3 0 1; v3 2 2] [takes_ (Plain [CRef 0; CRef 2]); takes_ (Variadic AutoCRef); takes_ (Plain [CRef 0; CRef 0])]
  = Called 0 [1; 2] (RVal 1).
Proof. split; reflexivity. Qed.
Example C63_ex_missing : match_ std_conv [v3 0 42] [takes_ (Plain [ByVal 0])] = IllFormed.
Proof. reflexivity. Qed.
Example C63_ex_throws : match_ std_conv [Vexpr IsVariant [0; 1] false false None] [takes_ (Generic [Auto])] = Threw.
Proof. reflexivity. Qed.
Example C63_ex_order : match_ std_conv [v3 0 42] [takes_ (Generic [Auto]); takes_ (Plain [ByVal 0])] = Called 1 [42] (RVal 42).
Proof. reflexivity. Qed.
Example C63_ex_specific : made_for (takes_ (Plain [CRef 0])) [0] /\
  modest_sig (takes (takes_ (Plain [CRef 1]))) /\ modest_sig (takes (takes_ (Variadic AutoCRef))).
Proof.
  split; [exists [CRef 0]; split; [reflexivity|constructor; [right; reflexivity|constructor]]|].
  split; cbn; auto. constructor; [exists 1; right; reflexivity|constructor].
Qed.

(** ** What is not so
    An alternative without handler may go, converted, to that of another one. *)
Theorem C63_missing_refuted : exists conv (v : vexpr nat) hs, sound v /\ In 0 (alts v) /\
  (forall h, In h hs -> exists t, takes h = Plain [ByVal t] /\ t <> 0) /\
  match_ conv [v] hs = Called 0 [42] (RVal 42) /\ held v = Some (0, 42).
Proof.
  exists std_conv, (Vexpr IsVariant [0; 1; 2] false false (Some (0, 42))), [takes_ (Plain [ByVal 1]); takes_ (Plain [ByVal 2])].
  split; [split; [discriminate|cbn; intros n x H; injection H as <- <-; auto]|].
  split; [cbn; auto|]. split; [|split; reflexivity].
  intros h [<-|[<-|[]]]; [exists 1|exists 2]; split; auto; discriminate.
Qed.
Print Assumptions C63_missing_refuted.
(** A catch-all [auto&&] takes what a handler was made for. *)
Theorem C63_specific_refuted : exists conv (v : vexpr nat) h h', sound v /\ made_for h [0] /\
  takes h' = Generic [AutoFwd] /\ held v = Some (0, 42) /\ nth_error (alts v) 0 = Some 0 /\
  match_ conv [v] [h; h'] = Called 1 [42] (RVal 42).
Proof.
  exists std_conv, (v3 0 42), (takes_ (Plain [CRef 0])), (takes_ (Generic [AutoFwd])).
  split; [split; [discriminate|cbn; intros n x H; injection H as <- <-; auto]|].
  split; [exists [CRef 0]; split; [reflexivity|constructor; [right; reflexivity|constructor]]|]. repeat split; reflexivity.
Qed.
Print Assumptions C63_specific_refuted.
(** Several handlers that take an alternative may be as good as none. *)
Theorem C63_ambiguous_refuted : exists conv (v : vexpr nat) hs, sound v /\ held v = Some (0, 42) /\
  (forall l, alternatives [v] l -> exists h, In h hs /\ viable conv l (takes h) = true) /\
  match_ conv [v] hs = IllFormed.
Proof.
  exists std_conv, (Vexpr IsVariant [0] false false (Some (0, 42))), [takes_ (Plain [ByVal 1]); takes_ (Plain [ByVal 3])].
  split; [split; [discriminate|cbn; intros n x H; injection H as <- <-; auto]|]. split; auto. split; [|reflexivity].
  intros l A. apply in_combos in A. cbn in A. destruct A as [<-|[]]. exists (takes_ (Plain [ByVal 1])). cbn; auto.
Qed.
Print Assumptions C63_ambiguous_refuted.
(** A handler that returns a reference to what the variant holds: std::visit returns it,
    [match] a copy. *)
Theorem C63_reference_refuted : exists conv (v : vexpr nat) h, sound v /\
  visit conv [h] [v] = Called 0 [42] (RRefTo 0) /\ match_ conv [v] [h] = Called 0 [42] (RVal 42).
Proof.
  exists std_conv, (v3 0 42), (Handler (Generic [AutoLRef]) (fun _ => TRef 0) (fun _ => RRefTo 0)).
  split; [split; [discriminate|cbn; intros n x H; injection H as <- <-; auto]|]. split; reflexivity.
Qed.
Print Assumptions C63_reference_refuted.
