(** Proofs about serialization with names. *)
From Coq Require Import List Bool Arith Permutation Lia.
From Verif Require Import ExtraModel ExtraProofs CerealModel CerealSpec CerealProofs JsonModel JsonSpec.
Import ListNotations.

Section Names.
Context {Name : Type} (name_eqb : Name -> Name -> bool).
Context (name_iff : forall a b, name_eqb a b = true <-> a = b).
Notation node := (node Name).

Lemma name_refl : forall s, name_eqb s s = true.
Proof. intros; apply name_iff; reflexivity. Qed.

Lemma search_none : forall s (l : list (Name * node)) i, search name_eqb s l i = None <-> ~ In s (map fst l).
Proof.
  induction l as [|[s' n] l IH]; cbn; intros i; [tauto|].
  destruct (name_eqb s' s) eqn:E.
  - apply name_iff in E. split; [discriminate|tauto].
  - rewrite IH. assert (s' <> s) by (intros ->; rewrite name_refl in E; discriminate). tauto.
Qed.
Lemma search_some : forall s (l : list (Name * node)) i j n, search name_eqb s l i = Some (j, n) -> In (s, n) l.
Proof.
  induction l as [|[s' n'] l IH]; cbn; intros i j n H; [discriminate|].
  destruct (name_eqb s' s) eqn:E.
  - apply name_iff in E; subst. injection H as _ <-. auto.
  - right. eapply IH; eauto.
Qed.
Lemma find_none : forall s (l : list (Name * node)) pos, find_member name_eqb s l pos = None <-> ~ In s (map fst l).
Proof.
  intros s l pos. unfold find_member. destruct (nth_error l pos) as [[s' n]|] eqn:E; [|apply search_none].
  destruct (name_eqb s' s) eqn:Q; [|apply search_none].
  apply name_iff in Q; subst. apply nth_error_In in E. split; [discriminate|].
  intros N; exfalso; apply N, in_map_iff. exists (s, n); auto.
Qed.
Lemma find_some : forall s (l : list (Name * node)) pos i n, find_member name_eqb s l pos = Some (i, n) -> In (s, n) l.
Proof.
  intros s l pos i n. unfold find_member. destruct (nth_error l pos) as [[s' n']|] eqn:E; [|apply search_some].
  destruct (name_eqb s' s) eqn:Q; [|apply search_some].
  apply name_iff in Q; subst. intros H; injection H as _ <-. eapply nth_error_In; eauto.
Qed.
Lemma unique : forall s (l : list (Name * node)) n n', NoDup (map fst l) -> In (s, n) l -> In (s, n') l -> n = n'.
Proof.
  induction l as [|[s0 n0] l IH]; cbn; intros n n' N H H'; [destruct H|].
  inversion N as [|? ? Ns Nl]; subst.
  assert (forall x, In (s, x) l -> In s (map fst l)) as K by (intros x Hx; apply in_map_iff; exists (s, x); auto).
  destruct H as [H|H], H' as [H'|H']; try congruence; eauto.
  - injection H as -> ->. exfalso. eapply Ns, K; eauto.
  - injection H' as -> ->. exfalso. eapply Ns, K; eauto.
Qed.
Lemma find_in : forall s (l : list (Name * node)) pos n, NoDup (map fst l) -> In (s, n) l ->
  exists i, find_member name_eqb s l pos = Some (i, n).
Proof.
  intros s l pos n N H. destruct (find_member name_eqb s l pos) as [[i n']|] eqn:E.
  - exists i. rewrite (unique s l n' n N (find_some _ _ _ _ _ E) H). reflexivity.
  - exfalso. apply find_none in E. apply E, in_map_iff. exists (s, n); auto.
Qed.

(** Loading members by name. *)
Lemma fields_load_by_name : forall (ts : list Type) (fs : fields Name ts) x l pos,
  NoDup (map fst l) -> loadable fs l x ->
  exists y, fields_load name_eqb true fs x l pos = (y, true) /\ by_name fs l x y.
Proof.
  induction ts as [|t ts IH]; cbn; intros fs x l pos N L; [eauto|].
  destruct L as [L1 L2]. destruct fs as [[s c] fs], x as [x0 x]; cbn in *.
  destruct (find_member name_eqb s l pos) as [[i n]|] eqn:E.
  - assert (H := find_some _ _ _ _ _ E). specialize (L1 n H).
    destruct (tload c x0 n) as [y0 b] eqn:T. cbn in L1. subst b.
    destruct (IH fs x l (S i) N L2) as (y & Ey & By). rewrite Ey. exists (y0, y). cbn.
    split; [reflexivity|]. repeat split.
    + intros n' H'. rewrite (unique s l n' n N H' H). exact T.
    + intros D. exfalso. apply D, in_map_iff. exists (s, n); auto.
    + exact By.
  - apply find_none in E. destruct (IH fs x l pos N L2) as (y & Ey & By). rewrite Ey. exists (x0, y). cbn.
    split; [reflexivity|]. repeat split; auto.
    intros n' H'. exfalso. apply E, in_map_iff. exists (s, n'); auto.
Qed.
(** If one cannot be loaded an exception is thrown. *)
Lemma fields_load_throws : forall hn (ts : list Type) (fs : fields Name ts) x l pos,
  NoDup (map fst l) -> snd (fields_load name_eqb hn fs x l pos) = true -> loadable fs l x.
Proof.
  induction ts as [|t ts IH]; cbn; intros fs x l pos N H; [exact I|].
  destruct fs as [[s c] fs], x as [x0 x]; cbn in *.
  destruct (find_member name_eqb s l pos) as [[i n]|] eqn:E.
  - destruct (tload c x0 n) as [y0 [|]] eqn:T; [|discriminate]. cbn in H. split.
    + intros n' H'. rewrite (unique s l n' n N H' (find_some _ _ _ _ _ E)), T. reflexivity.
    + eapply IH; eauto.
  - apply find_none in E. destruct hn; [|discriminate]. cbn in H. split.
    + intros n' H'. exfalso. apply E, in_map_iff. exists (s, n'); auto.
    + eapply IH; eauto.
Qed.

Lemma save_names : forall (ts : list Type) (fs : fields Name ts) a, map fst (fields_save fs a) = field_names fs.
Proof. induction ts as [|t ts IH]; cbn; intros fs a; [reflexivity|]. rewrite IH. reflexivity. Qed.

(** Saved members, in any order and with others between them. *)
Lemma fields_load_saved : forall hn (ts : list Type) same (fs : fields Name ts) x a l pos,
  NoDup (map fst l) -> incl (fields_save fs a) l -> tall_return same fs x a ->
  exists y, fields_load name_eqb hn fs x l pos = (y, true) /\ same_members same y a.
Proof.
  induction ts as [|t ts IH]; cbn; intros same fs x a l pos N J R; [exists x; auto|].
  destruct R as [[y0 [T S0]] R]. destruct fs as [[s c] fs], x as [x0 x], a as [a0 a]; cbn in *.
  destruct (find_in s l pos (tsave c a0) N (J _ (or_introl eq_refl))) as (i & E). rewrite E, T.
  destruct (IH (snd same) fs x a l (S i) N) as (y & Ey & Sy); [intros z Hz; apply J; right; exact Hz|exact R|].
  rewrite Ey. exists (y0, y). auto.
Qed.
Theorem tstruct_returns : forall hn (ts : list Type) same (fs : fields Name ts) x a,
  NoDup (field_names fs) -> tall_return same fs x a ->
  treturns (same_members same) (tstruct name_eqb hn fs) x a.
Proof.
  intros hn ts same fs x a N R.
  apply fields_load_saved; [rewrite save_names; exact N|apply incl_refl|exact R].
Qed.
Theorem tstruct_any_order : forall hn (ts : list Type) same (fs : fields Name ts) x a l,
  NoDup (map fst l) -> incl (fields_save fs a) l -> tall_return same fs x a ->
  exists y, tload (tstruct name_eqb hn fs) x (Object l) = (y, true) /\ same_members same y a.
Proof. intros; apply fields_load_saved; assumption. Qed.
Theorem tstruct_by_name : forall (ts : list Type) (fs : fields Name ts) x l,
  NoDup (map fst l) ->
  (loadable fs l x <-> exists y, tload (tstruct name_eqb true fs) x (Object l) = (y, true)) /\
  (forall y, tload (tstruct name_eqb true fs) x (Object l) = (y, true) -> by_name fs l x y).
Proof.
  intros ts fs x l N. split; [split|].
  - intros L. destruct (fields_load_by_name ts fs x l 0 N L) as (y & E & _). exists y. exact E.
  - intros (y & E). cbn in E. eapply fields_load_throws; [exact N|rewrite E; reflexivity].
  - intros y E. cbn in E. destruct (fields_load_by_name ts fs x l 0 N) as (y' & E' & B).
    + eapply fields_load_throws; [exact N|rewrite E; reflexivity].
    + rewrite E in E'. injection E' as <-. exact B.
Qed.
Theorem tstruct_missing : forall (ts : list Type) (fs : fields Name ts) x l,
  (exists s, In s (field_names fs) /\ ~ In s (map fst l)) ->
  snd (tload (tstruct name_eqb false fs) x (Object l)) = false.
Proof.
  intros ts fs x l. cbn. generalize 0. revert fs x.
  induction ts as [|t ts IH]; cbn; intros fs x pos (s & H & D); [destruct H|].
  destruct fs as [[s0 c] fs], x as [x0 x]; cbn in *.
  destruct (find_member name_eqb s0 l pos) as [[i n]|] eqn:E; [|reflexivity].
  destruct (tload c x0 n) as [y0 [|]]; [|reflexivity]. cbn.
  apply IH. destruct H as [<-|H]; [|eauto].
  exfalso. apply D, in_map_iff. exists (s0, n). split; [reflexivity|]. eapply find_some; eauto.
Qed.

Section Element.
Context {A : Type} (c : tcodec Name A) (fresh : A) (same : A -> A -> Prop).
Lemma tsequence_loop_returns : forall v acc, (forall a, In a v -> treturns same c fresh a) ->
  exists v', tsequence_loop c fresh (map (tsave c) v) acc = Some (acc ++ v') /\ Forall2 same v' v.
Proof.
  induction v as [|a v IH]; intros acc R; cbn.
  - exists []. rewrite app_nil_r. auto.
  - destruct (R a (or_introl eq_refl)) as (a' & E & S). rewrite E.
    destruct (IH (acc ++ [a'])) as (v' & Ev & Fv); [intros; apply R; right; assumption|].
    exists (a' :: v'). rewrite Ev, <- app_assoc. auto.
Qed.
Theorem tsequence_returns : forall x v, (forall a, In a v -> treturns same c fresh a) ->
  v <> [] \/ x = [] -> treturns (Forall2 same) (tsequence c fresh) x v.
Proof.
  intros x v R N. destruct (tsequence_loop_returns v [] R) as (v' & E & F). unfold treturns.
  destruct v as [|a v]; cbn.
  - destruct N as [N| ->]; [contradiction|]. exists []; auto.
  - cbn in E. rewrite E. eauto.
Qed.
Theorem tbox_returns : forall value x a, treturns same c fresh a ->
  treturns same (tbox name_eqb c fresh value) x a.
Proof.
  intros value x a (a' & E & S). exists a'. cbn. unfold find_member. cbn. rewrite name_refl, E. auto.
Qed.
End Element.

Section Map_.
Context {K A : Type} (key_eqb : K -> K -> bool) (ck : tcodec Name K) (c : tcodec Name A)
        (fresh_key : K) (fresh : A) (key value : Name) (same : A -> A -> Prop).
Context (key_iff : forall a b, key_eqb a b = true <-> a = b) (apart : key <> value).

Lemma titem_returns : forall k a, treturns eq ck fresh_key k -> treturns same c fresh a ->
  exists a', tload (item name_eqb ck c key value) (fresh_key, fresh) (tsave (item name_eqb ck c key value) (k, a))
             = ((k, a'), true) /\ same a' a.
Proof.
  intros k a (k' & Ek & ->) (a' & Ea & Sa). exists a'. cbn. unfold find_member. cbn.
  rewrite name_refl. cbn. rewrite Ek. cbn. rewrite name_refl, Ea. auto.
Qed.
Lemma tmap_loop_returns : forall v m,
  (forall k a, In (k, a) v -> treturns eq ck fresh_key k /\ treturns same c fresh a) ->
  exists v', tmap_loop name_eqb key_eqb ck c fresh_key fresh key value (map (tsave (item name_eqb ck c key value)) v) m
             = (assign_all key_eqb v' m, true) /\
    map fst v' = map fst v /\ Forall2 (fun x y => same (snd x) (snd y)) v' v.
Proof.
  induction v as [|[k a] v IH]; intros m R.
  - exists []. auto.
  - destruct (R k a (or_introl eq_refl)) as [Rk Ra].
    destruct (titem_returns k a Rk Ra) as (a' & E & S).
    destruct (IH (assign key_eqb k a' m)) as (v' & Ev & F & Sv); [intros; apply R; right; assumption|].
    exists ((k, a') :: v'). cbn [tmap_loop map]. rewrite E, Ev. cbn.
    repeat split; [f_equal; exact F|]. constructor; auto.
Qed.
Theorem tmap_returns : forall v, NoDup (map fst v) ->
  (forall k a, In (k, a) v -> treturns eq ck fresh_key k /\ treturns same c fresh a) ->
  treturns (same_map same) (tdict name_eqb key_eqb ck c fresh_key fresh key value) [] v.
Proof.
  intros v Nv R. destruct (tmap_loop_returns v [] R) as (v' & E & F & S).
  destruct (assign_all_loaded key_eqb fresh same key_iff [] v v' (NoDup_nil _) Nv F S) as [L D].
  exists (assign_all key_eqb v' []). cbn [tload tdict]. cbn [tsave tdict]. rewrite E. split; [|apply loaded_same; auto].
  rewrite map_length. destruct D as [[_ D]|[D _]].
  - rewrite (proj2 (Nat.eqb_eq _ _) D). reflexivity.
  - exfalso. apply D. intros ? [].
Qed.
End Map_.

Theorem tenum_returns : forall (E : Type) (eqb : E -> E -> bool), (forall a b, eqb a b = true <-> a = b) ->
  forall (value_of : Name -> E) names none x a, In a (map value_of names) ->
  treturns eq (tenum name_eqb eqb (apply value_of names) none) x a.
Proof.
  intros E eqb eqb_iff value_of names none x a I.
  destruct (round_trip eqb name_eqb eqb_iff name_iff value_of names a I) as (n & S & T & _).
  exists a. cbn. rewrite S, T. auto.
Qed.

Section Variant.
Context (type data : Name) (apart : type <> data).
Lemma tload_variant_returns : forall (l : list (talternative Name)) same (v : tvariant_of l),
  NoDup (map taname l) -> theld_returns same v ->
  exists s n, tvariant_save type data v = [(type, Str s); (data, n)] /\ In s (map taname l) /\
  exists w, tload_variant name_eqb (l := l) s (Some n) = Some w /\ tsame_variant same w v.
Proof.
  induction l as [|a l IH]; intros same v N R; [destruct v|].
  cbn in N. inversion N as [|? ? Na Nl]; subst. destruct v as [x|v]; cbn in R.
  - destruct R as (y & E & S). exists (taname a), (tsave (tacodec a) x).
    split; [reflexivity|]. split; [left; reflexivity|]. exists (inl y). split; [|exact S].
    cbn. rewrite name_refl, E. reflexivity.
  - destruct (IH _ v Nl R) as (s & n & E & I & w & Ew & S). exists s, n.
    split; [exact E|]. split; [right; exact I|]. exists (inr w). split; [|exact S].
    cbn. destruct (name_eqb (taname a) s) eqn:Q; [apply name_iff in Q; subst s; contradiction|].
    rewrite Ew. reflexivity.
Qed.
Theorem tvariant_returns : forall (l : list (talternative Name)) same (x v : tvariant_of l),
  NoDup (map taname l) -> theld_returns same v ->
  treturns (tsame_variant same) (tvariant name_eqb type data l) x v.
Proof.
  intros l same x v N R. destruct (tload_variant_returns l same v N R) as (s & n & E & _ & w & Ew & S).
  exists w. split; [|exact S]. cbn [tload tsave tvariant]. rewrite E. unfold find_member. cbn.
  rewrite name_refl. cbn. rewrite name_refl, Ew. reflexivity.
Qed.
(** In the file the data may come before the type. *)
Theorem tvariant_data_first : forall (l : list (talternative Name)) same (x v : tvariant_of l),
  NoDup (map taname l) -> theld_returns same v ->
  exists w, tload (tvariant name_eqb type data l) x (Object (rev (tvariant_save type data v))) = (w, true) /\
            tsame_variant same w v.
Proof.
  intros l same x v N R. destruct (tload_variant_returns l same v N R) as (s & n & E & _ & w & Ew & S).
  exists w. split; [|exact S]. cbn [tload tvariant]. rewrite E. cbn [rev app]. unfold find_member. cbn.
  destruct (name_eqb data type) eqn:Q; [apply name_iff in Q; congruence|].
  rewrite name_refl. cbn. rewrite name_refl, Ew. reflexivity.
Qed.
End Variant.
End Names.
