(** Proofs: which files can be loaded, and what is loaded. *)
From Coq Require Import List Bool Arith Lia.
From Verif Require Import ExtraModel ExtraProofs CerealModel CerealSpec CerealProofs JsonModel JsonSpec JsonProofs.
Import ListNotations.

Section Names.
Context {Name : Type} (name_eqb : Name -> Name -> bool).
Context (name_iff : forall a b, name_eqb a b = true <-> a = b).
Notation node := (node Name).

(** ** Numbers and strings *)
Lemma tword_exact (x y : nat) (n : node) : reads tword x n y <-> n = Num y.
Proof.
  unfold reads. split; [|intros ->; reflexivity].
  destruct n; cbn; intros H; try discriminate. injection H as ->. reflexivity.
Qed.
Lemma ttext_exact (x y : Name) (n : node) : reads ttext x n y <-> n = Str y.
Proof.
  unfold reads. split; [|intros ->; reflexivity].
  destruct n; cbn; intros H; try discriminate. injection H as ->. reflexivity.
Qed.

(** ** Structs *)
Lemma fields_load_missing (ts : list Type) : forall (fs : fields Name ts) x l pos,
  snd (fields_load name_eqb false fs x l pos) = true -> incl (field_names fs) (map fst l).
Proof.
  induction ts as [|t ts IH]; cbn; intros fs x l pos H; [intros ? []|].
  destruct fs as [[s c] fs], x as [x0 x]; cbn in *.
  destruct (find_member name_eqb s l pos) as [[i n]|] eqn:E; [|discriminate].
  destruct (tload c x0 n) as [y0 [|]]; [|discriminate]. cbn in H.
  intros z [<-|Hz]; [|eapply IH; eauto].
  apply in_map_iff. exists (s, n). split; auto. eapply find_some; eauto.
Qed.
Lemma by_name_loadable (ts : list Type) : forall (fs : fields Name ts) l x y,
  by_name fs l x y -> loadable fs l x.
Proof.
  induction ts as [|t ts IH]; cbn; intros fs l x y H; [exact I|].
  destruct H as (H1 & _ & H3). split; [|eapply IH; eauto].
  intros n Hn. rewrite (H1 n Hn). reflexivity.
Qed.
Lemma by_name_unique (ts : list Type) : forall (fs : fields Name ts) l x y y',
  by_name fs l x y -> by_name fs l x y' -> y = y'.
Proof.
  induction ts as [|t ts IH]; cbn; intros fs l x y y' H H'; [destruct y, y'; reflexivity|].
  destruct H as (A1 & A2 & A3), H' as (B1 & B2 & B3).
  destruct fs as [[s c] fs], x as [x0 x], y as [y0 y], y' as [y0' y']; cbn in *.
  f_equal; [|eapply IH; eauto].
  destruct (find_member name_eqb s l 0) as [[i n]|] eqn:E.
  - apply find_some in E; [|exact name_iff]. specialize (A1 n E). specialize (B1 n E).
    rewrite A1 in B1. congruence.
  - apply find_none in E; [|exact name_iff]. rewrite (A2 E), (B2 E). reflexivity.
Qed.
Lemma fields_load_any (ts : list Type) : forall (fs : fields Name ts) x l pos,
  incl (field_names fs) (map fst l) ->
  fields_load name_eqb false fs x l pos = fields_load name_eqb true fs x l pos.
Proof.
  induction ts as [|t ts IH]; cbn; intros fs x l pos J; [reflexivity|].
  destruct fs as [[s c] fs], x as [x0 x]; cbn in *.
  assert (K : incl (field_names fs) (map fst l)) by (intros z Hz; apply J; right; exact Hz).
  destruct (find_member name_eqb s l pos) as [[i n]|] eqn:E.
  - destruct (tload c x0 n) as [y0 [|]]; [|reflexivity]. rewrite (IH fs x l (S i) K). reflexivity.
  - apply find_none in E; [|exact name_iff]. exfalso. apply E, J. left. reflexivity.
Qed.
Theorem tstruct_exact : forall hn (ts : list Type) (fs : fields Name ts) x n y, clear n ->
  reads (tstruct name_eqb hn fs) x n y <->
  exists l, n = Object l /\ by_name fs l x y /\ (hn = false -> incl (field_names fs) (map fst l)).
Proof.
  intros hn ts fs x n y C. unfold reads. split.
  - destruct n as [k|s|l|l]; cbn; intros H; try discriminate. exists l. split; [reflexivity|].
    assert (L : loadable fs l x).
    { eapply (fields_load_throws name_eqb name_iff hn); [exact C|]. rewrite H. reflexivity. }
    assert (J : hn = false -> incl (field_names fs) (map fst l)).
    { intros ->. eapply fields_load_missing. rewrite H. reflexivity. }
    split; [|exact J].
    assert (H' : fields_load name_eqb true fs x l 0 = (y, true)).
    { destruct hn; [exact H|]. rewrite <- (fields_load_any ts fs x l 0 (J eq_refl)). exact H. }
    destruct (fields_load_by_name name_eqb name_iff ts fs x l 0 C L) as (y' & E & B).
    rewrite H' in E. injection E as <-. exact B.
  - intros (l & -> & B & J). cbn.
    assert (L := by_name_loadable _ _ _ _ _ B).
    destruct (fields_load_by_name name_eqb name_iff ts fs x l 0 C L) as (y' & E & B').
    rewrite (by_name_unique _ _ _ _ _ _ B B').
    destruct hn; [exact E|]. rewrite (fields_load_any ts fs x l 0 (J eq_refl)). exact E.
Qed.

(** ** Sequences, boxes, sets *)
Section Element.
Context {A : Type} (c : tcodec Name A) (fresh : A).
Lemma tsequence_loop_exact : forall l acc r,
  tsequence_loop c fresh l acc = Some r <-> exists v, r = acc ++ v /\ Forall2 (reads c fresh) l v.
Proof.
  induction l as [|n l IH]; cbn; intros acc r.
  - split.
    + intros H. injection H as <-. exists []. rewrite app_nil_r. auto.
    + intros (v & -> & F). inversion F. rewrite app_nil_r. reflexivity.
  - split.
    + destruct (tload c fresh n) as [x [|]] eqn:E; [|discriminate].
      intros H. apply IH in H. destruct H as (v & -> & F). exists (x :: v).
      rewrite <- app_assoc. split; [reflexivity|]. constructor; auto.
    + intros (v & -> & F). inversion F as [|? x ? v' R F' ]; subst. rewrite R.
      apply IH. exists v'. rewrite <- app_assoc. auto.
Qed.
Theorem tsequence_exact : forall x n y, reads (tsequence c fresh) x n y <->
  exists l, n = Array l /\ (l = [] /\ y = x \/ l <> [] /\ Forall2 (reads c fresh) l y).
Proof.
  intros x n y. unfold reads. split.
  - destruct n as [k|s|l|l]; cbn; intros H; try discriminate. exists l. split; [reflexivity|].
    destruct l as [|n l]; [left; split; congruence|]. right. split; [discriminate|].
    destruct (tsequence_loop c fresh (n :: l) []) as [r|] eqn:E; [|discriminate].
    apply tsequence_loop_exact in E. destruct E as (v & -> & F). injection H as <-. exact F.
  - intros (l & -> & [[-> ->]|[N F]]); [reflexivity|]. cbn. destruct l as [|n l]; [congruence|].
    assert (E : tsequence_loop c fresh (n :: l) [] = Some y).
    { apply tsequence_loop_exact. exists y. auto. }
    rewrite E. reflexivity.
Qed.
Theorem tsequence_unchanged : forall x n, snd (tload (tsequence c fresh) x n) = false ->
  fst (tload (tsequence c fresh) x n) = x.
Proof.
  intros x n. destruct n as [k|s|l|l]; cbn; auto. destruct l as [|n l]; auto.
  destruct (tsequence_loop c fresh (n :: l) []); [discriminate|auto].
Qed.

Theorem tbox_exact : forall value x n y, clear n ->
  reads (tbox name_eqb c fresh value) x n y <->
  exists l m, n = Object l /\ In (value, m) l /\ reads c fresh m y.
Proof.
  intros value x n y C. unfold reads. split.
  - destruct n as [k|s|l|l]; cbn; intros H; try discriminate.
    destruct (find_member name_eqb value l 0) as [[i m]|] eqn:E; [|discriminate].
    exists l, m. split; [reflexivity|]. split; [eapply find_some; eauto|].
    destruct (tload c fresh m) as [z [|]]; [congruence|discriminate].
  - intros (l & m & -> & I & R). cbn.
    destruct (find_in name_eqb name_iff value l 0 m C I) as (i & ->). rewrite R. reflexivity.
Qed.
Theorem tbox_unchanged : forall value x n, snd (tload (tbox name_eqb c fresh value) x n) = false ->
  fst (tload (tbox name_eqb c fresh value) x n) = x.
Proof.
  intros value x n. destruct n as [k|s|l|l]; cbn; auto.
  destruct (find_member name_eqb value l 0) as [[i m]|]; auto.
  destruct (tload c fresh m) as [z [|]]; [discriminate|auto].
Qed.

(** Sets. *)
Context (eqb : A -> A -> bool) (eqb_iff : forall a b, eqb a b = true <-> a = b).
Lemma insert_adds x m m' : insert eqb x m = m' <-> (In x m /\ m' = m \/ ~ In x m /\ m' = m ++ [x]).
Proof.
  unfold insert. destruct (existsb (eqb x) m) eqn:E.
  - apply existsb_exists in E. destruct E as (z & I & Q). apply eqb_iff in Q. subst z.
    split; [intros <-; auto|]. intros [[_ ->]|[N _]]; [reflexivity|contradiction].
  - assert (N : ~ In x m).
    { intros I. rewrite <- not_true_iff_false in E. apply E, existsb_exists. exists x.
      split; auto. apply eqb_iff; reflexivity. }
    split; [intros <-; auto|]. intros [[I _]|[_ ->]]; [contradiction|reflexivity].
Qed.
(** What was loaded when the loop ended. *)
Lemma tset_loop_exact : forall l m r, tset_loop c fresh eqb l m = (r, true) <->
  exists v, Forall2 (reads c fresh) l v /\ adds v m r.
Proof.
  induction l as [|n l IH]; cbn; intros m r.
  - split.
    + intros H. injection H as <-. exists []. cbn. auto.
    + intros (v & F & B). inversion F; subst. cbn in B. subst. reflexivity.
  - split.
    + destruct (tload c fresh n) as [x [|]] eqn:E; [|discriminate].
      intros H. apply IH in H. destruct H as (v & F & B). exists (x :: v).
      split; [constructor; auto|]. cbn. exists (insert eqb x m). split; [|exact B].
      apply insert_adds. reflexivity.
    + intros (v & F & B). inversion F as [|? x ? v' R F']; subst. rewrite R.
      cbn in B. destruct B as (m1 & P & B). apply insert_adds in P. rewrite P.
      apply IH. exists v'. auto.
Qed.
Lemma tset_loop_stops : forall l m r, tset_loop c fresh eqb l m = (r, false) ->
  exists l1 n l2 v, l = l1 ++ n :: l2 /\ Forall2 (reads c fresh) l1 v /\ adds v m r /\
    snd (tload c fresh n) = false.
Proof.
  induction l as [|n l IH]; cbn; intros m r H; [discriminate|].
  destruct (tload c fresh n) as [x [|]] eqn:E.
  - destruct (IH _ _ H) as (l1 & n' & l2 & v & -> & F & B & T).
    exists (n :: l1), n', l2, (x :: v). split; [reflexivity|]. split; [constructor; auto|].
    split; [|exact T]. cbn. exists (insert eqb x m). split; [|exact B]. apply insert_adds. reflexivity.
  - injection H as <-. exists [], n, l, []. split; [reflexivity|]. split; [constructor|].
    split; [reflexivity|]. rewrite E. reflexivity.
Qed.
Theorem tset_exact : forall m n r, reads (tset c fresh eqb) m n r <->
  exists l v, n = Array l /\ Forall2 (reads c fresh) l v /\ adds v m r /\ length r = length l.
Proof.
  intros m n r. unfold reads. split.
  - destruct n as [k|s|l|l]; cbn; intros H; try discriminate.
    destruct (tset_loop c fresh eqb l m) as [r' [|]] eqn:E; [|discriminate].
    injection H as -> Q. apply Nat.eqb_eq in Q.
    apply tset_loop_exact in E. destruct E as (v & F & B). exists l, v. auto.
  - intros (l & v & -> & F & B & Q). cbn.
    assert (E : tset_loop c fresh eqb l m = (r, true)) by (apply tset_loop_exact; eauto).
    rewrite E, Q, Nat.eqb_refl. reflexivity.
Qed.
(** If an exception is thrown, the items before are in the set. *)
Theorem tset_thrown : forall m n r, tload (tset c fresh eqb) m n = (r, false) ->
  (r = m /\ forall l, n <> Array l) \/
  exists l1 l2 v, n = Array (l1 ++ l2) /\ Forall2 (reads c fresh) l1 v /\ adds v m r /\
    match l2 with
    | n' :: _ => snd (tload c fresh n') = false
    | [] => length r <> length l1
    end.
Proof.
  intros m n r. destruct n as [k|s|l|l]; cbn; intros H; try (left; split; congruence).
  right. destruct (tset_loop c fresh eqb l m) as [r' [|]] eqn:E; injection H as ->.
  - apply Nat.eqb_neq in H. apply tset_loop_exact in E. destruct E as (v & F & B).
    exists l, [], v. rewrite app_nil_r. auto.
  - apply tset_loop_stops in E. destruct E as (l1 & n' & l2 & v & -> & F & B & T).
    exists l1, (n' :: l2), v. auto.
Qed.
End Element.

(** ** Maps *)
Section Map_.
Context {K A : Type} (key_eqb : K -> K -> bool) (key_iff : forall a b, key_eqb a b = true <-> a = b).

Lemma assign_put (k : K) (x : A) : forall m m', assign key_eqb k x m = m' <-> put k x m m'.
Proof.
  intros m m'. split.
  - intros <-. induction m as [|[k' y] m IH]; cbn; [right; auto|].
    destruct (key_eqb k k') eqn:E.
    + apply key_iff in E. subst k'. left. exists [], y, m. auto.
    + assert (N : k' <> k) by (intros ->; rewrite (proj2 (key_iff k k) eq_refl) in E; discriminate).
      destruct IH as [(a & z & b & -> & I & ->)|(I & ->)].
      * left. exists ((k', y) :: a), z, b. cbn. split; [reflexivity|]. split; [|reflexivity].
        intros [Q|Q]; [congruence|contradiction].
      * right. cbn. split; [|reflexivity]. intros [Q|Q]; [congruence|contradiction].
  - intros [(a & y & b & -> & I & ->)|(I & ->)].
    + induction a as [|[k' z] a IH]; cbn.
      * rewrite (proj2 (key_iff k k) eq_refl). reflexivity.
      * cbn in I. destruct (key_eqb k k') eqn:E; [apply key_iff in E; subst; tauto|].
        rewrite IH; tauto.
    + induction m as [|[k' z] m IH]; cbn; [reflexivity|].
      cbn in I. destruct (key_eqb k k') eqn:E; [apply key_iff in E; subst; tauto|].
      rewrite IH; tauto.
Qed.

(** Both kinds of maps: [rd] says what is read from a node. *)
Section Loop.
Context (rd : node -> option (K * A)).
Fixpoint loop (l : list node) (m : list (K * A)) : list (K * A) * bool :=
  match l with
  | [] => (m, true)
  | n :: l => match rd n with
              | Some (k, x) => loop l (assign key_eqb k x m)
              | None => (m, false)
              end
  end.
Lemma loop_exact : forall l m r, loop l m = (r, true) <->
  exists v, Forall2 (fun n kx => rd n = Some kx) l v /\ puts v m r.
Proof.
  induction l as [|n l IH]; cbn; intros m r.
  - split.
    + intros H. injection H as <-. exists []. cbn. auto.
    + intros (v & F & B). inversion F; subst. cbn in B. subst. reflexivity.
  - split.
    + destruct (rd n) as [[k x]|] eqn:E; [|discriminate].
      intros H. apply IH in H. destruct H as (v & F & B). exists ((k, x) :: v).
      split; [constructor; auto|]. cbn. exists (assign key_eqb k x m). split; [|exact B].
      apply assign_put. reflexivity.
    + intros (v & F & B). inversion F as [|? [k x] ? v' R F']; subst. rewrite R.
      cbn in B. destruct B as (m1 & P & B). apply assign_put in P. rewrite P.
      apply IH. exists v'. auto.
Qed.
Lemma loop_stops : forall l m r, loop l m = (r, false) ->
  exists l1 n l2 v, l = l1 ++ n :: l2 /\ Forall2 (fun n kx => rd n = Some kx) l1 v /\ puts v m r /\ rd n = None.
Proof.
  induction l as [|n l IH]; cbn; intros m r H; [discriminate|].
  destruct (rd n) as [[k x]|] eqn:E.
  - destruct (IH _ _ H) as (l1 & n' & l2 & v & -> & F & B & T).
    exists (n :: l1), n', l2, ((k, x) :: v). split; [reflexivity|]. split; [constructor; auto|].
    split; [|exact T]. cbn. exists (assign key_eqb k x m). split; [|exact B]. apply assign_put. reflexivity.
  - injection H as <-. exists [], n, l, []. split; [reflexivity|]. split; [constructor|].
    split; [reflexivity|exact E].
Qed.
Definition dict_of (m : list (K * A)) (n : node) : list (K * A) * bool :=
  match n with
  | Array l => match loop l m with
               | (r, true) => (r, length l =? length r)
               | (r, false) => (r, false)
               end
  | _ => (m, false)
  end.
Lemma dict_exact : forall m n r, dict_of m n = (r, true) <->
  exists l v, n = Array l /\ Forall2 (fun n kx => rd n = Some kx) l v /\ puts v m r /\ length r = length l.
Proof.
  intros m n r. split.
  - destruct n as [k|s|l|l]; cbn; intros H; try discriminate.
    destruct (loop l m) as [r' [|]] eqn:E; [|discriminate].
    injection H as -> Q. apply Nat.eqb_eq in Q.
    apply loop_exact in E. destruct E as (v & F & B). exists l, v. auto.
  - intros (l & v & -> & F & B & Q). cbn.
    assert (E : loop l m = (r, true)) by (apply loop_exact; eauto).
    rewrite E, Q, Nat.eqb_refl. reflexivity.
Qed.
Lemma dict_thrown : forall m n r, dict_of m n = (r, false) ->
  (r = m /\ forall l, n <> Array l) \/
  exists l1 l2 v, n = Array (l1 ++ l2) /\ Forall2 (fun n kx => rd n = Some kx) l1 v /\ puts v m r /\
    match l2 with
    | n' :: _ => rd n' = None
    | [] => length r <> length l1
    end.
Proof.
  intros m n r. destruct n as [k|s|l|l]; cbn; intros H; try (left; split; congruence).
  right. destruct (loop l m) as [r' [|]] eqn:E; injection H as ->.
  - apply Nat.eqb_neq in H. apply loop_exact in E. destruct E as (v & F & B).
    exists l, [], v. rewrite app_nil_r. auto.
  - apply loop_stops in E. destruct E as (l1 & n' & l2 & v & -> & F & B & T).
    exists l1, (n' :: l2), v. auto.
Qed.
End Loop.

Context (ck : tcodec Name K) (c : tcodec Name A) (fresh_key : K) (fresh : A) (key value : Name).
Definition read_item (n : node) : option (K * A) :=
  match tload (item name_eqb ck c key value) (fresh_key, fresh) n with (kx, true) => Some kx | _ => None end.
Lemma tmap_loop_as l : forall m,
  tmap_loop name_eqb key_eqb ck c fresh_key fresh key value l m = loop read_item l m.
Proof.
  induction l as [|n l IH]; intros m; cbn [tmap_loop loop]; [reflexivity|]. unfold read_item.
  destruct (tload (item name_eqb ck c key value) (fresh_key, fresh) n) as [[k x] [|]]; [apply IH|reflexivity].
Qed.
Lemma tdict_as m n :
  tload (tdict name_eqb key_eqb ck c fresh_key fresh key value) m n = dict_of read_item m n.
Proof. destruct n as [k|s|l|l]; cbn; try reflexivity. rewrite tmap_loop_as. reflexivity. Qed.
Lemma read_item_is n kx : clear n ->
  read_item n = Some kx <-> item_is ck c fresh_key fresh key value n kx.
Proof.
  intros C. unfold read_item, item_is, reads. destruct kx as [k x]. split.
  - destruct n as [i|s|l|l]; cbn; intros H; try discriminate.
    destruct (find_member name_eqb key l 0) as [[i nk]|] eqn:E; [|discriminate].
    destruct (tload ck fresh_key nk) as [k' [|]] eqn:T; [|discriminate].
    destruct (find_member name_eqb value l (S i)) as [[j na]|] eqn:E'; [|discriminate].
    destruct (tload c fresh na) as [x' [|]] eqn:T'; [|discriminate].
    injection H as -> ->. exists l, nk, na. split; [reflexivity|].
    split; [eapply find_some; eauto|]. split; [exact T|].
    split; [eapply find_some; eauto|exact T'].
  - intros (l & nk & na & -> & I & R & I' & R'). cbn. cbn in R, R', C.
    destruct (find_in name_eqb name_iff key l 0 nk C I) as (i & ->). rewrite R.
    destruct (find_in name_eqb name_iff value l (S i) na C I') as (j & ->). rewrite R'. reflexivity.
Qed.
Lemma forall2_clear l v : Forall clear l ->
  Forall2 (fun n kx => read_item n = Some kx) l v <-> Forall2 (item_is ck c fresh_key fresh key value) l v.
Proof.
  intros C. revert v. induction C as [|n l Cn C IH]; intros v.
  - split; intros F; inversion F; constructor.
  - split; intros F; inversion F; subst; constructor; try apply IH; auto; apply (read_item_is _ _ Cn); auto.
Qed.
Theorem tdict_exact : forall m n r, clear_items n ->
  reads (tdict name_eqb key_eqb ck c fresh_key fresh key value) m n r <->
  exists l v, n = Array l /\ Forall2 (item_is ck c fresh_key fresh key value) l v /\
    puts v m r /\ length r = length l.
Proof.
  intros m n r C. unfold reads. rewrite tdict_as, dict_exact.
  split; intros (l & v & -> & F & R); exists l, v; split; auto; split; auto; apply (forall2_clear _ _ C); auto.
Qed.
Theorem tdict_thrown : forall m n r, clear_items n ->
  tload (tdict name_eqb key_eqb ck c fresh_key fresh key value) m n = (r, false) ->
  (r = m /\ forall l, n <> Array l) \/
  exists l1 l2 v, n = Array (l1 ++ l2) /\ Forall2 (item_is ck c fresh_key fresh key value) l1 v /\ puts v m r /\
    match l2 with
    | n' :: _ => forall kx, ~ item_is ck c fresh_key fresh key value n' kx
    | [] => length r <> length l1
    end.
Proof.
  intros m n r C H. rewrite tdict_as in H. apply dict_thrown in H.
  destruct H as [H|(l1 & l2 & v & -> & F & P & E)]; [left; exact H|right].
  cbn in C. apply Forall_app in C. destruct C as [C1 C2].
  exists l1, l2, v. split; [reflexivity|]. split; [apply (forall2_clear _ _ C1); exact F|].
  split; [exact P|]. destruct l2 as [|n' l2]; [exact E|]. inversion C2; subst.
  intros kx I. apply read_item_is in I; [|assumption]. rewrite E in I. discriminate.
Qed.

(** Maps of objects with ids. *)
Context (id : A -> K).
Definition read_auto (n : node) : option (K * A) :=
  match tload c fresh n with (x, true) => Some (id x, x) | _ => None end.
Lemma tauto_loop_as l : forall m,
  tauto_loop key_eqb c fresh id l m = loop read_auto l m.
Proof.
  induction l as [|n l IH]; intros m; cbn [tauto_loop loop]; [reflexivity|]. unfold read_auto.
  destruct (tload c fresh n) as [x [|]]; [apply IH|reflexivity].
Qed.
Lemma tauto_as m n : tload (tauto_dict key_eqb c fresh id) m n = dict_of read_auto m n.
Proof. destruct n as [k|s|l|l]; cbn; try reflexivity. rewrite tauto_loop_as. reflexivity. Qed.
Lemma forall2_auto l : forall v, Forall2 (fun n kx => read_auto n = Some kx) l v <->
  Forall2 (reads c fresh) l (map snd v) /\ map fst v = map id (map snd v).
Proof.
  induction l as [|n l IH]; intros v.
  - split; [intros F; inversion F; split; constructor|]. intros [F _]. destruct v; [constructor|inversion F].
  - split.
    + intros F. inversion F as [|? [k x] ? v' R F']; subst. apply IH in F'. destruct F' as [F1 F2].
      unfold read_auto in R. destruct (tload c fresh n) as [y [|]] eqn:E; [|discriminate].
      injection R as <- <-. cbn. split; [constructor; auto|congruence].
    + intros [F Q]. destruct v as [|[k x] v]; [inversion F|]. cbn in F, Q.
      inversion F as [|? ? ? ? R F']; subst. injection Q as -> Q. constructor.
      * unfold read_auto. rewrite R. reflexivity.
      * apply IH. auto.
Qed.
Theorem tauto_exact : forall m n r,
  reads (tauto_dict key_eqb c fresh id) m n r <->
  exists l v, n = Array l /\ Forall2 (reads c fresh) l (map snd v) /\ map fst v = map id (map snd v) /\
    puts v m r /\ length r = length l.
Proof.
  intros m n r. unfold reads. rewrite tauto_as, dict_exact.
  split.
  - intros (l & v & -> & F & R). apply forall2_auto in F. destruct F. exists l, v. auto.
  - intros (l & v & -> & F & Q & R). exists l, v. split; auto. split; auto. apply forall2_auto. auto.
Qed.
Theorem tauto_thrown : forall m n r,
  tload (tauto_dict key_eqb c fresh id) m n = (r, false) ->
  (r = m /\ forall l, n <> Array l) \/
  exists l1 l2 v, n = Array (l1 ++ l2) /\ Forall2 (reads c fresh) l1 (map snd v) /\
    map fst v = map id (map snd v) /\ puts v m r /\
    match l2 with
    | n' :: _ => snd (tload c fresh n') = false
    | [] => length r <> length l1
    end.
Proof.
  intros m n r H. rewrite tauto_as in H. apply dict_thrown in H.
  destruct H as [H|(l1 & l2 & v & -> & F & P & E)]; [left; exact H|right].
  apply forall2_auto in F. destruct F as [F Q]. exists l1, l2, v.
  split; [reflexivity|]. split; [exact F|]. split; [exact Q|]. split; [exact P|].
  destruct l2 as [|n' l2]; [exact E|]. unfold read_auto in E.
  destruct (tload c fresh n') as [y [|]]; [discriminate|reflexivity].
Qed.
End Map_.

(** What [puts] gives for a target with distinct keys. *)
Section Puts.
Context {K A : Type}.
Lemma put_keys (k : K) (x : A) m m' : NoDup (map fst m) -> put k x m m' -> NoDup (map fst m') /\
  (forall z, In z (map fst m') <-> z = k \/ In z (map fst m)).
Proof.
  intros N [(a & y & b & -> & I & ->)|(I & ->)]; rewrite !map_app in *; cbn in *.
  - split; [exact N|]. intros z. rewrite !in_app_iff. cbn. intuition.
  - split.
    + rewrite <- (app_nil_r (map fst m)) in N. apply NoDup_rev in N. rewrite <- rev_involutive.
      apply NoDup_rev. rewrite rev_app_distr. cbn. constructor.
      * rewrite <- in_rev. exact I.
      * rewrite app_nil_r in N. exact N.
    + intros z. rewrite in_app_iff. cbn. intuition.
Qed.
Lemma puts_fresh : forall (v m : list (K * A)), NoDup (map fst m ++ map fst v) -> puts v m (m ++ v).
Proof.
  induction v as [|[k x] v IH]; intros m N; cbn; [apply app_nil_r|].
  exists (m ++ [(k, x)]). split.
  - right. split; [|reflexivity]. cbn in N. apply NoDup_remove_2 in N. intros I. apply N, in_app_iff. auto.
  - replace (m ++ (k, x) :: v) with ((m ++ [(k, x)]) ++ v) by (rewrite <- app_assoc; reflexivity).
    apply IH. rewrite map_app, <- app_assoc. exact N.
Qed.
End Puts.

(** ** Tuples *)
Theorem ttuple_exact : forall (ts : list Type) (cs : tcodecs Name ts) x n y,
  reads (ttuple cs) x n y <-> exists l, n = Array l /\ all_read cs x l y.
Proof.
  assert (H : forall (ts : list Type) (cs : tcodecs Name ts) x l y,
    tmembers_load cs x l = (y, true) <-> all_read cs x l y).
  { induction ts as [|t ts IH]; intros cs x l y.
    - destruct x, y. cbn. split; auto.
    - destruct cs as [c cs], x as [x0 x], y as [y1 y2].
      change (tmembers_load (ts := t :: ts) (c, cs) (x0, x) l) with
        (match l with
         | n :: l => match tload c x0 n with
                     | (y, true) => let r := tmembers_load cs x l in ((y, fst r), snd r)
                     | (y, false) => ((y, x), false)
                     end
         | [] => ((x0, x), false)
         end).
      cbn [all_read fst snd]. split.
      + destruct l as [|n l]; [discriminate|]. destruct (tload c x0 n) as [y0 [|]] eqn:E; [|discriminate].
        destruct (tmembers_load cs x l) as [r b] eqn:E'. cbn. intros Q. injection Q as -> -> ->.
        exists n, l. split; [reflexivity|]. split; [exact E|]. apply IH. exact E'.
      + intros (n & r & -> & R & Q). rewrite R. apply IH in Q. rewrite Q. reflexivity. }
  intros ts cs x n y. unfold reads. split.
  - destruct n as [k|s|l|l]; cbn; intros Q; try discriminate. exists l. split; [reflexivity|]. apply H, Q.
  - intros (l & -> & Q). cbn. apply H, Q.
Qed.
Theorem ttuple_returns : forall (ts : list Type) same (cs : tcodecs Name ts) x a,
  tall_return_tuple same cs x a -> treturns (same_members same) (ttuple cs) x a.
Proof.
  intros ts same cs x a. unfold treturns. cbn.
  induction ts as [|t ts IH]; cbn; intros R; [exists x; auto|].
  destruct R as [[y0 [T S0]] R]. rewrite T. destruct (IH _ _ _ _ R) as (y & E & S).
  rewrite E. exists (y0, y). auto.
Qed.

(** ** Sets and maps with ids return *)
Theorem tset_returns : forall A (c : tcodec Name A) fresh eqb, (forall a b, eqb a b = true <-> a = b) ->
  forall v, NoDup v -> (forall a, In a v -> treturns eq c fresh a) ->
  tload (tset c fresh eqb) [] (tsave (tset c fresh eqb) v) = (v, true).
Proof.
  intros A c fresh eqb eqb_iff v N R. cbn.
  assert (H : forall v m, NoDup (m ++ v) -> (forall a, In a v -> treturns eq c fresh a) ->
    tset_loop c fresh eqb (map (tsave c) v) m = (m ++ v, true)).
  { clear v N R. induction v as [|a v IH]; intros m N R; cbn; [rewrite app_nil_r; reflexivity|].
    destruct (R a (or_introl eq_refl)) as (a' & E & ->). rewrite E.
    assert (I : insert eqb a m = m ++ [a]).
    { apply (insert_adds eqb eqb_iff). right. split; [|reflexivity].
      intros Q. apply NoDup_remove_2 in N. apply N, in_app_iff. auto. }
    rewrite I, IH; [rewrite <- app_assoc; reflexivity|rewrite <- app_assoc; exact N|].
    intros; apply R; right; assumption. }
  rewrite (H v [] N R), map_length, Nat.eqb_refl. reflexivity.
Qed.
Theorem tauto_returns : forall K A key_eqb (c : tcodec Name A) fresh (id : A -> K),
  (forall a b, key_eqb a b = true <-> a = b) ->
  forall same : A -> A -> Prop, (forall x y, same x y -> id x = id y) ->
  forall v, NoDup (map fst v) -> (forall k a, In (k, a) v -> id a = k /\ treturns same c fresh a) ->
  treturns (same_map same) (tauto_dict key_eqb c fresh id) [] v.
Proof.
  intros K A key_eqb c fresh id key_iff same Hid v N R.
  assert (H : exists v', Forall2 (reads c fresh) (map (fun kx => tsave c (snd kx)) v) (map snd v') /\
    map fst v' = map fst v /\ map fst v' = map id (map snd v') /\ Forall2 (fun x y => same (snd x) (snd y)) v' v).
  { clear N. induction v as [|[k a] v IH]; cbn.
    - exists []. repeat split; constructor.
    - destruct (R k a (or_introl eq_refl)) as (Q & a' & E & S).
      destruct IH as (v' & F1 & F2 & F3 & F4); [intros; apply R; right; assumption|].
      exists ((k, a') :: v'). cbn. split; [constructor; auto|]. split; [congruence|].
      split; [|constructor; auto]. rewrite (Hid _ _ S), Q. congruence. }
  destruct H as (v' & F1 & F2 & F3 & F4).
  exists v'. split.
  - apply (tauto_exact key_eqb key_iff c fresh id [] _ v').
    exists (map (fun kx => tsave c (snd kx)) v), v'. split; [reflexivity|]. split; [exact F1|].
    split; [exact F3|]. split; [apply (puts_fresh v' []); rewrite F2; exact N|].
    rewrite map_length, <- (map_length fst v'), F2, map_length. reflexivity.
  - split; [rewrite <- (map_length fst v'), F2, map_length; reflexivity|].
    clear - F2 F4. split.
    + intros k x I. induction F4 as [|[k1 x1] [k2 x2] v' v S F IH]; [destruct I|].
      cbn in F2. injection F2 as -> F2. destruct I as [I|I].
      * injection I as -> ->. exists x2. cbn; auto.
      * destruct (IH F2 I) as (y & Iy & Sy). exists y. cbn; auto.
    + intros k x I. induction F4 as [|[k1 x1] [k2 x2] v' v S F IH]; [destruct I|].
      cbn in F2. injection F2 as -> F2. destruct I as [I|I].
      * injection I as -> ->. exists x1. cbn; auto.
      * destruct (IH F2 I) as (y & Iy & Sy). exists y. cbn; auto.
Qed.

(** ** Enumerations and variants *)
Theorem tenum_exact : forall (E : Type) (eqb : E -> E -> bool) (t : list (E * Name)) none x n y,
  (forall s a b, In (a, s) t -> In (b, s) t -> a = b) ->
  reads (tenum name_eqb eqb t none) x n y <-> exists s, n = Str s /\ In (y, s) t.
Proof.
  intros E eqb t none x n y U. unfold reads.
  assert (H : forall s, to_enum name_eqb t s = Some y <-> In (y, s) t).
  { intros s. revert U. induction t as [|[a s'] t IH]; cbn; intros U; [split; [discriminate|intros []]|].
    destruct (name_eqb s' s) eqn:Q.
    - apply name_iff in Q. subst s'. split; [intros H; injection H as ->; auto|].
      intros I. f_equal. apply (U s); auto.
    - rewrite IH; [|intros; eapply U; eauto]. split; [auto|]. intros [I|I]; [|exact I].
      injection I as -> ->. rewrite (proj2 (name_iff s s) eq_refl) in Q. discriminate. }
  split.
  - destruct n as [k|s|l|l]; cbn; intros Q; try discriminate. exists s. split; [reflexivity|].
    apply H. destruct (to_enum name_eqb t s); congruence.
  - intros (s & -> & I). cbn. apply H in I. rewrite I. reflexivity.
Qed.
Theorem tenum_unchanged : forall (E : Type) (eqb : E -> E -> bool) (t : list (E * Name)) none x n,
  snd (tload (tenum name_eqb eqb t none) x n) = false -> fst (tload (tenum name_eqb eqb t none) x n) = x.
Proof.
  intros E eqb t none x n. destruct n as [k|s|l|l]; cbn; auto.
  destruct (to_enum name_eqb t s); cbn; [discriminate|auto].
Qed.
Lemma tload_variant_exact : forall (l : list (talternative Name)) s m v,
  tload_variant name_eqb (l := l) s m = Some v <-> exists n, m = Some n /\ reads_alternative s n v.
Proof.
  induction l as [|a l IH]; intros s m v; [destruct v|]. cbn.
  destruct (name_eqb (taname a) s) eqn:Q.
  - apply name_iff in Q. split.
    + destruct m as [n|]; [|discriminate]. destruct (tload (tacodec a) (tafresh a) n) as [x [|]] eqn:E; [|discriminate].
      intros H. injection H as <-. exists n. auto.
    + intros (n & -> & H). destruct v as [x|v]; [|destruct H; contradiction].
      destruct H as [_ R]. rewrite R. reflexivity.
  - assert (D : taname a <> s).
    { intros D. apply name_iff in D. rewrite D in Q. discriminate. }
    split.
    + destruct (tload_variant name_eqb s m) as [w|] eqn:E; [|discriminate].
      intros H. injection H as <-. apply IH in E. destruct E as (n & -> & R). exists n. auto.
    + intros (n & -> & H). destruct v as [x|v]; [destruct H; contradiction|]. destruct H as [_ R].
      assert (E : tload_variant name_eqb (l := l) s (Some n) = Some v) by (apply IH; eauto).
      rewrite E. reflexivity.
Qed.
Theorem tvariant_exact : forall type data (l : list (talternative Name)) (x : tvariant_of l) n y, clear n ->
  reads (tvariant name_eqb type data l) x n y <->
  exists ms s m, n = Object ms /\ In (type, Str s) ms /\ In (data, m) ms /\ reads_alternative s m y.
Proof.
  intros type data l x n y C. unfold reads. split.
  - destruct n as [k|s|ms|a]; cbn; intros H; try discriminate.
    destruct (find_member name_eqb type ms 0) as [[i [k|s|o|a]]|] eqn:E; try discriminate.
    destruct (tload_variant name_eqb s _) as [w|] eqn:T; [|discriminate].
    apply tload_variant_exact in T. destruct T as (m & D & R).
    destruct (find_member name_eqb data ms (S i)) as [[j m']|] eqn:E'; [|discriminate].
    injection D as ->. exists ms, s, m. split; [reflexivity|].
    split; [eapply find_some; eauto|]. split; [eapply find_some; eauto|]. congruence.
  - intros (ms & s & m & -> & I & I' & R). cbn. cbn in C.
    destruct (find_in name_eqb name_iff type ms 0 (Str s) C I) as (i & ->).
    destruct (find_in name_eqb name_iff data ms (S i) m C I') as (j & ->).
    assert (T : tload_variant name_eqb s (Some m) = Some y) by (apply tload_variant_exact; eauto).
    rewrite T. reflexivity.
Qed.
Theorem tvariant_unchanged : forall type data (l : list (talternative Name)) (x : tvariant_of l) n,
  snd (tload (tvariant name_eqb type data l) x n) = false -> fst (tload (tvariant name_eqb type data l) x n) = x.
Proof.
  intros type data l x n. destruct n as [k|s|ms|a]; cbn; auto.
  destruct (find_member name_eqb type ms 0) as [[i [k|s|o|a]]|]; auto.
  destruct (tload_variant name_eqb s _); cbn; [discriminate|auto].
Qed.
End Names.
