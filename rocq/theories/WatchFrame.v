(** What stays true while reader objects are used: an invariant of the lists, and a
    relation between the states before and after. *)
From Coq Require Import List Arith Bool Lia.
From Verif Require Import WatchModel WatchSpec.
Import ListNotations.

Section Frame.
Context {V : Type}.
Notation event := (event V).
Notation op := (op V).
Notation st := (st V).

(** ** Lists *)
Lemma set_nth_length : forall {X} (l : list X) n x, length (set_nth n x l) = length l.
Proof. induction l as [|y l IH]; intros [|n] x; simpl; auto. Qed.
Lemma nth_set_same : forall {X} (l : list X) n x, n < length l -> nth_error (set_nth n x l) n = Some x.
Proof. induction l as [|y l IH]; intros [|n] x H; simpl in *; try lia; auto. apply IH. lia. Qed.
Lemma nth_set_other : forall {X} (l : list X) n m x, n <> m -> nth_error (set_nth n x l) m = nth_error l m.
Proof. induction l as [|y l IH]; intros [|n] [|m] x H; simpl; auto; congruence. Qed.

Lemma get_lt : forall r (s : st) o, get r s = Some o -> r < length (readers s).
Proof.
  intros r s o H. apply nth_error_Some. unfold get in H. destruct (nth_error (readers s) r); congruence.
Qed.
Lemma get_set_same : forall r o (s : st), r < length (readers s) -> get r (set_obj r o s) = o.
Proof. intros. unfold get. cbn. rewrite nth_set_same; auto. Qed.
Lemma get_set_other : forall r q o (s : st), r <> q -> get q (set_obj r o s) = get q s.
Proof. intros. unfold get. cbn. rewrite nth_set_other; auto. Qed.
Lemma get_new : forall r o (s : st),
  get r (new_obj o s) = if r =? length (readers s) then Some o else get r s.
Proof.
  intros. unfold get. cbn. destruct (r =? length (readers s)) eqn:E.
  - apply Nat.eqb_eq in E. subst. rewrite nth_error_app2, Nat.sub_diag; auto.
  - apply Nat.eqb_neq in E. destruct (Nat.lt_ge_cases r (length (readers s))).
    + rewrite nth_error_app1; auto.
    + rewrite nth_error_app2 by auto.
      rewrite (proj2 (nth_error_None (readers s) r)) by auto.
      destruct (r - length (readers s)) eqn:E2; [lia|]. destruct n; reflexivity.
Qed.

Lemma filter_true : forall {X} (f : X -> bool) l, (forall x, In x l -> f x = true) -> filter f l = l.
Proof.
  induction l as [|x l IH]; intros H; simpl; auto. rewrite (H x) by now left.
  f_equal. apply IH. intros; apply H; now right.
Qed.
Lemma filter_false : forall {X} (f : X -> bool) l, (forall x, In x l -> f x = false) -> filter f l = [].
Proof.
  induction l as [|x l IH]; intros H; simpl; auto. rewrite (H x) by now left.
  apply IH. intros; apply H; now right.
Qed.
Lemma filter_filter : forall {X} (f g : X -> bool) l, filter f (filter g l) = filter (fun x => g x && f x) l.
Proof.
  induction l as [|x l IH]; simpl; auto. destruct (g x); simpl; [destruct (f x)|]; rewrite IH; auto.
Qed.
Lemma filter_comm : forall {X} (f g : X -> bool) l, filter f (filter g l) = filter g (filter f l).
Proof. intros. rewrite !filter_filter. apply filter_ext. intros. apply andb_comm. Qed.
Lemma nodup_app_l : forall {X} (a b : list X), NoDup (a ++ b) -> NoDup a.
Proof.
  induction a as [|x a IH]; intros b H; [constructor|]. inversion_clear H. constructor.
  - intros C. apply H0, in_or_app; auto.
  - eapply IH; eauto.
Qed.
Lemma nodup_app_r : forall {X} (a b : list X), NoDup (a ++ b) -> NoDup b.
Proof. induction a as [|x a IH]; intros b H; auto. inversion_clear H. apply IH; auto. Qed.
Lemma nodup_app : forall {X} (a b : list X),
  NoDup a -> NoDup b -> (forall x, In x a -> ~ In x b) -> NoDup (a ++ b).
Proof.
  induction a as [|x a IH]; intros b Ha Hb D; auto. inversion_clear Ha. simpl. constructor.
  - intros C. apply in_app_or in C as [C|C]; auto. apply (D x); simpl; auto.
  - apply IH; auto. intros y Hy. apply D. now right.
Qed.
Lemma nodup_filter : forall {X} (f : X -> bool) l, NoDup l -> NoDup (filter f l).
Proof.
  induction l as [|x l IH]; intros H; simpl; auto. inversion_clear H.
  destruct (f x); auto. constructor; auto. intros C. apply filter_In in C as [C _]. auto.
Qed.

Lemma dropped_app : forall (a b : list event) r, dropped (a ++ b) r = dropped a r || dropped b r.
Proof. intros. unfold dropped. apply existsb_app. Qed.

(** ** The invariant *)
Record inv (s : st) : Prop := {
  i_alive : forall n r, In r (obs s n) -> exists o, get r s = Some o /\ cbs o <> [];
  i_nodup : forall n, NoDup (obs s n);
  i_one : forall n m r, In r (obs s n) -> In r (obs s m) -> n = m;
  i_lt : forall r c, In c (ids s r) -> c < ncb s;
  i_ids : forall r, NoDup (ids s r);
  i_own : forall r q c, In c (ids s r) -> In c (ids s q) -> r = q }.

Lemma inv_init : forall val, inv (init val : st).
Proof.
  intros. split; intros; unfold ids, get in *; cbn in *; try contradiction; try constructor;
    destruct r; cbn in *; try contradiction; constructor.
Qed.

(** Two states, with what happened in between. *)
Record frame (s s' : st) (new : list event) : Prop := {
  f_log : log s' = new ++ log s;
  f_len : length (readers s) <= length (readers s');
  f_ncb : ncb s <= ncb s';
  f_ids : forall r c, In c (ids s' r) -> In c (ids s r) \/ ncb s <= c;
  f_keep : forall r o, get r s = Some o -> dropped new r = false ->
    exists o' ext, get r s' = Some o' /\ cbs o' = cbs o ++ ext /\ Forall (fun x => ncb s <= fst x) ext;
  f_obs : forall n, exists add,
    filter (fun r => negb (dropped new r)) (obs s' n)
      = filter (fun r => negb (dropped new r)) (obs s n) ++ add /\
    (forall r, In r add -> ids s r = []) }.

Lemma frame_refl : forall s, frame s s [].
Proof.
  intros. split; auto.
  - intros r o H _. exists o, []. rewrite app_nil_r. auto.
  - intros n. exists []. rewrite app_nil_r. split; auto. contradiction.
Qed.

Lemma keep_ids : forall s s' new r, frame s s' new -> dropped new r = false ->
  (exists o, get r s = Some o) ->
  exists ext, ids s' r = ids s r ++ ext /\ Forall (fun c => ncb s <= c) ext.
Proof.
  intros s s' new r F D [o H]. destruct (f_keep _ _ _ F r o H D) as (o' & ext & H' & E & L).
  exists (map fst ext). unfold ids. rewrite H, H', E, map_app. split; auto.
  apply Forall_map. auto.
Qed.

Lemma frame_trans : forall s s1 s2 n1 n2, frame s s1 n1 -> frame s1 s2 n2 -> frame s s2 (n2 ++ n1).
Proof.
  intros s s1 s2 n1 n2 A B. split.
  - rewrite (f_log _ _ _ B), (f_log _ _ _ A), app_assoc. auto.
  - pose proof (f_len _ _ _ A). pose proof (f_len _ _ _ B). lia.
  - pose proof (f_ncb _ _ _ A). pose proof (f_ncb _ _ _ B). lia.
  - intros r c H. apply (f_ids _ _ _ B) in H as [H|H].
    + apply (f_ids _ _ _ A) in H. auto.
    + right. pose proof (f_ncb _ _ _ A). lia.
  - intros r o H D. rewrite dropped_app in D. apply orb_false_iff in D as [D2 D1].
    destruct (f_keep _ _ _ A r o H D1) as (o1 & e1 & H1 & E1 & L1).
    destruct (f_keep _ _ _ B r o1 H1 D2) as (o2 & e2 & H2 & E2 & L2).
    exists o2, (e1 ++ e2). rewrite app_assoc, <- E1. split; [|split]; auto.
    apply Forall_app; split; auto. eapply Forall_impl; [|exact L2]. cbv beta. intros x.
    pose proof (f_ncb _ _ _ A). lia.
  - intros n. destruct (f_obs _ _ _ A n) as (a1 & E1 & L1). destruct (f_obs _ _ _ B n) as (a2 & E2 & L2).
    assert (FF : forall l, filter (fun r => negb (dropped (n2 ++ n1) r)) l
                  = filter (fun r => negb (dropped n1 r)) (filter (fun r => negb (dropped n2 r)) l)).
    { intros l. rewrite filter_filter. apply filter_ext. intros r. rewrite dropped_app.
      destruct (dropped n2 r), (dropped n1 r); auto. }
    exists (filter (fun r => negb (dropped n2 r)) a1 ++ filter (fun r => negb (dropped n1 r)) a2).
    split.
    + rewrite !FF, E2, filter_app, filter_comm, E1, filter_app, app_assoc. f_equal.
      f_equal. apply filter_comm.
    + intros r H. apply in_app_or in H as [H|H]; apply filter_In in H as [H D]; auto.
      apply L2 in H. apply negb_true_iff in D.
      destruct (get r s) as [o|] eqn:G; [|unfold ids; rewrite G; auto].
      destruct (keep_ids _ _ _ r A D) as (ext & E & _); eauto. rewrite H in E.
      symmetry in E. apply app_eq_nil in E. apply E.
Qed.

(** ** One step *)
Lemma emit_inv : forall e s, inv s -> inv (emit e s).
Proof. intros e s [A B C D E F]. split; auto. Qed.
Lemma value_inv : forall n v s, inv s -> inv (set_value n v s).
Proof. intros n v s [A B C D E F]. split; auto. Qed.
Lemma emit_frame : forall e s, (forall r, e <> EDrop r) -> frame s (emit e s) [e].
Proof.
  intros e s H. assert (D : forall r, dropped [e] r = false).
  { intros r. unfold dropped. cbn. destruct e; auto. now contradiction (H r0). }
  split; auto.
  - intros r o G _. exists o, []. rewrite app_nil_r. auto.
  - intros n. exists []. rewrite app_nil_r. split; auto. contradiction.
Qed.
Lemma value_frame : forall n v s, frame s (set_value n v s) [].
Proof.
  intros. split; auto.
  - intros r o H _. exists o, []. rewrite app_nil_r. auto.
  - intros k. exists []. rewrite app_nil_r. split; auto. contradiction.
Qed.

Lemma ids_get : forall (s : st) r o, get r s = Some o -> ids s r = map fst (cbs o).
Proof. intros s r o H. unfold ids. now rewrite H. Qed.

(** A state that differs only in where a reader object points. *)
Lemma repoint_inv : forall s s', inv s ->
  obs s' = obs s -> ncb s' = ncb s ->
  (forall r o, get r s = Some o -> exists n, get r s' = Some (R n (cbs o))) ->
  (forall r, get r s = None -> ids s' r = []) -> inv s'.
Proof.
  intros s s' I Eo En G N.
  assert (X : forall r, ids s' r = ids s r).
  { intros r. destruct (get r s) as [o|] eqn:H.
    - destruct (G r o H) as [n H']. now rewrite (ids_get _ _ _ H), (ids_get _ _ _ H').
    - rewrite (N r H). unfold ids. now rewrite H. }
  destruct I as [A B C D E F]. split.
  - rewrite Eo. intros n r H. destruct (A n r H) as (o & H1 & H2).
    destruct (G r o H1) as [m H3]. eexists. split; [exact H3|auto].
  - rewrite Eo. auto.
  - rewrite Eo. auto.
  - intros r c. rewrite X, En. apply D.
  - intros r. rewrite X. auto.
  - intros r q c. rewrite !X. apply F.
Qed.
Lemma repoint_frame : forall s s',
  log s' = log s -> length (readers s) <= length (readers s') ->
  obs s' = obs s -> ncb s' = ncb s ->
  (forall r o, get r s = Some o -> exists n, get r s' = Some (R n (cbs o))) ->
  (forall r, get r s = None -> ids s' r = []) -> frame s s' [].
Proof.
  intros s s' El Ll Eo En G N. split; auto; try lia.
  - intros r c H. destruct (get r s) as [o|] eqn:Hg.
    + destruct (G r o Hg) as [n H']. rewrite (ids_get _ _ _ Hg). rewrite (ids_get _ _ _ H') in H. auto.
    + rewrite (N r Hg) in H. contradiction.
  - intros r o H _. destruct (G r o H) as [n H']. eexists. exists []. split; [exact H'|].
    rewrite app_nil_r. auto.
  - intros n. exists []. rewrite app_nil_r, Eo. split; auto. contradiction.
Qed.

Lemma new_ok : forall n s, inv s -> inv (new_obj (R n []) s) /\ frame s (new_obj (R n []) s) [].
Proof.
  intros n s I.
  assert (G : forall r o, get r s = Some o -> exists m, get r (new_obj (R n []) s) = Some (R m (cbs o))).
  { intros r [m c] H. rewrite get_new. pose proof (get_lt _ _ _ H).
    rewrite (proj2 (Nat.eqb_neq r _)) by lia. rewrite H. exists m. reflexivity. }
  assert (N : forall r, get r s = None -> ids (new_obj (R n []) s) r = []).
  { intros r H. unfold ids. rewrite get_new. destruct (r =? _); [reflexivity|]. now rewrite H. }
  split; [apply (repoint_inv s)|apply repoint_frame]; auto. cbn. rewrite app_length. lia.
Qed.
Lemma point_ok : forall r n o s, get r s = Some o -> inv s ->
  inv (set_obj r (Some (R n (cbs o))) s) /\ frame s (set_obj r (Some (R n (cbs o))) s) [].
Proof.
  intros r n o s H I. pose proof (get_lt _ _ _ H) as L.
  assert (G : forall q o', get q s = Some o' ->
            exists m, get q (set_obj r (Some (R n (cbs o))) s) = Some (R m (cbs o'))).
  { intros q [m c] Hq. destruct (Nat.eq_dec r q) as [<-|Ne].
    - rewrite get_set_same by auto. rewrite H in Hq. injection Hq as ->. exists n. reflexivity.
    - rewrite get_set_other by auto. exists m. auto. }
  assert (N : forall q, get q s = None -> ids (set_obj r (Some (R n (cbs o))) s) q = []).
  { intros q Hq. assert (r <> q) by congruence. unfold ids. rewrite get_set_other by auto. now rewrite Hq. }
  split; [apply (repoint_inv s)|apply repoint_frame]; auto. cbn. rewrite set_nth_length. lia.
Qed.

Lemma unlink_inv : forall r s, inv s -> inv (unlink r s).
Proof.
  intros r s [A B C D E F]. split; auto; cbn.
  - intros n q H. apply filter_In in H as [H _]. eauto.
  - intros n. apply nodup_filter, B.
  - intros n m q H1 H2. apply filter_In in H1 as [H1 _], H2 as [H2 _]. eauto.
Qed.
Lemma unlink_gone : forall r (s : st) n, ~ In r (obs (unlink r s) n).
Proof.
  intros r s n H. cbn in H. apply filter_In in H as [_ H]. rewrite Nat.eqb_refl in H. discriminate.
Qed.
Lemma unlink_filter : forall r l, filter (fun q => negb (dropped [@EDrop V r] q)) (filter (fun x => negb (x =? r)) l)
  = filter (fun q => negb (dropped [@EDrop V r] q)) l.
Proof.
  intros. rewrite filter_filter. apply filter_ext. intros q. cbn. rewrite orb_false_r.
  rewrite (Nat.eqb_sym q r). destruct (r =? q); auto.
Qed.
Lemma unlink_frame : forall r s, frame s (unlink r s) [EDrop r].
Proof.
  intros. split; auto.
  - intros q o H _. exists o, []. rewrite app_nil_r. auto.
  - intros n. exists []. cbn [unlink set_obs obs emit]. rewrite unlink_filter, app_nil_r. split; auto.
    contradiction.
Qed.

(** The reader object [r] loses its callbacks, or disappears, after its slot was
    taken out. *)
Lemma clear_ok : forall r o s, (o = None \/ exists n, o = Some (R n [])) -> inv s ->
  (forall n, ~ In r (obs s n)) -> r < length (readers s) ->
  inv (set_obj r o s) /\
  (forall e, dropped e r = true -> log s = e ++ log s -> False) /\
  (forall s0 e, frame s0 s e -> dropped e r = true -> frame s0 (set_obj r o s) e).
Proof.
  intros r o s Ho I Gone L.
  assert (X : ids (set_obj r o s) r = []).
  { unfold ids. rewrite get_set_same by auto. destruct Ho as [->|[n ->]]; auto. }
  assert (Y : forall q, r <> q -> ids (set_obj r o s) q = ids s q).
  { intros q H. unfold ids. now rewrite get_set_other. }
  destruct I as [A B C D E F]. split; [|split].
  - split; auto.
    + intros n q H. destruct (Nat.eq_dec r q) as [<-|Ne]; [now contradiction (Gone n)|].
      rewrite get_set_other by auto. eapply A, H.
    + intros q c H. destruct (Nat.eq_dec r q) as [<-|Ne]; [rewrite X in H; contradiction|].
      rewrite Y in H by auto. eapply D, H.
    + intros q. destruct (Nat.eq_dec r q) as [<-|Ne]; [rewrite X; constructor|].
      rewrite Y by auto. apply E.
    + intros q q' c H H'.
      destruct (Nat.eq_dec r q) as [<-|Ne]; [rewrite X in H; contradiction|].
      destruct (Nat.eq_dec r q') as [<-|Ne']; [rewrite X in H'; contradiction|].
      rewrite Y in H, H' by auto. eapply F; eauto.
  - intros e De Le. assert (length (log s) = length (e ++ log s)) by congruence.
    rewrite app_length in H. destruct e; [discriminate|cbn in H; lia].
  - intros s0 e Fr De. destruct Fr as [f1 f2 f3 f4 f5 f6]. split; auto.
    + cbn. rewrite set_nth_length. auto.
    + intros q c H. destruct (Nat.eq_dec r q) as [<-|Ne]; [rewrite X in H; contradiction|].
      rewrite Y in H by auto. auto.
    + intros q oq H Dq. assert (r <> q) by congruence. rewrite get_set_other by auto. eauto.
Qed.

Lemma add_inv : forall n r s o, inv s -> (forall m, ~ In r (obs s m)) ->
  get r s = Some o -> cbs o <> [] -> inv (add n r s).
Proof.
  intros n r s o [A B C D E F] Gone H Ne. split; auto; cbn.
  - intros m q Hq. destruct (m =? n); [apply in_app_or in Hq as [Hq|[<-|[]]]|]; eauto.
  - intros m. destruct (m =? n); auto. apply nodup_app; auto.
    + repeat constructor. auto.
    + intros x Hx [<-|[]]. eapply Gone, Hx.
  - intros m k q H1 H2.
    destruct (m =? n) eqn:Em; destruct (k =? n) eqn:Ek; try (apply Nat.eqb_eq in Em); try (apply Nat.eqb_eq in Ek);
      subst; auto.
    + apply in_app_or in H1 as [H1|[<-|[]]]; [eauto|now contradiction (Gone k)].
    + apply in_app_or in H2 as [H2|[<-|[]]]; [eauto|now contradiction (Gone m)].
    + eauto.
Qed.
Lemma add_frame : forall n r s0 s e, frame s0 s e -> (dropped e r = true \/ ids s0 r = []) -> frame s0 (add n r s) e.
Proof.
  intros n r s0 s e [f1 f2 f3 f4 f5 f6] H. split; auto.
  intros m. cbn. destruct (f6 m) as (a & Ea & La). destruct (m =? n).
  - rewrite filter_app, Ea, <- app_assoc. eexists. split; [reflexivity|].
    intros q Hq. apply in_app_or in Hq as [Hq|Hq]; auto.
    apply filter_In in Hq as [[<-|[]] Dq]. destruct H as [H|H]; auto. rewrite H in Dq. discriminate.
  - exists a. auto.
Qed.

Lemma not_linked : forall (s : st) r o, inv s -> get r s = Some o -> cbs o = [] -> forall n, ~ In r (obs s n).
Proof.
  intros s r o I H E n C. destruct (i_alive _ I n r C) as (o' & H' & Ne). congruence.
Qed.

Lemma connect_ok : forall r f o s s1,
  get r s = Some o -> inv s ->
  s1 = match cbs o, node o with [], Some n => add n r s | _, _ => s end ->
  inv (do_watch r f o s) /\ frame s (do_watch r f o s) [].
Proof.
  intros r f o s s1 H I Es1. pose proof (get_lt _ _ _ H) as L.
  unfold do_watch. rewrite <- Es1.
  assert (R1 : readers s1 = readers s) by (subst s1; destruct (cbs o), (node o); auto).
  assert (N1 : ncb s1 = ncb s) by (subst s1; destruct (cbs o), (node o); auto).
  assert (L1 : log s1 = log s) by (subst s1; destruct (cbs o), (node o); auto).
  set (s2 := St _ _ _ _ _).
  assert (G1 : forall q, get q s1 = get q s) by (intros; unfold get; now rewrite R1).
  assert (Gr : get r s2 = Some (R (node o) (cbs o ++ [(ncb s, f)]))).
  { unfold s2. unfold get. cbn. rewrite nth_set_same; auto. now rewrite R1. }
  assert (Gq : forall q, r <> q -> get q s2 = get q s).
  { intros q Ne. rewrite <- G1. unfold s2, get. cbn. rewrite nth_set_other; auto. }
  assert (Ir : ids s2 r = ids s r ++ [ncb s]).
  { rewrite (ids_get _ _ _ Gr), (ids_get _ _ _ H). cbn. now rewrite map_app. }
  assert (Iq : forall q, r <> q -> ids s2 q = ids s q).
  { intros q Ne. unfold ids. now rewrite Gq. }
  assert (Ob : forall n, obs s2 n = obs s n \/ (obs s2 n = obs s n ++ [r] /\ cbs o = [])).
  { intros n. unfold s2. cbn. rewrite Es1. destruct (cbs o) eqn:Ec; auto. destruct (node o); auto.
    cbn. destruct (n =? n0); auto. }
  assert (One : forall n m, In r (obs s2 n) -> In r (obs s2 m) -> n = m).
  { destruct (cbs o) eqn:Ec.
    - destruct (node o) as [k|] eqn:Ek.
      + assert (forall m, In r (obs s2 m) -> m = k).
        { intros m. unfold s2. cbn. rewrite Es1. cbn. destruct (m =? k) eqn:Em; [now intros _; apply Nat.eqb_eq|].
          intros C. contradiction (not_linked _ _ _ I H Ec m). }
        intros n m Hn Hm. rewrite (H0 n Hn), (H0 m Hm). auto.
      + intros n m Hn. unfold s2 in Hn. cbn in Hn. rewrite Es1 in Hn. contradiction (not_linked _ _ _ I H Ec n).
    - intros n m. unfold s2. cbn. rewrite Es1. apply (i_one _ I). }
  destruct I as [A B C D E F]. split.
  - split.
    + intros n q Hq. destruct (Nat.eq_dec r q) as [<-|Ne].
      * exists (R (node o) (cbs o ++ [(ncb s, f)])). split; auto. cbn. intros X. apply app_eq_nil in X as [_ X]. discriminate.
      * rewrite Gq by auto. apply (A n). destruct (Ob n) as [X|[X _]]; rewrite X in Hq; auto.
        apply in_app_or in Hq as [Hq|[Hq|[]]]; auto. congruence.
    + intros n. destruct (Ob n) as [X|[X Xc]]; rewrite X; auto. apply nodup_app; auto.
      * repeat constructor. auto.
      * intros x Hx [<-|[]]. destruct (A n r Hx) as (o' & H' & Ne). congruence.
    + intros n m q Hn Hm. destruct (Nat.eq_dec r q) as [<-|Ne]; [auto|].
      apply (C n m q).
      * destruct (Ob n) as [X|[X _]]; rewrite X in Hn; auto. apply in_app_or in Hn as [Hn|[Hn|[]]]; auto. congruence.
      * destruct (Ob m) as [X|[X _]]; rewrite X in Hm; auto. apply in_app_or in Hm as [Hm|[Hm|[]]]; auto. congruence.
    + intros q c Hc. assert (ncb s2 = S (ncb s)) as -> by (unfold s2; cbn; now rewrite N1).
      destruct (Nat.eq_dec r q) as [<-|Ne].
      * rewrite Ir in Hc. apply in_app_or in Hc as [Hc|[<-|[]]]; [apply D in Hc|]; lia.
      * rewrite Iq in Hc by auto. apply D in Hc. lia.
    + intros q. destruct (Nat.eq_dec r q) as [<-|Ne]; [|now rewrite Iq].
      rewrite Ir. apply nodup_app; auto.
      * repeat constructor. auto.
      * intros x Hx [<-|[]]. apply D in Hx. lia.
    + intros q q' c Hc Hc'.
      destruct (Nat.eq_dec r q) as [<-|Ne], (Nat.eq_dec r q') as [<-|Ne']; auto.
      * rewrite Ir in Hc. rewrite Iq in Hc' by auto. apply in_app_or in Hc as [Hc|[<-|[]]]; [eauto|].
        apply D in Hc'. lia.
      * rewrite Ir in Hc'. rewrite Iq in Hc by auto. apply in_app_or in Hc' as [Hc'|[<-|[]]]; [eauto|].
        apply D in Hc. lia.
      * rewrite Iq in Hc, Hc' by auto. eauto.
  - split.
    + unfold s2. cbn. rewrite L1. auto.
    + unfold s2. cbn. rewrite set_nth_length, R1. auto.
    + unfold s2. cbn. rewrite N1. auto.
    + intros q c Hc. destruct (Nat.eq_dec r q) as [<-|Ne].
      * rewrite Ir in Hc. apply in_app_or in Hc as [Hc|[<-|[]]]; auto.
      * rewrite Iq in Hc; auto.
    + intros q oq Hq _. destruct (Nat.eq_dec r q) as [<-|Ne].
      * rewrite H in Hq. injection Hq as <-. eexists. exists [(ncb s, f)]. split; [exact Gr|].
        split; [reflexivity|]. constructor; auto.
      * exists oq, []. rewrite Gq, app_nil_r by auto. auto.
    + intros n. destruct (Ob n) as [X|[X Xc]]; rewrite X.
      * exists []. rewrite app_nil_r. split; auto. contradiction.
      * exists [r]. rewrite filter_app. split; auto. intros q [<-|[]]. rewrite (ids_get _ _ _ H), Xc. auto.
Qed.

Lemma watch_ok : forall r f o s, get r s = Some o -> inv s ->
  inv (do_watch r f o s) /\ frame s (do_watch r f o s) [].
Proof. intros. eapply connect_ok; eauto. Qed.

Lemma get_unlink : forall r q (s : st), get q (unlink r s) = get q s.
Proof. reflexivity. Qed.

Lemma assign_ok : forall r o n s s0 e,
  get r s = Some o -> inv s -> (forall m, ~ In r (obs s m)) -> frame s0 s e -> dropped e r = true ->
  inv (relink r (R n (cbs o)) (set_obj r (Some (R n (cbs o))) s)) /\
  frame s0 (relink r (R n (cbs o)) (set_obj r (Some (R n (cbs o))) s)) e.
Proof.
  intros r o n s s0 e H I Gone F De. pose proof (get_lt _ _ _ H) as L.
  destruct (point_ok r n o s H I) as [I1 F1].
  assert (F2 : frame s0 (set_obj r (Some (R n (cbs o))) s) e) by apply (frame_trans _ _ _ _ _ F F1).
  unfold relink. cbn [cbs node]. destruct (cbs o) as [|c cs] eqn:Ec; auto. destruct n as [m|]; auto. split.
  - eapply add_inv; eauto.
    + rewrite get_set_same; auto.
    + cbn. discriminate.
  - apply add_frame; auto.
Qed.

Lemma expire_ok : forall l s, inv s ->
  let s' := fold_left (fun s r => unlink r s) l s in
  inv s' /\ frame s s' (map EDrop (rev l)).
Proof.
  induction l as [|r l IH]; intros s I; cbn [fold_left].
  - split; auto. apply frame_refl.
  - destruct (IH (unlink r s) (unlink_inv r s I)) as [A B]. split; auto.
    cbn [rev]. rewrite map_app. cbn [map]. eapply frame_trans; [apply unlink_frame|exact B].
Qed.

(** ** Runs *)
Definition pass_of (e : event) : option nat :=
  match e with EPass p _ | EBegin p _ | ECall p _ _ | EEnd p _ | EPassed p => Some p | _ => None end.
(** The pass a task belongs to *)
Definition task_pass (t : task V) : option nat :=
  match t with TOps _ => None | TPass p _ _ _ | TReader p _ _ | TSlots p _ _ _ => Some p end.

Definition fresh (k : nat) (p : option nat) (e : event) : Prop :=
  match pass_of e with Some q => k <= q \/ p = Some q | None => True end.

Lemma fresh_weaken : forall k k' p l, k' <= k -> Forall (fresh k p) l -> Forall (fresh k' p) l.
Proof.
  intros. eapply Forall_impl; [|eassumption]. intros e. unfold fresh. destruct (pass_of e); auto. intros [|]; auto. left. lia.
Qed.
Lemma fresh_none : forall k p l, Forall (fresh k None) l -> Forall (fresh k p) l.
Proof.
  intros. eapply Forall_impl; [|eassumption]. intros e. unfold fresh. destruct (pass_of e); auto. intros [|]; auto. discriminate.
Qed.
Lemma fresh_own : forall k p l, Forall (fresh k (Some p)) l -> k <= p -> Forall (fresh k None) l.
Proof.
  intros k p l H L. eapply Forall_impl; [|eassumption]. intros e. unfold fresh. destruct (pass_of e); auto.
  intros [|E]; auto. injection E as <-. auto.
Qed.
Lemma frame_len : forall s s' new, frame s s' new -> length (log s) <= length (log s').
Proof. intros s s' new F. rewrite (f_log _ _ _ F), app_length. lia. Qed.

(** [k] is at most the number of events so far: passes that start from now on have
    higher numbers. *)
Definition good (k : nat) (s s' : st) (p : option nat) : Prop :=
  inv s' /\ exists new, frame s s' new /\ Forall (fresh k p) new.

Lemma good_trans : forall k s s1 s2 p, good k s s1 p -> good k s1 s2 p -> good k s s2 p.
Proof.
  intros k s s1 s2 p [I1 (n1 & F1 & P1)] [I2 (n2 & F2 & P2)]. split; auto.
  exists (n2 ++ n1). split; [eapply frame_trans; eauto|]. apply Forall_app; split; auto.
Qed.
Lemma good_frame : forall k s s' p, inv s' -> frame s s' [] -> good k s s' p.
Proof. intros. split; auto. exists []. split; auto. Qed.
Lemma good_none : forall k s s' p, good k s s' None -> good k s s' p.
Proof. intros k s s' p [I (n & F & P)]. split; auto. exists n. split; auto. apply fresh_none; auto. Qed.
Lemma good_own : forall k s s' p, good k s s' (Some p) -> k <= p -> good k s s' None.
Proof. intros k s s' p [I (n & F & P)] L. split; auto. exists n. split; auto. eapply fresh_own; eauto. Qed.
Lemma good_len : forall k s s' p, good k s s' p -> length (log s) <= length (log s').
Proof. intros k s s' p [_ (n & F & _)]. eapply frame_len; eauto. Qed.
Lemma good_emit : forall k e s p, inv s -> (forall r, e <> EDrop r) -> fresh k p e -> good k s (emit e s) p.
Proof.
  intros k e s p I Ne Fr. split; [now apply emit_inv|]. exists [e]. split; [now apply emit_frame|]. auto.
Qed.

(** The state in which a run ends, or in which its behaviour is undefined *)
Definition ends (x : res V) (s : st) : Prop := x = Done s \/ exists w, x = Undefined s w.
Lemma andthen_ends : forall (x : res V) k s', ends (andthen x k) s' ->
  (exists s1, x = Done s1 /\ ends (k s1) s') \/ (ends x s' /\ forall s1, x <> Done s1).
Proof.
  intros [s1| |s1 w|] k s' [H|[w' H]]; cbn in H; try discriminate.
  - left. exists s1. split; auto. now left.
  - left. exists s1. split; auto. right. eauto.
  - right. injection H as -> ->. split; [|discriminate]. right. eauto.
Qed.
Lemma ends_done : forall (s s' : st), ends (Done s) s' -> s' = s.
Proof. intros s s' [H|[w H]]; congruence. Qed.
Lemma ends_undefined : forall (s s' : st) w, ends (Undefined s w) s' -> s' = s.
Proof. intros s s' w [H|[w' H]]; congruence. Qed.
Lemma ends_misuse : forall (s' : st), ~ ends Misuse s'.
Proof. intros s' [H|[w H]]; congruence. Qed.

(** One operation other than those that call callbacks. *)
Lemma assign_good : forall k r o n s, inv s -> get r s = Some o ->
  good k s (relink r (R n (cbs o)) (set_obj r (Some (R n (cbs o))) (unlink r s))) None.
Proof.
  intros k r o n s I H. destruct (assign_ok r o n (unlink r s) s [EDrop r]) as [A B]; auto.
  - now apply unlink_inv.
  - apply unlink_gone.
  - apply unlink_frame.
  - unfold dropped. cbn. rewrite Nat.eqb_refl. auto.
  - split; auto. exists [EDrop r]. split; auto. repeat constructor.
Qed.
Lemma move_assign_good : forall k r r' o o' s, inv s -> get r s = Some o -> get r' s = Some o' ->
  good k s (relink r (R (node o') (cbs o)) (set_obj r (Some (R (node o') (cbs o)))
           (set_obj r' (Some (R None (cbs o'))) (unlink r s)))) None.
Proof.
  intros k r r' o o' s I H H'.
  destruct (point_ok r' None o' (unlink r s)) as [I1 F1]; auto; [now apply unlink_inv|].
  set (s1 := set_obj r' _ _) in *.
  assert (Fr : frame s s1 [EDrop r]) by apply (frame_trans _ _ _ _ _ (unlink_frame r s) F1).
  assert (exists q, get r s1 = Some q /\ cbs q = cbs o) as (q & Hq & Eq).
  { unfold s1. destruct (Nat.eq_dec r' r) as [->|Ne].
    - rewrite get_set_same by (apply (get_lt _ (unlink r s) _ H')).
      eexists. split; [reflexivity|]. cbn. congruence.
    - rewrite get_set_other by auto. eauto. }
  rewrite <- Eq.
  destruct (assign_ok r q (node o') s1 s [EDrop r]) as [A B]; auto.
  - apply unlink_gone.
  - unfold dropped. cbn. rewrite Nat.eqb_refl. auto.
  - split; auto. exists [EDrop r]. split; auto. repeat constructor.
Qed.
Lemma clear_good : forall k r o s x, inv s -> get r s = Some x -> (o = None \/ exists n, o = Some (R n [])) ->
  good k s (set_obj r o (unlink r s)) None.
Proof.
  intros k r o s x I H Ho.
  destruct (clear_ok r o (unlink r s) Ho (unlink_inv r s I) (unlink_gone r s) (get_lt _ _ _ H)) as (A & _ & B).
  split; auto. exists [EDrop r]. split; [|repeat constructor].
  apply B; [apply unlink_frame|]. unfold dropped. cbn. rewrite Nat.eqb_refl. auto.
Qed.
Lemma move_good : forall k r o s, inv s -> get r s = Some o ->
  good k s (new_obj (R (node o) []) (set_obj r (Some (R None (cbs o))) s)) None.
Proof.
  intros k r o s I H. destruct (point_ok r None o s H I) as [I1 F1].
  eapply good_trans; [apply good_frame; eauto|].
  destruct (new_ok (node o) _ I1). apply good_frame; auto.
Qed.
Lemma expire_good : forall k l s, inv s -> good k s (fold_left (fun s r => unlink r s) l s) None.
Proof.
  intros k l s I. destruct (expire_ok l s I) as [A B]. split; auto. eexists. split; [exact B|].
  apply Forall_map, Forall_forall. intros. exact Logic.I.
Qed.


Ltac no_end H := first [now contradiction (ends_misuse _ H)
  | apply ends_undefined in H; subst; apply good_frame; auto; apply frame_refl].

Lemma exec_good : forall fuel t k s s', inv s -> k <= length (log s) ->
  ends (exec fuel t s) s' -> good k s s' (task_pass t).
Proof.
  induction fuel as [|fl IH]; intros t k s s' I Lk H; [destruct H as [H|[w H]]; discriminate|].
  destruct t as [l|p n [r|] v|p r v|p r [c|] v]; cbn [exec] in H; cbn [task_pass].
  - destruct l as [|x l]; [apply ends_done in H; subst; apply good_frame; auto; apply frame_refl|].
    assert (K : forall s1, good k s s1 None -> ends (exec fl (TOps l) s1) s' -> good k s s' None).
    { intros s1 G E. eapply good_trans; [exact G|]. pose proof (good_len _ _ _ _ G).
      apply (IH _ k _ _ (proj1 G)) in E; auto. lia. }
    destruct x.
    + eapply K; [|exact H]. destruct (new_ok n s I). apply good_frame; auto.
    + destruct (get r s) as [o|] eqn:G; [|no_end H]. eapply K; [|exact H].
      destruct (new_ok (node o) s I). apply good_frame; auto.
    + destruct (get r s) as [o|] eqn:G; [|no_end H]. eapply K; [|exact H]. apply move_good; auto.
    + destruct (get r s) as [o|] eqn:G; [|no_end H]. destruct (get r' s) as [o'|] eqn:G'; [|no_end H].
      eapply K; [|exact H]. apply assign_good; auto.
    + destruct (get r s) as [o|] eqn:G; [|no_end H]. destruct (get r' s) as [o'|] eqn:G'; [|no_end H].
      eapply K; [|exact H]. apply move_assign_good; auto.
    + destruct (get r s) as [o|] eqn:G; [|no_end H]. eapply K; [|exact H].
      destruct (watch_ok r f o s G I). apply good_frame; auto.
    + destruct (get r s) as [o|] eqn:G; [|no_end H]. destruct (node o) as [n|]; [|no_end H].
      set (s0 := emit (EBind r (value s n)) s) in *.
      assert (G0 : good k s s0 None) by (apply good_emit; [auto|discriminate|exact Logic.I]).
      apply andthen_ends in H as [(s1 & H1 & H)|[H1 _]].
      * apply or_introl with (B := exists w, exec fl (TOps (f (log s0))) s0 = Undefined s1 w) in H1.
        apply (IH _ k _ _ (proj1 G0)) in H1 as G1; [|cbn; lia]. cbn in G1.
        assert (G2 : good k s s1 None) by (eapply good_trans; eauto).
        destruct (get r s1) as [o1|] eqn:Gr; [|apply ends_undefined in H; subst; auto]. eapply K; [|exact H].
        eapply good_trans; [exact G2|].
        destruct (watch_ok r f o1 s1 Gr (proj1 G1)). apply good_frame; auto.
      * eapply good_trans; [exact G0|]. apply (IH _ k _ _ (proj1 G0)) in H1; auto. cbn. lia.
    + destruct (get r s) as [o|] eqn:G; [|no_end H]. destruct (node o) as [n|]; [|no_end H].
      set (p := length (log s)) in *.
      assert (G0 : good k s (emit (EPass p [(r, ids s r)]) s) None).
      { apply good_emit; [auto|discriminate|]. unfold fresh. cbn. auto. }
      apply andthen_ends in H as [(s1 & H1 & H)|[H1 _]].
      * assert (H1' : ends (exec fl (TReader p r (value s n)) (emit (EPass p [(r, ids s r)]) s)) s1) by now left.
        apply (IH _ k _ _ (proj1 G0)) in H1' as G1; [|cbn; lia]. cbn in G1.
        apply good_own in G1; auto. eapply K; [|exact H].
        eapply good_trans; [exact G0|]. eapply good_trans; [exact G1|].
        eapply good_trans; apply good_emit; try discriminate; try (unfold fresh; cbn; auto); try apply G1.
        apply emit_inv, G1.
      * apply (IH _ k _ _ (proj1 G0)) in H1 as G1; [|cbn; lia]. cbn in G1. apply good_own in G1; auto.
        eapply good_trans; eauto.
    + destruct (get r s) as [o|] eqn:G; [|no_end H]. eapply K; [|exact H]. eapply clear_good; eauto.
    + destruct (get r s) as [o|] eqn:G; [|no_end H]. eapply K; [|exact H]. eapply clear_good; eauto.
    + set (p := length (log s)) in *.
      set (s0 := emit _ _) in H.
      assert (G0 : good k s s0 None).
      { apply (good_trans _ _ (set_value n v s)).
        - apply good_frame; [now apply value_inv|apply value_frame].
        - apply good_emit; [now apply value_inv|discriminate|]. unfold fresh. cbn. auto. }
      apply andthen_ends in H as [(s1 & H1 & H)|[H1 _]].
      * assert (H1' : ends (exec fl (TPass p n (hd_error (obs s n)) v) s0) s1) by now left.
        apply (IH _ k _ _ (proj1 G0)) in H1' as G1; [|unfold s0; cbn; lia]. cbn in G1.
        apply good_own in G1; auto. eapply K; [|exact H].
        eapply good_trans; [exact G0|]. eapply good_trans; [exact G1|].
        apply good_emit; [apply G1|discriminate|]. unfold fresh. cbn. auto.
      * apply (IH _ k _ _ (proj1 G0)) in H1 as G1; [|unfold s0; cbn; lia]. cbn in G1. apply good_own in G1; auto.
        eapply good_trans; eauto.
    + destruct (existsb _ _); [no_end H|]. eapply K; [|exact H]. apply expire_good; auto.
  - apply andthen_ends in H as [(s1 & H1 & H)|[H1 _]].
    + assert (H1' : ends (exec fl (TReader p r v) s) s1) by now left.
      apply (IH _ k _ _ I Lk) in H1' as G1. cbn in G1. pose proof (good_len _ _ _ _ G1).
      destruct (after r (obs s1 n)) as [r'|] eqn:E; [|apply ends_undefined in H; subst; auto].
      assert (G2 : good k s1 (emit (EEnd p r) s1) (Some p)).
      { apply good_emit; [apply G1|discriminate|]. unfold fresh. cbn. auto. }
      eapply good_trans; [exact G1|]. eapply good_trans; [exact G2|].
      apply (IH _ k _ _ (proj1 G2)) in H; auto. cbn. lia.
    + apply (IH _ k _ _ I Lk) in H1. auto.
  - apply ends_done in H. subst. apply good_frame; auto. apply frame_refl.
  - set (s0 := emit (EBegin p r) s) in *.
    assert (G0 : good k s s0 (Some p)).
    { apply good_emit; [auto|discriminate|]. unfold fresh. cbn. auto. }
    destruct (get r s0) as [o|] eqn:G; [|apply ends_undefined in H; subst; auto].
    apply (IH _ k _ _ (proj1 G0)) in H as G1; [|cbn; lia]. cbn in G1. eapply good_trans; eauto.
  - destruct (get r s) as [o|] eqn:G; [|no_end H]. destruct (find c (cbs o)) as [f|]; [|no_end H].
    set (s0 := emit (ECall p c v) s) in *.
    assert (G0 : good k s s0 (Some p)).
    { apply good_emit; [auto|discriminate|]. unfold fresh. cbn. auto. }
    apply andthen_ends in H as [(s1 & H1 & H)|[H1 _]].
    + assert (H1' : ends (exec fl (TOps (f (log s0))) s0) s1) by now left.
      apply (IH _ k _ _ (proj1 G0)) in H1' as G1; [|cbn; lia]. cbn in G1.
      assert (G2 : good k s s1 (Some p)) by (eapply good_trans; [exact G0|]; apply good_none, G1).
      destruct (get r s1) as [o2|]; [|apply ends_undefined in H; subst; auto].
      destruct (after c _) as [c'|]; [|apply ends_undefined in H; subst; auto].
      pose proof (good_len _ _ _ _ G1) as L1. cbn in L1.
      apply (IH _ k _ _ (proj1 G1)) in H; [|lia]. cbn in H.
      eapply good_trans; eauto.
    + apply (IH _ k _ _ (proj1 G0)) in H1 as G1; [|cbn; lia]. cbn in G1.
      eapply good_trans; [exact G0|]. apply good_none, G1.
  - apply ends_done in H. subst. apply good_frame; auto. apply frame_refl.
Qed.
End Frame.
