(** What each operation does to the callbacks that a node calls; callbacks that do
    nothing themselves. *)
From Coq Require Import List Arith Bool Lia.
From Verif Require Import WatchModel WatchSpec WatchFrame WatchPass WatchLog.
Import ListNotations.

Section Laws.
Context {V : Type}.
Notation event := (event V).
Notation op := (op V).
Notation st := (st V).

Definition reach (s : st) : Prop := exists fuel prog val, exec fuel (TOps prog) (init val) = Done s.
Lemma reach_inv : forall s, reach s -> inv s.
Proof.
  intros s (fuel & prog & val & H).
  apply (exec_good _ _ 0 _ _ (inv_init val) (Nat.le_0_l _) (ends_of _ _ H)).
Qed.

Lemma one : forall fuel x (s s' : st), exec fuel (TOps [x]) s = Done s' -> exists fl, fuel = S (S fl).
Proof.
  intros [|[|fl]] x s s' H; [discriminate| |eauto]. exfalso.
  destruct x; cbn in H; repeat match type of H with context [match ?y with _ => _ end] => destruct y end;
    cbn in H; try discriminate.
Qed.

Lemma attached_same : forall (s s' : st), obs s' = obs s ->
  (forall n r, In r (obs s n) -> ids s' r = ids s r) -> forall n, attached s' n = attached s n.
Proof.
  intros s s' E H n. unfold attached. rewrite E. apply map_ext_in. intros r Hr. now rewrite (H n r Hr).
Qed.

Lemma set_other_ids : forall r q o (s : st), r <> q -> ids (set_obj r o s) q = ids s q.
Proof. intros. unfold ids. now rewrite get_set_other. Qed.
Lemma set_same_ids : forall r n c (s : st), r < length (readers s) ->
  ids (set_obj r (Some (R n c)) s) r = map fst c.
Proof. intros. unfold ids. now rewrite get_set_same. Qed.
Lemma new_ids : forall n r (s : st), ids (new_obj (R n []) s) r = ids s r.
Proof.
  intros. unfold ids. rewrite get_new. destruct (r =? length (readers s)) eqn:E; auto.
  apply Nat.eqb_eq in E. subst. destruct (get (length (readers s)) s) eqn:G; auto.
  apply get_lt in G. lia.
Qed.
Lemma point_ids : forall r n o (s : st) q, get r s = Some o -> ids (set_obj r (Some (R n (cbs o))) s) q = ids s q.
Proof.
  intros r n o s q H. destruct (Nat.eq_dec r q) as [<-|Ne].
  - rewrite set_same_ids by (eapply get_lt; eauto). now rewrite (ids_get _ _ _ H).
  - now apply set_other_ids.
Qed.

Section With.
Variables (s s' : st) (fuel : nat).
Hypothesis Rs : reach s.

Lemma law_new : forall o, exec fuel (TOps [New o]) s = Done s' -> forall n, attached s' n = attached s n.
Proof.
  intros o H. destruct (one _ _ _ _ H) as [fl ->]. injection H as <-.
  apply attached_same; auto. intros. apply new_ids.
Qed.
Lemma law_copy : forall r, exec fuel (TOps [Copy r]) s = Done s' -> forall n, attached s' n = attached s n.
Proof.
  intros r H. destruct (one _ _ _ _ H) as [fl ->]. cbn in H. destruct (get r s); [|discriminate].
  injection H as <-. apply attached_same; auto. intros. apply new_ids.
Qed.
Lemma law_move : forall r, exec fuel (TOps [Move r]) s = Done s' -> forall n, attached s' n = attached s n.
Proof.
  intros r H. destruct (one _ _ _ _ H) as [fl ->]. cbn in H. destruct (get r s) as [o|] eqn:G; [|discriminate].
  injection H as <-. apply attached_same; auto. intros n q _. rewrite new_ids. now apply point_ids.
Qed.

Lemma clear_attached : forall r o n, attached (set_obj r o (unlink r s)) n
  = filter (fun x => negb (fst x =? r)) (attached s n).
Proof.
  intros. unfold attached. cbn [set_obj unlink set_obs emit obs].
  induction (obs s n) as [|q l IH]; auto. cbn [filter map fst]. destruct (q =? r) eqn:E; cbn [negb]; auto.
  cbn [map]. rewrite IH. f_equal. f_equal. apply Nat.eqb_neq in E.
  transitivity (ids (unlink r s) q); auto. apply set_other_ids. auto.
Qed.
Lemma law_unbind : forall r, exec fuel (TOps [Unbind r]) s = Done s' ->
  forall n, attached s' n = filter (fun x => negb (fst x =? r)) (attached s n).
Proof.
  intros r H n. destruct (one _ _ _ _ H) as [fl ->]. cbn in H. destruct (get r s); [|discriminate].
  injection H as <-. apply clear_attached.
Qed.
Lemma law_destroy : forall r, exec fuel (TOps [Destroy r]) s = Done s' ->
  forall n, attached s' n = filter (fun x => negb (fst x =? r)) (attached s n).
Proof.
  intros r H n. destruct (one _ _ _ _ H) as [fl ->]. cbn in H. destruct (get r s); [|discriminate].
  injection H as <-. apply clear_attached.
Qed.

(** The node a reader object points to *)
Definition node_of (s : st) (r : nat) : option nat :=
  match get r s with Some o => node o | None => None end.

Lemma relink_attached : forall r o m (s1 : st), get r s1 = Some o ->
  forall n,
  attached (relink r (R n (cbs o)) (set_obj r (Some (R n (cbs o))) s1)) m
    = attached s1 m ++ (if match n with Some k => k =? m | None => false end then
        match ids s1 r with [] => [] | l => [(r, l)] end else []).
Proof.
  intros r o m s1 G n. set (o1 := R n (cbs o)). set (s2 := set_obj r (Some o1) s1).
  assert (Iq : forall q, ids (relink r o1 s2) q = ids s1 q).
  { intros q. transitivity (ids s2 q); [|apply point_ids; auto]. unfold relink. destruct (cbs o1), (node o1); auto. }
  assert (Ob : obs (relink r o1 s2) m = obs s1 m ++
            if match n with Some k => k =? m | None => false end then
              match ids s1 r with [] => [] | _ => [r] end else []).
  { rewrite (ids_get _ _ _ G). unfold relink, o1. cbn [cbs node].
    destruct (cbs o), n as [k|]; cbn; rewrite ?app_nil_r; auto.
    - destruct (k =? m); now rewrite app_nil_r.
    - rewrite (Nat.eqb_sym m k). destruct (k =? m); auto. now rewrite app_nil_r. }
  unfold attached. rewrite Ob, map_app. f_equal; [apply map_ext; intros q; now rewrite Iq|].
  destruct (match n with Some k => k =? m | None => false end); auto.
  destruct (ids s1 r) eqn:E; auto. cbn. now rewrite Iq, E.
Qed.

Lemma law_assign : forall r r', exec fuel (TOps [Assign r r']) s = Done s' ->
  forall n, attached s' n = filter (fun x => negb (fst x =? r)) (attached s n) ++
    (if match node_of s r' with Some k => k =? n | None => false end then
       match ids s r with [] => [] | l => [(r, l)] end else []).
Proof.
  intros r r' H n. destruct (one _ _ _ _ H) as [fl ->]. cbn in H.
  destruct (get r s) as [o|] eqn:G; [|discriminate]. destruct (get r' s) as [o'|] eqn:G'; [|discriminate].
  injection H as <-. unfold node_of. rewrite G'.
  rewrite (relink_attached r o n (unlink r s) G (node o')).
  f_equal. rewrite <- (clear_attached r (get r s) n).
    apply attached_same; auto. intros k q Hq. rewrite G. destruct o. symmetry.
    apply (point_ids r node (R node cbs) (unlink r s) q G).
Qed.
Lemma law_move_assign : forall r r', exec fuel (TOps [MoveAssign r r']) s = Done s' ->
  forall n, attached s' n = filter (fun x => negb (fst x =? r)) (attached s n) ++
    (if match node_of s r' with Some k => k =? n | None => false end then
       match ids s r with [] => [] | l => [(r, l)] end else []).
Proof.
  intros r r' H n. destruct (one _ _ _ _ H) as [fl ->]. cbn in H.
  destruct (get r s) as [o|] eqn:G; [|discriminate]. destruct (get r' s) as [o'|] eqn:G'; [|discriminate].
  injection H as <-. unfold node_of. rewrite G'.
  set (s1 := set_obj r' (Some (R None (cbs o'))) (unlink r s)).
  assert (Ids : forall q, ids s1 q = ids s q) by (intros q; apply (point_ids r' None o' (unlink r s) q G')).
  assert (exists q, get r s1 = Some q /\ cbs q = cbs o) as (q & Hq & Eq).
  { unfold s1. destruct (Nat.eq_dec r' r) as [->|Ne].
    - rewrite get_set_same by (apply (get_lt _ (unlink r s) _ G')).
      eexists. split; [reflexivity|]. cbn. congruence.
    - rewrite get_set_other by auto. eauto. }
  rewrite <- Eq.
  rewrite (relink_attached r q n s1 Hq (node o')).
  rewrite Ids. f_equal. rewrite <- (clear_attached r (get r s) n).
    apply attached_same; auto. intros k x Hx. rewrite Ids, G. destruct o. symmetry.
    apply (point_ids r node (R node cbs) (unlink r s) x G).
Qed.

Lemma law_watch : forall r f, exec fuel (TOps [Watch r f]) s = Done s' ->
  exists c, (forall q, ~ In c (ids s q)) /\
  forall n, attached s' n =
    match ids s r with
    | [] => attached s n ++ (if match node_of s r with Some k => k =? n | None => false end then [(r, [c])] else [])
    | _ => map (fun x => if fst x =? r then (fst x, snd x ++ [c]) else x) (attached s n)
    end.
Proof.
  intros r f H. destruct (one _ _ _ _ H) as [fl ->]. cbn in H.
  destruct (get r s) as [o|] eqn:G; [|discriminate]. injection H as <-.
  pose proof (reach_inv _ Rs) as I. exists (ncb s). split.
  { intros q C. apply (i_lt _ I) in C. lia. }
  intros n. unfold node_of. rewrite G, (ids_get _ _ _ G).
  assert (Iq : forall q, r <> q -> ids (do_watch r f o s) q = ids s q).
  { intros q Ne. unfold ids, get, do_watch. cbn. rewrite nth_set_other by auto.
    destruct (cbs o), (node o); auto. }
  assert (Ir : ids (do_watch r f o s) r = ids s r ++ [ncb s]).
  { unfold ids at 1, get, do_watch. cbn. rewrite nth_set_same.
    - cbn. rewrite map_app. cbn. now rewrite (ids_get _ _ _ G).
    - pose proof (get_lt _ _ _ G). destruct (cbs o), (node o); auto. }
  unfold attached at 1. destruct (cbs o) as [|c l] eqn:Ec; cbn [map].
  - assert (Nr : forall m, ~ In r (obs s m)) by (eapply not_linked; eauto).
    assert (E : map (fun r0 => (r0, ids (do_watch r f o s) r0)) (obs s n) = attached s n).
    { unfold attached. apply map_ext_in. intros q Hq. rewrite Iq; auto. intros ->. now apply (Nr n). }
    unfold do_watch at 2. cbn [obs set_obj]. rewrite Ec.
    destruct (node o) as [k|].
    + cbn [add set_obs obs]. rewrite (Nat.eqb_sym n k). destruct (k =? n).
      * rewrite map_app, E. cbn [map]. rewrite Ir, (ids_get _ _ _ G), Ec. auto.
      * rewrite app_nil_r. auto.
    + rewrite app_nil_r. auto.
  - unfold do_watch at 2. cbn [obs set_obj]. rewrite Ec. unfold attached. rewrite map_map.
    apply map_ext. intros q. cbn [fst snd]. destruct (q =? r) eqn:E.
    + apply Nat.eqb_eq in E. subst. now rewrite Ir.
    + apply Nat.eqb_neq in E. now rewrite Iq by auto.
Qed.
End With.
End Laws.
