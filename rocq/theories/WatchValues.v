(** Values of nodes, as programs show them whose callbacks do nothing to reader objects:
    what [bind] and [nudge] give to the callbacks. *)
From Coq Require Import List Arith Bool Lia.
From Verif Require Import WatchModel WatchSpec WatchFrame WatchPass WatchLog WatchLaws WatchSilent.
Import ListNotations.

Section Values.
Context {V : Type}.
Notation event := (event V).
Notation op := (op V).
Notation st := (st V).

Lemma matches_init : forall val, matches [] 0 (init val : st).
Proof. intros. split; [auto|split; auto]. intros r. unfold at_, get. cbn. destruct r; cbn; auto. Qed.
Lemma quiet_init : forall val, quiet (init val : st).
Proof. intros val r o G. unfold get in G. cbn in G. destruct r; discriminate. Qed.

(** The first step of a program, then the others. *)
Lemma split_run : forall fuel x l (s s' : st), exec fuel (TOps (x :: l)) s = Done s' ->
  exists fl s1, exec fuel (TOps [x]) s = Done s1 /\ exec fl (TOps l) s1 = Done s'.
Proof.
  intros [|fl] x l s s' H; [discriminate|].
  assert (N : forall s1 : st, exec fl (TOps l) s1 = Done s' -> exec fl (TOps []) s1 = Done s1).
  { intros s1 H1. destruct fl; [discriminate|reflexivity]. }
  exists fl. destruct x; cbn [exec] in *;
    repeat match type of H with
    | exec fl (TOps l) ?s1 = Done s' => exists s1; split; [apply N; exact H|exact H]
    | andthen ?z _ = _ => destruct z; cbn [andthen] in *; try discriminate
    | (match ?z with _ => _ end) = _ => destruct z; try discriminate
    end.
Qed.

(** Calling callbacks that do nothing changes nothing. *)
Lemma idle : forall fuel t (s s' : st), quiet s -> match t with TOps l => l = [] | _ => True end ->
  exec fuel t s = Done s' -> same s s' /\ value s' = value s.
Proof.
  induction fuel as [|fl IH]; intros t s s' Q T H; [discriminate|].
  destruct t as [l|p n [r|] v|p r v|p r [c|] v]; cbn [exec] in H.
  - subst l. injection H as <-. split; [apply same_refl|auto].
  - destruct (exec fl (TReader p r v) s) as [s1| | |] eqn:H1; try discriminate. cbn [andthen] in H.
    destruct (IH (TReader p r v) _ _ Q I H1) as [S1 V1].
    destruct (after r (obs s1 n)) as [o|]; [|discriminate].
    destruct (IH (TPass p n o v) _ _ (same_quiet _ _ (same_emit _ _) (same_quiet _ _ S1 Q)) I H) as [S2 V2].
    split; [eapply same_trans; [exact S1|eapply same_trans; [apply same_emit|exact S2]]|].
    rewrite V2. exact V1.
  - injection H as <-. split; [apply same_refl|auto].
  - destruct (get r (emit (EBegin p r) s)) as [o|]; [|discriminate].
    destruct (IH (TSlots p r (hd_error (map fst (cbs o))) v) _ _ (same_quiet _ _ (same_emit _ _) Q) I H) as [S2 V2].
    split; [eapply same_trans; [apply same_emit|exact S2]|exact V2].
  - destruct (get r s) as [o|] eqn:G; [|discriminate]. destruct (find c (cbs o)) as [f|] eqn:Ef; [|discriminate].
    rewrite (quiet_find _ _ _ _ _ Q G Ef) in H.
    destruct (exec fl (TOps []) (emit (ECall p c v) s)) as [s2| | |] eqn:H2; try discriminate. cbn [andthen] in H.
    destruct (IH (TOps []) _ _ (same_quiet _ _ (same_emit _ _) Q) eq_refl H2) as [S2 V2].
    destruct (get r s2) as [o2|]; [|discriminate]. destruct (after c (map fst (cbs o2))) as [c'|]; [|discriminate].
    assert (S3 : same s s2) by (eapply same_trans; [apply same_emit|exact S2]).
    destruct (IH (TSlots p r c' v) _ _ (same_quiet _ _ S3 Q) I H) as [S4 V4].
    split; [eapply same_trans; eauto|]. rewrite V4, V2. auto.
  - injection H as <-. split; [apply same_refl|auto].
Qed.

Lemma relink_value : forall r o (s : st), value (relink r o s) = value s.
Proof. intros. unfold relink. destruct (cbs o), (node o); auto. Qed.
Lemma watch_value : forall r f o (s : st), value (do_watch r f o s) = value s.
Proof. intros. unfold do_watch. destruct (cbs o), (node o); auto. Qed.
Lemma expire_value : forall l (s : st), value (fold_left (fun s r => unlink r s) l s) = value s.
Proof. induction l as [|q l IH]; intros s; cbn [fold_left]; auto. rewrite IH. auto. Qed.

Lemma one_value : forall fuel x (s s' : st) n, silent1 x -> quiet s -> exec fuel (TOps [x]) s = Done s' ->
  value s' n = latest n [x] (value s n).
Proof.
  intros fuel x s s' n Sx Q H. destruct (one _ _ _ _ H) as [fl ->]. unfold latest. cbn [fold_left].
  remember (S fl) as fl1.
  assert (N : forall s1 s2 : st, exec fl1 (TOps []) s1 = Done s2 -> s2 = s1) by (subst fl1; cbn; congruence).
  destruct x; cbn [exec] in H; cbn [silent1] in Sx;
    repeat match type of H with
    | (match get ?r ?z with _ => _ end) = _ => destruct (get r z); try discriminate
    | (match node ?z with _ => _ end) = _ => destruct (node z); try discriminate
    | (if ?z then _ else _) = _ => destruct z; try discriminate
    end; try (apply N in H; subst s'); auto.
  - now rewrite relink_value.
  - now rewrite relink_value.
  - now rewrite watch_value.
  - rewrite Sx in H. match type of H with andthen ?z _ = _ => destruct z as [s1| | |] eqn:H1 end; try discriminate.
    apply N in H1. subst s1. cbn [andthen] in H. match type of H with match ?z with _ => _ end = _ => destruct z end; try discriminate.
    apply N in H. subst s'. now rewrite watch_value.
  - match type of H with andthen ?z _ = _ => destruct z as [s1| | |] eqn:H1 end; try discriminate.
    cbn [andthen] in H. apply N in H. subst s'. cbn [value emit].
    destruct (idle _ (TReader _ _ _) _ _ (same_quiet _ _ (same_emit _ _) Q) I H1) as [_ ->]. auto.
  - match type of H with andthen ?z _ = _ => destruct z as [s1| | |] eqn:H1 end; try discriminate.
    cbn [andthen] in H. apply N in H. subst s'. cbn [value emit].
    assert (Q1 : quiet (set_value n0 v s)) by (intros r o G; apply (Q r o); exact G).
    destruct (idle _ (TPass _ _ _ _) _ _ (same_quiet _ _ (same_emit _ _) Q1) I H1) as [_ ->]. cbn [value emit set_value].
    now rewrite Nat.eqb_sym.
  - now rewrite expire_value.
Qed.

(** A run, at every moment of it *)
Lemma silent_state : forall fuel prog val (s : st), silent prog -> exec fuel (TOps prog) (init val) = Done s ->
  inv s /\ quiet s /\ exists k, matches (objects prog) k s.
Proof.
  intros fuel prog val s Si H.
  destruct (run_matches _ _ _ _ _ _ Si (quiet_init val) (inv_init val) (matches_init val) H) as [Q M].
  cbv zeta in M. split; [apply reach_inv; do 3 eexists; eauto|]. split; auto. eexists. exact M.
Qed.

Lemma run_value : forall prog fuel w k (s s' : st) n, silent prog -> quiet s -> inv s -> matches w k s ->
  exec fuel (TOps prog) s = Done s' -> value s' n = latest n prog (value s n).
Proof.
  induction prog as [|x l IH]; intros fuel w k s s' n Si Q Is M H.
  - destruct fuel; [discriminate|]. injection H as <-. auto.
  - inversion_clear Si as [|? ? Sx Sl].
    destruct (split_run _ _ _ _ _ H) as (fl & s1 & H1 & H2).
    destruct (run_matches _ [x] _ _ _ _ (Forall_cons _ Sx (Forall_nil _)) Q Is M H1) as [Q1 M1].
    assert (I1 : inv s1) by (apply (exec_good _ _ 0 _ _ Is (Nat.le_0_l _) (ends_of _ _ H1))).
    rewrite (IH _ _ _ _ _ n Sl Q1 I1 M1 H2), (one_value _ _ _ _ n Sx Q H1). reflexivity.
Qed.

Theorem values : forall fuel prog val (s : st) n, silent prog ->
  exec fuel (TOps prog) (init val) = Done s -> value s n = latest n prog (val n).
Proof.
  intros fuel prog val s n Si H.
  exact (run_value _ _ _ _ _ _ n Si (quiet_init val) (inv_init val) (matches_init val) H).
Qed.

(** ** bind *)
Theorem bind_calls : forall fuel fuel' prog val r f (s s' : st), silent prog -> (forall l, f l = []) ->
  exec fuel (TOps prog) (init val) = Done s -> exec fuel' (TOps [Bind r f]) s = Done s' ->
  exists o n, at_ (objects prog) r = Some o /\ at_node o = Some n /\
    log s' = EBind r (latest n prog (val n)) :: log s.
Proof.
  intros fuel fuel' prog val r f s s' Si Sf H H'. destruct (silent_state _ _ _ _ Si H) as (Is & Q & k & M).
  destruct (one _ _ _ _ H') as [fl ->]. remember (S fl) as fl1. cbn [exec] in H'.
  destruct (get r s) as [o'|] eqn:G; [|discriminate].
  destruct (m_get _ _ _ M _ _ G) as (o & Ao & An & _). exists o.
  destruct (node o') as [n|] eqn:En; [|discriminate]. exists n. split; [auto|]. split; [congruence|].
  rewrite Sf in H'. subst fl1. cbn [exec andthen] in H'.
  destruct (get r (emit _ s)) as [o1|]; [|discriminate]. injection H' as <-.
  rewrite watch_log. cbn [log emit]. now rewrite (values _ _ _ _ n Si H).
Qed.

(** ** nudge *)
Theorem nudge_calls : forall fuel fuel' prog val r (s s' : st), silent prog ->
  exec fuel (TOps prog) (init val) = Done s -> exec fuel' (TOps [Nudge r]) s = Done s' ->
  exists o n new, at_ (objects prog) r = Some o /\ at_node o = Some n /\ log s' = new ++ log s /\
    calls new = map (fun c => (c, latest n prog (val n))) (has o).
Proof.
  intros fuel fuel' prog val r s s' Si H H'. destruct (silent_state _ _ _ _ Si H) as (Is & Q & k & M).
  destruct (one _ _ _ _ H') as [fl ->]. remember (S fl) as fl1. cbn [exec] in H'.
  destruct (get r s) as [o'|] eqn:G; [|discriminate].
  destruct (m_get _ _ _ M _ _ G) as (o & Ao & An & Ah & _).
  destruct (node o') as [n|] eqn:En; [|discriminate].
  set (p := length (log s)) in *. set (s0 := emit _ _) in H'.
  destruct (exec fl1 (TReader p r (value s n)) s0) as [s1| | |] eqn:H1; try discriminate.
  cbn [andthen] in H'. subst fl1. injection H' as <-.
  destruct (reader_silent _ _ _ _ _ _ (emit_inv _ _ Is) (same_quiet _ _ (same_emit _ _) Q) H1) as [_ L].
  exists o, n, ([EPassed p; EEnd p r] ++ reader_events p (value s n) (r, ids s0 r) ++ [EPass p [(r, ids s r)]]).
  split; [auto|]. split; [congruence|]. split.
  - cbn [log emit]. rewrite L. cbn [app]. rewrite <- app_assoc. auto.
  - rewrite !calls_app. unfold reader_events. rewrite calls_app, own_slots. cbn. rewrite app_nil_r.
    rewrite <- (values _ _ _ _ n Si H), Ah. unfold s0, ids.
    change (get r (emit (EPass p [(r, match get r s with Some o => map fst (cbs o) | None => [] end)]) s)) with (get r s).
    now rewrite G.
Qed.

(** ** The end of a node *)
Theorem expire_iff : forall fuel prog val n (s : st), silent prog ->
  exec fuel (TOps prog) (init val) = Done s ->
  ((exists fuel', exec fuel' (TOps [Expire n]) s = Misuse) <-> pointed_to n (objects prog)) /\
  ((exists fuel' s', exec fuel' (TOps [Expire n]) s = Done s') <-> ~ pointed_to n (objects prog)).
Proof.
  intros fuel prog val n s Si H. destruct (silent_state _ _ _ _ Si H) as (Is & Q & k & (Ml & _ & M)).
  set (b := existsb (fun o => match o with Some (R (Some k) _) => k =? n | _ => false end) (readers s)).
  assert (B : b = true <-> pointed_to n (objects prog)).
  { unfold b. rewrite existsb_exists. split.
    - intros ([[[j|] c]|] & Hi & E); try discriminate. apply Nat.eqb_eq in E. subst j.
      apply In_nth_error in Hi as (r & Hr). specialize (M r). unfold get in M. rewrite Hr in M.
      destruct (at_ (objects prog) r) as [o|] eqn:A; [|contradiction]. exists r, o. split; auto. apply M.
    - intros (r & o & A & E). specialize (M r). rewrite A in M. destruct (get r s) as [o'|] eqn:G; [|contradiction].
      exists (Some o'). unfold get in G. destruct (nth_error (readers s) r) as [x|] eqn:N; [|discriminate]. subst x.
      split; [eapply nth_error_In; eauto|]. destruct M as (M1 & _). rewrite M1 in E. destruct o' as [j c]. cbn in E. subst j.
      apply Nat.eqb_refl. }
  rewrite <- B. split; split.
  - intros ([|[|fl]] & X); cbn in X; fold b in X; try discriminate; destruct b; auto; discriminate.
  - intros E. exists 2. cbn. fold b. now rewrite E.
  - intros ([|[|fl]] & s' & X); cbn in X; fold b in X; try discriminate; destruct b; try discriminate; congruence.
  - intros E. exists 2. cbn. fold b. destruct b; [contradiction E; auto|eauto].
Qed.
End Values.
