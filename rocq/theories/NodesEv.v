(** Completed executions as a relation, convenient for induction, and the
    elementary steps they are made of. *)
From Coq Require Import List Arith Bool Lia.
From Verif Require Import NodesModel NodesBase NodesInv NodesExec.
Import ListNotations.

Section Ev.
Context {V W : Type}.
Variable changed : V -> V -> bool.
Hypothesis changed_sound : forall a b, changed a b = false -> a = b.
Variable ordV : graph V W -> nat -> list (nat * V) -> list (nat * V).
Variable ordN : graph V W -> nat -> list nat -> list nat.

Set Default Proof Using "Type changed_sound".
Implicit Types g : graph V W.
Implicit Types s : st V W.

Notation exec := (exec changed ordV ordN).
Notation Inv := (Inv changed).

Definition wr (n : nat) (v : V) s : st V W :=
  with_gr (emit (EWrite n v) s) (push_down changed n v).
Definition start_notify (n : nat) s : st V W :=
  with_gr s (fun g => upd g n (fun a => set_ntf true (set_nn false a))).
Definition restore (n : nat) (old : bool) s : st V W :=
  with_gr s (fun g => upd g n (set_ntf old)).
Definition mark_rcp (n : nat) s : st V W :=
  with_gr s (fun g => upd g n (set_rcp true)).
Definition new_node k ps v s : st V W :=
  with_gr (emit (ENew (cnt (gr s)) v (world (gr s))) s) (add_node k ps v).
Definition drop_held (n : nat) s : st V W :=
  with_gr s (fun g => upd g n (fun a => set_held (pred (n_held a)) a)).
Definition add_watch (n : nat) cb s : st V W :=
  let g := gr s in
  let g' := upd g n (fun a => set_slots (n_slots a ++ [(nexts g, cb)]) a) in
  St (Graph (cnt g') (nd g') (S (nexts g)) (pins g') (world g'))
     (EWatch n (nexts g) (last g n) :: log s).
Definition del_watch (n sid : nat) s : st V W :=
  with_gr s (fun g => upd g n (fun a =>
    set_slots (filter (fun sl => negb (fst sl =? sid)) (n_slots a)) a)).
Definition called (n sid : nat) s : st V W :=
  emit (ECall n sid (last (gr s) n) (gr s)) s.
Definition up_of (k : kind V W) : upk V :=
  match k with KInner _ u => u | KXform _ u => u | _ => UNone end.
Definition refreshed (rf : bool) (n : nat) s : st V W :=
  if rf then with_gr s (refresh changed ordN (S n) n) else s.

Inductive ev : task V W -> st V W -> bool -> st V W -> Prop :=
| E_ret s : ev (TProg PRet) s true s
| E_throw s : ev (TProg PThrow) s false (emit EThrow s)
| E_do c k s s1 b s2 : ev (TCmd c) s true s1 ->
    ev (TProg (k (get_obs s1))) (see s1) b s2 -> ev (TProg (PDo c k)) s b s2
| E_do_t c k s s1 : ev (TCmd c) s false s1 -> ev (TProg (PDo c k)) s false s1
| E_try p k s b1 s1 b s2 : ev (TProg p) s b1 s1 ->
    ev (TProg (k b1 (get_obs s1))) (see s1) b s2 -> ev (TProg (PTry p k)) s b s2
| E_set n v s b s1 : handle (gr s) n = true -> ev (TSend n v) (pin n s) b s1 ->
    ev (TCmd (CSet n v)) s b (unpin s1)
| E_update n fn s b s1 : handle (gr s) n = true ->
    ev (TSend n (fn (cur (gr s) n))) (pin n s) b s1 ->
    ev (TCmd (CUpdate n fn)) s b (unpin s1)
| E_commit ns s b s1 :
    (forall n, In n ns -> handle (gr s) n = true /\ is_root (kind_of (gr s) n) = true) ->
    ev (TRoots ns) (send_roots changed ns s) b s1 -> ev (TCmd (CCommit ns)) s b s1
| E_push n v s : handle (gr s) n = true -> kind_of (gr s) n = KStore ->
    ev (TCmd (CPush n v)) s true (wr n v s)
| E_new k ps d v s : (forall p, In p ps -> handle (gr s) p = true) -> NoDup ps ->
    arity_ok k ps = true -> initial (gr s) k ps d = Some v ->
    ev (TCmd (CNew k ps d)) s true (new_node k ps v s)
| E_new_t k ps d s : initial (gr s) k ps d = None ->
    ev (TCmd (CNew k ps d)) s false (emit EThrow s)
| E_drop n s : n < cnt (gr s) -> 0 < n_held (nd (gr s) n) ->
    ev (TCmd (CDrop n)) s true (drop_held n s)
| E_watch n cb s : handle (gr s) n = true ->
    ev (TCmd (CWatch n cb)) s true (add_watch n cb s)
| E_unwatch n sid s : n < cnt (gr s) ->
    existsb (fun sl => fst sl =? sid) (slots (gr s) n) = true ->
    ev (TCmd (CUnwatch n sid)) s true (del_watch n sid s)
| E_world w s : ev (TCmd (CWorld w)) s true (with_gr s (fun g => set_world g w))
| E_send_trans n v s : kind_of (gr s) n = KState false ->
    ev (TSend n v) s true (wr n v s)
| E_send_auto n v s b s1 : kind_of (gr s) n = KState true ->
    ev (TNotify n) (send_roots changed [n] (wr n v s)) b s1 -> ev (TSend n v) s b s1
| E_send_setter_t auto fn n v s s1 : kind_of (gr s) n = KSetter auto fn ->
    ev (TProg (fn v (get_obs s))) (ask n v s) false s1 -> ev (TSend n v) s false s1
| E_send_setter_trans fn n v s s1 : kind_of (gr s) n = KSetter false fn ->
    ev (TProg (fn v (get_obs s))) (ask n v s) true s1 ->
    ev (TSend n v) s true (with_gr s1 (push_down changed n v))
| E_send_setter_auto fn n v s s1 b s2 : kind_of (gr s) n = KSetter true fn ->
    ev (TProg (fn v (get_obs s))) (ask n v s) true s1 ->
    ev (TNotify n)
       (send_roots changed [n] (mark_rcp n (with_gr s1 (push_down changed n v)))) b s2 ->
    ev (TSend n v) s b s2
| E_send_inner rf up n v s b s1 :
    up_of (kind_of (gr s) n) = UWrite rf up ->
    ev (TPushAll n (up (current_from (gr (refreshed rf n s))
                                     (parents (gr (refreshed rf n s)) n)) v))
       (refreshed rf n s) b s1 -> ev (TSend n v) s b s1
| E_pushall_nil n s : ev (TPushAll n []) s true s
| E_pushall n t ts s s1 b s2 :
    ev (TPush (ordV (gr s) n (combine (parents (gr s) n) t))) s true s1 ->
    ev (TPushAll n ts) s1 b s2 -> ev (TPushAll n (t :: ts)) s b s2
| E_pushall_t n t ts s s1 :
    ev (TPush (ordV (gr s) n (combine (parents (gr s) n) t))) s false s1 ->
    ev (TPushAll n (t :: ts)) s false s1
| E_tpush_nil s : ev (TPush []) s true s
| E_tpush p v r s s1 b s2 : ev (TSend p v) s true s1 -> ev (TPush r) s1 b s2 ->
    ev (TPush ((p, v) :: r)) s b s2
| E_tpush_t p v r s s1 : ev (TSend p v) s false s1 -> ev (TPush ((p, v) :: r)) s false s1
| E_roots_nil s : ev (TRoots []) s true s
| E_roots n r s s1 b s2 : handle (gr s) n = true ->
    ev (TNotify n) s true s1 -> ev (TRoots r) s1 b s2 -> ev (TRoots (n :: r)) s b s2
| E_roots_t n r s s1 : handle (gr s) n = true ->
    ev (TNotify n) s false s1 -> ev (TRoots (n :: r)) s false s1
| E_notify_skip n s : nn (gr s) n && negb (nsd (gr s) n) = false -> ev (TNotify n) s true s
| E_notify n s s1 b s2 : nn (gr s) n = true -> nsd (gr s) n = false ->
    ev (TSlots n 0) (start_notify n s) true s1 ->
    ev (TKids n 0 (length (children (gr s1) n)) false (ntf (gr s) n)) s1 b s2 ->
    (b = false -> alive (gr s2) n = true) ->
    ev (TNotify n) s b (restore n (ntf (gr s) n) s2)
| E_notify_t n s s1 : nn (gr s) n = true -> nsd (gr s) n = false ->
    ev (TSlots n 0) (start_notify n s) false s1 -> alive (gr s1) n = true ->
    ev (TNotify n) s false (restore n (ntf (gr s) n) s1)
| E_slots_nil n from s : next_slot from (slots (gr s) n) = None ->
    ev (TSlots n from) s true s
| E_slots n from sid cb s s1 b s2 : next_slot from (slots (gr s) n) = Some (sid, cb) ->
    ev (TProg (cb (last (gr s) n) (get_obs s))) (called n sid s) true s1 ->
    alive (gr s1) n = true ->
    existsb (fun sl => fst sl =? sid) (slots (gr s1) n) = true ->
    ev (TSlots n (S sid)) s1 b s2 -> ev (TSlots n from) s b s2
| E_slots_t n from sid cb s s1 : next_slot from (slots (gr s) n) = Some (sid, cb) ->
    ev (TProg (cb (last (gr s) n) (get_obs s))) (called n sid s) false s1 ->
    ev (TSlots n from) s false (emit (EEscape n sid) s1)
| E_kids_end n i size garbage old s : size <= i ->
    ev (TKids n i size garbage old) s true
       (if garbage && negb old then with_gr s (collect n) else s)
| E_kids n i size garbage old c s s1 b s2 : i < size ->
    nth_error (children (gr s) n) i = Some c -> alive (gr s) c = true ->
    ev (TNotify c) (pin c s) true s1 -> alive (gr (unpin s1)) n = true ->
    ev (TKids n (S i) size garbage old) (unpin s1) b s2 ->
    ev (TKids n i size garbage old) s b s2
| E_kids_t n i size garbage old c s s1 : i < size ->
    nth_error (children (gr s) n) i = Some c -> alive (gr s) c = true ->
    ev (TNotify c) (pin c s) false s1 ->
    ev (TKids n i size garbage old) s false (unpin s1)
| E_kids_dead n i size garbage old c s b s1 : i < size ->
    nth_error (children (gr s) n) i = Some c -> alive (gr s) c = false ->
    ev (TKids n (S i) size true old) s b s1 ->
    ev (TKids n i size garbage old) s b s1.

Definition outcome (r : res V W) (b : bool) s : Prop :=
  match r with Done s' => b = true /\ s' = s | Thrown s' => b = false /\ s' = s | _ => False end.

Lemma exec_ev : forall fuel t s b s', outcome (exec fuel t s) b s' -> ev t s b s'.
Proof using Type.
  induction fuel as [|f IH]; intros t s b s'; [intros []|].
  assert (IHd : forall t s s', exec f t s = Done s' -> ev t s true s').
  { intros t0 s0 s1 E. apply IH. rewrite E. split; auto. }
  assert (IHt : forall t s s', exec f t s = Thrown s' -> ev t s false s').
  { intros t0 s0 s1 E. apply IH. rewrite E. split; auto. }
  destruct t as [p|c|n v|n vs|l|ns|n|n from|n i size garbage old];
    cbn [NodesModel.exec].
  - destruct p as [| |c k|p k].
    + intros [-> <-]. constructor.
    + intros [-> <-]. constructor.
    + destruct (exec f (TCmd c) s) as [s1|s1| | |] eqn:E1; simpl; try contradiction.
      * intros O. eapply E_do; eauto.
      * intros [-> <-]. eapply E_do_t; eauto.
    + destruct (exec f (TProg p) s) as [s1|s1| | |] eqn:E1; simpl; try contradiction;
        intros O; eapply E_try; eauto.
  - destruct c as [n v|n fn|ns|n v|k ps d|n|n cb|n sid|w].
    + destruct (handle (gr s) n) eqn:H; [|intros []].
      destruct (exec f (TSend n v) (pin n s)) as [s1|s1| | |] eqn:E1; simpl; try contradiction;
        intros [-> <-]; constructor; auto.
    + destruct (handle (gr s) n) eqn:H; [|intros []].
      destruct (exec f (TSend n _) (pin n s)) as [s1|s1| | |] eqn:E1; simpl; try contradiction;
        intros [-> <-]; constructor; auto.
    + destruct (forallb _ ns) eqn:H; [|intros []].
      intros O. apply E_commit; auto. rewrite forallb_forall in H.
      intros n Hn. now apply andb_true_iff, H.
    + destruct (handle (gr s) n) eqn:H; [|intros []].
      destruct (kind_of (gr s) n) eqn:K; try (intros []; fail).
      intros [-> <-]. constructor; auto.
    + destruct (forallb (handle (gr s)) ps && nodupb ps && arity_ok k ps) eqn:H; [|intros []].
      apply andb_true_iff in H as [H H3]. apply andb_true_iff in H as [H1 H2].
      rewrite forallb_forall in H1.
      destruct (initial (gr s) k ps d) as [v|] eqn:E; intros [-> <-].
      * eapply E_new; eauto. now apply nodupb_NoDup.
      * constructor; auto.
    + destruct ((n <? cnt (gr s)) && (0 <? n_held (nd (gr s) n))) eqn:H; [|intros []].
      apply andb_true_iff in H as [H1 H2]. apply Nat.ltb_lt in H1, H2.
      intros [-> <-]. constructor; auto.
    + destruct (handle (gr s) n) eqn:H; [|intros []].
      intros [-> <-]. constructor; auto.
    + destruct ((n <? cnt (gr s)) && _) eqn:H; [|intros []].
      apply andb_true_iff in H as [H1 H2]. apply Nat.ltb_lt in H1.
      intros [-> <-]. constructor; auto.
    + intros [-> <-]. constructor; auto.
  - destruct (alive (gr s) n); [|intros []].
    destruct (kind_of (gr s) n) as [auto|fs| | |down up|step up|auto fn] eqn:K;
      try (intros []; fail).
    + destruct auto; intros O.
      * apply E_send_auto; auto.
      * destruct O as [-> <-]. now apply E_send_trans.
    + destruct up as [|rf up]; [intros []|]. intros O.
      eapply E_send_inner; [rewrite K; reflexivity|]. apply IH. exact O.
    + destruct up as [|rf up]; [intros []|]. intros O.
      eapply E_send_inner; [rewrite K; reflexivity|]. apply IH. exact O.
    + destruct (exec f (TProg (fn v (get_obs s))) (ask n v s)) as [s1|s1| | |] eqn:E1; simpl;
        try contradiction.
      * destruct auto; intros O.
        -- eapply E_send_setter_auto; [exact K|apply IHd; exact E1|apply IH; exact O].
        -- destruct O as [-> <-]. eapply E_send_setter_trans; eauto.
      * intros [-> <-]. eapply E_send_setter_t; eauto.
  - destruct vs as [|t ts]; [intros [-> <-]; constructor|].
    destruct (exec f (TPush _) s) as [s1|s1| | |] eqn:E1; simpl; try contradiction.
    + intros O. eapply E_pushall; eauto.
    + intros [-> <-]. eapply E_pushall_t; eauto.
  - destruct l as [|[p v] r]; [intros [-> <-]; constructor|].
    destruct (exec f (TSend p v) s) as [s1|s1| | |] eqn:E1; simpl; try contradiction.
    + intros O. eapply E_tpush; eauto.
    + intros [-> <-]. eapply E_tpush_t; eauto.
  - destruct ns as [|n r]; [intros [-> <-]; constructor|].
    destruct (handle (gr s) n) eqn:H; [|intros []].
    destruct (exec f (TNotify n) s) as [s1|s1| | |] eqn:E1; simpl; try contradiction.
    + intros O. eapply E_roots; eauto.
    + intros [-> <-]. eapply E_roots_t; eauto.
  - destruct (negb (alive (gr s) n)); [intros []|].
    destruct (nn (gr s) n && negb (nsd (gr s) n)) eqn:H.
    + apply andb_true_iff in H as [H1 H2]. apply negb_true_iff in H2.
      change (with_gr s (fun g => upd g n (fun a => set_ntf true (set_nn false a))))
        with (start_notify n s).
      destruct (exec f (TSlots n 0) (start_notify n s)) as [s1|s1| | |] eqn:E1; simpl;
        try contradiction.
      * destruct (exec f (TKids n 0 _ false _) s1) as [s2|s2| | |] eqn:E2; simpl;
          try contradiction.
        -- intros [-> <-].
           apply (E_notify n s s1 true s2 H1 H2 (IHd _ _ _ E1) (IHd _ _ _ E2)).
           discriminate.
        -- destruct (alive (gr s2) n) eqn:A; [|unfold gone; destruct (is_root _); intros []]. intros [-> <-].
           apply (E_notify n s s1 false s2 H1 H2 (IHd _ _ _ E1) (IHt _ _ _ E2)). auto.
      * destruct (alive (gr s1) n) eqn:A; [|unfold gone; destruct (is_root _); intros []]. intros [-> <-].
        apply (E_notify_t n s s1 H1 H2 (IHt _ _ _ E1) A).
    + intros [-> <-]. now constructor.
  - destruct (next_slot from (slots (gr s) n)) as [[sid cb]|] eqn:H;
      [|intros [-> <-]; now constructor].
    change (emit (ECall n sid (last (gr s) n) (gr s)) s) with (called n sid s).
    change (get_obs (called n sid s)) with (get_obs s).
    destruct (exec f (TProg _) (called n sid s)) as [s1|s1| | |] eqn:E1; simpl;
      try contradiction.
    + destruct (alive (gr s1) n) eqn:A1; [|unfold gone; destruct (is_root _); intros []].
      destruct (existsb _ _) eqn:A2; [|intros []]. intros O. eapply E_slots; eauto.
    + intros [-> <-]. apply (E_slots_t n from sid cb s s1); auto.
  - destruct (i <? size) eqn:Hi.
    + apply Nat.ltb_lt in Hi.
      destruct (nth_error (children (gr s) n) i) as [c|] eqn:Hc; [|intros []].
      destruct (alive (gr s) c) eqn:A.
      * destruct (exec f (TNotify c) (pin c s)) as [s1|s1| | |] eqn:E1; simpl; try contradiction.
        -- destruct (alive (gr (unpin s1)) n) eqn:A2.
           ++ simpl in A2. rewrite A2. intros O. eapply E_kids; eauto.
           ++ simpl in A2. rewrite A2. unfold gone; destruct (is_root _); intros [].
        -- intros [-> <-]. eapply E_kids_t; eauto.
      * intros O. eapply E_kids_dead; eauto.
    + apply Nat.ltb_ge in Hi. intros [-> <-]. now apply E_kids_end.
Qed.

(** ** Elementary steps *)
Inductive step : st V W -> st V W -> Prop :=
| S_throw s : step s (emit EThrow s)
| S_see s : step s (see s)
| S_ask n v s : step s (ask n v s)
| S_escape n sid s : step s (emit (EEscape n sid) s)
| S_pin n s : alive (gr s) n = true -> step s (pin n s)
| S_unpin s : step s (unpin s)
| S_commit ns s :
    (forall n, In n ns -> handle (gr s) n = true /\ is_root (kind_of (gr s) n) = true) ->
    step s (send_roots changed ns s)
| S_write n v s : kind_of (gr s) n = KStore \/ kind_of (gr s) n = KState false ->
    step s (wr n v s)
| S_auto n v s : kind_of (gr s) n = KState true ->
    step s (send_roots changed [n] (wr n v s))
| S_setter n fn v s : kind_of (gr s) n = KSetter false fn ->
    step s (with_gr s (push_down changed n v))
| S_setter_auto n fn v s : kind_of (gr s) n = KSetter true fn ->
    step s (send_roots changed [n] (mark_rcp n (with_gr s (push_down changed n v))))
| S_new k ps d v s : (forall p, In p ps -> handle (gr s) p = true) -> NoDup ps ->
    arity_ok k ps = true -> initial (gr s) k ps d = Some v ->
    step s (new_node k ps v s)
| S_drop n s : n < cnt (gr s) -> 0 < n_held (nd (gr s) n) -> step s (drop_held n s)
| S_watch n cb s : handle (gr s) n = true -> step s (add_watch n cb s)
| S_unwatch n sid s : n < cnt (gr s) ->
    existsb (fun sl => fst sl =? sid) (slots (gr s) n) = true ->
    step s (del_watch n sid s)
| S_world w s : step s (with_gr s (fun g => set_world g w))
| S_refresh n up s : up_of (kind_of (gr s) n) = UWrite true up ->
    step s (with_gr s (refresh changed ordN (S n) n))
| S_notify n s : nn (gr s) n = true -> nsd (gr s) n = false -> step s (start_notify n s)
| S_restore n old s : n < cnt (gr s) -> step s (restore n old s)
| S_call n sid cb s : In (sid, cb) (slots (gr s) n) -> step s (called n sid s)
| S_collect n s : step s (with_gr s (collect n)).

Inductive steps : st V W -> st V W -> Prop :=
| steps_refl s : steps s s
| steps_snoc s s1 s2 : steps s s1 -> step s1 s2 -> steps s s2.

Lemma steps_one : forall s s', step s s' -> steps s s'.
Proof using Type. intros. eapply steps_snoc; [apply steps_refl|auto]. Qed.
Lemma steps_trans : forall a b c, steps a b -> steps b c -> steps a c.
Proof using Type.
  intros a b c H K. revert H. induction K as [x|x y z K IH S1]; intros H; auto.
  eapply steps_snoc; [apply IH; exact H|exact S1].
Qed.

Lemma step_Inv : forall s s', step s s' -> Inv (gr s) -> Inv (gr s') /\ ext (gr s) (gr s').
Proof.
  intros s s' H HI.
  assert (RR : Inv (gr s) /\ ext (gr s) (gr s)) by (split; [auto|apply ext_refl]).
  destruct H; auto.
  - now apply pin_Inv.
  - now apply unpin_Inv.
  - now apply send_roots_Inv.
  - apply (Inv_push_down changed changed_sound (gr s)); auto.
    destruct H as [H|H]; now rewrite H.
  - assert (P : Inv (push_down changed n v (gr s)) /\ ext (gr s) (push_down changed n v (gr s))).
    { apply (Inv_push_down changed changed_sound); auto. now rewrite H. }
    destruct P as [P1 P2].
    destruct (send_roots_Inv changed changed_sound [n] (wr n v s) P1) as [P3 P4].
    split; auto. eapply ext_trans; eauto.
  - apply (Inv_push_down changed changed_sound (gr s)); auto. now rewrite H.
  - assert (P : Inv (push_down changed n v (gr s)) /\ ext (gr s) (push_down changed n v (gr s))).
    { apply (Inv_push_down changed changed_sound); auto. now rewrite H. }
    destruct P as [P1 P2].
    assert (L : n < cnt (push_down changed n v (gr s))).
    { destruct P2 as [P2 _]. assert (n < cnt (gr s)); [|lia].
      apply (noninner_out _ _ (proj1 HI)). rewrite H. discriminate. }
    destruct (Inv_rcp changed changed_sound _ n true P1 L) as [P3 P4].
    destruct (send_roots_Inv changed changed_sound [n]
      (mark_rcp n (with_gr s (push_down changed n v))) P3) as [P5 P6].
    split; auto. eapply ext_trans; [exact P2|]. eapply ext_trans; eauto.
  - apply (add_Inv changed changed_sound (gr s)); auto.
    intros down up x -> Ex. simpl in H2. rewrite Ex in H2. congruence.
  - now apply (drop_Inv changed changed_sound).
  - now apply (watch_Inv changed changed_sound).
  - now apply (unwatch_Inv changed changed_sound).
  - now apply (world_Inv changed changed_sound).
  - split; [split|].
    + apply (wf_refresh changed changed_sound). apply HI.
    + apply (refresh_D changed changed_sound); [apply (wf_par _ (proj1 HI))|apply HI].
    + apply ext_ss; auto. apply (fr_ss _ _ (fr_refresh changed ordN (S n) n (gr s))).
  - apply (flags_Inv changed changed_sound); auto; [|intros []; simpl; auto 10].
    destruct (Nat.lt_ge_cases n (cnt (gr s))) as [L|L]; auto.
    destruct (wf_out _ (proj1 HI) n L) as (_&_&_&_&_&A&_). congruence.
  - apply (flags_Inv changed changed_sound); auto. intros []; simpl; auto 10.
  - now apply (collect_Inv changed changed_sound).
Qed.

Lemma steps_Inv : forall s s', steps s s' -> Inv (gr s) -> Inv (gr s') /\ ext (gr s) (gr s').
Proof.
  intros s s' H HI. induction H as [s|s s1 s2 H IH H1].
  - split; [auto|apply ext_refl]; auto.
  - destruct (IH HI) as [A B]. destruct (step_Inv _ _ H1 A) as [A1 B1].
    split; auto. eapply ext_trans; eauto.
Qed.

Lemma next_slot_In : forall from (l : list (slot V W)) sid cb,
  next_slot from l = Some (sid, cb) -> In (sid, cb) l /\ from <= sid.
Proof using Type.
  unfold next_slot. intros from l sid cb H. apply find_some in H as [H1 H2].
  split; auto. now apply Nat.leb_le in H2.
Qed.

Ltac st1 := (eapply steps_trans; [apply steps_one; econstructor; eauto|]).

Lemma ev_steps : forall t s b s', ev t s b s' -> Inv (gr s) -> steps s s'.
Proof.
  intros t s b s' H. induction H; intros HI; try (apply steps_refl).
  - apply steps_one; constructor.
  - specialize (IHev1 HI). destruct (steps_Inv _ _ IHev1 HI) as [I1 _].
    eapply steps_trans; [exact IHev1|]. eapply steps_trans; [apply steps_one, S_see|].
    apply IHev2. exact I1.
  - auto.
  - specialize (IHev1 HI). destruct (steps_Inv _ _ IHev1 HI) as [I1 _].
    eapply steps_trans; [exact IHev1|]. eapply steps_trans; [apply steps_one, S_see|].
    apply IHev2. exact I1.
  - assert (S1 : step s (pin n s)) by (constructor; now apply alive_handle).
    eapply steps_trans; [apply steps_one; exact S1|].
    eapply steps_snoc; [|apply S_unpin]. apply IHev. now apply (step_Inv _ _ S1).
  - assert (S1 : step s (pin n s)) by (constructor; now apply alive_handle).
    eapply steps_trans; [apply steps_one; exact S1|].
    eapply steps_snoc; [|apply S_unpin]. apply IHev. now apply (step_Inv _ _ S1).
  - assert (S1 : step s (send_roots changed ns s)) by (now constructor).
    eapply steps_trans; [apply steps_one; exact S1|]. apply IHev. now apply (step_Inv _ _ S1).
  - apply steps_one. constructor; auto.
  - apply steps_one. eapply S_new; eauto.
  - apply steps_one. constructor.
  - apply steps_one. constructor; auto.
  - apply steps_one. constructor; auto.
  - apply steps_one. constructor; auto.
  - apply steps_one. constructor; auto.
  - apply steps_one. constructor; auto.
  - assert (S1 : step s (send_roots changed [n] (wr n v s))) by (now constructor).
    eapply steps_trans; [apply steps_one; exact S1|]. apply IHev. now apply (step_Inv _ _ S1).
  - eapply steps_trans; [apply steps_one, (S_ask n v)|]. apply IHev. exact HI.
  - eapply steps_trans; [apply steps_one, (S_ask n v)|].
    assert (S0 : steps (ask n v s) s1) by (apply IHev; exact HI).
    eapply steps_trans; [exact S0|]. destruct (steps_Inv _ _ S0 HI) as [I1 [_ E1]].
    apply steps_one. eapply S_setter.
    assert (L : n < cnt (gr s)).
    { apply (noninner_out _ _ (proj1 HI)). rewrite H. discriminate. }
    destruct (E1 n L) as [-> _]. exact H.
  - eapply steps_trans; [apply steps_one, (S_ask n v)|].
    assert (S0 : steps (ask n v s) s1) by (apply IHev1; exact HI).
    eapply steps_trans; [exact S0|]. destruct (steps_Inv _ _ S0 HI) as [I1 [_ E1]].
    assert (L : n < cnt (gr s)).
    { apply (noninner_out _ _ (proj1 HI)). rewrite H. discriminate. }
    assert (S1 : step s1 (send_roots changed [n]
       (mark_rcp n (with_gr s1 (push_down changed n v))))).
    { eapply S_setter_auto. destruct (E1 n L) as [-> _]. exact H. }
    eapply steps_trans; [apply steps_one; exact S1|]. apply IHev2.
    now apply (step_Inv _ _ S1).
  - unfold refreshed in *. destruct rf; auto.
    assert (S1 : step s (with_gr s (refresh changed ordN (S n) n))) by (econstructor; eauto).
    eapply steps_trans; [apply steps_one; exact S1|]. apply IHev. now apply (step_Inv _ _ S1).
  - specialize (IHev1 HI). eapply steps_trans; [exact IHev1|]. apply IHev2.
    now apply (steps_Inv _ _ IHev1).
  - auto.
  - specialize (IHev1 HI). eapply steps_trans; [exact IHev1|]. apply IHev2.
    now apply (steps_Inv _ _ IHev1).
  - auto.
  - specialize (IHev1 HI). eapply steps_trans; [exact IHev1|]. apply IHev2.
    now apply (steps_Inv _ _ IHev1).
  - auto.
  - assert (S1 : step s (start_notify n s)) by (now constructor).
    destruct (step_Inv _ _ S1 HI) as [I1 [C1 _]].
    specialize (IHev1 I1). destruct (steps_Inv _ _ IHev1 I1) as [I2 [C2 _]].
    specialize (IHev2 I2). destruct (steps_Inv _ _ IHev2 I2) as [I3 [C3 _]].
    eapply steps_trans; [apply steps_one; exact S1|].
    eapply steps_trans; [exact IHev1|]. eapply steps_snoc; [exact IHev2|].
    constructor.
    destruct (Nat.lt_ge_cases n (cnt (gr s))) as [L|L]; [lia|].
    destruct (wf_out _ (proj1 HI) n L) as (_&_&_&_&_&A&_). congruence.
  - assert (S1 : step s (start_notify n s)) by (now constructor).
    destruct (step_Inv _ _ S1 HI) as [I1 [C1 _]].
    specialize (IHev I1). destruct (steps_Inv _ _ IHev I1) as [I2 [C2 _]].
    eapply steps_trans; [apply steps_one; exact S1|].
    eapply steps_snoc; [exact IHev|]. constructor.
    destruct (Nat.lt_ge_cases n (cnt (gr s))) as [L|L]; [lia|].
    destruct (wf_out _ (proj1 HI) n L) as (_&_&_&_&_&A&_). congruence.
  - apply next_slot_In in H as [H _].
    assert (S1 : step s (called n sid s)) by (now apply S_call with cb).
    eapply steps_trans; [apply steps_one; exact S1|].
    specialize (IHev1 HI). eapply steps_trans; [exact IHev1|]. apply IHev2.
    now apply (steps_Inv _ _ IHev1).
  - apply next_slot_In in H as [H _].
    assert (S1 : step s (called n sid s)) by (now apply S_call with cb).
    eapply steps_trans; [apply steps_one; exact S1|].
    eapply steps_snoc; [apply IHev; exact HI|constructor].
  - destruct (garbage && negb old); [|apply steps_refl].
    apply steps_one. constructor.
  - assert (S1 : step s (pin c s)) by (now constructor).
    destruct (step_Inv _ _ S1 HI) as [I1 _].
    specialize (IHev1 I1). destruct (steps_Inv _ _ IHev1 I1) as [I2 _].
    destruct (step_Inv _ _ (S_unpin s1) I2) as [I3 _].
    eapply steps_trans; [apply steps_one; exact S1|].
    eapply steps_trans; [exact IHev1|].
    eapply steps_trans; [apply steps_one, S_unpin|]. apply IHev2. exact I3.
  - assert (S1 : step s (pin c s)) by (now constructor).
    destruct (step_Inv _ _ S1 HI) as [I1 _].
    eapply steps_trans; [apply steps_one; exact S1|].
    eapply steps_snoc; [apply IHev; exact I1|apply S_unpin].
  - auto.
Qed.

End Ev.
