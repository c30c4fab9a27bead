(** C81: proofs. *)
From Coq Require Import List Bool ZArith Lia Sorted Arith.
From Verif Require Import CounterModel CounterSdlModel CounterSdlSpec.
Import ListNotations.

Definition acts (e : report) : list action := match intent e with Some a => [a] | None => [] end.
Fixpoint reduces (q : list entry) : list action :=
  match q with [] => [] | Reduce a :: r => a :: reduces r | _ :: r => reduces r end.
Fixpoint keys (q : list entry) : list action :=
  match q with [] => [] | Ev e :: r => acts e ++ keys r | _ :: r => keys r end.
Fixpoint applied (l : list event) : list action :=
  match l with [] => [] | EApply a :: r => applied r ++ [a] | _ :: r => applied r end.
Definition all (l : list event) : list action := flat_map acts (reported l).
Definition sum (l : list action) : Z := fold_left next l 0%Z.

Lemma reduces_app : forall p q, reduces (p ++ q) = reduces p ++ reduces q.
Proof. induction p as [|[e|a|] p IH]; intros q; cbn; rewrite ?IH; reflexivity. Qed.
Lemma keys_app : forall p q, keys (p ++ q) = keys p ++ keys q.
Proof. induction p as [|[e|a|] p IH]; intros q; cbn; rewrite ?IH, ?app_assoc; reflexivity. Qed.
Lemma acts_counting : forall e, flat_map acts (if counting e then [e] else []) = acts e.
Proof. intros [[]| |]; reflexivity. Qed.
Lemma sum_snoc : forall l a, sum (l ++ [a]) = next (sum l) a.
Proof. intros l a. unfold sum. rewrite fold_left_app. reflexivity. Qed.
Lemma counts_sum : forall es v, counts v es = fold_left next (flat_map acts es) v.
Proof. induction es as [|[[]| |] es IH]; intros v; cbn; rewrite ?IH; reflexivity. Qed.
Lemma reported_counting : forall l, Forall (fun e => counting e = true) (reported l).
Proof.
  induction l as [|[e|a|a|v] l IH]; cbn; try exact IH; [constructor|]. apply Forall_app. split; [exact IH|].
  destruct (counting e) eqn:E; constructor; [exact E|constructor].
Qed.
Lemma firstn_acts : forall es n, Forall (fun e => counting e = true) es -> flat_map acts (firstn n es) = firstn n (flat_map acts es).
Proof.
  intros es n F. revert n. induction F as [|e es C F IH]; intros [|n]; try reflexivity. cbn [firstn flat_map]. rewrite IH.
  destruct e as [[]| |]; try discriminate C; reflexivity.
Qed.
Lemma prefix_counts : forall l n, counts 0 (firstn n (reported l)) = sum (firstn n (all l)).
Proof. intros l n. rewrite counts_sum, firstn_acts by apply reported_counting. reflexivity. Qed.

Record inv (s : st) : Prop := {
  i_all : all (log s) = applied (log s) ++ reduces (queue s) ++ keys (queue s);
  i_value : value s = sum (applied (log s));
  i_handled : handled (log s) = length (applied (log s) ++ reduces (queue s));
  i_dirty : dirty s = true -> In Notify (queue s);
  i_clean : dirty s = false -> exists d, drawn (log s) = d ++ [value s];
  i_drawn : exists ns, StronglySorted le ns /\ Forall (fun n => n <= length (applied (log s))) ns /\
            drawn (log s) = map (fun n => sum (firstn n (applied (log s)))) ns }.
Lemma all_report : forall e l, all (EReport e :: l) = all l ++ acts e.
Proof. intros e l. unfold all. cbn [reported]. rewrite flat_map_app, acts_counting. reflexivity. Qed.
Lemma sorted_snoc : forall ns m, StronglySorted le ns -> Forall (fun n => n <= m) ns -> StronglySorted le (ns ++ [m]).
Proof.
  intros ns m S. induction S as [|n ns S IH F]; intros G; [constructor; constructor|]. inversion G as [|x y A B]; subst. cbn.
  constructor; [exact (IH B)|]. apply Forall_app. split; [exact F|]. constructor; [exact A|constructor].
Qed.
Lemma drawn_more : forall a l, (exists ns, StronglySorted le ns /\ Forall (fun n => n <= length (applied l)) ns /\
    drawn l = map (fun n => sum (firstn n (applied l))) ns) ->
  exists ns, StronglySorted le ns /\ Forall (fun n => n <= length (applied l ++ [a])) ns /\
    drawn l = map (fun n => sum (firstn n (applied l ++ [a]))) ns.
Proof.
  intros a l (ns & S & F & D). exists ns. split; [exact S|]. split.
  - eapply Forall_impl; [|exact F]. intros n L. cbn beta in L. rewrite app_length. cbn. lia.
  - rewrite D. apply map_ext_in. intros n I. rewrite Forall_forall in F. specialize (F n I).
    rewrite firstn_app. replace (n - length (applied l)) with 0 by lia. cbn. rewrite app_nil_r. reflexivity.
Qed.
Lemma drawn_now : forall l, (exists ns, StronglySorted le ns /\ Forall (fun n => n <= length (applied l)) ns /\
    drawn l = map (fun n => sum (firstn n (applied l))) ns) ->
  exists ns, StronglySorted le ns /\ Forall (fun n => n <= length (applied l)) ns /\
    drawn l ++ [sum (applied l)] = map (fun n => sum (firstn n (applied l))) ns.
Proof.
  intros l (ns & S & F & D). exists (ns ++ [length (applied l)]). split; [apply sorted_snoc; assumption|]. split.
  - apply Forall_app. split; [exact F|]. constructor; [lia|constructor].
  - rewrite map_app, D. cbn. rewrite firstn_all. reflexivity.
Qed.
Lemma inv_report : forall e s, inv s -> inv (St (queue s ++ [Ev e]) (value s) (dirty s) (over s) (EReport e :: log s)).
Proof.
  intros e s [A V H D C R]. constructor; cbn [queue value dirty log]; cbn [applied handled drawn]; auto.
  - rewrite all_report, A, reduces_app, keys_app. cbn. rewrite !app_nil_r, <- !app_assoc. reflexivity.
  - rewrite reduces_app. cbn. rewrite app_nil_r. exact H.
  - intros E. apply in_app_iff. left. exact (D E).
Qed.
Lemma inv_take : forall s s', inv s -> take s = Some s' -> inv s'.
Proof.
  intros s s' [A V H D C R] T. unfold take in T. destruct (over s); [discriminate T|].
  destruct (queue s) as [|[e|a|] r] eqn:Q; [discriminate T| | |]; injection T as <-.
  - assert (N : dirty s = true -> In Notify r) by (intros E; destruct (D E) as [X | X]; [discriminate X|exact X]).
    cbn [reduces keys] in *.
    assert (G : inv (match intent e with
      | Some a => St (r ++ [Reduce a]) (value s) (dirty s) false (EDispatch a :: log s)
      | None => St r (value s) (dirty s) false (log s) end)).
    { unfold acts in A. destruct (intent e) as [a|]; constructor; cbn [queue value dirty log]; cbn [applied handled drawn]; auto.
      - change (all (EDispatch a :: log s)) with (all (log s)). rewrite A, reduces_app, keys_app. cbn. rewrite app_nil_r, <- !app_assoc. reflexivity.
      - rewrite H, reduces_app, !app_length. cbn. lia.
      - intros E. apply in_app_iff. left. exact (N E). }
    destruct e as [k| |]; try exact G. destruct G as [G1 G2 G3 G4 G5 G6]. constructor; assumption.
  - cbn [reduces keys] in *. constructor; cbn [queue value dirty log]; cbn [applied handled drawn].
    + change (all (EApply a :: log s)) with (all (log s)). rewrite A, reduces_app, keys_app. cbn. rewrite !app_nil_r, <- !app_assoc. reflexivity.
    + rewrite sum_snoc, V. reflexivity.
    + rewrite H, reduces_app, !app_length. cbn. lia.
    + intros _. apply in_app_iff. right. left. reflexivity.
    + intros E. destruct (Z.eqb_spec (next (value s) a) (value s)) as [X | X]; [|discriminate E]. rewrite X. exact (C E).
    + apply drawn_more. exact R.
  - cbn [reduces keys] in *. destruct (dirty s) eqn:E; constructor; cbn [queue value dirty log]; cbn [applied handled drawn]; auto; try discriminate.
    + exists (drawn (log s)). reflexivity.
    + rewrite V. apply drawn_now. exact R.
Qed.
Lemma reach_ind : forall P : st -> Prop, P init -> (forall l s s', reach s -> P s -> step l s = Some s' -> P s') -> forall s, reach s -> P s.
Proof.
  assert (A : forall ls1 ls2 s s', steps (ls1 ++ ls2) s = Some s' -> exists m, steps ls1 s = Some m /\ steps ls2 m = Some s').
  { induction ls1 as [|l r IH]; intros ls2 s s' E; cbn in *; [eauto|]. destruct (step l s); [exact (IH _ _ _ E)|discriminate E]. }
  intros P P0 PS s [ls E]. revert s E. induction ls as [|l r IH] using rev_ind; intros s E.
  - injection E as <-. exact P0.
  - apply A in E. destruct E as (m & E1 & E2). cbn in E2. destruct (step l m) as [x|] eqn:F; [|discriminate E2]. injection E2 as <-.
    apply (PS l m x); [exists r; exact E1|exact (IH _ E1)|exact F].
Qed.
Lemma inv_reach : forall s, reach s -> inv s.
Proof.
  apply reach_ind.
  - constructor; cbn; try reflexivity; try discriminate; [exists []; reflexivity|].
    exists [0]. split; [repeat constructor|]. split; [repeat constructor|reflexivity].
  - intros [e|] s s' _ I H; cbn in H; [injection H as <-; apply inv_report; exact I|exact (inv_take _ _ I H)].
Qed.
Lemma applied_prefix : forall s, inv s -> applied (log s) = firstn (length (applied (log s))) (all (log s)).
Proof. intros s I. rewrite (i_all _ I), firstn_app, Nat.sub_diag, firstn_all. cbn. rewrite app_nil_r. reflexivity. Qed.

Theorem value_counts : forall s, reach s -> exists n, value s = counts 0 (firstn n (reported (log s))).
Proof.
  intros s R. pose proof (inv_reach _ R) as I. exists (length (applied (log s))). rewrite prefix_counts, <- applied_prefix by exact I. apply i_value. exact I.
Qed.
Theorem drawn_counts : forall s, reach s -> exists ns, StronglySorted le ns /\
  drawn (log s) = map (fun n => counts 0 (firstn n (reported (log s)))) ns.
Proof.
  intros s R. pose proof (inv_reach _ R) as I. destruct (i_drawn _ I) as (ns & S & F & D). exists ns. split; [exact S|]. rewrite D.
  apply map_ext_in. intros n J. rewrite prefix_counts. rewrite Forall_forall in F. specialize (F n J).
  rewrite (i_all _ I), firstn_app. replace (n - length (applied (log s))) with 0 by lia. cbn. rewrite app_nil_r. reflexivity.
Qed.
Theorem settled : forall s, reach s -> queue s = [] ->
  value s = counts 0 (reported (log s)) /\ exists d, drawn (log s) = d ++ [value s].
Proof.
  intros s R Q. pose proof (inv_reach _ R) as I. split.
  - rewrite counts_sum. change (flat_map acts (reported (log s))) with (all (log s)). rewrite (i_all _ I), Q. cbn. rewrite app_nil_r. apply i_value. exact I.
  - apply (i_clean _ I). destruct (dirty s) eqn:D; [|reflexivity]. pose proof (i_dirty _ I D) as X. rewrite Q in X. destruct X.
Qed.

(** ** The loop catches up *)
Definition weight (e : entry) : nat := match e with Ev _ => 3 | Reduce _ => 2 | Notify => 1 end.
Definition load (q : list entry) : nat := list_sum (map weight q).
Lemma load_snoc : forall q e, load (q ++ [e]) = load q + weight e.
Proof. intros q e. unfold load. rewrite map_app, list_sum_app. cbn. lia. Qed.
Lemma take_load : forall s, over s = false -> queue s <> [] -> exists s', take s = Some s' /\ load (queue s') < load (queue s).
Proof.
  intros s O N. unfold take. rewrite O. destruct (queue s) as [|[e|a|] r]; [destruct (N eq_refl)| | |]; eexists; (split; [reflexivity|]).
  - assert (load (queue (match intent e with
      | Some a => St (r ++ [Reduce a]) (value s) (dirty s) false (EDispatch a :: log s)
      | None => St r (value s) (dirty s) false (log s) end)) < load (Ev e :: r)) as L.
    { destruct (intent e) as [a|]; cbn [queue]; rewrite ?load_snoc; cbn [weight]; change (load (Ev e :: r)) with (3 + load r); lia. }
    destruct e; exact L.
  - cbn [queue]. rewrite load_snoc. cbn [weight]. change (load (Reduce a :: r)) with (2 + load r). lia.
  - cbn [queue]. change (load (Notify :: r)) with (1 + load r). lia.
Qed.
Theorem catches_up : forall s, exists k s', steps (repeat LTake k) s = Some s' /\ (queue s' = [] \/ over s' = true).
Proof.
  intros s. remember (load (queue s)) as n eqn:E. revert s E. induction n as [n IH] using lt_wf_ind. intros s ->.
  destruct (over s) eqn:O; [exists 0, s; split; [reflexivity|right; exact O]|].
  destruct (queue s) as [|e r] eqn:Q; [exists 0, s; split; [reflexivity|left; exact Q]|].
  destruct (take_load s O) as (m & T & L); [rewrite Q; discriminate|]. rewrite Q in L.
  destruct (IH _ L m eq_refl) as (k & s' & G & D). exists (S k), s'. split; [|exact D]. cbn. rewrite T. exact G.
Qed.

(** ** Quitting *)
Definition no_quit (q : list entry) : Prop := ~ In (Ev Quit) q.
Record quits (s : st) : Prop := {
  q_some : forall l1 l2, log s = l1 ++ EReport Quit :: l2 -> ~ In (EReport Quit) l2 ->
    if over s then length (applied (log s)) = handled l2
    else exists q1 q2, queue s = q1 ++ Ev Quit :: q2 /\ no_quit q1 /\ length (applied (log s) ++ reduces q1) = handled l2;
  q_none : ~ In (EReport Quit) (log s) -> over s = false /\ no_quit (queue s) }.
Lemma no_quit_snoc : forall q e, no_quit q -> e <> Ev Quit -> no_quit (q ++ [e]).
Proof. intros q e N D I. apply in_app_iff in I. destruct I as [I | [I | []]]; [exact (N I)|exact (D I)]. Qed.
Lemma quits_report : forall e s, inv s -> quits s -> quits (St (queue s ++ [Ev e]) (value s) (dirty s) (over s) (EReport e :: log s)).
Proof.
  intros e s I [S N]. constructor; cbn [queue over log]; cbn [applied].
  - intros [|x l1] l2 E F.
    + injection E as -> <-. destruct (N F) as [-> NQ]. exists (queue s), []. split; [reflexivity|]. split; [exact NQ|]. symmetry. apply i_handled. exact I.
    + injection E as <- E. specialize (S l1 l2 E F). destruct (over s); [exact S|]. destruct S as (q1 & q2 & Q & NQ & L).
      exists q1, (q2 ++ [Ev e]). rewrite Q, <- app_assoc. auto.
  - intros F. destruct N as [O NQ]; [intros X; apply F; right; exact X|]. split; [exact O|]. apply no_quit_snoc; [exact NQ|].
    intros X. injection X as ->. apply F. left. reflexivity.
Qed.
(** A step of the loop that does not take [Quit]: the head goes, entries other
    than [Quit] go to the back, and what the head stood for has been applied. *)
Lemma quits_go : forall s h r add v d ev,
  quits s -> over s = false -> queue s = h :: r -> h <> Ev Quit ->
  no_quit add -> (forall e, ~ In (EReport e) ev) ->
  (forall l, length (applied (ev ++ l)) = length (applied l) + length (reduces [h])) ->
  quits (St (r ++ add) v d false (ev ++ log s)).
Proof.
  intros s h r add v d ev [S N] O Q H A V L. constructor; cbn [queue over log].
  - intros l1 l2 E F.
    assert (E' : exists l1', log s = l1' ++ EReport Quit :: l2).
    { clear L. revert l1 E. induction ev as [|x ev IH]; intros l1 E; [exists l1; exact E|].
      destruct l1 as [|y l1]; [injection E as -> _; destruct (V Quit); left; reflexivity|]. injection E as _ E.
      apply (IH (fun e X => V e (or_intror X)) l1 E). }
    destruct E' as [l1' E']. specialize (S l1' l2 E' F). rewrite O in S. destruct S as (q1 & q2 & Q' & NQ & M). rewrite Q in Q'.
    destruct q1 as [|x q1]; [injection Q' as X _; destruct (H X)|]. injection Q' as <- ->. exists q1, (q2 ++ add).
    split; [rewrite <- app_assoc; reflexivity|]. split; [intros X; apply NQ; right; exact X|].
    rewrite app_length, L. change (h :: q1) with ([h] ++ q1) in M. rewrite reduces_app, !app_length in M. lia.
  - intros F. split; [reflexivity|]. destruct N as [_ N]; [intros X; apply F; apply in_app_iff; right; exact X|].
    rewrite Q in N. intros X. apply in_app_iff in X. destruct X as [X | X]; [apply N; right; exact X|exact (A X)].
Qed.
Lemma quits_take : forall s s', quits s -> take s = Some s' -> quits s'.
Proof.
  intros s s' G T. unfold take in T. destruct (over s) eqn:O; [discriminate T|].
  destruct (queue s) as [|[e|a|] r] eqn:Q; [discriminate T| | |]; injection T as <-.
  - destruct e as [k| |].
    + destruct k; cbn [intent];
        (eapply (quits_go s _ r [Reduce _] (value s) (dirty s) [EDispatch _] G O Q) ||
         (rewrite <- (app_nil_r r); eapply (quits_go s _ (r) [] (value s) (dirty s) [] G O Q)));
        try discriminate; try (intros X; cbn in X; intuition discriminate); try (intros x X; cbn in X; intuition discriminate);
        intros l; cbn; lia.
    + cbn [intent]. rewrite <- (app_nil_r r). apply (quits_go s _ r [] (value s) (dirty s) [] G O Q);
        try discriminate; try (intros X; cbn in X; intuition discriminate); try (intros x X; cbn in X; intuition discriminate);
        intros l; cbn; lia.
    + destruct G as [S N]. constructor; cbn [intent queue over log].
      * intros l1 l2 E F. specialize (S l1 l2 E F). rewrite O in S. destruct S as (q1 & q2 & Q' & NQ & M).
        destruct q1 as [|x q1]; [rewrite app_nil_r in M; exact M|]. rewrite Q in Q'. injection Q' as <- _. destruct NQ. left. reflexivity.
      * intros F. destruct (N F) as [_ NQ]. rewrite Q in NQ. destruct NQ. left. reflexivity.
  - apply (quits_go s _ r [Notify] _ _ [EApply a] G O Q);
      try discriminate; try (intros X; cbn in X; intuition discriminate); try (intros x X; cbn in X; intuition discriminate);
      intros l; cbn; rewrite ?app_length; cbn; lia.
  - rewrite <- (app_nil_r r). destruct (dirty s);
      [apply (quits_go s _ r [] _ _ [EDraw (value s)] G O Q)|apply (quits_go s _ r [] _ _ [] G O Q)];
      try discriminate; try (intros X; cbn in X; intuition discriminate); try (intros x X; cbn in X; intuition discriminate);
      intros l; cbn; lia.
Qed.
Lemma quits_reach : forall s, reach s -> quits s.
Proof.
  apply reach_ind.
  - constructor.
    + intros l1 l2 E _. destruct l1 as [|x [|y l1]]; discriminate E.
    + intros _. split; [reflexivity|]. intros X. destruct X.
  - intros [e|] s s' R I H; cbn in H; [injection H as <-; apply quits_report; [apply inv_reach; exact R|exact I]|exact (quits_take _ _ I H)].
Qed.
Lemma first_quit : forall l, In (EReport Quit) l -> exists l1 l2, l = l1 ++ EReport Quit :: l2 /\ ~ In (EReport Quit) l2.
Proof.
  induction l as [|x l IH]; intros I; [destruct I|].
  assert (D : In (EReport Quit) l \/ ~ In (EReport Quit) l).
  { clear. induction l as [|y l [IH | IH]]; [right; intros X; destruct X|left; right; exact IH|].
    destruct y as [[k| |]|a|a|v]; try (right; intros [X | X]; [discriminate X|exact (IH X)]). left. left. reflexivity. }
  destruct D as [D | D].
  - destruct (IH D) as (l1 & l2 & -> & F). exists (x :: l1), l2. auto.
  - destruct I as [-> | I]; [|destruct (D I)]. exists [], l. auto.
Qed.
Theorem quit_exact : forall s, reach s -> over s = true -> exists l1 l2,
  log s = l1 ++ EReport Quit :: l2 /\ ~ In (EReport Quit) l2 /\
  value s = counts 0 (firstn (handled l2) (reported (log s))).
Proof.
  intros s R O. pose proof (inv_reach _ R) as I. destruct (quits_reach _ R) as [S N].
  assert (In (EReport Quit) (log s)) as J.
  { assert (D : In (EReport Quit) (log s) \/ ~ In (EReport Quit) (log s)).
    { generalize (log s). clear. induction l as [|y l [IH | IH]]; [right; intros X; destruct X|left; right; exact IH|].
      destruct y as [[k| |]|a|a|v]; try (right; intros [X | X]; [discriminate X|exact (IH X)]). left. left. reflexivity. }
    destruct D as [D | D]; [exact D|]. destruct (N D) as [X _]. rewrite O in X. discriminate X. }
  destruct (first_quit _ J) as (l1 & l2 & E & F). exists l1, l2. split; [exact E|]. split; [exact F|].
  specialize (S l1 l2 E F). rewrite O in S. rewrite prefix_counts, <- S, <- applied_prefix by exact I. apply i_value. exact I.
Qed.
Theorem quit_drops : exists s, reach s /\ over s = true /\ reported (log s) <> [] /\ value s <> counts 0 (reported (log s)).
Proof.
  eexists. split; [exists [LReport (Down KUp); LReport Quit; LTake; LTake]; reflexivity|]. cbn. repeat split; discriminate.
Qed.

(** ** Once [Quit] is reported the loop ends *)
Lemma steps_app : forall ls1 ls2 s m, steps ls1 s = Some m -> steps (ls1 ++ ls2) s = steps ls2 m.
Proof.
  induction ls1 as [|l r IH]; intros ls2 s m E; cbn in *; [injection E as ->; reflexivity|]. destruct (step l s); [exact (IH _ _ _ E)|discriminate E].
Qed.
Lemma take_log : forall s s', take s = Some s' -> exists ev, log s' = ev ++ log s /\ forall e, ~ In (EReport e) ev.
Proof.
  intros s s' T. unfold take in T. destruct (over s); [discriminate T|].
  destruct (queue s) as [|[e|a|] r]; [discriminate T| | |]; injection T as <-.
  - destruct e as [k| |]; [destruct k| |]; cbn;
      (exists []; split; [reflexivity|intros x X; destruct X]) || (eexists [_]; split; [reflexivity|intros x [X | []]; discriminate X]).
  - exists [EApply a]. split; [reflexivity|]. intros x [X | []]. discriminate X.
  - destruct (dirty s); cbn; [exists [EDraw (value s)]|exists []]; (split; [reflexivity|]); [intros x [X | []]; discriminate X|intros x X; destruct X].
Qed.
Lemma takes_log : forall k s s', steps (repeat LTake k) s = Some s' -> exists ev, log s' = ev ++ log s.
Proof.
  induction k as [|k IH]; intros s s' E; cbn in E; [injection E as <-; exists []; reflexivity|].
  destruct (take s) as [m|] eqn:T; [|discriminate E]. destruct (take_log _ _ T) as (a & A & _). destruct (IH _ _ E) as (b & B).
  exists (b ++ a). rewrite B, A, app_assoc. reflexivity.
Qed.
Theorem quit_ends : forall s, reach s -> In (EReport Quit) (log s) -> exists k s', steps (repeat LTake k) s = Some s' /\ over s' = true.
Proof.
  intros s [ls R] I. destruct (catches_up s) as (k & s' & E & [Q | O]); [|eauto]. exists k, s'. split; [exact E|].
  destruct (takes_log _ _ _ E) as (ev & L). assert (R' : reach s') by (exists (ls ++ repeat LTake k); rewrite (steps_app _ _ _ _ R); exact E).
  destruct (over s') eqn:O; [reflexivity|]. destruct (first_quit (log s')) as (l1 & l2 & X & F); [rewrite L; apply in_app_iff; right; exact I|].
  pose proof (q_some _ (quits_reach _ R') l1 l2 X F) as G. rewrite O in G. destruct G as (q1 & q2 & G & _). rewrite Q in G. destruct q1; discriminate G.
Qed.

(** ** A draw follows a change *)
Lemma made_applied : forall l, made l = length (applied l).
Proof. induction l as [|[e|a|a|v] l IH]; cbn; rewrite ?app_length, ?IH; cbn; try lia; reflexivity. Qed.
Definition no_draw (l : list event) : Prop := forall v, ~ In (EDraw v) l.
Definition fresh (l : list event) : Prop := exists l3 a l4, l = l3 ++ EApply a :: l4 /\ no_draw l3 /\ next (sum (applied l4)) a <> sum (applied l4).
Lemma fresh_cons : forall x l, (forall v, x <> EDraw v) -> fresh l -> fresh (x :: l).
Proof.
  intros x l D (l3 & a & l4 & -> & N & C). exists (x :: l3), a, l4. split; [reflexivity|]. split; [|exact C].
  intros v [X | X]; [exact (D v X)|exact (N v X)].
Qed.
Definition draws (s : st) : Prop := (dirty s = true -> fresh (log s)) /\
  forall l1 v l2, log s = l1 ++ EDraw v :: l2 -> l2 <> [] -> fresh l2.
Lemma draws_cons : forall x l, (forall v, x <> EDraw v) -> (forall l1 v l2, l = l1 ++ EDraw v :: l2 -> l2 <> [] -> fresh l2) ->
  forall l1 v l2, x :: l = l1 ++ EDraw v :: l2 -> l2 <> [] -> fresh l2.
Proof. intros x l D H [|y l1] v l2 E N; injection E as E1 E2; [destruct (D v E1)|exact (H l1 v l2 E2 N)]. Qed.
Lemma draws_reach : forall s, reach s -> draws s.
Proof.
  apply reach_ind.
  - split; [discriminate|]. intros [|x [|y l1]] v l2 E N; try discriminate E. injection E as _ <-. destruct (N eq_refl).
  - intros [e|] s s' R [D H] T; cbn in T.
    + injection T as <-. split; cbn [dirty log].
      * intros E. apply fresh_cons; [discriminate|exact (D E)].
      * apply draws_cons; [discriminate|exact H].
    + unfold take in T. destruct (over s); [discriminate T|].
      destruct (queue s) as [|[e|a|] r]; [discriminate T| | |]; injection T as <-.
      * assert (G : draws (match intent e with
          | Some a => St (r ++ [Reduce a]) (value s) (dirty s) false (EDispatch a :: log s)
          | None => St r (value s) (dirty s) false (log s) end)).
        { destruct (intent e) as [a|]; [|split; assumption]. split; cbn [dirty log].
          - intros E. apply fresh_cons; [discriminate|exact (D E)].
          - apply draws_cons; [discriminate|exact H]. }
        destruct e; exact G.
      * split; cbn [dirty log]; [|apply draws_cons; [discriminate|exact H]].
        intros E. destruct (Z.eqb_spec (next (value s) a) (value s)) as [X | X]; [apply fresh_cons; [discriminate|exact (D E)]|].
        exists [], a, (log s). split; [reflexivity|]. split; [intros v I; destruct I|]. rewrite <- (i_value _ (inv_reach _ R)). exact X.
      * split; cbn [dirty log]; [discriminate|]. destruct (dirty s); [|exact H].
        intros [|y l1] v l2 E N; injection E as E1 E2; [subst; apply D; reflexivity|exact (H l1 v l2 E2 N)].
Qed.
Lemma applied_app : forall a b, applied (a ++ b) = applied b ++ applied a.
Proof. induction a as [|[e|x|x|v] a IH]; intros b; cbn; rewrite ?IH, ?app_nil_r, ?app_assoc; reflexivity. Qed.
Theorem draw_changed : forall s l1 v l2, reach s -> log s = l1 ++ EDraw v :: l2 -> l2 <> [] ->
  exists l3 a l4, l2 = l3 ++ EApply a :: l4 /\ (forall w, ~ In (EDraw w) l3) /\
    counts 0 (firstn (S (made l4)) (reported (log s))) <> counts 0 (firstn (made l4) (reported (log s))).
Proof.
  intros s l1 v l2 R E N. destruct (proj2 (draws_reach _ R) l1 v l2 E N) as (l3 & a & l4 & -> & ND & C). exists l3, a, l4.
  split; [reflexivity|]. split; [exact ND|]. rewrite !prefix_counts, (i_all _ (inv_reach _ R)), E.
  replace (l1 ++ EDraw v :: l3 ++ EApply a :: l4) with ((l1 ++ EDraw v :: l3) ++ EApply a :: l4) by (rewrite <- app_assoc; reflexivity).
  rewrite applied_app. cbn [applied]. rewrite made_applied, <- !app_assoc.
  assert (F : forall n (x : list action), firstn (length (applied l4) + n) (applied l4 ++ x) = applied l4 ++ firstn n x) by (intros; apply firstn_app_2).
  pose proof (F 0) as F0. rewrite Nat.add_0_r in F0. pose proof (F 1) as F1. rewrite Nat.add_1_r in F1. rewrite F0, F1. cbn [firstn Datatypes.app].
  rewrite app_nil_r, sum_snoc. exact C.
Qed.
