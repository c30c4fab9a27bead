(** Method calls on [with(...)]: which exist, and what they mean. *)
From Coq Require Import List Arith Bool.
From Verif Require Import NodesModel WithModel WithSpec.
Import ListNotations.

Section Calls.
Context {V W : Type}.
Variable tup : list V -> V.
Variable untup : V -> list V.
Notation chain_nodes := (@chain_nodes V W tup untup).
Notation apply_op := (@apply_op V W tup untup).

Definition is_x (e : @expr V) : bool := match e with EXform _ _ => true | _ => false end.
Definition stuck (os : list (@op V * bool)) : Prop :=
  exists m y w c b, os = m ++ (OXform2 y w, c) :: b /\ Forall plain_call m.

Lemma stuck_cons : forall o c os, stuck ((o, c) :: os) <->
  match o with OXform2 _ _ => True | _ => c = false /\ stuck os end.
Proof.
  intros o c os. split.
  - intros (m & y & w & c' & b & E & F). destruct m as [|[o' c1] m].
    + injection E as -> -> ->. auto.
    + injection E as <- <- ->. inversion_clear F as [|? ? [P1 P2] F']. cbn in P1, P2.
      destruct o; auto; (split; [auto|]); exists m, y, w, c', b; auto.
  - destruct o as [x|x w|l]; intros H.
    + destruct H as (-> & m & y & w & c' & b & -> & F). exists ((OXform x, false) :: m), y, w, c', b.
      split; auto. constructor; auto. split; cbn; auto.
    + exists [], x, w, c, os. auto.
    + destruct H as (-> & m & y & w & c' & b & -> & F). exists ((OZoom l, false) :: m), y, w, c', b.
      split; auto. constructor; auto. split; cbn; auto.
Qed.
Lemma no_method_cons : forall (o : @op V) c os, no_method ((o, c) :: os) <->
  (match o with OXform _ => c = false /\ stuck os | _ => False end) \/ no_method os.
Proof.
  intros o c os. split.
  - intros (a & x & m & y & w & c' & b & E & F). destruct a as [|[o1 c1] a].
    + injection E as -> -> ->. left. split; auto. exists m, y, w, c', b. auto.
    + injection E as <- <- ->. right. exists a, x, m, y, w, c', b. auto.
  - intros [H|(a & x & m & y & w & c' & b & -> & F)].
    + destruct o as [x| |]; try contradiction. destruct H as (-> & m & y & w & c' & b & -> & F).
      exists [], x, m, y, w, c', b. auto.
    + exists ((o, c) :: a), x, m, y, w, c', b. auto.
Qed.
Lemma no_method_nil : ~ no_method (@nil (@op V * bool)).
Proof. intros (a & x & m & y & w & c & b & E & F). destruct a; discriminate. Qed.
Lemma stuck_nil : ~ stuck [].
Proof. intros (m & y & w & c & b & E & F). destruct m; discriminate. Qed.

Lemma chain_none : forall os next e,
  chain_nodes next e os = None <-> (is_x e = true /\ stuck os) \/ no_method os.
Proof.
  induction os as [|[o cut] os IH]; intros next e.
  - cbn. split; [discriminate|]. intros [[_ H]|H]; [now apply stuck_nil in H|now apply no_method_nil in H].
  - rewrite stuck_cons, no_method_cons. cbn [chain_nodes].
    assert (K : forall ks e', apply_op next e o = Some (ks, e') ->
       (if cut then
          match chain_nodes (next + length ks + 1) (EWith (is_reader e') [next + length ks]) os with
          | Some rest => Some (ks ++ make_node tup untup e' :: rest) | None => None end
        else match chain_nodes (next + length ks) e' os with Some rest => Some (ks ++ rest) | None => None end) = None
       <-> (cut = false /\ is_x e' = true /\ stuck os) \/ no_method os).
    { intros ks e' _. destruct cut.
      - specialize (IH (next + length ks + 1) (EWith (is_reader e') [next + length ks])).
        destruct (chain_nodes (next + length ks + 1) _ os) as [rest|].
        + split; [discriminate|]. intros [(C & _)|H]; [discriminate|]. exfalso. assert (X : Some rest = None) by (apply IH; auto).
          discriminate.
        + split; auto. intros _. destruct IH as [IH _]. destruct (IH eq_refl) as [[C _]|H]; [discriminate|auto].
      - specialize (IH (next + length ks) e').
        destruct (chain_nodes (next + length ks) e' os) as [rest|].
        + split; [discriminate|]. intros H. assert (X : Some rest = None) by (apply IH; tauto). discriminate.
        + split; auto. intros _. destruct IH as [IH _]. destruct (IH eq_refl) as [[C H]|H]; auto. }
    destruct (apply_op next e o) as [[ks e']|] eqn:EA.
    + rewrite (K ks e' eq_refl). clear K.
      destruct e, o; cbn in EA; try discriminate; injection EA as <- <-; cbn; intuition discriminate.
    + destruct e, o; cbn in EA; try discriminate. cbn. tauto.
Qed.
Theorem methods : forall next rd ns os, chain_nodes next (EWith rd ns) os = None <-> no_method os.
Proof. intros. rewrite chain_none. cbn. intuition discriminate. Qed.

(** ** What the calls mean *)
Lemma rt_passes : forall t (xs ys : list V), rt_run t xs = Some ys <-> passes t xs ys.
Proof.
  induction t as [f|p|a IHa b IHb]; intros xs ys; cbn.
  - unfold x_map. split; [intros E; injection E as <-; constructor|]. intros H. inversion_clear H. auto.
  - unfold x_filter. split.
    + destruct (p xs) eqn:E; [|discriminate]. intros X. injection X as <-. now constructor.
    + intros H. inversion H; subst. match goal with X : p _ = true |- _ => now rewrite X end.
  - unfold x_comp. split.
    + destruct (rt_run a xs) as [zs|] eqn:E; [|discriminate]. intros H. econstructor; [apply IHa|apply IHb]; eauto.
    + intros H. inversion_clear H as [| |? ? ? zs ? H1 H2]. apply IHa in H1. rewrite H1. now apply IHb.
Qed.
Lemma wt_gives : forall t xs (v u : V), w_run (wt_run tup t) xs v = Some u <-> gives (tuplify tup xs) t v u.
Proof.
  induction t as [f|p|f|a IHa b IHb]; intros xs v u; cbn.
  - split; [intros E; injection E as <-; constructor|]. intros H. inversion_clear H. auto.
  - split.
    + destruct (p v) eqn:E; [|discriminate]. intros X. injection X as <-. now constructor.
    + intros H. inversion H; subst. match goal with X : p _ = true |- _ => now rewrite X end.
  - split; [intros E; injection E as <-; constructor|]. intros H. inversion_clear H. auto.
  - split.
    + destruct (w_run (wt_run tup a) xs v) as [z|] eqn:E; [|discriminate]. intros H. econstructor; [apply IHa|apply IHb]; eauto.
    + intros H. inversion_clear H as [| | |? ? ? z ? H1 H2]. apply IHa in H1. rewrite H1. now apply IHb.
Qed.

Theorem call_meaning : forall c xs v,
  (forall y, read1 tup (call_op tup c) xs = Some y <-> call_reads tup c xs y) /\
  (forall u, write1 tup (call_op tup c) xs v = Some u <-> call_writes tup c xs v u).
Proof.
  intros c xs v. split; intros y.
  - destruct c as [f|f g|p|p q|t|t w|l]; cbn.
    + split; [intros E; injection E as <-; constructor|]. intros H. inversion_clear H. auto.
    + split; [intros E; injection E as <-; constructor|]. intros H. inversion_clear H. auto.
    + unfold x_filter. split; [destruct (p xs) eqn:E; [|discriminate]; intros X; injection X as <-; now constructor|].
      intros H. inversion H; subst. match goal with X : p _ = true |- _ => now rewrite X end.
    + unfold x_filter. split; [destruct (p xs) eqn:E; [|discriminate]; intros X; injection X as <-; now constructor|].
      intros H. inversion H; subst. match goal with X : p _ = true |- _ => now rewrite X end.
    + split.
      * destruct (rt_run t xs) as [ys|] eqn:E; [|discriminate]. intros X. injection X as <-. constructor. now apply rt_passes.
      * intros H. inversion_clear H as [| | | |? ? ys P| |]. apply rt_passes in P. now rewrite P.
    + split.
      * destruct (rt_run t xs) as [ys|] eqn:E; [|discriminate]. intros X. injection X as <-. constructor. now apply rt_passes.
      * intros H. inversion_clear H as [| | | | |? ? ? ys P|]. apply rt_passes in P. now rewrite P.
    + split; [intros E; injection E as <-; constructor|]. intros H. inversion_clear H. auto.
  - destruct c as [f|f g|p|p q|t|t w|l]; cbn; try (split; [discriminate|intros H; inversion H]).
    + split; [intros E; injection E as <-; constructor|]. intros H. inversion_clear H. auto.
    + split; [destruct (q v) eqn:E; [|discriminate]; intros X; injection X as <-; now constructor|].
      intros H. inversion H; subst. match goal with X : q _ = true |- _ => now rewrite X end.
    + rewrite wt_gives. split; [now constructor|]. intros H. now inversion_clear H.
    + split; [intros E; injection E as <-; constructor|]. intros H. inversion_clear H. auto.
Qed.

Lemma wt_sound : forall t, w_ref (wt_run tup t) = true \/ w_ignores (wt_run tup t).
Proof.
  induction t as [f|p|f|a IHa b IHb]; cbn.
  - right. intros x y v. auto.
  - right. intros x y v. auto.
  - now left.
  - destruct IHa as [->|Ha]; [now left|]. destruct IHb as [->|Hb]; [left; apply orb_true_r|]. right.
    intros x y v. cbn. rewrite (Ha x y). destruct (w_run _ y v); auto.
Qed.
Lemma wt_ignores : forall t, ~ updates t -> w_ignores (wt_run tup t).
Proof.
  induction t as [f|p|f|a IHa b IHb]; cbn; intros H x y v; auto; [contradiction (H I)|].
  cbn. rewrite (IHa (fun X => H (or_introl X)) x y). destruct (w_run _ y v); auto. now apply IHb; auto.
Qed.
Lemma accepts_runs : forall (t : @rt V) xs, accepts_all t -> rt_run t xs <> None.
Proof.
  induction t as [f|p|a IHa b IHb]; intros xs H; cbn in *; [discriminate| |].
  - unfold x_filter. rewrite H. discriminate.
  - unfold x_comp. destruct H as [H1 H2]. specialize (IHa xs H1). destruct (rt_run a xs); [apply IHb; auto|congruence].
Qed.
Theorem call_fits : forall cs, Forall two_way (map fst cs) -> updates_first false cs ->
  Forall op_writes (map (call_op tup) (map fst cs)) /\
  apart false (map (fun x => (call_op tup (fst x), snd x)) cs).
Proof.
  intros cs F U. split.
  - apply Forall_map. eapply Forall_impl; [|exact F]. intros c H. destruct c; cbn in *; try contradiction; auto.
    + split; [discriminate|]. right. intros x y v. auto.
    + split; [|right; intros x y v; auto]. unfold x_filter. intros xs. rewrite H. discriminate.
    + split; [intros; now apply accepts_runs|apply wt_sound].
  - clear F. revert U. generalize false. induction cs as [|[c cut] cs IH]; intros b U; cbn in *; auto.
    destruct c; cbn in *; auto.
    + split; auto. intros _ x y v. auto.
    + split; auto. intros _ x y v. auto.
    + destruct U as [U1 U2]. split; auto. intros E. apply wt_ignores. auto.
Qed.

Lemma rt_keeps : forall t : @rt V, keeps_one (rt_run t).
Proof.
  induction t as [f|p|a IHa b IHb]; intros x ys E; cbn in E.
  - injection E as <-. eauto.
  - unfold x_filter in E. destruct (p [x]); [|discriminate]. injection E as <-. eauto.
  - unfold x_comp in E. destruct (rt_run a [x]) as [zs|] eqn:Ea; [|discriminate].
    destruct (IHa _ _ Ea) as [z ->]. eauto.
Qed.
Theorem call_keeps : forall cs n, steps_fit [n] (map (call_op tup) cs).
Proof.
  intros cs n. split; [|now left]. apply Forall_map. apply Forall_forall. intros c _.
  destruct c; cbn; auto.
  - exact (rt_keeps (RMap f)).
  - exact (rt_keeps (RMap f)).
  - exact (rt_keeps (RFilter p)).
  - exact (rt_keeps (RFilter p)).
  - apply rt_keeps.
  - apply rt_keeps.
Qed.
End Calls.
