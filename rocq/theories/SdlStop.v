(** When [run] of the SDL loop returns. *)
From Coq Require Import List Arith Bool Lia.
From Verif Require Import SdlModel SdlSpec SdlProofs.
Import ListNotations.

(** [continue_] is false. *)
Definition stopping (f : frame) : bool :=
  match f with Top _ false | Inner false | TickTest false => true | _ => false end.

(** One step changes the innermost call only. *)
Lemma act_stack : forall l s s' f r, act l s = Some s' -> stack s = f :: r ->
  stack s' = r \/ (exists f', stack s' = f' :: r /\
    (stopping f' = true -> stopping f = true \/ (l = LRet false /\ asked f = true))) \/
  (exists f', stack s' = f' :: f :: r /\ stopping f' = false).
Proof.
  intros l s s' f r H E.
  assert (Same : stack s' = stack s -> stack s' = r \/ (exists f', stack s' = f' :: r /\
    (stopping f' = true -> stopping f = true \/ (l = LRet false /\ asked f = true))) \/
    (exists f', stack s' = f' :: f :: r /\ stopping f' = false)).
  { intros X. right; left. exists f. rewrite X, E. auto. }
  destruct l; cbn [act] in H; try (injection H as <-; apply Same; reflexivity).
  - rewrite E in H. destruct (in_body f); [|discriminate]. injection H as <-. right; right.
    exists (Top m true). auto.
  - unfold go in H. rewrite E in H.
    destruct f as [m [|]| | | |[|]| | | | | | | |[|]| |]; try discriminate;
      repeat match type of H with
      | context [if ?b then _ else _] => destruct b
      | context [match ?x with _ => _ end] => destruct x
      end; try discriminate; injection H as <-; cbn [stack set];
      first [now left | right; left; eexists; split; [reflexivity|cbn; intros; first [discriminate|auto]]].
  - rewrite E in H. destruct f; try discriminate; injection H as <-; right; left;
      eexists; split; [reflexivity|discriminate| reflexivity|discriminate].
  - unfold ret in H. rewrite E in H. destruct f; try discriminate; injection H as <-; right; left;
      (eexists; split; [reflexivity|]); destruct b; cbn; intros; first [discriminate|auto].
  - unfold throw in H. rewrite E in H. destruct f; try discriminate; injection H as <-; now left.
Qed.
(** It returns only if [continue_] is false or [done_] is true, or by an exception. *)
Lemma act_pop : forall l s s' f r, act l s = Some s' -> stack s = f :: r -> stack s' = r ->
  l = LThrow \/ done s = true \/ stopping f = true.
Proof.
  intros l s s' f r H E E'.
  assert (N : forall g, g :: r <> r). { intros g X. apply (f_equal (@length _)) in X. cbn in X. lia. }
  assert (N2 : forall g h, g :: h :: r <> r). { intros g h X. apply (f_equal (@length _)) in X. cbn in X. lia. }
  destruct l; cbn [act] in H; try (injection H as <-; cbn in E'; rewrite E in E'; now destruct (N f)); auto.
  - rewrite E in H. destruct (in_body f); [|discriminate]. injection H as <-. now destruct (N2 _ _ E').
  - unfold go in H. rewrite E in H. destruct (done s) eqn:D; auto.
    destruct f as [m [|]| | | |[|]| | | | | | | |[|]| |]; try discriminate; auto; cbn [andb negb] in H;
      repeat match type of H with
      | context [if ?b then _ else _] => destruct b
      | context [match ?x with _ => _ end] => destruct x
      end; try discriminate; injection H as <-; now destruct (N _ E').
  - rewrite E in H. destruct f; try discriminate; injection H as <-; now destruct (N _ E').
  - unfold ret in H. rewrite E in H. destruct f; try discriminate; injection H as <-; now destruct (N _ E').
Qed.
Lemma act_done : forall l s s', act l s = Some s' -> done s = true -> done s' = true.
Proof.
  intros l s s' H D.
  destruct l; cbn [act] in H; try (injection H as <-; auto; fail).
  - destruct (stack s) as [|f q]; [|destruct (in_body f)]; try discriminate; now injection H as <-.
  - unfold go in H. destruct (stack s) as [|f r]; [discriminate|].
    destruct f as [m [|]| | | |[|]| | | | | | | |[|]| |]; try discriminate;
      repeat match type of H with
      | context [if ?b then _ else _] => destruct b
      | context [match ?x with _ => _ end] => destruct x
      end; try discriminate; now injection H as <-.
  - destruct (stack s) as [|[]]; try discriminate; now injection H as <-.
  - unfold ret in H. destruct (stack s) as [|[]]; try discriminate; now injection H as <-.
  - unfold throw in H. destruct (stack s) as [|[]]; try discriminate; now injection H as <-.
Qed.
Lemma acts_done : forall ls s s', acts ls s = Some s' -> done s = true -> done s' = true.
Proof.
  induction ls as [|l ls IH]; cbn; intros s s' H D; [congruence|].
  destruct (act l s) as [s1|] eqn:E; [|discriminate]. eapply IH; eauto. eapply act_done; eauto.
Qed.

Lemma goes_on : forall ls s s' g f r, acts ls s = Some s' -> stack s = g ++ f :: r ->
  stopping f = false -> told (length r) s ls = false -> ~ In LThrow ls -> done s' = false ->
  exists g' f', stack s' = g' ++ f' :: r /\ stopping f' = false.
Proof.
  induction ls as [|l ls IH]; cbn [acts told]; intros s s' g f r H E F T NT D.
  - injection H as <-. eauto.
  - destruct (act l s) as [s1|] eqn:A; [|discriminate]. apply orb_false_iff in T. destruct T as [T1 T2].
    assert (NT' : ~ In LThrow ls) by (intros X; apply NT; now right).
    assert (DS : done s = false).
    { destruct (done s) eqn:X; auto. pose proof (act_done _ _ _ A X) as Y.
      rewrite (acts_done _ _ _ H Y) in D. discriminate. }
    assert (Go : forall g1 f1, stack s1 = g1 ++ f1 :: r -> stopping f1 = false ->
      exists g' f', stack s' = g' ++ f' :: r /\ stopping f' = false).
    { intros g1 f1 E1 F1. eapply IH; eauto. }
    destruct g as [|x g]; cbn [app] in E.
    + destruct (act_stack _ _ _ _ _ A E) as [X|[(f' & X & S)|(f' & X & S)]].
      * destruct (act_pop _ _ _ _ _ A E X) as [->|[Y|Y]]; try congruence. destruct NT. now left.
      * apply (Go [] f'); auto. destruct (stopping f') eqn:Y; auto. destruct (S eq_refl) as [Z|[-> Z]]; [congruence|].
        rewrite E, Nat.eqb_refl, Z in T1. discriminate.
      * apply (Go [f'] f); auto.
    + destruct (act_stack _ _ _ _ _ A E) as [X|[(f' & X & S)|(f' & X & S)]].
      * apply (Go g f); auto.
      * apply (Go (f' :: g) f); auto.
      * apply (Go (f' :: x :: g) f); auto.
Qed.

Lemma run_goes_on : forall m s0 s ls s', act (LRun m) s0 = Some s -> acts ls s = Some s' ->
  told (length (stack s0)) s ls = false -> ~ In LThrow ls -> done s' = false ->
  exists g f, stack s' = g ++ f :: stack s0.
Proof.
  intros m s0 s ls s' A H T N D.
  assert (E : stack s = Top m true :: stack s0).
  { cbn in A. destruct (stack s0) as [|f r]; [now injection A as <-|].
    destruct (in_body f); [|discriminate]. now injection A as <-. }
  destruct (goes_on ls s s' [] _ _ H E eq_refl T N D) as (g & f & X & _). eauto.
Qed.

Definition rank (f : frame) : nat := match f with Inner _ => 3 | TickTest _ => 2 | _ => 1 end.
Lemma stops_from : forall ls s s' f r, acts ls s = Some s' -> stack s = f :: r -> stopping f = true ->
  rank f <= goes ls ->
  exists ls1 ls2 s1, ls = ls1 ++ ls2 /\ acts ls1 s = Some s1 /\ stack s1 = r /\
    taken (log s1) = taken (log s) /\ dealt (log s1) = dealt (log s) /\ ticked (log s1) = ticked (log s).
Proof.
  induction ls as [|l ls IH]; intros s s' f r H E F G.
  - destruct f; cbn in G; lia.
  - cbn [acts] in H. destruct (act l s) as [s1|] eqn:A; [|discriminate].
    assert (Go : forall f1, stack s1 = f1 :: r -> stopping f1 = true -> rank f1 <= goes ls ->
      taken (log s1) = taken (log s) -> dealt (log s1) = dealt (log s) -> ticked (log s1) = ticked (log s) ->
      exists ls1 ls2 s2, l :: ls = ls1 ++ ls2 /\ acts ls1 s = Some s2 /\ stack s2 = r /\
        taken (log s2) = taken (log s) /\ dealt (log s2) = dealt (log s) /\ ticked (log s2) = ticked (log s)).
    { intros f1 E1 F1 G1 T1 T2 T3. destruct (IH _ _ _ _ H E1 F1 G1) as (a & b & s2 & -> & Q & R & U1 & U2 & U3).
      exists (l :: a), b, s2. cbn [acts]. rewrite A. repeat split; auto; congruence. }
    destruct l; cbn [act] in A; try (injection A as <-; apply (Go f); auto; fail).
    + rewrite E in A. destruct f; discriminate.
    + unfold go in A. rewrite E in A.
      destruct f as [m [|]| | | |[|]| | | | | | | |[|]| |]; try discriminate.
      * cbn in A. injection A as <-. exists [LGo], ls, (set (que s) (heap s) r [EReturn m] s).
        cbn [acts act]. unfold go. rewrite E. cbn. repeat split.
      * injection A as <-. apply (Go (TickTest false)); auto. cbn in *. lia.
      * injection A as <-. apply (Go (Top Ticking false)); auto. cbn in *. lia.
    + rewrite E in A. destruct f; discriminate.
    + unfold ret in A. rewrite E in A. destruct f; discriminate.
    + unfold throw in A. rewrite E in A. destruct f; discriminate.
Qed.
Lemma stops : forall s0 f r s ls s', stack s0 = f :: r -> asked f = true -> act (LRet false) s0 = Some s ->
  acts ls s = Some s' -> 3 <= goes ls ->
  exists ls1 ls2 s1, ls = ls1 ++ ls2 /\ acts ls1 s = Some s1 /\ stack s1 = r /\
    taken (log s1) = taken (log s) /\ dealt (log s1) = dealt (log s) /\ ticked (log s1) = ticked (log s).
Proof.
  intros s0 f r s ls s' E A R H G. cbn in R. unfold ret in R. rewrite E in R.
  destruct f; try discriminate; injection R as <-;
    (eapply stops_from; [exact H|reflexivity|reflexivity|cbn; lia]).
Qed.

(** ** Ticks *)
Definition early (f : frame) : bool :=
  match f with Again | TickTest true | TickCall | WaitT => false | _ => true end.
Definition fresh_top (s : st) : Prop := match stack s with [] => True | f :: _ => early f = true end.
Lemma no_tick_step : forall l s s', act l s = Some s' -> l <> LPause -> shape s -> paused s = false ->
  fresh_top s -> que s <> [] -> paused s' = false /\ fresh_top s' /\ ticked (log s') = ticked (log s).
Proof.
  intros l s s' E L H P F Q. destruct s as [q h d p k n g]. unfold shape, fresh_top in *. simpl in *. subst p.
  destruct l; try congruence; step_cases E; subst; simpl in *; auto; try discriminate; try congruence;
    repeat match goal with
    | H : Forall _ (_ :: _) |- _ => inversion H; clear H; subst
    | |- context [match ?x with _ => _ end] => destruct x; simpl in *; auto; try discriminate
    end; auto.
  all: match goal with f : frame |- _ => destruct f; simpl in *; auto; discriminate end.
Qed.
Lemma tick_empty : forall ls0 s ls s', acts ls0 init = Some s -> paused s = false ->
  match stack s with [] => True | f :: _ => in_body f = true end ->
  ~ In LPause ls -> acts ls s = Some s' -> ticked (log s') > ticked (log s) ->
  exists ls1 ls2 s1, ls = ls1 ++ ls2 /\ acts ls1 s = Some s1 /\ que s1 = [].
Proof.
  intros ls0 s ls s' R P B NP H T.
  assert (F : fresh_top s). { unfold fresh_top. destruct (stack s) as [|[]]; auto; discriminate. }
  apply shape_reach in R. clear ls0 B. revert s R P F NP H T.
  induction ls as [|l ls IH]; cbn [acts]; intros s R P F NP H T; [injection H as <-; lia|].
  destruct (act l s) as [s1|] eqn:A; [|discriminate].
  destruct (que s) as [|e t] eqn:Q; [exists [], (l :: ls), s; auto|].
  destruct (no_tick_step l s s1 A) as (P1 & F1 & T1); auto.
  { intros ->. apply NP. now left. } { rewrite Q. discriminate. }
  destruct (IH s1) as (a & b & s2 & -> & X & Y); auto.
  - eapply shape_step; eauto.
  - intros X. apply NP. now right.
  - lia.
  - exists (l :: a), b, s2. cbn [acts]. rewrite A. auto.
Qed.
