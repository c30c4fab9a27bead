(** Which kind of [run] a call is, and what client code can do in it. *)
From Coq Require Import List Arith Bool Lia.
From Verif Require Import SdlModel SdlSpec SdlProofs SdlStop.
Import ListNotations.
Local Open Scope nat_scope.

(** ** Exceptions *)
Lemma fail_step : forall l s s' id, act l s = Some s' ->
  (In (EFail Plain id) (log s') <-> In (EFail Plain id) (log s) \/
     In id (match l, stack s with LThrow, BodyP id :: _ => [id] | _, _ => [] end)).
Proof.
  intros l s s' id E. destruct s as [q h d p k n g]. cbn [stack log].
  destruct l; step_cases E; subst; simpl; try tauto;
    (split; [intros A; repeat (destruct A as [A|A]); auto; try discriminate; try (injection A as <-; auto)
            |intros [A|A]; auto; try contradiction; destruct A as [A|[]]; subst; auto]).
Qed.
Lemma fail_acts : forall ls s s' id, acts ls s = Some s' ->
  (In (EFail Plain id) (log s') <-> In (EFail Plain id) (log s) \/ In id (threw_plain s ls)).
Proof.
  induction ls as [|l ls IH]; intros s s' id H; cbn [acts threw_plain] in *.
  - injection H as <-. simpl. tauto.
  - destruct (act l s) as [s1|] eqn:E; [|discriminate]. rewrite (IH _ _ _ H), (fail_step _ _ _ id E), in_app_iff. tauto.
Qed.
Lemma memory_run : forall ls s, acts ls init = Some s ->
  NoDup (heap s) /\ NoDup (freed (log s)) /\
  (forall id, In id (freed (log s)) -> ~ In id (heap s) /\ In (ERun id) (log s)) /\
  (forall id, In id (heap s) <->
     In (Fn id) (que s) \/ (exists f, In f (stack s) /\ runs f id) \/
     In (ERefuse id) (log s) \/ In id (threw_plain init ls)).
Proof.
  intros ls s H. destruct (memory ls s H) as (A & B & C & D). repeat (split; auto; try apply C; auto).
  all: intros X; rewrite D in * || rewrite D; rewrite (fail_acts _ _ _ id H) in *; simpl in *; tauto.
Qed.

(** ** Client code can return and throw *)
Lemma client : forall s f r, stack s = f :: r -> in_body f = true ->
  (forall b, exists s', act (LRet b) s = Some s' /\ que s' = que s /\ exists f', stack s' = f' :: r) /\
  exists s', act LThrow s = Some s' /\ que s' = que s /\ stack s' = r.
Proof.
  intros s f r E B. destruct f; try discriminate; cbn [act]; unfold ret, throw; rewrite E;
    (split; [intros b|]; eexists; (split; [reflexivity|]); cbn; eauto).
Qed.

(** ** The kind of a call *)
Lemma act_mode : forall l s s' f r, act l s = Some s' -> stack s = f :: r ->
  stack s' = r \/ (exists f', stack s' = f' :: r /\ plain f' = plain f) \/
  (exists f', stack s' = f' :: f :: r).
Proof.
  intros l s s' f r H E. destruct s as [q h d p k n g]. cbn [stack] in E. subst k.
  destruct l; step_cases H; subst; eauto.
  all: try (right; left; eexists; split; reflexivity).
Qed.
Lemma mode_kept : forall ls s s' g f r, acts ls s = Some s' -> stack s = g ++ f :: r ->
  (forall ls1 ls2 s1, ls = ls1 ++ ls2 -> acts ls1 s = Some s1 -> length (stack s1) > length r) ->
  exists g' f', stack s' = g' ++ f' :: r /\ plain f' = plain f.
Proof.
  induction ls as [|l ls IH]; cbn [acts]; intros s s' g f r H E L.
  - injection H as <-. eauto.
  - destruct (act l s) as [s1|] eqn:A; [|discriminate].
    assert (L1 : forall ls1 ls2 s2, ls = ls1 ++ ls2 -> acts ls1 s1 = Some s2 -> length (stack s2) > length r).
    { intros ls1 ls2 s2 -> X. apply (L (l :: ls1) ls2); auto. cbn [acts]. now rewrite A. }
    destruct g as [|x g]; cbn [app] in E.
    + destruct (act_mode _ _ _ _ _ A E) as [X|[(f' & X & P)|(f' & X)]].
      * specialize (L1 [] ls s1 eq_refl eq_refl). rewrite X in L1. lia.
      * destruct (IH s1 s' [] f' r H X L1) as (g' & f2 & Y & Z). exists g', f2. split; congruence.
      * apply (IH s1 s' [f'] f r H X L1).
    + destruct (act_mode _ _ _ _ _ A E) as [X|[(f' & X & P)|(f' & X)]].
      * apply (IH s1 s' g f r H X L1).
      * apply (IH s1 s' (f' :: g) f r H X L1).
      * apply (IH s1 s' (f' :: x :: g) f r H X L1).
Qed.
Lemma run_mode : forall m s0 s ls s', act (LRun m) s0 = Some s -> acts ls s = Some s' ->
  (forall ls1 ls2 s1, ls = ls1 ++ ls2 -> acts ls1 s = Some s1 -> length (stack s1) > length (stack s0)) ->
  exists g f, stack s' = g ++ f :: stack s0 /\ plain f = match m with Plain => true | Ticking => false end.
Proof.
  intros m s0 s ls s' A H L.
  assert (E : stack s = Top m true :: stack s0).
  { cbn in A. destruct (stack s0) as [|f r]; [now injection A as <-|].
    destruct (in_body f); [|discriminate]. now injection A as <-. }
  destruct (mode_kept ls s s' [] _ _ H E L) as (g & f & X & Y). exists g, f. split; [exact X|]. rewrite Y. now destruct m.
Qed.

(** ** Before it returns, run(handler, tick) ticks *)
Definition within (f : frame) : bool :=
  match f with
  | Inner true | Poll | Again | WaitT | BodyT _ | Got _ | HandCall _ | HandT _ | TickTest true | TickCall | Tick => true
  | _ => false
  end.
Lemma within_step : forall l s s' f r, act l s = Some s' -> stack s = f :: r -> within f = true ->
  paused s = false -> l <> LThrow -> (match l, f with LRet false, HandT _ => False | _, _ => True end) ->
  (exists f', (stack s' = f' :: r /\ within f' = true) \/ stack s' = f' :: f :: r) \/ f = Tick.
Proof.
  intros l s s' f r H E W P NT T. destruct s as [q h d p k n g]. cbn [stack paused] in *. subst k p.
  destruct l; try congruence; step_cases H; subst; try discriminate; eauto;
    left; eexists; left; (split; [reflexivity|]); simpl; auto.
  destruct b; [reflexivity|contradiction].
Qed.
Lemma ticked_mono : forall l s s', act l s = Some s' -> ticked (log s) <= ticked (log s').
Proof.
  intros l s s' H. destruct s as [q h d p k n g]. cbn [log].
  destruct l; step_cases H; subst; simpl; auto.
Qed.
Lemma tick_step : forall l s s' f r, act l s = Some s' -> stack s = f :: r -> stack s' = Tick :: r -> f <> Tick ->
  ticked (log s') > ticked (log s).
Proof.
  intros l s s' f r H E E' N. destruct s as [q h d p k n g]. cbn [stack log] in *. subst k.
  destruct l; step_cases H; subst; try discriminate; simpl in *; auto; try congruence.
  all: apply (f_equal (@length _)) in E'; simpl in E'; lia.
Qed.
Lemma drains_from : forall ls s s' g f r n0, acts ls s = Some s' -> stack s = g ++ f :: r -> within f = true ->
  f <> Tick -> paused s = false -> ~ In LPause ls -> ~ In LThrow ls -> told (length r) s ls = false ->
  n0 <= ticked (log s) -> length (stack s') <= length r -> ticked (log s') > n0.
Proof.
  induction ls as [|l ls IH]; cbn [acts told]; intros s s' g f r n0 H E W N P NP NT T M L.
  - injection H as <-. rewrite E in L. rewrite app_length in L. simpl in L. lia.
  - destruct (act l s) as [s1|] eqn:A; [|discriminate]. apply orb_false_iff in T. destruct T as [T1 T2].
    assert (NP' : ~ In LPause ls) by (intros X; apply NP; now right).
    assert (NT' : ~ In LThrow ls) by (intros X; apply NT; now right).
    assert (P1 : paused s1 = false).
    { destruct s as [q0 h0 d0 p0 k0 n1 g0]. cbn in P. subst p0.
      destruct l; try (destruct NP; now left); step_cases A; subst; auto. }
    pose proof (ticked_mono _ _ _ A) as TM.
    assert (Mono : forall ls0 s0 s2, acts ls0 s0 = Some s2 -> ticked (log s0) <= ticked (log s2)).
    { induction ls0 as [|l0 ls0 IH0]; cbn; intros s0 s2 X; [injection X as <-; lia|].
      destruct (act l0 s0) eqn:Y; [|discriminate]. apply ticked_mono in Y. apply IH0 in X. lia. }
    assert (Go : forall g1 f1, stack s1 = g1 ++ f1 :: r -> within f1 = true -> f1 <> Tick -> ticked (log s') > n0).
    { intros g1 f1 E1 W1 N1. eapply (IH s1 s' g1 f1 r n0); eauto. lia. }
    destruct g as [|x g]; cbn [app] in E.
    + destruct (within_step l s s1 f r A E W P) as [(f' & [[X W1]|X])|X].
      * intros ->. apply NT. now left.
      * destruct l as [| | | | | | | | |[|]|]; auto. destruct f; auto.
        rewrite E, Nat.eqb_refl in T1. discriminate.
      * destruct (match f' with Tick => true | _ => false end) eqn:Q.
        -- destruct f'; try discriminate. pose proof (tick_step _ _ _ _ _ A E X N) as Y.
           apply Mono in H. lia.
        -- apply (Go [] f' X W1). intros ->. discriminate.
      * apply (Go [f'] f X W N).
      * congruence.
    + destruct (act_mode _ _ _ _ _ A E) as [X|[(f' & X & _)|(f' & X)]].
      * apply (Go g f X W N).
      * apply (Go (f' :: g) f X W N).
      * apply (Go (f' :: x :: g) f X W N).
Qed.
Lemma drains : forall s f r ls s', stack s = f :: r ->
  (exists id, f = BodyT id \/ f = HandT id) -> paused s = false -> ~ In LPause ls -> ~ In LThrow ls ->
  told (length r) s ls = false -> acts ls s = Some s' -> length (stack s') <= length r ->
  ticked (log s') > ticked (log s).
Proof.
  intros s f r ls s' E [id F] P NP NT T H L.
  apply (drains_from ls s s' [] f r (ticked (log s)) H E); auto.
  - destruct F as [-> | ->]; reflexivity.
  - destruct F as [-> | ->]; discriminate.
Qed.
