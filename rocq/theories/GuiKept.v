(** What the page shows stays until another step arrives: proofs. *)
From Coq Require Import List Bool Arith NArith ZArith Ascii String Lia.
From Verif Require Import StoreModel DebuggerModel ServerModel GuiModel GuiSpec GuiBasics GuiShown.
Import ListNotations.
Local Open Scope list_scope.

Section Kept.
Context {M A W : Type}.
Variable encode_action : A -> str.
Variable encode_model : M -> str.
Variable reducer : M -> A -> option (M * option (prog M A W)).
Variables pause_eff resume_eff : prog (dmodel M A) (daction A) W.
Variable bits : N.
Notation happens := (happens encode_action encode_model reducer pause_eff resume_eff bits).
Notation after := (after encode_action encode_model reducer pause_eff resume_eff bits).
Notation sys := (sys M A).
Notation gmodel := (gmodel M A).
Notation msg := (msg M A).
Notation gui_view := (gui_view (M := M) (A := A) encode_action encode_model).

Lemma select_keeps : forall (p : gmodel) i x, shows (pg_detail p) x ->
  shows (pg_detail (fst (select_step p i))) x.
Proof.
  intros p i x H. unfold select_step. destruct ((i <? 0)%Z || (st_summary (pg_status p) <? i)%Z); [exact H|].
  destruct H as (j & [E|E]); rewrite E; cbn; exists i; right; reflexivity.
Qed.
Definition no_step (m : msg) : Prop := match m with RecvStep (Some _) => False | _ => True end.
Lemma update_keeps : forall (m : msg) (p : gmodel) x, no_step m -> shows (pg_detail p) x ->
  shows (pg_detail (fst (gui_update m p))) x.
Proof.
  intros m p x N H. destruct m as [[st|]|[d|]| | | | | | | | | | | | | |]; cbn [gui_update fst]; try exact H;
    try (apply select_keeps; exact H); try contradiction.
  destruct (_ || _); [apply select_keeps|]; exact H.
Qed.
Lemma hear_page : forall (m : msg) (s : sys), page (hear m s) = fst (gui_update m (page s)).
Proof. intros m s. destruct (hear_is m s) as (t & ->). reflexivity. Qed.
Lemma after_step : forall s es e, after s (es ++ [e]) = happens (after s es) e.
Proof. intros s es e. unfold after, GuiSpec.after, happen_all. rewrite fold_left_app. reflexivity. Qed.

Theorem kept : forall origin sv es e x, let p := page (after (opened origin sv) es) in
  let q := page (after (opened origin sv) (es ++ [e])) in
  shows (pg_detail p) x ->
  shows (pg_detail q) x \/ exists n i y, e = Delivers n /\ pg_detail q = LoadedStep i y.
Proof.
  intros origin sv es e x p q H. subst p q. rewrite after_step.
  assert (V := inv_run encode_action encode_model reducer pause_eff resume_eff bits origin sv es (fun _ => True) (fun _ _ => I)).
  set (s := after (opened origin sv) es) in *. clearbody s.
  destruct e as [n|k| | |n|n|n|a| |]; cbn [GuiModel.happens].
  - destruct (nth_error _ n) as [[o m]|] eqn:E; [|left; exact H]. left. rewrite hear_page.
    apply update_keeps; [|exact H]. apply nth_error_In in E. apply handlers_in in E.
    destruct E as [->|[->|[[-> _]|[[-> _]|(i & _ & [->| ->])]]]]; exact I.
  - left. rewrite hear_page. apply update_keeps; [exact I|exact H].
  - left. rewrite hear_page. apply update_keeps; [exact I|exact H].
  - destruct (self s) as [|m l] eqn:E; [left; exact H|]. left. rewrite hear_page. apply update_keeps; [|exact H].
    assert (K := i_self _ _ _ _ _ _ V). rewrite E in K. inversion K as [|? ? K1 _]; subst.
    destruct m; try exact I. destruct K1.
  - left. destruct (nth_error _ n) as [[o m]|]; exact H.
  - left. destruct (nth_error _ n) as [[o m]|]; exact H.
  - destruct (nth_error (back s) n) as [m|] eqn:E; [|left; exact H]. rewrite hear_page. cbn [page].
    assert (K := i_back _ _ _ _ _ _ V). rewrite Forall_forall in K. specialize (K m (nth_error_In _ _ E)).
    destruct m as [[st|]|[d|]| | | | | | | | | | | | | |]; try (left; apply update_keeps; [exact I|exact H]).
    destruct K as (d' & j & y & _ & -> & _). cbn [gui_update].
    destruct (_ =? _)%Z; [right; exists n, (Z.of_nat j), y; split; reflexivity|left; exact H].
  - left. exact H.
  - left. destruct (todo s); exact H.
  - left. exact H.
Qed.
End Kept.
