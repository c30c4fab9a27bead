(** What watchers are told.  This follows the nesting of calls, so it is an
    induction over executions rather than over steps. *)
From Coq Require Import List Arith Bool Lia Wf_nat.
From Verif Require Import StoreModel StoreSpec StoreSteps StoreInv.
Import ListNotations.

Lemma subseq_app_r : forall X (a b c : list X), subseq a b -> subseq a (b ++ c).
Proof. intros X a b c H. induction H; simpl; constructor; auto. Qed.
Lemma subseq_refl : forall X (a : list X), subseq a a.
Proof. induction a; constructor; auto. Qed.
Lemma subseq_snoc : forall X (a b : list X) x, subseq a b -> subseq (a ++ [x]) (b ++ [x]).
Proof.
  intros X a b x H. induction H; simpl; [|constructor; auto|constructor; auto].
  induction l; simpl; repeat constructor; auto.
Qed.
Lemma tl_app : forall X (a b : list X), a <> [] -> tl (a ++ b) = tl a ++ b.
Proof. intros X [|x a] b H; [congruence|reflexivity]. Qed.

Lemma subseq_rep_app_r : forall X (a b c : list X), subseq_rep a b -> subseq_rep a (b ++ c).
Proof. intros X a b c H. induction H; simpl; constructor; auto. Qed.
Lemma subseq_rep_snoc : forall X (a b : list X) x, subseq_rep a (b ++ [x]) -> subseq_rep (a ++ [x]) (b ++ [x]).
Proof.
  intros X a b x H. remember (b ++ [x]) as c eqn:E. revert b E.
  induction H; intros b0 E; simpl.
  - subst l. induction b0; simpl; repeat constructor; auto.
  - constructor. eauto.
  - destruct b0 as [|y b0]; injection E as -> E.
    + subst b. inversion H; subst. repeat constructor.
    + subst b. constructor. eauto.
Qed.

Section Told.
Variables M A W : Type.
Notation prog := (prog M A W).
Notation event := (event M A W).
Notation job := (job M A W).
Notation st := (st M A W).
Notation res := (res M A W).
Variable reducer : M -> A -> option (M * option prog).
Variable eqb : M -> M -> bool.
Variables trans futures manual : bool.
Variable ext : nat -> list A.
Notation exec := (exec reducer eqb trans futures manual ext).
Notation arrive := (arrive futures manual ext).
Notation arrive1 := (arrive1 futures).
Variable m0 : M.

Definition K (b : bool) (D : nat -> Prop) (s : st) : Prop :=
  no_failure (log s) -> forall i w, nth_error (slots s) i = Some (Some w) ->
  D i \/ (b = true /\ no_commit (log s)) -> knows i (log s) = Some (last s).
Definition Conn (s : st) : Prop := forall i m, knows i (log s) = Some m ->
  exists w, nth_error (slots s) i = Some (Some w).
Definition toldP (e : event) (r : list event) : Prop :=
  match e with
  | EEff id m _ => trans = false -> no_failure r -> no_commit r -> forall i m', knows i r = Some m' -> m' = m
  | _ => True
  end.
Definition Pos (z : bool) (F : nat -> Prop) (s : st) : Prop := exists a b,
  m0 :: models (log s) = a ++ last s :: b /\
  (nsd s = true -> exists b1 b2, b = b1 ++ cur s :: b2) /\
  (nsd s = false -> cur s = last s) /\
  (z = true -> a <> []) /\
  forall i, subseq_rep (seen i (log s)) (tl (a ++ [last s])) /\
    (no_commit (log s) -> subseq (seen i (log s)) (tl (a ++ [last s])) /\
       (F i -> a <> [] /\ subseq (seen i (log s)) (tl a))).
Record Inv (cm z b : bool) (D F : nat -> Prop) (s : st) : Prop := {
  v_nn : nn s = false;
  v_k : K b D s;
  v_conn : Conn s;
  v_told : at_each toldP (log s);
  v_pos : Pos z F s;
  v_cm : cm = true -> In ECommit (log s) }.
Definition all (i : nat) : Prop := True.
Definition none (i : nat) : Prop := False.

Definition fin (P : st -> Prop) (r : res) : Prop :=
  match r with Done _ s | Thrown s => P s | _ => True end.
Lemma fin_andthen : forall (P Q : st -> Prop) r k, fin P r -> (forall s, P s -> Q s) ->
  (forall f s, P s -> fin Q (k f s)) -> fin Q (andthen r k).
Proof. intros P Q [f s|s| | |] k H H0 H1; simpl in *; auto. Qed.
Lemma fin_impl : forall (P Q : st -> Prop) r, fin P r -> (forall s, P s -> Q s) -> fin Q r.
Proof. intros P Q [f s|s| | |] H H0; simpl in *; auto. Qed.

(** *** Changes of the state *)
Lemma Pos_weak : forall z z' F (F' : nat -> Prop) s, Pos z F s -> (z' = true -> z = true) ->
  (no_commit (log s) -> forall i, F' i -> F i) -> Pos z' F' s.
Proof.
  intros z z' F F' s (a & c & A1 & A2 & A3 & A4 & A5) Hz HF. exists a, c.
  split; auto. split; auto. split; auto. split; auto. intros i. destruct (A5 i) as [B1 B2].
  split; auto. intros NC. destruct (B2 NC) as [B3 B4]. split; auto.
Qed.
Lemma Pos_log : forall z F s s', last s' = last s -> cur s' = cur s -> nsd s' = nsd s ->
  models (log s') = models (log s) -> (forall i, seen i (log s') = seen i (log s)) ->
  (no_commit (log s') -> no_commit (log s)) -> Pos z F s -> Pos z F s'.
Proof.
  intros z F s s' E1 E2 E3 E4 E5 E6 (a & c & A1 & A2 & A3 & A4 & A5). exists a, c.
  rewrite E1, E2, E3, E4. split; auto. split; auto. split; auto. split; auto. intros i.
  destruct (A5 i) as [B1 B2]. rewrite E5. split; auto.
Qed.
Definition plain (e : event) : Prop :=
  match e with ERed _ _ _ | EConn _ _ | EDisc _ | ESee _ _ | EEff _ _ _ => False | _ => True end.
Definition same (s s' : st) : Prop :=
  last s' = last s /\ cur s' = cur s /\ nsd s' = nsd s /\ nn s' = nn s /\ slots s' = slots s.
Lemma nf_tl : forall e (l : list event), no_failure (e :: l) -> no_failure l.
Proof. intros e l H H0. apply H. now right. Qed.
Lemma nc_tl : forall e (l : list event), no_commit (e :: l) -> no_commit l.
Proof. intros e l H H0. apply H. now right. Qed.
Lemma plain_log : forall e (l : list event), plain e ->
  (forall i, knows i (e :: l) = knows i l) /\ (forall i, seen i (e :: l) = seen i l) /\
  models (e :: l) = models l /\ (at_each toldP l -> at_each toldP (e :: l)).
Proof. intros e l H. destruct e; simpl in *; try contradiction; auto. Qed.
Lemma Inv_same : forall cm z b D F s s', same s s' -> log s' = log s -> Inv cm z b D F s -> Inv cm z b D F s'.
Proof.
  intros cm z b D F s s' (E1 & E2 & E3 & E4 & E5) EL [V1 V2 V3 V4 V5 V6].
  split; unfold K, Conn in *; rewrite ?EL, ?E1, ?E2, ?E3, ?E4, ?E5; auto.
  eapply Pos_log; eauto; now rewrite EL.
Qed.
Lemma Inv_plain : forall cm z b D F e s s', same s s' -> plain e -> log s' = e :: log s ->
  Inv cm z b D F s -> Inv cm z b D F s'.
Proof.
  intros cm z b D F e s s' (E1 & E2 & E3 & E4 & E5) HP EL [V1 V2 V3 V4 V5 V6].
  destruct (plain_log e (log s) HP) as (P1 & P2 & P3 & P4).
  split; unfold K, Conn in *; rewrite ?EL, ?E1, ?E2, ?E3, ?E4, ?E5; auto.
  - intros NF i w Hi HD. rewrite P1. apply nf_tl in NF. eapply V2; eauto.
    destruct HD as [HD|[HD1 HD2]]; auto. right. split; auto. now apply nc_tl in HD2.
  - intros i m H. rewrite P1 in H. eauto.
  - eapply Pos_log; eauto; rewrite EL; auto. apply nc_tl.
  - intros H. right. auto.
Qed.
Lemma same_refl : forall s, same s s.
Proof. intros s. repeat split. Qed.
Lemma Inv_emit : forall cm z b D F e s, plain e -> Inv cm z b D F s -> Inv cm z b D F (emit e s).
Proof. intros cm z b D F e s H. apply (Inv_plain _ _ _ _ _ e); auto. repeat split. Qed.
Lemma Inv_commit : forall cm z b D F s, Inv cm z b D F s -> Inv true z b D F (emit ECommit s).
Proof.
  intros cm z b D F s H. apply (Inv_emit _ _ _ _ _ ECommit) in H; [|exact Logic.I].
  destruct H. split; auto. intros _. now left.
Qed.
Lemma Inv_cm : forall z b D F F' s, Inv true z b D F s -> Inv true z b D F' s.
Proof.
  intros z b D F F' s [V1 V2 V3 V4 V5 V6]. split; auto. eapply Pos_weak; eauto. intros NC. exfalso. apply NC. auto.
Qed.
Lemma Inv_weak : forall cm z b D F s, Inv cm z b all none s -> cm = true \/ (forall i, ~ F i) ->
  forall cm' z' b', (cm' = true -> cm = true) -> (z' = true -> z = true) -> Inv cm' z' b' D F s.
Proof.
  intros cm z b D F s [V1 V2 V3 V4 V5 V6] H cm' z' b' Hc Hz. split; auto.
  - intros NF i w Hi _. eapply V2; eauto. now left.
  - eapply Pos_weak; eauto. intros NC i HF. exfalso.
    destruct H as [H|H]; [|now apply (H i)]. apply NC. auto.
Qed.
Lemma Inv_D : forall cm z b D (D' : nat -> Prop) F s, Inv cm z b D F s -> (forall i, D' i -> D i) -> Inv cm z b D' F s.
Proof.
  intros cm z b D D' F s [V1 V2 V3 V4 V5 V6] H. split; auto.
  intros NF i w Hi [HD|HD]; eapply V2; eauto.
Qed.

Lemma new_dispatch_same : forall a (s s1 : st) f j, new_dispatch futures a s = (s1, f, j) ->
  same s s1 /\ log s1 = EDisp (ndisp s) a f :: log s /\ busy s1 = busy s.
Proof.
  intros a s s1 f j H. unfold new_dispatch in H. destruct futures; injection H as <- <- <-;
    (split; [repeat split|split; reflexivity]).
Qed.
Lemma arrive1_Inv : forall cm z b D F s a, Inv cm z b D F s -> Inv cm z b D F (arrive1 s a).
Proof.
  intros cm z b D F s a H. unfold StoreModel.arrive1.
  destruct (new_dispatch futures a s) as [[s1 f] j] eqn:E.
  destruct (new_dispatch_same _ _ _ _ _ E) as (S1 & L & _).
  apply (Inv_same _ _ _ _ _ s1); [repeat split|reflexivity|].
  eapply Inv_plain; eauto. exact Logic.I.
Qed.
Lemma arrive_Inv : forall cm z b D F s, Inv cm z b D F s -> Inv cm z b D F (arrive s).
Proof.
  intros cm z b D F s H. unfold StoreModel.arrive. destruct manual; auto.
  assert (X : forall l s0, Inv cm z b D F s0 -> Inv cm z b D F (fold_left arrive1 l s0)).
  { induction l as [|a l IH]; intros s0 H0; simpl; auto. apply IH. now apply arrive1_Inv. }
  apply (Inv_same _ _ _ _ _ (fold_left arrive1 (ext (clock s)) s)); auto. repeat split.
Qed.
Lemma arrive_busy : forall s : st, busy (arrive s) = busy s.
Proof.
  intros s. unfold StoreModel.arrive. destruct manual; auto. simpl.
  assert (X : forall l (s0 : st), busy (fold_left arrive1 l s0) = busy s0); [|apply X].
  induction l as [|a l IH]; intros s0; simpl; auto. rewrite IH.
  unfold StoreModel.arrive1. destruct (new_dispatch futures a s0) as [[s1 f] j] eqn:E.
  destruct (new_dispatch_same _ _ _ _ _ E) as (_ & _ & B). exact B.
Qed.

Lemma Inv_conn : forall cm z b D F w s, Inv cm z b D F s ->
  Inv cm z b D F (emit (EConn (length (slots s)) (last s)) (set_slots (slots s ++ [Some w]) s)).
Proof.
  intros cm z b D F w s [V1 V2 V3 V4 V5 V6]. split; simpl; auto.
  - intros NF i w' Hi HD. simpl in *. destruct (Nat.eqb_spec i (length (slots s))) as [->|N]; auto.
    apply nf_tl in NF. eapply V2; eauto.
    + destruct (Nat.lt_ge_cases i (length (slots s))) as [L|L].
      * rewrite nth_error_app1 in Hi by auto. eauto.
      * rewrite nth_error_app2 in Hi by auto. destruct (i - length (slots s)) as [|[|d]] eqn:E; simpl in Hi;
          try discriminate. lia.
    + destruct HD as [HD|[HD1 HD2]]; auto. right. split; auto. now apply nc_tl in HD2.
  - intros i m H. simpl in *. destruct (Nat.eqb_spec i (length (slots s))) as [->|N].
    + exists w. rewrite nth_error_app2, Nat.sub_diag; auto.
    + destruct (V3 i m H) as (w' & Hw). exists w'. rewrite nth_error_app1; auto. apply nth_error_Some. congruence.
  - apply (Pos_log z F s); auto; simpl; apply nc_tl.
Qed.
Lemma Inv_disc : forall cm z b D F i s, Inv cm z b D F s ->
  Inv cm z b D F (emit (EDisc i) (set_slots (set_nth i None (slots s)) s)).
Proof.
  intros cm z b D F i s [V1 V2 V3 V4 V5 V6]. split; simpl; auto.
  - intros NF j w' Hi HD. simpl in *. rewrite nth_set_nth in Hi.
    destruct (Nat.eqb_spec j i) as [->|N]; simpl in Hi.
    + destruct (i <? length (slots s)) eqn:L; [discriminate|].
      exfalso. apply Nat.ltb_ge in L. apply nth_error_None in L. congruence.
    + apply nf_tl in NF. eapply V2; eauto.
      destruct HD as [HD|[HD1 HD2]]; auto. right. split; auto. now apply nc_tl in HD2.
  - intros j m H. simpl in *. destruct (Nat.eqb_spec j i) as [->|N]; [discriminate|].
    destruct (V3 j m H) as (w' & Hw). exists w'. rewrite nth_set_nth.
    apply Nat.eqb_neq in N. now rewrite N.
  - apply (Pos_log z F s); auto; simpl; apply nc_tl.
Qed.
Lemma Inv_see : forall cm b i w s, nth_error (slots s) i = Some (Some w) ->
  Inv cm true b (fun j => j < i) (fun j => i <= j) s ->
  Inv cm true b (fun j => j < S i) (fun j => S i <= j) (emit (ESee i (last s)) s).
Proof.
  intros cm b i w s Hw [V1 V2 V3 V4 V5 V6]. split; simpl; auto.
  - intros NF j w' Hi HD. simpl in *. destruct (Nat.eqb_spec j i) as [->|N]; auto.
    apply nf_tl in NF. eapply V2; eauto.
    destruct HD as [HD|[HD1 HD2]]; [left; lia|]. right. split; auto. now apply nc_tl in HD2.
  - intros j m H. simpl in *. destruct (Nat.eqb_spec j i) as [->|N]; eauto.
  - destruct V5 as (a & c & A1 & A2 & A3 & A4 & A5).
    exists a, c. simpl. split; auto. split; auto. split; auto. split; auto.
    intros j. destruct (A5 j) as [B1 B2]. destruct (Nat.eqb_spec j i) as [->|N].
    + rewrite tl_app in * by auto. split; [now apply subseq_rep_snoc|].
      intros NC. apply nc_tl in NC. destruct (B2 NC) as [B3 B4]. destruct (B4 (le_n i)) as [B5 B6].
      split; [|lia]. now apply subseq_snoc.
    + split; auto. intros NC. apply nc_tl in NC. destruct (B2 NC) as [B3 B4]. split; auto. intros L. apply B4. lia.
Qed.
Lemma Inv_end : forall cm z b i s, nth_error (slots s) i = None ->
  Inv cm z b (fun j => j < i) (fun j => i <= j) s -> Inv cm z b all none s.
Proof.
  intros cm z b i s Hw [V1 V2 V3 V4 V5 V6]. split; simpl; auto.
  - intros NF j w' Hi HD. eapply V2; eauto. left. apply nth_error_None in Hw.
    assert (j < length (slots s)) by (apply nth_error_Some; congruence). lia.
  - eapply Pos_weak; eauto. intros _ j [].
Qed.
Lemma Inv_skip : forall cm z b i s, nth_error (slots s) i = Some None ->
  Inv cm z b (fun j => j < i) (fun j => i <= j) s -> Inv cm z b (fun j => j < S i) (fun j => S i <= j) s.
Proof.
  intros cm z b i s Hw [V1 V2 V3 V4 V5 V6]. split; simpl; auto.
  - intros NF j w' Hi HD. eapply V2; eauto. destruct HD as [HD|HD]; auto. left.
    assert (j <> i) by congruence. lia.
  - eapply Pos_weak; eauto. simpl. lia.
Qed.

(** Just before the watchers are called. *)
Record Ready (cm : bool) (s : st) : Prop := {
  r_nn : nn s = true; r_nsd : nsd s = false; r_conn : Conn s; r_told : at_each toldP (log s);
  r_pos : Pos true all s; r_cm : cm = true -> In ECommit (log s) }.
Lemma Inv_send : forall cm z b D F s, Inv cm z b D F s ->
  (nsd s = true /\ Ready cm (send_down s)) \/ (nsd s = false /\ send_down s = s).
Proof.
  intros cm z b D F s [V1 V2 V3 V4 V5 V6]. unfold send_down. destruct (nsd s) eqn:E; [left|right]; auto.
  split; auto. split; simpl; auto. destruct V5 as (a & c & A1 & A2 & A3 & A4 & A5).
  destruct (A2 E) as (b1 & b2 & ->). exists (a ++ last s :: b1), b2. simpl.
  split; [rewrite A1, <- app_assoc; reflexivity|]. split; [discriminate|]. split; auto.
  assert (NE : a ++ last s :: b1 <> []) by (destruct a; discriminate). split; auto.
  assert (EQ : tl (a ++ last s :: b1) = tl (a ++ [last s]) ++ b1).
  { replace (a ++ last s :: b1) with ((a ++ [last s]) ++ b1) by (rewrite <- app_assoc; reflexivity).
    now rewrite tl_app by (destruct a; discriminate). }
  intros i. destruct (A5 i) as [B1 B2]. rewrite tl_app by auto. rewrite EQ.
  split; [now apply subseq_rep_app_r, subseq_rep_app_r|]. intros NC. destruct (B2 NC) as [B3 B4].
  split; [now apply subseq_app_r, subseq_app_r|]. intros _. split; auto. now apply subseq_app_r.
Qed.
Lemma Ready_Inv : forall cm b s, Ready cm s -> b = false \/ cm = true ->
  Inv cm true b (fun j => j < 0) (fun j => 0 <= j) (set_nn false s).
Proof.
  intros cm b s [V1 V2 V3 V4 V5 V6] Hb. split; simpl; auto.
  - intros NF i w Hi [HD|[HD1 HD2]]; [lia|]. destruct Hb as [Hb|Hb]; [congruence|].
    exfalso. apply HD2. auto.
  - apply (Pos_weak true true all); auto. intros _ i _. exact Logic.I.
Qed.
Lemma Inv_red : forall cm z b D F id m e s s', same s s' -> log s' = ERed id m e :: log s ->
  Inv cm z b D F s -> Inv cm z b D F s'.
Proof.
  intros cm z b D F id m e s s' (E1 & E2 & E3 & E4 & E5) EL [V1 V2 V3 V4 V5 V6].
  split; unfold K, Conn in *; rewrite ?EL, ?E1, ?E2, ?E3, ?E4, ?E5; simpl; auto.
  - intros NF i w Hi HD. apply nf_tl in NF. eapply V2; eauto.
    destruct HD as [HD|[HD1 HD2]]; auto. right. split; auto. now apply nc_tl in HD2.
  - destruct V5 as (a & c & A1 & A2 & A3 & A4 & A5). exists a, (c ++ [m]).
    rewrite EL, E1, E2, E3. cbn [models seen]. split; [change (m0 :: models (log s) ++ [m]) with ((m0 :: models (log s)) ++ [m]);
      rewrite A1, <- app_assoc; reflexivity|].
    split; [|split; [|split]]; auto; [|intros i; destruct (A5 i) as [B1 B2]; split; auto; intros NC;
      apply nc_tl in NC; auto]. intros N. destruct (A2 N) as (b1 & b2 & ->). exists b1, (b2 ++ [m]).
    now rewrite <- app_assoc.
Qed.
(** push_down of the last model the reducer returned *)
Lemma Inv_reduce : forall cm z b D F id m e s s', same s s' ->
  log s' = ERed id m e :: log s \/ (exists x, plain x /\ log s' = x :: ERed id m e :: log s) ->
  Inv cm z b D F s -> Inv cm z b D F (push_down eqb m s').
Proof.
  intros cm z b D F id m e s s' HS HL H.
  assert (H1 : Inv cm z b D F (emit (ERed id m e) s))
    by (eapply Inv_red with (s := s); eauto; [repeat split|reflexivity]).
  assert (H2 : Inv cm z b D F s').
  { destruct HL as [HL|(x & P & HL)].
    - apply (Inv_same _ _ _ _ _ (emit (ERed id m e) s)); auto.
    - apply (Inv_plain _ _ _ _ _ x (emit (ERed id m e) s)); auto. }
  unfold push_down. destruct (eqb m (cur s')); auto.
  assert (EM : models (log s') = models (log s) ++ [m] /\ (forall i, seen i (log s') = seen i (log s)) /\
    (no_commit (log s') -> no_commit (log s))).
  { destruct HL as [HL|(x & P & HL)]; rewrite HL.
    - split; [reflexivity|]. split; [reflexivity|]. apply nc_tl.
    - destruct (plain_log x (ERed id m e :: log s) P) as (_ & P2 & P3 & _).
      split; [rewrite P3; reflexivity|]. split; [intros i; rewrite P2; reflexivity|].
      intros NC. apply nc_tl in NC. now apply nc_tl in NC. }
  destruct EM as (EM & ES & EC). destruct HS as (E1 & _).
  destruct H2 as [V1 V2 V3 V4 _ V6]. split; simpl; auto.
  destruct H as [_ _ _ _ (a & c & A1 & _ & _ & A4 & A5) _].
  exists a, (c ++ [m]). simpl. rewrite E1, EM.
  split; [change (m0 :: models (log s) ++ [m]) with ((m0 :: models (log s)) ++ [m]);
    rewrite A1, <- app_assoc; reflexivity|].
  split; [eauto|]. split; [discriminate|]. split; auto.
  intros i. rewrite ES. destruct (A5 i) as [B1 B2]. split; auto.
Qed.

(** *** The induction *)
Definition mode (cm b : bool) (F : nat -> Prop) (s : st) : Prop :=
  busy s = true \/ (b = true /\ (cm = true \/ forall i, ~ F i)).
Definition jmode (cm b : bool) (F : nat -> Prop) : Prop := b = true /\ (cm = true \/ forall i, ~ F i).
Definition G (cm z b : bool) (D F : nat -> Prop) (s s' : st) : Prop :=
  busy s' = busy s /\ Inv cm z b D F s'.
Record Mains (fl : nat) : Prop := {
  g_prog : forall p cm z b D F s, mode cm b F s -> Inv cm z b D F s -> fin (G cm z b D F s) (exec fl (TProg p) s);
  g_post : forall j cm z b D F s, mode cm b F s -> Inv cm z b D F s -> fin (G cm z b D F s) (exec fl (TPost j) s);
  g_fulfil : forall n cm z b D F s, mode cm b F s -> Inv cm z b D F s -> fin (G cm z b D F s) (exec fl (TFulfil n) s);
  g_then : forall f c cm z b D F s, mode cm b F s -> Inv cm z b D F s -> fin (G cm z b D F s) (exec fl (TThen f c) s);
  g_run : forall cm z b D F s, busy s = false -> jmode cm b F -> Inv cm z b D F s -> fin (G cm z b D F s) (exec fl TRun s);
  g_drain : forall cm z b D F s, busy s = true -> jmode cm b F -> Inv cm z b D F s -> fin (G cm z b D F s) (exec fl TDrain s);
  g_job : forall j cm z b D F s, busy s = true -> jmode cm b F -> Inv cm z b D F s -> fin (G cm z b D F s) (exec fl (TJob j) s);
  g_notify : forall cm s, (busy s = false -> cm = true) -> Ready cm s ->
    forall z b, fin (G cm z b all none s) (exec fl TNotify s);
  g_slots : forall i cm b s, (if busy s then b = false else b = true /\ cm = true) ->
    Inv cm true b (fun j => j < i) (fun j => i <= j) s ->
    fin (G cm true b all none s) (exec fl (TSlots i) s) }.

Lemma G_refl : forall cm z b D F s, Inv cm z b D F s -> G cm z b D F s s.
Proof. intros; split; auto. Qed.
Lemma G_from : forall cm z b D F s0 s r, busy s = busy s0 -> fin (G cm z b D F s) r -> fin (G cm z b D F s0) r.
Proof. intros cm z b D F s0 s r E H. eapply fin_impl; eauto. intros x [B1 B2]. split; congruence. Qed.
Lemma mode_eq : forall cm b F s s', busy s' = busy s -> mode cm b F s -> mode cm b F s'.
Proof. unfold mode. intros cm b F s s' -> H. exact H. Qed.
Lemma jmode_mode : forall cm b F s, jmode cm b F -> mode cm b F s.
Proof. unfold mode, jmode. tauto. Qed.

Section Step.
Variable fl : nat.
Hypothesis IH : Mains fl.

Lemma g_bind : forall cm z b D F s0 s r k, busy s = busy s0 ->
  fin (G cm z b D F s) r -> (forall f s1, busy s1 = busy s0 -> Inv cm z b D F s1 -> fin (G cm z b D F s0) (k f s1)) ->
  fin (G cm z b D F s0) (andthen r k).
Proof.
  intros cm z b D F s0 s r k E H HK. eapply fin_andthen; [exact H| |].
  - intros x [B1 B2]. split; congruence.
  - intros f x [B1 B2]. apply HK; auto. congruence.
Qed.

Ltac isame := match goal with H : Inv _ _ _ _ _ ?s |- _ =>
  solve [apply (Inv_same _ _ _ _ _ s); [repeat split|reflexivity|exact H]] end.

Lemma notify_any : forall cm z b D F s, cm = true \/ (forall i, ~ F i) -> (busy s = false -> cm = true) ->
  Inv cm z b D F s -> fin (G cm z b D F s) (exec fl TNotify (send_down s)).
Proof.
  intros cm z b D F s Hc Hb H. destruct (Inv_send _ _ _ _ _ _ H) as [[N1 N2]|[N1 N2]].
  - eapply fin_impl; [apply (g_notify _ IH cm (send_down s)) with (z := z) (b := b); auto|].
    + rewrite send_down_busy. exact Hb.
    + intros s' [B1 B2]. split; [rewrite B1; apply send_down_busy|].
      eapply Inv_weak; eauto.
  - rewrite N2. clear IH. destruct fl as [|f]; [exact Logic.I|]. cbn [StoreModel.exec].
    rewrite (v_nn _ _ _ _ _ _ H). simpl. split; auto.
Qed.

Lemma prog_case : forall p cm z b D F s, mode cm b F s -> Inv cm z b D F s ->
  fin (G cm z b D F s) (exec (S fl) (TProg p) s).
Proof.
  intros p cm z b D F s Hm H. cbn [StoreModel.exec].
  pose proof (arrive_Inv _ _ _ _ _ _ H) as H'. pose proof (arrive_busy s) as HB.
  apply (G_from _ _ _ _ _ s (arrive s)); auto. apply (mode_eq _ _ _ _ _ HB) in Hm.
  revert Hm H'. generalize (arrive s). clear s H HB. intros s Hm H.
  assert (GP : forall p s', busy s' = busy s -> Inv cm z b D F s' -> fin (G cm z b D F s) (exec fl (TProg p) s')).
  { intros p' s' E H0. apply (G_from _ _ _ _ _ s s'); auto. apply (g_prog _ IH); auto. eapply mode_eq; eauto. }
  destruct p.
  - simpl. split; auto.
  - simpl. split; auto.
  - apply GP; auto.
  - apply GP; auto.
  - apply GP; auto. isame.
  - apply GP; auto. now apply Inv_emit.
  - destruct (new_dispatch futures a s) as [[s1 f] j] eqn:E.
    destruct (new_dispatch_same _ _ _ _ _ E) as (S1 & L & B).
    assert (H1 : Inv cm z b D F s1) by (eapply Inv_plain; [exact S1| |exact L|exact H]; exact Logic.I).
    eapply g_bind; [exact B|apply (g_post _ IH); eauto; eapply mode_eq; eauto|].
    intros. apply GP; auto.
  - eapply g_bind; [reflexivity|apply (g_then _ IH); eauto|]. intros. apply GP; auto.
  - eapply g_bind; [reflexivity|apply (g_post _ IH); eauto|]. intros. apply GP; auto.
  - apply GP; auto. apply Inv_emit; [exact Logic.I|]. isame.
  - destruct (nth_error (heap s) n) as [[[| | |] d l c]|]; try exact Logic.I.
    eapply g_bind; [reflexivity|apply (g_fulfil _ IH); eauto|]. intros. apply GP; auto.
  - assert (X : fin (G true z b D F (emit ECommit s)) (exec fl TNotify (send_down (emit ECommit s)))).
    { apply notify_any; auto. eapply Inv_commit; eauto. }
    assert (X' : fin (G cm z b D F s) (exec fl TNotify (send_down (emit ECommit s)))).
    { eapply fin_impl; eauto. intros s' [B1 [V1 V2 V3 V4 V5 V6]]. split; [exact B1|]. split; auto. }
    eapply g_bind; [reflexivity|exact X'|]. intros. apply GP; auto.
  - apply GP; auto. now apply Inv_conn.
  - destruct (nth_error (slots s) i) as [[w|]|]; apply GP; auto. now apply Inv_disc.
  - destruct (manual || busy s) eqn:E; [exact Logic.I|]. apply orb_false_iff in E. destruct E as [E1 E2].
    eapply g_bind; [reflexivity|apply (g_run _ IH); eauto|intros; apply GP; auto].
    destruct Hm as [Hm|Hm]; [congruence|exact Hm].
  - pose proof (g_prog _ IH p cm z b D F s Hm H) as X.
    destruct (exec fl (TProg p) s) as [f s1|s1| | |]; try exact Logic.I; destruct X as [X1 X2]; apply GP; auto.
Qed.

Lemma post_case : forall j cm z b D F s, mode cm b F s -> Inv cm z b D F s ->
  fin (G cm z b D F s) (exec (S fl) (TPost j) s).
Proof.
  intros j cm z b D F s Hm H. cbn [StoreModel.exec].
  assert (H1 : Inv cm z b D F (push_job j s)) by (isame).
  destruct (manual && negb (busy s)) eqn:E; [|simpl; split; auto].
  apply andb_true_iff in E. destruct E as [_ E]. apply negb_true_iff in E.
  apply (G_from _ _ _ _ _ s (push_job j s)); auto. apply (g_run _ IH); auto.
  destruct Hm as [Hm|Hm]; [congruence|exact Hm].
Qed.

Lemma fulfil_case : forall n cm z b D F s, mode cm b F s -> Inv cm z b D F s ->
  fin (G cm z b D F s) (exec (S fl) (TFulfil n) s).
Proof.
  intros n cm z b D F s Hm H. cbn [StoreModel.exec].
  assert (HU : forall c s', Inv cm z b D F s' -> Inv cm z b D F (upd_cell n c s'))
    by (intros; isame).
  destruct (nth_error (heap s) n) as [[k [|] [|] [j|]]|]; try exact Logic.I;
    try (split; [reflexivity|auto]; fail).
  - set (s1 := emit (EDone n) (upd_cell n (Cell k false true None) s)).
    assert (X : fin (G cm z b D F s1) (exec fl (TPost j) s1)).
    { apply (g_post _ IH); [exact Hm|]. apply Inv_emit; [exact Logic.I|auto]. }
    destruct (exec fl (TPost j) s1) as [f s2|s2| | |]; try exact Logic.I; destruct X as [X1 X2]; split; auto.
  - split; [reflexivity|]. apply Inv_emit; [exact Logic.I|auto].
Qed.

Lemma then_case : forall f c cm z b D F s, mode cm b F s -> Inv cm z b D F s ->
  fin (G cm z b D F s) (exec (S fl) (TThen f c) s).
Proof.
  intros [f|] c cm z b D F s Hm H; cbn [StoreModel.exec].
  2:{ destruct c; [apply (g_prog _ IH)|apply (g_fulfil _ IH)]; auto. }
  destruct (nth_error (heap s) f) as [[k d [|] [j|]]|]; try exact Logic.I.
  assert (HU : forall c s', Inv cm z b D F s' -> Inv cm z b D F (upd_cell f c s'))
    by (intros; isame).
  set (s1 := emit _ _).
  assert (H1 : Inv cm z b D F s1).
  { apply Inv_emit; [destruct c; exact Logic.I|]. isame. }
  destruct d; [|split; [reflexivity|auto]].
  assert (X : fin (G cm z b D F s) (exec fl (TPost (JCb f c (length (heap s)))) (upd_cell f (Cell k true true None) s1))).
  { apply (G_from _ _ _ _ _ s (upd_cell f (Cell k true true None) s1)); [reflexivity|].
    apply (g_post _ IH); [exact Hm|auto]. }
  destruct (exec fl (TPost (JCb f c (length (heap s)))) (upd_cell f (Cell k true true None) s1)) as [f' s2|s2| | |];
    try exact Logic.I; destruct X as [X1 X2]; split; auto.
Qed.

Lemma run_case : forall cm z b D F s, busy s = false -> jmode cm b F -> Inv cm z b D F s ->
  fin (G cm z b D F s) (exec (S fl) TRun s).
Proof.
  intros cm z b D F s B Hm H. cbn [StoreModel.exec].
  assert (X : fin (G cm z b D F (set_busy true s)) (exec fl TDrain (set_busy true s))).
  { apply (g_drain _ IH); auto. isame. }
  destruct (exec fl TDrain (set_busy true s)) as [f s1|s1| | |]; try exact Logic.I; destruct X as [X1 X2];
    (split; [auto|]; isame).
Qed.

Lemma drain_case : forall cm z b D F s, busy s = true -> jmode cm b F -> Inv cm z b D F s ->
  fin (G cm z b D F s) (exec (S fl) TDrain s).
Proof.
  intros cm z b D F s B Hm H. cbn [StoreModel.exec].
  pose proof (arrive_Inv _ _ _ _ _ _ H) as H'. pose proof (arrive_busy s) as HB.
  apply (G_from _ _ _ _ _ s (arrive s)); auto. rewrite B in HB.
  revert HB H'. generalize (arrive s). clear s H B. intros s B H.
  destruct (q s) as [|j r]; [simpl; split; auto|].
  eapply (g_bind _ _ _ _ _ s s); [reflexivity| |].
  - assert (X : fin (G cm z b D F s) (exec fl (TJob j) (set_q r s))).
    { apply (G_from _ _ _ _ _ s (set_q r s)); auto. apply (g_job _ IH); auto.
      isame. }
    destruct (exec fl (TJob j) (set_q r s)) as [f s1|s1| | |]; auto. destruct X as [X1 X2].
    split; auto. apply Inv_emit; auto. exact Logic.I.
  - intros f s1 B1 H1. apply (G_from _ _ _ _ _ s s1); auto. apply (g_drain _ IH); auto. congruence.
Qed.

Lemma job_case : forall j cm z b D F s, busy s = true -> jmode cm b F -> Inv cm z b D F s ->
  fin (G cm z b D F s) (exec (S fl) (TJob j) s).
Proof.
  intros j cm z b D F s B Hm H. cbn [StoreModel.exec]. destruct j as [id p a|id p e|id p|p|f c n].
  - destruct (reducer (cur s) a) as [[m [e|]]|]; [| |split; [reflexivity|]; now apply Inv_emit].
    + destruct (post_busy M A W reducer eqb trans futures manual ext fl (emit (ERed id m true) s)
        (JEffect id p e) B) as [-> | ->]; [exact Logic.I|].
      simpl. split; [rewrite push_down_busy; reflexivity|]. eapply Inv_reduce with (s := s); eauto; [repeat split|].
      left. reflexivity.
    + destruct trans.
      * destruct p as [n|].
        -- pose proof (fulfil_busy M A W reducer eqb true futures manual ext fl n (emit (ERed id m false) s) B) as X.
           destruct (StoreModel.exec reducer eqb true futures manual ext fl (TFulfil n) (emit (ERed id m false) s))
             as [f s1|s1| | |]; try exact Logic.I; [|destruct X]. destruct X as [-> ->].
           simpl. split; [rewrite push_down_busy; unfold fulfil_now; simpl;
             destruct (nth_error (heap s) n) as [[k [|] [|] [j|]]|]; reflexivity|].
           eapply Inv_reduce with (s := s) (id := id) (e := false); eauto.
           ++ unfold fulfil_now. simpl. destruct (nth_error (heap s) n) as [[k [|] [|] [j|]]|]; repeat split.
           ++ unfold fulfil_now. simpl. destruct (nth_error (heap s) n) as [[k [|] [|] [j|]]|]; auto;
                right; exists (EDone n); split; auto; exact Logic.I.
        -- simpl. split; [rewrite push_down_busy; reflexivity|]. eapply Inv_reduce with (s := s); eauto; [repeat split|].
           left. reflexivity.
      * destruct (post_busy M A W reducer eqb false futures manual ext fl (emit (ERed id m false) s)
          (JNotify id p) B) as [-> | ->]; [exact Logic.I|].
        simpl. split; [rewrite push_down_busy; reflexivity|]. eapply Inv_reduce with (s := s); eauto; [repeat split|].
        left. reflexivity.
  - assert (H0 : Inv cm z b D F (emit (EBegin id e) s)) by (apply Inv_emit; auto; exact Logic.I).
    eapply (g_bind _ _ _ _ _ s s); [reflexivity| |].
    + destruct trans eqn:ET.
      * split; auto.
      * assert (X : fin (G cm z b D F s) (exec fl TNotify (send_down (emit (EBegin id e) s)))).
        { apply (G_from _ _ _ _ _ s (emit (EBegin id e) s)); auto. apply notify_any; auto.
          - apply Hm.
          - intros E. simpl in E. congruence. }
        rewrite ET in X.
        match goal with |- context [on_throw ?e _] => destruct e as [f s1|s1| | |] end; auto.
        destruct X as [X1 X2]. split; auto. apply Inv_emit; auto. exact Logic.I.
    + intros f s1 B1 H1.
      assert (H2 : Inv cm z b D F (emit (EEff id (last s1) e) s1)).
      { destruct H1 as [V1 V2 V3 V4 V5 V6]. split; simpl; auto.
        - intros NF i w Hi HD. simpl in *. apply nf_tl in NF. eapply V2; eauto.
          destruct HD as [HD|[HD1 HD2]]; auto. right. split; auto. now apply nc_tl in HD2.
        - split; auto. intros _ NF NC i m' Hk. destruct (V3 _ _ Hk) as (w & Hw).
          rewrite (V2 NF _ _ Hw) in Hk; [congruence|]. right. split; auto. apply Hm.
        - apply (Pos_log z F s1); auto; simpl; apply nc_tl. }
      eapply (g_bind _ _ _ _ _ s (emit (EEff id (last s1) e) s1)); [exact B1| |].
      * apply (g_prog _ IH); auto. apply jmode_mode; auto.
      * intros f1 s2 B2 H3. assert (H4 : Inv cm z b D F (emit (EEffEnd id f1) s2)) by (apply Inv_emit; auto; exact Logic.I).
        destruct p as [n|]; [|split; auto].
        apply (G_from _ _ _ _ _ s (emit (EEffEnd id f1) s2)); auto. apply (g_then _ IH); auto. apply jmode_mode; auto.
  - eapply (g_bind _ _ _ _ _ s s); [reflexivity| |].
    + apply notify_any; auto; [apply Hm|congruence].
    + intros f s1 B1 H1. assert (H2 : Inv cm z b D F (emit (ETold id) s1)) by (apply Inv_emit; auto; exact Logic.I).
      destruct p as [n|]; [|split; auto].
      apply (G_from _ _ _ _ _ s (emit (ETold id) s1)); auto. apply (g_fulfil _ IH); auto. apply jmode_mode; auto.
  - apply (g_prog _ IH); auto. apply jmode_mode; auto.
  - destruct c as [c|m].
    + eapply (g_bind _ _ _ _ _ s (emit (ECb n c) s)); [reflexivity| |].
      * apply (g_prog _ IH); [apply jmode_mode; auto|]. apply Inv_emit; auto. exact Logic.I.
      * intros f1 s1 B1 H1. apply (G_from _ _ _ _ _ s (emit (ECbEnd n f1) s1)); auto.
        apply (g_then _ IH); [apply jmode_mode; auto|]. apply Inv_emit; auto. exact Logic.I.
    + eapply (g_bind _ _ _ _ _ s s); [reflexivity|apply (g_fulfil _ IH); auto; apply jmode_mode; auto|].
      intros f1 s1 B1 H1. apply (G_from _ _ _ _ _ s s1); auto.
      apply (g_fulfil _ IH); auto. apply jmode_mode; auto.
Qed.

Lemma notify_case : forall cm s, (busy s = false -> cm = true) -> Ready cm s ->
  forall z b, fin (G cm z b all none s) (exec (S fl) TNotify s).
Proof.
  intros cm s Hb H z b. cbn [StoreModel.exec]. rewrite (r_nn _ _ H), (r_nsd _ _ H). simpl.
  set (b0 := negb (busy s)).
  assert (X : fin (G cm true b0 all none (set_nn false s)) (exec fl (TSlots 0) (set_nn false s))).
  { apply (g_slots _ IH).
    - simpl. unfold b0. destruct (busy s); auto.
    - apply Ready_Inv; auto. unfold b0. destruct (busy s); auto. }
  eapply fin_impl; eauto. intros s' [X1 X2]. split; auto. eapply Inv_weak; eauto.
Qed.

Lemma slots_case : forall i cm b s, (if busy s then b = false else b = true /\ cm = true) ->
  Inv cm true b (fun j => j < i) (fun j => i <= j) s -> fin (G cm true b all none s) (exec (S fl) (TSlots i) s).
Proof.
  intros i cm b s Hb H. cbn [StoreModel.exec]. destruct (nth_error (slots s) i) as [[w|]|] eqn:E.
  - pose proof (Inv_see _ _ _ _ _ E H) as H1.
    set (D1 := fun j => j < S i) in *. set (F1 := fun j => S i <= j) in *.
    assert (Hm : mode cm b F1 s) by (unfold mode; destruct (busy s); [left|right]; tauto).
    assert (X : fin (G cm true b D1 F1 s) (exec fl (TProg (w (last s))) (emit (ESee i (last s)) s))).
    { apply (G_from _ _ _ _ _ s (emit (ESee i (last s)) s)); auto. apply (g_prog _ IH); auto. }
    assert (WK : forall s', Inv cm true b D1 F1 s' -> In EFail (log s') -> Inv cm true b all none s').
    { intros s' [V1 V2 V3 V4 V5 V6] HF. split; auto.
      - intros NF. now elim NF.
      - eapply Pos_weak; eauto. intros _ j []. }
    destruct (exec fl (TProg (w (last s))) (emit (ESee i (last s)) s)) as [f s1|s1| | |]; simpl in *; auto;
      destruct X as [X1 X2].
    + apply (G_from _ _ _ _ _ s s1); auto. apply (g_slots _ IH); auto. now rewrite X1.
    + split; auto. apply WK; [apply Inv_emit; auto; exact Logic.I|now left].
  - pose proof (Inv_skip _ _ _ _ _ E H) as H1. apply (g_slots _ IH); auto.
  - split; auto. eapply Inv_end; eauto.
Qed.

Lemma step_case : Mains (S fl).
Proof.
  split; auto using prog_case, post_case, fulfil_case, then_case, run_case, drain_case, job_case, slots_case.
  intros. now apply notify_case.
Qed.
End Step.

Lemma mains : forall fl, Mains fl.
Proof. induction fl; [split; intros; exact Logic.I|now apply step_case]. Qed.

Lemma init_Inv : forall w, Inv false false true all none (init m0 w).
Proof.
  intros w. split; simpl; auto.
  - intros _ i w' Hi. destruct i; discriminate.
  - intros i m Hi. discriminate.
  - exists [], []. simpl. repeat (split; auto; try discriminate). all: constructor.
  - discriminate.
Qed.
Lemma run_Inv : forall fuel w p s,
  finished (run reducer eqb trans futures manual ext fuel m0 w p) s -> Inv false false true all none s.
Proof.
  intros fuel w p s H. unfold run in H.
  assert (X : fin (G false false true all none (init m0 w)) (exec fuel (TProg p) (init m0 w))).
  { apply (g_prog _ (mains fuel)); [right; split; [reflexivity|right; intros i []]|apply init_Inv]. }
  destruct H as [[f H]|H]; rewrite H in X; apply X.
Qed.

End Told.
