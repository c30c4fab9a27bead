(** Writing to a cursor writes to the states as the specification says. *)
From Coq Require Import List Arith Bool Lia Permutation.
From Verif Require Import NodesModel NodesSpec NodesBase NodesInv NodesExec NodesEv
                          NodesRoots NodesNotify NodesTold NodesCount NodesFacts NodesWrite NodesApi
                          WithModel WithSpec WithProofs.
Import ListNotations.

Section Writes.
Context {V W : Type}.
Variable dv : V.
Variable changed : V -> V -> bool.
Hypothesis changed_sound : forall a b, changed a b = false -> a = b.
Variable ordV : graph V W -> nat -> list (nat * V) -> list (nat * V).
Hypothesis ordV_perm : forall g n l, Permutation l (ordV g n l).
Variable ordN : graph V W -> nat -> list nat -> list nat.
Hypothesis ordN_perm : forall g n l, Permutation l (ordN g n l).

Set Default Proof Using "Type".
Implicit Types g : graph V W.
Implicit Types s : st V W.

Notation ev := (ev changed ordV ordN).
Notation exec := (exec changed ordV ordN).
Notation reach := (reach dv changed ordN).

(** ** Equal kinds and parents *)
Definition alike g g' : Prop :=
  (forall m, kind_of g' m = kind_of g m) /\ (forall m, parents g' m = parents g m).
Lemma alike_ss : forall g g', same_struct g g' -> alike g g'.
Proof. intros g g' H. split; apply H. Qed.
Lemma alike_trans : forall a b c, alike a b -> alike b c -> alike a c.
Proof. intros a b c [A1 A2] [B1 B2]. split; intros; congruence. Qed.
Lemma alike_sym : forall a b, alike a b -> alike b a.
Proof. intros a b [A1 A2]. split; intros; congruence. Qed.
Lemma source_alike : forall g g' a n, alike g g' -> source g' a n -> source g a n.
Proof.
  intros g g' a n [_ A] H. induction H as [|a p n H IH HI]; [constructor|].
  rewrite A in HI. econstructor; eauto.
Qed.
Lemma writable_alike : forall g g' n, alike g g' -> writable g n -> writable g' n.
Proof.
  intros g g' n A H m S. rewrite (proj1 A). apply H. eapply source_alike; eauto.
Qed.
Lemma writable_parent : forall g n p, writable g n -> In p (parents g n) -> writable g p.
Proof. intros g n p H HI m S. apply H. econstructor; eauto. Qed.

Lemma value_ext : forall g g' env env', alike g g' ->
  (forall r a, kind_of g r = KState a -> env' r = env r) ->
  forall n v, value_of g env n v -> value_of g' env' n v.
Proof.
  intros g g' env env' [A1 A2] HE. fix IH 3. intros n v H. destruct H as [r a K|n down up vs v K F D].
  - rewrite <- (HE r a K). apply val_state with a. now rewrite A1.
  - eapply val_inner; [rewrite A1; exact K| |exact D]. rewrite A2.
    clear -IH F. induction F; constructor; auto.
Qed.
Lemma puts_ext : forall g env t ws, puts g env t ws -> forall g' env', alike g g' ->
  (forall r a, kind_of g r = KState a -> env' r = env r) -> puts g' env' t ws.
Proof.
  intros g env t ws H.
  induction H as [env|env env1 r v t ws K E H IH|env n v t down rf up vs ls ws K F FL H IH];
    intros g' env' A HE.
  - constructor.
  - eapply (puts_state g' env' (fun m => if m =? r then v else env' m)); auto.
    + now rewrite (proj1 A).
    + apply IH; auto. intros q a Kq. rewrite E. destruct (q =? r); eauto.
  - eapply (puts_inner g' env' n v t down rf up vs ls); auto.
    + now rewrite (proj1 A).
    + rewrite (proj2 A). clear -F A HE. induction F; constructor; auto. eapply value_ext; eauto.
    + now rewrite (proj2 A).
Qed.

Lemma value_total : forall g env, par_lt g -> forall n, writable g n -> exists v, value_of g env n v.
Proof.
  intros g env PL n. induction n as [n IH] using lt_wf_ind. intros HW.
  pose proof (HW n (source_refl _ n)) as K.
  destruct (kind_of g n) as [[]| | | |down [|rf up]| |] eqn:Kn; try contradiction.
  - exists (env n). now apply val_state with false.
  - assert (Q : exists vs, Forall2 (value_of g env) (parents g n) vs).
    { assert (Q : forall ps, incl ps (parents g n) -> exists vs, Forall2 (value_of g env) ps vs).
      { induction ps as [|p ps IHp]; intros HI; [exists []; constructor|].
        destruct IHp as [vs F]; [intros x Hx; apply HI; now right|].
        assert (Hp : In p (parents g n)) by (apply HI; now left).
        destruct (IH p (PL _ _ Hp) (writable_parent _ _ _ HW Hp)) as [v Hv].
        exists (v :: vs). now constructor. }
      apply Q, incl_refl. }
    destruct Q as [vs F]. destruct (down vs) as [v|] eqn:D.
    + exists v. eapply val_inner; eauto.
    + exfalso. destruct K as [K _]. now apply (K vs).
Qed.

(** ** refresh() *)
Definition right g0 (env : nat -> V) g m : Prop := forall v, value_of g0 env m v -> cur g m = v.
Definition okay g0 (env : nat -> V) g : Prop :=
  alike g0 g /\ forall r a, kind_of g0 r = KState a -> cur g r = env r.

Lemma okay_refresh : forall g0 env g f n, okay g0 env g -> okay g0 env (refresh changed ordN f n g).
Proof.
  intros g0 env g f n [A HE]. pose proof (fr_refresh changed ordN f n g) as FR. split.
  - eapply alike_trans; [exact A|]. apply alike_ss. apply FR.
  - intros r a K. destruct (fr_noninner _ _ FR r) as [E _]; [|rewrite E; eauto].
    rewrite (proj1 A), K. exact I.
Qed.

Lemma refresh_right : forall g0 env, par_lt g0 -> forall fuel n g, okay g0 env g -> n < fuel ->
  right g0 env (refresh changed ordN fuel n g) n /\
  forall m, right g0 env g m -> right g0 env (refresh changed ordN fuel n g) m.
Proof using changed_sound ordN_perm.
  intros g0 env PL. induction fuel as [|f IH]; intros n g OK L; [lia|].
  assert (FO : forall ps, (forall p, In p ps -> p < n) -> forall a, okay g0 env a ->
    let b := fold_left (fun g0 p => refresh changed ordN f p g0) ps a in
    okay g0 env b /\ (forall p, In p ps -> right g0 env b p) /\
    forall m, right g0 env a m -> right g0 env b m).
  { induction ps as [|p ps IHp]; intros HL a OKa; cbn [fold_left].
    - split; auto. split; auto. intros p [].
    - assert (Lp : p < f) by (specialize (HL p (or_introl eq_refl)); lia).
      destruct (IH p a OKa Lp) as [R1 R2].
      destruct (IHp (fun q Hq => HL q (or_intror Hq)) _ (okay_refresh g0 env a f p OKa)) as (Q1 & Q2 & Q3).
      split; auto. split; [|auto]. intros q [<-|Hq]; auto. }
  destruct OK as [A HE]. cbn [refresh]. rewrite (proj1 A).
  assert (ROOT : forall a, kind_of g0 n = KState a -> right g0 env g n).
  { intros a K v H. inversion H; subst; try congruence. eauto. }
  assert (NOV : (forall a, kind_of g0 n <> KState a) -> (forall down up, kind_of g0 n <> KInner down up) ->
                forall g', right g0 env g' n).
  { intros N1 N2 g' v H. inversion H; subst; [exfalso; eapply N1; eauto|exfalso; eapply N2; eauto]. }
  destruct (FO (ordN g n (parents g n))) with (a := g) as (Q1 & Q2 & Q3).
  { intros p Hp. apply (Permutation_in _ (Permutation_sym (ordN_perm _ _ _))) in Hp.
    rewrite (proj2 A) in Hp. now apply PL. }
  { split; auto. }
  set (b := fold_left (fun g0 p => refresh changed ordN f p g0) (ordN g n (parents g n)) g) in *.
  destruct (kind_of g0 n) as [a| | | |down up|stp up|] eqn:K;
    try (split; [solve [eauto | apply NOV; intros; congruence]|solve [auto]]).
  - (* KInner *)
    assert (RN : right g0 env (recompute changed n b) n).
    { intros v H. inversion H as [|? down1 up1 vs ? K1 F D]; subst; [congruence|].
      rewrite K in K1. injection K1 as <- <-.
      assert (EV : current_from b (parents b n) = vs).
      { rewrite (proj2 (proj1 Q1)). unfold current_from.
        assert (IN : forall p, In p (parents g0 n) -> right g0 env b p).
        { intros p Hp. apply Q2. eapply Permutation_in; [apply ordN_perm|]. now rewrite (proj2 A). }
        clearbody b. clear -F IN. induction F as [|p v ps vs Hv F IHF]; simpl; auto.
        f_equal; [apply IN; simpl; auto|apply IHF; intros; apply IN; simpl; auto]. }
      unfold recompute. rewrite (proj1 (proj1 Q1)), K, EV, D. now apply NodesWrite.push_down_cur. }
    split; auto. intros m Hm. destruct (Nat.eq_dec m n) as [->|N]; auto.
    intros v H. rewrite (fc_cur _ _ _ (fc_recompute changed n b) m N). now apply Q3.
  - (* KXform *)
    split; [apply NOV; intros; congruence|]. intros m Hm v H.
    destruct (Nat.eq_dec m n) as [->|N]; [inversion H; subst; congruence|].
    rewrite (fc_cur _ _ _ (fc_recompute changed n b) m N). now apply Q3.
Qed.

Lemma logged_app : forall (a b : list (nat * V)), @logged V W (a ++ b) = logged b ++ logged a.
Proof. intros. unfold logged. now rewrite map_app, rev_app_distr. Qed.

(** ** send_up *)
Definition puts_of (t : task V W) s b s' : Prop :=
  match t with
  | TSend n v => writable (gr s) n ->
      b = true /\ alike (gr s) (gr s') /\ exists ws, log s' = logged ws ++ log s /\
      forall t ws', puts (gr s) (cur (gr s')) t ws' -> puts (gr s) (cur (gr s)) ((n, v) :: t) (ws ++ ws')
  | TPushAll n ts => (forall p, In p (parents (gr s) n) -> writable (gr s) p) ->
      b = true /\ alike (gr s) (gr s') /\ exists ws ls, log s' = logged ws ++ log s /\
      Forall2 (fun o l => Permutation (combine (parents (gr s) n) o) l) ts ls /\
      forall t ws', puts (gr s) (cur (gr s')) t ws' -> puts (gr s) (cur (gr s)) (concat ls ++ t) (ws ++ ws')
  | TPush l => (forall p v, In (p, v) l -> writable (gr s) p) ->
      b = true /\ alike (gr s) (gr s') /\ exists ws, log s' = logged ws ++ log s /\
      forall t ws', puts (gr s) (cur (gr s')) t ws' -> puts (gr s) (cur (gr s)) (l ++ t) (ws ++ ws')
  | _ => True
  end.

Lemma ev_puts : forall t s b s', ev t s b s' -> par_lt (gr s) -> puts_of t s b s'.
Proof using changed_sound ordV_perm ordN_perm.
  intros t s b s' H. induction H; intros PL; simpl; auto.
  - (* transactional state *)
    intros _. split; auto. split.
    { simpl. apply alike_ss, (fc_ss _ _ _ (fc_push_down changed n v (gr s))). }
    exists [(n, v)]. split; [reflexivity|]. intros t ws' HP. simpl.
    eapply puts_state; [exact H| |exact HP]. intros m.
    destruct (Nat.eqb_spec m n) as [->|N].
    + simpl. now apply NodesWrite.push_down_cur.
    + simpl. apply (fc_cur _ _ _ (fc_push_down changed n v (gr s)) m N).
  - intros HW. specialize (HW n (source_refl _ n)). now rewrite H in HW.
  - intros HW. specialize (HW n (source_refl _ n)). now rewrite H in HW.
  - intros HW. specialize (HW n (source_refl _ n)). now rewrite H in HW.
  - intros HW. specialize (HW n (source_refl _ n)). now rewrite H in HW.
  - (* inner *)
    intros HW. set (s0 := refreshed changed ordN rf n s) in *.
    pose proof (HW n (source_refl _ n)) as K.
    destruct (kind_of (gr s) n) as [[]| | | |down [|rf1 up1]| |] eqn:Kn; try contradiction; simpl in H; try discriminate.
    injection H as -> ->.
    assert (OK0 : okay (gr s) (cur (gr s)) (gr s)) by (split; auto; split; auto).
    assert (OK : okay (gr s) (cur (gr s)) (gr s0)).
    { unfold s0, refreshed. destruct rf; auto. now apply okay_refresh. }
    destruct OK as [A HE].
    assert (PL0 : par_lt (gr s0)) by (intros q p Hp; rewrite (proj2 A) in Hp; auto).
    specialize (IHev PL0). simpl in IHev. destruct IHev as (-> & A1 & ws & ls & EL & FL & HP).
    { intros p Hp. rewrite (proj2 A) in Hp. eapply writable_alike; [exact A|]. eapply writable_parent; eauto. }
    split; auto. split; [eapply alike_trans; eauto|]. exists ws.
    split. { rewrite EL. unfold s0, refreshed. now destruct rf. }
    intros t ws' HQ.
    assert (QV : exists vs, Forall2 (value_of (gr s) (cur (gr s))) (parents (gr s) n) vs /\
              up (current_from (gr s0) (parents (gr s0) n)) v = up vs v).
    { destruct (value_total (gr s) (cur (gr s)) PL n HW) as [x Hx].
      inversion Hx as [|? down1 up1 vs ? K1 F D]; subst; [congruence|].
      exists vs. split; auto. destruct K as [_ [->|K]]; [|apply K].
      f_equal. rewrite (proj2 A). unfold current_from.
      unfold s0, refreshed. cbn [gr with_gr].
      cbn [refresh]. rewrite Kn.
      assert (FO : forall ps, (forall p, In p ps -> p < n) -> forall a, okay (gr s) (cur (gr s)) a ->
        let b := fold_left (fun g0 p => refresh changed ordN n p g0) ps a in
        okay (gr s) (cur (gr s)) b /\ (forall p, In p ps -> right (gr s) (cur (gr s)) b p) /\
        forall m, right (gr s) (cur (gr s)) a m -> right (gr s) (cur (gr s)) b m).
      { induction ps as [|p ps IHp]; intros HL a OKa; cbn [fold_left].
        - split; auto. split; auto. intros p [].
        - destruct (refresh_right (gr s) (cur (gr s)) PL n p a OKa (HL p (or_introl eq_refl))) as [R1 R2].
          destruct (IHp (fun q Hq => HL q (or_intror Hq)) _ (okay_refresh _ _ a n p OKa)) as (Q1 & Q2 & Q3).
          split; auto. split; [|auto]. intros q [<-|Hq]; auto. }
      destruct (FO (ordN (gr s) n (parents (gr s) n))) with (a := gr s) as (Q1 & Q2 & Q3); auto.
      { intros p Hp. apply (Permutation_in _ (Permutation_sym (ordN_perm _ _ _))) in Hp. now apply PL. }
      set (b := fold_left (fun g0 p => refresh changed ordN n p g0) (ordN (gr s) n (parents (gr s) n)) (gr s)) in *.
      assert (IN : forall p, In p (parents (gr s) n) -> right (gr s) (cur (gr s)) (recompute changed n b) p).
      { intros p Hp w Hw. rewrite (fc_cur _ _ _ (fc_recompute changed n b) p).
        - apply Q2; auto. eapply Permutation_in; [apply ordN_perm|]. auto.
        - specialize (PL _ _ Hp). lia. }
      clearbody b. clear -F IN. induction F as [|p w ps vs Hv F IHF]; simpl; auto.
      f_equal; [apply IN; simpl; auto|apply IHF; intros; apply IN; simpl; auto]. }
    destruct QV as (vs & F & EU). rewrite EU in FL. rewrite (proj2 A) in FL.
    eapply (puts_inner (gr s) (cur (gr s)) n v t down rf up vs ls); eauto.
    apply (puts_ext (gr s0) (cur (gr s0))).
    + apply HP. apply (puts_ext (gr s) (cur (gr s1))); auto.
    + now apply alike_sym.
    + intros r a Kr. rewrite (proj1 A) in Kr. symmetry. eauto.
  - (* pushall nil *)
    intros _. split; auto. split; [split; auto|]. exists [], []. split; auto.
  - (* pushall cons *)
    intros HW. specialize (IHev1 PL). simpl in IHev1. destruct IHev1 as (_ & A1 & ws1 & E1 & P1).
    { intros p v Hp. apply (Permutation_in _ (Permutation_sym (ordV_perm _ _ _))) in Hp.
      apply in_combine_l in Hp. auto. }
    assert (PL1 : par_lt (gr s1)) by (intros q p Hp; rewrite (proj2 A1) in Hp; auto).
    specialize (IHev2 PL1). simpl in IHev2. destruct IHev2 as (-> & A2 & ws2 & ls & E2 & F2 & P2).
    { intros p Hp. rewrite (proj2 A1) in Hp. eapply writable_alike; eauto. }
    split; auto. split; [eapply alike_trans; eauto|].
    exists (ws1 ++ ws2), (ordV (gr s) n (combine (parents (gr s) n) t) :: ls).
    split; [rewrite E2, E1, logged_app, app_assoc; reflexivity|]. split.
    { constructor; auto. rewrite (proj2 A1) in F2. exact F2. }
    intros t0 ws' HP. simpl. rewrite <- !app_assoc. apply P1. 
    apply (puts_ext (gr s1) (cur (gr s1))); [|now apply alike_sym|auto].
    apply P2. apply (puts_ext (gr s) (cur (gr s2))); auto.
  - (* pushall throw *)
    intros HW. specialize (IHev PL). simpl in IHev. destruct IHev as (N & _); [|discriminate].
    intros p v Hp. apply (Permutation_in _ (Permutation_sym (ordV_perm _ _ _))) in Hp.
    apply in_combine_l in Hp. auto.
  - intros _. split; auto. split; [split; auto|]. exists []. split; auto.
  - intros HW. specialize (IHev1 PL). simpl in IHev1. destruct IHev1 as (_ & A1 & ws1 & E1 & P1).
    { eapply HW. now left. }
    assert (PL1 : par_lt (gr s1)) by (intros q x Hp; rewrite (proj2 A1) in Hp; auto).
    specialize (IHev2 PL1). simpl in IHev2. destruct IHev2 as (-> & A2 & ws2 & E2 & P2).
    { intros q x Hq. eapply writable_alike; [exact A1|]. apply (HW q x). now right. }
    split; auto. split; [eapply alike_trans; eauto|].
    exists (ws1 ++ ws2). split; [rewrite E2, E1, logged_app, app_assoc; reflexivity|].
    intros t0 ws' HP. simpl. rewrite <- app_assoc. apply P1.
    apply (puts_ext (gr s1) (cur (gr s1))); [|now apply alike_sym|auto].
    apply P2. apply (puts_ext (gr s) (cur (gr s2))); auto.
  - intros HW. specialize (IHev PL). simpl in IHev. destruct IHev as (N & _); [|discriminate].
    eapply HW. now left.
Qed.

(** ** set() *)
Lemma set_puts : forall w fuel s s' n v env, reach w s -> writable (gr s) n ->
  (forall r a, kind_of (gr s) r = KState a -> written (log s) r = Some (env r)) ->
  exec fuel (TCmd (CSet n v)) s = Done s' \/ exec fuel (TCmd (CSet n v)) s = Thrown s' ->
  exists ws, puts (gr s) env [(n, v)] ws /\ log s' = logged ws ++ log s.
Proof using changed_sound ordV_perm ordN_perm.
  intros w fuel s s' n v env HR HW HE HX.
  destruct (reach_Inv dv changed changed_sound ordN w s HR) as [HI RI].
  destruct (outcome_ev changed ordV ordN _ _ _ _ HX) as (b & HV). inversion HV; subst.
  match goal with X : NodesEv.ev _ _ _ (TSend _ _) _ _ _ |- _ => pose proof (ev_puts _ _ _ _ X) as Q end.
  simpl in Q. destruct Q as (_ & A & ws & EL & HP).
  - apply (wf_par _ (proj1 HI)).
  - eapply writable_alike; [|exact HW]. split; auto.
  - exists ws. split; [|exact EL]. rewrite <- (app_nil_r ws).
    apply (puts_ext (gr (pin n s)) (cur (gr (pin n s)))).
    + apply HP. constructor.
    + split; auto.
    + intros r a K. symmetry.
      eapply (reach_written dv changed changed_sound ordN w s r a); eauto.
Qed.

(** Writing in one order only. *)
Definition linear g n : Prop := forall m, source g m n -> length (parents g m) <= 1.
Lemma perm_short : forall (A : Type) (a b c : list A), length a <= 1 -> Permutation a b -> Permutation a c -> b = c.
Proof.
  intros A [|x [|? ?]] b c L H1 H2; simpl in L; try lia.
  - apply Permutation_nil in H1, H2. congruence.
  - apply Permutation_length_1_inv in H1, H2. congruence.
Qed.
Lemma puts_det : forall g env t ws, puts g env t ws -> (forall n v, In (n, v) t -> linear g n) ->
  forall env' ws', (forall m, env' m = env m) -> puts g env' t ws' -> ws' = ws.
Proof.
  intros g env t ws H.
  induction H as [env|env env1 r v t ws K E H IH|env n v t down rf up vs ls ws K F FL H IH];
    intros HL env' ws' EE H'.
  - now inversion H'.
  - inversion H' as [|? env2 ? ? ? ws2 K2 E2 H2|? ? ? ? ? ? ? ? ? ? K2]; subst; [|congruence].
    f_equal. eapply IH; [| |exact H2].
    + intros n x Hn. eapply HL. right. eauto.
    + intros m. rewrite E, E2, EE. reflexivity.
  - inversion H' as [|? env2 ? ? ? ws2 K2 E2 H2|? ? ? ? down2 rf2 up2 vs2 ls2 ? K2 F2 FL2 H2]; subst; [congruence|].
    rewrite K in K2. injection K2 as <- <- <-.
    assert (vs2 = vs).
    { eapply (values_fun g env'); eauto. clear -F EE. induction F; constructor; auto.
      eapply value_ext; eauto. split; auto. }
    subst vs2.
    assert (LN : linear g n) by (eapply HL; now left).
    assert (ls2 = ls).
    { specialize (LN n (source_refl _ n)). clear -FL FL2 LN. revert ls2 FL2.
      induction FL as [|o l os ls PM FL IH]; intros ls2 FL2; inversion FL2 as [|? l2 ? ls3 PM2 FL3]; subst; auto.
      f_equal; [|auto]. eapply perm_short; [|exact PM2|exact PM]. rewrite combine_length. lia. }
    subst ls2. eapply IH; [|exact EE|exact H2]. intros q x Hq. apply in_app_or in Hq as [Hq|Hq].
    + assert (HP : In q (parents g n)).
      { clear -FL Hq. induction FL as [|o l os ls PM FL IH]; simpl in Hq; [contradiction|].
        apply in_app_or in Hq as [Hq|Hq]; auto.
        apply (Permutation_in _ (Permutation_sym PM)) in Hq. now apply in_combine_l in Hq. }
      intros m Hm. apply LN. econstructor; eauto.
    + eapply HL. right. eauto.
Qed.
End Writes.
