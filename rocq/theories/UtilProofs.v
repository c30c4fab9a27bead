From Coq Require Import List Bool Arith Lia Permutation.
From Verif Require Import UtilModel UtilSpec.
Import ListNotations.

Section Types.
Variable conv : nat -> nat -> option conversion.
Context {value : Type}.
Notation best := (best conv). Notation better := (better conv). Notation viable := (viable conv).
Notation resolve := (resolve conv). Notation wins := (wins conv).

(** ** Lists *)
Lemma in_others : forall A (l : list A) i x,
  In x (others i l) <-> exists j, nth_error l j = Some x /\ j <> i.
Proof.
  intros A l i x. unfold others. rewrite in_app_iff. split.
  - intros [H|H]; apply In_nth_error in H as [j H].
    + assert (L : j < length (firstn i l)) by (apply nth_error_Some; congruence).
      rewrite firstn_length in L. exists j. split; [|lia].
      rewrite <- (firstn_skipn i l). rewrite nth_error_app1; auto. rewrite firstn_length. lia.
    + exists (S i + j). split; [|lia].
      assert (L : S i < length l).
      { destruct (le_lt_dec (length l) (S i)) as [L|L]; auto. rewrite skipn_all2 in H by auto. destruct j; discriminate. }
      rewrite <- (firstn_skipn (S i) l). rewrite nth_error_app2; rewrite firstn_length; [|lia].
      rewrite Nat.min_l by lia. now replace (S i + j - S i) with j by lia.
  - intros [j [H N]]. assert (L : j < length l) by (apply nth_error_Some; congruence).
    destruct (lt_dec j i) as [J|J]; [left|right].
    + apply (nth_error_In _ j). rewrite <- (firstn_skipn i l) in H. rewrite nth_error_app1 in H; auto.
      rewrite firstn_length. lia.
    + apply (nth_error_In _ (j - S i)). rewrite <- (firstn_skipn (S i) l) in H.
      rewrite nth_error_app2 in H; rewrite firstn_length in *; [|lia].
      rewrite Nat.min_l in H by lia. exact H.
Qed.

(** ** The best *)
Lemma more_special_asym : forall n s t, more_special n s t = true -> more_special n t s = true -> False.
Proof.
  intros n [?|l|p] [?|k|q]; cbn; try discriminate; intros A B; apply andb_prop in A as [A1 A2]; apply andb_prop in B as [B1 B2];
    rewrite ?A1, ?B1 in *; discriminate.
Qed.
Lemma better_asym : forall l s t, better l s t = true -> better l t s = true -> False.
Proof.
  intros l s t. unfold UtilModel.better. destruct (ics_of conv s l), (ics_of conv t l); try discriminate.
  intros A B. apply andb_prop in A as [A1 A2]. apply andb_prop in B as [B1 B2].
  apply negb_true_iff in A1. apply negb_true_iff in B1. rewrite B1 in A2. rewrite A1 in B2. cbn [orb] in A2, B2.
  apply orb_prop in A2. apply orb_prop in B2.
  assert (Ms : forall a b, more_special (length l) a b = true -> is_plain a = false).
  { intros [?|?|?] b H; auto. }
  assert (Mt : forall a b, more_special (length l) a b = true -> is_plain b = false).
  { intros [?|?|?] [?|?|?] H; auto; discriminate. }
  destruct A2 as [A2|A2], B2 as [B2|B2].
  - apply andb_prop in A2 as [A _]. apply andb_prop in B2 as [_ B]. rewrite A in B. discriminate.
  - apply andb_prop in A2 as [A _]. apply Mt in B2. congruence.
  - apply andb_prop in B2 as [A _]. apply Mt in A2. congruence.
  - eapply more_special_asym; eauto.
Qed.
Lemma better_viable : forall l s t, better l s t = true -> viable l s = true /\ viable l t = true.
Proof.
  intros l s t. unfold UtilModel.better, UtilModel.viable. destruct (ics_of conv s l), (ics_of conv t l); try discriminate; auto.
Qed.

Lemma wins_best : forall (hs : list (handler value)) l i,
  wins (map takes hs) l i = true <-> exists h, best hs l i h.
Proof.
  intros hs l i. unfold UtilModel.wins, UtilSpec.best. rewrite nth_error_map.
  destruct (nth_error hs i) as [h|] eqn:E; cbn [option_map]; [|split; [discriminate|intros (h & H & _); discriminate]].
  rewrite andb_true_iff, forallb_forall. split.
  - intros [V F]. exists h. split; auto. split; auto. intros j h' Hj N Vj.
    assert (I : In (takes h') (others i (map takes hs))).
    { apply in_others. exists j. split; auto. now rewrite nth_error_map, Hj. }
    apply F in I. rewrite Vj in I. exact I.
  - intros (h0 & H0 & V & F). injection H0 as <-. split; auto. intros s I. apply in_others in I as (j & Hj & N).
    rewrite nth_error_map in Hj. destruct (nth_error hs j) as [h'|] eqn:Ej; [|discriminate]. injection Hj as <-.
    destruct (viable l (takes h')) eqn:Vj; auto. cbn. eapply F; eauto.
Qed.
Lemma best_unique : forall (hs : list (handler value)) l i h j k, best hs l i h -> best hs l j k -> i = j /\ h = k.
Proof.
  intros hs l i h j k (Hi & Vi & Bi) (Hj & Vj & Bj). destruct (Nat.eq_dec j i) as [-> |N]; [split; congruence|].
  exfalso. apply (better_asym l (takes h) (takes k)); eauto.
Qed.
Lemma resolve_best : forall (hs : list (handler value)) l i,
  resolve (map takes hs) l = Some i <-> exists h, best hs l i h.
Proof.
  intros hs l i. unfold UtilModel.resolve. split.
  - intros H. apply find_some in H as [_ H]. now apply wins_best.
  - intros B. pose proof (proj2 (wins_best hs l i) B) as W. destruct B as [h B].
    destruct (find _ _) as [j|] eqn:F.
    + apply find_some in F as [_ F]. apply wins_best in F as [k K]. f_equal.
      now destruct (best_unique _ _ _ _ _ _ K B).
    + exfalso. assert (L : i < length (map takes hs)).
      { rewrite map_length. apply nth_error_Some. destruct B as (E & _). congruence. }
      pose proof (find_none _ _ F i) as N. rewrite N in W; [discriminate|]. apply in_seq. lia.
Qed.
Lemma resolve_none : forall (hs : list (handler value)) l,
  resolve (map takes hs) l = None <-> forall i h, ~ best hs l i h.
Proof.
  intros hs l. split.
  - intros H i h B. assert (R : resolve (map takes hs) l = Some i) by (apply resolve_best; eauto). congruence.
  - intros H. destruct (resolve _ l) as [i|] eqn:E; auto. apply resolve_best in E as [h B]. now apply H in B.
Qed.

(** ** Combinations *)
Lemma in_combos : forall (vs : list (vexpr value)) l, In l (combos vs) <-> alternatives vs l.
Proof.
  unfold alternatives. induction vs as [|v vs IH]; intros l; cbn [combos].
  - split; [intros [<-|[]]; constructor|]. intros H. inversion H. now left.
  - rewrite in_flat_map. split.
    + intros (t & T & I). apply in_map_iff in I as (k & <- & K). constructor; [cbn; auto|]. now apply IH.
    + intros H. inversion H as [|? a ? k (A & B & C) K]; subst. exists (ty a). split; auto.
      apply in_map_iff. exists k. split; [|now apply IH]. rewrite <- B, <- C. now destruct a.
Qed.
Lemma holds_alternatives : forall (vs : list (vexpr value)) l, holds vs = Some l -> alternatives vs (map fst l).
Proof.
  unfold alternatives. induction vs as [|v vs IH]; intros l H; cbn [holds] in H; [injection H as <-; constructor|].
  destruct (held v) as [[n x]|]; [|discriminate]. destruct (holds vs) as [k|]; [|discriminate].
  destruct (nth_error (alts v) n) as [t|] eqn:E; [|discriminate]. injection H as <-. cbn. constructor; auto.
  cbn. split; auto. eapply nth_error_In; eauto.
Qed.
Lemma holds_holding : forall (vs : list (vexpr value)) l, holds vs = Some l -> holding vs (map fst l) (map snd l).
Proof.
  intros vs l H. split; [|now rewrite !map_length].
  assert (E : combine (map fst l) (map snd l) = l) by (clear; induction l as [|[a b] l IH]; cbn; congruence).
  rewrite E. clear E. revert l H. induction vs as [|v vs IH]; intros l H; cbn [holds] in H; [injection H as <-; constructor|].
  destruct (held v) as [[n x]|] eqn:Eh; [|discriminate]. destruct (holds vs) as [k|]; [|discriminate].
  destruct (nth_error (alts v) n) as [t|] eqn:E; [|discriminate]. injection H as <-. constructor; auto.
  exists n. cbn. auto.
Qed.
Lemma holds_none : forall (vs : list (vexpr value)), Forall sound vs ->
  (holds vs = None <-> exists v, In v vs /\ held v = None).
Proof.
  induction vs as [|v vs IH]; intros F; cbn [holds]; [split; [discriminate|intros (v & [] & _)]|].
  inversion F as [|? ? [_ Sv] Fv]; subst. destruct (held v) as [[n x]|] eqn:E.
  - specialize (Sv n x eq_refl). apply nth_error_Some in Sv. destruct (nth_error (alts v) n); [|congruence].
    destruct (holds vs) as [k|].
    + split; [discriminate|]. intros (u & [<-|I] & U); [congruence|].
      assert (X : Some k = None) by (apply IH; eauto). discriminate.
    + split; auto. intros _. destruct (proj1 (IH Fv) eq_refl) as (u & U & W). exists u. cbn; auto.
  - split; auto. intros _. exists v. cbn; auto.
Qed.
Lemma forward_all_spec : forall vs : list (vexpr value),
  match forward_all vs with
  | Some vs' => Forall variant vs /\
      vs' = map (fun v => Vexpr IsVariant (alts v) (vcst v) (vrv v) (held v)) vs
  | None => ~ Forall variant vs
  end.
Proof.
  induction vs as [|v vs IH]; cbn [forward_all map]; [split; auto|].
  unfold forward_variant, variant. destruct (forward_all vs) as [vs'|].
  - destruct IH as [F ->]. destruct (form v) eqn:E.
    + split; auto. constructor; auto. congruence.
    + split; auto. constructor; auto. congruence.
    + intros F'. inversion F'. congruence.
  - destruct (form v); intros F; inversion F; contradiction.
Qed.
Definition strip (v : vexpr value) : vexpr value := Vexpr IsVariant (alts v) (vcst v) (vrv v) (held v).
Lemma strip_alternatives : forall vs l, alternatives (map strip vs) l <-> alternatives vs l.
Proof.
  unfold alternatives. induction vs as [|v vs IH]; intros l; cbn [map]; split; intros H; inversion H; subst; constructor; auto; now apply IH.
Qed.
Lemma strip_holding : forall vs l x, holding (map strip vs) l x <-> holding vs l x.
Proof.
  intros vs l x. unfold holding. split; intros [H L]; split; auto; clear L; revert H; generalize (combine l x); clear l x;
  induction vs as [|v vs IH]; intros l H; inversion H; subst; constructor; auto.
Qed.
Lemma strip_sound : forall vs, Forall sound vs -> Forall sound (map strip vs).
Proof. intros vs H. apply Forall_map. revert H. apply Forall_impl. auto. Qed.
Lemma strip_held : forall vs, (exists v, In v (map strip vs) /\ held v = None) <-> exists v, In v vs /\ held v = None.
Proof.
  intros vs. split; intros (v & I & H).
  - apply in_map_iff in I as (u & <- & I). exists u. auto.
  - exists (strip v). split; auto. now apply in_map.
Qed.

(** ** Well-formed *)
Lemma rtype_eqb_eq : forall a b, rtype_eqb a b = true <-> a = b.
Proof.
  intros [t|t|] [u|u|]; cbn; split; intros H; try discriminate; auto; try (apply Nat.eqb_eq in H; congruence);
    injection H as <-; apply Nat.eqb_refl.
Qed.
Lemma rtype_of_spec : forall (hs : list (handler value)) l R, rtype_of conv hs l = Some R <->
  exists i h, best hs l i h /\ gives h (map ty l) = R.
Proof.
  intros hs l R. unfold rtype_of. split.
  - destruct (resolve _ l) as [i|] eqn:E; [|discriminate]. apply resolve_best in E as [h B].
    destruct B as (N & B). rewrite N. cbn. intros H. exists i, h. split; [split; auto|congruence].
  - intros (i & h & B & <-). assert (E : resolve (map takes hs) l = Some i) by (apply resolve_best; eauto).
    rewrite E. destruct B as (N & _). now rewrite N.
Qed.
Lemma visitable_spec : forall hs (vs : list (vexpr value)), visitable conv hs vs = true <->
  (exists l, alternatives vs l) /\
  exists R, forall l, alternatives vs l -> exists i h, best hs l i h /\ gives h (map ty l) = R.
Proof.
  intros hs vs. unfold visitable. destruct (combos vs) as [|l0 r] eqn:E.
  - split; [discriminate|]. intros [[l A] _]. apply in_combos in A. rewrite E in A. destruct A.
  - rewrite forallb_forall, <- E. split.
    + intros F. split; [exists l0; apply in_combos; rewrite E; now left|].
      destruct (rtype_of conv hs l0) as [R|] eqn:R0.
      * exists R. intros l A. apply in_combos, F in A. unfold same_rtype in A.
        destruct (rtype_of conv hs l) as [R'|] eqn:El; [|discriminate]. apply rtype_eqb_eq in A as <-.
        now apply rtype_of_spec.
      * specialize (F l0). rewrite E in F. specialize (F (or_introl eq_refl)). discriminate.
    + intros [_ [R F]] l A. apply in_combos, F in A. apply rtype_of_spec in A. rewrite A.
      assert (A0 : alternatives vs l0) by (apply in_combos; rewrite E; now left).
      apply F, rtype_of_spec in A0. rewrite A0. cbn. now apply rtype_eqb_eq.
Qed.
Lemma visit_spec : forall hs (vs : list (vexpr value)), Forall sound vs ->
  match visit conv hs vs with
  | IllFormed => visitable conv hs vs = false
  | Threw => visitable conv hs vs = true /\ holds vs = None
  | Called i vals r => visitable conv hs vs = true /\
      exists l h, holds vs = Some (combine l vals) /\ length l = length vals /\ best hs l i h /\ r = does h vals
  end.
Proof.
  intros hs vs F. unfold visit. destruct (visitable conv hs vs) eqn:V; auto.
  destruct (holds vs) as [l|] eqn:H; auto.
  pose proof (holds_alternatives _ _ H) as A. destruct (proj1 (visitable_spec _ _) V) as [_ [R G]].
  destruct (G _ A) as (i & h & B & _).
  assert (E : resolve (map takes hs) (map fst l) = Some i) by (apply resolve_best; eauto).
  rewrite E. pose proof B as (N & _). rewrite N. split; auto. exists (map fst l), h.
  split; [|split; [now rewrite !map_length|auto]].
  f_equal. clear. induction l as [|[a b] l IH]; cbn; congruence.
Qed.

(** ** Theorems *)
Theorem compiles : forall (vs : list (vexpr value)) hs, Forall sound vs ->
  (match_ conv vs hs <> IllFormed <->
   Forall variant vs /\
   exists R, forall l, alternatives vs l -> exists i h, best hs l i h /\ gives h (map ty l) = R).
Proof.
  intros vs hs F. unfold match_. pose proof (forward_all_spec vs) as W. fold strip in W. destruct (forward_all vs) as [vs'|].
  - destruct W as [W ->]. change (map _ vs) with (map strip vs).
    pose proof (visit_spec hs (map strip vs) (strip_sound _ F)) as S.
    assert (X : visitable conv hs (map strip vs) = true <->
      exists R, forall l, alternatives vs l -> exists i h, best hs l i h /\ gives h (map ty l) = R).
    { rewrite visitable_spec. split.
      - intros [_ [R G]]. exists R. intros l A. apply G. now apply strip_alternatives.
      - intros [R G]. split; [|exists R; intros l A; apply G; now apply strip_alternatives].
        clear - F. induction F as [|v vs [N _] F [l IH]]; [exists []; constructor|].
        destruct (alts v) as [|t r] eqn:E; [contradiction|]. exists (Arg t (vcst v) (vrv v) :: l).
        constructor; auto. cbn. rewrite E. cbn. auto. }
    destruct (visit conv hs (map strip vs)).
    + rewrite S in X. split; [congruence|]. intros [_ G]. apply X in G. discriminate.
    + destruct S as [S _]. split; [|discriminate]. intros _. split; auto. now apply X.
    + destruct S as [S _]. split; [|discriminate]. intros _. split; auto. now apply X.
  - split; [congruence|]. intros [G _]. contradiction.
Qed.
Theorem throws : forall (vs : list (vexpr value)) hs, Forall sound vs -> match_ conv vs hs <> IllFormed ->
  (match_ conv vs hs = Threw <-> exists v, In v vs /\ held v = None).
Proof.
  intros vs hs F. unfold match_. pose proof (forward_all_spec vs) as W. destruct (forward_all vs) as [vs'|]; [|congruence].
  destruct W as [W ->]. change (map _ vs) with (map strip vs).
  pose proof (visit_spec hs (map strip vs) (strip_sound _ F)) as S. rewrite <- strip_held, <- holds_none by now apply strip_sound.
  destruct (visit conv hs (map strip vs)); intros N.
  - congruence.
  - destruct S as [_ S]. rewrite S. tauto.
  - destruct S as (_ & l & h & S & _). rewrite S. split; discriminate.
Qed.
Theorem calls : forall (vs : list (vexpr value)) hs i vals r, Forall sound vs -> match_ conv vs hs = Called i vals r ->
  exists l h, holding vs l vals /\ best hs l i h /\ length vals = length vs /\
    (forall x, stands_for vals (does h vals) x -> r = RVal x).
Proof.
  intros vs hs i vals r F. unfold match_. pose proof (forward_all_spec vs) as W. destruct (forward_all vs) as [vs'|]; [|congruence].
  destruct W as [W ->]. change (map _ vs) with (map strip vs).
  pose proof (visit_spec hs (map strip vs) (strip_sound _ F)) as S.
  destruct (visit conv hs (map strip vs)) as [| |i' vals' r']; try discriminate. intros H. injection H as -> -> <-.
  destruct S as (_ & l & h & S & L & B & ->). exists l, h.
  pose proof (holds_holding _ _ S) as G.
  assert (E1 : map fst (combine l vals) = l) by (clear -L; revert vals L; induction l; destruct vals; cbn; intros; try discriminate; f_equal; auto).
  assert (E2 : map snd (combine l vals) = vals) by (clear -L; revert vals L; induction l; destruct vals; cbn; intros; try discriminate; f_equal; auto).
  rewrite E1, E2 in G. apply (proj1 (strip_holding _ _ _)) in G. split; auto. split; auto. split.
  - destruct G as [G _]. clear - G L. remember (combine l vals) as c eqn:C. assert (Lc : length c = length vals) by (subst; rewrite combine_length; lia).
    rewrite <- Lc. clear C L Lc. induction G; cbn; auto.
  - intros x D. unfold stands_for in D. destruct (does h vals) as [v|k]; cbn [decay]; [congruence|]. now rewrite D.
Qed.
Theorem inherits : forall (vs : list (vexpr value)) hs, match_ conv (map as_base vs) hs = match_ conv vs hs.
Proof.
  intros vs hs. assert (E : forward_all (map as_base vs) = forward_all vs); [|unfold match_; now rewrite E].
  induction vs as [|v vs IH]; cbn [map forward_all]; auto. rewrite IH.
  unfold as_base, forward_variant. destruct (form v) eqn:E; cbn; rewrite ?E; auto.
Qed.
Theorem not_twice : forall (hs : list (handler value)) l i h j h', best hs l i h -> nth_error hs j = Some h' ->
  takes h' = takes h -> j = i.
Proof.
  intros hs l i h j h' (Hi & Vi & Bi) Hj E. destruct (Nat.eq_dec j i) as [|N]; auto. exfalso.
  assert (B : better l (takes h) (takes h') = true) by (eapply Bi; eauto; congruence).
  rewrite E in B. eapply better_asym; eauto.
Qed.

(** ** Order *)
Lemma best_perm : forall (hs hs' : list (handler value)) l i h, Permutation hs hs' -> best hs l i h ->
  exists j, best hs' l j h.
Proof.
  intros hs hs' l i h P (Hi & V & B).
  destruct (in_split h hs (nth_error_In _ _ Hi)) as (a & b & E).
  assert (I : In h hs') by (apply (Permutation_in _ P); eapply nth_error_In; eauto).
  apply In_nth_error in I as [j Hj]. exists j. split; auto. split; auto. intros k h' Hk N Vk.
  (* [h'] is at another place in [hs] too *)
  assert (X : exists m, nth_error hs m = Some h' /\ m <> i).
  { apply in_others.
    assert (Q : Permutation (others i hs) (others j hs')).
    { apply (Permutation_cons_inv (a := h)).
      assert (Z : forall n (l : list (handler value)), nth_error l n = Some h -> Permutation (h :: others n l) l).
      { clear. intros n l H. unfold others. apply nth_error_split in H as (p & q & -> & <-).
        rewrite firstn_app, Nat.sub_diag, firstn_all, firstn_O, app_nil_r.
        replace (skipn (S (length p)) (p ++ h :: q)) with q; [apply Permutation_middle|].
        clear. induction p; cbn; auto. }
      rewrite (Z i hs Hi), (Z j hs' Hj). exact P. }
    apply (Permutation_in h' (Permutation_sym Q)). apply in_others. eauto. }
  destruct X as (m & Hm & Nm). eapply B; eauto.
Qed.
Theorem order : forall (vs : list (vexpr value)) hs hs', Forall sound vs -> Permutation hs hs' ->
  match match_ conv vs hs with
  | Called i vals r => exists j, match_ conv vs hs' = Called j vals r /\ nth_error hs' j = nth_error hs i
  | o => match_ conv vs hs' = o
  end.
Proof.
  intros vs hs hs' F P. unfold match_. pose proof (forward_all_spec vs) as W. destruct (forward_all vs) as [vs'|]; auto.
  destruct W as [W ->]. change (map _ vs) with (map strip vs). apply strip_sound in F.
  assert (V : visitable conv hs (map strip vs) = visitable conv hs' (map strip vs)).
  { apply eq_true_iff_eq. rewrite !visitable_spec. split; intros [A [R G]]; split; auto; exists R; intros l L.
    - destruct (G l L) as (i & h & B & T). destruct (best_perm _ _ _ _ _ P B) as [j J]. eauto.
    - destruct (G l L) as (i & h & B & T). destruct (best_perm _ _ _ _ _ (Permutation_sym P) B) as [j J]. eauto. }
  pose proof (visit_spec hs _ F) as S1. pose proof (visit_spec hs' _ F) as S2.
  destruct (visit conv hs (map strip vs)) as [| |i vals r].
  - rewrite <- V, S1 in S2. destruct (visit conv hs' _); auto; destruct S2; discriminate.
  - destruct S1 as [V1 H1]. rewrite <- V, V1, H1 in S2. destruct (visit conv hs' _) as [| |j vals' r']; auto; [discriminate|].
    destruct S2 as (_ & l & h & S2 & _). discriminate.
  - destruct S1 as (V1 & l & h & H1 & L & B & ->). rewrite <- V, V1, H1 in S2.
    destruct (visit conv hs' _) as [| |j vals' r']; [discriminate|destruct S2; discriminate|].
    destruct S2 as (_ & l' & h' & H2 & L' & B' & ->). injection H2 as H2.
    assert (El : l = l' /\ vals = vals').
    { clear - H2 L L'. revert vals l' vals' H2 L L'. induction l as [|a l IH]; intros [|x vals] [|a' l'] [|x' vals']; cbn; intros H L L'; try discriminate; auto.
      injection H as -> -> H. destruct (IH _ _ _ H); auto. subst. auto. }
    destruct El as [<- <-]. destruct (best_perm _ _ _ _ _ P B) as [j' B2].
    destruct (best_unique _ _ _ _ _ _ B' B2) as [<- ->]. exists j. split; auto.
    destruct B as [-> _]. now destruct B' as [-> _].
Qed.

(** ** Handlers of their own *)
Definition meek (k : ics) : Prop := (rk k = Exact -> match bd k with NoRef => True | Bound c r _ => c = true /\ r = false end).
Lemma meek_not_better : forall k m, rk m = Exact -> meek k -> better_ics k m = false.
Proof.
  intros [r t b] [r' t' b'] E M. cbn in E. subst r'. unfold meek in M. cbn [rk bd] in M. unfold better_ics. cbn [rk bd target rank_no].
  destruct r as [|[]]; auto. specialize (M eq_refl). cbn. destruct b as [|c rr v]; auto. destruct M as [-> ->]. destruct b'; auto.
  cbn. now rewrite andb_false_r.
Qed.
Lemma none_better : forall ks ms, Forall meek ks -> Forall (fun m => rk m = Exact) ms -> some_better ks ms = false.
Proof.
  unfold some_better. induction ks as [|k ks IH]; intros [|m ms] A B; cbn; auto. inversion A; inversion B; subst.
  rewrite meek_not_better by auto. cbn. auto.
Qed.
Lemma own_ics : forall ps (l : list arg), Forall2 own_param ps (map ty l) ->
  exists ks, all2 (plain_ics conv) ps l = Some ks /\ Forall (fun k => rk k = Exact) ks.
Proof.
  induction ps as [|p ps IH]; intros [|a l] H; inversion H; subst; cbn [all2]; [exists []; auto|].
  destruct (IH l) as (ks & -> & F); auto.
  match goal with X : own_param p _ |- _ => destruct X as [-> | ->] end; cbn; rewrite Nat.eqb_refl; eexists; split; eauto.
Qed.
Lemma modest_ics : forall ps (l : list arg) ks, Forall (fun p => exists t, own_param p t) ps ->
  all2 (plain_ics conv) ps l = Some ks ->
  Forall meek ks /\ (Forall2 own_param ps (map ty l) \/ exists k, In k ks /\ rk k <> Exact).
Proof.
  induction ps as [|p ps IH]; intros [|a l] ks F H; cbn [all2] in H; try discriminate.
  - injection H as <-. split; auto. left. constructor.
  - inversion F as [|? ? [t O] F']; subst.
    destruct (plain_ics conv p a) as [k|] eqn:E; [|discriminate]. destruct (all2 _ ps l) as [r|] eqn:R; [|discriminate].
    injection H as <-. destruct (IH l r F' R) as [M D].
    assert (K : meek k /\ (own_param p (ty a) \/ rk k <> Exact)).
    { destruct O as [-> | ->]; cbn in E; destruct (Nat.eqb_spec t (ty a)) as [-> |N].
      - injection E as <-. split; [unfold meek; cbn; auto|]. left. unfold own_param. auto.
      - destruct (conv (ty a) t); [|discriminate]. injection E as <-. split; [unfold meek; cbn; congruence|]. right. cbn. discriminate.
      - injection E as <-. split; [unfold meek; cbn; auto|]. left. unfold own_param. auto.
      - destruct (conv (ty a) t); [|discriminate]. injection E as <-. split; [unfold meek; cbn; congruence|]. right. cbn. discriminate. }
    destruct K as [K1 [K2|K2]]; (split; [constructor; auto|]).
    + destruct D as [D|(k' & I & D)]; [left; cbn; constructor; auto|right; exists k'; cbn; auto].
    + right. exists k. cbn; auto.
Qed.
Lemma modest_generic : forall ps (l : list arg) ks, Forall (fun p => p = Auto \/ p = AutoCRef) ps ->
  all2 generic_ics ps l = Some ks -> Forall meek ks.
Proof.
  induction ps as [|p ps IH]; intros [|a l] ks F H; cbn [all2] in H; try discriminate; [injection H as <-; auto|].
  inversion F as [|? ? O F']; subst.
  destruct (generic_ics p a) as [k|] eqn:E; [|discriminate]. destruct (all2 _ ps l) as [r|] eqn:R; [|discriminate].
  injection H as <-. constructor; [|eapply IH; eauto].
  destruct O as [-> | ->]; cbn in E; injection E as <-; unfold meek; cbn; auto.
Qed.
Lemma some_is_better : forall ks ms, Forall (fun k => rk k = Exact) ks -> length ks = length ms ->
  (exists m, In m ms /\ rk m <> Exact) -> some_better ks ms = true.
Proof.
  unfold some_better. induction ks as [|k ks IH]; intros [|m ms] F L (m' & I & N); cbn in *; try discriminate; [destruct I|].
  inversion F; subst. destruct I as [-> |I].
  - apply orb_true_iff. left. unfold better_ics. replace (rk k) with Exact by auto. destruct (rk m') as [|[]]; auto; congruence.
  - apply orb_true_iff. right. apply IH; eauto.
Qed.
Lemma all2_length : forall A B C (f : A -> B -> option C) l k r, all2 f l k = Some r -> length r = length k.
Proof.
  induction l as [|a l IH]; intros [|b k] r H; cbn in H; try discriminate; [injection H as <-; auto|].
  destruct (f a b); [|discriminate]. destruct (all2 f l k) eqn:E; [|discriminate]. injection H as <-. cbn. f_equal. eauto.
Qed.
Theorem specific : forall (hs : list (handler value)) l i h,
  nth_error hs i = Some h -> made_for h (map ty l) ->
  (forall j h', nth_error hs j = Some h' -> modest_sig (takes h')) ->
  (forall j h', nth_error hs j = Some h' -> made_for h' (map ty l) -> j = i) ->
  best hs l i h.
Proof.
  intros hs l i h Hi (ps & Ep & O) M U. destruct (own_ics ps l O) as (ks & Ek & Fk).
  assert (Ik : ics_of conv (takes h) l = Some ks) by (rewrite Ep; exact Ek).
  split; auto. split; [unfold UtilModel.viable; now rewrite Ik|].
  intros j h' Hj N V. unfold UtilModel.viable in V. destruct (ics_of conv (takes h') l) as [ms|] eqn:Im; [|discriminate].
  unfold UtilModel.better. rewrite Ik, Im. specialize (M j h' Hj).
  assert (L : length ks = length l) by (eapply all2_length; eauto).
  destruct (takes h') as [qs|qs|q] eqn:Et; cbn [ics_of modest_sig] in Im, M.
  - destruct (modest_ics _ _ _ M Im) as [K D]. rewrite none_better by auto. cbn [negb andb].
    assert (L' : length ms = length l) by (eapply all2_length; eauto).
    destruct D as [D|D].
    + exfalso. apply N. apply (U j h' Hj). exists qs. auto.
    + rewrite some_is_better; auto. congruence.
  - rewrite none_better; auto; [|eapply modest_generic; eauto]. rewrite Ep. cbn [negb andb is_plain].
    now rewrite orb_true_r.
  - rewrite none_better; auto; [rewrite Ep; cbn [negb andb is_plain]; now rewrite orb_true_r|].
    eapply modest_generic; [|exact Im]. apply Forall_forall. intros p I. apply repeat_spec in I. now subst.
Qed.
End Types.
