(** Proofs about tree_debugger.hpp. *)
From Coq Require Import List Arith Bool Lia.
From Verif Require Import StoreModel StoreExtraModel DebuggerModel DebuggerSpec.
Import ListNotations.

Section Paths.
Lemma pos_dec : forall p r : pos, {p = r} + {p <> r}.
Proof. decide equality; apply Nat.eq_dec. Qed.
Lemma rev_last : forall X (l : list X) p, rev (l ++ [p]) = p :: rev l.
Proof. intros. now rewrite rev_app_distr. Qed.
Lemma tundo_one : forall p, tundo [p] = match index p with S n => [Pos (branch p) n] | 0 => [] end.
Proof. intros p. unfold tundo. simpl. now destruct (index p). Qed.
Lemma tundo_cons : forall p c, c <> [] -> tundo (p :: c) = p :: tundo c.
Proof.
  intros p c H. destruct (exists_last H) as (c' & x & ->). unfold tundo.
  rewrite app_comm_cons, !rev_last. simpl rev. destruct (index x); simpl; rewrite ?rev_app_distr; reflexivity.
Qed.
Lemma tundo_snoc0 : forall c b, tundo (c ++ [Pos b 0]) = c.
Proof. intros. unfold tundo. rewrite rev_last. simpl. apply rev_involutive. Qed.
Lemma follower_one : forall p, follower [p] = [Pos (branch p) (index p + 1)].
Proof. reflexivity. Qed.
Lemma follower_cons : forall p c, c <> [] -> follower (p :: c) = p :: follower c.
Proof.
  intros p c H. destruct (exists_last H) as (c' & x & ->). unfold follower.
  rewrite app_comm_cons, !rev_last. simpl. rewrite rev_app_distr. reflexivity.
Qed.
Lemma follower_nonempty : forall c, c <> [] -> follower c <> [].
Proof. intros c H. destruct (exists_last H) as (c' & x & ->). unfold follower. rewrite rev_last. simpl. now destruct (rev (rev c')). Qed.
Lemma tundo_follower : forall c, c <> [] -> tundo (follower c) = c.
Proof.
  intros c H. destruct (exists_last H) as (c' & x & ->). unfold follower, tundo. rewrite rev_last.
  rewrite rev_involutive. cbn [index branch]. rewrite Nat.add_1_r. cbn [rev]. rewrite rev_involutive. now destruct x.
Qed.
End Paths.

Section Tree.
Variables M A : Type.
Notation tstep := (tstep M A).
Notation hist := (list tstep).
Notation do_lookup := (@do_lookup M A).

Lemma set_nth_same : forall X n (x : X) l, n < length l -> nth_error (set_nth n x l) n = Some x.
Proof. induction n as [|n IH]; intros x [|y l] H; simpl in *; auto; try lia. apply IH. lia. Qed.
Lemma set_nth_other : forall X n k (x : X) l, k <> n -> nth_error (set_nth n x l) k = nth_error l k.
Proof. induction n as [|n IH]; intros [|k] x [|y l] H; simpl in *; auto; try lia. Qed.
Lemma nth_lt : forall X (l : list X) n x, nth_error l n = Some x -> n < length l.
Proof. intros X l n x E. apply nth_error_Some. congruence. Qed.
Lemma update_at_ok : forall X Y n (f : X -> ares (X * Y)) l x x' y, nth_error l n = Some x -> f x = Fine (x', y) ->
  update_at n f l = Fine (set_nth n x' l, y).
Proof.
  induction n as [|n IH]; intros f [|z l] x x' y E F; simpl in *; try discriminate.
  - injection E as ->. now rewrite F.
  - now rewrite (IH f l x x' y).
Qed.

(** The step [c], as found by do_lookup. *)
Definition from_hist (h : hist) (i : nat) (c : list pos) : option (A * M) :=
  match nth_error h i with
  | None => None
  | Some (TStep a m bs) => match c with [] => Some (a, m) | _ => do_lookup bs c end
  end.
Lemma lookup_cons : forall bs p c, do_lookup bs (p :: c) =
  match nth_error bs (branch p) with Some h => from_hist h (index p) c | None => None end.
Proof. reflexivity. Qed.
Lemma lookup_set : forall bs b h p c, b < length bs -> do_lookup (set_nth b h bs) (p :: c) =
  if branch p =? b then from_hist h (index p) c else do_lookup bs (p :: c).
Proof.
  intros bs b h p c H. rewrite !lookup_cons. destruct (Nat.eqb_spec (branch p) b) as [->|N].
  - now rewrite set_nth_same.
  - now rewrite set_nth_other.
Qed.
Lemma hist_set : forall (h : hist) i s j c, i < length h -> from_hist (set_nth i s h) j c =
  if j =? i then match s with TStep a m bs => match c with [] => Some (a, m) | _ => do_lookup bs c end end
  else from_hist h j c.
Proof.
  intros h i s j c H. unfold from_hist. destruct (Nat.eqb_spec j i) as [->|N].
  - now rewrite set_nth_same.
  - now rewrite set_nth_other.
Qed.

Definition br_hist (h : hist) (i : nat) (c : list pos) : nat :=
  match nth_error h i with None => 0 | Some (TStep _ _ bs) => branches_at bs c end.
Lemma br_cons : forall (bs : list hist) p c, branches_at bs (p :: c) =
  match nth_error bs (branch p) with Some h => br_hist h (index p) c | None => 0 end.
Proof. reflexivity. Qed.
Lemma br_set : forall (bs : list hist) b h p c, b < length bs -> branches_at (set_nth b h bs) (p :: c) =
  if branch p =? b then br_hist h (index p) c else branches_at bs (p :: c).
Proof.
  intros bs b h p c H. rewrite !br_cons. destruct (Nat.eqb_spec (branch p) b) as [->|N].
  - now rewrite set_nth_same.
  - now rewrite set_nth_other.
Qed.
Lemma br_hist_set : forall (h : hist) i a m bs j c, i < length h -> br_hist (set_nth i (TStep a m bs) h) j c =
  if j =? i then branches_at bs c else br_hist h j c.
Proof.
  intros h i a m bs j c H. unfold br_hist. destruct (Nat.eqb_spec j i) as [->|N].
  - now rewrite set_nth_same.
  - now rewrite set_nth_other.
Qed.
Lemma set_nth_length : forall X n (x : X) l, length (set_nth n x l) = length l.
Proof. induction n as [|n IH]; intros x [|y l]; simpl; auto. Qed.
Lemma br_nil : forall c, branches_at ([] : list hist) c = 0.
Proof. intros [|p c]; simpl; auto. now destruct (branch p). Qed.

(** Where a step after [c] goes. *)
Definition new_place (bs : list hist) (c : list pos) : list pos :=
  match do_lookup bs (follower c) with
  | None => follower c
  | Some _ => c ++ [Pos (branches_at bs c) 0]
  end.
Lemma new_place_nonempty : forall bs c, c <> [] -> new_place bs c <> [].
Proof.
  intros bs c H. unfold new_place. destruct (do_lookup bs (follower c)).
  - now destruct c.
  - now apply follower_nonempty.
Qed.
Lemma undo_new_place : forall bs c, c <> [] -> tundo (new_place bs c) = c.
Proof.
  intros bs c H. unfold new_place. destruct (do_lookup bs (follower c)); [apply tundo_snoc0|now apply tundo_follower].
Qed.
Lemma new_place_cons : forall bs p c h a m bs0, c <> [] -> nth_error bs (branch p) = Some h ->
  nth_error h (index p) = Some (TStep a m bs0) -> new_place bs (p :: c) = p :: new_place bs0 c.
Proof.
  intros bs p c h a m bs0 HC E1 E2. unfold new_place. rewrite follower_cons by auto. rewrite lookup_cons, E1.
  unfold from_hist. rewrite E2. pose proof (follower_nonempty c HC) as HN.
  destruct (follower c) as [|q r] eqn:EF; [congruence|].
  destruct (do_lookup bs0 (q :: r)); auto. simpl. now rewrite E1, E2.
Qed.

Record grown (bs bs' : list hist) (new : list pos) (a : A) (m : M) : Prop := {
  g_new : do_lookup bs new = None;
  g_here : do_lookup bs' new = Some (a, m);
  g_rest : forall c, c <> new -> do_lookup bs' c = do_lookup bs c;
  g_branches : forall c k, k < branches_at bs' c -> k < branches_at bs c \/ c ++ [Pos k 0] = new }.

Lemma set_nth_app : forall X (l r : list X) n x, set_nth (length l + n) x (l ++ r) = l ++ set_nth n x r.
Proof. induction l as [|y l IH]; intros r n x; simpl; auto. now rewrite IH. Qed.
Lemma lookup_fresh_branch : forall (bs : list hist) c0 a m, c0 <> [] ->
  do_lookup (bs ++ [[TStep a m []]]) c0 =
  match c0 with p :: c => if (branch p =? length bs) then (if index p =? 0 then match c with [] => Some (a, m) | _ => None end else None)
                          else do_lookup bs c0 | [] => None end.
Proof.
  intros bs [|p c] a m H; [congruence|]. rewrite !lookup_cons. destruct (Nat.eqb_spec (branch p) (length bs)) as [->|N].
  - rewrite nth_error_app2, Nat.sub_diag by lia. simpl. unfold from_hist.
    destruct (Nat.eqb_spec (index p) 0) as [->|N].
    + simpl. destruct c as [|q c]; auto. simpl. now destruct (branch q).
    + destruct (index p) as [|[|n]]; auto; congruence.
  - destruct (Nat.lt_ge_cases (branch p) (length bs)).
    + now rewrite nth_error_app1.
    + assert (X : nth_error bs (branch p) = None) by (apply nth_error_None; lia). rewrite X.
      assert (Y : nth_error (bs ++ [[TStep a m []]]) (branch p) = None) by (apply nth_error_None; rewrite app_length; simpl; lia).
      now rewrite Y.
Qed.
Lemma fresh_branch_grown : forall (bs : list hist) a m, grown bs (bs ++ [[TStep a m []]]) [Pos (length bs) 0] a m.
Proof.
  intros bs a m. constructor.
  - rewrite lookup_cons. cbn [branch]. now rewrite (proj2 (nth_error_None bs (length bs))).
  - rewrite lookup_fresh_branch by discriminate. cbn [branch index]. now rewrite Nat.eqb_refl.
  - intros [|p c] N; [reflexivity|]. rewrite lookup_fresh_branch by discriminate.
    destruct (Nat.eqb_spec (branch p) (length bs)) as [E|]; auto.
    rewrite lookup_cons, E, (proj2 (nth_error_None bs (length bs))) by auto.
    destruct (Nat.eqb_spec (index p) 0) as [E2|]; auto. destruct c; auto. destruct N.
    destruct p; simpl in *. congruence.
  - intros [|p c] k H.
    + simpl in *. rewrite app_length in H. simpl in H.
      destruct (Nat.eq_dec k (length bs)) as [->|]; [auto|left; lia].
    + rewrite br_cons in *. destruct (Nat.lt_trichotomy (branch p) (length bs)) as [L|[E|G]].
      * rewrite nth_error_app1 in H by auto. auto.
      * rewrite E, nth_error_app2, Nat.sub_diag in H by lia. simpl in H. unfold br_hist in H.
        destruct (index p) as [|[|n]]; simpl in H; try lia. rewrite br_nil in H. lia.
      * rewrite (proj2 (nth_error_None (bs ++ [[TStep a m []]]) (branch p))) in H by (rewrite app_length; simpl; lia). lia.
Qed.

Lemma append_deep : forall (bs : list hist) cur i p q c a m, do_append bs cur i (p :: q :: c) a m =
  update_at (branch p) (update_at (index p) (fun s => match s with TStep a0 m0 bs0 =>
    match do_append bs0 cur (S i) (q :: c) a m with
    | Fine (bs1, nc) => Fine (TStep a0 m0 bs1, nc)
    | Undefined => Undefined end end)) bs.
Proof. reflexivity. Qed.
Lemma append_ok : forall a m c bs pre r, c <> [] -> do_lookup bs c = Some r ->
  exists bs', do_append bs (pre ++ c) (length pre) c a m =
     Fine (bs', match do_lookup bs (follower c) with None => pre ++ follower c | Some _ => (pre ++ c) ++ [Pos 0 0] end) /\
     grown bs bs' (new_place bs c) a m.
Proof.
  intros a m. induction c as [|p c IH]; intros bs pre r HC EL; [congruence|].
  rewrite lookup_cons in EL. destruct (nth_error bs (branch p)) as [h|] eqn:EB; [|discriminate].
  unfold from_hist in EL. destruct (nth_error h (index p)) as [[a0 m0 bs0]|] eqn:EI; [|discriminate].
  pose proof (nth_lt _ _ _ _ EB) as LB. pose proof (nth_lt _ _ _ _ EI) as LI.
  destruct c as [|p2 c].
  - clear IH. cbn [DebuggerModel.do_append]. rewrite follower_one. unfold new_place. rewrite follower_one.
    rewrite lookup_cons. cbn [branch index]. rewrite EB. unfold from_hist at 1 2.
    destruct (Nat.eqb_spec (index p + 1) (length h)) as [ET|ET].
    + assert (EN : nth_error h (index p + 1) = None) by (apply nth_error_None; lia). rewrite EN.
      eexists. split.
      * erewrite update_at_ok; [|exact EB|].
        2:{ cbv beta. rewrite (proj2 (Nat.eqb_eq _ _) ET). reflexivity. }
        do 2 f_equal. rewrite <- (Nat.add_0_r (length pre)) at 1. now rewrite set_nth_app.
      * assert (HH : forall j c, from_hist (h ++ [TStep a m []]) j c =
                  if j =? length h then match c with [] => Some (a, m) | _ => None end else from_hist h j c).
        { intros j c. unfold from_hist. destruct (Nat.eqb_spec j (length h)) as [->|N].
          - rewrite nth_error_app2, Nat.sub_diag by lia. simpl. destruct c as [|q c]; auto. simpl. now destruct (branch q).
          - destruct (Nat.lt_ge_cases j (length h)); [now rewrite nth_error_app1|].
            assert (X : nth_error h j = None) by (apply nth_error_None; lia).
            assert (Y : nth_error (h ++ [TStep a m []]) j = None) by (apply nth_error_None; rewrite app_length; simpl; lia).
            now rewrite X, Y. }
        constructor.
        -- rewrite lookup_cons. cbn [branch index]. rewrite EB. unfold from_hist. now rewrite EN.
        -- rewrite lookup_set by auto. cbn [branch index]. now rewrite Nat.eqb_refl, HH, ET, Nat.eqb_refl.
        -- intros [|q c] N; [reflexivity|]. rewrite lookup_set by auto.
           destruct (Nat.eqb_spec (branch q) (branch p)) as [E|]; auto. rewrite HH, lookup_cons, E, EB.
           destruct (Nat.eqb_spec (index q) (length h)) as [E2|]; auto.
           assert (X : from_hist h (index q) c = None) by (unfold from_hist; rewrite E2, (proj2 (nth_error_None h (length h))); auto).
           rewrite X. destruct c; auto. destruct N. destruct q, p; simpl in *. congruence.
        -- intros [|q c] k H; [simpl in *; rewrite set_nth_length in H; auto|]. left. rewrite br_set in H by auto.
           destruct (Nat.eqb_spec (branch q) (branch p)) as [E|]; auto. rewrite br_cons, E, EB.
           unfold br_hist in *. destruct (Nat.lt_trichotomy (index q) (length h)) as [L|[E2|G]].
           ++ rewrite nth_error_app1 in H by auto. auto.
           ++ rewrite E2, nth_error_app2, Nat.sub_diag in H by lia. simpl in H. rewrite br_nil in H. lia.
           ++ rewrite (proj2 (nth_error_None (h ++ [TStep a m []]) (index q))) in H by (rewrite app_length; simpl; lia). lia.
    + destruct (nth_error h (index p + 1)) as [[a1 m1 bs1]|] eqn:EN.
      2:{ apply nth_error_None in EN. lia. }
      eexists. split.
      * erewrite update_at_ok; [|exact EB|].
        2:{ cbv beta. rewrite (proj2 (Nat.eqb_neq _ _) ET). eapply update_at_ok; [exact EI|reflexivity]. }
        reflexivity.
      * cbn [branches_at]. rewrite EB, EI. destruct (fresh_branch_grown bs0 a m) as [G1 G2 G3 G4]. constructor.
        -- simpl app. rewrite lookup_cons, EB. unfold from_hist. rewrite EI. exact G1.
        -- simpl app. rewrite lookup_set, Nat.eqb_refl by auto. rewrite hist_set, Nat.eqb_refl by auto. exact G2.
        -- intros [|q c] N; [reflexivity|]. rewrite lookup_set by auto.
           destruct (Nat.eqb_spec (branch q) (branch p)) as [E|]; auto. rewrite hist_set, lookup_cons, E, EB by auto.
           destruct (Nat.eqb_spec (index q) (index p)) as [E2|]; auto. unfold from_hist. rewrite E2, EI.
           destruct c as [|q2 c]; auto. apply G3. intros E3. apply N. simpl. rewrite E3. f_equal.
           destruct q, p; simpl in *; congruence.
        -- intros [|q c] k H; [simpl in *; rewrite set_nth_length in H; auto|]. rewrite br_set in H by auto.
           destruct (Nat.eqb_spec (branch q) (branch p)) as [E|]; auto. rewrite br_cons, E, EB. rewrite br_hist_set in H by auto.
           destruct (Nat.eqb_spec (index q) (index p)) as [E2|]; auto. unfold br_hist. rewrite E2, EI.
           destruct (G4 _ _ H) as [H2|H2]; auto. right. simpl. rewrite H2. f_equal. destruct q, p; simpl in *; congruence.
  - rewrite append_deep. assert (HC2 : p2 :: c <> []) by discriminate.
    destruct (IH bs0 (pre ++ [p]) r HC2 EL) as (bs1 & E1 & G).
    rewrite <- app_assoc, app_length in E1. cbn [app length] in E1. rewrite Nat.add_1_r in E1.
    eexists. split.
    + erewrite update_at_ok; [|exact EB|].
      2:{ cbv beta. eapply update_at_ok; [exact EI|]. cbv beta iota. rewrite E1. reflexivity. }
      do 2 f_equal. rewrite (follower_cons p) by auto. rewrite lookup_cons, EB. unfold from_hist. rewrite EI.
      pose proof (follower_nonempty _ HC2). destruct (follower (p2 :: c)) as [|x y] eqn:EF; [congruence|].
      destruct (do_lookup bs0 (x :: y)).
      * reflexivity.
      * now rewrite <- app_assoc.
    + rewrite (new_place_cons _ _ _ _ _ _ _ HC2 EB EI). pose proof (new_place_nonempty bs0 _ HC2) as NN.
      destruct (new_place bs0 (p2 :: c)) as [|x y] eqn:EP; [congruence|]. destruct G as [G1 G2 G3 G4]. constructor.
      * rewrite lookup_cons, EB. unfold from_hist. now rewrite EI.
      * rewrite lookup_set, Nat.eqb_refl by auto. now rewrite hist_set, Nat.eqb_refl by auto.
      * intros [|q c0] N; [reflexivity|]. rewrite lookup_set by auto.
        destruct (Nat.eqb_spec (branch q) (branch p)) as [E|]; auto. rewrite hist_set, lookup_cons, E, EB by auto.
        destruct (Nat.eqb_spec (index q) (index p)) as [E2|]; auto. unfold from_hist. rewrite E2, EI.
        destruct c0 as [|q2 c0]; auto. apply G3. intros E3. apply N. rewrite E3. f_equal.
        destruct q, p; simpl in *; congruence.
      * intros [|q c0] k H; [simpl in *; rewrite set_nth_length in H; auto|]. rewrite br_set in H by auto.
           destruct (Nat.eqb_spec (branch q) (branch p)) as [E|]; auto. rewrite br_cons, E, EB. rewrite br_hist_set in H by auto.
           destruct (Nat.eqb_spec (index q) (index p)) as [E2|]; auto. unfold br_hist. rewrite E2, EI.
           destruct (G4 _ _ H) as [H2|H2]; auto. right. simpl. rewrite H2. f_equal. destruct q, p; simpl in *; congruence.
Qed.
End Tree.

Section Inv.
Variables M A W : Type.
Notation prog := (prog M A W).
Notation tmodel := (tmodel M A).
Notation tprog := (StoreModel.prog tmodel (taction A) W).
Variable reducer : M -> A -> option (M * option prog).
Variables pause_eff resume_eff : tprog.
Notation tupdate := (tupdate reducer pause_eff resume_eff).
Notation tstep_model := (tstep_model reducer pause_eff resume_eff).
Notation tsteps := (tsteps reducer pause_eff resume_eff).

Record tvalid (m0 : M) (d : tmodel) : Prop := {
  tv_init : tinit d = m0;
  tv_cur : exists r, tlookup d (tcursor d) = Some r;
  tv_tree : forall c a m, tlookup d c = Some (Some a, m) ->
    exists x m1 e, tlookup d (tundo c) = Some (x, m1) /\ reducer m1 a = Some (m, e);
  tv_full : forall c k, k < branches_at (tbranches d) c -> do_lookup (tbranches d) (c ++ [Pos k 0]) <> None;
  tv_pend : tpaused d = false -> tpending d = [] }.

(** One new step in the tree, at [new], and nothing else. *)
Record one_step (d d' : tmodel) (a : A) (m : M) (new : list pos) : Prop := {
  o_new : tlookup d new = None;
  o_here : tlookup d' new = Some (Some a, m);
  o_rest : forall c, c <> new -> tlookup d' c = tlookup d c;
  o_undo : tundo new = tcursor d }.

Lemma tlookup_cons : forall (d : tmodel) c, c <> [] ->
  tlookup d c = option_map (fun r => (Some (fst r), snd r)) (do_lookup (tbranches d) c).
Proof. intros d [|p c] H; [congruence|]. unfold tlookup. now destruct (do_lookup _ _) as [[a m]|]. Qed.
Lemma grown_step : forall (d d' : tmodel) new a m, tinit d' = tinit d -> new <> [] ->
  grown M A (tbranches d) (tbranches d') new a m -> tundo new = tcursor d -> one_step d d' a m new.
Proof.
  intros d d' new a m EI NE [G1 G2 G3 _] EU. constructor; auto.
  - now rewrite tlookup_cons, G1 by auto.
  - now rewrite tlookup_cons, G2 by auto.
  - intros [|p c] N; [simpl; now rewrite EI|]. rewrite !tlookup_cons by discriminate. now rewrite G3.
Qed.

Lemma act_step : forall m0 d a m m' e, tvalid m0 d -> tpaused d = false -> tshown d = Some m ->
  reducer m a = Some (m', e) ->
  exists d' new, tupdate_act reducer d a = Fine (Some (d', teff e)) /\
    tvalid m0 d' /\ tpaused d' = false /\ tpending d' = tpending d /\
    one_step d d' a m' new /\ tundo (tcursor d') = tcursor d /\
    (tcursor d = [] \/ tlookup d (follower (tcursor d)) = None \/ branches_at (tbranches d) (tcursor d) = 0 ->
     tcursor d' = new).
Proof.
  intros m0 d a m m' e V HP ES ER.
  assert (X : exists bs' new c, append d a m' = Fine (T c (tpaused d) (tinit d) bs' (tpending d)) /\
     grown M A (tbranches d) bs' new a m' /\ new <> [] /\ tundo new = tcursor d /\ tundo c = tcursor d /\
     (exists r, do_lookup bs' c = Some r) /\ c <> [] /\
     (tcursor d = [] \/ tlookup d (follower (tcursor d)) = None \/ branches_at (tbranches d) (tcursor d) = 0 -> c = new)).
  { unfold append. destruct (tcursor d) as [|p r] eqn:EC.
    - exists (tbranches d ++ [[TStep a m' []]]), [Pos (length (tbranches d)) 0], [Pos (length (tbranches d)) 0].
      rewrite app_length, Nat.add_sub. pose proof (fresh_branch_grown M A (tbranches d) a m') as G.
      split; [reflexivity|]. repeat split; auto; try discriminate; try apply G. exists (a, m'). apply G.
    - assert (NC : p :: r <> []) by discriminate.
      destruct (tv_cur _ _ V) as ([x y] & EL). rewrite EC, tlookup_cons in EL by auto.
      destruct (do_lookup (tbranches d) (p :: r)) as [z|] eqn:EL2; [|discriminate].
      destruct (append_ok M A a m' (p :: r) (tbranches d) [] z NC EL2) as (bs' & EA & G). cbn [app length] in EA.
      rewrite EA. eexists bs', _, _. split; [reflexivity|]. split; [exact G|].
      split; [now apply new_place_nonempty|]. split; [now apply undo_new_place|].
      rewrite tlookup_cons by now apply follower_nonempty.
      destruct (do_lookup (tbranches d) (follower (p :: r))) as [w|] eqn:EF.
      + split; [apply (tundo_snoc0 (p :: r))|].
        assert (EN : new_place M A (tbranches d) (p :: r) = (p :: r) ++ [Pos (branches_at (tbranches d) (p :: r)) 0])
          by (unfold new_place; now rewrite EF).
        split; [|split; [discriminate|]].
        * destruct (Nat.eq_dec (branches_at (tbranches d) (p :: r)) 0) as [E0|N0].
          -- rewrite E0 in EN. change (p :: r ++ [Pos 0 0]) with ((p :: r) ++ [Pos 0 0]). rewrite <- EN.
             exists (a, m'). apply G.
          -- assert (L : do_lookup (tbranches d) ((p :: r) ++ [Pos 0 0]) <> None) by (apply (tv_full _ _ V); lia).
             destruct (do_lookup (tbranches d) ((p :: r) ++ [Pos 0 0])) as [v|] eqn:EV; [|congruence].
             exists v. rewrite <- EV. apply G. rewrite EN. intros EQ. apply app_inv_head in EQ. congruence.
        * intros [H|[H|H]]; try discriminate. rewrite EN, H. reflexivity.
      + assert (EN : new_place M A (tbranches d) (p :: r) = follower (p :: r)) by (unfold new_place; now rewrite EF).
        rewrite EN in *. split; [now apply tundo_follower|]. split; [exists (a, m'); apply G|].
        split; [now apply follower_nonempty|auto]. }
  destruct X as (bs' & new & c & EA & G & NE & EU & EU2 & (r & EL) & NC & HC).
  exists (T c (tpaused d) (tinit d) bs' (tpending d)), new.
  assert (O : one_step d (T c (tpaused d) (tinit d) bs' (tpending d)) a m' new) by (now apply grown_step).
  split; [unfold tupdate_act; now rewrite HP, ES, ER, EA, HP|]. split; [|auto 10].
  constructor; cbn [tinit tcursor tbranches tpaused tpending]; auto.
  - apply V.
  - rewrite tlookup_cons by auto. cbn [tbranches]. rewrite EL. simpl. eauto.
  - intros c1 a1 m1 EL1. destruct (list_eq_dec pos_dec c1 new) as [->|N].
    + rewrite (o_here _ _ _ _ _ O) in EL1. injection EL1 as <- <-. rewrite EU.
      assert (NN : tcursor d <> new).
      { intros E. destruct (tv_cur _ _ V) as (x & EX). rewrite E, (o_new _ _ _ _ _ O) in EX. discriminate. }
      rewrite (o_rest _ _ _ _ _ O) by auto.
      destruct (tv_cur _ _ V) as ([x mx] & EX). unfold tshown in ES. rewrite EX in *. simpl in ES. injection ES as ->. eauto.
    + rewrite (o_rest _ _ _ _ _ O) in EL1 by auto.
      destruct (tv_tree _ _ V _ _ _ EL1) as (x & m2 & e2 & EX & ER2). exists x, m2, e2. split; auto.
      rewrite (o_rest _ _ _ _ _ O); auto. intros E. rewrite E, (o_new _ _ _ _ _ O) in EX. discriminate.
  - intros c1 k H. destruct (g_branches _ _ _ _ _ _ _ G _ _ H) as [H1|H1].
    + pose proof (tv_full _ _ V _ _ H1) as H2. rewrite (g_rest _ _ _ _ _ _ _ G); auto.
      intros E. rewrite E in H2. now rewrite (g_new _ _ _ _ _ _ _ G) in H2.
    + rewrite H1, (g_here _ _ _ _ _ _ _ G). discriminate.
  - apply V.
Qed.

Lemma same_tree : forall m0 (d : tmodel) c p q, tvalid m0 d -> (exists r, tlookup d c = Some r) -> (p = false -> q = []) ->
  tvalid m0 (T c p (tinit d) (tbranches d) q).
Proof. intros m0 d c p q [] HC HP. constructor; auto. Qed.
Lemma shown_some : forall m0 d, tvalid m0 d -> exists m, tshown d = Some m.
Proof. intros m0 d V. destruct (tv_cur _ _ V) as ([x m] & E). exists m. unfold tshown. now rewrite E. Qed.
Definition grows (d d' : tmodel) : Prop := forall c r, tlookup d c = Some r -> tlookup d' c = Some r.
Lemma one_step_grows : forall d d' a m new, one_step d d' a m new -> grows d d'.
Proof.
  intros d d' a m new O c r E. rewrite (o_rest _ _ _ _ _ O); auto. intros ->. rewrite (o_new _ _ _ _ _ O) in E. discriminate.
Qed.
(** An ordinary action in any state. *)
Lemma act_valid : forall m0 d a, tvalid m0 d -> tpaused d = false ->
  tupdate_act reducer d a = Fine None \/
  exists d' e, tupdate_act reducer d a = Fine (Some (d', e)) /\ tvalid m0 d' /\ tpaused d' = false /\ grows d d'.
Proof.
  intros m0 d a V HP. destruct (shown_some _ _ V) as (m & ES).
  destruct (reducer m a) as [[m' e]|] eqn:ER.
  - destruct (act_step _ _ _ _ _ _ V HP ES ER) as (d' & new & E & V' & HP' & _ & O & _).
    right. exists d', (teff e). split; auto. split; auto. split; auto. eapply one_step_grows; eauto.
  - left. unfold tupdate_act. now rewrite HP, ES, ER.
Qed.
Lemma resume_none : forall l, fold_left (tresume1 reducer) l (Fine None) = Fine None.
Proof. induction l; simpl; auto. Qed.
Lemma resume_valid : forall m0 l d e, tvalid m0 d -> tpaused d = false ->
  fold_left (tresume1 reducer) l (Fine (Some (d, e))) = Fine None \/
  exists d' e', fold_left (tresume1 reducer) l (Fine (Some (d, e))) = Fine (Some (d', e')) /\
    tvalid m0 d' /\ tpaused d' = false /\ grows d d'.
Proof.
  intros m0. induction l as [|a l IH]; intros d e V HP; simpl.
  - right. exists d, e. split; auto. split; auto. split; auto. now intros c r.
  - destruct (act_valid _ _ a V HP) as [->|(d1 & e1 & -> & V1 & HP1 & G1)].
    + left. apply resume_none.
    + destruct (IH d1 (sequence e e1) V1 HP1) as [E|(d2 & e2 & E & V2 & HP2 & G2)]; [left; exact E|].
      right. exists d2, e2. split; auto. split; auto. split; auto. intros c r H. apply G2, G1, H.
Qed.
Lemma tundo_nil : tundo [] = [].
Proof. reflexivity. Qed.
Lemma undo_valid : forall m0 d, tvalid m0 d -> exists r, tlookup d (tundo (tcursor d)) = Some r.
Proof.
  intros m0 d V. destruct (tv_cur _ _ V) as ([x m] & E). destruct (tcursor d) as [|p c] eqn:EC.
  - rewrite tundo_nil. simpl. eauto.
  - rewrite tlookup_cons in E by discriminate.
    destruct (do_lookup (tbranches d) (p :: c)) as [[a m1]|] eqn:EL; [|discriminate].
    assert (E2 : tlookup d (p :: c) = Some (Some a, m1)) by (rewrite tlookup_cons, EL by discriminate; reflexivity).
    destruct (tv_tree _ _ V _ _ _ E2) as (y & m2 & e2 & E3 & _). eauto.
Qed.
Lemma step_valid : forall m0 d x, tvalid m0 d -> exists d', tstep_model d x = Fine d' /\ tvalid m0 d' /\ grows d d'.
Proof.
  intros m0 d x V. assert (G0 : grows d d) by (intros c r; auto). unfold DebuggerModel.tstep_model.
  destruct x as [a|c| | | |]; cbn [DebuggerModel.tupdate].
  - destruct (tpaused d) eqn:HP.
    + unfold tupdate_act. rewrite HP. eexists. split; [reflexivity|]. split; auto.
      apply same_tree; auto; [apply V|discriminate].
    + destruct (act_valid _ _ a V HP) as [->|(d1 & e1 & -> & V1 & HP1 & G1)]; eauto.
  - eexists. split; [reflexivity|]. unfold check. destruct (tlookup d c) eqn:E; auto. split; auto.
    apply same_tree; eauto. apply V.
  - eexists. split; [reflexivity|]. split; auto. apply same_tree; auto; [now apply (undo_valid m0)|apply V].
  - eauto.
  - eexists. split; [reflexivity|]. split; auto. apply same_tree; auto; [apply V|discriminate].
  - assert (V1 : tvalid m0 (T (tcursor d) false (tinit d) (tbranches d) [])) by (apply same_tree; auto; apply V).
    destruct (resume_valid m0 (tpending d) _ noop V1 eq_refl) as [->|(d1 & e1 & -> & V2 & _ & G)]; eauto.
Qed.
Lemma init_tvalid : forall m0, tvalid m0 (tinit_model m0).
Proof.
  intros m0. constructor; simpl; eauto.
  - intros [|p c] a m H; simpl in H; [discriminate|]. destruct (branch p); discriminate.
  - intros [|p c] k H; simpl in H; [lia|]. destruct (branch p); simpl in H; lia.
Qed.
Lemma steps_valid : forall m0 xs d, tvalid m0 d -> exists d', tsteps xs d = Fine d' /\ tvalid m0 d' /\ grows d d'.
Proof.
  intros m0. induction xs as [|x xs IH]; intros d V; simpl.
  - exists d. split; auto. split; auto. now intros c r.
  - destruct (step_valid m0 d x V) as (d1 & -> & V1 & G1). destruct (IH d1 V1) as (d2 & E & V2 & G2).
    exists d2. split; auto. split; auto. intros c r H. apply G2, G1, H.
Qed.
Lemma reached_tvalid : forall m0 xs d, tsteps xs (tinit_model m0) = Fine d -> tvalid m0 d.
Proof.
  intros m0 xs d E. destruct (steps_valid m0 xs _ (init_tvalid m0)) as (d' & E' & V & _). congruence.
Qed.
Lemma moves_keep_tree : forall (d : tmodel) x, match x with TGoto _ | TUndo | TPause => True | _ => False end ->
  exists d', tstep_model d x = Fine d' /\ tbranches d' = tbranches d /\ tinit d' = tinit d.
Proof.
  intros d x H. unfold DebuggerModel.tstep_model. destruct x; try contradiction; cbn [DebuggerModel.tupdate];
    eexists; (split; [reflexivity|]); auto. destruct (check d c); auto.
Qed.

(** ** Pausing *)
Definition trunning (d : tmodel) : tmodel := T (tcursor d) false (tinit d) (tbranches d) [].
Lemma tresume_fold : forall m0 l d e, tvalid m0 d -> tpaused d = false ->
  forall d' e', fold_left (tresume1 reducer) l (Fine (Some (d, e))) = Fine (Some (d', e')) ->
  tsteps (map TAct l) d = Fine d'.
Proof.
  intros m0. induction l as [|a l IH]; intros d e V HP d' e' E; simpl in E |- *; [congruence|].
  unfold DebuggerModel.tstep_model. cbn [DebuggerModel.tupdate].
  destruct (act_valid _ _ a V HP) as [E1|(d1 & e1 & E1 & V1 & HP1 & G1)]; rewrite E1 in *.
  - rewrite resume_none in E. discriminate.
  - eapply IH; eauto.
Qed.
Lemma tpaused_act : forall (d : tmodel) a, tpaused d = true ->
  tupdate d (TAct a) = Fine (Some (T (tcursor d) true (tinit d) (tbranches d) (tpending d ++ [a]), noop)).
Proof. intros d a H. cbn [DebuggerModel.tupdate]. unfold tupdate_act. now rewrite H. Qed.
Lemma tresume : forall m0 d d' e, tvalid m0 d -> tupdate d TResume = Fine (Some (d', e)) ->
  tsteps (map TAct (tpending d)) (trunning d) = Fine d'.
Proof.
  intros m0 d d' e V E. cbn [DebuggerModel.tupdate] in E.
  destruct (fold_left (tresume1 reducer) (tpending d) _) as [[[d1 e1]|]|] eqn:EF; try discriminate.
  injection E as <- <-. eapply (tresume_fold m0); [| |exact EF]; auto. apply same_tree; auto. apply V.
Qed.

(** ** Of reachable states *)
Variable m0 : M.
Notation after := (fun xs d => tsteps xs (tinit_model m0) = Fine d).
Lemma tree_defined : forall xs, exists d, after xs d /\ exists r, tlookup d (tcursor d) = Some r.
Proof.
  intros xs. destruct (steps_valid m0 xs _ (init_tvalid m0)) as (d & E & V & _). exists d. split; auto. apply V.
Qed.
Lemma tsteps_app : forall xs ys d d1, tsteps xs d = Fine d1 -> tsteps (xs ++ ys) d = tsteps ys d1.
Proof.
  induction xs as [|x xs IH]; intros ys d d1 E; simpl in *; [congruence|]. destruct (tstep_model d x); [auto|discriminate].
Qed.
Lemma tree_grows : forall xs ys d d', after xs d -> after (xs ++ ys) d' ->
  forall c r, tlookup d c = Some r -> tlookup d' c = Some r.
Proof.
  intros xs ys d d' E1 E2. cbv beta in *. rewrite (tsteps_app _ _ _ _ E1) in E2.
  destruct (steps_valid m0 ys d (reached_tvalid _ _ _ E1)) as (d2 & E & _ & G).
  rewrite E in E2. injection E2 as <-. exact G.
Qed.
Lemma tree_one_step : forall xs d a m m' e, after xs d -> tpaused d = false -> tshown d = Some m ->
  reducer m a = Some (m', e) ->
  exists d' new, tupdate d (TAct a) = Fine (Some (d', teff e)) /\
    tlookup d new = None /\ tlookup d' new = Some (Some a, m') /\
    (forall c, c <> new -> tlookup d' c = tlookup d c) /\
    tundo new = tcursor d /\
    exists d'', tstep_model d' TUndo = Fine d'' /\ tcursor d'' = tcursor d.
Proof.
  intros xs d a m m' e R HP ES ER.
  destruct (act_step m0 d a m m' e (reached_tvalid _ _ _ R) HP ES ER) as (d' & new & E & V & HP' & _ & O & EU & _).
  destruct O as [O1 O2 O3 O4]. exists d', new. split; [exact E|]. split; auto. split; auto. split; auto. split; auto.
  eexists. split; [reflexivity|]. exact EU.
Qed.
Lemma tree_moves : forall xs d x, after xs d -> match x with TGoto _ | TUndo | TPause => True | _ => False end ->
  exists d', tstep_model d x = Fine d' /\ forall c, tlookup d' c = tlookup d c.
Proof.
  intros xs d x _ H. destruct (moves_keep_tree d x H) as (d' & E & E1 & E2). exists d'. split; auto.
  intros c. unfold tlookup. now rewrite E1, E2.
Qed.
Lemma tree_undo : forall xs d, after xs d -> exists d', tstep_model d TUndo = Fine d' /\
  match tlookup d (tcursor d) with
  | Some (Some a, m) => exists m1 e, tshown d' = Some m1 /\ reducer m1 a = Some (m, e)
  | _ => d' = d
  end.
Proof.
  intros xs d R. pose proof (reached_tvalid _ _ _ R) as V. eexists. split; [reflexivity|].
  destruct (tv_cur _ _ V) as ([[a|] m] & E); rewrite E.
  - destruct (tv_tree _ _ V _ _ _ E) as (x & m1 & e & E1 & E2). exists m1, e. split; auto.
    unfold tshown. cbn [tcursor]. unfold tlookup in *. cbn [tinit tbranches]. now rewrite E1.
  - destruct (tcursor d) as [|p c] eqn:EC.
    + rewrite tundo_nil, <- EC. now destruct d.
    + exfalso. rewrite tlookup_cons in E by discriminate. destruct (do_lookup _ _); discriminate.
Qed.
Lemma tree_goto : forall xs d c, after xs d -> exists d', tstep_model d (TGoto c) = Fine d' /\
  match tlookup d c with
  | Some (_, m) => tcursor d' = c /\ tshown d' = Some m
  | None => d' = d
  end.
Proof.
  intros xs d c _. eexists. split; [reflexivity|]. unfold check. destruct (tlookup d c) as [[a m]|] eqn:E; auto.
  split; auto. unfold tshown. cbn [tcursor]. unfold tlookup in *. cbn [tinit tbranches]. now rewrite E.
Qed.
Lemma tree_shows : forall xs d a m m' e, after xs d -> tpaused d = false -> tshown d = Some m ->
  reducer m a = Some (m', e) ->
  tcursor d = [] \/ tlookup d (follower (tcursor d)) = None \/ branches_at (tbranches d) (tcursor d) = 0 ->
  exists d', tupdate d (TAct a) = Fine (Some (d', teff e)) /\
    tlookup d (tcursor d') = None /\ tlookup d' (tcursor d') = Some (Some a, m') /\ tshown d' = Some m'.
Proof.
  intros xs d a m m' e R HP ES ER HC.
  destruct (act_step m0 d a m m' e (reached_tvalid _ _ _ R) HP ES ER) as (d' & new & E & V & HP' & _ & O & EU & X).
  exists d'. rewrite (X HC). split; [exact E|]. split; [apply O|]. split; [apply O|].
  unfold tshown. rewrite (X HC), (o_here _ _ _ _ _ O). reflexivity.
Qed.
Lemma tree_first_branch : forall xs d a m m' e, after xs d -> tpaused d = false -> tshown d = Some m ->
  reducer m a = Some (m', e) ->
  tcursor d <> [] -> tlookup d (follower (tcursor d)) <> None ->
  exists d', tupdate d (TAct a) = Fine (Some (d', teff e)) /\ tcursor d' = tcursor d ++ [Pos 0 0].
Proof.
  intros xs d a m m' e R HP ES ER HC HF. pose proof (reached_tvalid _ _ _ R) as V.
  cbn [DebuggerModel.tupdate]. unfold tupdate_act, append. rewrite HP, ES, ER.
  destruct (tv_cur _ _ V) as ([x y] & EL). rewrite tlookup_cons in EL by auto.
  destruct (do_lookup (tbranches d) (tcursor d)) as [z|] eqn:EL2; [|discriminate].
  rewrite tlookup_cons in HF by now apply follower_nonempty.
  destruct (append_ok M A a m' (tcursor d) (tbranches d) [] z HC EL2) as (bs' & EA & G). cbn [app length] in EA.
  destruct (do_lookup (tbranches d) (follower (tcursor d))); [|now destruct HF].
  destruct (tcursor d) as [|p1 c1]; [congruence|]. rewrite EA. eexists. split; [reflexivity|]. reflexivity.
Qed.
End Inv.
