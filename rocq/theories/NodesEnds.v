(** C77: writes and commits come to an end; proofs. *)
From Coq Require Import List Arith Bool Lia Permutation.
From Verif Require Import NodesModel NodesBase NodesDropRun NodesEndsSpec.
Import ListNotations.

Section Ends.
Context {V W : Type}.
Variable changed : V -> V -> bool.
Variable ordV : graph V W -> nat -> list (nat * V) -> list (nat * V).
Variable ordN : graph V W -> nat -> list nat -> list nat.
Hypothesis ordV_in : forall g n l x, In x (ordV g n l) -> In x l.
Notation exec := (exec changed ordV ordN).
Notation runs := (runs changed ordV ordN).
Notation graph := (graph V W).
Notation st := (st V W).
Notation res := (res V W).
Notation task := (task V W).

(** ** The invariant and what gets smaller *)
Definition Ok (g : graph) : Prop :=
  par_lt g /\ (forall n, calm (kind_of g n)) /\ (forall n sl, In sl (slots g n) -> forall v o, looks (snd sl v o)).
Definition count (g : graph) : nat := length (filter (nn g) (seq 0 (cnt g))).
Definition le (g g' : graph) : Prop :=
  count g' <= count g /\ forall m from, from_count from (slots g' m) <= from_count from (slots g m).
Lemma le_refl : forall g, le g g.
Proof. intros g. split; intros; apply le_n. Qed.
Lemma le_trans : forall a b c, le a b -> le b c -> le a c.
Proof. intros a b c [A B] [C D]. split; [lia|]. intros m from. specialize (B m from). specialize (D m from). lia. Qed.
Lemma ok_same : forall g g', (forall n, kind_of g' n = kind_of g n) -> (forall n, parents g' n = parents g n) ->
  (forall n, slots g' n = slots g n) -> Ok g -> Ok g'.
Proof.
  intros g g' K P S (A & B & C). split; [|split].
  - intros n p H. rewrite P in H. exact (A n p H).
  - intros n. rewrite K. apply B.
  - intros n sl H. rewrite S in H. exact (C n sl H).
Qed.
Lemma ok_ss : forall g g', same_struct g g' -> Ok g -> Ok g'.
Proof. intros g g' []. apply ok_same; auto. Qed.
Lemma count_ext : forall g g', cnt g' = cnt g -> (forall n, nn g' n = nn g n) -> count g' = count g.
Proof. intros g g' C N. unfold count. rewrite C. f_equal. apply filter_ext. exact N. Qed.
Lemma le_same : forall g g', cnt g' = cnt g -> (forall n, nn g' n = nn g n) -> (forall n, slots g' n = slots g n) -> le g g'.
Proof.
  intros g g' C N S. split; [rewrite (count_ext g g' C N); apply le_n|]. intros m from. rewrite S. apply le_n.
Qed.
Lemma filter_le : forall X (p : X -> bool) l, length (filter p l) <= length l.
Proof. induction l as [|x l IH]; cbn; [lia|]. destruct (p x); cbn; lia. Qed.
Lemma from_count_filter : forall (p : slot V W -> bool) l from, from_count from (filter p l) <= from_count from l.
Proof.
  unfold from_count. induction l as [|x l IH]; intros from; cbn; [lia|]. specialize (IH from).
  destruct (p x); cbn; destruct (from <=? fst x); cbn; lia.
Qed.
Lemma count_off : forall g n h, n < cnt g -> nn g n = true -> (forall a, n_nn (h a) = false) ->
  count (upd g n h) < count g.
Proof.
  intros g n h L N H. unfold count. cbn [upd cnt].
  assert (forall l, length (filter (nn (upd g n h)) l) <= length (filter (nn g) l) /\
    (In n l -> length (filter (nn (upd g n h)) l) < length (filter (nn g) l))) as K.
  { induction l as [|m l [IH1 IH2]]; cbn; [split; [lia|contradiction]|].
    destruct (Nat.eq_dec m n) as [->|D].
    - assert (nn (upd g n h) n = false) as -> by (unfold nn; rewrite nd_upd_same; apply H). rewrite N. cbn. split; [lia|]. intros _. lia.
    - assert (nn (upd g n h) m = nn g m) as -> by (unfold nn; rewrite nd_upd_other by exact D; reflexivity).
      destruct (nn g m); cbn; (split; [lia|]); intros [E|E]; try congruence; specialize (IH2 E); lia. }
  apply K. apply in_seq. lia.
Qed.

(** ** Results *)
Definition good (g : graph) (r : res) : Prop :=
  match r with Done s' | Thrown s' => Ok (gr s') /\ le g (gr s') | OutOfFuel => False | _ => True end.
Definition ends (t : task) (s : st) : Prop := exists r, runs t s r /\ good (gr s) r.
Lemma good_le : forall g g' r, le g g' -> good g' r -> good g r.
Proof. intros g g' [s|s| | |] L H; try exact H; destruct H as [A B]; (split; [exact A|]); exact (le_trans _ _ _ L B). Qed.
Lemma runs_now : forall t s r, (forall f, exec (S f) t s = r) -> runs t s r.
Proof. intros t s r H. exists 1. intros [|f] L; [lia|]. apply H. Qed.
Lemma ends_now : forall t s r, (forall f, exec (S f) t s = r) -> good (gr s) r -> ends t s.
Proof. intros t s r H G. exists r. split; [apply runs_now, H|exact G]. Qed.
(** A task that goes on with another one after the first. *)
Lemma ends_then : forall t s t1 s1 (k : res -> nat -> res),
  (forall f, exec (S f) t s = k (exec f t1 s1) f) -> ends t1 s1 -> le (gr s) (gr s1) ->
  (forall r, good (gr s1) r -> exists r', (exists f, forall g, f <= g -> k r g = r') /\ good (gr s) r') -> ends t s.
Proof.
  intros t s t1 s1 k E (r & (f & F) & G) L H. destruct (H r G) as (r' & (f2 & F2) & G2).
  exists r'. split; [|exact G2]. exists (S (f + f2)). intros [|g] Lg; [lia|]. rewrite E, F by lia. apply F2. lia.
Qed.

(** ** Commands that only look *)
Lemma link_to_nd : forall n ps (g : graph) m,
  n_kind (nd (link_to n ps g) m) = n_kind (nd g m) /\ n_parents (nd (link_to n ps g) m) = n_parents (nd g m) /\
  n_slots (nd (link_to n ps g) m) = n_slots (nd g m) /\ n_nn (nd (link_to n ps g) m) = n_nn (nd g m).
Proof.
  intros n. induction ps as [|p ps IH]; intros g m; [repeat split; reflexivity|]. cbn [link_to fold_left].
  change (fold_left _ ps ?x) with (link_to n ps x).
  destruct (IH (upd g p (fun a => set_children (n_children a ++ [n]) a)) m) as (A & B & C & D).
  rewrite A, B, C, D. unfold upd. cbn [nd]. destruct (m =? p); repeat split; reflexivity.
Qed.
Lemma link_to_cnt : forall n ps (g : graph), cnt (link_to n ps g) = cnt g.
Proof. intros n. induction ps as [|p ps IH]; intros g; [reflexivity|]. cbn [link_to fold_left].
  change (fold_left _ ps ?x) with (link_to n ps x). rewrite IH. reflexivity. Qed.
Lemma add_ok : forall k ps v (g : graph), Ok g -> calm k -> (forall p, In p ps -> p < cnt g) ->
  Ok (add_node k ps v g) /\ le g (add_node k ps v g).
Proof.
  intros k ps v g (A & B & C) K P. unfold add_node.
  match goal with |- context [link_to ?n ?ps ?x] => set (g1 := x); assert (L := link_to_nd n ps g1); assert (E := link_to_cnt n ps g1);
    set (g2 := link_to n ps g1) in * end.
  assert (forall m, nd g1 m = if m =? cnt g then Node k ps [] v v false false false false [] 1 [] else nd g m) as N by reflexivity.
  split; [split; [|split]|split].
  - intros n p H. unfold parents in H. destruct (L n) as (_ & -> & _) in H. rewrite N in H.
    destruct (Nat.eqb_spec n (cnt g)) as [->|D]; [cbn in H; apply P, H|exact (A n p H)].
  - intros n. unfold kind_of. destruct (L n) as (-> & _). rewrite N. destruct (n =? cnt g); [exact K|apply B].
  - intros n sl H. unfold slots in H. destruct (L n) as (_ & _ & R & _). rewrite R, N in H.
    destruct (n =? cnt g); [destruct H|exact (C n sl H)].
  - unfold count. rewrite E. cbn [g1 cnt]. rewrite seq_S, filter_app. cbn [plus filter].
    assert (nn g2 (cnt g) = false) as ->.
    { unfold nn. destruct (L (cnt g)) as (_ & _ & _ & R). rewrite R, N, Nat.eqb_refl. reflexivity. }
    rewrite app_nil_r. apply Nat.eq_le_incl. f_equal. apply filter_ext_in. intros m H. apply in_seq in H. unfold nn.
    destruct (L m) as (_ & _ & _ & R). rewrite R, N. destruct (Nat.eqb_spec m (cnt g)); [lia|reflexivity].
  - intros m from. unfold slots. destruct (L m) as (_ & _ & R & _). rewrite R, N.
    destruct (m =? cnt g); [cbn; lia|apply le_n].
Qed.
Lemma handle_lt : forall (g : graph) n, handle g n = true -> n < cnt g.
Proof. intros g n H. apply andb_true_iff in H as [H _]. apply Nat.ltb_lt, H. Qed.
Lemma new_ends : forall k ps d s, Ok (gr s) -> calm k -> ends (TCmd (CNew k ps d)) s.
Proof.
  intros k ps d s O K. eapply ends_now; [intros f; cbn [NodesModel.exec]; reflexivity|].
  destruct (_ && _ && _) eqn:E; [|exact I]. destruct (initial _ _ _ _) as [v|]; [|split; [exact O|apply le_refl]].
  cbn [good gr with_gr emit]. apply add_ok; [exact O|exact K|]. intros p H.
  apply andb_true_iff in E as [E _]. apply andb_true_iff in E as [E _]. rewrite forallb_forall in E. apply handle_lt, E, H.
Qed.
Lemma quiet_ends : forall c s, Ok (gr s) -> quiet c -> ends (TCmd c) s.
Proof.
  intros c s O Q. destruct Q as [n v|k ps d K|n|n i|w].
  - eapply ends_now; [intros f; cbn [NodesModel.exec]; reflexivity|]. destruct (handle _ _); [|exact I]. destruct (kind_of _ _); try exact I.
    assert (F := fc_push_down changed n v (gr s)). cbn. split; [exact (ok_ss _ _ (fc_ss _ _ _ F) O)|].
    apply le_same; [apply (ss_cnt _ _ (fc_ss _ _ _ F))|apply (fc_nn _ _ _ F)|apply (ss_slots _ _ (fc_ss _ _ _ F))].
  - apply new_ends; assumption.
  - eapply ends_now; [intros f; cbn [NodesModel.exec]; reflexivity|]. destruct (_ && _); [|exact I]. cbn.
    assert (forall X (h : node V W -> X), (forall a x, h (set_held x a) = h a) ->
      forall m, h (nd (upd (gr s) n (fun a => set_held (pred (n_held a)) a)) m) = h (nd (gr s) m)) as U.
    { intros X h H m. unfold upd. cbn [nd]. destruct (m =? n); [apply H|reflexivity]. }
    split.
    + apply (ok_same (gr s)); [intros m; apply (U _ (@n_kind V W))|intros m; apply (U _ (@n_parents V W))|intros m; apply (U _ (@n_slots V W))|exact O]; reflexivity.
    + apply le_same; [reflexivity|intros m; apply (U _ (@n_nn V W))|intros m; apply (U _ (@n_slots V W))]; reflexivity.
  - eapply ends_now; [intros f; cbn [NodesModel.exec]; reflexivity|]. destruct (_ && _); [|exact I]. cbn [good gr with_gr].
    set (h := fun a : node V W => set_slots (filter (fun sl => negb (fst sl =? i)) (n_slots a)) a).
    assert (forall m, slots (upd (gr s) n h) m = if m =? n then filter (fun sl => negb (fst sl =? i)) (slots (gr s) m) else slots (gr s) m) as S.
    { intros m. unfold slots, upd. cbn [nd]. destruct (m =? n); reflexivity. }
    destruct O as (A & B & C). split; [split; [|split]|split].
    + intros m p H. apply (A m p). unfold parents, upd in *. cbn [nd] in H. destruct (m =? n); exact H.
    + intros m. specialize (B m). unfold kind_of, upd in *. cbn [nd]. destruct (m =? n); exact B.
    + intros m sl H. apply (C m sl). rewrite S in H. destruct (m =? n); [apply filter_In in H; apply H|exact H].
    + apply Nat.eq_le_incl, count_ext; [reflexivity|]. intros m. unfold nn, upd. cbn [nd]. destruct (m =? n); reflexivity.
    + intros m from. rewrite S. destruct (m =? n); [apply from_count_filter|apply le_n].
  - eapply ends_now; [intros f; cbn [NodesModel.exec]; reflexivity|]. cbn. split; [exact O|apply le_same; reflexivity].
Qed.

(** ** Code that only looks *)
Lemma looks_ends : forall p, looks p -> forall s, Ok (gr s) -> ends (TProg p) s.
Proof.
  intros p H. induction H as [| |c k Q H IH|p k H IH H2 IH2]; intros s O.
  - eapply ends_now; [intros f; cbn [NodesModel.exec]; reflexivity|]. split; [exact O|apply le_refl].
  - eapply ends_now; [intros f; cbn [NodesModel.exec]; reflexivity|]. split; [exact O|apply le_refl].
  - eapply (ends_then _ s (TCmd c) s (fun r f => andthen r (fun s' => exec f (TProg (k (get_obs s'))) (see s'))));
      [intros f; reflexivity|apply quiet_ends; assumption|apply le_refl|].
    intros r G. destruct r as [s'|s'| | |]; try contradiction; try (eexists; split; [exists 0; intros; cbn [andthen finally]; reflexivity|exact G]).
    destruct G as [O' L]. destruct (IH (get_obs s') (see s') O') as (r & F & G). exists r. split; [exact F|].
    exact (good_le _ _ _ L G).
  - eapply (ends_then _ s (TProg p) s (fun r f => match r with
        | Done s' => exec f (TProg (k true (get_obs s'))) (see s')
        | Thrown s' => exec f (TProg (k false (get_obs s'))) (see s')
        | r => r
        end)); [intros f; cbn [NodesModel.exec]; destruct (exec f (TProg p) s); reflexivity|apply IH, O|apply le_refl|].
    intros r G. destruct r as [s'|s'| | |]; try contradiction; try (eexists; split; [exists 0; intros; cbn [andthen finally]; reflexivity|exact G]).
    + destruct G as [O' L]. destruct (IH2 true (get_obs s') (see s') O') as (r & F & G). exists r. split; [exact F|].
      exact (good_le _ _ _ L G).
    + destruct G as [O' L]. destruct (IH2 false (get_obs s') (see s') O') as (r & F & G). exists r. split; [exact F|].
      exact (good_le _ _ _ L G).
Qed.

(** ** Notifications *)
Lemma slots_end : forall k n from s, from_count from (slots (gr s) n) < k -> Ok (gr s) -> ends (TSlots n from) s.
Proof.
  induction k as [|k IH]; intros n from s L O; [lia|].
  destruct (next_slot from (slots (gr s) n)) as [[sid cb]|] eqn:E.
  - assert (L2 := from_count_next _ _ _ _ E). assert (In (sid, cb) (slots (gr s) n)) as Hin by exact (next_in _ _ _ _ E).
    set (s1 := emit (ECall n sid (last (gr s) n) (gr s)) s).
    eapply (ends_then _ s (TProg (cb (last (gr s) n) (get_obs s1))) s1 (fun r f => match r with
        | Done s2 => if alive (gr s2) n then
                       if existsb (fun sl => fst sl =? sid) (slots (gr s2) n) then exec f (TSlots n (S sid)) s2 else UBuser
                     else gone n s2
        | Thrown s2 => Thrown (emit (EEscape n sid) s2)
        | r => r
        end)).
    + intros f. cbn [NodesModel.exec]. rewrite E. fold s1. destruct (exec f (TProg _) s1); reflexivity.
    + apply looks_ends; [|exact O]. destruct O as (_ & _ & C). exact (C n _ Hin _ _).
    + apply le_refl.
    + intros r G. destruct r as [s2|s2| | |]; try contradiction.
      * destruct G as [O2 [Lc Ls]]. destruct (alive (gr s2) n) eqn:A.
        -- destruct (existsb _ _) eqn:X.
           ++ destruct (IH n (S sid) s2) as (r & F & G); [|exact O2|].
              { specialize (Ls n (S sid)). cbn [s1 gr emit] in Ls. lia. }
              exists r. split; [exact F|]. apply (good_le _ (gr s2)); [split; assumption|exact G].
           ++ eexists. split; [exists 0; intros; cbn [andthen finally]; reflexivity|exact I].
        -- eexists. split; [exists 0; intros; cbn [andthen finally]; reflexivity|]. unfold gone. destruct (is_root _); exact I.
      * eexists. split; [exists 0; intros; cbn [andthen finally]; reflexivity|]. exact G.
      * eexists. split; [exists 0; intros; cbn [andthen finally]; reflexivity|]. exact I.
      * eexists. split; [exists 0; intros; cbn [andthen finally]; reflexivity|]. exact I.
  - eapply ends_now; [intros f; cbn [NodesModel.exec]; rewrite E; reflexivity|]. split; [exact O|apply le_refl].
Qed.
Lemma le_pins : forall (g : graph) ps, le g (set_pins g ps).
Proof. intros g ps. apply le_same; reflexivity. Qed.
Lemma kids_end : forall k n, (forall c s, count (gr s) < k -> Ok (gr s) -> ends (TNotify c) s) ->
  forall d i size garbage old s, size - i = d -> count (gr s) < k -> Ok (gr s) -> ends (TKids n i size garbage old) s.
Proof.
  intros k n N. induction d as [|d IH]; intros i size garbage old s D L O.
  - eapply ends_now; [intros f; cbn [NodesModel.exec]; destruct (Nat.ltb_spec i size); [lia|]; reflexivity|].
    destruct (_ && _); [|split; [exact O|apply le_refl]]. cbn [good with_gr gr]. unfold collect.
    set (h := set_children (V := V) (W := W) (filter (alive (gr s)) (children (gr s) n))).
    assert (forall X (p : node V W -> X), (forall a, p (h a) = p a) -> forall m, p (nd (upd (gr s) n h) m) = p (nd (gr s) m)) as U.
    { intros X p H m. unfold upd. cbn [nd]. destruct (m =? n); [apply H|reflexivity]. }
    split.
    + apply (ok_same (gr s)); [intros m; apply (U _ (@n_kind V W))|intros m; apply (U _ (@n_parents V W))|intros m; apply (U _ (@n_slots V W))|exact O]; reflexivity.
    + apply le_same; [reflexivity|intros m; apply (U _ (@n_nn V W))|intros m; apply (U _ (@n_slots V W))]; reflexivity.
  - assert (i <? size = true) as Lt by (apply Nat.ltb_lt; lia).
    destruct (nth_error (children (gr s) n) i) as [c|] eqn:E.
    + destruct (alive (gr s) c) eqn:A.
      * eapply (ends_then _ s (TNotify c) (pin c s) (fun r f => andthen (finally r unpin) (fun s2 =>
          if alive (gr s2) n then exec f (TKids n (S i) size garbage old) s2 else gone n s2))).
        -- intros f. cbn [NodesModel.exec]. rewrite Lt, E, A. reflexivity.
        -- apply N; [exact L|exact O].
        -- apply le_pins.
        -- intros r G. destruct r as [s2|s2| | |]; try contradiction.
           ++ destruct G as [O2 L2]. cbn [finally andthen].
              assert (le (gr s) (gr (unpin s2))) as L3 by exact (le_trans _ _ _ (le_trans _ _ _ (le_pins _ _) L2) (le_pins _ _)).
              destruct (alive (gr (unpin s2)) n).
              ** destruct (IH (S i) size garbage old (unpin s2)) as (r & F & G); [lia| |exact O2|].
                 { destruct L3 as [L3 _]. lia. }
                 exists r. split; [exact F|exact (good_le _ _ _ L3 G)].
              ** eexists. split; [exists 0; intros; cbn [andthen finally]; reflexivity|]. unfold gone. destruct (is_root _); exact I.
           ++ destruct G as [O2 L2]. eexists. split; [exists 0; intros; cbn [andthen finally]; reflexivity|]. split; [exact O2|].
              exact (le_trans _ _ _ (le_trans _ _ _ (le_pins _ _) L2) (le_pins _ _)).
           ++ eexists. split; [exists 0; intros; cbn [andthen finally]; reflexivity|exact I].
           ++ eexists. split; [exists 0; intros; cbn [andthen finally]; reflexivity|exact I].
      * eapply (ends_then _ s (TKids n (S i) size true old) s (fun r _ => r)).
        -- intros f. cbn [NodesModel.exec]. rewrite Lt, E, A. reflexivity.
        -- apply IH; [lia|exact L|exact O].
        -- apply le_refl.
        -- intros r G. exists r. split; [exists 0; intros; cbn [andthen finally]; reflexivity|exact G].
    + eapply ends_now; [intros f; cbn [NodesModel.exec]; rewrite Lt, E; reflexivity|exact I].
Qed.
Lemma notify_ends : forall k n s, count (gr s) < k -> Ok (gr s) -> ends (TNotify n) s.
Proof.
  induction k as [|k IH]; intros n s L O; [lia|].
  destruct (alive (gr s) n) eqn:A; [|eapply ends_now; [intros f; cbn [NodesModel.exec]; rewrite A; cbn [negb]; reflexivity|exact I]].
  destruct (nn (gr s) n && negb (nsd (gr s) n)) eqn:B.
  2: { eapply ends_now; [intros f; cbn [NodesModel.exec]; rewrite A, B; cbn [negb]; reflexivity|split; [exact O|apply le_refl]]. }
  assert (n < cnt (gr s)) as Lt by exact (alive_cnt _ (proj1 O) _ A).
  apply andb_true_iff in B as B'. destruct B' as [Nn _].
  set (h := fun a : node V W => set_ntf true (set_nn false a)).
  set (s1 := with_gr s (fun g => upd g n h)).
  assert (forall (g : graph) h' X (p : node V W -> X), (forall a, p (h' a) = p a) -> forall m, p (nd (upd g n h') m) = p (nd g m)) as U.
  { intros g h' X p H m. unfold upd. cbn [nd]. destruct (m =? n); [apply H|reflexivity]. }
  assert (count (gr s1) < count (gr s)) as C1 by (apply count_off; [exact Lt|exact Nn|reflexivity]).
  assert (Ok (gr s1)) as O1.
  { apply (ok_same (gr s)); [intros m; apply (U (gr s) h _ (@n_kind V W))|intros m; apply (U (gr s) h _ (@n_parents V W))|intros m; apply (U (gr s) h _ (@n_slots V W))|exact O]; reflexivity. }
  assert (le (gr s) (gr s1)) as L1.
  { split; [lia|]. intros m from. assert (slots (gr s1) m = slots (gr s) m) as -> by (apply (U (gr s) h _ (@n_slots V W)); reflexivity). apply le_n. }
  set (old := ntf (gr s) n).
  assert (forall s3, Ok (gr s3) -> le (gr s) (gr s3) ->
    Ok (gr (with_gr s3 (fun g => upd g n (set_ntf old)))) /\ le (gr s) (gr (with_gr s3 (fun g => upd g n (set_ntf old))))) as R.
  { intros s3 O3 L3. split.
    - apply (ok_same (gr s3)); [intros m; apply (U (gr s3) (set_ntf old) _ (@n_kind V W))|intros m; apply (U (gr s3) (set_ntf old) _ (@n_parents V W))|intros m; apply (U (gr s3) (set_ntf old) _ (@n_slots V W))|exact O3]; reflexivity.
    - apply (le_trans _ _ _ L3). apply le_same; [reflexivity|intros m; apply (U (gr s3) (set_ntf old) _ (@n_nn V W))|intros m; apply (U (gr s3) (set_ntf old) _ (@n_slots V W))]; reflexivity. }
  set (fin := fun r : res => match r with
          | Done s3 => Done (with_gr s3 (fun g => upd g n (set_ntf old)))
          | Thrown s3 => if alive (gr s3) n then Thrown (with_gr s3 (fun g => upd g n (set_ntf old))) else gone n s3
          | r => r
          end).
  assert (forall r, good (gr s) r -> good (gr s) (fin r)) as Fin.
  { intros [s3|s3| | |] G; try exact G; cbn [fin good].
    - apply R; apply G.
    - destruct (alive (gr s3) n); [apply R; apply G|]. unfold gone. destruct (is_root _); exact I. }
  eapply (ends_then _ s (TSlots n 0) s1 (fun r f => fin (andthen r (fun s2 =>
            exec f (TKids n 0 (length (children (gr s2) n)) false old) s2)))).
  - intros f. cbn [NodesModel.exec]. rewrite A, B. cbn [negb]. fold h. fold s1. fold old.
    unfold fin. destruct (andthen _ _); reflexivity.
  - apply (slots_end (S (from_count 0 (slots (gr s1) n)))); [lia|exact O1].
  - exact L1.
  - intros r G. destruct r as [s2|s2| | |]; try contradiction.
    + destruct G as [O2 L2]. cbn [andthen].
      destruct (kids_end k n IH _ 0 (length (children (gr s2) n)) false old s2 eq_refl) as (r & (f & F) & G).
      { destruct L2 as [L2 _]. lia. } { exact O2. }
      exists (fin r). split; [exists f; intros g Lg; rewrite F by exact Lg; reflexivity|].
      apply Fin. exact (good_le _ _ _ (le_trans _ _ _ L1 L2) G).
    + exists (fin (Thrown s2)). split; [exists 0; intros; cbn [andthen finally]; reflexivity|]. apply Fin. exact (good_le _ _ _ L1 G).
    + exists UBuser. split; [exists 0; intros; cbn [andthen finally]; reflexivity|exact I].
    + exists UBlib. split; [exists 0; intros; cbn [andthen finally]; reflexivity|exact I].
Qed.
Lemma notify_ends_any : forall n s, Ok (gr s) -> ends (TNotify n) s.
Proof. intros n s O. apply (notify_ends (S (count (gr s)))); [lia|exact O]. Qed.
Lemma roots_end : forall ns s, Ok (gr s) -> ends (TRoots ns) s.
Proof.
  induction ns as [|n ns IH]; intros s O.
  - eapply ends_now; [intros f; cbn [NodesModel.exec]; reflexivity|]. split; [exact O|apply le_refl].
  - destruct (handle (gr s) n) eqn:H; [|eapply ends_now; [intros f; cbn [NodesModel.exec]; rewrite H; reflexivity|exact I]].
    eapply (ends_then _ s (TNotify n) s (fun r f => andthen r (fun s' => exec f (TRoots ns) s'))).
    + intros f. cbn [NodesModel.exec]. rewrite H. reflexivity.
    + apply notify_ends_any, O.
    + apply le_refl.
    + intros r G. destruct r as [s2|s2| | |]; try contradiction; try (eexists; split; [exists 0; intros; cbn [andthen finally]; reflexivity|exact G]).
      destruct G as [O2 L2]. destruct (IH s2 O2) as (r & F & G). exists r. split; [exact F|exact (good_le _ _ _ L2 G)].
Qed.

(** ** Writes and commits *)
Definition fine (r : res) : Prop :=
  match r with Done s' | Thrown s' => Ok (gr s') | OutOfFuel => False | _ => True end.
Definition stops (t : task) (s : st) : Prop := exists r, runs t s r /\ fine r.
Lemma ends_stops : forall t s, ends t s -> stops t s.
Proof. intros t s (r & F & G). exists r. split; [exact F|]. destruct r; try exact G; apply G. Qed.
Lemma stops_now : forall t s r, (forall f, exec (S f) t s = r) -> fine r -> stops t s.
Proof. intros t s r H G. exists r. split; [apply runs_now, H|exact G]. Qed.
Lemma stops_then : forall t s t1 s1 (k : res -> nat -> res),
  (forall f, exec (S f) t s = k (exec f t1 s1) f) -> stops t1 s1 ->
  (forall r, fine r -> exists r', (exists f, forall g, f <= g -> k r g = r') /\ fine r') -> stops t s.
Proof.
  intros t s t1 s1 k E (r & (f & F) & G) H. destruct (H r G) as (r' & (f2 & F2) & G2).
  exists r'. split; [|exact G2]. exists (S (f + f2)). intros [|g] Lg; [lia|]. rewrite E, F by lia. apply F2. lia.
Qed.
Lemma stops_andthen : forall t s t1 s1 (k : nat -> st -> res),
  (forall f, exec (S f) t s = andthen (exec f t1 s1) (k f)) -> stops t1 s1 ->
  (forall s', Ok (gr s') -> exists r', (exists f, forall g, f <= g -> k g s' = r') /\ fine r') -> stops t s.
Proof.
  intros t s t1 s1 k E S H. eapply (stops_then t s t1 s1 (fun r f => andthen r (k f))); [exact E|exact S|].
  intros r G. destruct r as [s'|s'| | |]; try contradiction;
    try (eexists; split; [exists 0; intros; cbn [andthen finally]; reflexivity|exact G]).
  apply H, G.
Qed.
Lemma stops_same : forall t s t1 s1, (forall f, exec (S f) t s = exec f t1 s1) -> stops t1 s1 -> stops t s.
Proof.
  intros t s t1 s1 E S. apply (stops_then t s t1 s1 (fun r _ => r)); [exact E|exact S|].
  intros r G. exists r. split; [exists 0; intros; reflexivity|exact G].
Qed.
Lemma send_roots_ok : forall ns s, Ok (gr s) -> Ok (gr (send_roots changed ns s)).
Proof.
  intros ns s. unfold send_roots. set (s0 := emit _ s). change (gr s) with (gr s0). clearbody s0. clear s. revert s0.
  induction ns as [|n ns IH]; intros s O; [exact O|]. cbn [fold_left]. apply IH. unfold send_down_node.
  exact (ok_ss _ _ (fs_ss _ _ (fs_send_down _ _ _ _)) O).
Qed.
Lemma push_down_ok : forall n v g, Ok g -> Ok (push_down changed n v g).
Proof. intros n v g O. exact (ok_ss _ _ (fc_ss _ _ _ (fc_push_down changed n v g)) O). Qed.
Lemma send_stops : forall n v s, Ok (gr s) -> stops (TSend n v) s.
Proof.
  induction n as [n IHn] using lt_wf_ind. intros v s O.
  destruct (alive (gr s) n) eqn:A; [|eapply stops_now; [intros f; cbn [NodesModel.exec]; rewrite A; reflexivity|exact I]].
  assert (forall l s', (forall p x, In (p, x) l -> p < n) -> Ok (gr s') -> stops (TPush l) s') as Push.
  { induction l as [|[p x] l IH]; intros s' H O'.
    - eapply stops_now; [intros f; cbn [NodesModel.exec]; reflexivity|exact O'].
    - eapply (stops_andthen _ s' (TSend p x) s' (fun f s2 => exec f (TPush l) s2)); [intros f; reflexivity| |].
      + apply IHn; [apply (H p x); left; reflexivity|exact O'].
      + intros s2 O2. destruct (IH s2) as (r & F & G); [intros q y Hq; apply (H q y); right; exact Hq|exact O2|].
        exists r. split; assumption. }
  assert (forall vs s', Ok (gr s') -> stops (TPushAll n vs) s') as PushAll.
  { induction vs as [|t vs IH]; intros s' O'.
    - eapply stops_now; [intros f; cbn [NodesModel.exec]; reflexivity|exact O'].
    - eapply (stops_andthen _ s' (TPush (ordV (gr s') n (combine (parents (gr s') n) t))) s'
                (fun f s2 => exec f (TPushAll n vs) s2)); [intros f; reflexivity| |].
      + apply Push; [|exact O']. intros p x H. apply ordV_in in H. apply in_combine_l in H. exact (proj1 O' n p H).
      + intros s2 O2. destruct (IH s2 O2) as (r & F & G). exists r. split; assumption. }
  assert (forall (rf : bool) (up : list V -> V -> list (list V)), stops (TPushAll n (up (current_from
      (gr (if rf then with_gr s (refresh changed ordN (S n) n) else s))
      (parents (gr (if rf then with_gr s (refresh changed ordN (S n) n) else s)) n)) v))
      (if rf then with_gr s (refresh changed ordN (S n) n) else s)) as Write.
  { intros rf up. apply PushAll. destruct rf; [|exact O].
    exact (ok_ss _ _ (fr_ss _ _ (fr_refresh changed ordN (S n) n (gr s))) O). }
  destruct (kind_of (gr s) n) as [auto|w| | |down up|step up|auto fn] eqn:K;
    try (eapply stops_now; [intros f; cbn [NodesModel.exec]; rewrite A, K; reflexivity|exact I]).
  - destruct auto.
    + eapply stops_same; [intros f; cbn [NodesModel.exec]; rewrite A, K; reflexivity|].
      apply ends_stops, notify_ends_any, send_roots_ok. apply (push_down_ok n v (gr s) O).
    + eapply stops_now; [intros f; cbn [NodesModel.exec]; rewrite A, K; reflexivity|]. apply (push_down_ok n v (gr s) O).
  - destruct up as [|rf up].
    + eapply stops_now; [intros f; cbn [NodesModel.exec]; rewrite A, K; reflexivity|exact I].
    + eapply stops_same; [intros f; cbn [NodesModel.exec]; rewrite A, K; reflexivity|]. apply Write.
  - destruct up as [|rf up].
    + eapply stops_now; [intros f; cbn [NodesModel.exec]; rewrite A, K; reflexivity|exact I].
    + eapply stops_same; [intros f; cbn [NodesModel.exec]; rewrite A, K; reflexivity|]. apply Write.
  - eapply (stops_andthen _ s (TProg (fn v (get_obs s))) (ask n v s) (fun f s' =>
              let s1 := with_gr s' (push_down changed n v) in
              if auto then
                exec f (TNotify n)
                  (send_roots changed [n] (with_gr s1 (fun g => upd g n (set_rcp true))))
              else Done s1)).
    + intros f. cbn [NodesModel.exec]. rewrite A, K. reflexivity.
    + apply ends_stops, looks_ends; [|exact O]. assert (C := proj1 (proj2 O) n). rewrite K in C. inversion C as [? ? H|? H]; subst; [apply H|destruct H].
    + intros s' O'. cbv zeta. destruct auto.
      * match goal with |- context [send_roots changed [n] ?x] => set (s1 := x) end.
        assert (Ok (gr s1)) as O1.
        { apply (ok_same (push_down changed n v (gr s'))); try (intros m; cbn; unfold kind_of, parents, slots, upd; cbn [nd]; destruct (m =? n); reflexivity).
          apply push_down_ok, O'. }
        destruct (ends_stops _ _ (notify_ends_any n _ (send_roots_ok [n] s1 O1))) as (r & F & G). exists r. split; assumption.
      * eexists. split; [exists 0; intros; reflexivity|]. apply (push_down_ok n v (gr s') O').
Qed.
Lemma finally_unpin : forall t s n v, (forall f, exec (S f) t s = finally (exec f (TSend n v) (pin n s)) unpin) ->
  Ok (gr s) -> stops t s.
Proof.
  intros t s n v E O. eapply (stops_then t s (TSend n v) (pin n s) (fun r _ => finally r unpin)); [exact E|apply send_stops, O|].
  intros r G. eexists. split; [exists 0; intros; reflexivity|]. destruct r; exact G.
Qed.
Lemma cmd_stops : forall c s, tame_cmd c -> Ok (gr s) -> stops (TCmd c) s.
Proof.
  intros c s T O. destruct c as [n v|n fn|ns|n v|k ps d|n|n cb|n i|w];
    try (apply ends_stops, quiet_ends; [exact O|constructor]).
  - destruct (handle (gr s) n) eqn:H; [|eapply stops_now; [intros f; cbn [NodesModel.exec]; rewrite H; reflexivity|exact I]].
    eapply (finally_unpin _ s n v); [|exact O]. intros f. cbn [NodesModel.exec]. rewrite H. reflexivity.
  - destruct (handle (gr s) n) eqn:H; [|eapply stops_now; [intros f; cbn [NodesModel.exec]; rewrite H; reflexivity|exact I]].
    eapply (finally_unpin _ s n); [|exact O]. intros f. cbn [NodesModel.exec]. rewrite H. reflexivity.
  - destruct (forallb (fun n => handle (gr s) n && is_root (kind_of (gr s) n)) ns) eqn:H; [|eapply stops_now; [intros f; cbn [NodesModel.exec]; rewrite H; reflexivity|exact I]].
    eapply stops_same; [intros f; cbn [NodesModel.exec]; rewrite H; reflexivity|].
    apply ends_stops, roots_end, send_roots_ok, O.
  - exact T.
  - destruct (handle (gr s) n) eqn:H; [|eapply stops_now; [intros f; cbn [NodesModel.exec]; rewrite H; reflexivity|exact I]].
    eapply stops_now; [intros f; cbn [NodesModel.exec]; rewrite H; reflexivity|]. cbn [fine gr].
    destruct O as (A & B & C). split; [|split].
    + intros m p X. apply (A m p). unfold parents, upd in *. cbn [nd] in X. destruct (m =? n); exact X.
    + intros m. specialize (B m). unfold kind_of, upd in *. cbn [nd]. destruct (m =? n); exact B.
    + intros m sl X. unfold slots, upd in X. cbn [nd] in X. destruct (Nat.eqb_spec m n) as [->|_].
      * cbn [set_slots n_slots] in X. apply in_app_iff in X. destruct X as [X|[<-|[]]]; [exact (C n sl X)|exact T].
      * exact (C m sl X).
Qed.
Lemma tame_stops : forall p, tame p -> forall s, Ok (gr s) -> stops (TProg p) s.
Proof.
  intros p H. induction H as [| |c k T H IH|p k H IH H2 IH2]; intros s O.
  - eapply stops_now; [intros f; cbn [NodesModel.exec]; reflexivity|exact O].
  - eapply stops_now; [intros f; cbn [NodesModel.exec]; reflexivity|exact O].
  - eapply (stops_andthen _ s (TCmd c) s (fun f s' => exec f (TProg (k (get_obs s'))) (see s')));
      [intros f; reflexivity|apply cmd_stops; assumption|].
    intros s' O'. destruct (IH (get_obs s') (see s') O') as (r & F & G). exists r. split; assumption.
  - eapply (stops_then _ s (TProg p) s (fun r f => match r with
        | Done s' => exec f (TProg (k true (get_obs s'))) (see s')
        | Thrown s' => exec f (TProg (k false (get_obs s'))) (see s')
        | r => r
        end)); [intros f; cbn [NodesModel.exec]; destruct (exec f (TProg p) s); reflexivity|apply IH, O|].
    intros r G. destruct r as [s'|s'| | |]; try contradiction; try (eexists; split; [exists 0; intros; reflexivity|exact G]).
    + destruct (IH2 true (get_obs s') (see s') G) as (r & F & G2). exists r. split; assumption.
    + destruct (IH2 false (get_obs s') (see s') G) as (r & F & G2). exists r. split; assumption.
Qed.
Theorem run_stops : forall dv w p, tame p ->
  exists fuel r, r <> OutOfFuel /\ forall f, fuel <= f -> run dv changed ordV ordN f w p = r.
Proof.
  intros dv w p T. destruct (tame_stops p T (init_st dv w)) as (r & (f & F) & G).
  { split; [|split].
    - intros n q H. destruct H.
    - intros n. apply K_other. exact I.
    - intros n sl H. destruct H. }
  exists f, r. split; [intros ->; exact G|exact F].
Qed.
End Ends.
