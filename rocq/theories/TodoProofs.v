(** Proofs about the example program "todo". *)
From Coq Require Import List Arith Bool Lia.
From Verif Require Import TodoModel TodoSpec.
Import ListNotations.

(** ** The list of items *)
Lemma nth_erase : forall i l p, p <> i ->
  nth_error (erase i l) (if i <? p then pred p else p) = nth_error l p.
Proof.
  induction i as [|i IH]; intros l p N; unfold erase in *.
  - destruct p; [congruence|]. simpl. destruct l; [now destruct p|reflexivity].
  - destruct l as [|x l]; [simpl; destruct (S i <? p); destruct p; try destruct p; auto|].
    destruct p as [|p]; [reflexivity|]. simpl firstn. simpl skipn.
    specialize (IH l p ltac:(congruence)). change (S i <? S p) with (i <? p).
    destruct (i <? p) eqn:Q.
    + apply Nat.ltb_lt in Q. destruct p as [|p]; [lia|]. simpl in *. exact IH.
    + simpl. exact IH.
Qed.
Lemma nth_update_at : forall i f l p,
  nth_error (update_at i f l) p = option_map (if i =? p then f else fun x => x) (nth_error l p).
Proof.
  induction i as [|i IH]; intros f l p; unfold update_at in *.
  - destruct l as [|x l]; destruct p; simpl; auto. now destruct (nth_error l p).
  - destruct l as [|x l].
    + simpl. destruct p; reflexivity.
    + destruct p as [|p]; simpl; [reflexivity|]. apply IH.
Qed.
Lemma follow_run : forall l m p d t p' d', nth_error m p = Some (Item d t) -> follow l p d = Some (p', d') ->
  nth_error (edits m l) p' = Some (Item d' t).
Proof.
  induction l as [|a l IH]; intros m p d t p' d' N F; simpl in *.
  - injection F as <- <-. exact N.
  - destruct a as [[|c x]|i []]; simpl in *.
    + eapply IH; eauto.
    + eapply IH; [|exact F]. exact N.
    + assert (L : p < length m) by (apply nth_error_Some; congruence).
      destruct (length m <=? i) eqn:Q.
      * apply Nat.leb_le in Q. destruct (i =? p) eqn:Q'; [apply Nat.eqb_eq in Q'; lia|]. eapply IH; eauto.
      * eapply IH; [|exact F]. rewrite nth_update_at, N. simpl. destruct (i =? p); reflexivity.
    + assert (L : p < length m) by (apply nth_error_Some; congruence).
      destruct (i =? p) eqn:Q'; [discriminate|]. apply Nat.eqb_neq in Q'.
      destruct (length m <=? i) eqn:Q.
      * apply Nat.leb_le in Q. destruct (i <? p) eqn:X; [apply Nat.ltb_lt in X; lia|]. eapply IH; eauto.
      * eapply IH; [|exact F]. now rewrite nth_erase by auto.
Qed.
Lemma follow_distinct : forall l p q d e p' d' e', follow l p d = Some (p', d') -> follow l q e = Some (p', e') -> p = q.
Proof.
  induction l as [|a l IH]; intros p q d e p' d' e' A B; simpl in *; [congruence|].
  destruct a as [[|c x]|i []]; simpl in *; eauto.
  - apply eq_add_S. eapply IH; eauto.
  - destruct (i =? p) eqn:X; [discriminate|]. destruct (i =? q) eqn:Y; [discriminate|].
    apply Nat.eqb_neq in X, Y. specialize (IH _ _ _ _ _ _ _ A B).
    destruct (i <? p) eqn:U, (i <? q) eqn:V; rewrite ?Nat.ltb_lt, ?Nat.ltb_ge in *; lia.
Qed.
(** Newer items stand before older ones. *)
Lemma follow_order : forall l p q d e p' d' q' e', p < q -> follow l p d = Some (p', d') -> follow l q e = Some (q', e') -> p' < q'.
Proof.
  induction l as [|a l IH]; intros p q d e p' d' q' e' L A B; simpl in *; [congruence|].
  destruct a as [[|c x]|i []]; simpl in *; eauto.
  - apply (IH (S p) (S q) _ _ _ _ _ _ ltac:(lia) A B).
  - destruct (i =? p) eqn:X; [discriminate|]. destruct (i =? q) eqn:Y; [discriminate|].
    apply Nat.eqb_neq in X, Y. eapply IH; [|exact A|exact B].
    destruct (i <? p) eqn:U, (i <? q) eqn:V; rewrite ?Nat.ltb_lt, ?Nat.ltb_ge in *; lia.
Qed.
(** One step backwards: where an item was before. *)
Lemma back : forall a m p d t, nth_error (update m a) p = Some (Item d t) ->
  (a = Add t /\ t <> [] /\ p = 0 /\ d = false) \/
  exists p0 d0, nth_error m p0 = Some (Item d0 t) /\ follow [a] p0 d0 = Some (p, d).
Proof.
  intros a m p d t N. destruct a as [[|c x]|i b]; simpl in *.
  - right. eauto.
  - destruct p as [|p]; [left; injection N as <- <-; repeat split; congruence|right]. exists p, d. auto.
  - right. destruct (length m <=? i) eqn:Q.
    + apply Nat.leb_le in Q. assert (L : p < length m) by (apply nth_error_Some; congruence). exists p, d. split; auto.
      destruct b; simpl; replace (i =? p) with false by (symmetry; apply Nat.eqb_neq; lia); auto.
      replace (i <? p) with false by (symmetry; apply Nat.ltb_ge; lia). auto.
    + apply Nat.leb_gt in Q. destruct b.
      * rewrite nth_update_at in N. destruct (nth_error m p) as [[d0 t0]|] eqn:E; [|discriminate]. simpl in N.
        exists p, d0. destruct (i =? p) eqn:X; simpl in N; injection N as <- <-; auto.
      * set (p0 := if p <? i then p else S p).
        assert (P : p0 <> i /\ (if i <? p0 then pred p0 else p0) = p).
        { unfold p0. destruct (p <? i) eqn:X; rewrite ?Nat.ltb_lt, ?Nat.ltb_ge in X.
          - replace (i <? p) with false by (symmetry; apply Nat.ltb_ge; lia). lia.
          - replace (i <? S p) with true by (symmetry; apply Nat.ltb_lt; lia). simpl. lia. }
        destruct P as [P1 P2]. exists p0, d. rewrite <- P2, nth_erase in N by auto. split; auto.
        simpl. rewrite P2. replace (i =? p0) with false by (symmetry; apply Nat.eqb_neq; lia). auto.
Qed.
Lemma follow_app : forall l k p d, follow (l ++ k) p d =
  match follow l p d with Some (p', d') => follow k p' d' | None => None end.
Proof.
  induction l as [|a l IH]; intros; simpl; auto. destruct a as [[|c x]|i []]; simpl; auto.
  destruct (i =? p); auto.
Qed.
Lemma origin : forall l m p d t, nth_error (edits m l) p = Some (Item d t) ->
  (exists l1 l2, l = l1 ++ Add t :: l2 /\ t <> [] /\ follow l2 0 false = Some (p, d)) \/
  (exists p0 d0, nth_error m p0 = Some (Item d0 t) /\ follow l p0 d0 = Some (p, d)).
Proof.
  induction l as [|a l IH] using rev_ind; intros m p d t N.
  - right. exists p, d. auto.
  - unfold edits in N. rewrite fold_left_app in N. simpl in N. fold (edits m l) in N.
    destruct (back _ _ _ _ _ N) as [(-> & T & -> & ->)|(p0 & d0 & N0 & F)].
    + left. exists l, []. auto.
    + destruct (IH _ _ _ _ N0) as [(l1 & l2 & -> & T & F0)|(p1 & d1 & N1 & F1)].
      * left. exists l1, (l2 ++ [a]). rewrite <- app_assoc. split; auto. split; auto. now rewrite follow_app, F0.
      * right. exists p1, d1. split; auto. now rewrite follow_app, F1.
Qed.
Lemma follows : forall m l1 t l2 p d, t <> [] -> follow l2 0 false = Some (p, d) ->
  nth_error (edits m (l1 ++ Add t :: l2)) p = Some (Item d t).
Proof.
  intros m l1 t l2 p d T F. unfold edits. rewrite fold_left_app. cbn [fold_left].
  apply (follow_run l2 _ 0 false); auto. destruct t; [congruence|reflexivity].
Qed.
Lemma order : forall u l2 l3 p d q e, u <> [] ->
  follow (l2 ++ Add u :: l3) 0 false = Some (p, d) -> follow l3 0 false = Some (q, e) -> q < p.
Proof.
  intros u l2 l3 p d q e U F G. rewrite follow_app in F. destruct (follow l2 0 false) as [[p1 d1]|]; [|discriminate].
  destruct u as [|c u]; [congruence|]. simpl in F. apply (follow_order l3 0 (S p1) _ _ _ _ _ _ ltac:(lia) G F).
Qed.

(** ** The program *)
Lemma acts_app : forall l k w, acts (l ++ k) w = match acts l w with Some w1 => acts k w1 | None => None end.
Proof. induction l as [|a l IH]; intros; simpl; auto. destruct (act a w); auto. Qed.
Lemma applied_app : forall l k w w1, acts l w = Some w1 -> applied w (l ++ k) = applied w l ++ applied w1 k.
Proof.
  induction l as [|a l IH]; intros k w w1 H; simpl in *; [injection H as ->; auto|].
  destruct (act a w) as [w2|]; [|discriminate]. rewrite (IH k w2 w1 H). now rewrite app_assoc.
Qed.
Lemma acts_snoc : forall ls l w w', acts (ls ++ [l]) w = Some w' -> exists w1, acts ls w = Some w1 /\ act l w1 = Some w'.
Proof.
  intros ls l w w' H. rewrite acts_app in H. destruct (acts ls w) as [w1|]; [|discriminate]. exists w1. split; auto.
  simpl in H. destruct (act l w1); congruence.
Qed.

Lemma edits_of_app : forall l k, edits_of (l ++ k) = edits_of l ++ edits_of k.
Proof. intros. unfold edits_of. now rewrite flat_map_app. Qed.
Lemma edits_app : forall m l k, edits m (l ++ k) = edits (edits m l) k.
Proof. intros. unfold edits. apply fold_left_app. Qed.

(** What one action does to the document. *)
Lemma step_doc : forall l w w', act l w = Some w' ->
  match applied w [l] with
  | [LoadResult f m] => state w' = App m f
  | [Save f] => state w' = App (doc (state w)) (dot_todo f)
  | [a] => state w' = App (edits (doc (state w)) (edits_of [a])) (file (state w))
  | _ => state w' = state w
  end.
Proof.
  intros l w w' H. cbn [applied]. rewrite H, app_nil_r.
  destruct l as [a|o|f m]; cbn in H; try (injection H as <-; reflexivity).
  destruct (queue w) as [|[a|e] q]; [discriminate| |].
  - destruct (app_update (state w) a) as [s e] eqn:E. injection H as <-.
    destruct a; cbn in E; injection E as <- _; cbn; destruct (state w); reflexivity.
  - injection H as <-. destruct e, o; cbn; auto; destruct (disk w f); auto.
Qed.
Lemma applied_one : forall w l w', act l w = Some w' -> applied w [l] = [] \/ exists a, applied w [l] = [a].
Proof.
  intros w l w' H. simpl. rewrite H, app_nil_r. destruct l; auto. destruct (queue w) as [|[] ?]; eauto.
Qed.
Lemma document : forall ls d w, acts ls (init d) = Some w ->
  (no_load (applied (init d) ls) -> doc (state w) = edits [] (edits_of (applied (init d) ls))) /\
  (forall l1 f m l2, applied (init d) ls = l1 ++ LoadResult f m :: l2 -> no_load l2 ->
     doc (state w) = edits m (edits_of l2)).
Proof.
  induction ls as [|l ls IH] using rev_ind; intros d w H.
  - simpl in H. injection H as <-. split; [reflexivity|]. intros l1 f m l2 E. destruct l1; discriminate.
  - apply acts_snoc in H as (w1 & H & A). destruct (IH d w1 H) as [I1 I2]. clear IH.
    rewrite (applied_app _ _ _ _ H). pose proof (step_doc _ _ _ A) as S.
    destruct (applied_one _ _ _ A) as [E|[a E]]; rewrite E in *.
    + rewrite app_nil_r, S. auto.
    + assert (Y : (forall f k, a <> LoadResult f k) /\ doc (state w) = edits (doc (state w1)) (edits_of [a]) \/ exists f k, a = LoadResult f k).
      { destruct a; try (left; split; [discriminate|rewrite S; reflexivity]). right. eauto. }
      destruct Y as [[N D]|(f & k & ->)].
      * split.
        -- intros NL. rewrite D, I1, edits_of_app, edits_app; auto. intros f m X. apply (NL f m). apply in_or_app. auto.
        -- intros l1 f m l2 X NL. destruct l2 as [|b l2] using rev_ind.
           ++ apply app_inj_tail in X as [_ X]. now destruct (N f m).
           ++ clear IHl2. rewrite app_comm_cons, app_assoc in X. apply app_inj_tail in X as [X <-].
              rewrite D, edits_of_app, edits_app. f_equal. apply (I2 l1 f m l2 X).
              intros f' m' Z. apply (NL f' m'). apply in_or_app. auto.
      * split.
        -- intros NL. exfalso. apply (NL f k). apply in_or_app. right. now left.
        -- intros l1 f' m l2 X NL. destruct l2 as [|b l2] using rev_ind.
           ++ apply app_inj_tail in X as [_ X]. injection X as <- <-. now rewrite S.
           ++ clear IHl2. rewrite app_comm_cons, app_assoc in X. apply app_inj_tail in X as [_ <-].
              exfalso. apply (NL f k). apply in_or_app. right. now left.
Qed.

Lemma file_name : forall ls d w, acts ls (init d) = Some w ->
  ((forall a, In a (applied (init d) ls) -> names a = None) -> file (state w) = Path [] None) /\
  (forall l1 a l2 f, applied (init d) ls = l1 ++ a :: l2 -> names a = Some f ->
     (forall b, In b l2 -> names b = None) -> file (state w) = f).
Proof.
  induction ls as [|l ls IH] using rev_ind; intros d w H.
  - simpl in H. injection H as <-. split; [reflexivity|]. intros l1 a l2 f E. destruct l1; discriminate.
  - apply acts_snoc in H as (w1 & H & A). destruct (IH d w1 H) as [I1 I2]. clear IH.
    rewrite (applied_app _ _ _ _ H). pose proof (step_doc _ _ _ A) as S.
    destruct (applied_one _ _ _ A) as [E|[a E]]; rewrite E in *.
    + rewrite app_nil_r, S. auto.
    + assert (F : match names a with Some f => file (state w) = f | None => file (state w) = file (state w1) end).
      { destruct a; cbn; rewrite S; reflexivity. }
      split.
      * intros N. assert (Na := N a ltac:(apply in_or_app; right; now left)). rewrite Na in F. rewrite F. apply I1.
        intros b X. apply N. apply in_or_app. auto.
      * intros l1 b l2 f X Nb N. destruct l2 as [|c l2] using rev_ind.
        -- apply app_inj_tail in X as [_ <-]. rewrite Nb in F. exact F.
        -- clear IHl2. rewrite app_comm_cons, app_assoc in X. apply app_inj_tail in X as [X <-].
           assert (Na := N a ltac:(apply in_or_app; right; now left)). rewrite Na in F. rewrite F.
           apply (I2 l1 b l2 f X Nb). intros x Y. apply N. apply in_or_app. auto.
Qed.

(** Nothing is lost or reordered on the way. *)
Lemma waiting_app : forall s q k d e, waiting (World s (q ++ k) d e) = waiting (World s q d e) ++ waiting (World s k d e).
Proof. intros. unfold waiting. simpl. now rewrite flat_map_app. Qed.
Lemma serial : forall ls d w, acts ls (init d) = Some w ->
  filter user (applied (init d) ls ++ waiting w) = filter user (asked ls).
Proof.
  induction ls as [|l ls IH] using rev_ind; intros d w H.
  - simpl in H. injection H as <-. reflexivity.
  - apply acts_snoc in H as (w1 & H & A). specialize (IH d w1 H).
    rewrite (applied_app _ _ _ _ H). unfold asked in *. rewrite flat_map_app, !filter_app in *. rewrite <- IH, <- app_assoc.
    clear IH. rewrite <- !app_assoc. f_equal. cbn [applied]. rewrite A, app_nil_r.
    destruct l as [a|o|f m]; cbn in A.
    + injection A as <-. cbn. unfold waiting. cbn. rewrite flat_map_app, filter_app. reflexivity.
    + cbn. rewrite app_nil_r. unfold waiting. destruct (queue w1) as [|[a|e] q]; [discriminate| |].
      * destruct (app_update (state w1) a) as [s e]. injection A as <-. cbn. rewrite flat_map_app, filter_app.
        assert (X : filter user (flat_map (fun t => match t with Act a0 => [a0] | Eff _ => [] end)
                     (match e with Some e0 => [Eff e0] | None => [] end)) = []) by now destruct e.
        rewrite X, app_nil_r. destruct (user a); reflexivity.
      * injection A as <-. cbn. destruct e as [f m|f], o; cbn; auto; destruct (disk w1 f); cbn; auto.
        rewrite flat_map_app, filter_app. cbn. now rewrite app_nil_r.
    + injection A as <-. cbn. now rewrite app_nil_r.
Qed.

(** Where tasks in the queue come from. *)
Lemma queued : forall ls d w, acts ls (init d) = Some w ->
  (forall f m, In (Eff (ESave f m)) (queue w) ->
     exists ls1 ls2 w1 g q o, ls = ls1 ++ LRun o :: ls2 /\ acts ls1 (init d) = Some w1 /\ queue w1 = Act (Save g) :: q /\
       f = dot_todo g /\ m = doc (state w1)) /\
  (forall f m, In (Act (LoadResult f m)) (queue w) -> ~ In (LoadResult f m) (asked ls) ->
     exists ls1 ls2 w1 q, ls = ls1 ++ LRun Fine :: ls2 /\ acts ls1 (init d) = Some w1 /\ queue w1 = Eff (ELoad f) :: q /\
       disk w1 f = Some m).
Proof.
  induction ls as [|l ls IH] using rev_ind; intros d w H.
  - simpl in H. injection H as <-. split; intros ? ? [].
  - apply acts_snoc in H as (w1 & H & A). destruct (IH d w1 H) as [I1 I2]. clear IH.
    assert (K1 : forall f m, In (Eff (ESave f m)) (queue w1) ->
      exists ls1 ls2 w1 g q o, ls ++ [l] = ls1 ++ LRun o :: ls2 /\ acts ls1 (init d) = Some w1 /\ queue w1 = Act (Save g) :: q /\
       f = dot_todo g /\ m = doc (state w1)).
    { intros f m X. destruct (I1 f m X) as (ls1 & ls2 & w2 & g & q & o & -> & Y). exists ls1, (ls2 ++ [l]), w2, g, q, o.
      rewrite <- app_assoc. auto. }
    assert (K2 : forall f m, In (Act (LoadResult f m)) (queue w1) -> ~ In (LoadResult f m) (asked (ls ++ [l])) ->
      exists ls1 ls2 w1 q, ls ++ [l] = ls1 ++ LRun Fine :: ls2 /\ acts ls1 (init d) = Some w1 /\ queue w1 = Eff (ELoad f) :: q /\
       disk w1 f = Some m).
    { intros f m X N. destruct (I2 f m X) as (ls1 & ls2 & w2 & q & -> & Y).
      - intros Z. apply N. unfold asked. rewrite flat_map_app. apply in_or_app. auto.
      - exists ls1, (ls2 ++ [l]), w2, q. rewrite <- app_assoc. auto. }
    destruct l as [a|o|f m]; cbn in A.
    + injection A as <-. cbn. split; intros f m X; apply in_app_or in X as [X|[X|[]]]; auto; try discriminate.
      injection X as ->. intros N. exfalso. apply N. unfold asked. rewrite flat_map_app. apply in_or_app. right. now left.
    + destruct (queue w1) as [|[a|e] q] eqn:Q; [discriminate| |].
      * destruct (app_update (state w1) a) as [s e] eqn:E. injection A as <-. cbn.
        split; intros f m X; apply in_app_or in X as [X|X]; try (apply K1 || apply K2; now right).
        -- destruct e as [e|]; [|destruct X]. destruct X as [X|[]]. injection X as ->.
           destruct a; cbn in E; inversion E; subst.
           exists ls, [], w1, f0, q, o. repeat split; auto.
        -- destruct e as [e|]; [destruct X as [X|[]]; discriminate|destruct X].
      * injection A as <-.
        assert (R : forall t, In t (queue (run_effect e o (World (state w1) q (disk w1) (errors w1)))) ->
          In t (Eff e :: q) \/ exists f m, o = Fine /\ e = ELoad f /\ disk w1 f = Some m /\ t = Act (LoadResult f m)).
        { intros t X. destruct e as [f m|f], o; cbn in X; try (left; right; exact X); destruct (disk w1 f) as [m|] eqn:D; cbn in X; try (left; right; exact X).
          apply in_app_or in X as [X|[X|[]]]; [left; right; exact X|]. right. exists f, m. auto. }
        split; intros f m X; destruct (R _ X) as [Y|(f' & m' & -> & -> & D & Y)]; auto; try discriminate.
        injection Y as <- <-. intros _. exists ls, [], w1, q. auto.
    + injection A as <-. cbn. split; auto.
Qed.
Lemma saved : forall ls d w f m q w', acts ls (init d) = Some w -> queue w = Eff (ESave f m) :: q ->
  act (LRun Fine) w = Some w' ->
  disk w' f = Some m /\ (forall g, g <> f -> disk w' g = disk w g) /\ state w' = state w /\ errors w' = errors w /\
  exists ls1 ls2 w1 g r o, ls = ls1 ++ LRun o :: ls2 /\ acts ls1 (init d) = Some w1 /\ queue w1 = Act (Save g) :: r /\
    f = dot_todo g /\ m = doc (state w1).
Proof.
  intros ls d w f m q w' H Q A. cbn in A. rewrite Q in A. injection A as <-. cbn. unfold write.
  destruct (path_eq_dec f f); [|congruence]. split; auto. split; [intros g N; destruct (path_eq_dec g f); congruence|].
  split; auto. split; auto. apply (proj1 (queued ls d w H) f m). rewrite Q. now left.
Qed.
Lemma loaded : forall ls d w f m q, acts ls (init d) = Some w -> queue w = Act (LoadResult f m) :: q ->
  ~ In (LoadResult f m) (asked ls) ->
  exists ls1 ls2 w1 r, ls = ls1 ++ LRun Fine :: ls2 /\ acts ls1 (init d) = Some w1 /\ queue w1 = Eff (ELoad f) :: r /\
    disk w1 f = Some m.
Proof. intros ls d w f m q H Q N. apply (proj2 (queued ls d w H) f m); auto. rewrite Q. now left. Qed.

(** Loading what cannot be loaded changes nothing but is told to the logger; the same for
    saving, apart from the file itself. *)
Lemma failed : forall w f q o w', queue w = Eff (ELoad f) :: q -> (o <> Fine \/ disk w f = None) -> act (LRun o) w = Some w' ->
  w' = World (state w) q (disk w) (f :: errors w).
Proof.
  intros w f q o w' Q X A. cbn in A. rewrite Q in A. injection A as <-. cbn.
  destruct o; [|reflexivity]. destruct (disk w f); auto. destruct X; congruence.
Qed.
Lemma failed_save : forall w f m q l w', queue w = Eff (ESave f m) :: q -> act (LRun (Fails l)) w = Some w' ->
  state w' = state w /\ queue w' = q /\ errors w' = f :: errors w /\ forall g, g <> f -> disk w' g = disk w g.
Proof.
  intros w f m q l w' Q A. cbn in A. rewrite Q in A. injection A as <-. cbn. repeat split; auto.
  intros g N. unfold write. destruct (path_eq_dec g f); congruence.
Qed.

(** Saving, editing, loading again *)
Lemma run_edits : forall l s d e, acts (flat_map (fun a => [LUser (Edit a); LRun Fine]) l) (World s [] d e) =
  Some (World (App (edits (doc s) l) (file s)) [] d e).
Proof.
  induction l as [|a l IH]; intros s d e; cbn; [destruct s; reflexivity|]. rewrite IH. reflexivity.
Qed.
Lemma restores : forall w f l, queue w = [] ->
  option_map state (acts ([LUser (Save f); LRun Fine; LRun Fine] ++ flat_map (fun a => [LUser (Edit a); LRun Fine]) l ++
    [LUser (Load (dot_todo f)); LRun Fine; LRun Fine; LRun Fine]) w) = Some (App (doc (state w)) (dot_todo f)).
Proof.
  intros [s q d e] f l Q. cbn in Q. subst q. rewrite acts_app. cbn [acts act queue List.app state disk errors app_update doc file run_effect].
  rewrite acts_app, run_edits. cbn. unfold write. change (with_todo f) with (dot_todo f).
  destruct (path_eq_dec (dot_todo f) (dot_todo f)); [|congruence].
  reflexivity.
Qed.
