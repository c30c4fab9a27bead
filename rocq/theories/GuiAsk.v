(** What is asked at the page: proofs. *)
From Coq Require Import List Bool Arith NArith ZArith Ascii String Lia Permutation.
From Verif Require Import StoreModel StoreExtraModel DebuggerModel DebuggerSpec ServerModel ServerSpec ServerProofs GuiModel GuiSpec GuiBasics GuiShown GuiFollow.
Import ListNotations.
Local Open Scope list_scope.

Section Ask.
Context {M A W : Type}.
Variable encode_action : A -> str.
Variable encode_model : M -> str.
Variable reducer : M -> A -> option (M * option (prog M A W)).
Variables pause_eff resume_eff : prog (dmodel M A) (daction A) W.
Variable bits : N.
Notation happens := (happens encode_action encode_model reducer pause_eff resume_eff bits).
Notation after := (after encode_action encode_model reducer pause_eff resume_eff bits).
Notation showed := (showed encode_action encode_model reducer pause_eff resume_eff bits).
Notation lost := (lost encode_action encode_model reducer pause_eff resume_eff bits).
Notation dstep := (dstep reducer pause_eff resume_eff).
Notation sys := (sys M A).
Notation gmodel := (gmodel M A).
Notation msg := (msg M A).

(** ** Requests for actions *)
Definition small (x : daction A) : Prop :=
  match x with Act _ => False | Goto n => (N.of_nat n < 2 ^ bits)%N | _ => True end.
Theorem serve_request : forall x (sv : server M A), small x ->
  serve bits (request_of x) sv = (set_sent (sent sv ++ [x]) sv, Some (Res 200 (lit "text/html") (Plain []))).
Proof.
  intros x sv H. unfold request_of, path_of. destruct x as [a|n| | | |]; [destruct H| | | | |].
  - destruct (to_string_denotes n) as [Dn Nn]. rewrite (serve_goto bits _ _ sv Dn Nn).
    apply N.ltb_lt in H. rewrite H, Nat2N.id. reflexivity.
  - apply (serve_action bits "/api/undo"%string). cbn. tauto.
  - apply (serve_action bits "/api/redo"%string). cbn. tauto.
  - apply (serve_action bits "/api/pause"%string). cbn. tauto.
  - apply (serve_action bits "/api/resume"%string). cbn. tauto.
Qed.
Theorem request_injective : forall x y : daction A, (forall a, x <> Act a) -> (forall a, y <> Act a) ->
  request_of x = request_of y -> x = y.
Proof.
  intros x y Nx Ny E. injection E as E.
  assert (forall n k, to_string (Z.of_nat n) = to_string (Z.of_nat k) -> n = k) as K.
  { intros n k H. destruct (to_string_denotes n) as [D1 _], (to_string_denotes k) as [D2 _]. rewrite H in D1.
    apply denotes_numeral in D1, D2. destruct D1 as [D1 _], D2 as [D2 _]. lia. }
  destruct x as [a|n| | | |], y as [b|k| | | |]; cbn in E; try reflexivity; try discriminate;
    try (exfalso; eapply Nx; reflexivity); try (exfalso; eapply Ny; reflexivity).
  injection E as E. f_equal. apply K. exact E.
Qed.

Lemma posts_app : forall l1 l2, posts (l1 ++ l2) = posts l1 ++ posts l2.
Proof. intros. unfold posts. rewrite filter_app, map_app. reflexivity. Qed.
Lemma posts_reqs : forall (p : gmodel) m, (forall i, m = GotoStep i -> (0 <= i)%Z) ->
  posts (reqs p (snd (gui_update m p))) = map request_of (wants (p, m)).
Proof.
  intros p m H.
  assert (forall q i, posts (reqs p (snd (select_step q i))) = []) as K.
  { intros q i. destruct (select_cases q i) as [[-> _]|(_ & d & -> & _)]; reflexivity. }
  assert (forall i, (0 <= i)%Z -> request_of (A := A) (Goto (Z.to_nat i)) =
            Req Post (skipn (List.length (pg_server p)) (pg_server p ++ lit "/api/goto/" ++ to_string i))) as G.
  { intros i Hi. unfold request_of, path_of. rewrite skip_server, Z2Nat.id by exact Hi. reflexivity. }
  assert (forall i, detail_index (pg_detail p) <> i ->
            posts (reqs p (snd (select_goto_step p i))) = map request_of (steps_to p i)) as K2.
  { intros i N. unfold steps_to. destruct (goto_cases p i) as [[-> [N1 _]]|[(Hi & d & -> & _)|E]]; [| |contradiction].
    - destruct ((0 <=? i) && (i <=? st_summary (pg_status p)))%Z eqn:E; [|reflexivity].
      apply andb_true_iff in E. rewrite !Z.leb_le in E. contradiction.
    - assert (((0 <=? i) && (i <=? st_summary (pg_status p)))%Z = true) as ->.
      { apply andb_true_iff. rewrite !Z.leb_le. exact Hi. }
      cbn [snd map]. rewrite G by lia. reflexivity. }
  destruct m as [[st|]|[dt|]|r|i|i| | | | | | | | | | |k]; cbn [gui_update wants snd fst]; try reflexivity;
    try apply K; try (cbn; rewrite skip_server; reflexivity).
  - destruct (_ || _); [apply K|reflexivity].
  - destruct (_ =? _)%Z; reflexivity.
  - cbn [map]. rewrite (G i (H i eq_refl)). reflexivity.
  - destruct (st_paused (pg_status p)); cbn; rewrite skip_server; reflexivity.
  - apply K2. lia.
  - apply K2. lia.
  - unfold keys_update. cbn [snd]. destruct (combo_eqb _ _); [reflexivity|]. destruct (matches_combo _); reflexivity.
Qed.
Lemma wants_small : forall (p : gmodel) m, (N.of_nat (Z.to_nat (st_summary (pg_status p))) < 2 ^ bits)%N ->
  (forall i, m = GotoStep i -> (0 <= i <= st_summary (pg_status p))%Z) -> Forall small (wants (p, m)).
Proof.
  intros p m H G.
  assert (forall i, Forall small (steps_to p i)) as K.
  { intros i. unfold steps_to. destruct ((0 <=? i) && (i <=? st_summary (pg_status p)))%Z eqn:E; [|constructor].
    apply andb_true_iff in E. rewrite !Z.leb_le in E. constructor; [|constructor]. cbn. lia. }
  destruct m as [[st|]|[dt|]|r|i|i| | | | | | | | | | |k]; cbn; auto; try (constructor; [exact I|constructor]).
  - specialize (G i eq_refl). constructor; [|constructor]. cbn. lia.
  - destruct (st_paused (pg_status p)); constructor; try exact I; constructor.
Qed.

(** ** The account *)
Record account (s0 : list (daction A)) (s : sys) (gone : list (daction A)) : Prop := {
  a_done : exists done under, sent (srv s) = s0 ++ done /\ posts (wire s) = map request_of under /\
    Forall small under /\ Permutation (flat_map wants (heard s)) (done ++ under ++ gone) }.

Lemma account_hear : forall s0 m s s1 gone, account s0 s gone ->
  (N.of_nat (Z.to_nat (st_summary (pg_status (page s)))) < 2 ^ bits)%N ->
  (forall i, m = GotoStep i -> (0 <= i <= st_summary (pg_status (page s)))%Z) ->
  page s1 = page s -> wire s1 = wire s -> srv s1 = srv s -> heard s1 = heard s ->
  account s0 (hear m s1) gone.
Proof.
  intros s0 m s s1 gone [(dn & un & E1 & E2 & E3 & E4)] H G P1 P2 P3 P4. destruct (hear_is m s1) as (t & ->).
  rewrite P1, P2, P3, P4. constructor. exists dn, (un ++ wants (page s, m)). cbn [srv wire heard].
  split; [exact E1|]. split; [|split].
  - rewrite posts_app, map_app, E2, posts_reqs; [reflexivity|]. intros i Hi. apply G in Hi. lia.
  - apply Forall_app. split; [exact E3|]. apply wants_small; assumption.
  - rewrite flat_map_app. cbn [flat_map]. rewrite app_nil_r.
    apply (Permutation_app_tail (wants (page s, m))) in E4. etransitivity; [exact E4|].
    rewrite <- !app_assoc. apply Permutation_app_head, Permutation_app_head, Permutation_app_comm.
Qed.
Lemma posts_mid : forall l1 q x l2 un, posts (l1 ++ (q, x) :: l2) = map request_of un ->
  (x <> XPost /\ posts (l1 ++ l2) = map request_of un) \/
  (x = XPost /\ exists u1 y u2, un = u1 ++ y :: u2 /\ q = request_of y /\ posts (l1 ++ l2) = map (request_of (A := A)) (u1 ++ u2)).
Proof.
  intros l1 q x l2 un H. rewrite posts_app in H. unfold posts at 2 in H. cbn [filter snd] in H.
  destruct x as [|i|]; cbn [is_post] in H.
  - left. split; [discriminate|]. rewrite posts_app. exact H.
  - left. split; [discriminate|]. rewrite posts_app. exact H.
  - right. split; [reflexivity|]. cbn [map fst] in H. fold (posts l2) in H. symmetry in H.
    apply map_eq_app in H. destruct H as (u1 & v & -> & H1 & H2). destruct v as [|y u2]; [discriminate H2|].
    cbn in H2. injection H2 as H2 H3. exists u1, y, u2. split; [reflexivity|]. split; [auto|].
    rewrite posts_app, map_app. congruence.
Qed.
Lemma serve_sent : forall q (sv : server M A), method q = Get -> sent (fst (serve bits q sv)) = sent sv.
Proof. intros q sv H. rewrite serve_get by exact H. reflexivity. Qed.
Lemma lost_snoc : forall es s e, lost s (es ++ [e]) = lost s es ++
  match e with
  | Loses n => match nth_error (wire (after s es)) n with Some w => posts [w] | None => [] end
  | _ => []
  end.
Proof.
  induction es as [|f es IH]; intros s e; cbn [app GuiSpec.lost].
  - rewrite app_nil_r. reflexivity.
  - rewrite IH, app_assoc. reflexivity.
Qed.
Lemma perm_mid : forall X (a b c d e : list X) x, Permutation a (b ++ (c ++ x :: d) ++ e) ->
  Permutation a ((b ++ [x]) ++ (c ++ d) ++ e).
Proof.
  intros X a b c d e x H. etransitivity; [exact H|]. rewrite <- !app_assoc. apply Permutation_app_head. cbn.
  symmetry. apply Permutation_middle.
Qed.
Lemma perm_end : forall X (a b c d e : list X) x, Permutation a (b ++ (c ++ x :: d) ++ e) ->
  Permutation a (b ++ (c ++ d) ++ (e ++ [x])).
Proof.
  intros X a b c d e x H. etransitivity; [exact H|]. rewrite <- !app_assoc. apply Permutation_app_head. cbn.
  etransitivity; [symmetry; apply Permutation_middle|].
  rewrite !app_assoc. apply Permutation_cons_append.
Qed.
Lemma account_happens : forall origin prog (St : gstatus -> Prop) L P s0 s e gone,
  inv origin prog P St L s -> (forall st, St st -> (N.of_nat (Z.to_nat (st_summary st)) < 2 ^ bits)%N) ->
  account s0 s gone -> exists g,
  account s0 (happens s e) (gone ++ g) /\
  map request_of g = match e with
                     | Loses n => match nth_error (wire s) n with Some w => posts [w] | None => [] end
                     | _ => []
                     end.
Proof.
  intros origin prog St L P s0 s e gone V Hs Ac.
  assert (HS := Hs _ (i_status _ _ _ _ _ _ V)).
  assert (forall s', account s0 s' gone -> exists g, account s0 s' (gone ++ g) /\ map (request_of (A := A)) g = []) as NG.
  { intros s' H. exists []. rewrite app_nil_r. auto. }
  destruct e as [n|k| | |n|n|n|a| |]; cbn [GuiModel.happens].
  - apply NG. destruct (nth_error _ n) as [[o m]|] eqn:E; [|exact Ac]. apply nth_error_In, handlers_in in E.
    eapply account_hear; [exact Ac|exact HS| | | | |]; try reflexivity.
    intros i ->. destruct E as [E|[E|[[E _]|[[E _]|(j & H & [E|E])]]]]; try discriminate E. injection E as <-. exact H.
  - apply NG. eapply account_hear; [exact Ac|exact HS|discriminate| | | |]; reflexivity.
  - apply NG. eapply account_hear; [exact Ac|exact HS|discriminate| | | |]; reflexivity.
  - apply NG. destruct (self s) as [|m l] eqn:E; [exact Ac|].
    assert (key_ok m) as Km.
    { assert (H := i_self _ _ _ _ _ _ V). rewrite E in H. inversion H; assumption. }
    eapply account_hear; [exact Ac|exact HS|intros i ->; destruct Km| | | |]; reflexivity.
  - apply NG. destruct (nth_error (wire s) n) as [[q x]|] eqn:E; [|exact Ac].
    assert (wire_ok (A := A) (q, x)) as WQ.
    { assert (H := i_wire _ _ _ _ _ _ V). rewrite Forall_forall in H. apply H. eapply nth_error_In; eauto. }
    destruct (drop_split _ _ _ _ E) as (l1 & l2 & E1 & E2). destruct Ac as [(dn & un & A1 & A2 & A3 & A4)].
    rewrite E1 in A2. destruct (posts_mid _ _ _ _ _ A2) as [[Nx A2']|(-> & u1 & y & u2 & -> & -> & A2')].
    + constructor. exists dn, un. cbn [srv wire heard]. rewrite E2. repeat split; auto.
      rewrite serve_sent; [exact A1|]. destruct x as [|i|]; [| |congruence]; cbn in WQ.
      * rewrite WQ. reflexivity.
      * destruct WQ as (j & _ & ->). reflexivity.
    + apply Forall_app in A3. destruct A3 as [A3 A3']. inversion A3' as [|? ? B1 B2]; subst.
      constructor. exists (dn ++ [y]), (u1 ++ u2). cbn [srv wire heard]. rewrite E2, serve_request by exact B1.
      cbn [fst set_sent sent]. rewrite A1, app_assoc. repeat split; auto.
      * apply Forall_app; auto.
      * apply perm_mid, A4.
  - destruct (nth_error (wire s) n) as [[q x]|] eqn:E; [|apply NG; exact Ac].
    destruct (drop_split _ _ _ _ E) as (l1 & l2 & E1 & E2). destruct Ac as [(dn & un & A1 & A2 & A3 & A4)].
    rewrite E1 in A2. destruct (posts_mid _ _ _ _ _ A2) as [[Nx A2']|(-> & u1 & y & u2 & -> & -> & A2')].
    + exists []. rewrite app_nil_r. split.
      * constructor. exists dn, un. cbn [srv wire heard]. rewrite E2. repeat split; auto.
      * destruct x; [reflexivity|reflexivity|congruence].
    + apply Forall_app in A3. destruct A3 as [A3 A3']. inversion A3' as [|? ? B1 B2]; subst.
      exists [y]. split; [|reflexivity]. constructor. exists dn, (u1 ++ u2). cbn [srv wire heard]. rewrite E2.
      repeat split; auto.
      * apply Forall_app; auto.
      * apply perm_end, A4.
  - apply NG. destruct (nth_error (back s) n) as [m|] eqn:E; [|exact Ac].
    assert (recv_ok P prog m) as Rm.
    { assert (H := i_back _ _ _ _ _ _ V). rewrite Forall_forall in H. apply H. eapply nth_error_In; eauto. }
    eapply account_hear; [exact Ac|exact HS|intros i ->; destruct Rm| | | |]; reflexivity.
  - apply NG. destruct Ac as [Ac]. constructor. exact Ac.
  - apply NG. destruct (todo s); [exact Ac|]. destruct Ac as [Ac]. constructor. exact Ac.
  - apply NG. destruct Ac as [Ac]. constructor. exact Ac.
Qed.
Lemma inv_small : forall origin sv es,
  (forall d, showed (opened origin sv) es d -> (N.of_nat (List.length (history d)) < 2 ^ bits)%N) ->
  exists P L (St : gstatus -> Prop), inv origin (program sv) P St L (after (opened origin sv) es) /\
    forall st, St st -> (N.of_nat (Z.to_nat (st_summary st)) < 2 ^ bits)%N.
Proof.
  intros origin sv es H.
  exists (fun d => (N.of_nat (List.length (history d)) < 2 ^ bits)%N). eexists. eexists. split.
  - apply inv_run. exact H.
  - intros st [->|(d & Hd & _ & R & _)].
    + cbn. apply N.neq_0_lt_0, N.pow_nonzero. discriminate.
    + rewrite R, Nat2Z.id. exact Hd.
Qed.
Theorem asked : forall origin sv es, let s := after (opened origin sv) es in
  (forall d, showed (opened origin sv) es d -> (N.of_nat (List.length (history d)) < 2 ^ bits)%N) ->
  exists done under gone, sent (srv s) = sent sv ++ done /\ posts (wire s) = map request_of under /\
    lost (opened origin sv) es = map request_of gone /\
    Permutation (flat_map wants (heard s)) (done ++ under ++ gone).
Proof.
  intros origin sv es s Hb.
  assert (exists gone, account (sent sv) s gone /\ lost (opened origin sv) es = map request_of gone) as (gone & [(dn & un & H1 & H2 & _ & H3)] & H4).
  { subst s. induction es as [|e es IH] using rev_ind.
    - exists []. split; [|reflexivity]. constructor. exists [], []. cbn. rewrite app_nil_r. repeat split; constructor.
    - destruct IH as (gone & Ac & Lo). { intros d Hd. apply Hb, showed_more, Hd. }
      destruct (inv_small origin sv es) as (P & L & St & V & HS). { intros d Hd. apply Hb, showed_more, Hd. }
      destruct (account_happens _ _ _ _ _ _ _ e _ V HS Ac) as (g & Ac' & Eg).
      exists (gone ++ g). rewrite after_snoc. split; [exact Ac'|]. rewrite lost_snoc, Lo, map_app, Eg. reflexivity. }
  exists dn, un, gone. auto.
Qed.

(** ** What the program performs *)
Lemma sent_more : forall q (sv : server M A), exists l, sent (fst (serve bits q sv)) = sent sv ++ l /\ moves l = l /\ acts l = [].
Proof.
  intros q s.
  assert (exists l : list (daction A), sent s = sent s ++ l /\ moves l = l /\ acts l = []) as Z0.
  { exists []. rewrite app_nil_r. auto. }
  unfold serve, handle_request.
  destruct (find _ _) as [r|] eqn:E; [|exact Z0].
  apply find_some in E. destruct E as [I _]. rewrite routes_are in I.
  destruct I as [<-|[<-|[<-|[<-|[<-|[<-|[<-|[<-|[]]]]]]]]]; cbn [rhandler r_api r_step r_goto r_action r_file];
    try exact Z0; try (unfold post_action, dispatch; cbn; eexists [_]; repeat split; fail).
  - unfold get_step. destruct (stoul bits (after_last_slash (target q))); [|exact Z0].
    destruct (lookup (model_ s) n) as [[a m]|]; exact Z0.
  - unfold post_goto. destruct (stoul bits (after_last_slash (target q))); [|exact Z0].
    cbn. eexists [_]. repeat split.
  - unfold get_file. destruct (files s (full_path s (target q))); exact Z0.
Qed.
Lemma acts_app : forall (l1 l2 : list (daction A)), acts (l1 ++ l2) = acts l1 ++ acts l2 /\ moves (l1 ++ l2) = moves l1 ++ moves l2.
Proof.
  induction l1 as [|x l1 IH]; intros l2; [auto|]. destruct (IH l2) as [E1 E2].
  destruct x; cbn; rewrite ?E1, ?E2; auto.
Qed.
Theorem performed : forall origin sv es, let s := after (opened origin sv) es in
  exists perf, truth s = fold_left dstep perf (model_ sv) /\
    sent (srv s) = sent sv ++ moves (perf ++ todo s) /\ acts (perf ++ todo s) = dispatches es.
Proof.
  intros origin sv es s. subst s. induction es as [|e es IH] using rev_ind.
  - exists []. cbn. rewrite app_nil_r. auto.
  - destruct IH as (perf & H1 & H2 & H3). rewrite after_snoc. set (s := after (opened origin sv) es) in *.
    unfold dispatches. rewrite flat_map_app. fold (dispatches es).
    assert (forall s', truth s' = truth s -> sent (srv s') = sent (srv s) -> todo s' = todo s ->
      exists perf, truth s' = fold_left dstep perf (model_ sv) /\
      sent (srv s') = sent sv ++ moves (perf ++ todo s') /\ acts (perf ++ todo s') = dispatches es ++ []) as K.
    { intros s' -> -> ->. exists perf. rewrite app_nil_r. auto. }
    destruct e as [n|k| | |n|n|n|a| |]; cbn [GuiModel.happens flat_map].
    + destruct (nth_error _ n) as [[o m]|]; [|apply K; reflexivity].
      destruct (hear_is m s) as (t & ->). apply K; reflexivity.
    + destruct (hear_is (ComboMsg k) s) as (t & ->). apply K; reflexivity.
    + destruct (hear_is Tick s) as (t & ->). apply K; reflexivity.
    + destruct (self s) as [|m l]; [apply K; reflexivity|].
      match goal with |- context [hear m ?s0] => destruct (hear_is m s0) as (t & ->) end. apply K; reflexivity.
    + destruct (nth_error (wire s) n) as [[q x]|]; [|apply K; reflexivity].
      destruct (sent_more q (srv s)) as (l & E1 & E2 & E3). exists perf. cbn [truth srv todo].
      rewrite E1. rewrite skipn_app, skipn_all, Nat.sub_diag. cbn [skipn app]. rewrite app_assoc.
      destruct (acts_app (perf ++ todo s) l) as [-> ->]. rewrite E2, E3, H2, H3, app_assoc. auto.
    + destruct (nth_error (wire s) n) as [[q x]|]; apply K; reflexivity.
    + destruct (nth_error (back s) n) as [m|]; [|apply K; reflexivity].
      match goal with |- context [hear m ?s0] => destruct (hear_is m s0) as (t & ->) end. apply K; reflexivity.
    + exists perf. cbn [truth srv todo]. rewrite app_assoc.
      destruct (acts_app (perf ++ todo s) [Act a]) as [-> ->]. cbn. rewrite app_nil_r, H3. auto.
    + destruct (todo s) as [|x l] eqn:E; [apply K; auto|].
      exists (perf ++ [x]). cbn [truth srv todo]. rewrite fold_left_app, <- app_assoc. cbn [fold_left app].
      rewrite H1, app_nil_r. auto.
    + exists perf. cbn [truth srv todo set_model sent]. rewrite app_nil_r. auto.
Qed.

(** ** There and back *)
Theorem round_trip : forall origin sv es n o m x, let s := after (opened origin sv) es in
  self s = [] -> wire s = [] -> back s = [] -> todo s = [] ->
  (forall d, showed (opened origin sv) es d -> (N.of_nat (List.length (history d)) < 2 ^ bits)%N) ->
  nth_error (handlers (gui_view encode_action encode_model (page s))) n = Some (o, m) ->
  wants (page s, m) = [x] ->
  let s' := after s [Clicks n; Arrives 0; Delivers 0; Performs; Commits; Ticks; Arrives 0; Delivers 0] in
  truth s' = dstep (truth s) x /\ reports (program sv) (dstep (truth s) x) (pg_status (page s')).
Proof.
  intros origin sv es n o m x s Se Ws Bs Td Hb Hn Wa s'.
  assert (program (srv s) = program sv) as G by exact (i_prog _ _ _ _ _ _ (inv_run _ _ _ _ _ _ origin sv es _ (fun d H => H))).
  assert (exists t h, after s [Clicks n; Arrives 0; Delivers 0; Performs; Commits] =
    Sys (page s) [] t [] [] (set_model (dstep (truth s) x) (set_sent (sent (srv s) ++ [x]) (srv s))) (dstep (truth s) x) [] h) as (t & h & E).
  { unfold GuiSpec.after at 1, happen_all. cbn [fold_left].
    destruct (inv_small origin sv es Hb) as (P & L & St & V & HS).
    assert (Forall small (wants (page s, m))) as Sm.
    { apply wants_small; [apply HS, (i_status _ _ _ _ _ _ V)|]. intros i ->.
      apply nth_error_In, handlers_in in Hn.
      destruct Hn as [E|[E|[[E _]|[[E _]|(j & H & [E|E])]]]]; try discriminate E. injection E as <-. exact H. }
    rewrite Wa in Sm. inversion Sm as [|? ? Sx _]; subst.
    assert (posts (reqs (page s) (snd (gui_update m (page s)))) = [request_of x] /\
            List.length (reqs (page s) (snd (gui_update m (page s)))) = 1 /\
            performs (snd (gui_update m (page s))) = [] /\ fst (gui_update m (page s)) = page s) as (R1 & R2 & R3 & R4).
    { apply nth_error_In, handlers_in in Hn.
      split.
      - rewrite posts_reqs, Wa; [reflexivity|]. intros i ->.
        destruct Hn as [E|[E|[[E _]|[[E _]|(j & H & [E|E])]]]]; try discriminate E. injection E as <-. lia.
      - destruct Hn as [->|[->|[[-> _]|[[-> _]|(j & H & [->| ->])]]]]; try (repeat split; fail). discriminate Wa. }
    destruct (reqs (page s) (snd (gui_update m (page s)))) as [|w [|? ?]] eqn:Er; try discriminate R2.
    assert (w = (request_of x, XPost)) as ->.
    { unfold posts in R1. cbn in R1. destruct w as [q [|i|]]; cbn in R1; try discriminate R1. injection R1 as ->. reflexivity. }
    assert (exists t, happens s (Clicks n) =
      Sys (page s) [] t [(request_of x, XPost)] [] (srv s) (truth s) [] (heard s ++ [(page s, m)])) as (t1 & ->).
    { cbn [GuiModel.happens]. rewrite Hn. destruct (hear_is m s) as (t1 & ->). rewrite Er, R3, R4, Ws, Bs, Td, Se.
      exists t1. reflexivity. }
    match goal with |- context [happens ?s0 (Arrives 0)] =>
      assert (happens s0 (Arrives 0) = Sys (page s) [] t1 [] [RecvPost None] (set_sent (sent (srv s) ++ [x]) (srv s)) (truth s)
        [x] (heard s ++ [(page s, m)])) as -> end.
    { cbn [GuiModel.happens wire nth_error]. rewrite serve_request by exact Sx.
      cbn [fst snd page self title wire back srv truth todo heard drop app].
      cbn [set_sent sent]. rewrite skipn_app, skipn_all, Nat.sub_diag. reflexivity. }
    match goal with |- context [happens ?s0 (Delivers 0)] =>
      assert (exists t, happens s0 (Delivers 0) = Sys (page s) [] t [] [] (set_sent (sent (srv s) ++ [x]) (srv s)) (truth s)
        [x] ((heard s ++ [(page s, m)]) ++ [(page s, RecvPost None)])) as (t2 & ->) end.
    { cbn [GuiModel.happens back nth_error].
      match goal with |- context [hear ?m0 ?s0] => destruct (hear_is m0 s0) as (t2 & ->) end. exists t2. reflexivity. }
    eexists. eexists. reflexivity. }
  subst s'. change [Clicks (A := A) n; Arrives 0; Delivers 0; Performs; Commits; Ticks; Arrives 0; Delivers 0]
    with ([Clicks (A := A) n; Arrives 0; Delivers 0; Performs; Commits] ++ [Ticks; Arrives 0; Delivers 0]).
  rewrite after_app.
  rewrite E.
  match goal with |- context [GuiSpec.after _ _ _ _ _ _ ?s0 _] =>
    destruct (poll_is encode_action encode_model reducer pause_eff resume_eff bits s0 (program sv)) as (st & t3 & R & h3 & ->);
      [reflexivity|reflexivity|exact G|] end.
  cbn [truth page]. split; [reflexivity|]. cbn [srv model_ set_model] in R.
  assert (forall p, pg_status (fst (gui_update (M := M) (A := A) (RecvStatus (Some st)) p)) = st) as ->; [|exact R].
  intros p. cbn [gui_update]. destruct (_ || _); [|reflexivity].
  destruct (select_cases (with_status st p) (st_cursor st)) as [[-> _]|(_ & d & -> & _)]; reflexivity.
Qed.
End Ask.
