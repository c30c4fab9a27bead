(** Proofs about the game of snake. *)
From Coq Require Import List ZArith Bool Lia.
From Verif Require Import SnakeModel SnakeSpec.
Import ListNotations.
Local Open Scope Z_scope.

Lemma some_inj : forall A (x y : A), Some x = Some y -> x = y.
Proof. congruence. Qed.
Lemma same_eq : forall p q, same p q = true <-> p = q.
Proof.
  intros [a b] [c d]. unfold same; simpl. rewrite andb_true_iff, !Z.eqb_eq. split; [intros [-> ->]; auto|].
  intros E; injection E; auto.
Qed.
Lemma same_refl : forall p, same p p = true.
Proof. intros. now apply same_eq. Qed.
Lemma same_neq : forall p q, same p q = false <-> p <> q.
Proof. intros. rewrite <- same_eq. destruct (same p q); split; congruence. Qed.
Lemma same_body_eq : forall l k, same_body l k = true <-> l = k.
Proof.
  induction l as [|p l IH]; destruct k as [|q k]; simpl; try (split; congruence).
  rewrite andb_true_iff, same_eq, IH. split; [intros [-> ->]; auto|]. intros E; injection E; auto.
Qed.
Lemma forward_ahead : forall p d, forward p d = ahead d p.
Proof. intros [x y] []; reflexivity. Qed.
Lemma ahead_next : forall d p, next_to (ahead d p) p.
Proof. intros [] [x y]; unfold next_to; simpl; lia. Qed.
Lemma next_neq : forall p q, next_to p q -> p <> q.
Proof. intros p q H ->. unfold next_to in H. lia. Qed.
Lemma in_bounds_board : forall p, in_bounds p = true <-> on_board p.
Proof.
  intros [x y]. unfold in_bounds, on_board, width, height; simpl.
  rewrite !andb_true_iff, !Z.leb_le, !Z.ltb_lt. tauto.
Qed.
Lemma existsb_same : forall p l, existsb (same p) l = true <-> In p l.
Proof.
  intros. rewrite existsb_exists. split; [intros (x & H & E); apply same_eq in E; now subst|].
  intros H. exists p. split; auto. apply same_refl.
Qed.

Lemma not_stays : forall g l z p, body g = l ++ [z] -> (stays g p <-> In p l).
Proof.
  intros g l z p E. split; [intros (l' & z' & E' & H)|intros; exists l, z; auto].
  rewrite E in E'. apply app_inj_tail in E' as [-> _]. auto.
Qed.

Section Run.
Variable rnd : nat -> Z.
Notation update := (update rnd).
Notation updates := (updates rnd).
Notation after := (after rnd).

Lemma updates_app : forall l k m, updates m (l ++ k) =
  match updates m l with Some m' => updates m' k | None => None end.
Proof. induction l as [|a l IH]; intros; simpl; auto. destruct (update m a); auto. Qed.

(** What a tick does, for a body that is [l ++ [z]] with first element [h]. *)
Lemma tick_eq : forall m h l z, body (the m) = l ++ [z] -> head (the m) = Some h ->
  let g := the m in let n := ahead (dir g) h in
  update m Tick = Some (
    if existsb (same n) l || negb (in_bounds n)
    then App (drawn m) (Game (body g) (dir g) (apple g) true)
    else if same z (apple g)
    then App (2 + drawn m) (Game ((n :: l) ++ [z]) (dir g) (apple_at rnd (drawn m)) (over g))
    else App (drawn m) (Game (n :: l) (dir g) (apple g) (over g))).
Proof.
  intros m h l z B H g n. unfold head in H. subst g. cbn [SnakeModel.update]. unfold move_body, rotate.
  destruct (body (the m)) as [|x r] eqn:E; [discriminate|]. injection H as ->.
  assert (L : last (h :: r) h = z). { rewrite B. apply last_last. }
  assert (R : removelast (h :: r) = l). { rewrite B. apply removelast_last. }
  rewrite L, R. cbn [set_first]. rewrite forward_ahead. fold n.
  destruct (existsb (same n) l || negb (in_bounds n)); auto.
  destruct (same z (apple (the m))); auto.
Qed.

Definition cells (g : game) : Prop := exists h l z, body g = h :: l ++ [z].
Lemma cells_split : forall g, cells g -> exists h l z, body g = (h :: l) ++ [z] /\ head g = Some h.
Proof. intros g (h & l & z & E). exists h, l, z. unfold head. rewrite E. auto. Qed.

Lemma blocked_iff : forall g h l z, body g = l ++ [z] -> head g = Some h ->
  (blocked g <-> existsb (same (ahead (dir g) h)) l || negb (in_bounds (ahead (dir g) h)) = true).
Proof.
  intros g h l z B H. rewrite orb_true_iff, existsb_same, negb_true_iff, <- not_true_iff_false, in_bounds_board.
  split.
  - intros (h' & H' & X). rewrite H in H'. injection H' as <-. rewrite (not_stays g l z) in X; tauto.
  - intros X. exists h. split; auto. rewrite (not_stays g l z); tauto.
Qed.
Lemma on_apple_iff : forall g l z, body g = l ++ [z] -> (on_apple g <-> same z (apple g) = true).
Proof.
  intros g l z B. rewrite same_eq. split.
  - intros (k & E). rewrite B in E. apply app_inj_tail in E as [_ ->]. auto.
  - intros E. exists l. congruence.
Qed.

Lemma chain_cons : forall p q l, next_to p q -> chain (q :: l) -> chain (p :: q :: l).
Proof. intros. split; auto. Qed.
Lemma chain_app : forall l k, chain (l ++ k) -> chain l.
Proof.
  induction l as [|p l IH]; intros k H; simpl; auto. destruct l as [|q l]; simpl; auto.
  destruct H as [A H]. split; auto. apply (IH k). exact H.
Qed.

Definition inv (m : app) : Prop :=
  (exists h l z, body (the m) = h :: l ++ [z] /\ (1 <= length l)%nat) /\
  Forall on_board (body (the m)) /\ chain (body (the m)) /\
  exists k, (S (S k) <= drawn m)%nat /\ apple (the m) = (rnd k, rnd (S k)).

Lemma inv_game : forall n, inv (App (2 + n) (make_game rnd n)).
Proof.
  intros n. unfold inv; simpl. split.
  - exists (12, 12), [(11, 12)], (10, 12). split; [reflexivity|simpl; lia].
  - split; [repeat constructor; vm_compute; congruence|].
    split; [unfold chain, next_to; cbn; auto|]. exists n. split; auto.
Qed.
Lemma inv_step : forall m a, inv m -> exists m', update m a = Some m' /\ inv m'.
Proof.
  intros m a (B & F & C & k & K & A).
  destruct a; try (eexists; split; [reflexivity|]; repeat split; auto; exists k; split; auto; fail).
  - eexists. split; [reflexivity|]. apply inv_game.
  - destruct B as (h & l & z & B & L).
    assert (H : head (the m) = Some h) by (unfold head; rewrite B; auto).
    rewrite (tick_eq m h (h :: l) z B H). eexists. split; [reflexivity|].
    set (n := ahead (dir (the m)) h). destruct (existsb _ _ || negb (in_bounds n)) eqn:X.
    + repeat split; auto; [exists h, l, z; auto|exists k; auto].
    + apply orb_false_iff in X as [X1 X2]. rewrite negb_false_iff, in_bounds_board in X2.
      rewrite B in F, C. inversion F as [|? ? F1 F2]; subst. apply Forall_app in F2 as [F2 F3].
      assert (N : next_to n h) by apply ahead_next.
      destruct (same z (apple (the m))).
      * split; [exists n, (h :: l), z; simpl; split; auto; lia|].
        split; [simpl; constructor; auto; constructor; auto; apply Forall_app; auto|].
        split; [simpl; split; auto|]. exists (drawn m). simpl. split; auto.
      * split.
        { destruct (exists_last (l:=l)) as (l' & z' & E); [intros ->; simpl in L; lia|].
          exists n, (h :: l'), z'. cbn [the body]. rewrite E. split; [reflexivity|simpl; lia]. }
        split; [simpl; constructor; auto|]. split; [|exists k; auto].
        cbn [the body]. apply chain_cons; auto. change (h :: l ++ [z]) with ((h :: l) ++ [z]) in C.
        apply chain_app in C. exact C.
Qed.
Lemma inv_after : forall l, exists m, after l = Some m /\ inv m.
Proof.
  intros l. unfold SnakeSpec.after.
  assert (I : inv (make_initial rnd)) by apply (inv_game 0). revert I. generalize (make_initial rnd).
  induction l as [|a l IH]; intros m I; cbn [SnakeModel.updates]; [eauto|].
  destruct (inv_step m a I) as (m' & E & I'). rewrite E. auto.
Qed.
Lemma after_inv : forall l m, after l = Some m -> inv m.
Proof. intros l m H. destruct (inv_after l) as (m' & E & I). congruence. Qed.

Lemma defined : forall l, exists m, after l = Some m.
Proof. intros. destruct (inv_after l) as (m & E & _). eauto. Qed.
Lemma shape : (forall i, 0 <= rnd i < 25) -> forall l m, after l = Some m ->
  (3 <= length (body (the m)))%nat /\ Forall on_board (body (the m)) /\ chain (body (the m)) /\ on_board (apple (the m)).
Proof.
  intros R l m H. destruct (after_inv l m H) as ((h & k & z & B & L) & F & C & j & _ & A).
  repeat split; auto; rewrite ?B, ?A; simpl; rewrite ?app_length; simpl; try lia; apply R.
Qed.

Lemma inv_cells : forall m, inv m -> exists h l z, body (the m) = (h :: l) ++ [z] /\ head (the m) = Some h.
Proof. intros m ((h & l & z & B & _) & _). exists h, l, z. unfold head. rewrite B. auto. Qed.

(** ** The body is where the head was *)
Lemma trail_run : forall l m m' t, inv m -> updates m l = Some m' ->
  (exists r, t = body (the m) ++ r) -> exists r, trail rnd t m l = body (the m') ++ r.
Proof.
  induction l as [|a l IH]; intros m m' t I H T; cbn [SnakeModel.updates trail] in *.
  - injection H as <-. auto.
  - destruct (inv_step m a I) as (m1 & E & I1). rewrite E in *. apply (IH m1 m' _ I1 H). clear IH H.
    destruct (inv_cells m I) as (h & k & z & B & Hd). destruct T as [r T].
    assert (Keep : body (the m1) = body (the m) -> exists r0,
      match head (the m), head (the m1) with
      | Some h0, Some h' => if same h0 h' then t else h' :: t | _, _ => t end = body (the m1) ++ r0).
    { intros X. unfold head. rewrite X. unfold head in Hd. rewrite Hd, same_refl. eauto. }
    destruct a; try (cbn in E; injection E as <-; apply Keep; reflexivity).
    + cbn in E. injection E as <-. exists []. reflexivity.
    + rewrite (tick_eq m h (h :: k) z B Hd) in E. apply some_inj in E. subst m1.
      set (n := ahead (dir (the m)) h) in *. destruct (existsb _ _ || negb (in_bounds n)) eqn:X.
      * apply Keep. reflexivity.
      * assert (N : same h n = false).
        { apply same_neq. intros Q. apply (next_neq n h); [apply ahead_next|congruence]. }
        destruct (same z (apple (the m))); cbn [the body]; unfold head at 2; cbn; rewrite Hd, N, T, B.
        -- exists r. simpl. now rewrite <- !app_assoc.
        -- exists ([z] ++ r). simpl. now rewrite <- app_assoc.
Qed.
Lemma follows : forall l m, after l = Some m ->
  body (the m) = firstn (length (body (the m))) (trail rnd [(12, 12); (11, 12); (10, 12)] (make_initial rnd) l).
Proof.
  intros l m H. destruct (trail_run l _ m [(12, 12); (11, 12); (10, 12)] (inv_game 0) H) as [r E].
  - exists []. reflexivity.
  - change (App (2 + 0) (make_game rnd 0)) with (make_initial rnd) in E. rewrite E, firstn_app, Nat.sub_diag, firstn_all.
    simpl. now rewrite app_nil_r.
Qed.

(** ** One step *)
Lemma turn : forall l m a d, after l = Some m -> wanted a = Some d -> exists m', update m a = Some m' /\
  drawn m' = drawn m /\ body (the m') = body (the m) /\ apple (the m') = apple (the m) /\ over (the m') = over (the m) /\
  (d = opposite (dir (the m)) -> dir (the m') = dir (the m)) /\
  (d <> opposite (dir (the m)) -> dir (the m') = d).
Proof.
  intros l m a d H W. destruct a; try discriminate; injection W as <-; (eexists; split; [reflexivity|]);
    repeat split; destruct (dir (the m)); simpl; congruence.
Qed.
Lemma tick : forall l m, after l = Some m -> exists h m', head (the m) = Some h /\ update m Tick = Some m' /\
  dir (the m') = dir (the m) /\
  (blocked (the m) -> body (the m') = body (the m) /\ apple (the m') = apple (the m) /\ drawn m' = drawn m /\
                      over (the m') = true) /\
  (~ blocked (the m) -> over (the m') = over (the m) /\ head (the m') = Some (ahead (dir (the m)) h) /\
     (on_apple (the m) -> length (body (the m')) = S (length (body (the m))) /\ drawn m' = (2 + drawn m)%nat /\
        apple (the m') = (rnd (drawn m), rnd (S (drawn m)))) /\
     (~ on_apple (the m) -> length (body (the m')) = length (body (the m)) /\ drawn m' = drawn m /\
        apple (the m') = apple (the m))).
Proof.
  intros l m H. destruct (inv_cells m (after_inv l m H)) as (h & k & z & B & Hd). exists h.
  rewrite (tick_eq m h (h :: k) z B Hd). eexists. split; [auto|]. split; [reflexivity|].
  rewrite (blocked_iff _ h (h :: k) z B Hd), (on_apple_iff _ (h :: k) z B).
  destruct (existsb _ _ || _); [cbn; repeat split; congruence|].
  destruct (same z (apple (the m))); cbn [the body dir apple over drawn]; (split; [reflexivity|]);
    (split; [congruence|]); intros _; (split; [reflexivity|]); (split; [reflexivity|]); (split; [|congruence] || (split; [congruence|]));
    intros _; rewrite B; repeat split; simpl; rewrite ?app_length; simpl; lia.
Qed.

(** ** The end of the game *)
Lemma over_step : forall l m a m', after l = Some m -> update m a = Some m' ->
  (over (the m') = true <-> a <> Reset_ /\ (over (the m) = true \/ a = Tick /\ blocked (the m))).
Proof.
  intros l m a m' H E. destruct a;
    try (cbn in E; injection E as <-; cbn; split; [intros X; split; [discriminate|auto]|intros [_ [X|[X _]]]; [auto|discriminate]]; fail).
  - cbn in E. injection E as <-. cbn. split; [discriminate|intros [X _]; congruence].
  - destruct (tick l m H) as (h & m1 & _ & E1 & _ & Bl & NB). rewrite E in E1. injection E1 as <-.
    destruct (inv_cells m (after_inv l m H)) as (h' & k & z & B & Hd).
    assert (D : blocked (the m) \/ ~ blocked (the m)).
    { rewrite (blocked_iff _ _ _ _ B Hd). destruct (_ || _); [left|right]; congruence. }
    destruct D as [D|D].
    + destruct (Bl D) as (_ & _ & _ & ->). split; [intros _; split; [discriminate|auto]|auto].
    + destruct (NB D) as (-> & _). split; [intros X; split; [discriminate|auto]|tauto].
Qed.
Lemma over_when : forall l m, after l = Some m ->
  (over (the m) = true <->
   exists l1 l2 m1, l = l1 ++ Tick :: l2 /\ ~ In Reset_ l2 /\ after l1 = Some m1 /\ blocked (the m1)).
Proof.
  induction l as [|a l IH] using rev_ind; intros m H.
  - unfold SnakeSpec.after in H. simpl in H. injection H as <-. simpl. split; [discriminate|].
    intros (l1 & l2 & m1 & E & _). destruct l1; discriminate.
  - unfold SnakeSpec.after in H. rewrite updates_app in H. fold (after l) in H.
    destruct (after l) as [m0|] eqn:A; [|discriminate]. cbn in H.
    destruct (update m0 a) as [m1|] eqn:E; [|discriminate]. injection H as ->.
    rewrite (over_step l m0 a m A E), (IH m0 eq_refl). split.
    + intros [N [(l1 & l2 & m1 & -> & R & A1 & Bl)|[-> Bl]]].
      * exists l1, (l2 ++ [a]), m1. rewrite <- app_assoc. repeat split; auto.
        intros X. apply in_app_or in X as [X|[X|[]]]; auto.
      * exists l, [], m0. repeat split; auto.
    + intros (l1 & l2 & m1 & X & R & A1 & Bl). destruct l2 as [|b l2] using rev_ind.
      * apply app_inj_tail in X as [-> ->]. split; [discriminate|]. right. split; auto. congruence.
      * clear IHl2. rewrite app_comm_cons, app_assoc in X. apply app_inj_tail in X as [-> ->]. split.
        -- intros ->. apply R. apply in_or_app. right. now left.
        -- left. exists l1, l2, m1. repeat split; auto. intros Y. apply R. apply in_or_app. now left.
Qed.
Lemma still : forall l m k, after l = Some m -> blocked (the m) -> over (the m) = true ->
  updates m (repeat Tick k) = Some m.
Proof.
  intros l m k H B O. induction k as [|k IH]; simpl repeat; cbn [SnakeModel.updates]; auto.
  destruct (tick l m H) as (h & m1 & _ & E & D & Bl & _). destruct (Bl B) as (X1 & X2 & X3 & X4). rewrite E.
  assert (m1 = m) as ->; auto. destruct m as [dm [b d a o]], m1 as [dm1 [b1 d1 a1 o1]]; simpl in *. congruence.
Qed.

(** ** Overlaps *)
Lemma NoDup_snoc : forall (l : list point) z, NoDup l -> ~ In z l -> NoDup (l ++ [z]).
Proof.
  induction l as [|p l IH]; intros z N I; simpl; [constructor; auto; constructor|].
  inversion N; subst. constructor; [|apply IH; auto; intros X; apply I; now right].
  intros X. apply in_app_or in X as [X|[X|[]]]; auto. subst. apply I. now left.
Qed.
Lemma NoDup_init : forall (l : list point) z, NoDup (l ++ [z]) -> NoDup l /\ ~ In z l.
Proof.
  intros l z N. apply NoDup_remove in N. rewrite app_nil_r in N. exact N.
Qed.
Lemma overlap : forall l m, after l = Some m -> NoDup (body (the m)) \/
  exists l1 l2 m1 h, l = l1 ++ Tick :: l2 /\ ~ In Reset_ l2 /\ after l1 = Some m1 /\
    ~ blocked (the m1) /\ on_apple (the m1) /\ head (the m1) = Some h /\ ahead (dir (the m1)) h = apple (the m1).
Proof.
  induction l as [|a l IH] using rev_ind; intros m H.
  - unfold SnakeSpec.after in H. simpl in H. injection H as <-. left. cbn.
    repeat constructor; simpl; intuition discriminate.
  - unfold SnakeSpec.after in H. rewrite updates_app in H. fold (after l) in H.
    destruct (after l) as [m0|] eqn:A; [|discriminate]. cbn in H.
    destruct (update m0 a) as [m1|] eqn:E; [|discriminate]. injection H as ->.
    assert (Later : a <> Reset_ -> (exists l1 l2 m1 h, l = l1 ++ Tick :: l2 /\ ~ In Reset_ l2 /\ after l1 = Some m1 /\
        ~ blocked (the m1) /\ on_apple (the m1) /\ head (the m1) = Some h /\ ahead (dir (the m1)) h = apple (the m1)) ->
      exists l1 l2 m1 h, l ++ [a] = l1 ++ Tick :: l2 /\ ~ In Reset_ l2 /\ after l1 = Some m1 /\
        ~ blocked (the m1) /\ on_apple (the m1) /\ head (the m1) = Some h /\ ahead (dir (the m1)) h = apple (the m1)).
    { intros N (l1 & l2 & m1 & h & -> & R & X). exists l1, (l2 ++ [a]), m1, h. rewrite <- app_assoc.
      split; [reflexivity|]. split; [|exact X]. intros Y. apply in_app_or in Y as [Y|[Y|[]]]; auto. }
    specialize (IH m0 eq_refl).
    destruct a; try (cbn in E; injection E as <-; cbn [the body set_dir]; destruct IH as [IH|IH];
                     [auto|right; apply Later; [discriminate|exact IH]]; fail).
    + cbn in E. injection E as <-. left. cbn. repeat constructor; simpl; intuition discriminate.
    + destruct IH as [IH|IH]; [|right; apply Later; [discriminate|exact IH]].
      destruct (inv_cells m0 (after_inv l m0 A)) as (h & k & z & B & Hd).
      pose proof (blocked_iff _ _ _ _ B Hd) as BI. pose proof (on_apple_iff _ _ _ B) as AI.
      rewrite (tick_eq m0 h (h :: k) z B Hd) in E. apply some_inj in E. subst m.
      destruct (existsb _ _ || _) eqn:X; [auto|].
      rewrite B in IH. destruct (NoDup_init _ _ IH) as [N1 N2].
      assert (X' := X). apply orb_false_iff in X' as [X' _]. rewrite <- not_true_iff_false, existsb_same in X'.
      destruct (same z (apple (the m0))) eqn:Z; cbn [the body].
      * destruct (same (ahead (dir (the m0)) h) z) eqn:Y.
        -- right. apply same_eq in Y, Z. exists l, [], m0, h. repeat split; auto.
           ++ rewrite BI. congruence.
           ++ apply AI. auto.
           ++ congruence.
        -- left. apply same_neq in Y. apply NoDup_snoc; [constructor; auto|].
           intros [Q|Q]; [congruence|auto].
      * left. constructor; auto.
Qed.
End Run.

(** ** The view *)
Lemma show_eq : forall v g, fst (show v g) = View (body g) (apple g) (over g).
Proof.
  intros [b a o] [b' d a' o']. unfold show. simpl.
  destruct (same_body b b') eqn:X; [apply same_body_eq in X; subst|];
  destruct (same a a') eqn:Y; try (apply same_eq in Y; subst);
  destruct (Bool.eqb o o') eqn:Z; try (apply eqb_prop in Z; subst); reflexivity.
Qed.
Lemma show_signals : forall v g,
  (In BodyReset (snd (show v g)) <-> v_body v <> body g) /\
  (forall p, In (AppleChanged p) (snd (show v g)) <-> p = apple g /\ v_apple v <> p) /\
  (In OverChanged (snd (show v g)) <-> v_over v <> over g) /\ NoDup (snd (show v g)).
Proof.
  intros [b a o] [b' d a' o']. unfold show. simpl.
  assert (X : same_body b b' = true /\ b = b' \/ same_body b b' = false /\ b <> b').
  { pose proof (same_body_eq b b'). destruct (same_body b b'); [left; tauto|right; split; auto; intros Q; apply H in Q; discriminate]. }
  assert (Y : same a a' = true /\ a = a' \/ same a a' = false /\ a <> a').
  { pose proof (same_eq a a'). destruct (same a a'); [left; tauto|right; split; auto; intros Q; apply H in Q; discriminate]. }
  assert (Z : Bool.eqb o o' = true /\ o = o' \/ Bool.eqb o o' = false /\ o <> o').
  { destruct o, o'; simpl; auto; right; split; auto; discriminate. }
  destruct X as [[-> X]|[-> X]], Y as [[-> Y]|[-> Y]], Z as [[-> Z]|[-> Z]]; simpl;
    repeat split; try (intros Q; intuition (congruence || discriminate); fail); intros;
    try (intuition (try congruence; try discriminate); fail);
    try (repeat constructor; simpl; intuition discriminate).
Qed.
Lemma shown_last : forall gs v g, fst (shown v (gs ++ [g])) = View (body g) (apple g) (over g).
Proof.
  induction gs as [|g0 gs IH]; intros v g; simpl.
  - pose proof (show_eq v g) as E. destruct (show v g) as [v1 e1]. exact E.
  - destruct (show v g0) as [v1 e1]. specialize (IH v1 g). destruct (shown v1 (gs ++ [g])). exact IH.
Qed.
