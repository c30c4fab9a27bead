(** C78: what clients of a store do comes to an end; proofs. *)
From Coq Require Import List Arith Bool Lia Permutation.
From Verif Require Import StoreModel StoreEndsSpec.
Import ListNotations.

(** ** Bags *)
Section Bags.
Context {X : Type}.
Variable kid : X -> X -> Prop.
(** [b'] is what is left of [b] when one element is replaced by some of its kids. *)
Definition lt_bag (b' b : list X) : Prop := exists x rest l lost,
  Permutation b (x :: rest) /\ Forall (fun y => kid y x) l /\ Permutation (rest ++ l) (b' ++ lost).
Lemma acc_perm : forall b b', Acc lt_bag b -> Permutation b b' -> Acc lt_bag b'.
Proof.
  intros b b' H P. constructor. intros c (x & rest & l & lost & P1 & F & P2). apply (Acc_inv H).
  exists x, rest, l, lost. split; [|split; auto]. rewrite P. exact P1.
Qed.
Lemma acc_sub : forall b lost, Acc lt_bag (b ++ lost) -> Acc lt_bag b.
Proof.
  intros b lost H. constructor. intros c (x & rest & l & lost' & P1 & F & P2). apply (Acc_inv H).
  exists x, (rest ++ lost), l, (lost' ++ lost). split; [|split; auto].
  - rewrite P1. reflexivity.
  - rewrite app_assoc, <- P2, <- !app_assoc. apply Permutation_app_head, Permutation_app_comm.
Qed.
Lemma acc_cons : forall x, Acc kid x -> forall b, Acc lt_bag b -> Acc lt_bag (x :: b).
Proof.
  intros x Hx. induction Hx as [x _ IHx]. intros b Hb. induction Hb as [b Hb0 IHb].
  assert (Hb : Acc lt_bag b) by (constructor; exact Hb0).
  constructor. intros c (y & rest & l & lost & P1 & F & P2).
  assert (In y (x :: b)) as I by (apply (Permutation_in y (Permutation_sym P1)); left; reflexivity).
  destruct I as [<- | I].
  - apply Permutation_cons_inv in P1. apply (acc_sub c lost). apply (acc_perm (rest ++ l)); [|exact P2].
    apply (acc_perm (l ++ b)); [|rewrite Permutation_app_comm; apply Permutation_app_tail; exact P1].
    clear P2. induction F as [|z l K F IH]; [exact Hb|]. apply (IHx z K), IH.
  - apply in_split in I. destruct I as (b1 & b2 & E).
    assert (Permutation b (y :: (b1 ++ b2))) as Pb by (rewrite E; symmetry; apply Permutation_middle).
    assert (Permutation rest (x :: (b1 ++ b2))) as Pr.
    { apply (Permutation_cons_inv (a := y)). rewrite <- P1, Pb. apply perm_swap. }
    apply (acc_sub c lost). apply (acc_perm (x :: ((b1 ++ b2) ++ l))).
    + apply IHb. exists y, (b1 ++ b2), l, []. rewrite app_nil_r. split; [exact Pb|]. split; [exact F|reflexivity].
    + rewrite <- P2, Pr. reflexivity.
Qed.
Lemma acc_bag : forall b, Forall (Acc kid) b -> Acc lt_bag b.
Proof.
  intros b F. induction F as [|x b H F IH].
  - constructor. intros c (x & rest & l & lost & P1 & _). apply Permutation_nil in P1. discriminate P1.
  - apply acc_cons; auto.
Qed.
(** [b'] is what is left of [b] and some new elements. *)
Definition grows (P : X -> Prop) (b b' : list X) : Prop :=
  exists l lost, Forall P l /\ Permutation (b ++ l) (b' ++ lost).
Lemma grows_perm : forall (P : X -> Prop) b b', Permutation b b' -> grows P b b'.
Proof. intros P b b' H. exists [], []. rewrite !app_nil_r. split; auto. Qed.
Lemma grows_trans : forall (P : X -> Prop) b b1 b2, grows P b b1 -> grows P b1 b2 -> grows P b b2.
Proof.
  intros P b b1 b2 (l & lost & F & E) (l' & lost' & F' & E'). exists (l ++ l'), (lost' ++ lost). split; [apply Forall_app; auto|].
  rewrite !app_assoc, E, <- E', <- !app_assoc. apply Permutation_app_head, Permutation_app_comm.
Qed.
Lemma grows_new : forall (P : X -> Prop) x b, P x -> grows P b (x :: b).
Proof.
  intros P x b H. exists [x], []. split; [auto|]. rewrite app_nil_r. symmetry. apply Permutation_cons_append.
Qed.
Lemma grows_lose : forall (P : X -> Prop) b b' lost, Permutation b (b' ++ lost) -> grows P b b'.
Proof. intros P b b' lost H. exists [], lost. rewrite app_nil_r. auto. Qed.
Lemma grows_all : forall (P : X -> Prop) b b', Forall P b' -> grows P b b'.
Proof. intros P b b' H. exists b', b. split; [exact H|apply Permutation_app_comm]. Qed.
Lemma grows_forall : forall (P K : X -> Prop) b b', (forall x, P x -> K x) -> grows P b b' -> Forall K b -> Forall K b'.
Proof.
  intros P K b b' H (l & lost & F & E) G. assert (Forall K (b' ++ lost)) as Y.
  { rewrite <- E. apply Forall_app. split; [exact G|]. eapply Forall_impl; [exact H|exact F]. }
  apply Forall_app in Y. apply Y.
Qed.
End Bags.

Section Ends.
Context {M A W : Type}.
Notation prog := (prog M A W).
Notation st := (st M A W).
Notation res := (res M A W).
Notation job := (job M A W).
Notation cell := (cell M A W).
Variable reducer : M -> A -> option (M * option prog).
Variable eqb : M -> M -> bool.
Variables trans futures manual : bool.
Variable ext : nat -> list A.
Notation exec := (exec reducer eqb trans futures manual ext).
Notation arrive := (arrive futures manual ext).
Variable rank : A -> nat.
Hypothesis Hred : falling rank reducer.
Variable N : nat.
Hypothesis Hext : manual = true \/ forall t, N <= t -> ext t = [].

(** ** What is waiting *)
Inductive wt :=
| WReduce (a : A) | WEffect (e : prog) | WNotify | WUser (p : prog) | WCb (c : prog) | WFul.
Definition wc (c : callback M A W) : wt := match c with CBUser c => WCb c | CBFulfil _ => WFul end.
Definition wj (j : job) : wt :=
  match j with
  | JReduce _ _ a => WReduce a | JEffect _ _ e => WEffect e | JNotify _ _ => WNotify
  | JUser p => WUser p | JCb _ c _ => wc c
  end.
Fixpoint kids (p : prog) (w : wt) : Prop :=
  match p with
  | PRet _ | PThrow => False
  | PGet k => exists m, kids (k m) w
  | PWorld k => exists x, kids (k x) w
  | PSet _ k | PMark _ k | PFulfil _ k | PCommit k | PUnwatch _ k | PStep k => kids k w
  | PDispatch a k => w = WReduce a \/ exists f, kids (k f) w
  | PThen _ c k => w = WCb c \/ kids c w \/ exists f, kids (k f) w
  | PPost p k => w = WUser p \/ kids k w
  | PPromise k | PWatch _ k => exists i, kids (k i) w
  | PTry p k => kids p w \/ exists b, kids (k b) w
  end.
Definition kid (w' w : wt) : Prop :=
  match w with
  | WReduce a => w' = WNotify \/ exists m m' e, reducer m a = Some (m', Some e) /\ w' = WEffect e
  | WEffect e => kids e w' \/ w' = WFul
  | WUser p => kids p w'
  | WCb c => kids c w' \/ w' = WFul
  | WNotify | WFul => False
  end.
Definition okw (w : wt) : Prop :=
  match w with WEffect p | WUser p | WCb p => exists n, below rank n p | _ => True end.
Lemma ok_kids : forall n p, below rank n p -> forall w, kids p w -> okw w.
Proof.
  intros n p B. induction B; cbn [kids]; intros x K; try (exfalso; exact K); try (eapply IHB; eassumption).
  - destruct K as [i K]; eauto.
  - destruct K as [i K]; eauto.
  - destruct K as [-> | [f K]]; [exact I|eauto].
  - destruct K as [-> | [K | [f' K]]]; [exists n; exact B|eauto|eauto].
  - destruct K as [-> | K]; [exists n; exact B1|eauto].
  - destruct K as [i K]; eauto.
  - destruct K as [i K]; eauto.
  - destruct K as [K | [i K]]; eauto.
Qed.
Lemma ok_kid : forall w w', okw w -> kid w' w -> okw w'.
Proof.
  intros w w' O K. destruct w; cbn [kid okw] in *.
  - destruct K as [-> | (m & m' & e & R & ->)]; [exact I|]. exists (rank a). eapply Hred, R.
  - destruct O as [n B]. destruct K as [K | ->]; [eapply ok_kids; eassumption|exact I].
  - destruct K.
  - destruct O as [n B]. eapply ok_kids; eassumption.
  - destruct O as [n B]. destruct K as [K | ->]; [eapply ok_kids; eassumption|exact I].
  - destruct K.
Qed.
Lemma acc_ful : Acc kid WFul.
Proof. constructor. intros y []. Qed.
Lemma acc_kids : forall n, (forall a, rank a < n -> Acc kid (WReduce a)) ->
  forall p, below rank n p -> forall w, kids p w -> Acc kid w.
Proof.
  intros n R p B. induction B; cbn [kids]; intros x K; try (exfalso; exact K); try (eapply IHB; eassumption).
  - destruct K as [i K]; eauto.
  - destruct K as [i K]; eauto.
  - destruct K as [-> | [f K]]; eauto.
  - destruct K as [-> | [K | [f' K]]]; [|eauto|eauto].
    constructor. intros y [Y | ->]; [apply IHB, Y|exact acc_ful].
  - destruct K as [-> | K]; [|eauto]. constructor. intros y Y. apply IHB1, Y.
  - destruct K as [i K]; eauto.
  - destruct K as [i K]; eauto.
  - destruct K as [K | [i K]]; eauto.
Qed.
Lemma acc_reduce : forall n a, rank a < n -> Acc kid (WReduce a).
Proof.
  induction n as [|n IH]; intros a L; [lia|]. constructor. intros y [-> | (m & m' & e & R & ->)].
  - constructor. intros z [].
  - constructor. intros z [Z | ->]; [|exact acc_ful].
    apply (acc_kids (rank a)) with (p := e); [|eapply Hred, R|exact Z]. intros a' L'. apply IH. lia.
Qed.
Lemma acc_below : forall n p, below rank n p -> forall w, kids p w -> Acc kid w.
Proof. intros n p B. apply (acc_kids n); [|exact B]. intros a L. exact (acc_reduce n a L). Qed.
Lemma acc_ok : forall w, okw w -> Acc kid w.
Proof.
  intros w O. destruct w as [a|e| |p|c|]; cbn [okw] in O; [|destruct O as [n B]| |destruct O as [n B]|destruct O as [n B]|].
  - exact (acc_reduce (S (rank a)) a (Nat.lt_succ_diag_r _)).
  - constructor. intros y [Y | ->]; [exact (acc_below n e B y Y)|exact acc_ful].
  - constructor. intros z [].
  - constructor. intros y Y. exact (acc_below n p B y Y).
  - constructor. intros y [Y | ->]; [exact (acc_below n c B y Y)|exact acc_ful].
  - exact acc_ful.
Qed.

(** ** The bag of a state: the queue, callbacks of futures, and actions to come from others *)
Definition cj (c : cell) : list wt := match cb c with Some j => [wj j] | None => [] end.
Definition coming (n : nat) : list wt :=
  if manual then [] else map WReduce (flat_map ext (seq n (N - n))).
Definition bag (s : st) : list wt := map wj (q s) ++ flat_map cj (heap s) ++ coming (clock s).
Definition slot_ok (o : option (M -> prog)) : Prop := match o with Some w => forall m, looks (w m) | None => True end.

Lemma fold_arrive : forall l (s : st), let s' := fold_left (arrive1 futures) l s in
  map wj (q s') = map wj (q s) ++ map WReduce l /\ flat_map cj (heap s') = flat_map cj (heap s) /\
  clock s' = clock s /\ busy s' = busy s /\ slots s' = slots s.
Proof.
  induction l as [|a l IH]; intros s; cbn [fold_left map]; [rewrite app_nil_r; auto 10|].
  destruct (IH (arrive1 futures s a)) as (E1 & E2 & E3 & E4 & E5). rewrite E1, E2, E3, E4, E5. clear.
  unfold arrive1, new_dispatch. destruct futures; cbn; rewrite ?map_app, ?flat_map_app, <- ?app_assoc, ?app_nil_r; cbn; auto 10.
Qed.
Lemma bag_arrive : forall s, Permutation (bag s) (bag (arrive s)) /\ busy (arrive s) = busy s /\ slots (arrive s) = slots s.
Proof.
  intros s. unfold StoreModel.arrive, bag, coming. destruct Hext as [-> | Hx]; [auto|].
  destruct manual eqn:Mn; [auto|]. destruct (fold_arrive (ext (clock s)) s) as (E1 & E2 & E3 & E4 & E5).
  set (s' := fold_left (arrive1 futures) (ext (clock s)) s) in *. clearbody s'. cbn [tick q heap clock busy slots].
  rewrite E1, E2, E3. split; [|split; [exact E4|exact E5]]. rewrite <- app_assoc. apply Permutation_app_head.
  assert (map WReduce (flat_map ext (seq (clock s) (N - clock s))) =
          map WReduce (ext (clock s)) ++ map WReduce (flat_map ext (seq (S (clock s)) (N - S (clock s))))) as ->.
  { destruct (le_lt_dec N (clock s)) as [L | L].
    - rewrite (Hx _ L). replace (N - clock s) with 0 by lia. replace (N - S (clock s)) with 0 by lia. reflexivity.
    - replace (N - clock s) with (S (N - S (clock s))) by lia. cbn [seq flat_map]. rewrite map_app. reflexivity. }
  rewrite !app_assoc. apply Permutation_app_tail, Permutation_app_comm.
Qed.
Lemma bag_push : forall j s, Permutation (wj j :: bag s) (bag (push_job j s)).
Proof.
  intros j s. unfold bag. cbn [push_job set_q q heap clock]. rewrite map_app, <- app_assoc. cbn [map app]. apply Permutation_middle.
Qed.
Lemma set_cells : forall n c h, exists lost, Permutation (cj c ++ flat_map cj h) (flat_map cj (set_nth n c h) ++ lost).
Proof.
  intros n c h. revert n. induction h as [|d h IH]; intros n; cbn [set_nth flat_map].
  - exists (cj c). rewrite app_nil_r. destruct n; reflexivity.
  - destruct n as [|n]; cbn [set_nth flat_map].
    + exists (cj d). rewrite <- !app_assoc. apply Permutation_app_head, Permutation_app_comm.
    + destruct (IH n) as [lost E]. exists lost. rewrite <- app_assoc, <- E, !app_assoc. apply Permutation_app_tail, Permutation_app_comm.
Qed.
Lemma set_nth_len : forall X (x : X) l n, length (set_nth n x l) = length l.
Proof. induction l as [|y l IH]; intros [|n]; cbn; auto. Qed.
Lemma bag_upd : forall n c s, exists lost, Permutation (cj c ++ bag s) (bag (upd_cell n c s) ++ lost).
Proof.
  intros n c s. destruct (set_cells n c (heap s)) as [lost E]. exists lost. unfold bag, upd_cell. cbn [set_heap q heap clock].
  transitivity (map wj (q s) ++ (cj c ++ flat_map cj (heap s)) ++ coming (clock s)).
  - rewrite !app_assoc. do 2 apply Permutation_app_tail. apply Permutation_app_comm.
  - rewrite E, <- !app_assoc. do 2 apply Permutation_app_head. apply Permutation_app_comm.
Qed.
Lemma bag_take : forall n k d l j k' d' l' s, nth_error (heap s) n = Some (Cell k d l (Some j)) ->
  Permutation (bag s) (wj j :: bag (upd_cell n (Cell k' d' l' None) s)).
Proof.
  intros n k d l j k' d' l' s H. unfold bag, upd_cell. cbn [set_heap q heap clock].
  assert (Permutation (flat_map cj (heap s)) (wj j :: flat_map cj (set_nth n (Cell k' d' l' None) (heap s)))) as E.
  { revert n H. induction (heap s) as [|c h IH]; intros [|n] H; cbn in H; try discriminate H.
    - injection H as ->. reflexivity.
    - cbn [set_nth flat_map]. rewrite (IH n H). symmetry. apply Permutation_middle. }
  rewrite E. cbn [app]. symmetry. apply Permutation_middle.
Qed.
Lemma bag_cell : forall k s, bag (new_cell k s) = bag s.
Proof. intros k s. unfold bag. cbn [new_cell set_heap q heap clock]. rewrite flat_map_app. cbn. rewrite app_nil_r. reflexivity. Qed.
Lemma bag_dispatch : forall a s s1 f j, new_dispatch futures a s = (s1, f, j) ->
  bag s1 = bag s /\ busy s1 = busy s /\ slots s1 = slots s /\ wj j = WReduce a.
Proof.
  intros a s s1 f j E. unfold new_dispatch in E. injection E as <- _ <-. destruct futures; [|auto].
  split; [|auto]. apply (bag_cell KDisp s).
Qed.

(** ** Coming to an end *)
Definition holds (r : res) (Q : st -> Prop) : Prop :=
  match r with Done _ s | Thrown s => Q s | OutOfFuel => False | _ => True end.
Definition evt (F : nat -> res) (Q : st -> Prop) : Prop := exists n r, (forall f, n <= f -> F f = r) /\ holds r Q.
Definition stops (t : task M A W) (s : st) (Q : st -> Prop) : Prop := evt (fun f => exec f t s) Q.
Lemma evt_S : forall t s Q, evt (fun f => exec (S f) t s) Q -> stops t s Q.
Proof.
  intros t s Q (n & r & H & K). exists (S n), r. split; [|exact K]. intros f L. destruct f as [|f]; [lia|]. apply H. lia.
Qed.
Lemma evt_pure : forall r Q, holds r Q -> evt (fun _ => r) Q.
Proof. intros r Q H. exists 0, r. auto. Qed.
Lemma evt_weaken : forall F (Q Q' : st -> Prop), evt F Q -> (forall s, Q s -> Q' s) -> evt F Q'.
Proof. intros F Q Q' (n & r & H & K) I. exists n, r. split; [exact H|]. destruct r; cbn in *; auto. Qed.
Lemma evt_bind : forall F k (Q1 Q : st -> Prop), evt F Q1 -> (forall s, Q1 s -> Q s) ->
  (forall o s, Q1 s -> evt (fun f => k f o s) Q) -> evt (fun f => andthen (F f) (k f)) Q.
Proof.
  intros F k Q1 Q (n & r & H & K) I J. destruct r as [o s|s| | |]; cbn [holds] in K.
  - destruct (J o s K) as (n' & r & H' & K'). exists (max n n'), r. split; [|exact K']. intros f L.
    rewrite H by lia. cbn [andthen]. apply H'. lia.
  - exists n, (Thrown s). split; [intros f L; rewrite H by lia; reflexivity|]. apply I, K.
  - exists n, Misuse. split; [intros f L; rewrite H by lia; reflexivity|exact Logic.I].
  - exists n, Deadlock. split; [intros f L; rewrite H by lia; reflexivity|exact Logic.I].
  - destruct K.
Qed.
Lemma evt_throw : forall F h (Q : st -> Prop), evt F Q -> (forall s, Q s -> Q (h s)) -> evt (fun f => on_throw (F f) h) Q.
Proof.
  intros F h Q (n & r & H & K) I. exists n, (on_throw r h). split; [intros f L; rewrite H by lia; reflexivity|].
  destruct r; cbn in *; auto.
Qed.
Lemma evt_if : forall (b : bool) F G (Q : st -> Prop), evt F Q -> evt G Q -> evt (fun f => if b then F f else G f) Q.
Proof. intros b F G Q H K. destruct b; assumption. Qed.
(** a result that is changed *)
Lemma evt_map : forall F (g1 : option nat -> option nat) g2 h (Q1 Q : st -> Prop), evt F Q1 ->
  (forall s, Q1 s -> Q (g2 s)) -> (forall s, Q1 s -> Q (h s)) ->
  evt (fun f => match F f with Done o s => Done (g1 o) (g2 s) | Thrown s => Thrown (h s) | r => r end) Q.
Proof.
  intros F g1 g2 h Q1 Q (n & r & H & K) I J.
  exists n, (match r with Done o s => Done (g1 o) (g2 s) | Thrown s => Thrown (h s) | r => r end).
  split; [intros f L; rewrite H by lia; destruct r; reflexivity|]. destruct r; cbn in *; auto.
Qed.
Lemma evt_try : forall F k (Q1 Q : st -> Prop), evt F Q1 -> (forall b s, Q1 s -> evt (fun f => k f b s) Q) ->
  evt (fun f => match F f with Done _ s => k f true s | Thrown s => k f false s | r => r end) Q.
Proof.
  intros F k Q1 Q (n & r & H & K) J. destruct r as [o s|s| | |]; cbn [holds] in K.
  - destruct (J true s K) as (n' & r & H' & K'). exists (max n n'), r. split; [|exact K']. intros f L.
    rewrite H by lia. apply H'. lia.
  - destruct (J false s K) as (n' & r & H' & K'). exists (max n n'), r. split; [|exact K']. intros f L.
    rewrite H by lia. apply H'. lia.
  - exists n, Misuse. split; [intros f L; rewrite H by lia; reflexivity|exact Logic.I].
  - exists n, Deadlock. split; [intros f L; rewrite H by lia; reflexivity|exact Logic.I].
  - destruct K.
Qed.

(** ** One function at a time, or many *)
Section Mode.
Variable B : bool.
Variable P : wt -> Prop.
Hypothesis HP : forall w, P w -> okw w.
Definition Inv (s : st) : Prop := busy s = B /\ Forall slot_ok (slots s) /\ Forall okw (bag s).
Definition T (b : list wt) (s : st) : Prop := Inv s /\ grows P b (bag s).
Hypothesis Hpost : forall j s, Inv s -> okw (wj j) -> stops (TPost j) s (T (wj j :: bag s)).
Hypothesis Hrun : B = false -> forall s, Inv s -> stops TRun s (T (bag s)).

Lemma T_trans : forall b s s', T b s -> T (bag s) s' -> T b s'.
Proof. intros b s s' [_ G] [I G']. split; [exact I|]. eapply grows_trans; eassumption. Qed.
Lemma T_refl : forall s, Inv s -> T (bag s) s.
Proof. intros s I. split; [exact I|]. apply grows_perm. reflexivity. Qed.
(** changes of other things *)
Lemma T_same : forall b s s', bag s' = bag s -> busy s' = busy s -> slots s' = slots s -> T b s -> T b s'.
Proof. intros b s s' E1 E2 E3 [(I1 & I2 & I3) G]. unfold T, Inv. rewrite E1, E2, E3. auto. Qed.
Lemma Inv_same : forall s s', bag s' = bag s -> busy s' = busy s -> slots s' = slots s -> Inv s -> Inv s'.
Proof. intros s s' E1 E2 E3 (I1 & I2 & I3). unfold Inv. rewrite E1, E2, E3. auto. Qed.
Lemma T_arrive : forall s, Inv s -> T (bag s) (arrive s).
Proof.
  intros s (I1 & I2 & I3). destruct (bag_arrive s) as (E1 & E2 & E3). split; [|apply grows_perm, E1].
  unfold Inv. rewrite E2, E3. split; [exact I1|]. split; [exact I2|]. rewrite <- E1. exact I3.
Qed.
Lemma T_upd : forall n c s b, T b s -> Forall P (cj c) -> T b (upd_cell n c s).
Proof.
  intros n c s b [(I1 & I2 & I3) G] F. destruct (bag_upd n c s) as [lost E].
  assert (grows P (bag s) (bag (upd_cell n c s))) as G'.
  { exists (cj c), lost. split; [exact F|]. rewrite Permutation_app_comm. exact E. }
  split; [|eapply grows_trans; eassumption]. split; [exact I1|]. split; [exact I2|].
  eapply grows_forall; [exact HP|exact G'|exact I3].
Qed.
Lemma T_Inv : forall b s, T b s -> Inv s.
Proof. intros b s [I _]. exact I. Qed.

Lemma post_new : forall j s, Inv s -> P (wj j) -> stops (TPost j) s (T (bag s)).
Proof.
  intros j s I H. eapply evt_weaken; [apply Hpost; [exact I|apply HP, H]|]. intros s' [I' G]. split; [exact I'|].
  eapply grows_trans; [apply grows_new, H|exact G].
Qed.
Lemma fulfil_stops : forall n s, Inv s -> stops (TFulfil n) s (T (bag s)).
Proof.
  intros n s I. apply evt_S. cbn [StoreModel.exec].
  destruct (nth_error (heap s) n) as [[k d [|] [j|]]|] eqn:E; try (destruct d; apply evt_pure; exact Logic.I);
    try (apply evt_pure; exact Logic.I).
  - destruct d; [apply evt_pure, T_upd; [apply T_refl, I|constructor]|].
    set (s0 := upd_cell n (Cell k false true None) s).
    assert (Permutation (bag s) (wj j :: bag s0)) as E0 by (eapply bag_take; exact E).
    assert (T (bag s) s0) as T0 by (apply T_upd; [apply T_refl, I|constructor]).
    assert (Inv (emit (EDone n) s0)) as I0 by (eapply Inv_same with (s := s0); try reflexivity; apply T0).
    apply (evt_map _ (fun _ => None) (upd_cell n (Cell k true false None)) (upd_cell n (Cell k false false None)) (T (bag s))).
    + eapply evt_weaken; [apply (Hpost j); [exact I0|]|].
      * destruct I as (_ & _ & F). rewrite E0 in F. inversion F. assumption.
      * intros s' [I' G]. split; [exact I'|]. eapply grows_trans; [apply grows_perm, E0|exact G].
    + intros s' H. apply T_upd; [exact H|constructor].
    + intros s' H. apply T_upd; [exact H|constructor].
  - destruct d; apply evt_pure; [apply T_upd; [apply T_refl, I|constructor]|].
    cbn [holds]. eapply T_same with (s := upd_cell n (Cell k true false None) s); try reflexivity.
    apply T_upd; [apply T_refl, I|constructor].
Qed.
Lemma then_stops : forall f c s, Inv s -> P (wc c) -> stops (TThen (Some f) c) s (T (bag s)).
Proof.
  intros f c s I H. apply evt_S. cbn [StoreModel.exec].
  destruct (nth_error (heap s) f) as [[k d [|] [j|]]|] eqn:E; try (apply evt_pure; exact Logic.I).
  match goal with |- context [emit ?e (new_cell ?k s)] => set (s1 := emit e (new_cell k s)) end.
  assert (T (bag s) s1) as T1.
  { eapply T_same with (s := s); try reflexivity; [|apply T_refl, I]. unfold s1.
    match goal with |- bag (emit _ (new_cell ?k _)) = _ => exact (bag_cell k s) end. }
  clearbody s1. destruct d.
  - match goal with |- evt (fun f => match exec f (TPost ?j) ?s0 with _ => _ end) _ => set (j0 := j); set (s0' := s0) end.
    assert (T (bag s) s0') as T0 by (apply T_upd; [exact T1|constructor]).
    apply (evt_map _ (fun _ => Some (length (heap s))) (upd_cell f (Cell k true false None)) (upd_cell f (Cell k true false None)) (T (bag s))).
    + eapply evt_weaken; [apply (post_new j0); [apply T0|exact H]|]. intros s' T'. eapply T_trans; eassumption.
    + intros s' T'. apply T_upd; [exact T'|constructor].
    + intros s' T'. apply T_upd; [exact T'|constructor].
  - apply evt_pure, T_upd; [exact T1|]. constructor; [exact H|constructor].
Qed.

(** *** Watchers *)
Definition TL (s s' : st) : Prop := T (bag s) s' /\ length (slots s') = length (slots s).
Lemma TL_trans : forall s s1 s2, TL s s1 -> TL s1 s2 -> TL s s2.
Proof. intros s s1 s2 [H1 L1] [H2 L2]. split; [eapply T_trans; eassumption|congruence]. Qed.
Lemma TL_arrive : forall s, Inv s -> TL s (arrive s).
Proof. intros s I. split; [apply T_arrive, I|]. destruct (bag_arrive s) as (_ & _ & E). rewrite E. reflexivity. Qed.
Lemma TL_Inv : forall s s', TL s s' -> Inv s'.
Proof. intros s s' [[I _] _]. exact I. Qed.
Lemma looks_stops : forall p, looks p -> forall s, Inv s -> stops (TProg p) s (TL s).
Proof.
  intros p L. induction L; intros s I; apply evt_S; cbn [StoreModel.exec]; pose proof (TL_arrive s I) as Ta;
    set (sa := arrive s) in *; clearbody sa.
  - apply evt_pure, Ta.
  - apply evt_pure, Ta.
  - eapply evt_weaken; [apply H0, (TL_Inv _ _ Ta)|]. intros s' T'. eapply TL_trans; eassumption.
  - eapply evt_weaken; [apply H0, (TL_Inv _ _ Ta)|]. intros s' T'. eapply TL_trans; eassumption.
  - eapply evt_weaken; [apply IHL; exact (TL_Inv _ _ Ta)|]. intros s' T'. eapply TL_trans; eassumption.
  - eapply evt_weaken; [apply IHL; exact (TL_Inv _ _ Ta)|]. intros s' T'. eapply TL_trans; eassumption.
  - destruct (nth_error (slots sa) i) as [[w|]|] eqn:E;
      try (eapply evt_weaken; [apply IHL; exact (TL_Inv _ _ Ta)|]; intros s' T'; eapply TL_trans; eassumption).
    set (s1 := emit (EDisc i) (set_slots (set_nth i None (slots sa)) sa)).
    assert (TL sa s1) as T1.
    { destruct (TL_Inv _ _ Ta) as (I1 & I2 & I3). split; [|apply set_nth_len].
      split; [|apply grows_perm; reflexivity]. split; [exact I1|]. split; [|exact I3]. cbn [s1 emit set_slots slots].
      clear - I2. revert i. induction I2 as [|o l H F IH]; intros [|i]; cbn [set_nth]; constructor; auto. exact Logic.I. }
    eapply evt_weaken; [apply IHL; exact (TL_Inv _ _ T1)|]. intros s' T'. eapply TL_trans; [exact Ta|]. eapply TL_trans; eassumption.
  - apply (evt_try (fun f => exec f (TProg p) sa) (fun f b s => exec f (TProg (k b)) s) (TL s)).
    + eapply evt_weaken; [apply IHL; exact (TL_Inv _ _ Ta)|]. intros s' T'. eapply TL_trans; eassumption.
    + intros b s1 T1. eapply evt_weaken; [apply H0; exact (TL_Inv _ _ T1)|]. intros s' T'. eapply TL_trans; eassumption.
Qed.
Lemma slots_stops : forall n i s, Inv s -> length (slots s) - i <= n -> stops (TSlots i) s (TL s).
Proof.
  induction n as [|n IH]; intros i s I L; apply evt_S; cbn [StoreModel.exec].
  - destruct (nth_error (slots s) i) eqn:E; [exfalso; assert (i < length (slots s)) by (apply nth_error_Some; congruence); lia|].
    apply evt_pure. split; [apply T_refl, I|reflexivity].
  - destruct (nth_error (slots s) i) as [[w|]|] eqn:E.
    + assert (i < length (slots s)) as Li by (apply nth_error_Some; congruence).
      apply (evt_bind (fun f => on_throw (exec f (TProg (w (last s))) (emit (ESee i (last s)) s)) (emit EFail))
               (fun f _ s1 => exec f (TSlots (S i)) s1) (TL s)).
      * apply evt_throw.
        -- apply looks_stops with (s := emit (ESee i (last s)) s); [|exact I].
           destruct I as (_ & F & _). exact (proj1 (Forall_forall _ _) F _ (nth_error_In _ _ E) (last s)).
        -- intros s1 H. exact H.
      * auto.
      * intros _ s1 T1. eapply evt_weaken; [apply (IH (S i) s1 (TL_Inv _ _ T1))|].
        -- destruct T1 as [_ ->]. lia.
        -- intros s2 T2. eapply TL_trans; eassumption.
    + assert (i < length (slots s)) as Li by (apply nth_error_Some; congruence). apply IH; [exact I|lia].
    + apply evt_pure. split; [apply T_refl, I|reflexivity].
Qed.
Lemma notify_stops : forall s, Inv s -> stops TNotify s (T (bag s)).
Proof.
  intros s I. apply evt_S. cbn [StoreModel.exec]. destruct (nn s && negb (nsd s)); [|apply evt_pure, T_refl, I].
  eapply evt_weaken; [apply (slots_stops (length (slots s)) 0 (set_nn false s)); [exact I|cbn; lia]|]. intros s1 [H _]. exact H.
Qed.
Lemma send_same : forall s, bag (send_down s) = bag s /\ busy (send_down s) = busy s /\ slots (send_down s) = slots s.
Proof. intros s. unfold send_down. destruct (nsd s); auto. Qed.
Lemma told_stops : forall s, Inv s -> stops TNotify (send_down s) (T (bag s)).
Proof.
  intros s I. destruct (send_same s) as (E1 & E2 & E3). rewrite <- E1. apply notify_stops. eapply Inv_same; eassumption.
Qed.

(** *** Programs *)
Lemma prog_stops : forall n p, below rank n p -> (forall w, kids p w -> P w) ->
  forall s, Inv s -> stops (TProg p) s (T (bag s)).
Proof.
  intros n p Bp. induction Bp; cbn [kids]; intros K s I; apply evt_S; cbn [StoreModel.exec];
    pose proof (T_arrive s I) as Ta; set (sa := arrive s) in *; clearbody sa; pose proof (T_Inv _ _ Ta) as Ia.
  - apply evt_pure, Ta.
  - apply evt_pure, Ta.
  - eapply evt_weaken; [apply H0; [eauto|exact Ia]|]. intros s' T'. eapply T_trans; eassumption.
  - eapply evt_weaken; [apply H0; [eauto|exact Ia]|]. intros s' T'. eapply T_trans; eassumption.
  - eapply evt_weaken; [apply IHBp; [eauto|exact Ia]|]. intros s' T'. eapply T_trans; eassumption.
  - eapply evt_weaken; [apply IHBp; [eauto|exact Ia]|]. intros s' T'. eapply T_trans; eassumption.
  - destruct (new_dispatch futures a sa) as [[s1 f] j] eqn:E. destruct (bag_dispatch _ _ _ _ _ E) as (E1 & E2 & E3 & E4).
    assert (Inv s1) as I1 by (eapply Inv_same; eassumption).
    apply (evt_bind (fun fl => exec fl (TPost j) s1) (fun fl _ s2 => exec fl (TProg (k f)) s2) (T (bag s))).
    + eapply evt_weaken; [apply post_new; [exact I1|]|].
      * rewrite E4. auto.
      * intros s2 T2. rewrite E1 in T2. eapply T_trans; eassumption.
    + auto.
    + intros _ s2 T2. eapply evt_weaken; [apply H1; [eauto|exact (T_Inv _ _ T2)]|]. intros s' T'. eapply T_trans; eassumption.
  - apply (evt_bind (fun fl => exec fl (TThen f (CBUser c)) sa) (fun fl f' s2 => exec fl (TProg (k f')) s2) (T (bag s))).
    + eapply evt_weaken with (Q := T (bag sa)); [|intros s' T'; eapply T_trans; eassumption]. destruct f as [f|].
      * apply then_stops; [exact Ia|]. apply K. left. reflexivity.
      * apply evt_S. cbn [StoreModel.exec]. apply IHBp; [auto|exact Ia].
    + auto.
    + intros f' s2 T2. eapply evt_weaken; [apply H0; [eauto|exact (T_Inv _ _ T2)]|]. intros s' T'. eapply T_trans; eassumption.
  - apply (evt_bind (fun fl => exec fl (TPost (JUser p)) sa) (fun fl _ s2 => exec fl (TProg k) s2) (T (bag s))).
    + eapply evt_weaken; [apply post_new; [exact Ia|]|]; [apply K; left; reflexivity|]. intros s' T'. eapply T_trans; eassumption.
    + auto.
    + intros _ s2 T2. eapply evt_weaken; [apply IHBp2; [eauto|exact (T_Inv _ _ T2)]|]. intros s' T'. eapply T_trans; eassumption.
  - assert (Inv (emit (EProm (length (heap sa))) (new_cell KUser sa))) as I1.
    { eapply Inv_same with (s := sa); try reflexivity; [|exact Ia]. exact (bag_cell KUser sa). }
    eapply evt_weaken; [apply H0; [eauto|exact I1]|]. intros s' T'. eapply T_trans; [exact Ta|].
    change (bag (emit (EProm (length (heap sa))) (new_cell KUser sa))) with (bag (new_cell KUser sa)) in T'.
    rewrite (bag_cell KUser sa) in T'. exact T'.
  - destruct (nth_error (heap sa) i) as [[[| | |] d l c]|]; try (apply evt_pure; exact Logic.I).
    apply (evt_bind (fun fl => exec fl (TFulfil i) sa) (fun fl _ s2 => exec fl (TProg k) s2) (T (bag s))).
    + eapply evt_weaken; [apply fulfil_stops, Ia|]. intros s' T'. eapply T_trans; eassumption.
    + auto.
    + intros _ s2 T2. eapply evt_weaken; [apply IHBp; [eauto|exact (T_Inv _ _ T2)]|]. intros s' T'. eapply T_trans; eassumption.
  - apply (evt_bind (fun fl => exec fl TNotify (send_down (emit ECommit sa))) (fun fl _ s2 => exec fl (TProg k) s2) (T (bag s))).
    + eapply evt_weaken; [apply (told_stops (emit ECommit sa)), Ia|]. intros s' T'. eapply T_trans; [exact Ta|exact T'].
    + auto.
    + intros _ s2 T2. eapply evt_weaken; [apply IHBp; [eauto|exact (T_Inv _ _ T2)]|]. intros s' T'. eapply T_trans; eassumption.
  - set (s1 := emit (EConn (length (slots sa)) (last sa)) (set_slots (slots sa ++ [Some w]) sa)).
    assert (Inv s1) as I1.
    { destruct Ia as (I1 & I2 & I3). split; [exact I1|]. split; [|exact I3]. apply Forall_app. split; [exact I2|]. constructor; [exact H|constructor]. }
    eapply evt_weaken; [apply H1; [eauto|exact I1]|]. intros s' T'. eapply T_trans; [exact Ta|exact T'].
  - destruct (nth_error (slots sa) i) as [[w|]|] eqn:E;
      try (eapply evt_weaken; [apply IHBp; [eauto|exact Ia]|]; intros s' T'; eapply T_trans; eassumption).
    set (s1 := emit (EDisc i) (set_slots (set_nth i None (slots sa)) sa)).
    assert (Inv s1) as I1.
    { destruct Ia as (I1 & I2 & I3). split; [exact I1|]. split; [|exact I3]. cbn [s1 emit set_slots slots].
      clear - I2. revert i. induction I2 as [|o l H F IH]; intros [|i]; cbn [set_nth]; constructor; auto. exact Logic.I. }
    eapply evt_weaken; [apply IHBp; [eauto|exact I1]|]. intros s' T'. eapply T_trans; [exact Ta|exact T'].
  - destruct (manual || busy sa) eqn:E; [apply evt_pure; exact Logic.I|].
    apply orb_false_iff in E. destruct E as [_ E].
    apply (evt_bind (fun fl => exec fl TRun sa) (fun fl _ s2 => exec fl (TProg k) s2) (T (bag s))).
    + eapply evt_weaken; [apply Hrun; [destruct Ia as (Eb & _); congruence|exact Ia]|]. intros s' T'. eapply T_trans; eassumption.
    + auto.
    + intros _ s2 T2. eapply evt_weaken; [apply IHBp; [eauto|exact (T_Inv _ _ T2)]|]. intros s' T'. eapply T_trans; eassumption.
  - apply (evt_try (fun fl => exec fl (TProg p) sa) (fun fl b s => exec fl (TProg (k b)) s) (T (bag s))).
    + eapply evt_weaken; [apply IHBp; [eauto|exact Ia]|]. intros s' T'. eapply T_trans; eassumption.
    + intros b s1 T1. eapply evt_weaken; [apply H0; [eauto|exact (T_Inv _ _ T1)]|]. intros s' T'. eapply T_trans; eassumption.
Qed.
End Mode.

(** ** The loop *)
Lemma post_busy : forall P j s, Inv true s -> okw (wj j) -> stops (TPost j) s (T true P (wj j :: bag s)).
Proof.
  intros P j s (I1 & I2 & I3) O. apply evt_S. cbn [StoreModel.exec]. rewrite I1, andb_false_r. apply evt_pure.
  pose proof (bag_push j s) as E. split; [|apply grows_perm, E]. split; [exact I1|]. split; [exact I2|].
  rewrite <- E. constructor; [exact O|exact I3].
Qed.
Lemma push_same : forall m s, bag (push_down eqb m s) = bag s /\ busy (push_down eqb m s) = busy s /\ slots (push_down eqb m s) = slots s.
Proof. intros m s. unfold push_down. destruct (eqb m (cur s)); auto. Qed.
Lemma job_stops : forall j s, Inv true s -> okw (wj j) ->
  stops (TJob j) s (T true (fun w => kid w (wj j)) (bag s)).
Proof.
  intros j s I O. set (P := fun w => kid w (wj j)).
  assert (HP : forall w, P w -> okw w) by (intros w K; exact (ok_kid _ _ O K)).
  assert (Hrun : true = false -> forall s, Inv true s -> stops TRun s (T true P (bag s))) by discriminate.
  apply evt_S. destruct j as [id p a|id p e|id p|p|src c n]; cbn [StoreModel.exec].
  - destruct (reducer (cur s) a) as [[m [e|]]|] eqn:R; [| |apply evt_pure; exact (T_refl true P s I)].
    + apply (evt_bind (fun f => exec f (TPost (JEffect id p e)) (emit (ERed id m true) s)) (fun _ _ s1 => Done None (push_down eqb m s1)) (T true P (bag s))).
      * apply (post_new true P HP (post_busy P) (JEffect id p e) (emit (ERed id m true) s)); [exact I|].
        right. exists (cur s), m, e. split; [exact R|reflexivity].
      * auto.
      * intros _ s1 T1. apply evt_pure. destruct (push_same m s1) as (E1 & E2 & E3). eapply T_same; eassumption.
    + apply (evt_bind (fun f => if trans then match p with Some n => exec f (TFulfil n) (emit (ERed id m false) s) | None => Done None (emit (ERed id m false) s) end
               else exec f (TPost (JNotify id p)) (emit (ERed id m false) s)) (fun _ _ s1 => Done None (push_down eqb m s1)) (T true P (bag s))).
      * apply evt_if; [destruct p as [n|]|].
        -- apply (fulfil_stops true P HP (post_busy P) n (emit (ERed id m false) s)); exact I.
        -- apply evt_pure. exact (T_refl true P s I).
        -- apply (post_new true P HP (post_busy P) (JNotify id p) (emit (ERed id m false) s)); [exact I|]. left. reflexivity.
      * auto.
      * intros _ s1 T1. apply evt_pure. destruct (push_same m s1) as (E1 & E2 & E3). eapply T_same; eassumption.
  - destruct O as [n B].
    apply (evt_bind (fun f => if trans then Done None (emit (EBegin id e) s)
               else on_throw (exec f TNotify (send_down (emit (EBegin id e) s))) (emit (ELost id)))
            (fun f _ s1 => andthen (exec f (TProg e) (emit (EEff id (last s1) e) s1)) (fun o s2 =>
               match p with Some n => exec f (TThen o (CBFulfil n)) (emit (EEffEnd id o) s2) | None => Done None (emit (EEffEnd id o) s2) end))
            (T true P (bag s))).
    + apply evt_if; [apply evt_pure; exact (T_refl true P s I)|]. apply evt_throw.
      * apply (told_stops true P (emit (EBegin id e) s)). exact I.
      * intros s1 H. exact H.
    + auto.
    + intros _ s1 T1.
      apply (evt_bind (fun f => exec f (TProg e) (emit (EEff id (last s1) e) s1))
              (fun f o s2 => match p with Some n => exec f (TThen o (CBFulfil n)) (emit (EEffEnd id o) s2) | None => Done None (emit (EEffEnd id o) s2) end)
              (T true P (bag s))).
      * eapply evt_weaken; [apply (prog_stops true P HP (post_busy P) Hrun n e B) with (s := emit (EEff id (last s1) e) s1)|].
        -- intros w K. left. exact K.
        -- exact (T_Inv _ _ _ _ T1).
        -- intros s' T'. eapply T_trans; [exact T1|exact T'].
      * auto.
      * intros o s2 T2. destruct p as [m|]; [|apply evt_pure; exact T2].
        eapply evt_weaken with (Q := T true P (bag s2)); [|intros s' T'; eapply T_trans; [exact T2|exact T']].
        destruct o as [f|].
        -- apply (then_stops true P HP (post_busy P) f (CBFulfil m) (emit (EEffEnd id (Some f)) s2)); [exact (T_Inv _ _ _ _ T2)|]. right. reflexivity.
        -- apply evt_S. cbn [StoreModel.exec].
           apply (fulfil_stops true P HP (post_busy P) m (emit (EEffEnd id None) s2)). exact (T_Inv _ _ _ _ T2).
  - apply (evt_bind (fun f => exec f TNotify (send_down s))
            (fun f _ s1 => match p with Some n => exec f (TFulfil n) (emit (ETold id) s1) | None => Done None (emit (ETold id) s1) end)
            (T true P (bag s))).
    + apply told_stops, I.
    + auto.
    + intros _ s1 T1. destruct p as [n|]; [|apply evt_pure; exact T1].
      eapply evt_weaken; [apply (fulfil_stops true P HP (post_busy P) n (emit (ETold id) s1)); exact (T_Inv _ _ _ _ T1)|].
      intros s' T'. eapply T_trans; [exact T1|exact T'].
  - destruct O as [n B]. apply (prog_stops true P HP (post_busy P) Hrun n p B); [|exact I]. intros w K. exact K.
  - destruct c as [c|m].
    + destruct O as [k B].
      apply (evt_bind (fun f => exec f (TProg c) (emit (ECb n c) s)) (fun f o s1 => exec f (TThen o (CBFulfil n)) (emit (ECbEnd n o) s1)) (T true P (bag s))).
      * apply (prog_stops true P HP (post_busy P) Hrun k c B) with (s := emit (ECb n c) s); [|exact I]. intros w K. left. exact K.
      * auto.
      * intros o s2 T2. eapply evt_weaken with (Q := T true P (bag s2)); [|intros s' T'; eapply T_trans; [exact T2|exact T']].
        destruct o as [f|].
        -- apply (then_stops true P HP (post_busy P) f (CBFulfil n) (emit (ECbEnd n (Some f)) s2)); [exact (T_Inv _ _ _ _ T2)|]. right. reflexivity.
        -- apply evt_S. cbn [StoreModel.exec].
           apply (fulfil_stops true P HP (post_busy P) n (emit (ECbEnd n None) s2)). exact (T_Inv _ _ _ _ T2).
    + apply (evt_bind (fun f => exec f (TFulfil m) s) (fun f _ s1 => exec f (TFulfil n) s1) (T true P (bag s))).
      * apply (fulfil_stops true P HP (post_busy P)), I.
      * auto.
      * intros _ s1 T1. eapply evt_weaken; [apply (fulfil_stops true P HP (post_busy P)); exact (T_Inv _ _ _ _ T1)|].
        intros s' T'. eapply T_trans; eassumption.
Qed.
Lemma drain_stops : forall b, Acc (lt_bag kid) b -> forall s, b = bag s -> Inv true s -> stops TDrain s (Inv true).
Proof.
  intros b H. induction H as [b _ IH]. intros s -> I. apply evt_S. cbn [StoreModel.exec].
  pose proof (T_arrive true okw s I) as Ta. destruct (bag_arrive s) as (Ea & _). set (sa := arrive s) in *. clearbody sa.
  pose proof (T_Inv _ _ _ _ Ta) as Ia. destruct (q sa) as [|j r] eqn:Q; [apply evt_pure; exact Ia|].
  assert (bag sa = wj j :: bag (set_q r sa)) as Eb by (unfold bag; rewrite Q; reflexivity).
  assert (okw (wj j) /\ Inv true (set_q r sa)) as [O I'].
  { destruct Ia as (I1 & I2 & I3). rewrite Eb in I3. inversion I3; subst. split; [assumption|]. split; [exact I1|]. split; [exact I2|assumption]. }
  apply (evt_bind (fun f => on_throw (exec f (TJob j) (set_q r sa)) (emit EFail)) (fun f _ s1 => exec f TDrain s1)
          (T true (fun w => kid w (wj j)) (bag (set_q r sa)))).
  - apply evt_throw; [exact (job_stops j (set_q r sa) I' O)|]. intros s1 H1. exact H1.
  - intros s1 [H1 _]. exact H1.
  - intros _ s1 [I1 (l & lost & F & E)]. apply (IH (bag s1)); [|reflexivity|exact I1].
    exists (wj j), (bag (set_q r sa)), l, lost. rewrite Ea, Eb. auto.
Qed.
Lemma run_loop_stops : forall s, Inv false s -> stops TRun s (T false okw (bag s)).
Proof.
  intros s (I1 & I2 & I3). apply evt_S. cbn [StoreModel.exec].
  apply (evt_map (fun f => exec f TDrain (set_busy true s)) (fun _ => None) (set_busy false) (set_busy false) (Inv true)).
  - apply (drain_stops (bag (set_busy true s))); [|reflexivity|split; [reflexivity|split; [exact I2|exact I3]]].
    apply acc_bag. apply (Forall_impl _ acc_ok). exact I3.
  - intros s1 (J1 & J2 & J3). split; [split; [reflexivity|split; [exact J2|exact J3]]|]. apply grows_all. exact J3.
  - intros s1 (J1 & J2 & J3). split; [split; [reflexivity|split; [exact J2|exact J3]]|]. apply grows_all. exact J3.
Qed.
Lemma post_idle : forall j s, Inv false s -> okw (wj j) -> stops (TPost j) s (T false okw (wj j :: bag s)).
Proof.
  intros j s (I1 & I2 & I3) O. pose proof (bag_push j s) as E.
  assert (Inv false (push_job j s)) as I.
  { split; [exact I1|]. split; [exact I2|]. rewrite <- E. constructor; assumption. }
  apply evt_S. cbn [StoreModel.exec]. rewrite I1. cbn [negb]. rewrite andb_true_r. apply evt_if.
  - eapply evt_weaken; [apply run_loop_stops, I|]. intros s' [I' G]. split; [exact I'|]. apply grows_all. apply I'.
  - apply evt_pure. split; [exact I|]. apply grows_perm, E.
Qed.
Lemma client_stops : forall n m w p, below rank n p ->
  exists fuel r, r <> OutOfFuel /\ forall f, fuel <= f -> run reducer eqb trans futures manual ext f m w p = r.
Proof.
  intros n m w p B.
  assert (Inv false (init m w)) as I.
  { split; [reflexivity|]. split; [constructor|]. unfold bag. cbn [init q heap clock map flat_map app]. unfold coming.
    destruct manual; [constructor|]. apply Forall_forall. intros x X. apply in_map_iff in X. destruct X as (a & <- & _). exact Logic.I. }
  destruct (prog_stops false okw (fun w H => H) post_idle (fun _ => run_loop_stops) n p B (ok_kids n p B) _ I) as (k & r & H & Hr).
  exists k, r. split; [|exact H]. intros ->. exact Hr.
Qed.
End Ends.
