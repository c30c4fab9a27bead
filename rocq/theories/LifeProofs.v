(** Proofs about the lifetime of a store. *)
From Coq Require Import List Arith Bool Lia.
Import ListNotations.
From Verif Require Import LifeModel LifeSpec.

Section Proofs.
Context {M A W : Type}.
Variable reducer : M -> A -> option (M * option (prog M A W)).
Variable eqb : M -> M -> bool.
Variables trans futures manual : bool.
Notation st := (st M A W).
Notation exec := (exec reducer eqb trans futures manual).
Notation release := (@release M A W manual).
Implicit Types s : st.

Definition still (l : list (event M A)) := (forall e, In e l -> ~ of_store e) /\ ~ gone l.
Definition promised (l : list (event M A)) := futures = true \/ In (EPromise true) l.

Definition over s :=
  some_object s = false /\
  exists l1 i n l2, log s = l1 ++ EFree i n :: l2 /\ still l1 /\ ~ gone l2 /\
    (filter own (q s) <> [] -> manual = false /\ 0 < n).
Definition cells s :=
  forall c, In c (heap s) ->
    (mine c = true -> promised (log s)) /\ (forall j, cb c = Some j -> own j = false).
(** The readers whose callbacks are running exist. *)
Definition held s := forall i, In i (calling s) -> exists w, nth_error (slots s) i = Some (Some w).
Definition ok s := (alive s = true /\ ~ gone (log s) \/ alive s = false /\ over s) /\ cells s /\ held s.
Definition kept s := 0 < pins s \/ calling s <> [].

(** From one state to a later one *)
Definition later s s' :=
  ok s' /\ incl (log s) (log s') /\ (alive s' = true -> alive s = true) /\
  (inside s = true -> alive s = true -> alive s' = false -> gone_inside (log s')) /\
  (kept s -> alive s = true -> alive s' = true).
(** ... at the same depth *)
Definition after s s' :=
  later s s' /\ inside s' = inside s /\ pins s' = pins s /\ calling s' = calling s.

Definition reason (w : why) (l : list (event M A)) :=
  match w with
  | RLoop => if manual then gone_inside l else gone_waiting l
  | RFuture => promised l
  | RContext => True
  end.
Definition post s (r : res M A W) :=
  match r with
  | Done _ s' | Thrown s' => after s s'
  | Freed w s' => later s s' /\ alive s' = false /\ reason w (log s')
  | _ => True
  end.

Definition pre (t : task M A W) s :=
  match t with
  | TPost RFuture _ => promised (log s)
  | TPost RLoop _ => alive s = true
  | TPost RContext _ => True
  | TQueue j => own j = false
  | TDrain => manual = true -> inside s = true /\ (alive s = true \/ gone_inside (log s))
  | TJob j => own j = true -> alive s = true \/ reason RLoop (log s)
  | TNotify => alive s = true
  | TSlots _ => alive s = true
  | _ => True
  end.

Lemma after_refl s : ok s -> after s s.
Proof.
  intros H; split; [|auto]. split; [exact H|]. repeat split; auto using incl_refl; congruence.
Qed.

Lemma inside_incl (l l' : list (event M A)) : incl l l' -> gone_inside l -> gone_inside l'.
Proof. intros I [n H]; exists n; auto. Qed.
Lemma waiting_incl (l l' : list (event M A)) : incl l l' -> gone_waiting l -> gone_waiting l'.
Proof. intros I (i & n & H); exists i, n; auto. Qed.
Lemma promised_incl l l' : incl l l' -> promised l -> promised l'.
Proof. intros I [H|H]; [left|right]; auto. Qed.
Lemma reason_incl w l l' : incl l l' -> reason w l -> reason w l'.
Proof.
  destruct w; cbn; intros I; [destruct manual| |]; eauto using inside_incl, promised_incl, waiting_incl.
Qed.

Lemma later_trans s s1 s2 : after s s1 -> later s1 s2 -> later s s2.
Proof.
  intros ((O & I & B & J & P) & E & F & G) (O' & I' & B' & J' & P').
  split; [exact O'|]; split; [eapply incl_tran; eassumption|]; split; [auto|]; split.
  - intros X Y Z; destruct (alive s1) eqn:L.
    + apply J'; congruence.
    + apply (inside_incl _ _ I'), J; auto.
  - intros X Y; apply P'; [unfold kept in *; rewrite F, G|]; auto.
Qed.
Lemma after_trans s s1 s2 : after s s1 -> after s1 s2 -> after s s2.
Proof.
  intros H (L & E & F & G); split; [eapply later_trans; eassumption|].
  destruct H as (_ & E' & F' & G'). split; [congruence|split; congruence].
Qed.
Lemma post_trans s s1 r : after s s1 -> post s1 r -> post s r.
Proof.
  intros H; destruct r; cbn; try tauto; [apply after_trans, H|apply after_trans, H|].
  intros (L & X); split; [eapply later_trans; eassumption|exact X].
Qed.
Lemma after_ok s s' : after s s' -> ok s'. Proof. intros H; apply H. Qed.

Lemma post_andthen s r k :
  post s r -> (forall f s1, after s s1 -> post s1 (k f s1)) -> post s (andthen r k).
Proof.
  destruct r; cbn; try tauto; intros H K; eapply post_trans; [exact H|apply K, H].
Qed.
Lemma post_finally s r h :
  post s r -> (forall s1, after s s1 -> after s (h s1)) -> post s (finally r h).
Proof. destruct r; cbn; auto. Qed.

Lemma post_touch s w r :
  ok s -> (alive s = false -> reason w (log s)) -> (alive s = true -> post s r) -> post s (touch w s r).
Proof.
  intros O H H'; unfold touch; destruct (alive s) eqn:L; [auto|].
  split; [apply after_refl, O|]; auto.
Qed.

(** Changes that do not concern the lifetime *)
Lemma after_same s s' :
  ok s -> alive s' = alive s -> log s' = log s -> inside s' = inside s -> pins s' = pins s ->
  calling s' = calling s ->
  (alive s = false -> some_object s' = false) ->
  (alive s = false -> filter own (q s') <> [] -> filter own (q s) <> []) ->
  cells s' -> held s' -> after s s'.
Proof.
  intros O La Lo I P Ca S Q C Hh; split; [|auto]. split; [split; [|split; [exact C|exact Hh]]|].
  - destruct O as ([[L G]|[L (X & l1 & i & n & l2 & E & H1 & H2 & H3)]] & _).
    + left; rewrite La, Lo; auto.
    + right; rewrite La; split; auto; split; auto.
      exists l1, i, n, l2; rewrite Lo; repeat split; auto; apply H1 || apply H3; auto.
  - rewrite Lo, La; repeat split; auto using incl_refl; congruence.
Qed.
Lemma ok_cells s : ok s -> cells s. Proof. intros H; apply H. Qed.
Lemma ok_held s : ok s -> held s. Proof. intros H; apply H. Qed.
Lemma ok_dead s : ok s -> alive s = false -> some_object s = false.
Proof. intros ([[L _]|[_ (X & _)]] & _); [congruence|auto]. Qed.
Lemma ok_object s : ok s -> some_object s = true -> alive s = true.
Proof. intros O H; destruct (alive s) eqn:L; auto; rewrite (ok_dead s O L) in H; discriminate. Qed.

Ltac same := apply after_same; cbn; auto;
  try match goal with O : ok ?s |- _ =>
    first [exact (ok_dead s O) | exact (ok_cells s O) | exact (ok_held s O)] end.

Lemma in_set_nth {X} n (x y : X) l : In y (set_nth n x l) -> y = x \/ In y l.
Proof.
  revert n; induction l as [|z l IH]; intros [|n]; cbn; intuition.
  destruct (IH _ H0); auto.
Qed.
Lemma upd_cell_after s n c :
  ok s -> (mine c = true -> promised (log s)) -> (forall j, cb c = Some j -> own j = false) ->
  after s (upd_cell n c s).
Proof.
  intros O H H'; unfold upd_cell; same.
  intros d Hd; cbn in *; destruct (in_set_nth _ _ _ _ Hd) as [->|Hd']; [auto|apply O, Hd'].
Qed.
Lemma new_cell_after s b : ok s -> (b = true -> promised (log s)) -> after s (new_cell b s).
Proof.
  intros O H; unfold new_cell; same.
  intros d Hd; cbn in *; apply in_app_or in Hd as [Hd|[<-|[]]]; [apply O, Hd|].
  split; [exact H|discriminate].
Qed.
Lemma push_job_after s j : ok s -> (alive s = false -> own j = false) -> after s (push_job j s).
Proof.
  intros O H; same. intros D; rewrite filter_app; cbn; rewrite (H D), app_nil_r; auto.
Qed.
Lemma set_world_after s w : ok s -> after s (set_world w s). Proof. intros; same. Qed.
Lemma set_busy_after s b : ok s -> after s (set_busy b s). Proof. intros; same. Qed.
Lemma set_nn_after s b : ok s -> after s (set_nn b s). Proof. intros; same. Qed.
Lemma push_down_after s m : ok s -> after s (push_down eqb m s).
Proof. intros; unfold push_down; destruct eqb; same. Qed.
Lemma send_down_after s : ok s -> after s (send_down s).
Proof. intros; unfold send_down; destruct nsd; same. Qed.
Lemma pop_after s j r : ok s -> q s = j :: r -> after s (set_q r s).
Proof.
  intros O E; same. intros D; rewrite E; cbn; destruct (own j); auto; discriminate.
Qed.

(** What client code does with objects *)
Lemma more_after s s' :
  ok s -> alive s = true -> alive s' = true -> log s' = log s -> inside s' = inside s ->
  pins s' = pins s -> calling s' = calling s -> heap s' = heap s -> held s' -> after s s'.
Proof.
  intros O L L' Lo I P Ca H Hh; apply after_same; auto; try congruence.
  unfold cells; rewrite H, Lo; apply O.
Qed.

Lemma held_object s : held s -> calling s <> [] -> some_object s = true.
Proof.
  intros H N; destruct (calling s) as [|i r] eqn:E; [now elim N|].
  destruct (H i) as [w X]; [rewrite E; left; auto|].
  unfold some_object; apply orb_true_intro; right. apply existsb_exists.
  exists (Some w); split; [eapply nth_error_In, X|auto].
Qed.

Lemma release_later s0 s : ok s0 -> alive s = alive s0 -> log s = log s0 -> inside s = inside s0 ->
  heap s = heap s0 -> q s = q s0 -> held s ->
  (alive s0 = false -> some_object s = false) ->
  ok (release s) /\ incl (log s0) (log (release s)) /\ (alive (release s) = true -> alive s0 = true) /\
  (inside s0 = true -> alive s0 = true -> alive (release s) = false -> gone_inside (log (release s))) /\
  inside (release s) = inside s0 /\ pins (release s) = pins s /\ calling (release s) = calling s /\
  (kept s -> alive s0 = true -> alive (release s) = true).
Proof.
  intros O La Lo I H Q Hh D.
  assert (C : cells s) by (unfold cells; rewrite H, Lo; apply O).
  assert (X : release s = s \/ alive s = true /\ some_object s = false /\ pins s = 0 /\
              release s = St false (objects s) (pins s) (inside s) (calling s) (cur s) (last s) (nsd s)
                (nn s) (slots s) (heap s) (if manual then [] else q s) (busy s) (world s)
                (EFree (inside s) (length (filter own (q s))) :: log s)).
  { unfold LifeModel.release; destruct (alive s); auto; destruct (some_object s); auto.
    destruct (Nat.eqb_spec (pins s) 0); cbn; auto 8. }
  destruct X as [-> | (L & S & P0 & ->)].
  - split; [split; [|split; [exact C|exact Hh]]|rewrite Lo, La; repeat split; auto using incl_refl; congruence].
    destruct O as ([[L G]|[L (Y & l1 & i & n & l2 & E & H1 & H2 & H3)]] & _).
    + left; rewrite La, Lo; auto.
    + right; rewrite La; split; auto; split; auto.
      exists l1, i, n, l2; rewrite Lo, Q; auto.
  - assert (G : ~ gone (log s)) by (rewrite Lo; destruct O as ([[_ G]|[L' _]] & _); congruence).
    split; [split; [|split]|].
    + right; cbn; split; auto; split.
      * exact S.
      * exists [], (inside s), (length (filter own (q s))), (log s); cbn.
        split; [auto|]; split; [|split; [exact G|]].
        -- split; [intros e []|intros (i & n & [])].
        -- intros X; destruct manual; [now elim X|]. split; [auto|].
           destruct (filter own (q s)); [now elim X|cbn; lia].
    + intros c Hc; destruct (C c Hc) as [X Y]; split; [|exact Y].
      intros Z; destruct (X Z); [left|right; right]; auto.
    + exact Hh.
    + cbn; rewrite <- Lo, <- I; repeat split; try discriminate; try congruence.
      * intros e He; right; auto.
      * intros E _ _; rewrite E; exists (length (filter own (q s))); left; auto.
      * intros [K|K]; [lia|]. rewrite (held_object s Hh K) in S; discriminate.
Qed.
Lemma release_after s0 s : ok s0 -> alive s = alive s0 -> log s = log s0 -> inside s = inside s0 ->
  heap s = heap s0 -> q s = q s0 -> pins s = pins s0 -> calling s = calling s0 -> held s ->
  (alive s0 = false -> some_object s = false) -> after s0 (release s).
Proof.
  intros O La Lo I H Q P Ca Hh D.
  destruct (release_later s0 s) as (R1 & R2 & R3 & R4 & R5 & R6 & R7 & R8); auto.
  split; [split; auto; repeat split; auto|].
  - intros X; apply R8; unfold kept in *; rewrite P, Ca; auto.
  - split; [congruence|split; congruence].
Qed.

Lemma emit_after s e :
  ok s -> (forall i n, e <> EFree i n) -> (of_store e -> alive s = true) -> after s (emit e s).
Proof.
  intros O N H.
  assert (C : cells (emit e s)).
  { intros c Hc; destruct (ok_cells s O c Hc) as [X Y]; split; [|exact Y].
    intros Z; destruct (X Z); [left|right; right]; auto. }
  split; [|cbn; auto]. split; [split; [|split; [exact C|exact (ok_held s O)]]|].
  - destruct O as ([[L G]|[L (Y & l1 & i & n & l2 & E & (H1 & H1') & H2 & H3)]] & _); cbn.
    + left; split; auto. intros (i & n & [X|X]); [eapply N, X|apply G; exists i, n; auto].
    + right; split; auto; split; auto.
      exists (e :: l1), i, n, l2; cbn; rewrite E; repeat split; auto.
      * intros e' [<-|X]; auto. intros Z; rewrite H in L; auto; discriminate.
      * intros (i' & n' & [X|X]); [eapply N, X|apply H1'; exists i', n'; auto].
      * apply H3; auto.
      * apply H3; auto.
  - cbn; repeat split; auto; try congruence. intros x; right; auto.
Qed.

(** Into the loop of the node, and out again *)
Lemma post_leave s s0 r :
  ok s -> ok s0 -> alive s = true -> alive s0 = true -> log s0 = log s -> pins s0 = pins s ->
  calling s0 = calling s -> inside s0 = true -> manual = true -> post s0 r ->
  post s (leave r (fun s1 => set_inside (inside s) (set_busy false s1))).
Proof.
  intros O O0 L L0 Lo P Ca I Hm H.
  assert (X : forall s1, later s0 s1 -> alive s1 = false -> later s s1 /\ alive s1 = false /\ gone_inside (log s1)).
  { intros s1 (O1 & I1 & B1 & J1 & P1) D; rewrite Lo in I1. split; [|auto].
    split; [exact O1|]; split; [exact I1|]; split; [auto|]; split; [auto|].
    intros Z _; apply P1; auto. unfold kept in *; rewrite P, Ca; auto. }
  assert (Y : forall s1, after s0 s1 -> alive s1 = true -> after s (set_inside (inside s) (set_busy false s1))).
  { intros s1 ((O1 & I1 & B1 & J1 & P1) & E & F & F') D. rewrite Lo in I1.
    split; [|cbn; split; [auto|split; congruence]].
    split; [|cbn; repeat split; auto; congruence].
    split; [left; cbn; split; auto|split; [apply O1|apply O1]].
    destruct O1 as ([[_ G]|[D' _]] & _); [exact G|congruence]. }
  destruct r as [f s1|s1|w s1| | |]; cbn in *; auto.
  - unfold touch; destruct (alive s1) eqn:D; [apply Y; auto|].
    destruct (X s1) as (X1 & X2 & X3); [apply H|auto|]; cbn; rewrite Hm; auto.
  - unfold touch; destruct (alive s1) eqn:D; [apply Y; auto|].
    destruct (X s1) as (X1 & X2 & X3); [apply H|auto|]; cbn; rewrite Hm; auto.
  - destruct H as (H1 & H2 & H3); split; auto. apply X; auto.
Qed.

Lemma in_ok s b : ok s -> ok (set_inside b s).
Proof. intros (H & C); split; [|exact C]; exact H. Qed.

Lemma nth_cell s n c : ok s -> nth_error (heap s) n = Some c ->
  (mine c = true -> promised (log s)) /\ (forall j, cb c = Some j -> own j = false).
Proof. intros O E; apply O; eapply nth_error_In, E. Qed.

Lemma nth_set_nth {X} i j (x : X) l : i <> j -> nth_error (set_nth i x l) j = nth_error l j.
Proof. revert i j; induction l as [|y l IH]; intros [|i] [|j] N; cbn; auto; congruence. Qed.

(** What keeps the node *)
Lemma post_alive fl w j s f s' : exec fl (TPost w j) s = Done f s' -> alive s' = true.
Proof.
  destruct fl; cbn; [discriminate|]. unfold touch; destruct (alive s) eqn:L; [|discriminate].
  destruct (manual && negb (busy s)).
  - destruct exec; cbn; try discriminate; unfold touch; destruct (alive s0) eqn:L'; try discriminate.
    intros E; injection E as <- <-; exact L'.
  - intros E; injection E as <- <-; exact L.
Qed.
Lemma queue_alive fl j s f s' : exec fl (TQueue j) s = Done f s' -> alive s' = alive s.
Proof.
  destruct fl; cbn; [discriminate|]. destruct manual; [discriminate|].
  intros E; injection E as <- <-; auto.
Qed.
Lemma fulfil_alive fl n s f s' : alive s = true -> exec fl (TFulfil n) s = Done f s' -> alive s' = true.
Proof.
  intros L; destruct fl; cbn; [discriminate|].
  destruct nth_error as [[b [] [] [j|]]|]; try discriminate;
    try (intros E; injection E as <- <-; exact L).
  destruct exec eqn:X; try discriminate; intros E; injection E as <- <-; cbn.
  destruct b; [eapply post_alive, X|]. apply queue_alive in X; rewrite X; exact L.
Qed.
Lemma notify_alive fl s f s' : alive s = true -> exec fl TNotify s = Done f s' -> alive s' = true.
Proof.
  intros L; destruct fl; cbn; [discriminate|].
  destruct (nn s && negb (nsd s)); [|intros E; injection E as <- <-; exact L].
  destruct exec; cbn; try discriminate; unfold touch; destruct (alive s0) eqn:L'; try discriminate.
  intros E; injection E as <- <-; exact L'.
Qed.

Lemma post_andthen_eq s r k :
  post s r -> (forall f s1, r = Done f s1 -> after s s1 -> post s1 (k f s1)) -> post s (andthen r k).
Proof.
  destruct r; cbn; try tauto; intros H K; eapply post_trans; [exact H|apply K; auto].
Qed.

Definition ends_alive (r : res M A W) :=
  match r with Done _ s' | Thrown s' => alive s' = true | Freed _ _ => False | _ => True end.

(** A watcher is called through a reader that is kept meanwhile. *)
Lemma call_post s s0 r :
  ok s -> ok s0 -> alive s = true -> alive s0 = true -> incl (log s) (log s0) -> inside s0 = inside s ->
  pins s0 = pins s -> calling s0 <> [] -> slots s0 = slots s -> post s0 r ->
  (forall s1, post s0 (Done None s1) -> held (set_calling (calling s) s1)) ->
  post s (finally r (set_calling (calling s))) /\ ends_alive r.
Proof.
  intros O O0 L L0 Lo I P Ca Sl H K.
  assert (X : forall s1, after s0 s1 -> after s (set_calling (calling s) s1) /\ alive s1 = true).
  { intros s1 H1; pose proof (K s1 H1) as K1.
    destruct H1 as ((O1 & I1 & B1 & J1 & P1) & E & F & F').
    assert (L1 : alive s1 = true) by (apply P1; auto; right; auto).
    split; [|exact L1].
    split; [|cbn; split; [congruence|split; congruence]].
    split; [|cbn; repeat split; auto; try congruence; eapply incl_tran; eauto].
    split; [left; cbn; split; auto|split; [apply O1|exact K1]].
    destruct O1 as ([[_ G]|[D' _]] & _); [exact G|congruence]. }
  destruct r as [f s1|s1|w s1| | |]; cbn in *; auto; try (apply X; auto).
  exfalso; destruct H as ((O1 & I1 & B1 & J1 & P1) & D & _).
  rewrite P1 in D; auto; [discriminate|right; auto].
Qed.

Lemma exec_both : forall fl,
  (forall t s, ok s -> pre t s -> post s (exec fl t s)) /\
  (forall i s, ok s -> alive s = true -> ends_alive (exec fl (TSlots i) s)).
Proof.
  induction fl as [|fl [IH IHs]]; [split; intros; exact I|].
  assert (Sl : forall i s, ok s -> alive s = true ->
            post s (exec (S fl) (TSlots i) s) /\ ends_alive (exec (S fl) (TSlots i) s)).
  { intros i s O L. cbn [LifeModel.exec]. unfold touch; rewrite L.
    destruct (nth_error (slots s) i) as [[w|]|] eqn:E;
      [|split; [apply IH; auto|apply IHs; auto]|split; [apply after_refl, O|exact L]].
    set (s0 := emit (ESee i (last s)) s).
    assert (A0 : after s s0) by (apply emit_after; cbn; auto; discriminate).
    set (s1 := set_calling (i :: calling s) s0).
    assert (Hh : held s1).
    { intros j [<-|Hj]; [exists w; exact E|apply (ok_held s O j Hj)]. }
    assert (O1 : ok s1).
    { destruct (after_ok _ _ A0) as (X & C & _); split; [exact X|split; [exact C|exact Hh]]. }
    destruct (call_post s s1 (exec fl (TProg (w (last s))) s1)) as [Q Q']; auto.
    - intros e; right; auto.
    - discriminate.
    - apply IH; [exact O1|exact I].
    - intros s2 H j Hj; apply (ok_held s2); [apply H|]. destruct H as (_ & _ & _ & ->). right; exact Hj.
    - destruct (exec fl (TProg (w (last s))) s1) as [f s2|s2|w' s2| | |]; cbn in Q, Q' |- *; auto.
      split; [eapply post_trans; [exact Q|apply IH; [apply Q|exact Q']]|apply IHs; [apply Q|exact Q']]. }
  split; [|intros i s O L; apply Sl; auto].
  intros t s O P.
  assert (Go : forall t s0, after s s0 -> pre t s0 -> post s (exec fl t s0)).
  { intros t0 s0 Af Pt; eapply post_trans; [exact Af|apply IH; [apply Af|exact Pt]]. }
  destruct t as [p|w j|j| |j| |i|n|f c]; cbn [LifeModel.exec].
  - (* programs *)
    destruct p as [f|  |k|k|w k|a k|p k|p k|f c k|b k|n k|k|k|k|w k|i k|k|p k].
    + apply after_refl, O.
    + apply after_refl, O.
    + destruct (some_object s); [apply IH; cbn; auto|exact I].
    + apply IH; cbn; auto.
    + apply Go; [apply set_world_after, O|exact I].
    + apply post_touch; [exact O|intros _; exact I|]. intros L.
      assert (Af : after s (if futures then new_cell true s else s)).
      { destruct futures eqn:F; [|apply after_refl, O].
        apply new_cell_after; [exact O|]. intros _; left; exact F. }
      apply post_andthen; [apply Go; [exact Af|exact I]|].
      intros f s1 H; apply IH; [apply H|exact I].
    + apply post_andthen; [apply IH; cbn; auto|]. intros f s1 H; apply IH; [apply H|exact I].
    + apply post_andthen; [apply IH; cbn; auto|]. intros f s1 H; apply IH; [apply H|exact I].
    + apply post_andthen; [apply IH; cbn; auto|]. intros f' s1 H; apply IH; [apply H|exact I].
    + destruct (manual && negb b) eqn:Mb; [exact I|].
      assert (Af : after s (emit (EPromise b) s)) by (apply emit_after; cbn; auto; try discriminate; tauto).
      apply Go; [|exact I].
      change (emit (EPromise b) (new_cell b s)) with (new_cell b (emit (EPromise b) s)).
      eapply after_trans; [exact Af|]. apply new_cell_after; [apply Af|].
      intros ->; right; left; auto.
    + apply post_andthen; [apply IH; cbn; auto|]. intros f s1 H; apply IH; [apply H|exact I].
    + destruct (some_object s) eqn:S; [|exact I].
      assert (L : alive s = true) by (apply ok_object; auto).
      set (s0 := send_down s). assert (A0 : after s s0) by apply send_down_after, O.
      assert (L0 : alive s0 = true) by (unfold s0, send_down; destruct nsd; auto).
      set (s1 := set_pins (Datatypes.S (pins s)) s0).
      assert (O1 : ok s1) by (destruct A0 as (A0 & _); apply A0).
      assert (Q : post s1 (exec fl TNotify s1)) by (apply IH; auto).
      apply post_andthen; [|intros f s2 H; apply IH; [apply H|exact I]].
      assert (E1 : inside s1 = inside s) by apply A0.
      assert (E2 : log s1 = log s) by (unfold s1, s0, send_down; destruct nsd; auto).
      assert (X : forall s2, after s1 s2 -> after s (release (set_pins (pred (pins s2)) s2))).
      { intros s2 ((O2 & I2 & B2 & J2 & P2) & E & F & F').
        assert (L2 : alive s2 = true) by (apply P2; [left; cbn; lia|exact L0]).
        destruct (release_later s2 (set_pins (pred (pins s2)) s2))
          as (R1 & R2 & R3 & R4 & R5 & R6 & R7 & R8); cbn; auto; [apply (ok_held s2 O2)|congruence|].
        rewrite E2 in I2; rewrite E1 in E. change (pins s2 = Datatypes.S (pins s)) in F.
        set (s3 := set_pins (pred (pins s2)) s2) in *.
        assert (F3 : pins s3 = pins s) by (unfold s3; cbn; rewrite F; auto).
        assert (Ca : calling s3 = calling s) by (unfold s3; cbn; rewrite F'; apply A0).
        split; [|split; [congruence|split; congruence]]. split; [exact R1|]; repeat split; auto.
        - eapply incl_tran; eassumption.
        - intros X _; apply R4; congruence.
        - intros X _; apply R8; auto. unfold kept in *; rewrite F3, Ca; auto. }
      destruct (exec fl TNotify s1) as [f s2|s2|w s2| | |]; cbn in Q |- *; auto.
      exfalso; destruct Q as ((_ & _ & _ & _ & Q) & D & _).
      rewrite Q in D; [discriminate|left; cbn; lia|exact L0].
    + destruct (some_object s) eqn:S; [|exact I].
      assert (L : alive s = true) by (apply ok_object; auto).
      apply Go; [|exact I]. apply more_after; auto. exact (ok_held s O).
    + destruct (objects s) as [|o] eqn:E; [exact I|].
      apply Go; [|exact I]. apply release_after; auto.
      * exact (ok_held s O).
      * intros D; apply (ok_dead s O) in D; unfold some_object in D; rewrite E in D; discriminate.
    + destruct (some_object s) eqn:S; [|exact I].
      assert (L : alive s = true) by (apply ok_object; auto).
      apply Go; [|exact I]. apply more_after; auto.
      intros j Hj; destruct (ok_held s O j Hj) as [w' X]; exists w'; cbn.
      rewrite nth_error_app1; auto. apply nth_error_Some; congruence.
    + destruct (nth_error (slots s) i) as [[w|]|] eqn:E; [|exact I|exact I].
      destruct existsb eqn:Ex; [exact I|].
      apply Go; [|exact I]. apply release_after; auto.
      * intros j Hj; destruct (ok_held s O j Hj) as [w' X]; exists w'; cbn.
        rewrite nth_set_nth; auto. intros <-. rewrite <- not_true_iff_false in Ex; apply Ex.
        apply existsb_exists; exists i; split; [exact Hj|apply Nat.eqb_refl].
      * intros D; apply (ok_dead s O) in D; unfold some_object in D.
        apply orb_false_elim in D as [_ D]. exfalso.
        apply nth_error_In in E. rewrite <- not_true_iff_false in D; apply D.
        apply existsb_exists; exists (Some w); auto.
    + destruct (manual || busy s) eqn:B; [exact I|].
      apply orb_false_elim in B as [B _].
      apply post_andthen; [|intros f s2 H; apply IH; [apply H|exact I]].
      apply post_finally; [apply Go; [apply set_busy_after, O|cbn; congruence]|].
      intros s1 H; eapply after_trans; [exact H|apply set_busy_after, H].
    + assert (Q : post s (exec fl (TProg p) s)) by (apply IH; cbn; auto).
      destruct (exec fl (TProg p) s) as [f s1|s1|w s1| | |]; cbn in Q; auto;
        (eapply post_trans; [exact Q|apply IH; [apply Q|exact I]]).
  - (* post *)
    apply post_touch; [exact O| |].
    { intros D; destruct w; cbn in *; auto; congruence. }
    intros L. assert (Aj : after s (push_job j s)) by (apply push_job_after; auto; congruence).
    destruct (manual && negb (busy s)) eqn:B; [|exact Aj].
    assert (Ab : after s (set_busy true (push_job j s))) by (eapply after_trans; [exact Aj|apply set_busy_after, Aj]).
    apply andb_prop in B as [Bm _].
    eapply (post_leave s (set_inside true (set_busy true (push_job j s)))); auto.
    + apply in_ok, Ab.
    + apply IH; [apply in_ok, Ab|]. cbn; auto.
  - destruct manual; [exact I|]. apply push_job_after; auto.
  - (* the loop *)
    destruct (manual && negb (alive s)) eqn:B.
    + apply andb_prop in B as [B D]. apply negb_true_iff in D.
      destruct (P B) as (_ & [X|X]); [congruence|].
      split; [apply after_refl, O|]; cbn; rewrite B; auto.
    + destruct (q s) as [|j r] eqn:E; [apply after_refl, O|].
      assert (Ap : after s (set_q r s)) by (eapply pop_after; eauto).
      assert (Pj : pre (TJob j) (set_q r s)).
      { cbn; intros Oj; destruct O as ([[L _]|[D (Y & l1 & i & n & l2 & El & _ & _ & H3)]] & _); [auto|].
        right. rewrite E in H3; cbn in H3; rewrite Oj in H3.
        destruct H3 as [H3 H4]; [discriminate|]. rewrite H3.
        destruct n; [lia|]. exists i, n; rewrite El; apply in_or_app; right; left; auto. }
      apply post_andthen; [apply Go; auto|].
      intros f s1 H; apply IH; [apply H|]. cbn; intros Hm.
      destruct (P Hm) as (X & Y); destruct H as ((O1 & I1 & B1 & J1 & P1) & E1 & E2 & E3).
      split; [congruence|]. destruct Y as [Y|Y]; [|right; eapply inside_incl; eauto].
      destruct (alive s1) eqn:D; auto.
  - (* functions *)
    destruct j as [p a|p e|p|p|[c|m] n]; cbn in P.
    + apply post_touch; [exact O|intros D; destruct P; congruence || auto|]. intros L.
      set (s0 := emit (EReduce a) s). assert (A0 : after s s0) by (apply emit_after; cbn; auto; discriminate).
      assert (K : forall m s1, after s s1 -> alive s1 = true ->
                post s1 (touch RLoop s1 (Done None (push_down eqb m s1)))).
      { intros m s1 H L1; apply post_touch; [apply H|congruence|]. intros _; apply push_down_after, H. }
      destruct (reducer (cur s0) a) as [[m [e|]]|]; [| |exact A0].
      * apply post_andthen_eq; [apply Go; cbn; auto|]. intros f s1 X H; apply K; auto. eapply post_alive, X.
      * apply post_andthen_eq.
        -- destruct trans; [|apply Go; cbn; auto]. destruct p; [apply Go; cbn; auto|exact A0].
        -- intros f s1 X H; apply K; auto.
           pose proof (post_alive fl RLoop (JNotify p) s0 f s1) as X1.
           pose proof (fun n => fulfil_alive fl n s0 f s1 L) as X2.
           destruct trans; [|auto]. destruct p; [eapply X2, X|injection X as <- <-; exact L].
    + apply post_touch; [exact O|intros D; destruct P; congruence || auto|]. intros L.
      assert (A0 : after s (send_down s)) by apply send_down_after, O.
      assert (L0 : alive (send_down s) = true) by (unfold send_down; destruct nsd; auto).
      apply post_andthen_eq.
      * destruct trans; [apply after_refl, O|]. apply Go; auto.
      * intros f s1 X H.
        assert (L1 : alive s1 = true).
        { pose proof (notify_alive fl _ f s1 L0) as X1.
          destruct trans; [injection X as <- <-; exact L|auto]. }
        apply post_touch; [apply H|congruence|]. intros _.
        assert (A1 : after s1 (emit EEffect s1)) by (apply emit_after; cbn; auto; [apply H|discriminate]).
        apply post_andthen.
        -- eapply post_trans; [exact A1|apply IH; [apply A1|exact I]].
        -- intros g s2 H2; destruct p; [apply IH; [apply H2|exact I]|apply after_refl, H2].
    + apply post_touch; [exact O|intros D; destruct P; congruence || auto|]. intros L.
      assert (A0 : after s (send_down s)) by apply send_down_after, O.
      assert (L0 : alive (send_down s) = true) by (unfold send_down; destruct nsd; auto).
      apply post_andthen; [apply Go; auto|].
      intros f s1 H; destruct p; [apply IH; [apply H|exact I]|apply after_refl, H].
    + apply IH; cbn; auto.
    + apply post_andthen; [apply IH; cbn; auto|]. intros f s1 H; apply IH; [apply H|exact I].
    + apply post_andthen; [apply IH; cbn; auto|]. intros f s1 H; apply IH; [apply H|exact I].
  - (* notify *)
    cbn in P. destruct (nn s && negb (nsd s)); [|apply after_refl, O].
    assert (An : after s (set_nn false s)) by apply set_nn_after, O.
    assert (Q : post s (exec fl (TSlots 0) (set_nn false s))) by (apply Go; auto).
    assert (Q' : ends_alive (exec fl (TSlots 0) (set_nn false s))) by (apply IHs; auto; apply An).
    destruct exec as [f s1|s1|w s1| | |]; cbn in Q, Q' |- *; auto; unfold touch; rewrite Q'; auto.
  - (* watchers *)
    apply Sl; auto.
  - (* promises *)
    destruct (nth_error (heap s) n) as [[b d lk c]|] eqn:E; [|exact I].
    destruct (nth_cell s n _ O E) as [Hm Hc]; cbn in Hm, Hc.
    assert (U : forall s0 d lk, after s s0 -> after s (upd_cell n (Cell b d lk None) s0)).
    { intros s0 d0 lk0 H; eapply after_trans; [exact H|]. apply upd_cell_after; [apply H| |discriminate].
      intros X; eapply promised_incl; [apply H|apply Hm, X]. }
    pose proof (after_refl s O) as R.
    destruct d, lk; try exact I; try (apply U, R).
    destruct c as [j|]; [|apply U, R].
    assert (Q : post s (exec fl (if b then TPost RFuture j else TQueue j) (upd_cell n (Cell b false true None) s))).
    { apply Go; [apply U, R|]. destruct b; cbn; auto. }
    destruct exec; cbn in Q |- *; auto.
  - (* futures *)
    destruct f as [f|]; [|destruct c; apply IH; cbn; auto].
    destruct (nth_error (heap s) f) as [[b d lk c']|] eqn:E; [|exact I].
    destruct (nth_cell s f _ O E) as [Hm Hc]; cbn in Hm, Hc.
    destruct lk; [exact I|]. destruct c'; [exact I|].
    assert (N : after s (new_cell b s)) by (apply new_cell_after; auto).
    assert (U : forall s0 d lk cb0, after s s0 -> (forall j, cb0 = Some j -> own j = false) ->
              after s (upd_cell f (Cell b d lk cb0) s0)).
    { intros s0 d0 lk0 cb0 H Hc0; eapply after_trans; [exact H|]. apply upd_cell_after; [apply H| |exact Hc0].
      intros X; eapply promised_incl; [apply H|apply Hm, X]. }
    destruct d.
    + match goal with |- post s (match ?r with _ => _ end) => assert (Q : post s r) end.
      { apply Go; [apply U; [exact N|discriminate]|]. destruct b; cbn; auto. }
      destruct exec; cbn in Q |- *; auto; apply U; auto; discriminate.
    + apply U; [exact N|]. intros j X; injection X as <-; auto.
Qed.

Lemma exec_post fl t s : ok s -> pre t s -> post s (exec fl t s).
Proof. apply exec_both. Qed.

Lemma init_ok m w : ok (init m w).
Proof.
  split; [left; cbn; split; auto; intros (i & n & [])|split]. - intros c []. - intros i [].
Qed.
Lemma run_post fl m w p : post (init m w) (run reducer eqb trans futures manual fl m w p).
Proof. apply exec_post; [apply init_ok|exact I]. Qed.
End Proofs.

Lemma split_once {X} (P : X -> Prop) a x b a' x' b' :
  a ++ x :: b = a' ++ x' :: b' -> P x' -> (forall y, In y a -> ~ P y) -> (forall y, In y b -> ~ P y) ->
  a' = a /\ b' = b.
Proof.
  revert a'; induction a as [|y a IH]; intros [|y' a'] E Px Ha Hb; cbn in E.
  - injection E as -> ->; auto.
  - injection E as -> ->. elim (Hb x'); auto. apply in_or_app; right; left; auto.
  - injection E as -> E. elim (Ha x'); auto; left; auto.
  - injection E as -> E. destruct (IH a' E) as [-> ->]; auto. intros z Hz; apply Ha; right; auto.
Qed.
Lemma ok_dead_after {M A W : Type} futures manual (s : st M A W) : ok futures manual s -> dead_after (log s).
Proof.
  intros ([[_ G]|[_ (_ & l1 & i & n & l2 & E & (H1 & H1') & H2 & _)]] & _) k1 j m k2 E'.
  - elim G; exists j, m; rewrite E'; apply in_or_app; right; left; auto.
  - rewrite E in E'.
    destruct (split_once (fun e => exists i n, e = EFree i n) _ _ _ _ _ _ E') as [-> ->].
    + eauto.
    + intros e He (x & y & ->); apply H1'; exists x, y; auto.
    + intros e He (x & y & ->); apply H2; exists x, y; auto.
    + auto.
Qed.
