(** C77: a watcher that writes for ever; proofs. *)
From Coq Require Import List Arith Bool Lia.
From Verif Require Import NodesModel NodesBase.
Import ListNotations.

Section Endless.
Context {W : Type}.
Definition chg (a b : nat) : bool := negb (a =? b).
Notation oV := (fun (_ : graph nat W) (_ : nat) (l : list (nat * nat)) => l).
Notation oN := (fun (_ : graph nat W) (_ : nat) (l : list nat) => l).
Notation exec := (exec chg oV oN).
Definition again (v : nat) (_ : obs nat) : prog nat W := PDo (CSet 0 (S v)) (fun _ => PRet).
Definition counts_up : prog nat W :=
  PDo (CNew (KState true) [] (Some 0)) (fun _ => PDo (CWatch 0 again) (fun _ => PDo (CSet 0 1) (fun _ => PRet))).

Definition P (g : graph nat W) : Prop :=
  cnt g = 1 /\ kind_of g 0 = KState true /\ parents g 0 = [] /\ children g 0 = [] /\ n_held (nd g 0) = 1 /\ slots g 0 = [(0, again)].
Lemma P_handle : forall g, P g -> handle g 0 = true.
Proof. intros g (C & _ & _ & _ & H & _). unfold handle. rewrite C, H. reflexivity. Qed.
Lemma P_alive : forall g, P g -> alive g 0 = true.
Proof. intros g H. apply alive_handle, P_handle, H. Qed.
Lemma P_upd : forall g h, P g -> (forall a, n_kind (h a) = n_kind a /\ n_parents (h a) = n_parents a /\
  n_children (h a) = n_children a /\ n_held (h a) = n_held a /\ n_slots (h a) = n_slots a) -> P (upd g 0 h).
Proof.
  intros g h (A & B & C & D & E & F) H. destruct (H (nd g 0)) as (K1 & K2 & K3 & K4 & K5).
  unfold P, kind_of, parents, children, slots in *. cbn [upd cnt nd Nat.eqb]. rewrite K1, K2, K3, K4, K5. auto 10.
Qed.
Lemma set_endless : forall fuel s v, P (gr s) -> cur (gr s) 0 <> v -> exec fuel (TCmd (CSet 0 v)) s = OutOfFuel.
Proof.
  induction fuel as [fuel IH] using lt_wf_ind. intros s v H N.
  destruct fuel as [|f1]; [reflexivity|]. cbn [NodesModel.exec]. rewrite (P_handle _ H).
  destruct f1 as [|f2]; [reflexivity|]. cbn [NodesModel.exec].
  assert (P (gr (pin 0 s))) as Hp by exact H. rewrite (P_alive _ Hp).
  assert (kind_of (gr (pin 0 s)) 0 = KState true) as -> by apply H.
  assert (chg v (cur (gr (pin 0 s)) 0) = true) as Ch.
  { unfold chg. cbn. apply negb_true_iff, Nat.eqb_neq. intros E. apply N. symmetry. exact E. }
  set (s1 := with_gr (emit (EWrite 0 v) (pin 0 s)) (push_down chg 0 v)).
  assert (gr s1 = upd (gr (pin 0 s)) 0 (set_cur v)) as G1.
  { unfold s1. cbn [with_gr gr emit]. unfold push_down. cbn [gr emit] in *. rewrite Ch. reflexivity. }
  assert (P (gr s1)) as H1 by (rewrite G1; apply P_upd; [exact Hp|intros a; repeat split; reflexivity]).
  set (s2 := send_roots chg [0] s1).
  assert (gr s2 = upd (gr s1) 0 set_sent) as G2.
  { unfold s2, send_roots, send_down_node. cbn [fold_left emit gr]. cbn [send_down gr].
    assert (recompute chg 0 (gr s1) = gr s1) as R by (unfold recompute; destruct H1 as (_ & -> & _); reflexivity).
    change (gr (emit ?e s1)) with (gr s1). rewrite R. assert (nsd (gr s1) 0 = true) as -> by (rewrite G1; reflexivity).
    assert (children (upd (gr s1) 0 set_sent) 0 = []) as -> by (unfold children; rewrite nd_upd_same; apply H1).
    reflexivity. }
  assert (P (gr s2)) as H2 by (rewrite G2; apply P_upd; [exact H1|intros a; repeat split; reflexivity]).
  clearbody s2 s1.
  destruct f2 as [|f3]; [reflexivity|]. cbn [NodesModel.exec]. rewrite (P_alive _ H2). cbn [negb].
  assert (nn (gr s2) 0 = true) as -> by (rewrite G2; reflexivity).
  assert (nsd (gr s2) 0 = false) as -> by (rewrite G2; reflexivity). cbn [andb negb].
  set (s3 := with_gr s2 (fun g => upd g 0 (fun a => set_ntf true (set_nn false a)))).
  assert (P (gr s3)) as H3 by (apply P_upd; [exact H2|intros a; repeat split; reflexivity]).
  assert (last (gr s3) 0 = v /\ cur (gr s3) 0 = v) as [L3 C3].
  { unfold s3, last, cur. cbn [with_gr gr]. rewrite !nd_upd_same. cbn. rewrite G2, nd_upd_same. cbn. rewrite G1, nd_upd_same.
    split; reflexivity. }
  destruct f3 as [|f4]; [reflexivity|]. cbn [NodesModel.exec].
  assert (slots (gr s3) 0 = [(0, again)]) as -> by apply H3. cbn [next_slot find fst Nat.leb].
  rewrite L3. destruct f4 as [|f5]; [reflexivity|]. cbn [NodesModel.exec again].
  rewrite (IH f5); [reflexivity|lia|exact H3|]. cbn [emit gr]. rewrite C3. lia.
Qed.
Lemma do_done : forall f c k s s', exec f (TCmd c) s = Done s' ->
  exec (S f) (TProg (PDo c k)) s = exec f (TProg (k (get_obs s'))) (see s').
Proof. intros f c k s s' E. cbn [NodesModel.exec]. rewrite E. reflexivity. Qed.
Lemma do_endless : forall f c k s, exec f (TCmd c) s = OutOfFuel -> exec (S f) (TProg (PDo c k)) s = OutOfFuel.
Proof. intros f c k s E. cbn [NodesModel.exec]. rewrite E. reflexivity. Qed.
Lemma counts_for_ever : forall fuel w, run 0 chg oV oN fuel w counts_up = OutOfFuel.
Proof.
  intros fuel w. unfold run, counts_up. destruct fuel as [|[|[|f]]]; [reflexivity|reflexivity|reflexivity|].
  erewrite do_done by (cbn; reflexivity). erewrite do_done by (cbn; reflexivity).
  apply do_endless, set_endless; [|discriminate]. repeat split.
Qed.
End Endless.
