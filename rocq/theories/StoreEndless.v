(** C78: an effect that dispatches its own action; proofs. *)
From Coq Require Import List Arith Bool Lia.
From Verif Require Import StoreModel.
Import ListNotations.

Section Endless.
Definition once_more : prog nat unit unit := PDispatch tt (fun _ => PRet None).
Definition again (m : nat) (_ : unit) : option (nat * option (prog nat unit unit)) := Some (S m, Some once_more).
Notation exec := (exec again Nat.eqb false false true (fun _ => [])).

Lemma told : forall f (s : st nat unit unit), slots s = [] ->
  exec f TNotify (send_down s) = OutOfFuel \/
  exists s', exec f TNotify (send_down s) = Done None s' /\ slots s' = [] /\ busy s' = busy s /\ q s' = q s.
Proof.
  intros f s E. destruct f as [|f]; [left; reflexivity|]. cbn [StoreModel.exec]. unfold send_down.
  destruct (nsd s) eqn:D; cbn [nn nsd negb andb].
  - destruct f as [|f]; [left; reflexivity|]. right. cbn [StoreModel.exec set_nn slots]. rewrite E. cbn [nth_error].
    eexists. split; [reflexivity|]. cbn. auto.
  - rewrite D, andb_true_r. destruct (nn s); [|right; eauto 10].
    destruct f as [|f]; [left; reflexivity|]. right. cbn [StoreModel.exec set_nn slots]. rewrite E. cbn [nth_error].
    eexists. split; [reflexivity|]. cbn. auto.
Qed.
Definition goes (r : res nat unit unit) (s : st nat unit unit) (j : job nat unit unit) : Prop :=
  r = OutOfFuel \/ exists o s', r = Done o s' /\ slots s' = [] /\ busy s' = true /\ q s' = q s ++ [j].
Lemma reduces : forall f s i, slots s = [] -> busy s = true ->
  goes (exec f (TJob (JReduce i None tt)) s) s (JEffect i None once_more).
Proof.
  intros f s i Sl Bu. destruct f as [|f]; [left; reflexivity|]. cbn [StoreModel.exec again].
  destruct f as [|f]; [left; reflexivity|]. cbn [StoreModel.exec emit busy]. rewrite Bu. cbn [andb negb andthen].
  right. eexists None, _. split; [reflexivity|]. unfold push_down. destruct (_ =? _); cbn; auto.
Qed.
Lemma affects : forall f s i, slots s = [] -> busy s = true ->
  exists n, goes (exec f (TJob (JEffect i None once_more)) s) s (JReduce n None tt).
Proof.
  intros f s i Sl Bu. destruct f as [|f]; [exists 0; left; reflexivity|]. cbn [StoreModel.exec].
  set (s2 := emit (EBegin i once_more) s).
  destruct (told f s2 Sl) as [-> | (s3 & -> & Sl3 & Bu3 & Q3)]; [exists 0; left; reflexivity|]. cbn [on_throw andthen].
  exists (ndisp s3). destruct f as [|f]; [left; reflexivity|]. cbn [StoreModel.exec once_more].
  unfold arrive at 1. unfold new_dispatch.
  destruct f as [|f]; [left; reflexivity|]. cbn [StoreModel.exec]. assert (busy s3 = true) as Bu4 by (rewrite Bu3; exact Bu).
  match goal with |- context [true && negb (busy ?x)] => change (busy x) with (busy s3) end. rewrite Bu4.
  cbn [andb negb andthen arrive]. right. eexists None, _. split; [reflexivity|]. cbn. rewrite Q3, Bu4. auto.
Qed.
Lemma drain_cons : forall f s j r, q s = j :: r -> exec (S f) TDrain s =
  andthen (on_throw (exec f (TJob j) (set_q r s)) (emit EFail)) (fun _ s1 => exec f TDrain s1).
Proof. intros f s j r E. cbn [StoreModel.exec arrive]. rewrite E. reflexivity. Qed.
Lemma drain_endless : forall fuel s, slots s = [] -> busy s = true ->
  (exists i, q s = [JReduce i None tt] \/ q s = [JEffect i None once_more]) -> exec fuel TDrain s = OutOfFuel.
Proof.
  induction fuel as [|f IH]; intros s Sl Bu (i & Q); [reflexivity|]. destruct Q as [Q | Q]; rewrite (drain_cons _ _ _ _ Q).
  - destruct (reduces f (set_q [] s) i Sl Bu) as [-> | (o & s1 & -> & Sl1 & Bu1 & Q1)]; [reflexivity|].
    apply (IH s1 Sl1 Bu1). exists i. right. exact Q1.
  - destruct (affects f (set_q [] s) i Sl Bu) as [n [-> | (o & s1 & -> & Sl1 & Bu1 & Q1)]]; [reflexivity|].
    apply (IH s1 Sl1 Bu1). exists n. left. exact Q1.
Qed.
Lemma never_ends : forall fuel m w, run again Nat.eqb false false true (fun _ => []) fuel m w once_more = OutOfFuel.
Proof.
  intros fuel m w. unfold run. destruct fuel as [|f]; [reflexivity|]. cbn [StoreModel.exec once_more]. unfold arrive at 1. unfold new_dispatch.
  destruct f as [|f]; [reflexivity|]. cbn [StoreModel.exec]. cbn [emit busy init andb negb].
  destruct f as [|f]; [reflexivity|]. cbn [StoreModel.exec].
  rewrite drain_endless; [reflexivity|reflexivity|reflexivity|]. exists 0. left. reflexivity.
Qed.
End Endless.
