(** C79: proofs. *)
From Coq Require Import List Arith Bool Ascii ZArith Lia.
From Verif Require Import StoreModel StoreSeq CounterModel CounterSpec.
Import ListNotations.

Notation stt := (st Z action (list Z)).
Notation rest := (res Z action (list Z)).
Notation exec := (exec update Z.eqb false false true (fun _ => [])).

Definition evr (F : nat -> rest) (r : rest) : Prop := exists n, forall f, n <= f -> F f = r.
Lemma evr_S : forall t s r, evr (fun f => exec (S f) t s) r -> evr (fun f => exec f t s) r.
Proof. intros t s r [n H]. exists (S n). intros [|f] L; [lia|]. apply H. lia. Qed.
Lemma evr_pure : forall r, evr (fun _ => r) r.
Proof. intros r. exists 0. reflexivity. Qed.
Lemma evr_bind : forall F k o s r, evr F (Done o s) -> evr (fun f => k f o s) r -> evr (fun f => andthen (F f) (k f)) r.
Proof.
  intros F k o s r [n H] [m K]. exists (max n m). intros f L. rewrite H by lia. cbn [andthen]. apply K. lia.
Qed.
Lemma evr_throw : forall F h o s, evr F (Done o s) -> evr (fun f => on_throw (F f) h) (Done o s).
Proof. intros F h o s [n H]. exists n. intros f L. rewrite H by lia. reflexivity. Qed.
Lemma evr_map : forall F (g1 : option nat -> option nat) g2 h o s, evr F (Done o s) ->
  evr (fun f => match F f with Done o s => Done (g1 o) (g2 s) | Thrown s => Thrown (h s) | r => r end) (Done (g1 o) (g2 s)).
Proof. intros F g1 g2 h o s [n H]. exists n. intros f L. rewrite H by lia. reflexivity. Qed.

(** Between two characters *)
Definition idle (v : Z) (n : nat) (out : list Z) (l : list (event Z action (list Z))) : stt :=
  St v v false false [Some draw] [] [] false 0 n out l.
Definition value (v : Z) (a : action) : Z := match a with Increment => (v + 1)%Z | Decrement => (v - 1)%Z | Reset x => x end.
Lemma update_eq : forall v a, update v a = Some (value v a, None).
Proof. reflexivity. Qed.
Opaque value.
Lemma drawn : forall m (s : stt), evr (fun f => exec f (TProg (draw m)) s) (Done None (set_world (world s ++ [m]) s)).
Proof.
  intros m s. unfold draw. apply evr_S. cbn [StoreModel.exec arrive]. apply evr_S. cbn [StoreModel.exec arrive].
  apply evr_S. cbn [StoreModel.exec arrive]. apply evr_pure.
Qed.
Lemma told : forall (s : stt), slots s = [Some draw] -> nn s = false ->
  evr (fun f => exec f TNotify (send_down s))
    (Done None (if nsd s then set_world (world s ++ [cur s]) (emit (ESee 0 (cur s)) (set_nn false (send_down s))) else s)).
Proof.
  intros s Sl Nn. apply evr_S. cbn [StoreModel.exec]. unfold send_down. destruct (nsd s) eqn:D.
  - cbn [nn nsd negb andb]. apply evr_S. cbn [StoreModel.exec set_nn slots]. rewrite Sl. cbn [nth_error].
    eapply evr_bind.
    + apply evr_throw. apply drawn.
    + apply evr_S. cbn [StoreModel.exec set_world emit slots set_nn]. cbn [nth_error]. apply evr_pure.
  - rewrite Nn. cbn [andb]. apply evr_pure.
Qed.
Definition out_after (v : Z) (out : list Z) (a : action) : list Z := if Z.eqb (value v a) v then out else out ++ [value v a].
Lemma posted : forall v n out l a, exists s',
  evr (fun f => exec f (TPost (JReduce n None a)) (idle v (S n) out l)) (Done None s') /\
  s' = idle (value v a) (S n) (out_after v out a) (log s').
Proof.
  intros v n out l a. unfold out_after. destruct (Z.eqb (value v a) v) eqn:E.
  - apply Z.eqb_eq in E. rewrite E. eexists. split.
    {
    apply evr_S. cbn [StoreModel.exec]. cbn [idle busy andb negb]. apply evr_S. cbn [StoreModel.exec].
    apply (evr_map _ (fun _ => None) (set_busy false) (set_busy false) None).
    apply evr_S. cbn [StoreModel.exec arrive]. cbn [push_job set_q q set_busy app]. eapply evr_bind.
    { apply evr_throw. apply evr_S. cbn [StoreModel.exec]. rewrite update_eq. eapply evr_bind.
      - apply evr_S. cbn [StoreModel.exec]. cbn [emit busy andb negb set_q set_busy push_job idle]. apply evr_pure.
      - cbn [push_job set_q emit cur set_busy idle]. unfold push_down. cbn [cur]. rewrite E, Z.eqb_refl. apply evr_pure. }
    apply evr_S. cbn [StoreModel.exec arrive]. cbn [q app idle set_busy push_job set_q]. eapply evr_bind.
    { apply evr_throw. apply evr_S. cbn [StoreModel.exec]. eapply evr_bind; [apply told; reflexivity|]. apply evr_pure. }
    apply evr_S. cbn [StoreModel.exec arrive]. cbn. apply evr_pure. }
    reflexivity.
  - eexists. split.
    {
    apply evr_S. cbn [StoreModel.exec]. cbn [idle busy andb negb]. apply evr_S. cbn [StoreModel.exec].
    apply (evr_map _ (fun _ => None) (set_busy false) (set_busy false) None).
    apply evr_S. cbn [StoreModel.exec arrive]. cbn [push_job set_q q set_busy app]. eapply evr_bind.
    { apply evr_throw. apply evr_S. cbn [StoreModel.exec]. rewrite update_eq. eapply evr_bind.
      - apply evr_S. cbn [StoreModel.exec]. cbn [emit busy andb negb set_q set_busy push_job idle]. apply evr_pure.
      - cbn [push_job set_q emit cur set_busy idle]. unfold push_down. cbn [cur]. match goal with |- context [Z.eqb _ (cur ?x)] => change (cur x) with v end. rewrite E. apply evr_pure. }
    apply evr_S. cbn [StoreModel.exec arrive]. cbn [q app idle set_busy push_job set_q]. eapply evr_bind.
    { apply evr_throw. apply evr_S. cbn [StoreModel.exec]. eapply evr_bind; [apply told; reflexivity|]. apply evr_pure. }
    apply evr_S. cbn [StoreModel.exec arrive]. cbn. apply evr_pure. }
    reflexivity.
Qed.
Lemma loop_ends : forall input v n out l, exists s,
  evr (fun f => exec f (TProg (loop input)) (idle v n out l)) (Done None s) /\ world s = out ++ changes v (numbers v input).
Proof.
  induction input as [|c input IH]; intros v n out l.
  - exists (idle v n out l). split; [apply evr_S; cbn [StoreModel.exec arrive loop]; apply evr_pure|]. cbn. rewrite app_nil_r. reflexivity.
  - cbn [loop numbers]. assert (match intent c with Some a => after v c = value v a | None => after v c = v end) as A.
    { unfold after, intent. destruct c as [[|] [|] [|] [|] [|] [|] [|] [|]]; reflexivity. }
    destruct (intent c) as [a|].
    + rewrite A. destruct (posted v n out (EDisp n a None :: l) a) as (s' & P & Es').
      destruct (IH (value v a) (S n) (out_after v out a) (log s')) as (s & R & E). exists s. split.
      * apply evr_S. cbn [StoreModel.exec arrive]. cbn [new_dispatch]. eapply evr_bind; [exact P|]. rewrite Es'. exact R.
      * rewrite E. unfold out_after. cbn [changes]. destruct (Z.eqb (value v a) v); [reflexivity|]. rewrite <- app_assoc. reflexivity.
    + rewrite A. destruct (IH v n out l) as (s & R & E). exists s. split; [exact R|]. cbn [changes]. rewrite Z.eqb_refl. exact E.
Qed.
Lemma prints : forall input, exists fuel s, (forall f, fuel <= f -> program f input = Done None s) /\
  world s = changes 0 (numbers 0 input).
Proof.
  intros input. destruct (loop_ends input 0%Z 0 [] [EConn 0 0%Z]) as (s & R & E).
  assert (evr (fun f => program f input) (Done None s)) as [n H]; [|exists n, s; auto].
  unfold program, run, main. apply evr_S. cbn [StoreModel.exec arrive]. exact R.
Qed.
Lemma program_mono : forall f input s, program f input = Done None s -> forall g, f <= g -> program g input = Done None s.
Proof.
  intros f input s H g L. unfold program, run in *. rewrite <- H. apply exec_mono; [exact L|]. unfold ok. rewrite H. discriminate.
Qed.
Lemma last_app : forall (l : list Z) d, List.last l d = match l with [] => d | _ => List.last l 0%Z end.
Proof. induction l as [|x l IH]; intros d; [reflexivity|]. destruct l; [reflexivity|]. cbn [List.last] in *. rewrite IH. symmetry. apply (IH 0%Z). Qed.
Lemma last_changes : forall input v, List.last (changes v (numbers v input)) v = fold_left after input v.
Proof.
  induction input as [|c input IH]; intros v; [reflexivity|]. cbn [numbers changes fold_left].
  destruct (Z.eqb_spec (after v c) v) as [E | E].
  - rewrite E. apply IH.
  - rewrite <- (IH (after v c)). destruct (changes (after v c) (numbers (after v c) input)) as [|x l] eqn:L; [reflexivity|].
    change (List.last (after v c :: x :: l) v) with (List.last (x :: l) v). rewrite (last_app (x :: l) v), (last_app (x :: l) (after v c)). reflexivity.
Qed.
Lemma last_number : forall input fuel s, program fuel input = Done None s -> List.last (world s) 0%Z = fold_left after input 0%Z.
Proof.
  intros input fuel s H. destruct (prints input) as (n & s' & P & E).
  pose proof (P (max fuel n) (Nat.le_max_r _ _)) as P1. rewrite (program_mono _ _ _ H (max fuel n) (Nat.le_max_l _ _)) in P1.
  injection P1 as ->. rewrite E. apply last_changes.
Qed.
