(** Numbers, requests, and what the parts of the whole do: lemmas. *)
From Coq Require Import List Bool Arith NArith ZArith Ascii String Lia.
From Verif Require Import StoreModel DebuggerModel ServerModel ServerSpec ServerProofs GuiModel GuiSpec.
Import ListNotations.
Local Open Scope list_scope.

(** ** Numbers *)
Lemma decimal_denotes : forall fuel n acc, (n < 2 ^ N.of_nat fuel)%N ->
  exists s, decimal (S fuel) n acc = s ++ acc /\ s <> [] /\ denotes s n.
Proof.
  induction fuel as [|fuel IH]; intros n acc H.
  - assert (n = 0%N) by (change (2 ^ N.of_nat 0)%N with 1%N in H; lia). subst n.
    exists [ascii_of_N 48]. split; [reflexivity|]. split; [discriminate|].
    apply (N_digit [] 0 _ 0); [constructor|lia|reflexivity].
  - change (decimal (S (S fuel)) n acc) with
      (if (n <? 10)%N then ascii_of_N (48 + n mod 10) :: acc
       else decimal (S fuel) (n / 10) (ascii_of_N (48 + n mod 10) :: acc)).
    destruct (n <? 10)%N eqn:E.
    + apply N.ltb_lt in E. exists [ascii_of_N (48 + n mod 10)]. split; [reflexivity|]. split; [discriminate|].
      rewrite (N.mod_small n 10) by lia. assert (n = 10 * 0 + n)%N as Hn by lia. rewrite Hn at 2.
      apply (N_digit [] 0 _ n); [constructor|exact E|reflexivity].
    + apply N.ltb_ge in E.
      assert (n / 10 < 2 ^ N.of_nat fuel)%N as Q.
      { apply N.div_lt_upper_bound; [lia|]. rewrite Nat2N.inj_succ, N.pow_succ_r' in H. lia. }
      destruct (IH (n / 10)%N (ascii_of_N (48 + n mod 10) :: acc) Q) as (s & S1 & S2 & S3).
      exists (s ++ [ascii_of_N (48 + n mod 10)]). split; [rewrite S1, <- app_assoc; reflexivity|].
      split; [destruct s; discriminate|].
      rewrite (N.div_mod' n 10) at 2. apply N_digit with (d := (n mod 10)%N); [exact S3| |reflexivity].
      apply N.mod_lt. lia.
Qed.
Lemma size_bound : forall n, (n < 2 ^ N.of_nat (N.size_nat n))%N.
Proof.
  intros [|p]; [reflexivity|]. cbn [N.size_nat].
  assert (forall p, (N.pos p < 2 ^ N.of_nat (Pos.size_nat p))%N) as K; [|apply K].
  clear. induction p as [p IH|p IH|]; cbn [Pos.size_nat]; [| |reflexivity];
    rewrite Nat2N.inj_succ, N.pow_succ_r'.
  - change (N.pos p~1) with (2 * N.pos p + 1)%N. lia.
  - change (N.pos p~0) with (2 * N.pos p)%N. lia.
Qed.
Theorem to_string_denotes : forall n, denotes (to_string (Z.of_nat n)) (N.of_nat n) /\ to_string (Z.of_nat n) <> [].
Proof.
  intros n. unfold to_string.
  assert ((Z.of_nat n <? 0)%Z = false) as -> by (apply Z.ltb_ge; lia).
  assert (Z.abs_N (Z.of_nat n) = N.of_nat n) as -> by lia.
  destruct (decimal_denotes (N.size_nat (N.of_nat n)) (N.of_nat n) [] (size_bound _)) as (s & E & N & D).
  rewrite E, app_nil_r. split; assumption.
Qed.

(** ** Lists *)
Lemma drop_split : forall X (l : list X) n x, nth_error l n = Some x ->
  exists l1 l2, l = l1 ++ x :: l2 /\ drop n l = l1 ++ l2.
Proof.
  induction l as [|y l IH]; intros [|n] x H; try discriminate.
  - injection H as ->. exists [], l. split; reflexivity.
  - destruct (IH n x H) as (l1 & l2 & -> & E). exists (y :: l1), l2. cbn [drop app].
    rewrite E. split; reflexivity.
Qed.

Section Parts.
Context {M A : Type}.

(** ** Commands *)
Definition reqs (p : gmodel M A) (cs : list (cmd M A)) : list (request * expect) :=
  flat_map (fun c => match c with
                     | Http v url x => [(Req v (skipn (List.length (pg_server p)) url), x)]
                     | _ => [] end) cs.
Definition performs (cs : list (cmd M A)) : list (msg M A) :=
  flat_map (fun c => match c with PerformMsg m => [m] | _ => [] end) cs.
Lemma exec_all_is : forall p cs (s : sys M A), exists t,
  exec_all p cs s = Sys (page s) (self s ++ performs cs) t (wire s ++ reqs p cs) (back s) (srv s) (truth s)
                        (todo s) (heard s).
Proof.
  intros p. induction cs as [|c cs IH]; intros s.
  - exists (title s). cbn. rewrite !app_nil_r. destruct s; reflexivity.
  - unfold exec_all. cbn [fold_left]. fold (exec_all p cs (exec p c s)).
    destruct (IH (exec p c s)) as (t & ->). exists t.
    destruct c; cbn [exec page self wire back srv truth todo heard reqs performs flat_map app];
      fold (reqs p cs); fold (performs cs); rewrite <- ?app_assoc; reflexivity.
Qed.
Lemma hear_is : forall m (s : sys M A), exists t,
  hear m s = Sys (fst (gui_update m (page s))) (self s ++ performs (snd (gui_update m (page s)))) t
                 (wire s ++ reqs (page s) (snd (gui_update m (page s)))) (back s) (srv s) (truth s) (todo s)
                 (heard s ++ [(page s, m)]).
Proof.
  intros m s. unfold hear.
  match goal with |- context [exec_all ?p ?cs ?s'] => destruct (exec_all_is p cs s') as (t & ->) end.
  exists t. reflexivity.
Qed.
Lemma skip_server : forall (a b : str), skipn (List.length a) (a ++ b) = b.
Proof. induction a as [|x a IH]; intros b; [reflexivity|exact (IH b)]. Qed.
End Parts.
