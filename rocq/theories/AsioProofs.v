(** Proofs about the Boost.Asio event loop. *)
From Coq Require Import List Arith Bool Lia Permutation.
From Verif Require Import AsioModel AsioSpec.
Import ListNotations.

Ltac case_step H :=
  repeat match type of H with
         | None = Some _ => discriminate H
         | Some _ = Some _ => injection H as H
         | context [match ?x with _ => _ end] => destruct x eqn:?
         end.

Lemma steps_app c ls1 ls2 s s' :
  steps c (ls1 ++ ls2) s = Some s' <-> exists m, steps c ls1 s = Some m /\ steps c ls2 m = Some s'.
Proof.
  revert s; induction ls1 as [|l r IH]; intro s; cbn.
  - split; [eauto | intros (m & E & H); injection E as ->; exact H].
  - destruct (step c l s) as [x|]; [apply IH|].
    split; [discriminate | intros (m & E & _); discriminate E].
Qed.

(** An invariant of one step is an invariant. *)
Lemma reach_ind c (P : st -> Prop) :
  P init -> (forall l s s', reach c s -> P s -> step c l s = Some s' -> P s') ->
  forall s, reach c s -> P s.
Proof.
  intros P0 PS s [ls E]; revert s E.
  induction ls as [|l r IH] using rev_ind; intros s E.
  - injection E as <-; exact P0.
  - apply steps_app in E as (m & E1 & E2); cbn in E2.
    destruct (step c l m) as [x|] eqn:F; [|discriminate E2]; injection E2 as <-.
    apply (PS l m x); [exists r; exact E1 | exact (IH _ E1) | exact F].
Qed.

Lemma reach_step c l s s' : reach c s -> step c l s = Some s' -> reach c s'.
Proof.
  intros [ls E] F; exists (ls ++ [l]); apply steps_app; exists s; split; [exact E|].
  cbn; rewrite F; reflexivity.
Qed.

Lemma settle_same s :
  que (settle s) = que s /\ ready (settle s) = ready s /\ waiting (settle s) = waiting s /\
  locked (settle s) = locked s /\ sched (settle s) = sched s /\ ws (settle s) = ws s /\
  fns (settle s) = fns s /\ next (settle s) = next s /\ alive (settle s) = alive s /\
  vars (settle s) = vars s /\ other (settle s) = other s /\ fated (settle s) = fated s.
Proof. unfold settle; destruct (load s =? 0); repeat split. Qed.

Lemma settle_log s :
  posted (log (settle s)) = posted (log s) /\ begun (log (settle s)) = begun (log s) /\
  ended (log (settle s)) = ended (log s) /\ given (log (settle s)) = given (log s) /\
  called (log (settle s)) = called (log s) /\ back (log (settle s)) = back (log s) /\
  inside (log (settle s)) = inside (log s).
Proof. unfold settle; destruct (load s =? 0); repeat split. Qed.

Lemma settle_que s : que (settle s) = que s. Proof. apply settle_same. Qed.
Lemma settle_ready s : ready (settle s) = ready s. Proof. apply settle_same. Qed.
Lemma settle_waiting s : waiting (settle s) = waiting s. Proof. apply settle_same. Qed.
Lemma settle_locked s : locked (settle s) = locked s. Proof. apply settle_same. Qed.
Lemma settle_sched s : sched (settle s) = sched s. Proof. apply settle_same. Qed.
Lemma settle_ws s : ws (settle s) = ws s. Proof. apply settle_same. Qed.
Lemma settle_fns s : fns (settle s) = fns s. Proof. apply settle_same. Qed.
Lemma settle_next s : next (settle s) = next s. Proof. apply settle_same. Qed.
Lemma settle_posted s : posted (log (settle s)) = posted (log s). Proof. apply settle_log. Qed.
Lemma settle_begun s : begun (log (settle s)) = begun (log s). Proof. apply settle_log. Qed.
Lemma settle_ended s : ended (log (settle s)) = ended (log s). Proof. apply settle_log. Qed.
Lemma settle_given s : given (log (settle s)) = given (log s). Proof. apply settle_log. Qed.
Lemma settle_called s : called (log (settle s)) = called (log s). Proof. apply settle_log. Qed.
Lemma settle_back s : back (log (settle s)) = back (log s). Proof. apply settle_log. Qed.
Lemma settle_inside s : inside (log (settle s)) = inside (log s). Proof. apply settle_log. Qed.

Global Hint Rewrite settle_que settle_ready settle_waiting settle_locked settle_sched settle_ws settle_fns
  settle_next settle_posted settle_begun settle_ended settle_given settle_called settle_back
  settle_inside : settle.

(** Take a step apart. *)
Ltac unstep H :=
  unfold step, go, do_use, do_post, do_async, do_finish, enqueue, robbed, on_exit, set_worker in H;
  case_step H; subst;
  autorewrite with settle in *;
  cbn [que ready waiting locked sched ws fns other stopped alive vars next fated log
       set_queues set_ws set_fns set_other set_stopped set_alive set_vars bump set_fate note] in *;
  autorewrite with settle in *.

(** Queues: what was posted is what was called and what waits, in this order. *)
Definition pend (c : cfg) (s : st) : list item :=
  if strand c then ready s ++ waiting s else que s.

Definition queued (c : cfg) (s : st) : Prop :=
  posted (log s) = begun (log s) ++ map num (pend c s) /\
  (if strand c then que s = [] /\ (locked s = false -> ready s = [] /\ waiting s = [])
   else ready s = [] /\ waiting s = [] /\ sched s = false /\ locked s = false).

Lemma worker_in t s w : worker_of t s = Some w -> nth_error (ws s) t = Some (Some w).
Proof.
  unfold worker_of; destruct (nth_error (ws s) t) as [x|]; [intros ->; reflexivity | discriminate].
Qed.

Definition kind (c : cfg) (w : option worker) : Prop :=
  match w with
  | Some (Run _) => strand c = false
  | Some (Inv _) => strand c = true
  | _ => True
  end.

Lemma upd_split {A} t (l : list A) x :
  nth_error l t = Some x ->
  exists l1 l2, l = l1 ++ x :: l2 /\ length l1 = t /\ forall y, upd t y l = l1 ++ y :: l2.
Proof.
  revert t; induction l as [|a l IH]; intros [|t] E; try discriminate E.
  - injection E as ->; exists [], l; repeat split.
  - destruct (IH _ E) as (l1 & l2 & -> & L & U); exists (a :: l1), l2; cbn.
    rewrite <- L; repeat split. intro y; rewrite L, U; reflexivity.
Qed.

Definition invs (w : option worker) : nat := match w with Some (Inv _) => 1 | _ => 0 end.
Definition cur (w : option worker) : list nat :=
  match w with Some (Run h) | Some (Inv (Some h)) => [num h] | _ => [] end.
Definition here (w : option worker) : nat := match w with Some _ => 1 | None => 0 end.
Definition sum (f : option worker -> nat) (s : st) : nat := list_sum (map f (ws s)).

Record ok (c : cfg) (s : st) : Prop := {
  ok_queued : queued c s;
  ok_kind : Forall (kind c) (ws s);
  ok_lock : (if sched s then 1 else 0) + sum invs s = (if locked s then 1 else 0);
  ok_cur : Permutation (begun (log s)) (ended (log s) ++ flat_map cur (ws s));
  ok_inside : inside (log s) = sum here s }.

Lemma ok_init c : ok c init.
Proof.
  constructor; cbn; auto.
  split; cbn; unfold pend; destruct (strand c); cbn; auto.
Qed.

Ltac split_ws :=
  repeat match goal with
  | H : worker_of _ _ = Some _ |- _ => apply worker_in in H
  | H : nth_error (ws ?s) _ = Some _ |- _ =>
      let l1 := fresh "l1" in let l2 := fresh "l2" in let E := fresh "E" in let U := fresh "U" in
      destruct (upd_split _ _ _ H) as (l1 & l2 & E & ? & U);
      rewrite ?U in *; rewrite ?E in *; clear H U
  end.

Ltac sums :=
  unfold sum in *;
  repeat match goal with
         | H : context [list_sum (map _ (_ ++ _))] |- _ => rewrite map_app, list_sum_app in H
         | |- context [list_sum (map _ (_ ++ _))] => rewrite map_app, list_sum_app
         end;
  cbn [map list_sum fold_right invs here busy] in *.

Lemma kind_mid c l1 l2 x y :
  Forall (kind c) (l1 ++ x :: l2) -> kind c y -> Forall (kind c) (l1 ++ y :: l2).
Proof.
  intros H K; apply Forall_app in H as [A B]; inversion B; subst.
  apply Forall_app; split; auto.
Qed.

Lemma kind_at c l1 l2 x : Forall (kind c) (l1 ++ x :: l2) -> kind c x.
Proof. intro H; apply Forall_app in H as [_ B]; inversion B; auto. Qed.

Ltac simpl_log := cbn [log posted begun ended given called back inside] in *.

Ltac proj :=
  autorewrite with settle;
  cbn [que ready waiting locked sched ws fns other stopped alive vars next fated log
       set_queues set_ws set_fns set_other set_stopped set_alive set_vars bump set_fate note];
  simpl_log.

Ltac perm :=
  rewrite ?flat_map_app in *; cbn [flat_map cur] in *; rewrite ?app_nil_r, <- ?app_assoc in *;
  cbn [app] in *;
  first [ assumption
        | match goal with
          | H : Permutation ?b _ |- Permutation (?b ++ [?x]) _ =>
              rewrite <- Permutation_cons_append, H; rewrite !app_assoc;
              apply Permutation_middle
          end
        | match goal with
          | H : Permutation ?b _ |- Permutation ?b (?e ++ ?x :: ?r) =>
              rewrite H; apply Permutation_app_head; symmetry; apply Permutation_middle
          end ].

Ltac kinds :=
  first [ assumption
        | apply Forall_app; split; [assumption | constructor; [exact Logic.I | constructor]]
        | eapply kind_mid; [eassumption | cbn; first [exact Logic.I | assumption
            | match goal with H : Forall (kind _) _ |- _ => exact (kind_at _ _ _ _ H) end ]] ].

Ltac nums :=
  unfold sum in *; proj; sums;
  repeat match goal with
         | H : context [if ?b then 1 else 0] |- _ => destruct b
         | |- context [if ?b then 1 else 0] => destruct b
         end; lia.

Lemma ok_step c l s s' : ok c s -> step c l s = Some s' -> ok c s'.
Proof.
  intros [[Q1 Q2] K L C I] H.
  unfold pend, sum in *.
  unstep H; split_ws; constructor; unfold queued, pend, sum in *; proj; auto.
  all: try (match goal with |- Forall _ _ => kinds end).
  all: try (match goal with |- Permutation _ _ => perm end).
  all: try (match goal with |- _ = _ => nums end).
  all: repeat match goal with
       | K : Forall (kind _) (_ ++ Some (Run _) :: _) |- _ => pose proof (kind_at _ _ _ _ K); clear K
       | K : Forall (kind _) (_ ++ Some (Inv _) :: _) |- _ => pose proof (kind_at _ _ _ _ K); clear K
       end; cbn [kind] in *.
  all: repeat match goal with
       | H : strand ?c = _ |- _ => rewrite H in *; clear H
       | H : true = false |- _ => discriminate H
       end.
  all: rewrite ?map_app in *; cbn [map num] in *; rewrite ?app_nil_r, <- ?app_assoc in *.
  all: try (rewrite Q1; rewrite <- ?app_assoc; cbn [app]).
  all: try (intuition (auto; try discriminate); fail).
  - destruct Q2 as [Q2 Q3]; destruct (Q3 eq_refl) as [-> ->]; auto.
    repeat split; auto; discriminate.
Qed.

Theorem ok_reach c s : reach c s -> ok c s.
Proof. apply reach_ind; [apply ok_init | intros; eapply ok_step; eauto]. Qed.

(** Order. *)
Theorem in_order c s : reach c s -> exists r, posted (log s) = begun (log s) ++ r.
Proof. intro R; destruct (ok_queued _ _ (ok_reach _ _ R)) as [Q _]; eauto. Qed.

(** Numbers are new. *)
Definition numbered (s : st) : Prop :=
  NoDup (posted (log s)) /\ NoDup (given (log s)) /\
  (forall i, In i (posted (log s)) -> i < next s) /\ (forall i, In i (given (log s)) -> i < next s).

Lemma snoc_nodup (l : list nat) x : NoDup l -> ~ In x l -> NoDup (l ++ [x]).
Proof.
  intros N I; apply (Permutation_NoDup (l := x :: l)); [apply Permutation_cons_append|].
  constructor; assumption.
Qed.

Lemma fresh_snoc l n : NoDup l -> (forall i, In i l -> i < n) ->
  NoDup (l ++ [n]) /\ (forall i, In i (l ++ [n]) -> i < S n).
Proof.
  intros N F; split.
  - apply snoc_nodup; [exact N | intro I; specialize (F _ I); lia].
  - intros i I; apply in_app_iff in I as [I | [<- | []]]; [specialize (F _ I); lia | lia].
Qed.

Lemma numbered_step c l s s' : numbered s -> step c l s = Some s' -> numbered s'.
Proof.
  intros (A & B & P & G) H; unfold numbered.
  unstep H; proj; simpl_log; auto.
  all: try (destruct (fresh_snoc _ _ A P) as [A' P']).
  all: try (destruct (fresh_snoc _ _ B G) as [B' G']).
  all: repeat split; auto; intros i I; try (specialize (P i I)); try (specialize (G i I)); lia.
Qed.

Theorem numbered_reach c s : reach c s -> numbered s.
Proof.
  apply reach_ind; [|intros; eapply numbered_step; eauto].
  repeat split; try constructor; cbn; intros i [].
Qed.

Theorem once c s : reach c s -> NoDup (posted (log s)) /\ NoDup (begun (log s)).
Proof.
  intro R; destruct (numbered_reach _ _ R) as (A & _).
  destruct (in_order _ _ R) as [r E]; split; [exact A|].
  rewrite E in A; clear E; induction (begun (log s)) as [|x l IH]; [constructor|].
  inversion A; subst; constructor; [intro I; apply H1; apply in_app_iff; auto | auto].
Qed.
