(** Proofs for the SDL event loop. *)
From Coq Require Import List Arith Bool Lia.
From Verif Require Import SdlModel SdlSpec.
Import ListNotations.
Local Open Scope nat_scope.

(** * Steps and executions *)
Lemma acts_app ls1 : forall ls2 s,
  acts (ls1 ++ ls2) s = match acts ls1 s with Some s1 => acts ls2 s1 | None => None end.
Proof.
  induction ls1 as [|l r IH]; intros ls2 s; simpl; [reflexivity|].
  destruct (act l s); auto.
Qed.

(** An invariant of [act] is one of [acts]. *)
Lemma acts_inv (P : st -> Prop) :
  (forall l s s', P s -> act l s = Some s' -> P s') ->
  forall ls s s', P s -> acts ls s = Some s' -> P s'.
Proof.
  intros H ls; induction ls as [|l r IH]; simpl; intros s s' Hs E.
  - injection E as <-; exact Hs.
  - destruct (act l s) as [s1|] eqn:E1; [|discriminate]. eauto.
Qed.
(** The same, when only steps allowed by [A] are made. *)
Lemma acts_inv_when (A : label -> Prop) (P : st -> Prop) :
  (forall l s s', A l -> P s -> act l s = Some s' -> P s') ->
  forall ls s s', Forall A ls -> P s -> acts ls s = Some s' -> P s'.
Proof.
  intros H ls; induction ls as [|l r IH]; simpl; intros s s' F Hs E.
  - injection E as <-; exact Hs.
  - inversion F; subst. destruct (act l s) as [s1|] eqn:E1; [|discriminate]. eauto.
Qed.

(** Case distinction over a step. *)
Ltac step_cases E :=
  unfold act, go, ret, throw in E; simpl in E;
  repeat match type of E with
  | context [match ?x with _ => _ end] => destruct x eqn:?; try discriminate E
  end;
  try (injection E as <-); unfold set in *; simpl in *.

(** * The stack: all calls but the innermost one are in client code *)
Definition shape (s : st) : Prop :=
  match stack s with [] => True | _ :: r => Forall (fun f => in_body f = true) r end.
Lemma shape_step l s s' : shape s -> act l s = Some s' -> shape s'.
Proof.
  intros H E. destruct s as [q h d p k n g]. unfold shape in *. simpl in *.
  destruct l; step_cases E;
    repeat match goal with Hs : _ = ?x |- _ => is_var x; subst x end;
    subst; simpl in *; auto;
    repeat match goal with
    | H : Forall _ (_ :: _) |- _ => inversion H; clear H; subst
    | |- match ?x with _ => _ end => destruct x
    end; auto.
Qed.
Lemma shape_reach ls s : acts ls init = Some s -> shape s.
Proof. apply (acts_inv shape shape_step). exact I. Qed.

(** * Order *)
Definition pend (fs : list frame) : list entry :=
  match fs with Got id :: _ | HandCall id :: _ => [Ev id] | _ => [] end.
Definition ordered (s : st) : Prop :=
  entered (log s) = taken (log s) ++ que s /\ dealt (log s) ++ pend (stack s) = taken (log s).

Lemma pend_body fs : Forall (fun f => in_body f = true) fs -> pend fs = [].
Proof. destruct fs as [|f r]; auto. intros H; inversion H; subst. destruct f; auto; discriminate. Qed.

Lemma ordered_step l s s' : shape s -> ordered s -> act l s = Some s' -> ordered s'.
Proof.
  intros Sh [H1 H2] E. destruct s as [q h d p k n g]. unfold ordered, shape in *. simpl in *.
  destruct l; step_cases E; subst; simpl in *;
    try match goal with H : Forall _ ?r |- _ => pose proof (pend_body _ H) end;
    rewrite ?app_nil_r in *; split;
    try rewrite H1; try rewrite <- H2; rewrite <- ?app_assoc; simpl; rewrite ?app_nil_r;
    try reflexivity; try congruence;
    try match goal with H : pend _ = [] |- _ => rewrite H, app_nil_r; reflexivity end.
  destruct f; try discriminate; simpl; rewrite app_nil_r; reflexivity.
Qed.
Lemma ordered_reach ls s : acts ls init = Some s -> ordered s.
Proof.
  intros E. apply (acts_inv (fun s => shape s /\ ordered s)) with (ls := ls) (s := init); auto.
  - intros l x y [A B] C. split; [eapply shape_step | eapply ordered_step]; eauto.
  - repeat split.
Qed.

(** Numbers are given once. *)
Definition num (x : entry) : nat := match x with Fn id | Ev id => id end.
Definition numbered (s : st) : Prop :=
  NoDup (map num (entered (log s))) /\ Forall (fun x => num x < next s) (entered (log s)).
Lemma NoDup_snoc (l : list nat) x : NoDup l -> ~ In x l -> NoDup (l ++ [x]).
Proof.
  induction l as [|y l IH]; simpl; intros H N; constructor.
  - intros [].
  - constructor.
  - rewrite in_app_iff. simpl. inversion H; subst. intuition.
  - inversion H; subst. apply IH; auto.
Qed.
Lemma numbered_snoc l n x : NoDup (map num l) -> Forall (fun y => num y < n) l -> num x = n ->
  NoDup (map num (l ++ [x])) /\ Forall (fun y => num y < S n) (l ++ [x]).
Proof.
  intros H F E. split.
  - rewrite map_app. simpl. apply NoDup_snoc; auto. rewrite in_map_iff. intros [y [E1 I]].
    rewrite Forall_forall in F. specialize (F y I). lia.
  - apply Forall_app. split; [|constructor; [lia|constructor]].
    eapply Forall_impl; [|exact F]. simpl. intros; lia.
Qed.
Lemma numbered_step l s s' : numbered s -> act l s = Some s' -> numbered s'.
Proof.
  intros [H1 H2] E. destruct s as [q h d p k n g]. unfold numbered in *. simpl in *.
  destruct l; step_cases E; subst; simpl in *; auto;
    try (apply numbered_snoc; auto; fail).
  split; auto. eapply Forall_impl; [|exact H2]. simpl. intros; lia.
Qed.
Lemma numbered_reach ls s : acts ls init = Some s -> numbered s.
Proof. apply (acts_inv numbered numbered_step). repeat constructor. Qed.
Lemma NoDup_of_map {A B} (f : A -> B) l : NoDup (map f l) -> NoDup l.
Proof.
  induction l as [|x l IH]; simpl; intros H; constructor; inversion H; subst; auto.
  intros I. apply H2. now apply in_map.
Qed.

Lemma order ls s : acts ls init = Some s ->
  NoDup (entered (log s)) /\
  entered (log s) = taken (log s) ++ que s /\
  exists p, dealt (log s) ++ p = taken (log s) /\
    (p = [] \/ exists id f r, p = [Ev id] /\ stack s = f :: r /\ (f = Got id \/ f = HandCall id)).
Proof.
  intros E. destruct (ordered_reach _ _ E) as [H1 H2]. destruct (numbered_reach _ _ E) as [H3 _].
  split; [eapply NoDup_of_map; eauto|]. split; auto.
  exists (pend (stack s)). split; auto.
  destruct (stack s) as [|f r]; auto. destruct f; simpl; eauto 10.
Qed.

(** * Memory *)
Definition cnt (x : nat) (l : list nat) : nat := count_occ Nat.eq_dec l x.
Lemma cnt_app x l1 l2 : cnt x (l1 ++ l2) = cnt x l1 + cnt x l2.
Proof. apply count_occ_app. Qed.
Definition is (x y : nat) : nat := if Nat.eq_dec x y then 1 else 0.
Lemma cnt_cons x y l : cnt x (y :: l) = is y x + cnt x l.
Proof. unfold cnt, is. simpl. destruct (Nat.eq_dec y x); lia. Qed.
Lemma cnt_delete x y l : cnt x (delete y l) = if Nat.eq_dec y x then 0 else cnt x l.
Proof.
  unfold cnt, delete. induction l as [|z l IH]; simpl; [destruct (Nat.eq_dec y x); auto|].
  destruct (Nat.eq_dec y z) as [->|N]; simpl.
  - rewrite IH. destruct (Nat.eq_dec z x); auto.
  - rewrite IH. destruct (Nat.eq_dec z x) as [->|N2]; auto.
    destruct (Nat.eq_dec y x); auto; congruence.
Qed.
Lemma cnt_in x l : In x l <-> cnt x l > 0.
Proof. apply count_occ_In. Qed.
Lemma cnt_nodup l : (forall x, cnt x l <= 1) -> NoDup l.
Proof. apply NoDup_count_occ. Qed.

Fixpoint fns (q : list entry) : list nat :=
  match q with [] => [] | Fn id :: r => id :: fns r | Ev _ :: r => fns r end.
Fixpoint runids (fs : list frame) : list nat :=
  match fs with
  | [] => []
  | BodyP id :: r | BodyT id :: r => id :: runids r
  | _ :: r => runids r
  end.
Fixpoint refused (l : list event) : list nat :=
  match l with [] => [] | ERefuse id :: r => id :: refused r | _ :: r => refused r end.
Fixpoint leaked (l : list event) : list nat :=
  match l with [] => [] | EFail Plain id :: r => id :: leaked r | _ :: r => leaked r end.
Fixpoint ranids (l : list event) : list nat :=
  match l with [] => [] | ERun id :: r => id :: ranids r | _ :: r => ranids r end.

Definition mem (s : st) : Prop := forall x,
  cnt x (heap s) = cnt x (fns (que s)) + cnt x (runids (stack s)) + cnt x (refused (log s))
                   + cnt x (leaked (log s)) /\
  cnt x (heap s) + cnt x (freed (log s)) <= 1 /\
  (next s <= x -> cnt x (heap s) + cnt x (freed (log s)) = 0) /\
  cnt x (runids (stack s)) + cnt x (leaked (log s)) + cnt x (freed (log s)) <= cnt x (ranids (log s)).

Lemma fns_app q1 q2 : fns (q1 ++ q2) = fns q1 ++ fns q2.
Proof. induction q1 as [|[]]; simpl; congruence. Qed.

Lemma mem_step l s s' : mem s -> act l s = Some s' -> mem s'.
Proof.
  intros H E x. pose proof (H x) as Hx. destruct s as [q h d p k n g].
  cbn [heap que stack log next] in Hx. clear H.
  destruct l; step_cases E; subst; cbn [fns runids freed refused leaked ranids] in *;
    rewrite ?fns_app in *; cbn [fns] in *;
    rewrite ?cnt_app, ?cnt_delete, ?cnt_cons in *; unfold is in *;
    repeat match goal with |- context [Nat.eq_dec ?a ?b] => destruct (Nat.eq_dec a b) end;
    repeat match goal with H : context [Nat.eq_dec ?a ?b] |- _ => destruct (Nat.eq_dec a b) end;
    subst; try lia; change (cnt x []) with 0 in *; try lia.
Qed.

Lemma mem_reach ls s : acts ls init = Some s -> mem s.
Proof. apply (acts_inv mem mem_step). intros x. unfold init; simpl. lia. Qed.

Lemma in_fns q id : In id (fns q) <-> In (Fn id) q.
Proof.
  induction q as [|[i|i] q IH]; simpl; [tauto| |]; rewrite IH.
  - split; (intros [A|A]; [left; congruence|auto]).
  - split; auto. intros [A|A]; auto; discriminate.
Qed.
Definition fid (f : frame) : list nat := match f with BodyP id | BodyT id => [id] | _ => [] end.
Lemma runids_flat fs : runids fs = flat_map fid fs.
Proof. induction fs as [|f fs IH]; auto. destruct f; simpl; congruence. Qed.
Lemma fid_runs f id : In id (fid f) <-> runs f id.
Proof.
  unfold runs. destruct f; simpl; split; intros A; try tauto;
    try (destruct A as [A|A]; try discriminate; try tauto; injection A as ->; auto; fail).
  all: destruct A as [A|[]]; subst; auto.
Qed.
Lemma in_runids fs id : In id (runids fs) <-> exists f, In f fs /\ runs f id.
Proof.
  rewrite runids_flat, in_flat_map. split; intros (f & A & B); exists f; split; auto; apply fid_runs; auto.
Qed.
Lemma in_refused l id : In id (refused l) <-> In (ERefuse id) l.
Proof.
  induction l as [|e l IH]; simpl; [tauto|].
  destruct e; simpl; rewrite IH; (split; [intros A; try destruct A as [A|A]; auto; left; congruence
    |intros [A|A]; auto; try discriminate; left; congruence]).
Qed.
Lemma in_leaked l id : In id (leaked l) <-> In (EFail Plain id) l.
Proof.
  induction l as [|e l IH]; simpl; [tauto|].
  destruct e; simpl; try destruct m; simpl; rewrite IH; (split; [intros A; try destruct A as [A|A]; auto; left; congruence
    |intros [A|A]; auto; try discriminate; left; congruence]).
Qed.
Lemma in_ranids l id : In id (ranids l) <-> In (ERun id) l.
Proof.
  induction l as [|e l IH]; simpl; [tauto|].
  destruct e; simpl; rewrite IH; (split; [intros A; try destruct A as [A|A]; auto; left; congruence
    |intros [A|A]; auto; try discriminate; left; congruence]).
Qed.

Lemma memory ls s : acts ls init = Some s ->
  NoDup (heap s) /\ NoDup (freed (log s)) /\
  (forall id, In id (freed (log s)) -> ~ In id (heap s) /\ In (ERun id) (log s)) /\
  (forall id, In id (heap s) <->
     In (Fn id) (que s) \/ (exists f, In f (stack s) /\ runs f id) \/
     In (ERefuse id) (log s) \/ In (EFail Plain id) (log s)).
Proof.
  intros E. pose proof (mem_reach _ _ E) as H. unfold mem in H.
  split; [apply cnt_nodup; intros x; specialize (H x); lia|].
  split; [apply cnt_nodup; intros x; specialize (H x); lia|]. split.
  - intros id I. rewrite cnt_in in I. rewrite cnt_in, <- in_ranids, cnt_in.
    specialize (H id). lia.
  - intros id. rewrite <- in_fns, <- in_runids, <- in_refused, <- in_leaked, !cnt_in.
    specialize (H id). lia.
Qed.

(** * finish() *)
(** [run(handler)] only: after finish() at most one more entry is taken. *)
Definition waits (fs : list frame) : nat := match fs with WaitP :: _ => 1 | _ => 0 end.
Lemma waits_body fs : Forall (fun f => in_body f = true) fs -> waits fs = 0.
Proof. destruct fs as [|f r]; auto. intros H; inversion H; subst. destruct f; auto; discriminate. Qed.

Definition budget (n : nat) (s : st) : Prop :=
  shape s /\ done s = true /\ Forall (fun f => plain f = true) (stack s) /\
  length (taken (log s)) + waits (stack s) <= n.
Lemma budget_step n l s s' : l <> LRun Ticking -> budget n s -> act l s = Some s' -> budget n s'.
Proof.
  intros NL (Sh & D & P & B) E. split; [eapply shape_step; eauto|].
  destruct s as [q h d p k m g]. unfold shape in Sh. simpl in *. subst d.
  destruct l; step_cases E; subst; simpl in *; try congruence;
    repeat match goal with
    | H : Forall _ (_ :: _) |- _ => inversion H; clear H; subst
    end; simpl in *; try discriminate;
    try match goal with H : Forall (fun f => in_body f = true) _ |- _ => pose proof (waits_body _ H) end;
    rewrite ?app_length; simpl;
    try (split; [reflexivity|split; [auto|lia]]).
  all: destruct m0; [|congruence]; auto.
Qed.

Lemma finish_plain ls1 s1 ls2 s2 : acts ls1 init = Some s1 -> done s1 = true ->
  Forall (fun f => plain f = true) (stack s1) -> ~ In (LRun Ticking) ls2 -> acts ls2 s1 = Some s2 ->
  length (taken (log s2)) <= S (length (taken (log s1))).
Proof.
  intros E1 D P N E2.
  assert (B : budget (S (length (taken (log s1)))) s2).
  { apply (acts_inv_when (fun l => l <> LRun Ticking) (budget (S (length (taken (log s1))))))
      with (ls := ls2) (s := s1); auto.
    - apply budget_step.
    - apply Forall_forall. intros l I ->. auto.
    - split; [eapply shape_reach; eauto|]. split; auto. split; auto.
      destruct (stack s1) as [|[]]; simpl; lia. }
  destruct B as (_ & _ & _ & B). lia.
Qed.

(** After finish() every call of [run(handler, tick)] calls tick once more at most. *)
Definition pot (f : frame) : nat :=
  match f with Top _ _ | WaitP | BodyP _ | HandP _ | Tick => 0 | _ => 1 end.
Fixpoint pots (fs : list frame) : nat := match fs with [] => 0 | f :: r => pot f + pots r end.
Definition tbudget (n : nat) (s : st) : Prop :=
  done s = true /\ ticked (log s) + pots (stack s) <= n.
Lemma tbudget_step n l s s' : tbudget n s -> act l s = Some s' -> tbudget n s'.
Proof.
  intros (D & B) E. destruct s as [q h d p k m g]. unfold tbudget. simpl in *. subst d.
  destruct l; step_cases E; subst; simpl in *; try (split; [reflexivity|lia]);
    rewrite ?andb_false_r in *; try discriminate; split; auto; lia.
Qed.
Lemma pots_le fs : pots fs <= length fs.
Proof. induction fs as [|f fs IH]; simpl; auto. destruct f; simpl; lia. Qed.
Lemma finish_ticks s1 ls s2 : done s1 = true -> acts ls s1 = Some s2 ->
  ticked (log s2) <= ticked (log s1) + length (stack s1).
Proof.
  intros D E.
  assert (B : tbudget (ticked (log s1) + length (stack s1)) s2).
  { apply (acts_inv _ (tbudget_step _)) with (ls := ls) (s := s1); auto.
    split; auto. pose proof (pots_le (stack s1)). lia. }
  destruct B; lia.
Qed.

(** After finish(), unless paused, the loop returns. *)
Definition pos (f : frame) : nat :=
  match f with
  | Top _ _ => 1 | BodyP _ | HandP _ => 2 | Tick => 2 | TickCall => 3 | TickTest _ => 4
  | Again => 5 | Poll | WaitT | WaitP => 6 | Inner _ => 7
  | BodyT _ | HandT _ => 8 | HandCall _ => 9 | Got _ => 10
  end.
Lemma calm_step l s s' f r : calm l -> done s = true -> paused s = false -> stack s = f :: r ->
  act l s = Some s' ->
  done s' = true /\ paused s' = false /\
  (stack s' = r \/ exists f', stack s' = f' :: r /\
     owns [l] + (pos f' + 5 * length (que s')) <= pos f + 5 * (length (que s) + pushes [l])).
Proof.
  intros C D P K E. destruct s as [q h d p k n g]. simpl in D, P, K. subst d p k.
  destruct l; try destruct C; step_cases E; subst; simpl in *; rewrite ?app_length; simpl;
    try discriminate; split; auto; split; auto;
    try (right; eexists; split; [reflexivity|simpl; lia]); auto.
  all: rewrite ?andb_false_r in *; try discriminate.
  all: match goal with |- context [match ?m with Plain => _ | Ticking => _ end] => destruct m end;
    right; eexists; split; [reflexivity|simpl; lia].
Qed.
Lemma owns_cons l ls : owns (l :: ls) = owns [l] + owns ls.
Proof. destruct l; reflexivity. Qed.
Lemma pushes_cons l ls : pushes (l :: ls) = pushes [l] + pushes ls.
Proof. destruct l; reflexivity. Qed.
Lemma pos_le f : 1 <= pos f <= 10.
Proof. destruct f; simpl; lia. Qed.
Lemma finish_ends ls : forall s s' f r, Forall calm ls -> done s = true -> paused s = false ->
  stack s = f :: r -> acts ls s = Some s' ->
  pos f + 5 * (length (que s) + pushes ls) <= owns ls ->
  exists ls1 ls2 s1, ls = ls1 ++ ls2 /\ acts ls1 s = Some s1 /\ stack s1 = r.
Proof.
  induction ls as [|l ls IH]; intros s s' f r F D P K E L.
  - pose proof (pos_le f). simpl in L. lia.
  - inversion F; subst. simpl in E. destruct (act l s) as [s1|] eqn:E1; [|discriminate].
    destruct (calm_step _ _ _ _ _ H1 D P K E1) as (D1 & P1 & [K1|(f' & K1 & M)]).
    + exists [l], ls, s1. simpl. rewrite E1. auto.
    + rewrite owns_cons, pushes_cons in L.
      destruct (IH s1 s' f' r H2 D1 P1 K1 E ltac:(lia)) as (la & lb & s2 & -> & A & B).
      exists (l :: la), lb, s2. simpl. rewrite E1. auto.
Qed.
Lemma finish_returns ls s s' f r : Forall calm ls -> done s = true -> paused s = false ->
  stack s = f :: r -> acts ls s = Some s' -> 10 + 5 * (length (que s) + pushes ls) <= owns ls ->
  exists ls1 ls2 s1, ls = ls1 ++ ls2 /\ acts ls1 s = Some s1 /\ stack s1 = r.
Proof.
  intros F D P K E L. pose proof (pos_le f). apply (finish_ends ls s s' f r); auto. lia.
Qed.
(** The loop does not stop for another reason than waiting. *)
Lemma progress s f r : stack s = f :: r ->
  in_body f = true \/ ((f = WaitP \/ f = WaitT) /\ que s = []) \/ exists s', act LGo s = Some s'.
Proof.
  intros K. unfold act, go. rewrite K. destruct f; auto; right;
    try (right; eexists; reflexivity);
    repeat match goal with
    | |- context [match ?x with _ => _ end] => is_var x; destruct x
    | |- context [if ?x then _ else _] => destruct x
    end; try (right; eexists; reflexivity);
    destruct (que s) as [|[]]; auto; right; eexists; reflexivity.
Qed.

(** * Pauses *)
(** While paused, [run(handler, tick)] goes on whatever is posted or finished. *)
Definition kept (r : list frame) (s : st) : Prop :=
  shape s /\ paused s = true /\ exists g f, stack s = g ++ f :: r /\ looping f = true.
Lemma kept_step r l s s' : undisturbed l -> kept r s -> act l s = Some s' -> kept r s'.
Proof.
  intros U (Sh & P & g & f & K & L) E. split; [eapply shape_step; eauto|].
  destruct s as [q h d p k n lg]. unfold shape in Sh. simpl in *. subst p k.
  destruct g as [|x g].
  - simpl in *. destruct l; try destruct U; step_cases E; subst; simpl in *; try discriminate;
      (split; [reflexivity|]);
      first [ exists [], f; split; [reflexivity|assumption]
            | eexists [], _; split; [reflexivity|reflexivity]
            | eexists [_], f; split; [reflexivity|assumption]
            | idtac ].
  - assert (B : in_body f = true).
    { simpl in Sh. rewrite Forall_forall in Sh. apply Sh. apply in_elt. }
    simpl in *. destruct l; try destruct U; step_cases E; subst; simpl in *; try discriminate;
      (split; [reflexivity|]);
      first [ exists g, f; split; [reflexivity|assumption]
            | exists (x :: g), f; split; [reflexivity|assumption]
            | eexists (_ :: g), f; split; [reflexivity|assumption]
            | eexists (_ :: _ :: g), f; split; [reflexivity|assumption]
            | idtac ].
Qed.

Lemma paused_goes_on ls0 s ls s' f r : acts ls0 init = Some s ->
  paused s = true -> stack s = f :: r -> looping f = true ->
  Forall undisturbed ls -> acts ls s = Some s' ->
  exists g f', stack s' = g ++ f' :: r /\ looping f' = true.
Proof.
  intros E0 P K L U E.
  assert (H : kept r s').
  { apply (acts_inv_when undisturbed (kept r)) with (ls := ls) (s := s); auto.
    - apply kept_step.
    - split; [eapply shape_reach; eauto|]. split; auto. exists [], f. auto. }
  destruct H as (_ & _ & H). exact H.
Qed.

Lemma finish_paused : exists ls s, acts ls init = Some s /\ done s = true /\ length (stack s) = 1 /\
  forall ls' s', Forall undisturbed ls' -> acts ls' s = Some s' -> stack s' <> [].
Proof.
  exists [LRun Ticking; LPause; LGo; LGo; LGo; LFinish]. eexists.
  split; [reflexivity|]. split; [reflexivity|]. split; [reflexivity|]. intros ls' s' U E.
  destruct (paused_goes_on [LRun Ticking; LPause; LGo; LGo; LGo; LFinish] _ ls' s' WaitT []
    eq_refl eq_refl eq_refl eq_refl U E) as (g & f & K & _).
  rewrite K. destruct g; discriminate.
Qed.

(** While paused no handler and no tick is called, but for a call begun before. *)
Definition begun (fs : list frame) : nat :=
  match fs with HandCall _ :: _ | TickCall :: _ => 1 | _ => 0 end.
Lemma begun_body fs : Forall (fun f => in_body f = true) fs -> begun fs = 0.
Proof. destruct fs as [|f r]; auto. intros H; inversion H; subst. destruct f; auto; discriminate. Qed.
Definition silent (n : nat) (s : st) : Prop :=
  shape s /\ paused s = true /\ called (log s) + begun (stack s) <= n.
Lemma silent_step n l s s' : l <> LResume -> silent n s -> act l s = Some s' -> silent n s'.
Proof.
  intros NL (Sh & P & B) E. split; [eapply shape_step; eauto|].
  destruct s as [q h d p k m g]. unfold shape in Sh. simpl in *. subst p.
  destruct l; step_cases E; subst; simpl in *; try congruence;
    try match goal with H : Forall (fun f => in_body f = true) _ |- _ => pose proof (begun_body _ H) end;
    (split; [reflexivity|]); try lia.
Qed.
Lemma pause_silent ls0 s ls s' : acts ls0 init = Some s -> paused s = true ->
  ~ In LResume ls -> acts ls s = Some s' ->
  called (log s') <= called (log s) +
    match stack s with HandCall _ :: _ | TickCall :: _ => 1 | _ => 0 end.
Proof.
  intros E0 P N E.
  assert (B : silent (called (log s) + begun (stack s)) s').
  { apply (acts_inv_when (fun l => l <> LResume) (silent _)) with (ls := ls) (s := s); auto.
    - apply silent_step.
    - apply Forall_forall. intros l I ->. auto.
    - split; [eapply shape_reach; eauto|]. split; auto. }
  destruct B as (_ & _ & B). unfold begun in B. lia.
Qed.

(** Events are dropped only because of a pause. *)
Lemma swallow_paused l s s' id : act l s = Some s' ->
  In (ESwallow id) (log s') -> In (ESwallow id) (log s) \/ paused s = true.
Proof.
  intros E I. destruct s as [q h d p k n g]. simpl in *.
  destruct l; step_cases E; subst; simpl in *; auto;
    repeat match goal with H : _ \/ _ |- _ => destruct H; try discriminate end; auto.
Qed.
Definition awake (s : st) : Prop := paused s = false /\ forall id, ~ In (ESwallow id) (log s).
Lemma awake_step l s s' : l <> LPause -> awake s -> act l s = Some s' -> awake s'.
Proof.
  intros N (P & A) E. split.
  - destruct s as [q h d p k n g]. simpl in *. subst p. destruct l; step_cases E; auto; congruence.
  - intros id I. destruct (swallow_paused _ _ _ _ E I); [eapply A; eauto|congruence].
Qed.
Lemma never_paused ls s : acts ls init = Some s -> ~ In LPause ls -> forall id, ~ In (ESwallow id) (log s).
Proof.
  intros E N.
  assert (B : awake s).
  { apply (acts_inv_when (fun l => l <> LPause) awake) with (ls := ls) (s := init); auto.
    - apply awake_step.
    - apply Forall_forall. intros l I ->. auto.
    - split; auto. }
  apply B.
Qed.
