(** Proofs about the loop in the browser. *)
From Coq Require Import List Arith Bool Lia.
Import ListNotations.
From Verif Require Import WebModel WebSpec.

(** ** The log, newest first *)
Fixpoint cur (l : list event) : option code :=
  match l with
  | [] => None
  | e :: r => match begins e, ends e with
              | Some c, _ => Some c
              | None, Some _ => None
              | None, None => cur r
              end
  end.
Fixpoint opened (l : list event) : option nat :=
  match l with
  | [] => None
  | EFrame t :: _ => Some t
  | ETick _ _ :: _ => None
  | _ :: r => opened r
  end.
(** What had arrived when the last frame began *)
Fixpoint ar (l : list event) : list nat :=
  match l with
  | [] => []
  | EFrame _ :: r => arrived (rev r)
  | _ :: r => ar r
  end.
Fixpoint good (l : list event) : Prop :=
  match l with
  | [] => True
  | e :: r =>
      good r /\
      (forall c, begins e = Some c -> cur r = None) /\
      (forall c, ends e = Some c -> cur r = Some c) /\
      match e with
      | ETick now dt => exists t, opened r = Some t /\ dt = now - t /\ t <= now /\
                                  incl (ar r) (handled (rev r))
      | _ => True
      end
  end.

Definition code_at (p : place) : option code :=
  match p with Fn i => Some (CFn i) | Hand i => Some (CHand i) | Tick _ => Some CTick | _ => None end.
Definition in_frame (p : place) : bool :=
  match p with Poll | Hand _ | Polled => true | _ => false end.

Record inv (s : st) : Prop := {
  i_posted : posted (rev (log s)) = called (rev (log s)) ++ timers s;
  i_arrived : arrived (rev (log s)) = handled (rev (log s)) ++ que s;
  i_good : good (log s);
  i_cur : cur (log s) = code_at (at_ s);
  i_opened : opened (log s) = if in_frame (at_ s) then Some (last_ticks s) else None;
  i_clock : last_ticks s <= clock s /\ forall t, at_ s = Tick t -> t <= clock s;
  i_polled : at_ s = Polled -> incl (ar (log s)) (handled (rev (log s)))
}.

Lemma init_inv : inv init.
Proof. constructor; cbn; auto; try discriminate. split; [auto|discriminate]. Qed.

Lemma posted_app a b : posted (a ++ b) = posted a ++ posted b.
Proof. apply flat_map_app. Qed.
Lemma called_app a b : called (a ++ b) = called a ++ called b.
Proof. apply flat_map_app. Qed.
Lemma arrived_app a b : arrived (a ++ b) = arrived a ++ arrived b.
Proof. apply flat_map_app. Qed.
Lemma handled_app a b : handled (a ++ b) = handled a ++ handled b.
Proof. apply flat_map_app. Qed.

Lemma ar_incl l : incl (ar l) (arrived (rev l)).
Proof.
  induction l as [|e r IH]; [intros x []|].
  assert (incl (arrived (rev r)) (arrived (rev (e :: r)))) as S.
  { cbn. rewrite arrived_app. apply incl_appl, incl_refl. }
  destruct e; cbn [ar]; try exact (incl_tran IH S). exact S.
Qed.

Ltac logs := unfold go_to; cbn [log rev app]; rewrite ?posted_app, ?called_app, ?arrived_app, ?handled_app; cbn;
  rewrite ?app_nil_r.

Lemma step_inv s l s' : inv s -> step s l = Next s' -> inv s'.
Proof.
  intros [IP IA IG IC IO (IT & IT2) IPO] E. unfold step in E. destruct l as [| | | |inf|d| |ms| | | |b].
  - destruct (client (at_ s) && there s); [|discriminate]. injection E as <-. constructor; logs.
    + rewrite IP, <- app_assoc. reflexivity.
    + exact IA.
    + split; [exact IG|]. repeat split; discriminate.
    + exact IC.
    + exact IO.
    + auto.
    + intros X. specialize (IPO X). exact IPO.
  - destruct (client (at_ s) && there s); [|discriminate]. injection E as <-. constructor; auto.
  - destruct (client (at_ s) && there s); [|discriminate]. injection E as <-. constructor; auto.
  - destruct (client (at_ s) && there s); [|discriminate]. injection E as <-. constructor; auto.
  - destruct (at_ s) eqn:A; try discriminate. destruct (looping s); [discriminate|].
    injection E as <-. constructor; cbn; auto; destruct inf; auto; try discriminate;
      (split; [exact IT|discriminate]).
  - destruct (at_ s) eqn:A; try discriminate. injection E as <-.
    constructor; cbn; auto. + split; [exact IT|discriminate]. + discriminate.
  - injection E as <-. constructor; logs.
    + exact IP.
    + rewrite IA, <- app_assoc. reflexivity.
    + split; [exact IG|]. repeat split; discriminate.
    + exact IC.
    + exact IO.
    + auto.
    + intros X. exact (IPO X).
  - injection E as <-. constructor; cbn; auto. split; [lia|]. intros t X. specialize (IT2 t X). lia.
  - destruct (at_ s) eqn:A; try discriminate. destruct (timers s) as [|i r] eqn:T; [discriminate|].
    injection E as <-. constructor; logs.
    + rewrite IP, <- app_assoc. reflexivity.
    + exact IA.
    + split; [exact IG|]. split; [intros c X; exact IC|]. split; [discriminate|exact I].
    + reflexivity.
    + exact IO.
    + split; [exact IT|discriminate].
    + discriminate.
  - destruct (at_ s) eqn:A; try discriminate. destruct (looping s); [|discriminate].
    destruct (there s); [|discriminate]. injection E as <-. constructor; logs.
    + exact IP.
    + exact IA.
    + split; [exact IG|]. repeat split; discriminate.
    + exact IC.
    + reflexivity.
    + split; [lia|discriminate].
    + discriminate.
  - destruct (at_ s) eqn:A; try discriminate.
    + destruct (que s) as [|i r] eqn:Q; injection E as <-.
      * constructor; cbn; auto.
        { rewrite Q. exact IA. } { split; [exact IT|discriminate]. }
        intros _. change (incl (ar (log s)) (handled (rev (log s)))). rewrite app_nil_r in IA. rewrite <- IA. apply ar_incl.
      * constructor; logs.
        -- exact IP.
        -- rewrite IA, <- app_assoc. reflexivity.
        -- split; [exact IG|]. split; [intros c X; exact IC|]. split; [discriminate|exact I].
        -- reflexivity.
        -- exact IO.
        -- split; [exact IT|discriminate].
        -- discriminate.
    + injection E as <-. constructor; logs.
      * exact IP.
      * exact IA.
      * split; [exact IG|]. split; [intros c X; exact IC|]. split; [discriminate|].
        exists (last_ticks s). split; [exact IO|]. split; [reflexivity|]. split; [exact IT|auto].
      * reflexivity.
      * reflexivity.
      * split; [exact IT|]. intros t X. injection X as <-. lia.
      * discriminate.
  - destruct (at_ s) eqn:A; try discriminate; injection E as <-; constructor; logs;
      try assumption; try reflexivity; try discriminate.
    + split; [exact IG|]. split; [discriminate|]. split; [|exact I].
      intros c X. injection X as <-. exact IC.
    + split; [exact IT|discriminate].
    + split; [exact IG|]. split; [discriminate|]. split; [|exact I].
      intros c X. injection X as <-. exact IC.
    + split; [exact IT|discriminate].
    + split; [exact IG|]. split; [discriminate|]. split; [|exact I].
      intros c X. injection X as <-. exact IC.
    + split; [apply IT2; reflexivity|discriminate].
Qed.

Lemma run_inv ls : forall s s', inv s -> run ls s = Next s' -> inv s'.
Proof.
  induction ls as [|l r IH]; intros s s' I E; cbn in E; [congruence|].
  destruct (step s l) as [s1| |] eqn:E1; try discriminate. exact (IH _ _ (step_inv _ _ _ I E1) E).
Qed.
Lemma reached ls s : run ls init = Next s -> inv s.
Proof. exact (run_inv ls init s init_inv). Qed.

(** ** From the log to the specification *)
Lemma good_app a : forall b, good (a ++ b) -> good b.
Proof. induction a as [|e a IH]; intros b G; [exact G|]. apply IH. exact (proj1 G). Qed.

Lemma rev_split {A} (h l : list A) : h = rev l -> l = rev h.
Proof. intros ->. symmetry. apply rev_involutive. Qed.

Lemma cur_since x a cx : begins x = Some cx -> forall b, good (b ++ x :: a) ->
  (exists e, In e b /\ ends e = Some cx) \/ cur (b ++ x :: a) = Some cx.
Proof.
  intro B. induction b as [|e b IH]; intro G.
  - right. cbn. rewrite B. reflexivity.
  - cbn [app good] in G. destruct G as (G & GB & GE & _).
    destruct (IH G) as [(y & I & Y) | C]; [left; exists y; split; [right; exact I|exact Y]|].
    cbn. destruct (begins e) as [c|] eqn:BE.
    + rewrite (GB _ eq_refl) in C. discriminate.
    + destruct (ends e) as [c|] eqn:EE.
      * rewrite (GE _ eq_refl) in C. injection C as ->. left. exists e. split; [left; reflexivity|exact EE].
      * right. exact C.
Qed.

Lemma good_alone l : good l -> alone (rev l).
Proof.
  intros G a x b y c cx cy E BX BY. apply (f_equal (@rev event)) in E.
  rewrite rev_involutive in E. rewrite rev_app_distr in E. cbn in E.
  rewrite rev_app_distr in E. cbn in E. rewrite <- !app_assoc in E. cbn in E.
  rewrite E in G. apply good_app in G. cbn [good] in G. destruct G as (G & GB & _).
  destruct (cur_since x (rev a) cx BX (rev b) G) as [(e & I & X) | C].
  - exists e. split; [apply in_rev; exact I|exact X].
  - rewrite (GB _ BY) in C. discriminate.
Qed.

Lemma opened_some l t : opened l = Some t -> exists c a, l = c ++ EFrame t :: a /\
  forall e, In e c -> (forall t', e <> EFrame t') /\ (forall n d, e <> ETick n d).
Proof.
  induction l as [|e r IH]; [discriminate|]. intro O.
  assert ((exists t', e = EFrame t') \/ opened r = Some t /\
          (forall t', e <> EFrame t') /\ (forall n d, e <> ETick n d)) as [(t' & ->) | (O' & N)].
  { destruct e; try discriminate; try (right; split; [exact O|split; discriminate]).
    left. eexists. reflexivity. }
  - injection O as ->. exists [], r. split; [reflexivity|]. intros e [].
  - destruct (IH O') as (c & a & -> & NC). exists (e :: c), a. split; [reflexivity|].
    intros x [<- | I]; [exact N|exact (NC x I)].
Qed.

Lemma good_framed l : good l -> framed (rev l).
Proof.
  intros G a now dt b E. apply (f_equal (@rev event)) in E.
  rewrite rev_involutive, rev_app_distr in E. cbn in E. rewrite <- app_assoc in E. cbn in E.
  rewrite E in G. apply good_app in G. cbn [good] in G.
  destruct G as (_ & _ & _ & t & O & _). destruct (opened_some _ _ O) as (c & a' & R & N).
  apply (f_equal (@rev event)) in R. rewrite rev_involutive, rev_app_distr in R. cbn in R.
  rewrite <- app_assoc in R. exists (rev a'), t, (rev c). split; [exact R|].
  intros e I. apply N, in_rev. exact I.
Qed.

Lemma opened_past b t a t' : opened (b ++ EFrame t :: a) = Some t' ->
  (forall x, ~ In (EFrame x) b) -> t' = t.
Proof.
  induction b as [|e b IH]; intros O N; [cbn in O; congruence|].
  assert (forall x, ~ In (EFrame x) b) as N' by (intros x I; apply (N x); right; exact I).
  destruct e; try discriminate; try (apply IH; [exact O|exact N']).
  destruct (N now). left. reflexivity.
Qed.

Lemma good_within l : good l -> within (rev l).
Proof.
  intros G a t b now dt c E N. apply (f_equal (@rev event)) in E.
  rewrite rev_involutive, rev_app_distr in E. cbn in E. rewrite rev_app_distr in E. cbn in E.
  rewrite <- !app_assoc in E. cbn in E. rewrite E in G. apply good_app in G. cbn [good] in G.
  destruct G as (_ & _ & _ & t' & O & -> & LE & _).
  assert (t' = t) as ->; [|auto]. apply (opened_past _ _ _ _ O).
  intros x I. apply in_rev in I. exact (N x I).
Qed.

Lemma ar_past b t a : (forall x, ~ In (EFrame x) b) ->
  ar (b ++ EFrame t :: a) = arrived (rev a).
Proof.
  induction b as [|e b IH]; intro N; [reflexivity|].
  assert (forall x, ~ In (EFrame x) b) as N' by (intros x I; apply (N x); right; exact I).
  destruct e; try exact (IH N'). destruct (N now). left. reflexivity.
Qed.

Lemma good_complete l : good l -> forall h r, rev l = h ++ r -> complete h.
Proof.
  intros G h r H a t c now dt E N. subst h. apply (f_equal (@rev event)) in H.
  rewrite rev_involutive, rev_app_distr, rev_app_distr in H. cbn in H.
  rewrite rev_app_distr in H. cbn in H. rewrite <- !app_assoc in H. cbn in H.
  rewrite H in G. apply good_app in G. cbn [good] in G. destruct G as (_ & _ & _ & t' & _ & _ & _ & X).
  rewrite ar_past, rev_involutive in X by (intros x I; apply in_rev in I; exact (N x I)).
  rewrite rev_app_distr in X. cbn in X. rewrite !rev_involutive, <- app_assoc in X.
  rewrite !handled_app in *. exact X.
Qed.

(** ** Flags and results *)
Definition strip (s : st) : st := flags false false s.

Lemma strip_step s l s' : step s l = Next s' ->
  match plain l with
  | [] => strip s' = strip s
  | l' :: _ => step (strip s) l' = Next (strip s')
  end.
Proof.
  intro E. unfold step in E.
  destruct l as [| | | |inf|d| |ms| | | |b]; cbn [plain]; unfold step, strip;
    cbn [flags at_ there timers que clock last_ticks looping next log done paused].
  - destruct (client (at_ s) && there s); [|discriminate]. injection E as <-. reflexivity.
  - destruct (client (at_ s) && there s); [|discriminate]. injection E as <-. reflexivity.
  - destruct (client (at_ s) && there s); [|discriminate]. injection E as <-. reflexivity.
  - destruct (client (at_ s) && there s); [|discriminate]. injection E as <-. reflexivity.
  - destruct (at_ s); try discriminate. destruct (looping s); [discriminate|].
    injection E as <-. reflexivity.
  - destruct (at_ s); try discriminate. injection E as <-. reflexivity.
  - injection E as <-. reflexivity.
  - injection E as <-. reflexivity.
  - destruct (at_ s); try discriminate. destruct (timers s); [discriminate|].
    injection E as <-. reflexivity.
  - destruct (at_ s); try discriminate. destruct (looping s); [|discriminate].
    destruct (there s); [|discriminate]. injection E as <-. reflexivity.
  - destruct (at_ s); try discriminate; [destruct (que s)|]; injection E as <-; reflexivity.
  - destruct (at_ s); try discriminate; injection E as <-; reflexivity.
Qed.

Lemma plain_cases l : plain l = [] \/ exists l', plain l = [l'].
Proof. destruct l; cbn; eauto. Qed.

Lemma strip_run ls : forall s s', run ls s = Next s' ->
  run (flat_map plain ls) (strip s) = Next (strip s').
Proof.
  induction ls as [|l r IH]; intros s s' E; cbn in E; [injection E as <-; reflexivity|].
  destruct (step s l) as [s1| |] eqn:E1; try discriminate. pose proof (strip_step _ _ _ E1) as X.
  specialize (IH _ _ E). cbn [flat_map]. destruct (plain_cases l) as [P | (l' & P)]; rewrite P in *.
  - cbn. rewrite <- X. exact IH.
  - cbn. rewrite X. exact IH.
Qed.

Lemma ignored ls s : run ls init = Next s ->
  exists s', run (flat_map plain ls) init = Next s' /\ log s' = log s /\ at_ s' = at_ s.
Proof. intro E. exists (strip s). split; [exact (strip_run _ _ _ E)|]. split; reflexivity. Qed.

(** ** The loop goes on for ever; it is there if run does not return *)
Record forever (s : st) : Prop := {
  f_main : at_ s = Main -> looping s = false /\ there s = true;
  f_there : looping s = true -> there s = true
}.

Lemma forever_step s l s' : forever s -> l <> LRun false -> step s l = Next s' -> forever s'.
Proof.
  intros [FM FT] N E. unfold step in E. destruct l as [| | | |inf|d| |ms| | | |b].
  - destruct (client (at_ s) && there s); [|discriminate]. injection E as <-. constructor; auto.
  - destruct (client (at_ s) && there s); [|discriminate]. injection E as <-. constructor; auto.
  - destruct (client (at_ s) && there s); [|discriminate]. injection E as <-. constructor; auto.
  - destruct (client (at_ s) && there s); [|discriminate]. injection E as <-. constructor; auto.
  - destruct (at_ s) eqn:A; try discriminate. destruct (looping s) eqn:L; [discriminate|].
    destruct inf; [|destruct N; reflexivity].
    injection E as <-. constructor; cbn; [discriminate|]. intros _. apply FM. reflexivity.
  - destruct (at_ s) eqn:A; try discriminate. injection E as <-. constructor; cbn; [discriminate|].
    destruct (FM eq_refl) as (L & _). rewrite L. discriminate.
  - injection E as <-. constructor; auto.
  - injection E as <-. constructor; auto.
  - destruct (at_ s); try discriminate. destruct (timers s); [discriminate|].
    injection E as <-. constructor; cbn; [discriminate|auto].
  - destruct (at_ s); try discriminate. destruct (looping s); [|discriminate].
    destruct (there s); [|discriminate]. injection E as <-. constructor; cbn; [discriminate|auto].
  - destruct (at_ s); try discriminate; [destruct (que s)|]; injection E as <-;
      constructor; cbn; try discriminate; auto.
  - destruct (at_ s); try discriminate; injection E as <-; constructor; cbn; try discriminate; auto.
Qed.

Lemma forever_run ls : forall s, forever s -> ~ In (LRun false) ls -> run ls s <> Undefined.
Proof.
  induction ls as [|l r IH]; intros s F N E; cbn in E; [discriminate|].
  assert (l <> LRun false) as NL by (intro X; apply N; left; exact X).
  assert (~ In (LRun false) r) as NR by (intro X; apply N; right; exact X).
  destruct (step s l) as [s1| |] eqn:E1; [| |discriminate].
  - exact (IH _ (forever_step _ _ _ F NL E1) NR E).
  - clear E IH. unfold step in E1. destruct l.
    1-9, 11-12: try discriminate; repeat match goal with
      | H : context [match ?x with _ => _ end] |- _ => destruct x; try discriminate
      end.
    destruct (at_ s); try discriminate. destruct (looping s) eqn:L; [|discriminate].
    rewrite (f_there _ F L) in E1. discriminate.
Qed.

Lemma valid ls : ~ In (LRun false) ls -> run ls init <> Undefined.
Proof.
  apply forever_run. constructor; cbn; auto.
Qed.

Lemma run_app a : forall b s, run (a ++ b) s =
  match run a s with Next s' => run b s' | x => x end.
Proof.
  induction a as [|l r IH]; intros b s; cbn; [reflexivity|].
  destruct (step s l); [apply IH|reflexivity|reflexivity].
Qed.

(** A frame comes to its end. *)
Lemma polls q : forall s, que s = q -> at_ s = Poll ->
  exists ls s', Forall own ls /\ run ls s = Next s' /\ at_ s' = Idle /\ que s' = [] /\
    timers s' = timers s /\ handled (rev (log s')) = handled (rev (log s)) ++ q.
Proof.
  induction q as [|i q IH]; intros s Q A.
  - exists [LGo; LGo; LRet true]. cbn [run]. unfold step at 1. rewrite A, Q.
    eexists. split; [repeat constructor|]. split; [cbn; reflexivity|]. split; [reflexivity|].
    split; [exact Q|]. split; [reflexivity|]. logs. reflexivity.
  - assert (exists s1, run [LGo; LRet true] s = Next s1 /\ que s1 = q /\ at_ s1 = Poll /\
      timers s1 = timers s /\ handled (rev (log s1)) = handled (rev (log s)) ++ [i])
      as (s1 & E1 & Q1 & A1 & T1 & H1).
    { cbn [run]. unfold step at 1. rewrite A, Q. eexists. split; [cbn; reflexivity|].
      split; [reflexivity|]. split; [reflexivity|]. split; [reflexivity|]. logs. reflexivity. }
    destruct (IH s1 Q1 A1) as (ls & s2 & O & E2 & A2 & Q2 & T2 & H2).
    exists ([LGo; LRet true] ++ ls), s2. split; [repeat constructor; exact O|].
    split; [rewrite run_app, E1; exact E2|]. split; [exact A2|]. split; [exact Q2|].
    split; [congruence|]. rewrite H2, H1, <- app_assoc. reflexivity.
Qed.

Lemma frame s : at_ s = Idle -> looping s = true -> there s = true ->
  exists ls s', Forall own ls /\ run (LFrame :: ls) s = Next s' /\ at_ s' = Idle /\ que s' = [] /\
    timers s' = timers s /\ handled (rev (log s')) = handled (rev (log s)) ++ que s.
Proof.
  intros A L T. set (s1 := St (timers s) (que s) (clock s) (clock s) true true (done s) (paused s)
                             Poll (next s) (EFrame (clock s) :: log s)).
  assert (step s LFrame = Next s1) as E by (unfold step; rewrite A, L, T; reflexivity).
  destruct (polls (que s) s1 eq_refl eq_refl) as (ls & s2 & O & E2 & A2 & Q2 & T2 & H2).
  exists ls, s2. split; [exact O|]. cbn [run]. rewrite E. split; [exact E2|]. split; [exact A2|].
  split; [exact Q2|]. split; [exact T2|]. rewrite H2. unfold s1. logs. reflexivity.
Qed.

(** ** Numbers are given once. *)
Record fresh (s : st) : Prop := {
  n_posted : Forall (fun i => i < next s) (posted (rev (log s))) /\ NoDup (posted (rev (log s)));
  n_arrived : Forall (fun i => i < next s) (arrived (rev (log s))) /\ NoDup (arrived (rev (log s)))
}.

Lemma nodup_snoc (l : list nat) n : Forall (fun i => i < n) l -> NoDup l ->
  Forall (fun i => i < S n) (l ++ [n]) /\ NoDup (l ++ [n]).
Proof.
  intros F N. split.
  - apply Forall_app. split; [|constructor; [lia|constructor]].
    eapply Forall_impl; [|exact F]. intros a X. cbn in X. lia.
  - apply (NoDup_Add (a := n) (l := l)).
    + pose proof (Add_app n l []) as X. rewrite app_nil_r in X. exact X.
    + split; [exact N|]. intro I. rewrite Forall_forall in F. specialize (F _ I). cbn in F. lia.
Qed.
Lemma weaken (l : list nat) n : Forall (fun i => i < n) l -> Forall (fun i => i < S n) l.
Proof. apply Forall_impl. intros a X. lia. Qed.

Lemma fresh_step s l s' : fresh s -> step s l = Next s' -> fresh s'.
Proof.
  intros [(P1 & P2) (A1 & A2)] E. unfold step in E. destruct l as [| | | |inf|d| |ms| | | |b].
  - destruct (client (at_ s) && there s); [|discriminate]. injection E as <-. constructor; logs.
    + exact (nodup_snoc _ _ P1 P2). + split; [apply weaken; exact A1|exact A2].
  - destruct (client (at_ s) && there s); [|discriminate]. injection E as <-. constructor; auto.
  - destruct (client (at_ s) && there s); [|discriminate]. injection E as <-. constructor; auto.
  - destruct (client (at_ s) && there s); [|discriminate]. injection E as <-. constructor; auto.
  - destruct (at_ s); try discriminate. destruct (looping s); [discriminate|].
    injection E as <-. constructor; auto.
  - destruct (at_ s); try discriminate. injection E as <-. constructor; auto.
  - injection E as <-. constructor; logs.
    + split; [apply weaken; exact P1|exact P2]. + exact (nodup_snoc _ _ A1 A2).
  - injection E as <-. constructor; auto.
  - destruct (at_ s); try discriminate. destruct (timers s); [discriminate|].
    injection E as <-. constructor; logs; auto.
  - destruct (at_ s); try discriminate. destruct (looping s); [|discriminate].
    destruct (there s); [|discriminate]. injection E as <-. constructor; logs; auto.
  - destruct (at_ s); try discriminate; [destruct (que s)|]; injection E as <-;
      constructor; logs; auto.
  - destruct (at_ s); try discriminate; injection E as <-; constructor; logs; auto.
Qed.

Lemma fresh_run ls : forall s s', fresh s -> run ls s = Next s' -> fresh s'.
Proof.
  induction ls as [|l r IH]; intros s s' I E; cbn in E; [congruence|].
  destruct (step s l) as [s1| |] eqn:E1; try discriminate. exact (IH _ _ (fresh_step _ _ _ I E1) E).
Qed.
Lemma fresh_reached ls s : run ls init = Next s -> fresh s.
Proof.
  apply fresh_run. constructor; cbn; (split; constructor).
Qed.

Lemma posts ls s : run ls init = Next s ->
  posted (rev (log s)) = called (rev (log s)) ++ timers s /\ NoDup (posted (rev (log s))).
Proof. intro E. split; [exact (i_posted _ (reached _ _ E))|exact (proj2 (n_posted _ (fresh_reached _ _ E)))]. Qed.
Lemma events ls s : run ls init = Next s ->
  arrived (rev (log s)) = handled (rev (log s)) ++ que s /\ NoDup (arrived (rev (log s))).
Proof. intro E. split; [exact (i_arrived _ (reached _ _ E))|exact (proj2 (n_arrived _ (fresh_reached _ _ E)))]. Qed.
