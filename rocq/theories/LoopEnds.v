(** The manual loop and the queue loop come to an end: proofs. *)
From Coq Require Import List Arith Bool Lia.
From Verif Require Import LoopModel LoopSpec.
Import ListNotations.

Section Ends.
Context {J W : Type}.
Variable code : J -> prog J W.
Variable manual : bool.
Notation exec := (exec code manual).

(** ** More fuel *)
Lemma manual_cases : manual = true \/ manual = false.
Proof. destruct manual; [left|right]; reflexivity. Qed.
Lemma post_manual : manual = true -> forall f j s, exec (S f) (TPost j) s =
  if idx s =? 0 then
    match exec f TLoop (do_push j s) with
    | Done s2 => Done (St [] 0 (next s2) (world s2) (log s2))
    | Thrown s2 => Thrown (St (erase (idx s2) (q s2)) 0 (next s2) (world s2) (log s2))
    | r => r
    end
  else Done (do_push j s).
Proof. intros M f j s. cbn [LoopModel.exec]. rewrite M. reflexivity. Qed.
Lemma post_queue : manual = false -> forall f j s, exec (S f) (TPost j) s = Done (do_push j s).
Proof. intros M f j s. cbn [LoopModel.exec]. rewrite M. reflexivity. Qed.
Lemma pstep_manual : manual = true -> forall f k s, exec (S f) (TProg (PStep k)) s = NoSuch.
Proof. intros M f j s. cbn [LoopModel.exec]. rewrite M. reflexivity. Qed.
Lemma pstep_queue : manual = false -> forall f k s, exec (S f) (TProg (PStep k)) s =
  andthen (exec f (TStep 0) s) (fun s' => exec f (TProg k) (St [] (idx s') (next s') (world s') (log s'))).
Proof. intros M f j s. cbn [LoopModel.exec]. rewrite M. reflexivity. Qed.
Lemma exec_ext : forall f g, (forall t s, exec f t s <> OutOfFuel -> exec g t s = exec f t s) ->
  forall t s, exec (S f) t s <> OutOfFuel -> exec (S g) t s = exec (S f) t s.
Proof.
  intros f g K t s H. destruct t as [p|j| |i].
  - destruct p as [| |j k|k|k|w k|p k].
    + reflexivity.
    + reflexivity.
    + cbn [LoopModel.exec] in H |- *.
      destruct (exec f (TPost j) s) eqn:E; try (exfalso; apply H; reflexivity); rewrite (K (TPost j) s), E by congruence; cbn [andthen] in *; try reflexivity.
      apply K, H.
    + destruct manual_cases as [M|M]; [rewrite !(pstep_manual M); reflexivity|].
      rewrite (pstep_queue M) in H. rewrite !(pstep_queue M).
      destruct (exec f (TStep 0) s) eqn:E; try (exfalso; apply H; reflexivity); rewrite (K (TStep 0) s), E by congruence; cbn [andthen] in *; try reflexivity.
      apply K, H.
    + apply K, H.
    + apply K, H.
    + cbn [LoopModel.exec] in H |- *.
      destruct (exec f (TProg p) s) eqn:E; try (exfalso; apply H; reflexivity); rewrite (K (TProg p) s), E by congruence; try reflexivity; apply K, H.
  - destruct manual_cases as [M|M]; [|rewrite !(post_queue M); reflexivity].
    rewrite (post_manual M) in H. rewrite !(post_manual M). destruct (_ =? 0); [|reflexivity].
    destruct (exec f TLoop (do_push j s)) eqn:E; try (exfalso; apply H; reflexivity); rewrite (K TLoop), E by congruence; reflexivity.
  - cbn [LoopModel.exec] in H |- *. destruct (_ <? _); [|reflexivity]. destruct (nth_error _ _) as [[id [j|]]|]; try reflexivity.
    match goal with |- context [LoopModel.exec _ _ g (TProg (code j)) ?x] => set (s1 := x) in * end.
    destruct (exec f (TProg (code j)) s1) eqn:E; try (exfalso; apply H; reflexivity); rewrite (K (TProg (code j)) s1), E by congruence; try reflexivity.
    apply K, H.
  - cbn [LoopModel.exec] in H |- *. destruct (_ <? _); [|reflexivity]. destruct (nth_error _ _) as [[id [j|]]|]; try reflexivity.
    match goal with |- context [LoopModel.exec _ _ g (TProg (code j)) ?x] => set (s1 := x) in * end.
    destruct (exec f (TProg (code j)) s1) eqn:E; try (exfalso; apply H; reflexivity); rewrite (K (TProg (code j)) s1), E by congruence; try reflexivity.
    apply K, H.
Qed.
Lemma exec_mono : forall f t s, exec f t s <> OutOfFuel -> exec (S f) t s = exec f t s.
Proof. induction f as [|f IH]; intros t s H; [cbn in H; congruence|]. apply exec_ext; assumption. Qed.
Lemma exec_more : forall f g t s r, exec f t s = r -> r <> OutOfFuel -> f <= g -> exec g t s = r.
Proof.
  intros f g t s r E N L. induction L as [|g L IH]; [exact E|]. rewrite exec_mono; [exact IH|congruence].
Qed.
(** [t] from [s] gives [r], however much fuel there is from some amount on. *)
Definition gives (t : task J W) (s : st J W) (r : res J W) : Prop :=
  exists f, forall g, f <= g -> exec g t s = r.
Lemma gives_post : forall j k s s1 r, gives (TPost j) s (Done s1) -> gives (TProg k) s1 r ->
  gives (TProg (PPost j k)) s r.
Proof.
  intros j k s s1 r (f & F) (h & H). exists (S (f + h)). intros [|g] L; [lia|]. cbn.
  rewrite F by lia. cbn. apply H. lia.
Qed.
Lemma gives_post_other : forall j k s r, gives (TPost j) s r -> (forall x, r <> Done x) -> r <> OutOfFuel ->
  gives (TProg (PPost j k)) s r.
Proof.
  intros j k s r (f & F) N M. exists (S f). intros [|g] L; [lia|]. cbn. rewrite F by lia.
  destruct r as [x|x| | |]; try reflexivity. exfalso. eapply N. reflexivity.
Qed.
Lemma gives_try : forall p k s r1 r, gives (TProg p) s r1 ->
  match r1 with
  | Done s' => gives (TProg (k true)) s' r
  | Thrown s' => gives (TProg (k false)) s' r
  | x => r = x
  end -> gives (TProg (PTry p k)) s r.
Proof.
  intros p k s r1 r (f & F) H. destruct r1 as [s'|s'| | |].
  1,2: destruct H as (h & H); exists (S (f + h)); intros [|g] L; [lia|]; cbn; rewrite F by lia; apply H; lia.
  all: subst r; exists (S f); intros [|g] L; [lia|]; cbn; rewrite F by lia; reflexivity.
Qed.
Lemma gives_get : forall k s r, gives (TProg (k (world s))) s r -> gives (TProg (PGet k)) s r.
Proof. intros k s r (f & F). exists (S f). intros [|g] L; [lia|]. cbn. apply F. lia. Qed.
Lemma gives_put : forall w k s r, gives (TProg k) (St (q s) (idx s) (next s) w (log s)) r ->
  gives (TProg (PPut w k)) s r.
Proof. intros w k s r (f & F). exists (S f). intros [|g] L; [lia|]. cbn. apply F. lia. Qed.
Lemma gives_now : forall t s r, (forall g, exec (S g) t s = r) -> gives t s r.
Proof. intros t s r H. exists 1. intros [|g] L; [lia|]. apply H. Qed.

(** ** Functions *)
Variable rank : J -> nat.
Definition live (n : nat) (e : nat * option J) : Prop := exists j, snd e = Some j /\ rank j < n.
Definition alive (e : nat * option J) : Prop := exists j, snd e = Some j.
Lemma live_alive : forall n l, Forall (live n) l -> Forall alive l.
Proof. intros n l H. eapply Forall_impl; [|exact H]. intros e (j & E & _). exists j. exact E. Qed.
Lemma live_more : forall n m l, n <= m -> Forall (live n) l -> Forall (live m) l.
Proof. intros n m l L H. eapply Forall_impl; [|exact H]. intros e (j & E & K). exists j. split; [exact E|lia]. Qed.
Lemma alive_live : forall l, Forall alive l -> exists n, Forall (live n) l.
Proof.
  induction 1 as [|e l (j & E) _ (n & H)]; [exists 0; constructor|].
  exists (S (rank j + n)). constructor; [exists j; split; [exact E|lia]|]. apply (live_more n); [lia|exact H].
Qed.
Definition ends_body (n : nat) (s : st J W) (r : res J W) : Prop :=
  match r with
  | Done s' | Thrown s' => idx s' = idx s /\ exists l, q s' = q s ++ l /\ Forall (live n) l
  | NoSuch => True
  | _ => False
  end.
Lemma ends_body_trans : forall n s s' l r, idx s' = idx s -> q s' = q s ++ l -> Forall (live n) l ->
  ends_body n s' r -> ends_body n s r.
Proof.
  intros n s s' l r E Q F H. destruct r as [x|x| | |]; try exact H;
    destruct H as (I & l' & Q' & F'); (split; [congruence|]); exists (l ++ l');
    (split; [rewrite Q', Q, app_assoc; reflexivity|apply Forall_app; split; assumption]).
Qed.
Lemma body_ends : forall n p, posts_below rank n p -> (manual = false -> no_step p) ->
  forall s, (manual = true -> idx s <> 0) -> exists r, gives (TProg p) s r /\ ends_body n s r.
Proof.
  intros n p H. induction H as [| |j k B H IH|k H IH|k H IH|w k H IH|p k H IH H2 IH2]; intros N s I.
  - exists (Done s). split; [apply gives_now; reflexivity|]. split; [reflexivity|]. exists []. rewrite app_nil_r. split; constructor.
  - exists (Thrown s). split; [apply gives_now; reflexivity|]. split; [reflexivity|]. exists []. rewrite app_nil_r. split; constructor.
  - assert (gives (TPost j) s (Done (do_push j s))) as P.
    { apply gives_now. intros g. destruct manual_cases as [M|M]; [|apply (post_queue M)]. specialize (I M).
      rewrite (post_manual M). destruct (idx s =? 0) eqn:E; [apply Nat.eqb_eq in E; contradiction|reflexivity]. }
    destruct (IH (fun E => ltac:(specialize (N E); inversion N; assumption)) (do_push j s) I) as (r & G & R).
    exists r. split; [exact (gives_post _ _ _ _ _ P G)|].
    apply (ends_body_trans n s (do_push j s) [(next s, Some j)]); [reflexivity|reflexivity| |exact R].
    constructor; [|constructor]. exists j. split; [reflexivity|exact B].
  - destruct manual_cases as [M|M]; [|specialize (N M); inversion N].
    exists NoSuch. split; [|exact Logic.I]. apply gives_now. intros g. apply (pstep_manual M).
  - destruct (IH (world s) (fun E => ltac:(specialize (N E); inversion N; auto)) s I) as (r & G & R).
    exists r. split; [apply gives_get; exact G|exact R].
  - destruct (IH (fun E => ltac:(specialize (N E); inversion N; assumption)) (St (q s) (idx s) (next s) w (log s)) I)
      as (r & G & R).
    exists r. split; [apply gives_put; exact G|exact R].
  - destruct (IH (fun E => ltac:(specialize (N E); inversion N; assumption)) s I) as (r1 & G & R).
    assert (forall b, manual = false -> no_step (k b)) as N' by (intros b E; specialize (N E); inversion N; auto).
    destruct r1 as [s'|s'| | |]; try contradiction.
    + destruct R as (E & l & Q & F).
      destruct (IH2 true (N' true) s' (fun M => ltac:(rewrite E; auto))) as (r & G2 & R2).
      exists r. split; [exact (gives_try _ _ _ _ _ G G2)|]. exact (ends_body_trans _ _ _ _ _ E Q F R2).
    + destruct R as (E & l & Q & F).
      destruct (IH2 false (N' false) s' (fun M => ltac:(rewrite E; auto))) as (r & G2 & R2).
      exists r. split; [exact (gives_try _ _ _ _ _ G G2)|]. exact (ends_body_trans _ _ _ _ _ E Q F R2).
    + exists NoSuch. split; [exact (gives_try _ _ _ _ _ G eq_refl)|exact Logic.I].
Qed.

(** ** Loops *)
Hypothesis code_below : forall j, posts_below rank (rank j) (code j).
Hypothesis code_steps : manual = false -> forall j, no_step (code j).
Lemma skipn_nil_le : forall X i (l : list X), skipn i l = [] -> length l <= i.
Proof. intros X i l H. assert (length (skipn i l) = 0) as E by (rewrite H; reflexivity). rewrite skipn_length in E. lia. Qed.
Lemma skipn_cons : forall i (l : queue J) e r, skipn i l = e :: r ->
  nth_error l i = Some e /\ i < length l /\ skipn (S i) (move_out i l) = r /\ i < length (move_out i l).
Proof.
  induction i as [|i IH]; intros [|[id o] l] e r H; cbn in H; try discriminate.
  - injection H as <- <-. cbn. repeat split; lia.
  - destruct (IH l e r H) as (A & B & C & D). cbn [nth_error move_out length]. repeat split; try lia; assumption.
Qed.
Lemma skipn_more : forall X i (l r : list X), i <= length l -> skipn i (l ++ r) = skipn i l ++ r.
Proof. intros X i l r H. rewrite skipn_app. replace (i - length l) with 0 by lia. reflexivity. Qed.

Definition ends_loop (r : res J W) : Prop :=
  match r with
  | Done s' => True
  | Thrown s' => Forall alive (skipn (idx s') (q s'))
  | NoSuch => True
  | _ => False
  end.
Lemma loop_ends : manual = true -> forall n old new s, skipn (idx s) (q s) = old ++ new ->
  Forall (live (S n)) old -> Forall (live n) new -> exists r, gives TLoop s r /\ ends_loop r.
Proof.
  intros M. induction n as [n IHn] using lt_wf_ind. induction old as [|[id o] old IH]; intros new s E O N.
  - destruct n as [|n].
    + destruct new as [|e new]; [|inversion N as [|? ? (j & _ & K)]; subst; lia].
      exists (Done s). split; [|exact I]. apply gives_now. intros g. cbn [LoopModel.exec]. apply skipn_nil_le in E.
      destruct (Nat.ltb_spec (idx s) (length (q s))); [lia|reflexivity].
    + apply (IHn n (le_n _) new [] s); [rewrite app_nil_r; exact E|exact N|constructor].
  - inversion O as [|? ? (j & Ej & K) O']; subst. cbn in Ej. subst o.
    cbn [app] in E. destruct (skipn_cons _ _ _ _ E) as (A & B & C & D).
    set (s1 := St (move_out (idx s) (q s)) (S (idx s)) (next s) (world s) (ERun id :: log s)).
    destruct (body_ends (rank j) (code j) (code_below j) (fun F => code_steps F j) s1 (fun _ => ltac:(cbn; lia)))
      as (r1 & (f1 & G1) & R1).
    assert (forall g, f1 <= g -> exec (S g) TLoop s =
      match r1 with Done s2 => exec g TLoop (emit (EEnd id) s2) | Thrown s2 => Thrown (emit (EFail id) s2) | r => r end) as X.
    { intros g L. cbn [LoopModel.exec]. destruct (Nat.ltb_spec (idx s) (length (q s))); [|lia]. rewrite A.
      fold s1. rewrite (G1 g L). destruct r1; reflexivity. }
    assert (forall s2, ends_body (rank j) s1 (Done s2) -> exists l, skipn (idx s2) (q s2) = old ++ new ++ l /\ Forall (live n) l) as Y.
    { intros s2 (E1 & l & Q & F). exists l. rewrite E1, Q. cbn [s1 idx q]. rewrite skipn_more by lia. rewrite C, app_assoc.
      split; [reflexivity|]. apply (live_more (rank j)); [lia|exact F]. }
    destruct r1 as [s2|s2| | |]; try contradiction.
    + destruct (Y s2 R1) as (l & E2 & F).
      destruct (IH (new ++ l) (emit (EEnd id) s2) E2 O') as (r & (f2 & G2) & R); [apply Forall_app; split; assumption|].
      exists r. split; [|exact R]. exists (S (f1 + f2)). intros [|g] L; [lia|]. rewrite X by lia. apply G2. lia.
    + destruct (Y s2 R1) as (l & E2 & F). exists (Thrown (emit (EFail id) s2)). split.
      * exists (S f1). intros [|g] L; [lia|]. apply X. lia.
      * cbn. rewrite E2. apply (live_alive (S n)).
        apply Forall_app. split; [exact O'|]. apply (live_more n); [lia|]. apply Forall_app. split; assumption.
    + exists NoSuch. split; [|exact I]. exists (S f1). intros [|g] L; [lia|]. apply X. lia.
Qed.
Definition ends_step (r : res J W) : Prop :=
  match r with
  | Done s' => True
  | Thrown s' => Forall alive (q s')
  | NoSuch => True
  | _ => False
  end.
Lemma step_ends : manual = false -> forall n old new i s, skipn i (q s) = old ++ new ->
  Forall (live (S n)) old -> Forall (live n) new -> exists r, gives (TStep i) s r /\ ends_step r.
Proof.
  intros M. induction n as [n IHn] using lt_wf_ind. induction old as [|[id o] old IH]; intros new i s E O N.
  - destruct n as [|n].
    + destruct new as [|e new]; [|inversion N as [|? ? (j & _ & K)]; subst; lia].
      exists (Done s). split; [|exact I]. apply gives_now. intros g. cbn [LoopModel.exec]. apply skipn_nil_le in E.
      destruct (Nat.ltb_spec i (length (q s))); [lia|reflexivity].
    + apply (IHn n (le_n _) new [] i s); [rewrite app_nil_r; exact E|exact N|constructor].
  - inversion O as [|? ? (j & Ej & K) O']; subst. cbn in Ej. subst o.
    cbn [app] in E. destruct (skipn_cons _ _ _ _ E) as (A & B & C & D).
    set (s1 := St (move_out i (q s)) (idx s) (next s) (world s) (ERun id :: log s)).
    destruct (body_ends (rank j) (code j) (code_below j) (fun F => code_steps F j) s1
                (fun F => ltac:(rewrite M in F; discriminate F))) as (r1 & (f1 & G1) & R1).
    assert (forall g, f1 <= g -> exec (S g) (TStep i) s =
      match r1 with
      | Done s2 => exec g (TStep (S i)) (emit (EEnd id) s2)
      | Thrown s2 => let s3 := emit (EFail id) s2 in
                     Thrown (St (erase (S i) (q s3)) (idx s3) (next s3) (world s3) (log s3))
      | r => r
      end) as X.
    { intros g L. cbn [LoopModel.exec]. destruct (Nat.ltb_spec i (length (q s))); [|lia]. rewrite A.
      fold s1. rewrite (G1 g L). destruct r1; reflexivity. }
    assert (forall s2, ends_body (rank j) s1 (Done s2) -> exists l, skipn (S i) (q s2) = old ++ new ++ l /\ Forall (live n) l) as Y.
    { intros s2 (E1 & l & Q & F). exists l. rewrite Q. cbn [s1 q]. rewrite skipn_more by lia. rewrite C, app_assoc.
      split; [reflexivity|]. apply (live_more (rank j)); [lia|exact F]. }
    destruct r1 as [s2|s2| | |]; try contradiction.
    + destruct (Y s2 R1) as (l & E2 & F).
      destruct (IH (new ++ l) (S i) (emit (EEnd id) s2) E2 O') as (r & (f2 & G2) & R); [apply Forall_app; split; assumption|].
      exists r. split; [|exact R]. exists (S (f1 + f2)). intros [|g] L; [lia|]. rewrite X by lia. apply G2. lia.
    + destruct (Y s2 R1) as (l & E2 & F). eexists. split.
      * exists (S f1). intros [|g] L; [lia|]. apply X. lia.
      * cbn [ends_step q]. unfold erase. cbn [emit q]. rewrite E2. apply (live_alive (S n)).
        apply Forall_app. split; [exact O'|]. apply (live_more n); [lia|]. apply Forall_app. split; assumption.
    + exists NoSuch. split; [|exact I]. exists (S f1). intros [|g] L; [lia|]. apply X. lia.
Qed.

(** ** Clients *)
Definition ready (s : st J W) : Prop := (manual = true -> idx s = 0) /\ Forall alive (q s).
Definition ends (r : res J W) : Prop :=
  match r with Done s | Thrown s => ready s | NoSuch => True | _ => False end.
Lemma post_ends : forall j s, ready s -> exists r, gives (TPost j) s r /\ ends r.
Proof.
  intros j s (Z & A). assert (Forall alive (q (do_push j s))) as A'.
  { cbn. unfold push. apply Forall_app. split; [exact A|]. constructor; [exists j; reflexivity|constructor]. }
  destruct manual_cases as [M|M].
  - specialize (Z M). destruct (alive_live _ A') as (n & L).
    destruct (loop_ends M n (q (do_push j s)) [] (do_push j s)) as (r & (f & G) & R).
    { rewrite app_nil_r. cbn [do_push idx]. rewrite Z. reflexivity. }
    { apply (live_more n); [lia|exact L]. } { constructor. }
    exists (match r with
            | Done s2 => Done (St [] 0 (next s2) (world s2) (log s2))
            | Thrown s2 => Thrown (St (erase (idx s2) (q s2)) 0 (next s2) (world s2) (log s2))
            | r => r end).
    split.
    + exists (S f). intros [|g] L'; [lia|]. rewrite (post_manual M), Z. cbn [Nat.eqb].
      rewrite G by lia. destruct r; reflexivity.
    + destruct r as [s2|s2| | |]; try exact R; (split; [reflexivity|]); [constructor|exact R].
  - exists (Done (do_push j s)). split; [|split; [exact Z|exact A']].
    apply gives_now. intros g. apply (post_queue M).
Qed.
Lemma prog_ends : forall p s, ready s -> exists r, gives (TProg p) s r /\ ends r.
Proof.
  induction p as [| |j k IH|k IH|k IH|w k IH|p IH k IH2]; intros s S.
  - exists (Done s). split; [apply gives_now; reflexivity|exact S].
  - exists (Thrown s). split; [apply gives_now; reflexivity|exact S].
  - destruct (post_ends j s S) as (r1 & G & R). destruct r1 as [s'|s'| | |]; try contradiction.
    + destruct (IH s' R) as (r & G2 & R2). exists r. split; [exact (gives_post _ _ _ _ _ G G2)|exact R2].
    + exists (Thrown s'). split; [apply gives_post_other; [exact G|discriminate|discriminate]|exact R].
    + exists NoSuch. split; [apply gives_post_other; [exact G|discriminate|discriminate]|exact I].
  - destruct manual_cases as [M|M].
    + exists NoSuch. split; [|exact I]. apply gives_now. intros g. apply (pstep_manual M).
    + destruct S as (Z & A). destruct (alive_live _ A) as (n & L).
      destruct (step_ends M n (q s) [] 0 s) as (r1 & (f & G) & R).
      { rewrite app_nil_r. reflexivity. } { apply (live_more n); [lia|exact L]. } { constructor. }
      destruct r1 as [s'|s'| | |]; try contradiction.
      * destruct (IH (St [] (idx s') (next s') (world s') (log s'))) as (r & (f2 & G2) & R2).
        { split; [intros F; rewrite M in F; discriminate F|constructor]. }
        exists r. split; [|exact R2]. exists (S (f + f2)). intros [|g] L'; [lia|]. rewrite (pstep_queue M).
        rewrite G by lia. cbn [andthen]. apply G2. lia.
      * exists (Thrown s'). split; [|split; [intros F; rewrite M in F; discriminate F|exact R]].
        exists (S f). intros [|g] L'; [lia|]. rewrite (pstep_queue M). rewrite G by lia. reflexivity.
      * exists NoSuch. split; [|exact I]. exists (S f). intros [|g] L'; [lia|]. rewrite (pstep_queue M). rewrite G by lia. reflexivity.
  - destruct (IH (world s) s S) as (r & G & R). exists r. split; [apply gives_get; exact G|exact R].
  - destruct (IH (St (q s) (idx s) (next s) w (log s)) S) as (r & G & R). exists r. split; [apply gives_put; exact G|exact R].
  - destruct (IH s S) as (r1 & G & R). destruct r1 as [s'|s'| | |]; try contradiction.
    + destruct (IH2 true s' R) as (r & G2 & R2). exists r. split; [exact (gives_try _ _ _ _ _ G G2)|exact R2].
    + destruct (IH2 false s' R) as (r & G2 & R2). exists r. split; [exact (gives_try _ _ _ _ _ G G2)|exact R2].
    + exists NoSuch. split; [exact (gives_try _ _ _ _ _ G eq_refl)|exact I].
Qed.
Theorem run_ends : forall w p, exists fuel r, r <> OutOfFuel /\ forall f, fuel <= f -> run code manual f w p = r.
Proof.
  intros w p. destruct (prog_ends p (init w)) as (r & (f & G) & R); [split; [reflexivity|constructor]|].
  exists f, r. split; [|exact G]. intros ->. exact R.
Qed.
End Ends.

(** ** A function that posts itself *)
Lemma endless_loop : forall fuel (s : st nat nat) a i, q s = a ++ [(i, Some 0)] -> idx s = length a ->
  exec (fun j : nat => PPost j PRet) true fuel TLoop s = OutOfFuel.
Proof.
  induction fuel as [fuel IH] using lt_wf_ind. intros s a i E L. destruct fuel as [|f]; [reflexivity|].
  cbn [exec]. rewrite E, L, app_length. destruct (Nat.ltb_spec (length a) (length a + length [(i, Some 0)])) as [_|H];
    [|cbn in H; lia].
  rewrite nth_error_app2, Nat.sub_diag by lia. cbn [nth_error].
  assert (move_out (length a) (a ++ [(i, Some 0)]) = a ++ [(i, None)]) as M.
  { clear. induction a as [|[x o] a IH]; [reflexivity|]. cbn. rewrite IH. reflexivity. }
  rewrite M. destruct f as [|[|f]]; [reflexivity|reflexivity|].
  cbn [exec idx do_push Nat.eqb andthen].
  apply (IH (S (S f))) with (a := a ++ [(i, None)]) (i := next s); [lia| |].
  - cbn. unfold push. reflexivity.
  - cbn. rewrite app_length. cbn. lia.
Qed.
Lemma endless : forall fuel (w : nat), run (fun j => PPost j PRet) true fuel w (PPost 0 PRet) = OutOfFuel.
Proof.
  intros [|[|fuel]] w; [reflexivity|reflexivity|]. unfold run. cbn [exec do_push init idx Nat.eqb q next world log].
  rewrite (endless_loop fuel _ [] 0); reflexivity.
Qed.
