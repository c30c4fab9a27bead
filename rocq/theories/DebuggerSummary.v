(** What the summary of the tree debugger says about the history. *)
From Coq Require Import List Arith Bool Lia.
From Verif Require Import StoreModel StoreExtraModel DebuggerModel DebuggerSpec.
Import ListNotations.

Section Summary.
Context {M A : Type}.
Notation tstep := (tstep M A).
Notation hist := (list tstep).

(** ** Induction over steps *)
Section Ind.
  Variable Q : tstep -> Prop.
  Hypothesis HQ : forall a m bs, Forall (Forall Q) bs -> Q (TStep a m bs).
  Fixpoint tstep_ind2 (s : tstep) : Q s :=
    match s with
    | TStep a m bs =>
        HQ a m bs ((fix go (bs : list hist) : Forall (Forall Q) bs :=
          match bs with
          | [] => Forall_nil _
          | h :: bs => Forall_cons h
              ((fix go2 (h : hist) : Forall Q h :=
                  match h with
                  | [] => Forall_nil _
                  | s :: h => Forall_cons s (tstep_ind2 s) (go2 h)
                  end) h) (go bs)
          end) bs)
    end.
End Ind.
Lemma forall_steps : forall (Q : tstep -> Prop), (forall s, Q s) -> forall h, Forall Q h.
Proof. intros Q H h. apply Forall_forall. auto. Qed.

Lemma summary_step_eq : forall a m bs, summary_step (TStep (M := M) (A := A) a m bs) =
  match bs with [] => None | _ => Some (map (summary_history 0) bs) end.
Proof.
  intros a m [|h bs]; reflexivity.
Qed.

(** ** Reading it back *)
Definition Qread (s : tstep) : Prop := match s with TStep _ _ bs =>
  map (flat_map expand1) (map (summary_history 0) bs) = map (map shape_of) bs end.
Lemma repeat_more : forall (x : shape) n l, repeat x n ++ x :: l = repeat x (S n) ++ l.
Proof. intros x n l. induction n as [|n IH]; simpl; auto. now rewrite IH. Qed.
Lemma read_history : forall (h : hist), Forall Qread h -> forall n,
  flat_map expand1 (summary_history n h) = repeat (Shape []) n ++ map shape_of h.
Proof.
  induction 1 as [|s h Hs Hh IH]; intros n; cbn [summary_history flat_map expand1 map].
  - now rewrite !app_nil_r.
  - destruct s as [a m bs]. rewrite summary_step_eq. destruct bs as [|h0 bs].
    + rewrite IH. cbn [shape_of map]. now rewrite repeat_more.
    + cbn [flat_map]. rewrite IH. unfold Qread in Hs. cbn [expand1]. cbn [map] in Hs |- *. rewrite Hs.
      cbn [repeat app shape_of map]. now rewrite <- app_assoc.
Qed.
Lemma read_all : forall s : tstep, Qread s.
Proof.
  apply tstep_ind2. intros a m bs H. unfold Qread. rewrite map_map.
  induction H as [|h bs Hh Hbs IH]; simpl; auto. rewrite IH. f_equal. apply (read_history h Hh 0).
Qed.
Lemma summary_reads : forall d : tmodel M A, map expand (summary d) = map (map shape_of) (tbranches d).
Proof.
  intros d. unfold summary, expand. rewrite map_map. apply map_ext. intros h.
  apply (read_history h (forall_steps _ read_all h) 0).
Qed.

(** ** Depends on the shape only *)
Definition Qshape (s : tstep) : Prop := forall s' : tstep, shape_of s = shape_of s' -> summary_step s = summary_step s'.
Lemma shape_history : forall (h : hist), Forall Qshape h -> forall (h' : hist) n,
  map shape_of h = map shape_of h' -> summary_history n h = summary_history n h'.
Proof.
  induction 1 as [|s h Hs Hh IH]; intros [|s' h'] n E; try discriminate; auto.
  cbn [map] in E. injection E as E1 E2. cbn [summary_history]. rewrite (Hs s' E1).
  destruct (summary_step s'); now rewrite (IH h' _ E2).
Qed.
Lemma shape_histories : forall bs : list hist, Forall (Forall Qshape) bs -> forall bs' : list hist,
  map (map shape_of) bs = map (map shape_of) bs' -> map (summary_history 0) bs = map (summary_history 0) bs'.
Proof.
  induction 1 as [|h bs Hh Hbs IH]; intros [|h' bs'] E; try discriminate; auto.
  cbn [map] in *. injection E as E1 E2. now rewrite (IH bs' E2), (shape_history h Hh h' 0 E1).
Qed.
Lemma shape_all : forall s : tstep, Qshape s.
Proof.
  apply tstep_ind2. intros a m bs H [a' m' bs'] E. cbn [shape_of] in E. injection E as E.
  rewrite !summary_step_eq, (shape_histories bs H bs' E).
  destruct bs, bs'; simpl in E; congruence.
Qed.
Lemma summary_exact : forall d d' : tmodel M A,
  summary d = summary d' <-> map (map shape_of) (tbranches d) = map (map shape_of) (tbranches d').
Proof.
  intros d d'. split; intros H.
  - rewrite <- !summary_reads. now rewrite H.
  - apply shape_histories; auto. apply Forall_forall. intros h _. apply forall_steps, shape_all.
Qed.

(** ** Form *)
Definition Qtidy (s : tstep) : Prop := match s with TStep _ _ bs => Forall tidy (map (summary_history 0) bs) end.
Lemma tidy_history : forall (h : hist), Forall Qtidy h -> forall n, tidy (summary_history n h).
Proof.
  induction 1 as [|s h Hs Hh IH]; intros n; cbn [summary_history]; [constructor|].
  destruct s as [a m bs]. rewrite summary_step_eq. destruct bs as [|h0 bs]; auto.
  constructor; auto. discriminate.
Qed.
Lemma tidy_all : forall s : tstep, Qtidy s.
Proof.
  apply tstep_ind2. intros a m bs H. unfold Qtidy.
  induction H as [|h bs Hh Hbs IH]; simpl; constructor; auto. now apply tidy_history.
Qed.
Lemma summary_tidy : forall d : tmodel M A, Forall tidy (summary d).
Proof.
  intros d. apply Forall_forall. intros l H. apply in_map_iff in H as (h & <- & _).
  apply tidy_history, forall_steps, tidy_all.
Qed.

(** ** Cursors *)
Lemma lookup_place : forall c (bs : list hist), c <> [] ->
  (exists r, do_lookup bs c = Some r) <-> place (map (map shape_of) bs) c.
Proof.
  induction c as [|p c IH]; intros bs N; [congruence|]. cbn [do_lookup]. clear N. split.
  - intros (r & E).
    destruct (nth_error bs (branch p)) as [h|] eqn:E1; [|discriminate].
    destruct (nth_error h (index p)) as [[a m bs']|] eqn:E2; [|discriminate].
    pose proof (map_nth_error (map shape_of) _ _ E1) as F1.
    pose proof (map_nth_error shape_of _ _ E2) as F2.
    destruct c as [|p2 c]; [eapply place_here; eauto|].
    eapply place_in; [exact F1|exact F2|]. apply (IH bs'); [discriminate|eauto].
  - intros H. inversion H as [? ? h x F1 F2|? ? h bs2 ? F1 F2 F3]; subst.
    + rewrite nth_error_map in F1. destruct (nth_error bs (branch p)) as [h0|]; [|discriminate].
      injection F1 as <-. rewrite nth_error_map in F2.
      destruct (nth_error h0 (index p)) as [[a m bs']|]; [|discriminate]. eauto.
    + rewrite nth_error_map in F1. destruct (nth_error bs (branch p)) as [h0|]; [|discriminate].
      injection F1 as <-. rewrite nth_error_map in F2.
      destruct (nth_error h0 (index p)) as [[a m bs']|]; [|discriminate].
      simpl in F2. injection F2 as <-.
      destruct c as [|p2 c]; eauto. apply (IH bs'); [discriminate|auto].
Qed.
Lemma summary_cursors : forall (d : tmodel M A) c,
  check d c = true <-> c = [] \/ place (map expand (summary d)) c.
Proof.
  intros d c. rewrite summary_reads. unfold check, tlookup. destruct c as [|p c].
  - split; auto.
  - rewrite <- lookup_place by discriminate.
    destruct (do_lookup (tbranches d) (p :: c)) as [[a m]|]; split; intros H; eauto.
    + discriminate.
    + destruct H as [H|(r & H)]; discriminate.
Qed.
End Summary.
