(** Proofs about the counter in the terminal. *)
From Coq Require Import List Arith Bool ZArith Lia.
Import ListNotations.
From Verif Require Import TermModel TermSpec.
Local Open Scope Z_scope.

Definition acts (l : list key) : list action :=
  flat_map (fun k => match intent_of k with Dispatch a => [a] | _ => [] end) l.
Definition reduces (l : list job) : list action :=
  flat_map (fun j => match j with JReduce a => [a] | _ => [] end) l.

Lemma reduces_app a b : reduces (a ++ b) = reduces a ++ reduces b.
Proof. apply flat_map_app. Qed.
Lemma acts_app a b : acts (a ++ b) = acts a ++ acts b.
Proof. apply flat_map_app. Qed.
Lemma reduces_repeat j n : (forall a, j <> JReduce a) -> reduces (repeat j n) = [].
Proof.
  intro N. induction n as [|n IH]; cbn; [reflexivity|].
  destruct j; try exact IH. destruct (N a); reflexivity.
Qed.

Definition noise_free (ls : list label) : Prop := ~ In Noise ls.
Definition fixed_size (ls : list label) : Prop := ~ In Winch ls.

Record inv (ls : list label) (s : st) : Prop := {
  i_typed : typed_in ls = rev (handed s) ++ typed s;
  i_on : handler s = true -> forall k, In k (handed s) -> ~ quits k;
  i_off : handler s = false ->
          reads s = O /\
          exists k l, handed s = k :: l /\ quits k /\ forall x, In x l -> ~ quits x;
  i_value : fold_left update (reduces (ready s)) (current s) =
            fold_left update (acts (rev (handed s))) 0;
  i_dirty : if dirty s then In JNotify (ready s) else last s = current s;
  i_screen : hd_error (screen s) = Some (last s);
  i_hears : noise_free ls -> handler s = true ->
            (reads s <> O) \/
            (typed s <> [] /\ (looping s = true \/ In (JKey true) (ready s)));
  i_size : fixed_size ls ->
           ~ In (JResize true) (ready s) /\ signals s = O /\ (handler s = false -> waits s = O);
  i_finished : finished s = true -> noise_free ls -> handler s = false
}.

Lemma start_inv : inv [] start.
Proof.
  constructor; cbn; try tauto; try discriminate; try reflexivity.
  - intros _ _. left. discriminate.
  - intros _. split; [tauto|]. split; [reflexivity|discriminate].
Qed.

Lemma typed_in_app a b : typed_in (a ++ b) = typed_in a ++ typed_in b.
Proof. apply flat_map_app. Qed.

Lemma less (ls : list label) (l : label) x :
  ~ In x (ls ++ [l]) -> ~ In x ls.
Proof. intros N I. apply N. apply in_or_app. left. exact I. Qed.

Lemma repeat_other (j j' : job) n : j <> j' -> ~ In j (repeat j' n).
Proof. intros D I. apply repeat_spec in I. contradiction. Qed.

Lemma in_tail {A} (x j : A) r : In x (j :: r) -> j <> x -> In x r.
Proof. intros [E | I] D; [contradiction|exact I]. Qed.

Lemma value_snoc h x v : fold_left update (acts (rev h)) 0 = v ->
  fold_left update (acts (rev (x :: h))) 0 =
  match intent_of x with Dispatch a => update v a | _ => v end.
Proof.
  intros <-. cbn [rev]. rewrite acts_app, fold_left_app. unfold acts at 1. cbn.
  destruct (intent_of x); reflexivity.
Qed.

Lemma step_inv ls s l s' : inv ls s -> step s l = Next s' -> inv (ls ++ [l]) s'.
Proof.
  intros [T ON OFF V D SC H SZ F] E. unfold step in E.
  destruct (finished s) eqn:FI; [discriminate|].
  destruct l as [k| | | |io| | |].
  - (* Type_ *)
    injection E as <-. constructor; cbn [typed reads waits signals ready looping handler current
      last dirty screen handed finished]; try assumption.
    + rewrite typed_in_app, T. cbn. rewrite app_assoc. reflexivity.
    + intros N O. destruct (H (less _ _ _ N) O) as [R | (_ & L)]; [left; exact R|right].
      split; [|exact L]. destruct (typed s); discriminate.
    + intro N. exact (SZ (less _ _ _ N)).
    + intros; congruence.
  - (* Winch *)
    destruct (waits s) as [|n] eqn:W; injection E as <-; constructor;
      cbn [typed reads waits signals ready looping handler current last dirty screen handed finished];
      try assumption; try (rewrite typed_in_app, app_nil_r; exact T);
      try (intros N; exfalso; apply N; apply in_or_app; right; left; reflexivity);
      try (intros; congruence).
    + intros N O. exact (H (less _ _ _ N) O).
    + try change (JResize true :: repeat (JResize true) n) with (repeat (JResize true) (S n)).
      rewrite reduces_app, reduces_repeat by discriminate. rewrite app_nil_r. exact V.
    + destruct (dirty s); [|exact D]. apply in_or_app. left. exact D.
    + intros N O. destruct (H (less _ _ _ N) O) as [R | (TY & [L | I])]; [left; exact R|right|right];
        (split; [exact TY|]); [left; exact L|right; apply in_or_app; left; exact I].
  - (* Noise *)
    injection E as <-. constructor; cbn [complete_reads typed reads waits signals ready looping handler current
      last dirty screen handed finished]; try assumption;
      try (rewrite typed_in_app, app_nil_r; exact T);
      try (intros N; exfalso; apply N; apply in_or_app; right; left; reflexivity);
      try (intros; congruence).
    + intro O. destruct (OFF O) as (_ & X). split; [reflexivity|exact X].
    + rewrite reduces_app, reduces_repeat by discriminate. rewrite app_nil_r. exact V.
    + destruct (dirty s); [|exact D]. apply in_or_app. left. exact D.
    + intro N. destruct (SZ (less _ _ _ N)) as (A & B & C). split; [|split; assumption].
      intro I. apply in_app_or in I. destruct I as [I | I]; [exact (A I)|].
      revert I. apply repeat_other. discriminate.
  - (* Complete *)
    destruct (typed s) as [|k0 r0] eqn:TY; [discriminate|].
    destruct (reads s) as [|n] eqn:R; [discriminate|].
    injection E as <-. unfold complete_reads. rewrite TY, R. constructor; cbn [typed reads waits signals ready looping handler current
      last dirty screen handed finished]; try assumption;
      try (rewrite typed_in_app, app_nil_r; exact T).
    + intro O. destruct (OFF O) as (_ & X). split; [reflexivity|exact X].
    + rewrite reduces_app, reduces_repeat by discriminate. rewrite app_nil_r. exact V.
    + destruct (dirty s); [|exact D]. apply in_or_app. left. exact D.
    + intros N O. right. split; [discriminate|]. right. apply in_or_app. right. left. reflexivity.
    + intro N. destruct (SZ (less _ _ _ N)) as (A & B & C). split; [|split; assumption].
      intro I. apply in_app_or in I. destruct I as [I | I]; [exact (A I)|].
      revert I. apply repeat_other. discriminate.
    + intros; congruence.
  - (* Call *)
    destruct (looping s) eqn:LO; [discriminate|].
    destruct (ready s) as [|j r] eqn:RD; [discriminate|].
    assert (typed_in (ls ++ [Call io]) = rev (handed s) ++ typed s) as T'.
    { rewrite typed_in_app, app_nil_r. exact T. }
    assert (forall x, x <> Call io -> ~ In x (ls ++ [Call io]) -> ~ In x ls) as LS
      by (intros x _ N; exact (less _ _ _ N)).
    destruct j as [[]|[]|a|]; cbn [call] in E.
    + (* JKey true *)
      injection E as <-. constructor; cbn [typed reads waits signals ready looping handler current
        last dirty screen handed finished]; try assumption.
      * destruct (dirty s); [|exact D]. apply in_tail in D; [exact D|discriminate].
      * intros N O. destruct (H (less _ _ _ N) O) as [R | (TY & _)]; [left; exact R|right; auto].
      * intro N. destruct (SZ (less _ _ _ N)) as (A & B & C). split; [|split; assumption].
        intro I. apply A. right. exact I.
      * intros; congruence.
    + injection E as <-. constructor; cbn [typed reads waits signals ready looping handler current
        last dirty screen handed finished]; try assumption.
      * destruct (dirty s); [|exact D]. apply in_tail in D; [exact D|discriminate].
      * intros N O. destruct (H (less _ _ _ N) O) as [R | (TY & [L | I])]; [left; exact R| |].
        -- intros; congruence.
        -- right. split; [exact TY|]. right. apply in_tail in I; [exact I|discriminate].
      * intro N. destruct (SZ (less _ _ _ N)) as (A & B & C). split; [|split; assumption].
        intro I. apply A. right. exact I.
      * intros; congruence.
    + (* JResize true *)
      set (s0 := St (typed s) (reads s) (waits s) (signals s) r false (handler s) (current s)
                    (last s) (dirty s) (screen s) (handed s) false) in *.
      assert (inv (ls ++ [Call io]) (next_resize s0)) as K.
      { unfold next_resize. cbn [signals s0]. destruct (signals s) as [|n] eqn:SG; constructor;
          cbn [s0 typed reads waits signals ready looping handler current last dirty screen handed finished];
          try assumption; try (intros; congruence);
          try (intro N; destruct (SZ (less _ _ _ N)) as (A & _); exfalso; apply A;
               left; reflexivity).
        - destruct (dirty s); [|exact D]. apply in_tail in D; [exact D|discriminate].
        - intros N O. destruct (H (less _ _ _ N) O) as [R | (TY & [L | I])]; [left; exact R| |].
          + intros; congruence.
          + right. split; [exact TY|]. right. apply in_tail in I; [exact I|discriminate].
        - rewrite reduces_app. cbn. rewrite app_nil_r. exact V.
        - destruct (dirty s); [|exact D]. apply in_or_app. left.
          apply in_tail in D; [exact D|discriminate].
        - intros N O. destruct (H (less _ _ _ N) O) as [R | (TY & [L | I])]; [left; exact R| |].
          + intros; congruence.
          + right. split; [exact TY|]. right. apply in_or_app. left.
            apply in_tail in I; [exact I|discriminate]. }
      destruct io; [|injection E as <-; exact K].
      destruct (handler (next_resize s0)); [|discriminate]. injection E as <-.
      destruct K. constructor; cbn [draw typed reads waits signals ready looping handler current
        last dirty screen handed finished]; try assumption. reflexivity.
    + injection E as <-. constructor; cbn [typed reads waits signals ready looping handler current
        last dirty screen handed finished]; try assumption.
      * destruct (dirty s); [|exact D]. apply in_tail in D; [exact D|discriminate].
      * intros N O. destruct (H (less _ _ _ N) O) as [R | (TY & [L | I])]; [left; exact R| |].
        -- intros; congruence.
        -- right. split; [exact TY|]. right. apply in_tail in I; [exact I|discriminate].
      * intro N. destruct (SZ (less _ _ _ N)) as (A & B & C). split; [|split; assumption].
        intro I. apply A. right. exact I.
      * intros; congruence.
    + (* JReduce *)
      injection E as <-. constructor; cbn [typed reads waits signals ready looping handler current
        last dirty screen handed finished]; try assumption.
      * rewrite reduces_app. cbn. rewrite app_nil_r. exact V.
      * destruct (dirty s) eqn:DI; cbn [orb].
        -- apply in_or_app. right. left. reflexivity.
        -- destruct (update (current s) a =? current s) eqn:U; cbn [negb].
           ++ apply Z.eqb_eq in U. congruence.
           ++ apply in_or_app. right. left. reflexivity.
      * intros N O. destruct (H (less _ _ _ N) O) as [R | (TY & [L | I])]; [left; exact R| |].
        -- intros; congruence.
        -- right. split; [exact TY|]. right. apply in_or_app. left. apply in_tail in I; [exact I|discriminate].
      * intro N. destruct (SZ (less _ _ _ N)) as (A & B & C). split; [|split; assumption].
        intro I. apply in_app_or in I. destruct I as [I | [I | []]]; [|discriminate].
        apply A. right. exact I.
      * intros; congruence.
    + (* JNotify *)
      injection E as <-. cbn [dirty].
      assert (forall N : noise_free (ls ++ [Call io]), handler s = true ->
              (reads s <> O) \/ (typed s <> [] /\ (false = true \/ In (JKey true) r))) as H'.
      { intros N O. destruct (H (less _ _ _ N) O) as [R | (TY & [L | I])]; [left; exact R| |].
        - intros; congruence.
        - right. split; [exact TY|]. right. apply in_tail in I; [exact I|discriminate]. }
      assert (fixed_size (ls ++ [Call io]) ->
              ~ In (JResize true) r /\ signals s = O /\ (handler s = false -> waits s = O)) as SZ'.
      { intro N. destruct (SZ (less _ _ _ N)) as (A & B & C). split; [|split; assumption].
        intro I. apply A. right. exact I. }
      destruct (dirty s) eqn:DI; constructor; cbn [typed reads waits signals ready looping handler current
        last dirty screen handed finished]; try assumption; try (intros; congruence);
        try reflexivity.
  - (* ReadKey *)
    destruct (looping s) eqn:LO; [|discriminate].
    destruct (typed s) as [|k r] eqn:TY; [discriminate|].
    cbn [next_key handler] in E. destruct (handler s) eqn:HA; [|discriminate].
    injection E as <-. cbn [next_key typed reads waits signals ready looping handler current
        last dirty screen handed finished].
    assert (typed_in (ls ++ [ReadKey]) = rev (k :: handed s) ++ r) as T'.
    { rewrite typed_in_app, app_nil_r, T. cbn. rewrite <- app_assoc. reflexivity. }
    assert (forall x, In x (handed s) -> ~ quits x) as NQ by exact (ON eq_refl).
    pose proof (value_snoc (handed s) k _ eq_refl) as VS.
    destruct (intent_of k) as [a| |] eqn:IK; unfold on_key; rewrite IK.
    + constructor; cbn [post typed reads waits signals ready looping handler current
        last dirty screen handed finished]; try assumption.
      * intros _ x [<- | I]; [|exact (NQ x I)]. intros [-> | ->]; discriminate.
      * intros; congruence.
      * rewrite reduces_app, fold_left_app, V, VS. reflexivity.
      * destruct (dirty s); [|exact D]. apply in_or_app. left. exact D.
      * intros _ _. left. discriminate.
      * intro N. destruct (SZ (less _ _ _ N)) as (A & B & _). split; [|split; [exact B|discriminate]].
        intro I. apply in_app_or in I. destruct I as [I | [I | []]]; [exact (A I)|discriminate].
      * intros; congruence.
    + constructor; cbn [stop typed reads waits signals ready looping handler current
        last dirty screen handed finished]; try assumption.
      * intros; congruence.
      * intros _. split; [reflexivity|]. exists k, (handed s). split; [reflexivity|].
        split; [|exact NQ]. destruct k; try discriminate; [left|right]; reflexivity.
      * rewrite !reduces_app, !reduces_repeat, !app_nil_r by discriminate. rewrite V, VS. reflexivity.
      * destruct (dirty s); [|exact D]. apply in_or_app. left. exact D.
      * intros; congruence.
      * intro N. destruct (SZ (less _ _ _ N)) as (A & B & _). split; [|split; [exact B|reflexivity]].
        intro I. apply in_app_or in I. destruct I as [I | I]; [exact (A I)|].
        apply in_app_or in I. destruct I as [I | I]; revert I; apply repeat_other; discriminate.
      * reflexivity.
    + constructor; cbn [typed reads waits signals ready looping handler current
        last dirty screen handed finished]; try assumption.
      * intros _ x [<- | I]; [|exact (NQ x I)]. intros [-> | ->]; discriminate.
      * intros; congruence.
      * rewrite V, VS. reflexivity.
      * intros _ _. left. discriminate.
      * intro N. destruct (SZ (less _ _ _ N)) as (A & B & _). split; [exact A|]. split; [exact B|discriminate].
      * intros; congruence.
  - (* LoopEnd *)
    destruct (looping s) eqn:LO; [|discriminate].
    destruct (typed s) as [|k r] eqn:TY; [|discriminate]. injection E as <-.
    constructor; cbn [typed reads waits signals ready looping handler current
        last dirty screen handed finished]; try assumption.
    + rewrite typed_in_app, app_nil_r. exact T.
    + intros N O. destruct (H (less _ _ _ N) O) as [R | (X & _)]; [left; exact R|].
      destruct X. reflexivity.
    + intro N. exact (SZ (less _ _ _ N)).
    + intros; congruence.
  - (* Return *)
    destruct (looping s) eqn:LO; [discriminate|].
    destruct (ready s) as [|j r] eqn:RD; [|discriminate].
    destruct (reads s) as [|n] eqn:RE; [|discriminate].
    destruct (waits s) as [|n] eqn:WA; [|discriminate]. injection E as <-.
    constructor; cbn [typed reads waits signals ready looping handler current
        last dirty screen handed finished]; try assumption.
    + rewrite typed_in_app, app_nil_r. exact T.
    + intros N O. destruct (H (less _ _ _ N) O) as [R | (TY & [L | I])].
      * contradiction.
      * intros; congruence.
      * destruct I.
    + intro N. destruct (SZ (less _ _ _ N)) as (A & B & _). auto.
    + intros _ N. destruct (handler s) eqn:HA; [|reflexivity].
      destruct (H (less _ _ _ N) eq_refl) as [R | (_ & [L | I])].
      * contradiction.
      * intros; congruence.
      * destruct I.
Qed.
