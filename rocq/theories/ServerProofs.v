(** Proofs about the debug server. *)
From Coq Require Import List Bool Arith NArith Ascii String Lia.
From Verif Require Import StoreModel DebuggerModel ServerModel ServerSpec.
Import ListNotations.
Local Open Scope list_scope.

(** ** Regular expressions *)
Lemma nullable_iff : forall r, nullable r = true <-> lang r [].
Proof.
  induction r as [| |c|p|a IHa b IHb|a IHa b IHb|a IHa]; cbn.
  - split; [discriminate|inversion 1].
  - split; [constructor|reflexivity].
  - split; [discriminate|inversion 1].
  - split; [discriminate|inversion 1].
  - rewrite andb_true_iff, IHa, IHb. split.
    + intros [Ha Hb]. exact (L_cat a b [] [] Ha Hb).
    + inversion 1 as [| | |? ? s t Ha Hb E| | | |]; subst.
      apply app_eq_nil in H1. destruct H1; subst. auto.
  - rewrite orb_true_iff, IHa, IHb. split.
    + intros [H|H]; [apply L_left|apply L_right]; exact H.
    + inversion 1; subst; auto.
  - split; [constructor|reflexivity].
Qed.

Lemma star_cons : forall a u, lang (Star a) u -> forall c s, u = c :: s ->
  exists s1 s2, s = s1 ++ s2 /\ lang a (c :: s1) /\ lang (Star a) s2.
Proof.
  intros a u H. remember (Star a) as r eqn:R. induction H; try discriminate; injection R as R; subst; intros c s0 E.
  destruct s as [|c' s].
  - apply IHlang2; auto.
  - cbn in E. injection E as -> <-. exists s, t. auto.
Qed.

Lemma deriv_iff : forall r c s, lang (deriv c r) s <-> lang r (c :: s).
Proof.
  induction r as [| |d|p|a IHa b IHb|a IHa b IHb|a IHa]; cbn; intros c s.
  - split; inversion 1.
  - split; inversion 1.
  - destruct (Ascii.eqb_spec c d) as [->|D]; split; inversion 1; subst; try constructor; congruence.
  - destruct (p c) eqn:P; split; inversion 1; subst; try constructor; congruence.
  - assert (forall s, lang (Cat a b) (c :: s) <->
      (exists s1 s2, s = s1 ++ s2 /\ lang a (c :: s1) /\ lang b s2) \/ (lang a [] /\ lang b (c :: s))) as K.
    { intros s'. split.
      - inversion 1 as [| | |? ? s1 s2 Ha Hb E| | | |]; subst. destruct s1 as [|c' s1].
        + cbn in H1. subst. right. auto.
        + cbn in H1. injection H1 as -> <-. left. exists s1, s2. auto.
      - intros [(s1 & s2 & -> & Ha & Hb)|[Ha Hb]].
        + exact (L_cat a b (c :: s1) s2 Ha Hb).
        + exact (L_cat a b [] (c :: s') Ha Hb). }
    assert (forall s, lang (Cat (deriv c a) b) s <-> exists s1 s2, s = s1 ++ s2 /\ lang a (c :: s1) /\ lang b s2) as D.
    { intros s'. split.
      - inversion 1; subst. eexists _, _. split; [reflexivity|]. split; [apply IHa|]; assumption.
      - intros (s1 & s2 & -> & Ha & Hb). constructor; [apply IHa|]; assumption. }
    rewrite K. destruct (nullable a) eqn:Na.
    + split.
      * inversion 1; subst; [left; apply D; assumption|right; split; [apply nullable_iff; exact Na|apply IHb; assumption]].
      * intros [H|[_ H]]; [apply L_left, D; exact H|apply L_right, IHb; exact H].
    + rewrite D. split; [auto|]. intros [H|[H _]]; [exact H|].
      apply nullable_iff in H. congruence.
  - split.
    + inversion 1; subst; [apply L_left, IHa|apply L_right, IHb]; assumption.
    + inversion 1; subst; [apply L_left, IHa|apply L_right, IHb]; assumption.
  - split.
    + inversion 1 as [| | |? ? s1 s2 Ha Hb E| | | |]; subst. apply IHa in Ha.
      exact (L_more a (c :: s1) s2 Ha Hb).
    + intros H. destruct (star_cons a _ H c s eq_refl) as (s1 & s2 & -> & Ha & Hs).
      constructor; [apply IHa; exact Ha|exact Hs].
Qed.
Theorem regex_match_iff : forall s r, regex_match r s = true <-> lang r s.
Proof.
  induction s as [|c s IH]; cbn; intros r; [apply nullable_iff|].
  rewrite IH. apply deriv_iff.
Qed.

(** ** The router *)
Lemma verb_eqb_iff : forall a b, verb_eqb a b = true <-> a = b.
Proof.
  intros [| |n] [| |m]; cbn; split; intros H; try discriminate; try reflexivity.
  - apply Nat.eqb_eq in H; congruence.
  - injection H as ->. apply Nat.eqb_refl.
Qed.

Section Router.
Context {B W : Type} (plain : str -> B).
Notation handle_request := (handle_request (W := W) plain).

Lemma meant_iff : forall q (r : resource B W),
  verb_eqb (rmethod r) (method q) && regex_match (rtarget r) (target q) = true <-> meant_for q r.
Proof. intros q r. rewrite andb_true_iff, verb_eqb_iff, regex_match_iff. reflexivity. Qed.

Lemma find_first : forall (rs : list (resource B W)) q r,
  find (fun r => verb_eqb (rmethod r) (method q) && regex_match (rtarget r) (target q)) rs = Some r <-> answers rs q r.
Proof.
  induction rs as [|r0 rs IH]; cbn; intros q r.
  - split; [discriminate|]. intros ([|] & post & E & _); discriminate.
  - destruct (verb_eqb (rmethod r0) (method q) && regex_match (rtarget r0) (target q)) eqn:E.
    + apply meant_iff in E. split.
      * intros H; injection H as <-. exists [], rs. repeat split; try apply E. intros p [].
      * intros ([|p pre] & post & H & _ & N); cbn in H; injection H as -> H; [reflexivity|].
        exfalso. apply (N p (or_introl eq_refl)). exact E.
    + assert (~ meant_for q r0) as D by (intros H; apply meant_iff in H; congruence).
      rewrite IH. split.
      * intros (pre & post & -> & F & N). exists (r0 :: pre), post. repeat split; try apply F.
        intros p [<-|H]; auto.
      * intros ([|p pre] & post & H & F & N); cbn in H; injection H as -> H; [contradiction|].
        exists pre, post. repeat split; try apply F; [exact H|]. intros p' H'; apply N; right; exact H'.
Qed.
Lemma find_nobody : forall (rs : list (resource B W)) q,
  find (fun r => verb_eqb (rmethod r) (method q) && regex_match (rtarget r) (target q)) rs = None <->
  forall r, In r rs -> ~ meant_for q r.
Proof.
  induction rs as [|r0 rs IH]; cbn; intros q; [split; [intros _ r []|reflexivity]|].
  destruct (verb_eqb (rmethod r0) (method q) && regex_match (rtarget r0) (target q)) eqn:E.
  - apply meant_iff in E. split; [discriminate|]. intros H. exfalso. apply (H r0); auto.
  - rewrite IH. split.
    + intros H r [<-|I]; [intros F; apply meant_iff in F; congruence|auto].
    + intros H r I; auto.
Qed.

Theorem first_answers : forall (rs : list (resource B W)) q r w, answers rs q r ->
  match rhandler r q w with
  | (w', Returns x) => handle_request rs q w = (w', Some x)
  | (w', Throws what) => handle_request rs q w = (w', Some (Res 500 (lit "text/html") (plain what)))
  | (w', ThrowsOther) => handle_request rs q w = (w', None)
  end.
Proof.
  intros rs q r w H. apply find_first in H. unfold ServerModel.handle_request. rewrite H.
  destruct (rhandler r q w) as [w' [x|what|]]; reflexivity.
Qed.
Theorem nobody_answers : forall (rs : list (resource B W)) q w, (forall r, In r rs -> ~ meant_for q r) ->
  handle_request rs q w = (w, Some (Res 404 (lit "text/html") (plain (lit "Not found")))).
Proof. intros rs q w H. apply find_nobody in H. unfold ServerModel.handle_request. rewrite H. reflexivity. Qed.
Theorem one_or_none : forall (rs : list (resource B W)) q,
  (exists r, answers rs q r /\ forall r', answers rs q r' -> r' = r) \/
  ((forall r, In r rs -> ~ meant_for q r) /\ forall r, ~ answers rs q r).
Proof.
  intros rs q.
  destruct (find (fun r : resource B W => verb_eqb (rmethod r) (method q) && regex_match (rtarget r) (target q)) rs) as [r|] eqn:E.
  - left. exists r. split; [apply find_first; exact E|]. intros r' H. apply find_first in H. congruence.
  - right. split; [apply find_nobody; exact E|]. intros r H. apply find_first in H. congruence.
Qed.
Lemma route_all : forall (rs rs0 : list (resource B W)), fold_left route rs rs0 = rs0 ++ rs.
Proof.
  induction rs as [|r rs IH]; cbn; intros rs0; [rewrite app_nil_r; reflexivity|].
  rewrite IH. unfold route. rewrite <- app_assoc. reflexivity.
Qed.

Theorem session_conversation : forall rs i w w' xs e,
  session plain rs w i = (w', xs, e) <-> conversation (handle_request rs) w i w' xs e.
Proof.
  intros rs i. induction i as [|[[q k]|] i IH]; cbn; intros w w' xs e.
  - split; [intros H; injection H as <- <- <-; constructor|inversion 1; reflexivity].
  - destruct (handle_request rs q w) as [w1 [x|]] eqn:E.
    + destruct k.
      * destruct (session plain rs w1 i) as [[w2 xs2] e2] eqn:S. split.
        -- intros H; injection H as <- <- <-. econstructor; [exact E|]. apply IH; exact S.
        -- inversion 1; subst; try congruence.
           assert (w'0 = w1 /\ x0 = x) as [-> ->] by (split; congruence).
           match goal with C : conversation _ _ _ _ _ _ |- _ => apply IH in C; rewrite S in C; injection C as <- <- <- end.
           reflexivity.
      * split.
        -- intros H; injection H as <- <- <-. constructor; exact E.
        -- inversion 1; subst; congruence.
    + split.
      * intros H; injection H as <- <- <-. econstructor; exact E.
      * inversion 1; subst; congruence.
  - split; [intros H; injection H as <- <- <-; constructor|inversion 1; reflexivity].
Qed.
End Router.

(** ** The languages of the routes *)
Lemma lang_word : forall s t, lang (word_re s) t <-> t = s.
Proof.
  induction s as [|c s IH]; cbn; intros t.
  - split; [inversion 1; reflexivity|intros ->; constructor].
  - split.
    + inversion 1 as [| | |? ? s1 s2 Ha Hb E| | | |]; subst. inversion Ha; subst. apply IH in Hb. subst. reflexivity.
    + intros ->. apply (L_cat (Chr c) (word_re s) [c] s); [constructor|apply IH; reflexivity].
Qed.
Lemma lang_cat : forall a b t, lang (Cat a b) t <-> exists s1 s2, t = s1 ++ s2 /\ lang a s1 /\ lang b s2.
Proof.
  intros a b t. split.
  - inversion 1; subst. eauto.
  - intros (s1 & s2 & -> & Ha & Hb). constructor; assumption.
Qed.
Lemma lang_opt : forall c t, lang (opt (Chr c)) t <-> t = [] \/ t = [c].
Proof.
  intros c t. split.
  - inversion 1 as [| | | |? ? ? H1|? ? ? H1| |]; subst; inversion H1; auto.
  - intros [-> | ->]; [apply L_right|apply L_left]; constructor.
Qed.
Lemma lang_star_class : forall p t, lang (Star (Class p)) t <-> forall c, In c t -> p c = true.
Proof.
  intros p t. split.
  - intros H. remember (Star (Class p)) as r eqn:R. induction H; try discriminate; injection R as R; subst.
    + intros x [].
    + intros x Hx. apply in_app_iff in Hx. destruct Hx as [Hx|Hx]; [|apply IHlang2; auto].
      inversion H; subst. destruct Hx as [<-|[]]. assumption.
  - induction t as [|c t IH]; intros H; [constructor|].
    apply (L_more _ [c] t); [constructor; apply H; left; reflexivity|apply IH; intros; apply H; right; assumption].
Qed.
Lemma lang_plus_class : forall p t, lang (plus (Class p)) t <-> t <> [] /\ forall c, In c t -> p c = true.
Proof.
  intros p t. unfold plus. rewrite lang_cat. split.
  - intros (s1 & s2 & -> & Ha & Hb). inversion Ha; subst. rewrite lang_star_class in Hb.
    split; [discriminate|]. intros x [<-|Hx]; auto.
  - intros [N H]. destruct t as [|c t]; [contradiction|]. exists [c], t. split; [reflexivity|].
    split; [constructor; apply H; left; reflexivity|]. apply lang_star_class. intros; apply H; right; assumption.
Qed.

(** ** Numbers *)
Lemma digit_char : forall c, is_digit c = true <-> exists d, (d < 10)%N /\ c = ascii_of_N (48 + d).
Proof.
  intros c. unfold is_digit. rewrite andb_true_iff, !Nat.leb_le. unfold nat_of_ascii. split.
  - intros [L U]. exists (N_of_ascii c - 48)%N. split; [lia|].
    replace (48 + (N_of_ascii c - 48))%N with (N_of_ascii c) by lia. symmetry. apply ascii_N_embedding.
  - intros (d & L & ->). rewrite N_ascii_embedding by lia. lia.
Qed.
Lemma digit_of : forall d, (d < 10)%N -> digit (ascii_of_N (48 + d)) = d.
Proof. intros d L. unfold digit. rewrite N_ascii_embedding by lia. lia. Qed.
Lemma numeral_snoc : forall s c, numeral (s ++ [c]) = (10 * numeral s + digit c)%N.
Proof. intros s c. unfold numeral. rewrite fold_left_app. reflexivity. Qed.
Lemma denotes_numeral : forall s n, denotes s n -> numeral s = n /\ forall c, In c s -> is_digit c = true.
Proof.
  induction 1 as [|s n c d H [IH J] L ->].
  - split; [reflexivity|intros c []].
  - split; [rewrite numeral_snoc, IH, digit_of by exact L; reflexivity|].
    intros c Hc. apply in_app_iff in Hc. destruct Hc as [Hc|[<-|[]]]; auto.
    apply digit_char. eauto.
Qed.
Lemma numeral_denotes : forall s, (forall c, In c s -> is_digit c = true) -> denotes s (numeral s).
Proof.
  intros s. induction s as [|c s IH] using rev_ind; intros H; [constructor|].
  rewrite numeral_snoc. assert (is_digit c = true) as Dc by (apply H, in_app_iff; right; left; reflexivity).
  apply digit_char in Dc. destruct Dc as (d & L & E). subst c.
  rewrite digit_of by exact L. econstructor; eauto. apply IH. intros; apply H, in_app_iff; auto.
Qed.
Lemma digits_iff : forall s, digits s <-> s <> [] /\ forall c, In c s -> is_digit c = true.
Proof.
  intros s. unfold digits. split; intros [N H]; split; try exact N.
  - destruct H as (n & H). apply denotes_numeral in H. apply H.
  - exists (numeral s). apply numeral_denotes. exact H.
Qed.
Lemma slash_not_digit : is_digit slash = false.
Proof. reflexivity. Qed.
Lemma no_slash : forall s, (forall c, In c s -> is_digit c = true) -> existsb (Ascii.eqb slash) s = false.
Proof.
  induction s as [|c s IH]; cbn -[is_digit Ascii.eqb]; intros H; [reflexivity|].
  rewrite IH by (intros; apply H; auto). destruct (Ascii.eqb_spec slash c) as [<-|D]; [|reflexivity].
  specialize (H slash (or_introl eq_refl)). rewrite slash_not_digit in H. discriminate.
Qed.
Lemma last_slash : forall pre s, existsb (Ascii.eqb slash) s = false ->
  after_last_slash (pre ++ slash :: s) = s.
Proof.
  induction pre as [|c pre IH]; intros s H.
  - cbn -[Ascii.eqb]. rewrite H, Ascii.eqb_refl. reflexivity.
  - cbn -[Ascii.eqb slash]. rewrite existsb_app. cbn -[Ascii.eqb slash]. rewrite Ascii.eqb_refl. cbn [orb].
    rewrite orb_true_r. apply IH; exact H.
Qed.

(** ** The debug server *)
Section Debug.
Context {M A : Type} (bits : N).
Notation server := (server M A).
Notation serve := (serve (M := M) (A := A) bits).

Definition r_api : resource (dbody M A) server := Rsc Get (Cat (word_re (lit "/api")) (opt (Chr slash))) get_api.
Definition r_step : resource (dbody M A) server := Rsc Get (Cat (word_re (lit "/api/step/")) (plus (Class is_digit))) (get_step bits).
Definition r_goto : resource (dbody M A) server := Rsc Post (Cat (word_re (lit "/api/goto/")) (plus (Class is_digit))) (post_goto bits).
Definition r_action (s : string) (a : daction A) : resource (dbody M A) server := Rsc Post (word_re (lit s)) (post_action a).
Definition r_file : resource (dbody M A) server := Rsc Get (Cat (opt (Chr slash)) (Star (Class dot))) get_file.
Lemma routes_are : routes bits =
  [r_api; r_step; r_goto; r_action "/api/undo" Undo; r_action "/api/redo" Redo;
   r_action "/api/pause" Pause; r_action "/api/resume" Resume; r_file].
Proof. reflexivity. Qed.

Lemma m_api : forall q, meant_for q r_api <-> method q = Get /\ (target q = lit "/api" \/ target q = lit "/api/").
Proof.
  intros q. unfold meant_for, r_api. cbn [rmethod rtarget]. rewrite lang_cat. split.
  - intros [E (s1 & s2 & T & H1 & H2)]. apply lang_word in H1. apply lang_opt in H2. subst s1.
    split; [auto|]. destruct H2 as [-> | ->]; rewrite T; auto.
  - intros [E [T|T]]; split; auto; exists (lit "/api").
    + exists []. rewrite app_nil_r. repeat split; [exact T|apply lang_word; reflexivity|apply lang_opt; auto].
    + exists [slash]. repeat split; [exact T|apply lang_word; reflexivity|apply lang_opt; auto].
Qed.
Lemma m_step : forall q, meant_for q r_step <-> method q = Get /\ exists s, target q = lit "/api/step/" ++ s /\ digits s.
Proof.
  intros q. unfold meant_for, r_step. cbn [rmethod rtarget]. rewrite lang_cat. split.
  - intros [E (s1 & s2 & T & H1 & H2)]. apply lang_word in H1. apply lang_plus_class in H2. subst s1.
    split; [auto|]. exists s2. split; [exact T|]. apply digits_iff; exact H2.
  - intros [E (s & T & D)]; split; auto. exists (lit "/api/step/"), s.
    repeat split; [exact T|apply lang_word; reflexivity|apply lang_plus_class, digits_iff; exact D].
Qed.
Lemma m_goto : forall q, meant_for q r_goto <-> method q = Post /\ exists s, target q = lit "/api/goto/" ++ s /\ digits s.
Proof.
  intros q. unfold meant_for, r_goto. cbn [rmethod rtarget]. rewrite lang_cat. split.
  - intros [E (s1 & s2 & T & H1 & H2)]. apply lang_word in H1. apply lang_plus_class in H2. subst s1.
    split; [auto|]. exists s2. split; [exact T|]. apply digits_iff; exact H2.
  - intros [E (s & T & D)]; split; auto. exists (lit "/api/goto/"), s.
    repeat split; [exact T|apply lang_word; reflexivity|apply lang_plus_class, digits_iff; exact D].
Qed.
Lemma m_action : forall q s a, meant_for q (r_action s a) <-> method q = Post /\ target q = lit s.
Proof.
  intros q s a. unfold meant_for, r_action. cbn [rmethod rtarget]. rewrite lang_word. split; intros [E T]; split; auto.
Qed.
Lemma m_file : forall q, meant_for q r_file <-> method q = Get /\ forall c, In c (target q) -> dot c = true.
Proof.
  intros q. unfold meant_for, r_file. cbn [rmethod rtarget]. rewrite lang_cat. split.
  - intros [E (s1 & s2 & T & H1 & H2)]. apply lang_opt in H1. rewrite lang_star_class in H2.
    split; [auto|]. rewrite T. intros c Hc. apply in_app_iff in Hc. destruct Hc as [Hc|Hc]; [|auto].
    destruct H1 as [-> | ->]; [destruct Hc|destruct Hc as [<-|[]]; reflexivity].
  - intros [E D]. split; auto. exists [], (target q). repeat split; [apply lang_opt; auto|apply lang_star_class; exact D].
Qed.

(** Targets that begin alike. *)
Lemma prefix_ne : forall (n : nat) (a b : str), firstn n a <> firstn n b -> a <> b.
Proof. intros n a b N E. apply N. congruence. Qed.

Lemma serve_by : forall q s r, answers (routes bits) q r -> 
  match rhandler r q s with
  | (w', Returns x) => serve q s = (w', Some x)
  | (w', Throws what) => serve q s = (w', Some (Res 500 (lit "text/html") (Plain what)))
  | (w', ThrowsOther) => serve q s = (w', None)
  end.
Proof. intros q s r H. apply (first_answers Plain). exact H. Qed.

Ltac other := intros H;
  repeat match type of H with
  | meant_for _ r_api => apply m_api in H
  | meant_for _ r_step => apply m_step in H
  | meant_for _ r_goto => apply m_goto in H
  | meant_for _ (r_action _ _) => apply m_action in H
  end; cbn [method target] in H.

Theorem serve_api : forall q s, method q = Get -> target q = lit "/api" \/ target q = lit "/api/" ->
  serve q s = (s, Some (Res 200 (lit "application/json")
                 (Info (program s) (List.length (history (model_ s))) (cursor (model_ s)) (paused (model_ s))))).
Proof.
  intros q s E T. apply (serve_by q s r_api). exists [], (tl (routes bits)).
  split; [reflexivity|]. split; [apply m_api; auto|]. intros p [].
Qed.
Theorem serve_step : forall t n s, denotes t n -> t <> [] ->
  serve (Req Get (lit "/api/step/" ++ t)) s =
  if (n <? 2 ^ bits)%N
  then match lookup (model_ s) (N.to_nat n) with
       | Some (a, m) => (s, Some (Res 200 (lit "application/json") (Step a m)))
       | None => (s, Some (Res 500 (lit "text/html") (Plain (lit "bad cursor"))))
       end
  else (s, Some (Res 500 (lit "text/html") (Plain (lit "stoul")))).
Proof.
  intros t n s D N. destruct (denotes_numeral t n D) as [E C].
  assert (answers (routes bits) (Req Get (lit "/api/step/" ++ t)) r_step) as H.
  { exists [r_api], (tl (tl (routes bits))). split; [reflexivity|]. split.
    - apply m_step. cbn. split; [reflexivity|]. exists t. split; [reflexivity|]. split; [exact N|eauto].
    - intros p [<-|[]]. other. destruct H as [_ [H|H]]; discriminate H. }
  assert (Q := serve_by _ s _ H). cbn [rhandler r_step] in Q. unfold get_step in Q. cbn [target] in Q.
  change (lit "/api/step/" ++ t) with (lit "/api/step" ++ slash :: t) in Q at 1.
  rewrite (last_slash (lit "/api/step") t (no_slash t C)) in Q. unfold stoul in Q. rewrite E in Q.
  destruct (n <? 2 ^ bits)%N.
  - destruct (lookup (model_ s) (N.to_nat n)) as [[a m]|]; exact Q.
  - exact Q.
Qed.
Theorem serve_goto : forall t n s, denotes t n -> t <> [] ->
  serve (Req Post (lit "/api/goto/" ++ t)) s =
  if (n <? 2 ^ bits)%N
  then (set_sent (sent s ++ [Goto (N.to_nat n)]) s, Some (Res 200 (lit "text/html") (Plain [])))
  else (s, Some (Res 500 (lit "text/html") (Plain (lit "stoul")))).
Proof.
  intros t n s D N. destruct (denotes_numeral t n D) as [E C].
  assert (answers (routes bits) (Req Post (lit "/api/goto/" ++ t)) r_goto) as H.
  { exists [r_api; r_step], (tl (tl (tl (routes bits)))). split; [reflexivity|]. split.
    - apply m_goto. cbn. split; [reflexivity|]. exists t. split; [reflexivity|]. split; [exact N|eauto].
    - intros p [<-|[<-|[]]]; other; destruct H as [H _]; discriminate H. }
  assert (Q := serve_by _ s _ H). cbn [rhandler r_goto] in Q. unfold post_goto in Q. cbn [target] in Q.
  change (lit "/api/goto/" ++ t) with (lit "/api/goto" ++ slash :: t) in Q at 1.
  rewrite (last_slash (lit "/api/goto") t (no_slash t C)) in Q. unfold stoul in Q. rewrite E in Q.
  destruct (n <? 2 ^ bits)%N; exact Q.
Qed.
Theorem serve_action : forall p a s,
  In (p, a) [("/api/undo", Undo); ("/api/redo", Redo); ("/api/pause", Pause); ("/api/resume", Resume)]%string ->
  serve (Req Post (lit p)) s = (set_sent (sent s ++ [a]) s, Some (Res 200 (lit "text/html") (Plain []))).
Proof.
  intros p a s H.
  assert (answers (routes bits) (Req Post (lit p)) (r_action p a)) as K.
  { rewrite routes_are. destruct H as [H|[H|[H|[H|[]]]]]; injection H as <- <-.
    - exists [r_api; r_step; r_goto]; eexists; split; [reflexivity|]; split; [apply m_action; auto|].
      intros p [<-|[<-|[<-|[]]]]; other; try (destruct H as [H _]; discriminate H).
      destruct H as [_ (t & T & _)]. discriminate T.
    - exists [r_api; r_step; r_goto; r_action "/api/undo" Undo]; eexists; split; [reflexivity|]; split; [apply m_action; auto|].
      intros p [<-|[<-|[<-|[<-|[]]]]]; other; try (destruct H as [H _]; discriminate H).
      + destruct H as [_ (t & T & _)]. discriminate T.
      + destruct H as [_ T]. discriminate T.
    - exists [r_api; r_step; r_goto; r_action "/api/undo" Undo; r_action "/api/redo" Redo]; eexists; split; [reflexivity|]; split; [apply m_action; auto|].
      intros p [<-|[<-|[<-|[<-|[<-|[]]]]]]; other; try (destruct H as [H _]; discriminate H).
      + destruct H as [_ (t & T & _)]. discriminate T.
      + destruct H as [_ T]. discriminate T.
      + destruct H as [_ T]. discriminate T.
    - exists [r_api; r_step; r_goto; r_action "/api/undo" Undo; r_action "/api/redo" Redo; r_action "/api/pause" Pause]; eexists; split; [reflexivity|]; split; [apply m_action; auto|].
      intros p [<-|[<-|[<-|[<-|[<-|[<-|[]]]]]]]; other; try (destruct H as [H _]; discriminate H).
      + destruct H as [_ (t & T & _)]. discriminate T.
      + destruct H as [_ T]. discriminate T.
      + destruct H as [_ T]. discriminate T.
      + destruct H as [_ T]. discriminate T. }
  exact (serve_by _ s _ K).
Qed.

(** Everything else. *)
Definition known_post (t : str) : Prop :=
  In t (map lit ["/api/undo"; "/api/redo"; "/api/pause"; "/api/resume"]%string) \/
  exists d, t = lit "/api/goto/" ++ d /\ digits d.
Theorem serve_unknown : forall q s, method q <> Get -> (method q = Post -> ~ known_post (target q)) ->
  serve q s = (s, Some (Res 404 (lit "text/html") (Plain (lit "Not found")))).
Proof.
  intros q s G P. apply (nobody_answers Plain). rewrite routes_are.
  intros r [<-|[<-|[<-|[<-|[<-|[<-|[<-|[<-|[]]]]]]]]] H.
  - apply m_api in H. tauto.
  - apply m_step in H. tauto.
  - apply m_goto in H. destruct H as [E H]. apply (P E). right. exact H.
  - apply m_action in H. destruct H as [E T]. apply (P E). left. rewrite T. cbn; auto.
  - apply m_action in H. destruct H as [E T]. apply (P E). left. rewrite T. cbn; auto.
  - apply m_action in H. destruct H as [E T]. apply (P E). left. rewrite T. cbn; auto.
  - apply m_action in H. destruct H as [E T]. apply (P E). left. rewrite T. cbn; auto.
  - apply m_file in H. tauto.
Qed.

(** Files. *)
Definition known_get (t : str) : Prop :=
  t = lit "/api" \/ t = lit "/api/" \/ exists d, t = lit "/api/step/" ++ d /\ digits d.
Theorem serve_file : forall t s, ~ known_get t -> (forall c, In c t -> dot c = true) ->
  serve (Req Get t) s =
  (s, Some match files s (full_path s t) with
           | Some content => Res 200 (mime_type (full_path s t)) (Plain content)
           | None => Res 404 (lit "text/html") (Plain (lit "Not found"))
           end).
Proof.
  intros t s K D.
  assert (answers (routes bits) (Req Get t) r_file) as H.
  { rewrite routes_are. eexists [_; _; _; _; _; _; _], []. split; [reflexivity|].
    split; [apply m_file; auto|].
    intros r [<-|[<-|[<-|[<-|[<-|[<-|[<-|[]]]]]]]]; other; try (destruct H as [H _]; discriminate H); apply K; unfold known_get; tauto. }
  assert (Q := serve_by _ s _ H). cbn [rhandler r_file] in Q. unfold get_file in Q. cbn [target] in Q.
  destruct (files s (full_path s t)); exact Q.
Qed.

(** A GET request changes nothing, and there always is a response. *)
Theorem serve_get : forall q s, method q = Get -> fst (serve q s) = s.
Proof.
  intros q s G. destruct (one_or_none (W := server) (routes bits) q) as [(r & H & _)|[H _]].
  - assert (Q := serve_by q s r H). destruct H as (pre & post & E & F & _).
    assert (In r (routes bits)) as I by (rewrite E; apply in_app_iff; right; left; reflexivity).
    rewrite routes_are in I.
    destruct I as [<-|[<-|[<-|[<-|[<-|[<-|[<-|[<-|[]]]]]]]]].
    + cbn in Q. rewrite Q. reflexivity.
    + cbn [rhandler r_step] in Q. unfold get_step in Q. destruct (stoul bits (after_last_slash (target q))).
      * destruct (lookup (model_ s) n) as [[a m]|]; cbn in Q; rewrite Q; reflexivity.
      * rewrite Q; reflexivity.
    + apply m_goto in F. destruct F; congruence.
    + apply m_action in F. destruct F; congruence.
    + apply m_action in F. destruct F; congruence.
    + apply m_action in F. destruct F; congruence.
    + apply m_action in F. destruct F; congruence.
    + cbn [rhandler r_file] in Q. unfold get_file in Q. destruct (files s (full_path s (target q))); cbn in Q; rewrite Q; reflexivity.
  - unfold serve. rewrite (nobody_answers Plain _ _ _ H). reflexivity.
Qed.
Theorem serve_responds : forall q s, exists x, snd (serve q s) = Some x.
Proof.
  intros q s. unfold ServerModel.serve, handle_request.
  destruct (find (fun r : resource (dbody M A) server => verb_eqb (rmethod r) (method q) && regex_match (rtarget r) (target q)) (routes bits)) as [r|] eqn:E; [|cbn; eauto].
  apply find_some in E. destruct E as [I _]. rewrite routes_are in I.
  destruct I as [<-|[<-|[<-|[<-|[<-|[<-|[<-|[<-|[]]]]]]]]]; cbn [rhandler r_api r_step r_goto r_action r_file].
  - cbn. eauto.
  - unfold get_step. destruct (stoul bits (after_last_slash (target q))); [|cbn; eauto].
    destruct (lookup (model_ s) n) as [[a m]|]; cbn; eauto.
  - unfold post_goto. destruct (stoul bits (after_last_slash (target q))); cbn; eauto.
  - cbn; eauto.
  - cbn; eauto.
  - cbn; eauto.
  - cbn; eauto.
  - unfold get_file. destruct (files s (full_path s (target q))); cbn; eauto.
Qed.

(** The model that is shown: that of the last change. *)
Lemma serve_model : forall q s, model_ (fst (serve q s)) = model_ s.
Proof.
  intros q s. unfold ServerModel.serve, handle_request.
  destruct (find (fun r : resource (dbody M A) server => verb_eqb (rmethod r) (method q) && regex_match (rtarget r) (target q)) (routes bits)) as [r|] eqn:E; [|reflexivity].
  apply find_some in E. destruct E as [I _]. rewrite routes_are in I.
  destruct I as [<-|[<-|[<-|[<-|[<-|[<-|[<-|[<-|[]]]]]]]]]; cbn [rhandler r_api r_step r_goto r_action r_file]; try reflexivity.
  - unfold get_step. destruct (stoul bits (after_last_slash (target q))); [|reflexivity].
    destruct (lookup (model_ s) n) as [[a m]|]; reflexivity.
  - unfold post_goto. destruct (stoul bits (after_last_slash (target q))); reflexivity.
  - unfold get_file. destruct (files s (full_path s (target q))); reflexivity.
Qed.
Definition changes (es : list (event M A)) : list (dmodel M A) :=
  flat_map (fun e => match e with Changed m => [m] | Asked _ => [] end) es.
Theorem runs_model : forall (es : list (event M A)) s, model_ (fst (runs bits s es)) = List.last (changes es) (model_ s).
Proof.
  intros es s. unfold runs. generalize (@nil (option (response (dbody M A)))) as out. revert s.
  induction es as [|e es IH]; intros s out; [reflexivity|].
  cbn [fold_left]. destruct e as [m|q]; cbn [happen fst snd].
  - rewrite IH. unfold changes. cbn [flat_map app]. fold (changes es). destruct (changes es) as [|m' ms]; [reflexivity|].
    cbn [set_model model_]. transitivity (List.last (m' :: ms) (model_ s)); [|reflexivity].
    clear. generalize m'. induction ms as [|x ms IH]; intros y; [reflexivity|]. exact (IH x).
  - rewrite IH, serve_model. reflexivity.
Qed.
Definition requests (es : list (event M A)) : list request :=
  flat_map (fun e => match e with Changed _ => [] | Asked q => [q] end) es.
Theorem runs_responses : forall (es : list (event M A)) s,
  List.length (snd (runs bits s es)) = List.length (requests es) /\
  forall x, In x (snd (runs bits s es)) -> x <> None.
Proof.
  intros es s. unfold runs.
  assert (forall out, (forall x, In x out -> x <> None) ->
    List.length (snd (fold_left (happen bits) es (s, out))) = List.length out + List.length (requests es) /\
    forall x, In x (snd (fold_left (happen bits) es (s, out))) -> x <> None) as K.
  { revert s. induction es as [|e es IH]; intros s out H.
    - cbn. split; [lia|exact H].
    - cbn [fold_left]. destruct e as [m|q]; cbn [happen fst snd].
      + apply IH; exact H.
      + destruct (IH (fst (serve q s)) (out ++ [snd (serve q s)])) as [L N].
        * intros x Hx. apply in_app_iff in Hx. destruct Hx as [Hx|[<-|[]]]; [auto|].
          destruct (serve_responds q s) as (y & ->). discriminate.
        * split; [|exact N]. rewrite L, app_length. cbn [List.length requests flat_map app]; fold (requests es); lia. }
  apply (K []). intros x [].
Qed.
End Debug.

(** ** Paths *)
Lemma segments_ne : forall s, segments s <> [].
Proof.
  destruct s as [|c s]; cbn; [discriminate|]. destruct (Ascii.eqb c "/"); [discriminate|].
  destruct (segments s); discriminate.
Qed.
Lemma segments_app : forall a b, segments (a ++ slash :: b) = segments a ++ segments b.
Proof.
  induction a as [|c a IH]; intros b; [reflexivity|]. cbn [app segments]. rewrite IH.
  destruct (Ascii.eqb c "/"); [reflexivity|].
  destruct (segments a) as [|n ns] eqn:E; [destruct (segments_ne a E)|]. reflexivity.
Qed.
Lemma enter_all : forall ns at_, ~ In (lit "..") ns -> exists rest, fold_left enter ns at_ = at_ ++ rest.
Proof.
  induction ns as [|n ns IH]; intros at_ N; cbn [fold_left].
  - exists []. rewrite app_nil_r. reflexivity.
  - destruct (IH (enter at_ n)) as (rest & E); [intros H; apply N; right; exact H|]. rewrite E.
    unfold enter. destruct (list_eq_dec ascii_dec n []); [eauto|].
    destruct (list_eq_dec ascii_dec n (lit ".")); [eauto|].
    destruct (list_eq_dec ascii_dec n (lit "..")) as [->|_]; [exfalso; apply N; left; reflexivity|].
    exists ([n] ++ rest). rewrite app_assoc. reflexivity.
Qed.
Theorem path_below : forall M A (s : server M A) t, ~ In (lit "..") (segments t) ->
  below (resources_path s ++ lit "/gui") (full_path s t).
Proof.
  intros M A s t N. unfold below, leads_to, full_path.
  assert (forall u, ~ In (lit "..") (segments u) -> exists rest,
    fold_left enter (segments (resources_path s ++ lit "/gui" ++ slash :: u)) [] =
    fold_left enter (segments (resources_path s ++ lit "/gui")) [] ++ rest) as K.
  { intros u Nu. rewrite app_assoc, segments_app, fold_left_app.
    apply enter_all. exact Nu. }
  destruct (list_eq_dec ascii_dec t (lit "/")) as [->|_].
  - apply (K (lit "index.html")). cbn. intuition discriminate.
  - apply (K t). exact N.
Qed.

(** ** Types of files *)
Lemma last_dot : forall p e, existsb (Ascii.eqb "."%char) e = false ->
  from_last_dot (p ++ "."%char :: e) = "."%char :: e.
Proof.
  induction p as [|c p IH]; intros e H.
  - cbn -[Ascii.eqb]. rewrite H, Ascii.eqb_refl. reflexivity.
  - cbn -[Ascii.eqb]. rewrite existsb_app. cbn -[Ascii.eqb]. rewrite Ascii.eqb_refl. cbn [orb].
    rewrite orb_true_r. apply IH; exact H.
Qed.
Lemma lower_dot : forall c, lower c = "."%char <-> c = "."%char.
Proof.
  intros c; split; [|intros ->; reflexivity].
  destruct c as [[] [] [] [] [] [] [] []]; vm_compute; intros H; try discriminate H; reflexivity.
Qed.
Lemma no_dot_lower : forall e f, map lower e = map lower f -> existsb (Ascii.eqb "."%char) f = false ->
  existsb (Ascii.eqb "."%char) e = false.
Proof.
  induction e as [|c e IH]; intros [|d f] E H; cbn -[Ascii.eqb lower] in *; try discriminate; [reflexivity|].
  injection E as Ec Ee. apply orb_false_iff in H. destruct H as [Hd Hf]. rewrite (IH f Ee Hf), orb_false_r.
  destruct (Ascii.eqb_spec "."%char c) as [<-|D]; [|reflexivity].
  rewrite (proj2 (lower_dot "."%char) eq_refl) in Ec. symmetry in Ec. apply (proj1 (lower_dot d)) in Ec. subst d.
  rewrite Ascii.eqb_refl in Hd. discriminate.
Qed.
Lemma mime_table : forall p, In p mime_types -> exists e, fst p = "."%char :: e /\
  existsb (Ascii.eqb "."%char) e = false /\
  find (fun x => iequals (fst p) (fst x)) mime_types = Some p.
Proof.
  intros p H. cbv [mime_types map] in H.
  repeat (destruct H as [<-|H]; [eexists; split; [reflexivity|split; vm_compute; reflexivity]|]). destruct H.
Qed.
Lemma find_same : forall X (f g : X -> bool) l, (forall x, f x = g x) -> find f l = find g l.
Proof. intros X f g l E. induction l as [|x l IH]; cbn; [reflexivity|]. rewrite E, IH. reflexivity. Qed.
Theorem mime_known : forall path e p, In p mime_types -> map lower e = map lower (fst p) ->
  mime_type (path ++ e) = snd p.
Proof.
  intros path e p H E. destruct (mime_table p H) as (f & F & N & Q).
  rewrite F in E. destruct e as [|c e]; [discriminate|]. cbn [map] in E. injection E as Ec Ee.
  assert (c = "."%char) as -> by (apply lower_dot; rewrite Ec; reflexivity).
  unfold mime_type. rewrite last_dot by (eapply no_dot_lower; eauto).
  assert (forall x, iequals ("."%char :: e) x = iequals (fst p) x) as I.
  { intros x. unfold iequals. rewrite F. cbn [map]. rewrite Ee. reflexivity. }
  rewrite (find_same _ _ (fun x => iequals (fst p) (fst x)) mime_types (fun x => I (fst x))), Q. reflexivity.
Qed.
Theorem full_path_is : forall M A (s : server M A) t,
  full_path s (lit "/") = resources_path s ++ lit "/gui/index.html" /\
  (t <> lit "/" -> full_path s t = resources_path s ++ lit "/gui/" ++ t).
Proof.
  intros M A s t. unfold full_path. split; [reflexivity|]. intros N.
  destruct (list_eq_dec ascii_dec t (lit "/")); [contradiction|reflexivity].
Qed.

Lemma lower_nat : forall c, nat_of_ascii (lower c) =
  if (65 <=? nat_of_ascii c) && (nat_of_ascii c <=? 90) then nat_of_ascii c + 32 else nat_of_ascii c.
Proof.
  intros c. unfold lower. destruct (_ && _) eqn:E; [|reflexivity].
  apply andb_true_iff in E. destruct E as [_ E]. apply Nat.leb_le in E. apply nat_ascii_embedding. lia.
Qed.
Lemma ascii_nat : forall a b, a = b <-> nat_of_ascii a = nat_of_ascii b.
Proof.
  intros a b. split; [congruence|]. intros H.
  rewrite <- (ascii_nat_embedding a), <- (ascii_nat_embedding b), H. reflexivity.
Qed.
Lemma lower_same : forall a b, lower a = lower b <-> same_letter a b.
Proof.
  intros a b. rewrite ascii_nat, !lower_nat. unfold same_letter.
  assert (K : forall c k, k < 128 -> (c = ascii_of_nat k <-> nat_of_ascii c = k)).
  { intros c k L. rewrite ascii_nat, nat_ascii_embedding by lia. reflexivity. }
  assert (K' : forall k, k < 26 -> (a = ascii_of_nat (65 + k) <-> nat_of_ascii a = 65 + k) /\
    (a = ascii_of_nat (97 + k) <-> nat_of_ascii a = 97 + k) /\
    (b = ascii_of_nat (65 + k) <-> nat_of_ascii b = 65 + k) /\
    (b = ascii_of_nat (97 + k) <-> nat_of_ascii b = 97 + k)) by (intros; repeat split; apply K; lia).
  clear K. rewrite (ascii_nat a b). revert K'. generalize (nat_of_ascii a) (nat_of_ascii b). intros n m K.
  split.
  - intros H. destruct (Nat.eq_dec n m) as [E|E]; [left; exact E|right].
    destruct (65 <=? n) eqn:E1, (n <=? 90) eqn:E2, (65 <=? m) eqn:E3, (m <=? 90) eqn:E4; cbn [andb] in H;
      repeat match goal with
      | H : (_ <=? _) = true |- _ => apply Nat.leb_le in H
      | H : (_ <=? _) = false |- _ => apply Nat.leb_gt in H
      end; try lia.
    + exists (n - 65). split; [lia|]. left. destruct (K (n - 65)) as (Q1 & Q2 & Q3 & Q4); [lia|].
      rewrite Q1, Q4. lia.
    + exists (m - 65). split; [lia|]. right. destruct (K (m - 65)) as (Q1 & Q2 & Q3 & Q4); [lia|].
      rewrite Q2, Q3. lia.
  - intros [->|(k & L & H)]; [reflexivity|]. destruct (K k L) as (Q1 & Q2 & Q3 & Q4).
    rewrite Q1, Q2, Q3, Q4 in H.
    destruct (65 <=? n) eqn:E1, (n <=? 90) eqn:E2, (65 <=? m) eqn:E3, (m <=? 90) eqn:E4; cbn [andb];
      repeat match goal with
      | H : (_ <=? _) = true |- _ => apply Nat.leb_le in H
      | H : (_ <=? _) = false |- _ => apply Nat.leb_gt in H
      end; lia.
Qed.
Lemma lower_all : forall a b, map lower a = map lower b <-> Forall2 same_letter a b.
Proof.
  induction a as [|x a IH]; intros [|y b]; cbn; split; intros H; try discriminate; try (inversion H; fail); auto.
  - injection H as E H. constructor; [apply lower_same; exact E|apply IH; exact H].
  - inversion H; subst. f_equal; [apply lower_same; assumption|apply IH; assumption].
Qed.
Lemma known_table : forall x ty, In (x, ty) known_types <-> In (lit x, lit ty) mime_types.
Proof.
  assert (J : forall s t, lit s = lit t -> s = t).
  { intros s t H. rewrite <- (string_of_list_ascii_of_string s), <- (string_of_list_ascii_of_string t).
    unfold lit in H. rewrite H. reflexivity. }
  intros x ty. unfold mime_types. rewrite in_map_iff. split.
  - intros H. exists (x, ty). split; [reflexivity|].
    cbn [known_types In] in H |- *. tauto.
  - intros ([x' ty'] & E & H). cbn [fst snd] in E. injection E as E1 E2. apply J in E1, E2. subst x' ty'.
    cbn [known_types In] in H |- *. tauto.
Qed.
Theorem mime_ending : forall path e ty, In (e, ty) known_types -> ends_with path e -> mime_type path = lit ty.
Proof.
  intros path e ty H (p & e' & -> & S). apply known_table in H.
  apply (mime_known p e' (lit e, lit ty) H). apply lower_all. exact S.
Qed.
Lemma from_last_dot_suffix : forall s, exists p, s = p ++ from_last_dot s.
Proof.
  induction s as [|c s (p & IH)]; cbn -[Ascii.eqb]; [exists []; reflexivity|].
  destruct (existsb (Ascii.eqb "."%char) s); [exists (c :: p); cbn; congruence|].
  destruct (Ascii.eqb "."%char c); [exists []; reflexivity|]. exists (c :: s). rewrite app_nil_r. reflexivity.
Qed.
Theorem mime_unknown : forall path, (forall e ty, In (e, ty) known_types -> ~ ends_with path e) ->
  mime_type path = lit "application/text".
Proof.
  intros path N. unfold mime_type.
  destruct (find (fun p => iequals (from_last_dot path) (fst p)) mime_types) as [[x ty]|] eqn:E; [|reflexivity].
  exfalso. apply find_some in E. destruct E as [I Q]. cbn [fst] in Q. unfold iequals in Q.
  destruct (list_eq_dec ascii_dec (map lower (from_last_dot path)) (map lower x)) as [Q'|]; [clear Q|discriminate].
  assert (K : exists e t, x = lit e /\ ty = lit t).
  { unfold mime_types in I. apply in_map_iff in I. destruct I as ([e t] & P & _). injection P as <- <-. eauto. }
  destruct K as (e & t & -> & ->). apply known_table in I. apply (N e t I).
  destruct (from_last_dot_suffix path) as (p & F). exists p, (from_last_dot path). split; [exact F|].
  apply lower_all. exact Q'.
Qed.

(** ** Which files, what else *)
Lemma dot_iff : forall c, dot c = true <-> c <> ascii_of_nat 10 /\ c <> ascii_of_nat 13.
Proof.
  intros c. unfold dot. rewrite andb_true_iff, !negb_true_iff, !Nat.eqb_neq, !ascii_nat.
  rewrite !nat_ascii_embedding by lia. reflexivity.
Qed.
Theorem serve_newline : forall M A bits t (s : server M A), In (ascii_of_nat 10) t \/ In (ascii_of_nat 13) t ->
  serve bits (Req Get t) s = (s, Some (Res 404 (lit "text/html") (Plain (lit "Not found")))).
Proof.
  intros M A bits t s H. unfold serve. apply (nobody_answers Plain).
  assert (D : forall u, (forall c, In c u -> dot c = true) -> t <> u).
  { intros u Hu ->. destruct H as [H|H]; apply Hu, dot_iff in H; destruct H; congruence. }
  rewrite routes_are.
  intros r [<-|[<-|[<-|[<-|[<-|[<-|[<-|[<-|[]]]]]]]]] Q.
  - apply m_api in Q. cbn in Q. destruct Q as [_ [Q|Q]]; revert Q; apply D; intros c Hc; cbn in Hc;
      repeat (destruct Hc as [<-|Hc]; [reflexivity|]); destruct Hc.
  - apply m_step in Q. destruct Q as [_ (u & Q & Hu)]. revert Q. apply D. intros c Hc.
    apply in_app_iff in Hc. destruct Hc as [Hc|Hc].
    + cbn in Hc; repeat (destruct Hc as [<-|Hc]; [reflexivity|]); destruct Hc.
    + apply digits_iff in Hu. destruct Hu as [_ Hu]. specialize (Hu c Hc).
      unfold is_digit in Hu. apply andb_true_iff in Hu. destruct Hu as [Hu _]. apply Nat.leb_le in Hu.
      unfold dot. rewrite andb_true_iff, !negb_true_iff, !Nat.eqb_neq. lia.
  - apply m_goto in Q. destruct Q as [Q _]. discriminate.
  - apply m_action in Q. destruct Q as [Q _]. discriminate.
  - apply m_action in Q. destruct Q as [Q _]. discriminate.
  - apply m_action in Q. destruct Q as [Q _]. discriminate.
  - apply m_action in Q. destruct Q as [Q _]. discriminate.
  - apply m_file in Q. destruct Q as [_ Q]. apply (D t Q). reflexivity.
Qed.
Theorem serve_file_chars : forall M A bits t (s : server M A),
  ~ (t = lit "/api" \/ t = lit "/api/" \/ exists d, t = lit "/api/step/" ++ d /\ digits d) ->
  ~ In (ascii_of_nat 10) t -> ~ In (ascii_of_nat 13) t ->
  serve bits (Req Get t) s =
  (s, Some match files s (full_path s t) with
           | Some content => Res 200 (mime_type (full_path s t)) (Plain content)
           | None => Res 404 (lit "text/html") (Plain (lit "Not found"))
           end).
Proof.
  intros M A bits t s K N1 N2. apply serve_file; [exact K|].
  intros c H. apply dot_iff. split; intros ->; contradiction.
Qed.
Theorem last_name : forall s, ~ In slash (after_last_slash s) /\
  (after_last_slash s = s \/ exists p, s = p ++ slash :: after_last_slash s).
Proof.
  induction s as [|c s IH]; cbn -[slash Ascii.eqb]; [auto|]. destruct (existsb (Ascii.eqb slash) s) eqn:E.
  - destruct IH as [N [Q|(p & Q)]]; (split; [exact N|]).
    + exfalso. apply N. rewrite Q. apply existsb_exists in E. destruct E as (x & I & X).
      apply Ascii.eqb_eq in X. subst x. exact I.
    + right. exists (c :: p). cbn. congruence.
  - assert (N : ~ In slash s).
    { intros I. rewrite <- not_true_iff_false in E. apply E, existsb_exists. exists slash. split; [exact I|apply Ascii.eqb_refl]. }
    destruct (Ascii.eqb_spec slash c) as [<-|D].
    + split; [exact N|]. right. exists []. reflexivity.
    + split; [|left; reflexivity]. intros [I|I]; [congruence|contradiction].
Qed.
(** Each request is answered in turn. *)
Theorem runs_in_turn : forall M A bits (es1 es2 : list (event M A)) q s,
  exists x, snd (serve bits q (fst (runs bits s es1))) = Some x /\
    nth_error (snd (runs bits s (es1 ++ Asked q :: es2))) (List.length (requests es1)) = Some (Some x).
Proof.
  intros M A bits es1 es2 q s.
  destruct (serve_responds bits q (fst (runs bits s es1))) as (x & E). exists x. split; [exact E|].
  destruct (runs_responses bits es1 s) as [L _]. rewrite <- L. unfold runs in *.
  rewrite fold_left_app. cbn [fold_left].
  assert (P : forall (es : list (event M A)) y, exists r, snd (fold_left (happen bits) es y) = snd y ++ r).
  { induction es as [|e es IH]; intros y; cbn [fold_left]; [exists []; rewrite app_nil_r; reflexivity|].
    destruct (IH (happen bits y e)) as (r & R). rewrite R. destruct e as [m|q']; cbn [happen fst snd].
    - eauto.
    - rewrite <- app_assoc. eauto. }
  destruct (P es2 (happen bits (fold_left (happen bits) es1 (s, [])) (Asked q))) as (r & R). rewrite R.
  cbn [happen fst snd]. rewrite E. rewrite <- app_assoc, nth_error_app2 by lia.
  rewrite Nat.sub_diag. reflexivity.
Qed.
