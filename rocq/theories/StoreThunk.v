(** A store with thunks does with plain actions what the store without them does. *)
From Coq Require Import List Arith Bool Lia.
From Verif Require Import StoreModel StoreSpec StoreExtraModel.
Import ListNotations.

Section Lift.
Variables M A W : Type.
Notation T := (thunk M A W).
Notation prog := (prog M A W).

(** The same things in both stores. *)
Definition lift_slot (w : option (M -> prog)) : option (M -> StoreModel.prog M T W) :=
  match w with Some w => Some (fun m => lift (w m)) | None => None end.
Definition lift_cbk (c : callback M A W) : callback M T W :=
  match c with CBUser p => CBUser (lift p) | CBFulfil n => CBFulfil n end.
Definition lift_job (j : job M A W) : job M T W :=
  match j with
  | JReduce id p a => JReduce id p (inr a)
  | JEffect id p e => JEffect id p (lift e)
  | JNotify id p => JNotify id p
  | JUser p => JUser (lift p)
  | JCb f c n => JCb f (lift_cbk c) n
  end.
Definition lift_cell (c : cell M A W) : cell M T W :=
  match c with Cell k d l j => Cell k d l (option_map lift_job j) end.
Definition lift_event (e : event M A W) : event M T W :=
  match e with
  | EDisp id a p => EDisp id (inr a) p
  | ERed id m e => ERed id m e
  | ERedFail id => ERedFail id
  | EBegin id e => EBegin id (lift e)
  | ETold id => ETold id
  | EEff id m e => EEff id m (lift e)
  | ELost id => ELost id
  | EEffEnd id f => EEffEnd id f
  | EConn i m => EConn i m
  | EDisc i => EDisc i
  | ESee i m => ESee i m
  | ECommit => ECommit
  | EProm n => EProm n
  | EDone n => EDone n
  | EThen f n c => EThen f n (lift c)
  | ELink f m n => ELink f m n
  | ECb n c => ECb n (lift c)
  | ECbEnd n f => ECbEnd n f
  | EMark n => EMark n
  | EFail => EFail
  end.
Definition lift_st (s : st M A W) : st M T W :=
  St (cur s) (last s) (nsd s) (nn s) (map lift_slot (slots s)) (map lift_cell (heap s))
     (map lift_job (q s)) (busy s) (clock s) (ndisp s) (world s) (map lift_event (log s)).
Definition lift_res (r : res M A W) : res M T W :=
  match r with
  | Done f s => Done f (lift_st s)
  | Thrown s => Thrown (lift_st s)
  | Misuse => Misuse
  | Deadlock => Deadlock
  | OutOfFuel => OutOfFuel
  end.
Definition lift_task (t : task M A W) : task M T W :=
  match t with
  | TProg p => TProg (lift p)
  | TPost j => TPost (lift_job j)
  | TRun => TRun
  | TDrain => TDrain
  | TJob j => TJob (lift_job j)
  | TNotify => TNotify
  | TSlots i => TSlots i
  | TFulfil n => TFulfil n
  | TThen f c => TThen f (lift_cbk c)
  end.

Variable reducer : M -> A -> option (M * option prog).
Variable eqb : M -> M -> bool.
Variables trans futures manual : bool.
Variable ext : nat -> list A.
Notation exec := (exec reducer eqb trans futures manual ext).
Notation text := (fun n => map (fun a => inr a : T) (ext n)).
Notation texec := (StoreModel.exec (thunk_reducer reducer) eqb trans futures manual text).

Lemma set_nth_map : forall X Y (f : X -> Y) n x l, map f (set_nth n x l) = set_nth n (f x) (map f l).
Proof. induction n as [|n IH]; intros x [|y l]; simpl; auto. now rewrite IH. Qed.
Lemma lift_new_cell : forall k s, lift_st (new_cell k s) = new_cell k (lift_st s).
Proof. intros k s. unfold lift_st, new_cell, set_heap. simpl. now rewrite map_app. Qed.
Lemma lift_upd : forall n c s, lift_st (upd_cell n c s) = upd_cell n (lift_cell c) (lift_st s).
Proof. intros n c s. unfold lift_st, upd_cell, set_heap. simpl. now rewrite set_nth_map. Qed.
Lemma lift_push : forall j s, lift_st (push_job j s) = push_job (lift_job j) (lift_st s).
Proof. intros j s. unfold lift_st, push_job, set_q. simpl. now rewrite map_app. Qed.
Lemma lift_push_down : forall m s, lift_st (push_down eqb m s) = push_down eqb m (lift_st s).
Proof. intros m s. unfold push_down. simpl. destruct (eqb m (cur s)); auto. Qed.
Lemma lift_send_down : forall s, lift_st (send_down s) = send_down (lift_st s).
Proof. intros s. unfold send_down. simpl. destruct (nsd s); auto. Qed.
Lemma lift_new_dispatch : forall a s s1 f j, new_dispatch futures a s = (s1, f, j) ->
  new_dispatch futures (inr a : T) (lift_st s) = (lift_st s1, f, lift_job j).
Proof.
  intros a s s1 f j E. unfold new_dispatch in *. injection E as <- <- <-. simpl. rewrite map_length.
  destruct futures; unfold lift_st, emit, new_cell, set_heap; simpl; rewrite ?map_app; auto.
Qed.
Lemma lift_arrive : forall s, lift_st (arrive futures manual ext s) = arrive futures manual text (lift_st s).
Proof.
  intros s. unfold arrive. destruct manual; auto. change (clock (lift_st s)) with (clock s).
  generalize (ext (clock s)). intros l.
  assert (X : forall l s, lift_st (fold_left (arrive1 futures) l s) =
    fold_left (arrive1 futures) (map (fun a => inr a : T) l) (lift_st s)).
  { clear. induction l as [|a l IH]; intros s; simpl; auto. rewrite IH. f_equal. unfold arrive1.
    destruct (new_dispatch futures a s) as [[s1 f] j] eqn:E.
    rewrite (lift_new_dispatch _ _ _ _ _ E). apply lift_push. }
  rewrite <- X. reflexivity.
Qed.
Lemma lift_andthen : forall r r' k k', r' = lift_res r -> (forall f s, k' f (lift_st s) = lift_res (k f s)) ->
  andthen r' k' = lift_res (andthen r k).
Proof. intros r r' k k' -> H. destruct r; simpl; auto. Qed.
Lemma lift_on_throw : forall r r' h h', r' = lift_res r -> (forall s, h' (lift_st s) = lift_st (h s)) ->
  on_throw r' h' = lift_res (on_throw r h).
Proof. intros r r' h h' -> H. destruct r; simpl; auto. now rewrite H. Qed.
Lemma nth_map : forall X Y (f : X -> Y) l n, nth_error (map f l) n = option_map f (nth_error l n).
Proof. intros X Y f l n. now rewrite nth_error_map. Qed.

Theorem exec_lift : forall fl t s, texec fl (lift_task t) (lift_st s) = lift_res (exec fl t s).
Proof.
  induction fl as [|fl IH]; intros t s; auto.
  assert (IHp : forall p s, texec fl (TProg (lift p)) (lift_st s) = lift_res (exec fl (TProg p) s))
    by (intros p; apply (IH (TProg p))).
  destruct t as [p|j| | |j| |i|n|[f|] c]; cbn [StoreModel.exec lift_task].
  - rewrite <- lift_arrive. generalize (arrive futures manual ext s). clear s. intros s.
    destruct p; cbn [lift]; auto.
    + exact (IHp p (set_world w s)).
    + exact (IHp p (emit (EMark n) s)).
    + destruct (new_dispatch futures a s) as [[s1 f] j] eqn:E. rewrite (lift_new_dispatch _ _ _ _ _ E).
      apply lift_andthen; auto. apply (IH (TPost j)).
    + apply lift_andthen; auto. apply (IH (TThen f (CBUser p))).
    + apply lift_andthen; auto. apply (IH (TPost (JUser p1))).
    + rewrite <- IHp. cbn [heap lift_st]. rewrite map_length.
      replace (lift_st (emit (EProm (length (heap s))) (new_cell KUser s))) with
        (emit (EProm (length (heap s)) : event M T W) (new_cell KUser (lift_st s))); auto.
      rewrite <- lift_new_cell. reflexivity.
    + cbn [heap lift_st]. rewrite nth_map. destruct (nth_error (heap s) n) as [[[| | |] d l c]|]; auto. simpl.
      apply lift_andthen; auto. apply (IH (TFulfil n)).
    + apply lift_andthen; auto. rewrite <- (IH TNotify). f_equal. rewrite lift_send_down. reflexivity.
    + rewrite <- IHp. cbn [slots lift_st]. rewrite map_length. f_equal.
      unfold lift_st, emit, set_slots. simpl. now rewrite map_app.
    + cbn [slots lift_st]. rewrite nth_map. destruct (nth_error (slots s) i) as [[w|]|]; simpl; auto.
      rewrite <- IHp. f_equal. unfold lift_st, emit, set_slots. simpl. now rewrite set_nth_map.
    + cbn [busy lift_st]. destruct (manual || busy s); auto. apply lift_andthen; auto. apply (IH TRun).
    + rewrite IHp. destruct (exec fl (TProg p) s); simpl; auto.
  - cbn [busy lift_st]. rewrite <- lift_push. destruct (manual && negb (busy s)); auto. apply (IH TRun).
  - change (set_busy true (lift_st s)) with (lift_st (set_busy true s)). rewrite (IH TDrain).
    destruct (exec fl TDrain (set_busy true s)); auto.
  - rewrite <- lift_arrive. generalize (arrive futures manual ext s). clear s. intros s.
    cbn [q lift_st]. destruct (q s) as [|j r]; auto. cbn [map]. apply lift_andthen; auto.
    + apply lift_on_throw; auto. apply (IH (TJob j) (set_q r s)).
    + intros _ s1. apply (IH TDrain).
  - destruct j as [id p a|id p e|id p|p|f [c|m] n]; cbn [lift_job lift_cbk].
    + cbn [cur lift_st thunk_reducer]. destruct (reducer (cur s) a) as [[m [e|]]|]; simpl; auto.
      * apply lift_andthen.
        -- apply (IH (TPost (JEffect id p e)) (emit (ERed id m true) s)).
        -- intros f s1. simpl. now rewrite lift_push_down.
      * apply lift_andthen.
        -- destruct trans; [|apply (IH (TPost (JNotify id p)) (emit (ERed id m false) s))].
           destruct p; auto. apply (IH (TFulfil n) (emit (ERed id m false) s)).
        -- intros f s1. simpl. now rewrite lift_push_down.
    + apply lift_andthen.
      * destruct trans; auto. apply lift_on_throw; auto.
        rewrite <- (IH TNotify). f_equal. rewrite lift_send_down. reflexivity.
      * intros _ s1. apply lift_andthen; [apply (IHp e (emit (EEff id (last s1) e) s1))|].
        intros f s2. destruct p; auto. apply (IH (TThen f (CBFulfil n)) (emit (EEffEnd id f) s2)).
    + rewrite <- lift_send_down. apply lift_andthen; [apply (IH TNotify)|]. intros _ s1.
      destruct p; auto. apply (IH (TFulfil n) (emit (ETold id) s1)).
    + apply IHp.
    + apply lift_andthen; [apply (IHp c (emit (ECb n c) s))|].
      intros g s1. apply (IH (TThen g (CBFulfil n)) (emit (ECbEnd n g) s1)).
    + apply lift_andthen; [apply (IH (TFulfil m))|]. intros _ s1. apply (IH (TFulfil n)).
  - cbn [nn nsd lift_st]. destruct (nn s && negb (nsd s)); auto. apply (IH (TSlots 0) (set_nn false s)).
  - cbn [slots last lift_st]. rewrite nth_map. destruct (nth_error (slots s) i) as [[w|]|]; simpl; auto.
    + apply lift_andthen; [|intros _ s1; apply (IH (TSlots (S i)))].
      apply lift_on_throw; auto. apply (IHp (w (last s)) (emit (ESee i (last s)) s)).
    + apply (IH (TSlots (S i))).
  - cbn [heap lift_st]. rewrite nth_map.
    destruct (nth_error (heap s) n) as [[k [|] [|] [j|]]|]; simpl; auto; try (now rewrite lift_upd).
    + change (emit (EDone n) (upd_cell n (Cell k false true None) (lift_st s))) with
        (emit (EDone n) (upd_cell n (lift_cell (Cell k false true None)) (lift_st s))).
      rewrite <- lift_upd.
      change (emit (EDone n) (lift_st (upd_cell n (Cell k false true None) s))) with
        (lift_st (emit (EDone n) (upd_cell n (Cell k false true None) s))).
      rewrite (IH (TPost j)).
      destruct (exec fl (TPost j) (emit (EDone n) (upd_cell n (Cell k false true None) s)));
        simpl; auto; now rewrite lift_upd.
    + f_equal. unfold lift_st, emit, upd_cell, set_heap. simpl. now rewrite set_nth_map.
  - cbn [heap lift_st]. rewrite nth_map. rewrite map_length.
    destruct (nth_error (heap s) f) as [[k [|] [|] [j|]]|]; simpl; auto.
    + match goal with |- match StoreModel.exec _ _ _ _ _ _ _ ?t ?s1 with _ => _ end = lift_res (match exec fl ?t' ?s1' with _ => _ end) =>
        replace s1 with (lift_st s1'); [change t with (lift_task t'); rewrite IH; destruct (exec fl t' s1'); simpl; auto;
          now rewrite lift_upd|] end.
      rewrite lift_upd. destruct c; unfold lift_st, emit, upd_cell, new_cell, set_heap; simpl; now rewrite map_app.
    + rewrite lift_upd. do 2 f_equal.
      destruct c; unfold lift_st, emit, upd_cell, new_cell, set_heap; simpl; now rewrite map_app.
  - destruct c as [c|n]; cbn [lift_cbk]; [apply IHp|apply (IH (TFulfil n))].
Qed.
End Lift.
