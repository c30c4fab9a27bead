(** What the loop in the browser should do, said of what happened (oldest first). *)
From Coq Require Import List Arith Bool.
Import ListNotations.
From Verif Require Import WebModel.

Definition posted (h : list event) : list nat :=
  flat_map (fun e => match e with EPost i => [i] | _ => [] end) h.
Definition called (h : list event) : list nat :=
  flat_map (fun e => match e with ECall i => [i] | _ => [] end) h.
Definition arrived (h : list event) : list nat :=
  flat_map (fun e => match e with EArrive i => [i] | _ => [] end) h.
Definition handled (h : list event) : list nat :=
  flat_map (fun e => match e with EHandle i => [i] | _ => [] end) h.

(** What begins is over before anything else begins. *)
Inductive code := CFn (id : nat) | CHand (id : nat) | CTick.
Definition begins (e : event) : option code :=
  match e with
  | ECall i => Some (CFn i) | EHandle i => Some (CHand i) | ETick _ _ => Some CTick | _ => None
  end.
Definition ends (e : event) : option code :=
  match e with
  | EEnd i => Some (CFn i) | EHandled i => Some (CHand i) | ETicked => Some CTick | _ => None
  end.
Definition alone (h : list event) : Prop :=
  forall a x b y c cx cy, h = a ++ x :: b ++ y :: c -> begins x = Some cx -> begins y = Some cy ->
    exists e, In e b /\ ends e = Some cx.

(** The tick of a frame: all events that were there when the frame began were handled. *)
Definition complete (h : list event) : Prop :=
  forall a t c now dt, h = a ++ EFrame t :: c ++ [ETick now dt] ->
    (forall t', ~ In (EFrame t') c) -> incl (arrived a) (handled (a ++ c)).

(** Every tick is in a frame of its own. *)
Definition framed (h : list event) : Prop :=
  forall a now dt b, h = a ++ ETick now dt :: b ->
    exists a' t c, a = a' ++ EFrame t :: c /\
      forall e, In e c -> (forall t', e <> EFrame t') /\ (forall n d, e <> ETick n d).

(** What a tick is told is the time since the last one. *)
Definition paced (h : list event) : Prop :=
  forall a n d b n' d' c, h = a ++ ETick n d :: b ++ ETick n' d' :: c ->
    (forall e, In e b -> forall m x, e <> ETick m x) -> d' = n' - n.

(** What a tick is told is the time since its frame began. *)
Definition within (h : list event) : Prop :=
  forall a t b now dt c, h = a ++ EFrame t :: b ++ ETick now dt :: c ->
    (forall t', ~ In (EFrame t') b) -> dt = now - t /\ t <= now.

(** Steps of the browser and of what it calls *)
Definition own (l : label) : Prop := match l with LFrame | LGo | LRet _ => True | _ => False end.

(** A program without [finish], [pause] and [resume], whose handler returns true *)
Definition plain (l : label) : list label :=
  match l with LFinish | LPause | LResume => [] | LRet _ => [LRet true] | _ => [l] end.
