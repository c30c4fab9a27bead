(** C74: objects are destroyed when nothing owns them any more; a store with a debugger. *)
From Coq Require Import List Arith Bool Lia.
Import ListNotations.
From Verif Require Import OwnModel OwnSpec OwnProofs OwnDebug.

(** Whatever a program does with its shared pointers, what it can get to is there. *)
Theorem C74_valid ps h x : run ps nothing = Some h -> reached h x -> present h x.
Proof. exact (valid ps h x). Qed.
Print Assumptions C74_valid.

(** The rest is destroyed, at once, when no object owns itself. *)
Theorem C74_destroyed_partial ps h x :
  run ps nothing = Some h -> acyclic h -> present h x -> reached h x.
Proof. exact (run_acyclic ps h x). Qed.
Print Assumptions C74_destroyed_partial.

(** That is so for programs that put objects together when they are made, as the library
    does with its nodes and a store does with its dependencies. *)
Theorem C74_by_age ps h x :
  Forall by_age ps -> run ps nothing = Some h -> (present h x <-> reached h x).
Proof. exact (by_age_exact ps h x). Qed.
Print Assumptions C74_by_age.

(** The only reason why an object is not destroyed: one that owns itself owns it. *)
Theorem C74_leak ps h x :
  run ps nothing = Some h -> present h x -> ~ reached h x ->
  exists o, leads h o o /\ leads h o x /\ ~ reached h o.
Proof. exact (run_leak ps h x). Qed.
Print Assumptions C74_leak.

(** And then it is never destroyed, whatever the program does. *)
Theorem C74_lost ps h x qs h' :
  run ps nothing = Some h -> present h x -> ~ reached h x ->
  run qs h = Some h' -> present h' x /\ ~ reached h' x.
Proof. exact (lost_stays ps h x qs h'). Qed.
Print Assumptions C74_lost.

(** A store with a debugger can be made with any dependencies that the program has. *)
Theorem C74_start before deps h :
  run before nothing = Some h -> incl deps (held h) ->
  exists w, start before deps = Some w /\
            held (ofheap w) = store_of w :: held h /\ first w = length (objs h).
Proof. exact (can_make before deps h). Qed.
Print Assumptions C74_start.

(** It is never destroyed, nor is the server, nor what its dependencies own: in every program,
    before and after. *)
Theorem C74_server_stays before deps w ps w' :
  start before deps = Some w -> wrun ps w = Fine w' ->
  present (ofheap w') (served w') /\ present (ofheap w') (store_of w') /\
  forall d, In d deps -> present (ofheap w') d.
Proof. exact (server_stays before deps w ps w'). Qed.
Print Assumptions C74_server_stays.

(** So the server's thread never uses a store that is gone; ... *)
Theorem C74_server_node before deps w ps :
  start before deps = Some w -> wrun ps w <> Freed NodeGone.
Proof. exact (server_node before deps w ps). Qed.
Print Assumptions C74_server_node.

(** ... and nothing else that is gone, if the program never destroys its loop.
    Missing: programs that destroy it, which is what the examples do. *)
Theorem C74_server_loop_partial before deps w ps u :
  start before deps = Some w -> ~ In EndLoop ps -> wrun ps w <> Freed u.
Proof. exact (server_loop before deps w ps u). Qed.
Print Assumptions C74_server_loop_partial.

(** As long as the loop is there requests are answered; ... *)
Theorem C74_server_answers before deps w ps w' q :
  start before deps = Some w -> wrun ps w = Fine w' -> loop_there w' = true ->
  exists w2, wstep w' (Ask q) = Fine w2 /\
             answers w2 = (match q with Act => true | Look => false end) :: answers w' /\
             ofheap w2 = ofheap w'.
Proof. exact (server_answers before deps w ps w' q). Qed.
Print Assumptions C74_server_answers.

(** ... afterwards the first action that the debugger asks for uses the loop. *)
Theorem C74_server_uses before deps w ps w' :
  start before deps = Some w -> wrun ps w = Fine w' -> loop_there w' = false ->
  wstep w' (Ask Act) = Freed LoopGone.
Proof. exact (server_uses before deps w ps w'). Qed.
Print Assumptions C74_server_uses.

(** The server (0), the store (1) that the program has, and the node in between (2) *)
Definition small : heap :=
  Heap [Obj true [2]; Obj true [0]; Obj true [1]] [1].

(** The claim: when the program has let go of everything, everything is destroyed. *)
Theorem C74_stops_refuted :
  exists before deps w ps w',
    start before deps = Some w /\ wrun ps w = Fine w' /\ held (ofheap w') = [] /\
    present (ofheap w') (served w').
Proof.
  exists [], [], (World small 0 true []), [Client (Drop 1)],
    (World (Heap (objs small) []) 0 true []).
  split; [vm_compute; reflexivity|]. split; [vm_compute; reflexivity|]. split; [reflexivity|].
  exists [2]. reflexivity.
Qed.
Print Assumptions C74_stops_refuted.

(** The claim: a program that destroys its loop after everything that uses it is gone (as C++
    does at the end of main in example/counter/ncurses/main.cpp:61-87 and
    example/autopong/sdl2/main.cpp:150-157) does not use it any more. *)
Theorem C74_loop_refuted :
  exists before deps w ps w',
    start before deps = Some w /\
    wrun ps w = Fine w' /\ held (ofheap w') = [] /\
    wrun (ps ++ [EndLoop; Ask Act]) w = Freed LoopGone.
Proof.
  exists [], [], (World small 0 true []), [Client (Drop 1)],
    (World (Heap (objs small) []) 0 true []).
  split; [vm_compute; reflexivity|]. split; [vm_compute; reflexivity|].
  split; [reflexivity|vm_compute; reflexivity].
Qed.
Print Assumptions C74_loop_refuted.

(** ** Examples *)
(** A store (1) with a dependency (0), two nodes made from it (2, 3) and one made from both
    (4); the program keeps 4 and 3 and lets go of the rest; then lets go of 4. *)
Definition diamond : list op :=
  [Make []; Make [0]; Make [1]; Make [1]; Make [2; 3]; Drop 0; Drop 1; Drop 2].

Example C74_by_age_demo :
  Forall by_age (diamond ++ [Drop 4]) /\
  option_map (fun h => map there (objs h)) (run diamond nothing)
    = Some [true; true; true; true; true] /\
  option_map (fun h => map there (objs h)) (run (diamond ++ [Drop 4]) nothing)
    = Some [true; true; false; true; false] /\
  option_map (fun h => map there (objs h)) (run (diamond ++ [Drop 4; Drop 3]) nothing)
    = Some [false; false; false; false; false].
Proof.
  split; [repeat constructor|]. split; [vm_compute; reflexivity|].
  split; vm_compute; reflexivity.
Qed.

(** Two objects that own each other, and a third that one of them owns: nothing of it is
    destroyed; [Clear] before would do it. *)
Definition cycle : list op := [Make []; Make []; Make [0]; Assign 1 2; Assign 2 1].

Example C74_lost_demo :
  option_map (fun h => map there (objs h)) (run (cycle ++ [Drop 0; Drop 1; Drop 2]) nothing)
    = Some [true; true; true] /\
  option_map (fun h => map there (objs h))
    (run (cycle ++ [Drop 0; Drop 1; Clear 2 1; Drop 2]) nothing) = Some [false; false; false] /\
  option_map (fun h => map there (objs h))
    (run (cycle ++ [Drop 0; Drop 1; Drop 2] ++ [Make []; Copy 3; Drop 3]) nothing)
    = Some [true; true; true; true].
Proof.
  split; [vm_compute; reflexivity|]. split; vm_compute; reflexivity.
Qed.

(** A store (2) with a debugger (1) and a dependency (0), and a node made from it (4): the
    program has the store, the node, then nothing; requests are answered all the time. *)
Example C74_server_demo :
  exists w w',
    start [Make []] [0] = Some w /\ held (ofheap w) = [2; 0] /\
    wrun [Client (Drop 0); Ask Act; Client (Make [2]); Client (Drop 2); Ask Look;
          Client (Drop 4); Ask Act] w = Fine w' /\
    answers w' = [true; false; true] /\ held (ofheap w') = [] /\
    map there (objs (ofheap w')) = [true; true; true; true; false] /\
    wstep (World (ofheap w') (first w') false (answers w')) (Ask Act) = Freed LoopGone.
Proof.
  exists (World (Heap [Obj true []; Obj true [3]; Obj true [1; 0]; Obj true [2]] [2; 0])
                1 true []).
  exists (World (Heap [Obj true []; Obj true [3]; Obj true [1; 0]; Obj true [2]; Obj false []] [])
                1 true [true; false; true]).
  split; [vm_compute; reflexivity|]. split; [reflexivity|]. split; [vm_compute; reflexivity|].
  split; [reflexivity|]. split; [reflexivity|]. split; [reflexivity|].
  vm_compute; reflexivity.
Qed.
