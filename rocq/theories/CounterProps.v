(** Property C79: the counter that reads its standard input. *)
From Coq Require Import List Arith Bool Ascii String ZArith.
From Verif Require Import StoreModel CounterModel CounterSpec CounterProofs.
Import ListNotations.

(** For every input the program comes to an end, and has printed the number after every
    character that changed it, and nothing else. *)
Theorem C79_prints : forall input, exists fuel s,
  (forall f, fuel <= f -> program f input = Done None s) /\ world s = changes 0 (numbers 0 input).
Proof. exact prints. Qed.
Print Assumptions C79_prints.
Example C79_demo :
  match program 60 (list_ascii_of_string "++x-..-+a+") with
  | Done None s => world s = [1; 2; 1; 0; -1; 0; 1]%Z
  | _ => False
  end.
Proof. vm_compute. reflexivity. Qed.

(** The last number printed is the value of the counter: what is shown is never out of date
    once something was printed; before that the counter is 0 and nothing is shown. *)
Theorem C79_last : forall input fuel s, program fuel input = Done None s ->
  List.last (world s) 0%Z = fold_left after input 0%Z.
Proof. exact last_number. Qed.
Print Assumptions C79_last.

(** Not every character is answered: one that leaves the number as it is prints nothing. *)
Theorem C79_unanswered : exists fuel s, program fuel ["."%char] = Done None s /\ world s = [].
Proof. exists 20. eexists. split; vm_compute; reflexivity. Qed.
Print Assumptions C79_unanswered.
