(** The counter that reads its standard input: example/counter/counter.hpp and
    example/counter/std/main.cpp, as a client of the store of StoreModel.v.

    Simplified: the counter does not overflow; of what is printed only the numbers are kept.
    [cin >> event] (main.cpp:42) skips white space: the input is the characters that are not,
    of which those without an intent are also passed over (29-30, 43). *)
From Coq Require Import List Bool Ascii ZArith.
From Verif Require Import StoreModel.
Import ListNotations.
Local Open Scope Z_scope.

(** counter.hpp:27-35 *)
Inductive action := Increment | Decrement | Reset (new_value : Z).
(** counter.hpp:37-46; no effect; LAGER_STRUCT (50) gives models an operator== *)
Definition update (c : Z) (a : action) : option (Z * option (prog Z action (list Z))) :=
  Some (match a with
        | Increment => c + 1
        | Decrement => c - 1
        | Reset v => v
        end, None).
(** main.cpp:18-21; the world is what was printed *)
Definition draw (curr : Z) : prog Z action (list Z) :=
  PWorld (fun out => PSet (out ++ [curr]) (PRet None)).
(** main.cpp:23-33 *)
Definition intent (event : ascii) : option action :=
  match event with
  | "+"%char => Some Increment
  | "-"%char => Some Decrement
  | "."%char => Some (Reset 0)
  | _ => None
  end.
(** main.cpp:41-45 *)
Fixpoint loop (input : list ascii) : prog Z action (list Z) :=
  match input with
  | [] => PRet None
  | event :: r =>
      match intent event with
      | Some act => PDispatch act (fun _ => loop r)
      | None => loop r
      end
  end.
(** main.cpp:35-46: model 0, the manual loop, no tags, nothing printed before *)
Definition main (input : list ascii) : prog Z action (list Z) :=
  PWatch draw (fun _ => loop input).
Definition program (fuel : nat) (input : list ascii) : res Z action (list Z) :=
  run update Z.eqb false false true (fun _ => []) fuel 0 [] (main input).
