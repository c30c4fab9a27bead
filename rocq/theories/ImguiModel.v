(** Model of the user interface of the example program "todo" with ImGui
      /repo/example/todo/imgui/main.cpp

    A frame draws the model that the store has (175); what the user did since the last
    frame is told by the functions of ImGui that draw the widgets.  Actions are posted to the
    SDL loop (160-162), which in the browser, for which alone this program is
    built (/repo/example/CMakeLists.txt:166), runs all that was posted before it draws the next
    frame (sdl.hpp:85-102, C76_complete; what the store does is the subject of the Store files).

    Simplified: which widgets report something in a frame is any choice; the text entered
    is what is in the buffer up to the first 0 and any text here (it has at most 1023
    characters, 33-38); buttons for saving and loading only open a message (66-75). *)
From Coq Require Import List Arith Bool.
From Verif Require Import TodoModel.
Import ListNotations.

(** What ImGui reports in a frame: Enter in the text input (81-89), clicks on the check box
    (43) and on the button "Delete" (51) of the item with a number. *)
Record frame := Frame { entered : option text; checked : nat -> bool; deleted : nat -> bool }.
(** draw of an item, main.cpp:40-54, in a context that adds the index to actions (98-99) *)
Definition draw_item (f : frame) (i : nat) : list model_action :=
  (if checked f i then [At i Toggle] else []) ++ (if deleted f i then [At i Remove] else []).
(** draw, main.cpp:56-107: what is dispatched *)
Definition draw (f : frame) (m : model) : list model_action :=
  match entered f with Some t => [Add t] | None => [] end ++ flat_map (draw_item f) (seq 0 (length m)).
(** The model of the store after a frame: model.cpp:28-49 for all of these *)
Definition next (m : model) (f : frame) : model := fold_left update (draw f m) m.
