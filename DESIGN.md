# Formal model of lager in Coq 8.16.1 — design

## Layout

    rocq/theories/<Area>Model.v   definitions only, each citing /repo file:lines
    rocq/theories/<Area>Spec.v    vocabulary of the statements, independent of
                                  the helpers of the model
    rocq/theories/<Area>*.v       lemmas and proofs
    rocq/theories/<Area>Props.v   property theorems (closed by `exact lemma`),
                                  Print Assumptions, Examples meeting the
                                  hypotheses, refuted clauses with witnesses
    MANIFEST.json                 which theorems make up which property
    seeded/LOG.jsonl              wrong programs the theorems were tested against

Only the Coq standard library is imported.

## Areas, what is modelled, how each property is to be proved

| Area | Code | Properties |
|------|------|------------|
| Nodes | detail/nodes.hpp, lens_nodes, merge_nodes, xform_nodes, state, sensor, constant, setter, commit, writer | C01-C16, C19, C77 |
| Watch | watch.hpp, detail/signal.hpp | C17 |
| With | with.hpp | C18 |
| Loop | event_loop/manual, queue, safe_queue | C28-C30 |
| Sdl | event_loop/sdl.hpp | C53, C54 |
| Web | event_loop/sdl.hpp with Emscripten | C76 |
| Qml | event_loop/qml.hpp (on Loop) | C55, C56 |
| Future | future.hpp | C25, C26 |
| Effect | effect.hpp | C27 |
| Store | store.hpp (on Loop, Future, Effect, root node) | C20-C24, C48, C78 |
| Life | store.hpp, context.hpp, future.hpp: who owns the store and who refers to it | C73 |
| Own | shared pointers of all heap objects; debugger.hpp with_debugger, http_server.hpp server: who owns whom | C74 |
| Lens | lenses.hpp, lenses/*.hpp | C31-C35 |
| Move | lenses.hpp, lenses/*.hpp with value categories | C71, C72 |
| Smart | detail/smart_lens.hpp | C58 |
| Debugger | debug/debugger.hpp, debug/tree_debugger.hpp | C36-C41, C57 |
| Deps, Context | deps.hpp, context.hpp | C42-C44 |
| Extra | extra/enum.hpp, extra/derive/eq.hpp, hash.hpp | C46, C47 |
| Cereal, Json | extra/cereal/*.hpp, extra/derive/cereal.hpp | C45, C50 |
| Server | debug/http_server.hpp | C49, C51, C52 |
| Snake | example/snake | C59 |
| Todo | example/todo | C60 |
| Qt | extra/qt.hpp | C61 |
| Pong | example/autopong | C62 |
| Term | example/counter/ncurses | C75 |
| Counter | example/counter/std (on Store) | C79 |
| Imgui | example/todo/imgui (on Todo) | C80 |
| CounterSdl | example/counter/sdl2 (on Counter) | C81 |
| SnakeQml | example/snake/qml (on Snake) | C82 |
| Util | util.hpp | C63 |
| Asio | event_loop/boost_asio.hpp | C64 |
| QtLoop | event_loop/qt.hpp | C65 |
| Throw | exceptions in the computations of the node graph | C66 |
| Gui | resources/gui (gui.elm, gui.js, index.html) with ServerModel and DebuggerModel | C67-C70 |

### Nodes (C01-C16, C19, C77)
State: a finite map of nodes numbered in creation order (parents have smaller
numbers: a node can only be built from existing nodes).  Each node carries
kind, parents, children vector (link order), liveness, current, last, the three
flags, transducer state, the setter's flag and its observer slots.  Values are
an arbitrary type with the `has_changed` test.  `send_down`, `refresh`,
`send_up`, `push_up`, `notify`, `collect`, `commit`, `set`, `update` are
transcribed function by function.  User code (callbacks and the outer program)
is an arbitrary interactive program tree which, after each API call, sees the
`get()` values of the readers it still has (`get_obs`) and may throw.  Outcomes: done / exception / undefined behaviour
/ out of fuel.  The unspecified order of argument evaluation in `push_up` and
`refresh` is a universally quantified permutation.

* C01, C02, C08, C15: invariant "a derived node is up to date unless some
  parent has a pending write; a pending node has a pending parent",
  generalised over the set of nodes still to be visited, preserved by every
  operation including arbitrary nested callbacks; unwinding it from the roots
  gives consistency.
* C03, C04, C06: functional description of a passive notification pass.
* C05: invariant on pending notifications, generalised over the stack of
  nodes still to be visited and of slots still to be called.
* C07: `last` untouched by writes, for all graphs.
* C09-C12: refinement of `send_up` to composed lens sets.
* C13, C14: invariants on sensor / setter nodes.
* C16: liveness invariant (parents of live nodes are live); simulation between
  a program that drops readers of one node and the same program without the
  drops (NodesDrop*.v), for the same unspecified evaluation order on both sides;
  the watchers of the dropped node itself do nothing.
* C19: history predicate on committed source values.
* C77: some amount of fuel suffices, for watchers and setters that only look.  Writes go
  to older nodes, propagation to younger ones; a notification pass is bounded by the number
  of set `needs_notify_` flags and the slots after the one called.  A watcher that counts
  up shows that the restriction is needed.

### Watch (C17)
Reader objects, nodes with intrusive observer lists; refinement to a flat
"object -> node, callbacks" table.

### With (C18)
Expressions as syntax; a chain is a list of method calls with flags saying where
the client makes a reader in between; the nodes made for any flags show, and
write, what a specification without flags says.  When steps reject values, the reader
at the end shows the most recent value that all accept (by an invariant on the history of
every node and the nodes it reads).  With several sources there is no node whose history
has the tuples: an older reader that merges the same sources serves as witness.

### Loops (C28-C30)
Posted functions are opaque tasks whose run posts a list of tasks and may
throw, depending on an arbitrary world state.  Manual/queue: invariant relating
executed ++ queued to post order.  safe_queue: transition system whose steps
are the critical sections; all interleavings by induction on traces.  The manual loop
and `step` of the queue loop end when posting is well founded (functions post only
functions of smaller rank); a function that posts itself makes the manual loop go on for
ever.

### SDL loop (C53, C54)
Transition system: each access to the SDL queue and to the two atomic flags is a
step; other threads act between any two steps; calls of `run` may be nested.
Frame pacing: exact rational arithmetic on a 32 bit clock.

### QML loop (C55, C56)
State machine around the queue loop of LoopModel; Qt is the environment and chooses
when to deliver events, polish, paint and fire the timer.  Invariants over all
histories.  What is assumed of Qt is listed at the top of QmlModel.v.

### Boost.Asio and Qt loops (C64, C65)
Transition systems with a log of what happened: a label for everything that a thread
may do next, nothing assumed about the order.  Properties are about the log of every
reachable state (safety), or say that a step is enabled (no waiting without reason).
Invariants by induction on the run.

### Exceptions of computations (C66)
The functions of the node graph again, over an oracle that says which computations
throw; no rollback is modelled because the code has none.  A log of what was sent down,
recomputed, called and failed; invariants over all programs that go on after exceptions.

### Page of the debugger (C67-C70)
The Elm program (update, view, commands) transcribed, put together with the server of
ServerModel and the debugger of DebuggerModel.  A list of happenings (clicks, keys,
ticks, arrival, loss and delivery of requests in any order, actions of the program)
drives the whole.  Invariants over all such lists; accounting of requests up to
permutation; refutations by short runs and an invariant that lasts for ever.

### Futures and effects (C25-C27)
promise_state cells in a heap; `then` and fulfilment as atomic steps under the
mutex; all interleavings.

### Store (C20-C24, C48, C78)
Tasks of the store defunctionalised (reduce / notify / effect / callback); user
code is arbitrary; refinement to a fold.
C78 (some fuel suffices): the bag of everything that waits (in the queue, in futures, in
the hands of other threads) gets smaller with every function that is run, in the multiset
order over "may post or chain", which is well founded when effects dispatch only smaller actions.

### Lifetime of a store (C73)
The functions of StoreModel again, over a state that knows whether the node exists: objects
and pointers that own it, and a test at every use by a function of the store, by a promise or
through a context.  One invariant over all programs: a log of when it was destroyed, what
was waiting then and whether its own loop was running.

### Ownership (C74)
A heap of objects that are only their lists of shared pointers, and the pointers in the hands
of the program; objects without an owner are destroyed until there are none.  The
specification is with paths: what can be reached.  with_debugger is the list of the
operations it performs, run after and before any others, next to the server's thread.

### The SDL loop in the browser (C76)
A machine with one thread, timers and frames; the specification is on what happened, with
the invariant that each tick was right when it was called.

### The counter on standard input (C79)
A client program of StoreModel; its run is computed step by step for every input, by
induction on the input.  Not modelled: overflow of the number, the text around it.

### The todo list with ImGui (C80)
A frame is any set of widgets that report something; the actions of a frame, in the order in
which they are drawn, are applied by TodoModel.  The specification changes each item at
the place where it was drawn.  Induction on the items, with those already drawn in front.

### The counter in an SDL window (C81)
A machine with the one queue in which SDL puts its reports and the store its functions; reports
come at any time.  The specification counts the reported keys.  One invariant over all
runs: the actions of the reported keys are those applied, then those in the queue, then those
of the keys in the queue.  Not modelled: overflow of the number, drawing itself (errors of
SDL among it), a queue that is full; pausing the loop is the subject of C53.

### The window of snake (C82)
A machine with Qt's queue, the store, the object `game` and the dialog; the timer, keys and
answers come at any time.  One invariant: playing, asking, accepted, restarted; a state that
is left only by accepting is kept once the dialog was dismissed.  That QML re-evaluates
`running: !game.over` at once when overChanged is emitted, and that a dialog which is closed
or left with escape emits `rejected`, is taken from the documentation of Qt.

### The counter in a terminal (C75)
A machine with the keys that were typed, the reads and waits that are waiting and the functions
that are ready.  Happenings from outside come at any time.  The specification speaks only
of the keys typed.  One invariant over all runs; returning is by a measure.

### Lenses (C31-C35)
Van Laarhoven encoding polymorphic in the functor, as in the code; laws proved
for view/set/over through the const and identity functors.

### Moves in lenses (C71, C72)
The same functions as in LensModel, over references that may be moved from: each step
also returns what is left of what it was given.  Lens expressions are data (`lx`), with
two meanings, `plain` (LensModel) and `moving`; the properties compare the two, by
induction over all expressions.  What is left of a moved-from part is any function.
MoveSmartModel builds the lens of `operator[]` as such an expression; C72_select says that it
is the lens of SmartModel, so C58 and C72 are about the same lens.

### Debugger (C36-C41, C57)
Direct transcription; invariants over action lists; refutation for C41.

### Deps / Context (C42-C44), Extra, Cereal, Json, Server (C45-C52)
Direct transcription of the type-level computations on lists and of the codecs
on token streams.

## What is modelled and what is not

Modelled, function by function (citations in the model files):

* `detail/nodes.hpp`, `lens_nodes.hpp`, `merge_nodes.hpp`, `xform_nodes.hpp`,
  `state.hpp`, `sensor.hpp`, `constant.hpp`, `setter.hpp`, `commit.hpp`,
  `reader.hpp`, `writer.hpp`, `cursor.hpp`, the node of `store.hpp`: NodesModel.
  Not modelled there: exceptions thrown by lenses, transducers, `==` and sensor
  functions (they are pure; ThrowModel has them to throw, in a smaller model, without
  state and without changes of the graph; `==` and copies never throw); state of transducers in the writing direction;
  typing of the nodes (all values are in one type); `no_value` other than by
  "the default value, if the type has one".
* `watch.hpp`, `detail/signal.hpp`: WatchModel, with objects, moves and
  assignments.  Callbacks do not throw there.
* `with.hpp`: WithModel (all four expression classes and their methods).
  Transducers are those with at most one output; `operator[]` is `zoom` with
  the lens of `smart_lens.hpp`.
* `detail/smart_lens.hpp`: SmartModel, with the types as data.  Not modelled:
  `immer::table`, keys other than numbers, conversions between types.
* `event_loop/manual.hpp`, `queue.hpp`, `safe_queue.hpp`: LoopModel.  Not
  modelled: `async`, `finish`, `pause`, `resume`, which throw.
* `event_loop/boost_asio.hpp`: AsioModel; `event_loop/qt.hpp`: QtLoopModel.  These
  forward to the libraries, whose behaviour is assumed as stated at the top of the
  models.  Functions are numbers; what they do is any sequence of labels.  Not
  modelled: handlers that call `run()` or `poll()` (Asio); functions that throw (Qt).
* `event_loop/qml.hpp`: QmlModel.  Not modelled: derived classes, destruction, time.
* `event_loop/sdl.hpp`: SdlModel, and WebModel for the Emscripten variant.  Not modelled: rounding of
  float arithmetic in `constant_fps_step`; more than one loop sharing an SDL queue.
* `future.hpp`: FutureModel (threads) and StoreModel (chaining).
* `store.hpp`, `effect.hpp`, `extra/thunk.hpp`: StoreModel, StoreExtraModel.
* `lenses.hpp`, `lens.hpp`, `lenses/*.hpp`: LensModel (values that are never moved),
  MoveModel (with value categories; not: const rvalues, getters that return references).
  Which of the two kinds of references the nodes hand to lenses is decided by zug's
  `tuplify`, which is not part of the repository.
* `debug/debugger.hpp`, `debug/tree_debugger.hpp`: DebuggerModel.
* `deps.hpp`: DepsModel.  `context.hpp`: ContextModel.
* `extra/enum.hpp`, `extra/derive/eq.hpp`, `hash.hpp`: ExtraModel.
* `extra/cereal/*.hpp`, `extra/derive/cereal.hpp`: CerealModel (archive without
  names), JsonModel (archive with names).  The archives are cereal's; what is
  assumed of them is stated at the head of both files.
* `debug/http_server.hpp`: ServerModel.  Sockets, HTTP parsing, the text of JSON
  and of regular expressions are not modelled.
* `example/snake`: SnakeModel (game and QML model), SnakeQmlModel (the window: timer, dialog,
  keys).  The random number generator is any sequence of numbers; drawing is not modelled.
* `example/todo`: TodoModel (items, model, app; of the user interfaces only that with ImGui, in ImguiModel, not `qml` and
  `qml-redux`).  The store is a queue of tasks, files hold documents.
* `example/autopong`: PongModel (the game; not `sdl2`, which draws it).  Numbers are exact and
  rational where the code has `float`; random numbers come with the ticks.
* `example/counter/counter.hpp`, `example/counter/ncurses`: TermModel.  What is assumed of
  Boost.Asio and of ncurses is at the head of the file; of what is drawn only the number;
  exact integers; not the debugger, not `cleanup_fn`.
* `example/counter/std`: CounterModel; `example/counter/sdl2`: CounterSdlModel.  Exact integers;
  of what is printed or drawn only the number.
* `util.hpp`: UtilModel (`visitor`, `match`, `forward_variant`), with overload resolution
  of plain and of fully generic handlers.  Lifetimes are not modelled: what `match(v)`
  returns refers to `v` and must be called at once.
* `extra/qt.hpp`: QtModel, over WatchModel.  One property per object; slots do nothing.
* `resources/gui/gui.elm`: GuiModel, with what it uses of the packages in `gui.js`
  (Http.send, Keyboard.Combo, toString).  Not modelled: `gui.scss`, `Debug.log`, numbers
  from 10^21 on, the decoding of JSON texts (an answer is the value it encodes), and the
  browser's own limits and caches.  One page; the server's thread is one of the happenings.

Not modelled at all: `config.hpp`, `tags.hpp`,
`detail/access.hpp`, `extra/derive/hana.hpp`,
`resources/` other than `resources/gui/gui.elm`.

Everywhere: allocation does not fail; value categories are not distinguished
except where moved-from objects are visible; one execution of the model is
sequentially consistent.

## Statements

Executions of the node graph are those of arbitrary client programs with
arbitrary callbacks, calling the API again from inside callbacks to any depth.
Undefined behaviour (`UBlib`, `UBuser`), exceptions and exhaustion of fuel are
outcomes of their own; theorems speak of finished executions, or of everything
client code gets to see during one (`visible`).  Where a clause of a property
is false of the code, a theorem `..._refuted` gives the execution, and the
property is `partial` in MANIFEST.json (or `proved` if the clause is an
observation beyond the statement, as the note says).

## Disagreements between the code and what one may expect of it

Nodes
* `commit(x)` when other written roots feed the same reader: see C01.
* A filtered reader with a zoomed cursor made from it shows a value that was never
  committed: a write reads the filter's source again before it is committed
  (C19_uncommitted_refuted).
* Notifying a node although a later value is pending, and holding no lock
  while children are notified, make no difference for what is proved.

With
* `with(x).filter(p).map(f)`: as long as nothing was accepted the reader shows
  the default value, and `f` of the default value if a reader is made in between
  (C18_filter_default_refuted).
* `update` inside a fused chain gets the values of the base sources and not the
  value at its step (C18_update_refuted).
* A filter of several sources passes several values on, so a following `map`
  takes several arguments if fused and a tuple otherwise.

Watch
* A reader object that unbinds, assigns to or destroys itself in its own
  callback is undefined behaviour; assigning it to another reader of the same node
  skips the readers after it; one that a later callback assigns is called twice.
* A moved-from reader keeps its callbacks on the old node.  The free function
  `watch(reader, f)` returns a copy without callbacks.

Store, loops, futures
* On a queue loop notifications are put together; a watcher may see the same
  model twice in a row (C22_no_repeats_refuted).
* If a watcher throws, the effect of the same action is not run.
* `sequence(a, sequence(b, c))` and `sequence(sequence(a, b), c)` interleave
  differently with other functions of the loop (C27_bracketing_refuted).
* `is_empty_effect` compares the address of the function held with that of `noop`,
  which is never the same: `effect{noop}` is not empty.  So `sequence` of two empty
  effects is not empty, and sequencing with it defers what follows
  (C27_empty_pair_refuted).
* A future attached while the debugger is paused is completed at once though
  the action is applied later.
* `promise::operator()` posts while holding the mutex: deadlock if `post`
  fulfils the same state again.  `then` asserts on the callback without the lock.
  Two attachments drop the first callback.
* After `adopt()` moved the loop, two posts of one thread may be reordered (C30).
* SDL loop (C53, C54): `finish()` and `resume()` do not wake a loop that waits for an
  event; a paused `run(handler, tick)` never returns, finished or not;
  `run(handler)` ignores pauses and leaks a function that throws; a function that
  SDL_PushEvent refuses is lost and leaked; after 2^31 ms frames are not paced.
* QML loop (C56): the timer that is to keep the loop going while the window is hidden
  is started only by the first polish; a function that throws while polishing ends
  the chain of polish requests, with `polished_` set and no paint asked for, so only
  the timer goes on; an item without the flag ItemHasContents (the class does not
  set it) is stepped by polishing only once, afterwards only by the timer.

Lenses: `at` on an `immer::table` inserts (C33).  Through an optional, `operator[]` can not
empty an optional member, and does not accept lager's own lenses for what is in the
optional (C58).

Moves in lenses (C72).  Lenses forward the whole twice, first to read the part and then to
write it.  When the whole may be moved from, reading may take the part out of it:
* `opt_impl` (optional.hpp:28-39) returns the whole that it has read from when there is
  nothing to write.  `at`, `alternative`, `force_opt` and other `*_opt` hand it temporaries.  So
  `set(at(0) | with_opt(attr(&person::name)), people, std::nullopt)`, which is what
  `cursor[0][&person::name].set(std::nullopt)` does, empties the name of the person instead
  of changing nothing, although `people` itself is not moved from.
* `alternative` (variant.hpp:25-37) on a temporary, with nothing to write, returns the
  variant with a moved-from value.
* `force_opt` (optional.hpp:151-158) passes its optional on as an rvalue and then uses it.
* `map_opt(alternative<T> | map_opt(attr(m)))` on a temporary: writing a *value* loses the
  other members of the `T`, as all of it was moved out to look at `m`.
* `getset` (lenses.hpp:109-113) forwards the whole to the getter and then to the setter: on
  a temporary, a getter that takes it by value leaves nothing for the setter.
* Cursors always hand a temporary to their lens: `current_from` (nodes.hpp:341-348) returns a
  copy.  So the last two points are about every cursor.  The first example of the manual
  (doc/lenses.rst:43-69, `getset([](Mouse mouse) {..}, [](Mouse mouse, ..) {..})`) with a
  cursor: `cursor.zoom(eyes).set(e)` leaves the mouse without legs and whiskers, which are
  vectors (C72_cursor_refuted).  `cursor.zoom(alternative<std::string>).set(std::nullopt)`
  empties the string (C72_cursor_variant_refuted).
Nothing of this shows for types whose moves leave no trace (C72_trivial_moves), so the
theorems about LensModel hold of the code for them.  For other types C58 holds of reading
(C71_select_read) and of writing values (C72_select_write_partial), not of writing nothing
(C72_select_empty_refuted).

Lifetime of a store (C73)
* A store must not be destroyed while actions wait in a queue outside: the posted functions
  have `this` (C73_waiting_refuted).  Nor by an effect or a callback of a future when it
  uses the manual loop, which is a member (C73_effect_refuted).
* The promise of an action has a reference to the member `loop`.  `then` on the future of an
  action after the store was destroyed uses it (C73_future_refuted), and so does a promise of
  the client that an effect waited for (C73_promise_refuted).  The documentation
  mentions contexts only.
* Watchers may destroy the store: the reader they are called through keeps it
  (C73_watchers), and so does commit (C73_commit).

Ownership (C74)
* A store with a debugger is never destroyed, and its server never stops: `with_debugger` puts
  the shared pointer to the server's object among the dependencies of the store
  (debugger.hpp:213), and that object keeps a reader of the store (http_server.hpp:261).  They
  own each other (C74_stops_refuted, for all programs C74_server_stays); what the
  dependencies own is lost with them.
* As `~server` never runs, its thread goes on when main has destroyed the loop after the store,
  as in example/counter/ncurses/main.cpp and example/autopong/sdl2/main.cpp; a request of the
  debugger then posts to that loop (C74_loop_refuted, C74_server_uses).

The SDL loop in the browser (C76)
* `step` sets `last_ticks` when it begins (sdl.hpp:88), so what the tick is told is the time it
  took to handle the events, and not the time since the last tick (C76_paced_refuted, exactly:
  C76_within).  The assignment at l. 101 has no effect.
* `finish`, `pause`, `resume` and what the handler returns have no effect (C76_ignored;
  C76_finish_refuted, C76_pause_refuted, C76_quit_refuted).
* `run(…, infinite = false)` returns; a loop that is a variable of main is then used after main
  has returned (C76_valid_refuted).
* `guard` (l. 107) is one for each instance of the template: it does not notice a second call of
  `run` with other functions.
* example/todo/imgui: its tick returns nothing, which only the variant for the browser takes
  (sdl.hpp:158 needs a result).

The counter in a terminal (C75)
* `terminal::stop` empties `handler_` while the loop of `next_key_` (terminal.cpp:90-93) is
  running: if another key was typed already the loop calls the empty function, and
  std::bad_function_call ends the program (C75_quits_refuted).  The same with a change of the
  size that is ready when `stop` is called, as `cancel` does not take it back
  (C75_resize_refuted).
* `next_key_` reads again only after a key: input that is no key (the end of the input, a part
  of a character) leaves the program deaf, it can not even be quit (C75_deaf_refuted).
* The instructions on the screen (main.cpp:32-33) have up and down the wrong way round
  (C75_instructions_refuted).

Debugger
* `operator==` of the debugger's model goes through a conversion for arithmetic
  models, so a store drops pauses and undos between equal models; for class
  models watchers are called again for equal models.
* tree_debugger appends to the first branch (l. 168), its `redo` throws.
* Actions without effect get the effect `noop`, which the store does not take for
  empty: with transactions and futures the future is ready one job later than
  without the debugger (C39_late_future_refuted).

Deps, context
* `merge` takes specification and value from the other bag.  `opt<opt<T>>`
  made from an empty `opt<T>` has a value whose `get` throws; a missing
  `fn<opt<T>>` throws `bad_function_call`; a function given for a `ref` or `val` is
  called once, when converted.
* `remove_convertibles` is dead code; a redundant first list of actions stays
  redundant; dispatch to a context with two convertible actions is ambiguous.

Extra
* The hash of LAGER_DERIVE_TEMPLATE depends on the dynamic type, equality does not.
* A second name of an enumerator does not come back.

Serialization
* Loading an empty vector into a vector that is not empty leaves it as it was;
  loading a map or set into one with common elements throws.
* Maps saved by ids change keys that are not the ids; variants whose alternatives
  have equal names load the first.
* `CEREAL_OPTIONAL_NVP` names a function that does not exist; the camel case
  version of structs passes a string where `const char*` is taken; tuple sizes are
  only asserted.

Server
* Until the first change a default constructed model is shown.
* Targets with `..` leave the resource directory; the extension is looked for in
  the whole path; a directory is answered with an empty 200.
* An exception that is not a `std::exception` ends the server's thread; one
  failing accept stops accepting; query strings on `/api/...` are not recognised.

Examples
* Snake (C59): the cell that the tail leaves counts as free although the tail stays when
  it leaves an apple, so the snake can lie over itself; an apple is eaten by the tail; the
  new one may be placed on the snake; two turns between two ticks reverse the snake; the
  end of the game does not stop it.
* Todo (C60): an edit applied while a document is being loaded is lost; the file name is
  changed before the document is saved, and stays if that fails; items are named by
  their place.
* The todo list with ImGui (C80): so a text entered in the frame of a click, or two clicks
  in one frame, change items that were not clicked.
* The counter in an SDL window (C81): a key that was pressed just before the window is closed
  is not counted: its reducer comes after the report in the queue, and the loop
  has ended.  The texture made for the text is not destroyed (main.cpp:58), so each
  drawing leaks one; drawing is not modelled.
* The window of snake (C82): a dialog "Game Over" that is dismissed instead of accepted is
  never shown again, and there is no other way to start a new game.
* Autopong (C62): the distance of segments is wrong when one is tiny (a product below
  1e-8 is taken for 0), so the ball passes the paddle in a tick of 5e-6 ms; a tick of
  seconds takes it out of the window; a new ball may lie over the left wall.

Util (C63)
* `match` accepts a forgotten alternative if it converts to another one; a catch-all
  `auto&&` takes precedence over a handler for `const T&` if the variant is not const;
  the result is always a value although `decltype(auto)` suggests otherwise.

Exceptions of computations (C66)
* A commit that throws leaves some readers with new values and others with old ones, and
  the flags of the nodes above the exception are already cleared: to commit again does
  nothing for the nodes that were passed over.  They stay stale until one of their parents
  changes; a change of the root that a node between does not show is not enough.
* Setting an automatic state throws after the value was set and shown; a write through
  a merged cursor can reach one parent and not the other.

Loops of Boost.Asio and Qt (C64, C65)
* Asio: several threads in `run()` without a strand call posted functions at once;
  `finish()` of a loop made with an executor only does nothing, and so does `pause()`;
  on a strand functions that were ready are called after `finish()`; `async` moves its
  argument even if it is an lvalue; nothing keeps loop or store alive for the functions.
* Qt: a posted function that runs an event loop is interrupted by others; `finish()`
  before `exec()` is forgotten; functions are dropped with the object; every copy of the
  loop waits for the whole pool when it goes out of scope (also the argument of
  `make_store`), which never ends in a function of the pool; what is posted meanwhile is
  called after the end of the loop.

Page of the debugger (C67-C70)
* If the history is replaced without moving the cursor between two polls (undo, then an
  action), the page goes on showing the step that was there before.  The selected step may
  have vanished.  Answers are not ordered: an older status overwrites a newer one.  A
  request for a step that fails is never repeated.
* Posts may overtake each other.  Toggling the pause looks at the last status only: two
  toggles between polls are two pauses.
* Releasing a key may complete another chord (shift-up, shift released: the selection
  moves); down does nothing while up is held.
* Disabled buttons only look disabled.  The title of the window is set by the first status
  that does not change the selection, not by the first one.

Qt (C61)
* Assigning the reader or cursor behind a property changes what it READs without
  NOTIFY; a property whose member was default constructed must not be READ.

## Not expressible
* C++ object lifetime beyond the liveness modelled (nodes, watching readers, the store in
  C73, loops in C64 and C65): dangling references to other objects.
* Data races in the C++ memory-model sense, except in FutureModel, where two
  unsynchronised accesses are a race; elsewhere critical sections are atomic.
* Performance claims.

## Wrong programs

seeded/LOG.jsonl has one line per attempt: the definition edited, the edit, the
claim that is false of the edited program, the theorems that fail, and those
tightened because of it.  A theorem counts as failing if its proof does not go
through: in a scratch copy every lemma whose own proof breaks is admitted, and
`Print Assumptions` of each property theorem tells whether it rests on such a
lemma.  Examples that fail are listed apart; an edit that only examples notice
is recorded as such.
For automatic edits and for those to C77-C82 and the use of the loops of C64 and C65 the build
stops at the first lemma that breaks, which is the one listed.  That a proof breaks does not
show by itself that its statement has become false; where a claim is named, the edit
was chosen because it makes that claim false.

## Trusted base

* The Coq 8.16.1 kernel (checked once more with `coqchk -o`).
* Axioms: none.  `Print Assumptions` stands under every theorem named in
  MANIFEST.json, and prints "Closed under the global context" for every one of
  them.
* The reading of the C++ code stated in the comments of the model files, with the
  simplifications listed above and there; for Json the assumptions on cereal's
  archive.
* That the statements say what the properties mean: the vocabulary is in the
  Spec files.
