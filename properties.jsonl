{"id": "C01", "title": "Committed readers are consistent with what they were derived from", "statement": "After lager::commit() has been called with every root (state, store, sensor) of a graph of readers and cursors, get() of every live derived reader (zoom, map, merge/with, lens attribute, filter that accepts) equals its derivation function applied to get() of the readers it was derived from. This holds in any DAG, including diamonds, whatever was set, updated, committed in part, created or destroyed beforehand, and even when watch callbacks set, commit, create or destroy readers, or throw.", "quantifier": "every DAG of readers/cursors, every value type with == reflecting equality, every derivation function, every finite history of API calls including re-entrant callbacks", "why_tests_cant": "Unit tests build two or three fixed graphs with fixed values; the claim is about pruned propagation in all DAGs and all histories, where a stale node only shows on particular interleavings of refresh, partial commit and pruning.", "anchors": ["lager/detail/nodes.hpp: reader_node::push_down, send_down, inner_node::refresh", "lager/detail/lens_nodes.hpp: lens_reader_node::recompute", "lager/detail/merge_nodes.hpp: merge_reader_node::recompute", "lager/commit.hpp: commit"]}
{"id": "C02", "title": "Watch callbacks never see a half-propagated graph", "statement": "Whenever a watch callback is invoked by a commit that names all roots with pending writes, get() on every live reader already agrees with get() of the readers it derives from and with the committed roots: values are propagated everywhere before any callback runs. With automatic states only, this holds at every callback ever invoked, whatever callbacks do.", "quantifier": "every graph, every history, every callback invocation including nested ones", "why_tests_cant": "The order in which callbacks run relative to propagation depends on graph shape and link order; tests observe one order only.", "anchors": ["lager/commit.hpp: commit", "lager/state.hpp: state_node::send_up", "lager/detail/nodes.hpp: send_down, notify"]}
{"id": "C03", "title": "A commit calls each watcher at most once", "statement": "If watch callbacks do not themselves write to the graph, one lager::commit() call invokes each connected watch callback at most once, even if the watched reader is reachable from the committed roots over many paths or a root is named several times.", "quantifier": "every graph, every set of committed roots, every pending state", "why_tests_cant": "Number of calls depends on number of paths in the DAG, unbounded.", "anchors": ["lager/detail/nodes.hpp: reader_node::notify", "lager/commit.hpp: commit"]}
{"id": "C04", "title": "No committed change is missed by a watcher", "statement": "If, across a commit with non-writing callbacks, get() of a live reader changes, every callback watching that reader is invoked during that commit, with the value get() returns after it.", "quantifier": "every graph, history and commit", "why_tests_cant": "Propagation prunes subtrees; a missed notification needs a particular combination of pruned and unpruned paths.", "anchors": ["lager/detail/nodes.hpp: send_down, notify"]}
{"id": "C05", "title": "No update is lost under re-entrancy", "statement": "Watch callbacks may set, update, commit, watch, create and destroy readers. If the outermost call returns normally and then all roots are committed with callbacks that no longer write, every connected callback has last been called with (or was connected at) exactly the value get() now returns: nobody is left holding a stale value.", "quantifier": "every graph, every re-entrant callback program, every history", "why_tests_cant": "Re-entrant schedules are unbounded; the code skips a node's notification when it has a pending write, so losing it is a realistic bug.", "anchors": ["lager/detail/nodes.hpp: reader_node::notify, notifying_guard_t", "lager/state.hpp: send_up"]}
{"id": "C06", "title": "No call without a write", "statement": "A commit performed when nothing has been written since the roots were last committed (and sensors read the same value) invokes no watch callback and changes no get().", "quantifier": "every graph and history ending in a full commit", "why_tests_cant": "Universal over graphs and histories.", "anchors": ["lager/detail/nodes.hpp: push_down, has_changed, send_down, notify"]}
{"id": "C07", "title": "Transactional writes stay invisible until commit", "statement": "On graphs whose roots are transactional, set() and update() through any cursor, at any depth, change get() of no existing reader and invoke no watch callback; only commit() does.", "quantifier": "every graph of lens/merge/transducer cursors over transactional roots, every sequence of writes", "why_tests_cant": "Writes refresh intermediate nodes, so invisibility must hold for every path in every graph.", "anchors": ["lager/state.hpp: state_node::send_up", "lager/detail/lens_nodes.hpp: lens_cursor_node::send_up", "lager/detail/nodes.hpp: inner_node::refresh, push_up"]}
{"id": "C08", "title": "Automatic states propagate before set() returns", "statement": "For a graph over automatic states, when set() or update() returns normally, every derived reader is consistent with its sources and get() of the written state is the written value (if callbacks did not write).", "quantifier": "every graph over automatic roots, every history", "why_tests_cant": "Universal over graphs and histories.", "anchors": ["lager/state.hpp: state_node::send_up"]}
{"id": "C09", "title": "Writes through a chain of lens cursors act on the root like the composed lens", "statement": "set(v) on a cursor obtained by zooming a state through a chain of lenses l1..ln makes the state hold set(l1|...|ln, old, v); if the lenses are lawful then after commit the cursor reads v and every other part of the state is unchanged.", "quantifier": "every chain length, every lens, every state and value", "why_tests_cant": "Universal over lenses and depth.", "anchors": ["lager/detail/lens_nodes.hpp: lens_cursor_node::send_up", "lager/lenses.hpp: view, set"]}
{"id": "C10", "title": "Writes through sibling cursors in one transaction do not overwrite each other", "statement": "Any sequence of set() calls through any lens cursors of the same state, without commits in between, leaves the state holding the left-to-right composition of the corresponding lens sets: a later write never resurrects a value read before an earlier write.", "quantifier": "every tree of lens cursors over a state, every sequence of writes", "why_tests_cant": "Lost-update bugs need specific interleavings of writes through cursors at different depths with stale caches.", "anchors": ["lager/detail/lens_nodes.hpp: send_up (refresh before set)", "lager/detail/nodes.hpp: refresh"]}
{"id": "C11", "title": "update() reads the latest value", "statement": "update(fn) on a state, or on any lens cursor whose sources have no uncommitted write, stores fn applied to the value the cursor stands for at that moment; consecutive updates compose. (On a derived cursor in the middle of a transaction update() can read a stale value; the model pins this down as a counterexample.)", "quantifier": "every cursor, function and history", "why_tests_cant": "Staleness depends on history of uncommitted writes.", "anchors": ["lager/writer.hpp: writer_mixin::update", "lager/detail/nodes.hpp: current"]}
{"id": "C12", "title": "Merged cursors write every component", "statement": "set(t) on a cursor merged with with(a, b, ...) sends component i of t to cursor i, exactly once each; for independent roots the result after commit does not depend on the (unspecified) order in which the parents are written.", "quantifier": "every arity, every evaluation order, every value", "why_tests_cant": "C++ leaves the argument evaluation order unspecified; one compiler shows one order.", "anchors": ["lager/detail/nodes.hpp: inner_node::push_up", "lager/detail/merge_nodes.hpp: merge_cursor_node::send_up"]}
{"id": "C13", "title": "Sensors are sampled only on commit, once per commit", "statement": "get() on a sensor and everything derived from it changes only when the sensor is committed; one commit samples the function once per mention of the sensor and all derived readers use the same sample.", "quantifier": "every graph, every evolution of the outside world", "why_tests_cant": "World changes at arbitrary times.", "anchors": ["lager/sensor.hpp: sensor_node::recompute", "lager/commit.hpp: commit"]}
{"id": "C14", "title": "with_setter forwards each write exactly once and tracks its source", "statement": "set(v) on a with_setter cursor calls the setter function exactly once, with v. With the automatic tag get() is v when set() returns; whenever the source reader changes afterwards, the setter cursor shows the source's value.", "quantifier": "every history of writes and source changes", "why_tests_cant": "Universal over histories.", "anchors": ["lager/setter.hpp: setter_node::send_up, recompute"]}
{"id": "C15", "title": "Values stay consistent when a callback throws", "statement": "If a watch callback throws out of commit() or set(), all get() values are as if it had not thrown, the graph keeps the consistency guarantees for later commits, and no node stays marked as being notified.", "quantifier": "every graph, every throwing callback, every position", "why_tests_cant": "Exception at any point of any notification traversal.", "anchors": ["lager/detail/nodes.hpp: notifying_guard_t, notify"]}
{"id": "C16", "title": "Destroying readers is always safe and invisible to others", "statement": "Dropping a derived reader (which nobody else derives from) at any time, including from inside a callback, never changes the value or notification of any other reader; expired children are eventually forgotten and never called.", "quantifier": "every graph, history and drop point", "why_tests_cant": "Children vectors are mutated during traversal; only particular timings break.", "anchors": ["lager/detail/nodes.hpp: collect, notify, send_down"]}
{"id": "C17", "title": "Callbacks follow reader objects, not copies", "statement": "A callback connected with watch() on a reader object fires exactly while that object is alive, bound to a node and not unbound: copying or moving-from does not duplicate or transfer callbacks, assignment re-targets the callbacks to the assigned node, unbind() silences all of them. A node change calls the callbacks of all reader objects bound to it, in connection order, each exactly once.", "quantifier": "every sequence of construct/copy/move/assign/watch/unbind/destroy over any number of reader objects", "why_tests_cant": "Universal over operation sequences.", "anchors": ["lager/watch.hpp: watchable_base", "lager/detail/signal.hpp: signal, forwarder"]}
{"id": "C18", "title": "Fused expressions equal step-by-step ones", "statement": "with(x).map(f).map(g)..., zoom chains and xform chains give readers with the same get() and cursors with the same effect on the roots as making an intermediate reader at each step.", "quantifier": "every chain of lenses / stateless transducers, every state", "why_tests_cant": "Universal over chains.", "anchors": ["lager/with.hpp: with_xform_expr, with_lens_expr, with_wxform_expr"]}
{"id": "C19", "title": "Filtered readers keep the last accepted value", "statement": "A reader built with a filter always shows the most recent committed source value that satisfied the predicate, or the initial value; a value that does not satisfy it is never shown by it.", "quantifier": "every predicate, every history", "why_tests_cant": "Universal over histories.", "anchors": ["lager/detail/xform_nodes.hpp: xform_reader_node, initial_value"]}
{"id": "C20", "title": "The store's model is the fold of the reducer over dispatched actions", "statement": "After the event loop has drained, get() on the store is the left fold of the reducer over all actions in dispatch order, starting from the initial model, for any mix of dispatches from outside, from watchers, from effects and from future callbacks.", "quantifier": "every reducer, every action sequence, every effect/watcher behaviour, every interleaving of dispatch and loop steps", "why_tests_cant": "Actions are dispatched re-entrantly from anywhere; tests use two or three.", "anchors": ["lager/store.hpp: store_node::dispatch", "lager/effect.hpp: invoke_reducer"]}
{"id": "C21", "title": "Effects run exactly once, after their action's model is visible", "statement": "Each non-empty effect returned by the reducer is executed exactly once, in dispatch order, never inside dispatch() of a queued loop; when it runs on a non-transactional store, get() reflects a model at least as new as the one produced by its own action and watchers have been notified of it.", "quantifier": "every reducer, every schedule of the loop", "why_tests_cant": "Depends on interleaving of posted tasks.", "anchors": ["lager/store.hpp: store_node::dispatch"]}
{"id": "C22", "title": "Watchers see a subsequence of models ending in the last one", "statement": "The sequence of values a store watcher receives is a subsequence, without consecutive repeats, of the sequence of models produced by the reducer, and after draining the loop the last value seen is the final model.", "quantifier": "every action sequence and loop schedule", "why_tests_cant": "Coalescing depends on queue contents.", "anchors": ["lager/store.hpp: dispatch", "lager/detail/nodes.hpp: push_down, send_down, notify"]}
{"id": "C23", "title": "dispatch() futures complete after the action's consequences, exactly once", "statement": "On a store with_futures, a callback chained with then() on the future of dispatch(a) runs exactly once, after a was reduced, watchers notified and a's effect (and the future it returned) completed; never before.", "quantifier": "every action, effect, future chain and schedule", "why_tests_cant": "Callback may be attached before or after completion, on any loop schedule.", "anchors": ["lager/store.hpp: dispatch", "lager/future.hpp: promise::operator(), future::then"]}
{"id": "C24", "title": "Transactional stores publish only on commit", "statement": "On a store tagged transactional, dispatching and draining the loop runs reducers and effects but changes no get() and calls no watcher until commit(store).", "quantifier": "every action sequence and schedule", "why_tests_cant": "Universal over schedules.", "anchors": ["lager/store.hpp: store_node::dispatch (is_transactional)"]}
{"id": "C25", "title": "Promise callbacks fire exactly once whatever the race", "statement": "For a promise/future pair, for any interleaving of fulfilling the promise and attaching a callback from different threads, the callback is posted to the promise's loop exactly once, and only after both have happened; a second fulfilment through a copy posts nothing.", "quantifier": "every interleaving of the atomic steps of both threads", "why_tests_cant": "Race outcomes cannot be enumerated by tests.", "anchors": ["lager/future.hpp: promise::operator(), future::then, promise_state"]}
{"id": "C26", "title": "Chained futures run callbacks in chain order", "statement": "f.then(c1).then(c2)...then(cn) runs c1..cn in order, each after the previous one (and any future it returned) completed; also(f) completes only after both; on an empty future callbacks run immediately in order.", "quantifier": "every chain length, every nesting of returned futures, every completion order", "why_tests_cant": "Unbounded chains and completion orders.", "anchors": ["lager/future.hpp: future::then, future::also"]}
{"id": "C27", "title": "sequence() runs effects in order and drops only no-ops", "statement": "sequence(a, b, ...) runs a, then after a's future completes runs b, and so on; empty effects are neutral on both sides and the result does not depend on how the sequence is bracketed.", "quantifier": "every list of effects and futures", "why_tests_cant": "Universal over effects.", "anchors": ["lager/effect.hpp: sequence, is_empty_effect"]}
{"id": "C28", "title": "The manual loop runs every posted function exactly once, in order", "statement": "with_manual_event_loop executes posted functions in post order, exactly once each, never nested inside one another, including functions posted from running functions; if one throws, the exception reaches the outermost post() and the not-yet-run functions stay queued, in order, to be run first by the next post.", "quantifier": "every tree of nested posts, every position of exceptions", "why_tests_cant": "Nested posting trees and exception positions are unbounded.", "anchors": ["lager/event_loop/manual.hpp: with_manual_event_loop::post"]}
{"id": "C29", "title": "The queue loop runs every posted function exactly once, in order", "statement": "queue_event_loop::step() executes all queued functions and those they post, in post order, exactly once; after an exception the remaining ones are executed by later step() calls, none lost or repeated.", "quantifier": "every post/step history, every exception position", "why_tests_cant": "Unbounded histories.", "anchors": ["lager/event_loop/queue.hpp: queue_event_loop::post, step"]}
{"id": "C30", "title": "The thread-safe queue loses and duplicates nothing under any interleaving", "statement": "With any number of threads posting and the owner thread stepping, at any interleaving, each posted function is executed at most once, only on the owner thread, in post order per posting thread; once everything posted has been stepped each was executed exactly once. Exceptions do not lose functions.", "quantifier": "every number of threads, every interleaving of the critical sections, every exception position", "why_tests_cant": "Interleavings cannot be enumerated by tests.", "anchors": ["lager/event_loop/safe_queue.hpp: safe_queue_event_loop::post, step, swap_queues_, run_local_queue_"]}
{"id": "C31", "title": "Built-in lenses obey the lens laws", "statement": "attr, element/first/second, unbox, getset of a lawful pair, zip of lawful lenses and composition with | of lawful lenses satisfy: view(set(x,v))=v, set(x,view(x))=x, set(set(x,v),w)=set(x,w), and over(x,f)=set(x,f(view(x))).", "quantifier": "every whole, part, function and composition", "why_tests_cant": "Universal over values and compositions.", "anchors": ["lager/lenses.hpp: view, set, over, getset", "lager/lenses/attr.hpp: attr", "lager/lenses/tuple.hpp: element_t, zip", "lager/lenses/unbox.hpp: unbox"]}
{"id": "C32", "title": "fan behaves as a lawful lens when parts do not overlap", "statement": "fan(l1..ln) of pairwise independent lawful lenses is lawful; without independence the earlier lens wins and put-get can fail.", "quantifier": "every family of lenses", "why_tests_cant": "Universal over lenses.", "anchors": ["lager/lenses/tuple.hpp: fan, set_fold_iteration"]}
{"id": "C33", "title": "at() focuses a slot without ever changing the shape", "statement": "at(k) views nullopt exactly when k is absent; setting a value changes slot k only if present and no other slot, setting nullopt or setting on an absent key changes nothing; size and keys never change; set-set and get-put hold always and put-get holds when k is present.", "quantifier": "every container (vector-like and map-like), key and value", "why_tests_cant": "Universal over containers.", "anchors": ["lager/lenses/at.hpp: at, at_setter_impl", "lager/lenses/at_or.hpp: at_or"]}
{"id": "C34", "title": "alternative<T> never switches the alternative", "statement": "alternative<T> views the value exactly when the variant holds T; set never changes which alternative is held, and changes the value only when T is held and a value is given.", "quantifier": "every variant value", "why_tests_cant": "Universal.", "anchors": ["lager/lenses/variant.hpp: alternative_t"]}
{"id": "C35", "title": "Optional lifting preserves lawfulness where a value exists", "statement": "map_opt/bind_opt/with_opt of a lens views nullopt on nullopt, never turns nullopt into a value or back, and on present values acts like the lens; value_or views the default on nullopt and set always stores a value.", "quantifier": "every lens and optional", "why_tests_cant": "Universal.", "anchors": ["lager/lenses/optional.hpp: opt_impl, map_opt, bind_opt, with_opt, value_or, force_opt"]}
{"id": "C36", "title": "Debugger history replays to the shown model", "statement": "With the time-travelling debugger, at any time: cursor <= number of steps; looking up position k gives the model obtained by replaying the first k recorded actions from the initial model with the reducer; the store shows the model at the cursor. Lookup never fails for positions up to the size.", "quantifier": "every reducer and every sequence of debugger actions", "why_tests_cant": "Unbounded histories of undo/redo/goto/pause/resume/actions.", "anchors": ["lager/debug/debugger.hpp: debugger::update, model::lookup"]}
{"id": "C37", "title": "Undo and redo are inverse, goto is exact", "statement": "undo then redo (when something can be undone) and redo then undo (when something can be redone) restore the debugger exactly; goto to a valid position shows that position, goto past the end changes nothing; none of them alters the recorded history; a new action after going back discards exactly the steps after the cursor.", "quantifier": "every debugger state reachable by any action sequence", "why_tests_cant": "Universal over histories.", "anchors": ["lager/debug/debugger.hpp: debugger::update"]}
{"id": "C38", "title": "Pausing delays actions without losing or reordering them", "statement": "Actions arriving while paused do not change the shown model and run no effect; on resume they are applied in arrival order, giving exactly the history and effects they would have given had they arrived at that moment unpaused.", "quantifier": "every reducer, every action sequence between pause and resume", "why_tests_cant": "Unbounded sequences.", "anchors": ["lager/debug/debugger.hpp: debugger::update (pause_action, resume_action)"]}
{"id": "C39", "title": "A debugged store behaves like the plain store", "statement": "If only ordinary actions are dispatched, a store with_debugger shows the same models and runs the same effects as one without.", "quantifier": "every reducer and action sequence", "why_tests_cant": "Universal.", "anchors": ["lager/debug/debugger.hpp: with_debugger, update, operator const Model&"]}
{"id": "C40", "title": "Tree debugger never loses history", "statement": "In the tree debugger every step ever recorded stays reachable: each action adds exactly one step, existing cursors keep looking up the same action and model, and undo moves to the predecessor.", "quantifier": "every reducer, every sequence of actions, undos and gotos", "why_tests_cant": "Unbounded tree shapes.", "anchors": ["lager/debug/tree_debugger.hpp: model::do_append, append, lookup, update"]}
{"id": "C41", "title": "Tree debugger shows the result of the last action", "statement": "In the tree debugger, after an ordinary action is applied (not paused) the cursor designates the new step: the shown model is the reducer's result on the previously shown model. (Fails for a second branch at the same step: the model exhibits the counterexample; it holds whenever the step at the cursor has no branch yet.)", "quantifier": "every reducer and history", "why_tests_cant": "Needs a second branch at the same node.", "anchors": ["lager/debug/tree_debugger.hpp: do_append line 168"]}
{"id": "C42", "title": "Dependency bags convert and merge without mixing keys", "statement": "Converting deps to another deps type keeps the value of each requested key; optional keys missing in the source are reported missing (has() false, get() throws) and required ones are always present. merge() provides for each key the other bag's dependency if it declares that key and this bag's otherwise.", "quantifier": "every set of specs, keys and values", "why_tests_cant": "Universal over bags.", "anchors": ["lager/deps.hpp: deps::deps, get, has, merge, extract_from_storage_"]}
{"id": "C43", "title": "Converted contexts dispatch to the original store", "statement": "Dispatching through a context converted to fewer actions (directly or with a converter, any number of times) delivers exactly one action to the original store: the composition of the conversions applied to the dispatched action; the event loop is shared and dependencies are those of the source.", "quantifier": "every chain of conversions and every action", "why_tests_cant": "Chains unbounded.", "anchors": ["lager/context.hpp: dispatcher, context"]}
{"id": "C44", "title": "Merging action sets keeps every action dispatchable", "statement": "The action set of sequence(a, b) accepts every action that a or b accepts, and contains no action type convertible to an earlier kept one.", "quantifier": "every pair of action lists and every convertibility preorder", "why_tests_cant": "Universal over type lists.", "anchors": ["lager/context.hpp: merge_actions_aux, are_compatible_actions_aux, find_convertible_action_aux"]}
{"id": "C45", "title": "Serialized containers load back equal", "statement": "Saving and loading immer vector/flex_vector/array/map/set/box, tuple, variant, enum and reflected structs with a size-tagged archive yields the original value when loading into a default-constructed object, and loading consumes exactly what saving produced.", "quantifier": "every value, every element codec that round-trips", "why_tests_cant": "Universal over values and nesting.", "anchors": ["lager/extra/cereal/immer_vector.hpp", "lager/extra/cereal/immer_map.hpp", "lager/extra/cereal/immer_set.hpp", "lager/extra/cereal/tuple.hpp", "lager/extra/cereal/variant_with_name.hpp", "lager/extra/cereal/struct.hpp", "lager/extra/enum.hpp"]}
{"id": "C46", "title": "Enum names round-trip", "statement": "to_enum(to_string(x)) = x for every enumerator listed; unknown values/names throw; with aliases (two names, one value) the first name is used.", "quantifier": "every enumeration table", "why_tests_cant": "Universal over tables.", "anchors": ["lager/extra/enum.hpp: to_string, to_enum"]}
{"id": "C47", "title": "Derived equality and hash agree", "statement": "LAGER_DERIVE EQ equality holds exactly when all listed members are equal, and equal values have equal LAGER_DERIVE HASH hashes.", "quantifier": "every struct and value", "why_tests_cant": "Universal over values.", "anchors": ["lager/extra/derive/eq.hpp", "lager/extra/derive/hash.hpp"]}
{"id": "C48", "title": "Thunk stores run actions like plain stores and thunks as effects", "statement": "With with_thunk, dispatching a plain action has the same effect on the model and runs the same effect as without it; dispatching a thunk leaves the model unchanged and runs the thunk exactly once as an effect with the store's context.", "quantifier": "every reducer and mixed sequence", "why_tests_cant": "Universal over sequences.", "anchors": ["lager/extra/thunk.hpp: with_thunk"]}
{"id": "C49", "title": "Debug server routing picks the first matching resource", "statement": "A request is answered by the first registered resource whose method and pattern match; a handler exception gives a 500 response, no match gives 404; never both and never none.", "quantifier": "every route table and request", "why_tests_cant": "Universal over tables.", "anchors": ["lager/debug/http_server.hpp: router"]}
{"id": "C50", "title": "Objects with names load by name", "statement": "With an archive that keeps names (JSON), reflected structs, tuples, vectors, sets, boxes, maps, enumerations and variants load back what was saved, and loading succeeds exactly for the files that contain a value of the type; the members of a struct are found by name whatever their order and whatever else the object contains; if the archive can be asked for names, absent members keep the value they had and loading throws exactly if a member that is present cannot be loaded, and otherwise a missing member throws.", "quantifier": "every struct, value, target and file content with distinct names", "why_tests_cant": "Universal over values, orders of members and subsets of members.", "anchors": ["lager/extra/cereal/optional_nvp.hpp: serialize_optional_nvp", "lager/extra/cereal/struct.hpp", "lager/extra/derive/cereal.hpp", "lager/extra/cereal/immer_box.hpp", "lager/extra/cereal/variant_with_name.hpp"]}
{"id": "C51", "title": "Debug server requests do what their paths say", "statement": "POST to /api/undo, redo, pause, resume and /api/goto/n dispatches exactly that debugger action, once, and a number that does not fit gives a 500 response and dispatches nothing; GET /api shows the program, the size of the history, the cursor and whether it is paused, GET /api/step/n the action and model of step n or a 500 response if there is none; GET requests dispatch nothing; every other POST and every other method is answered by 404 without effect; every request is answered; the debugger model used is the one the store last published.", "quantifier": "every debugger model, request and sequence of changes and requests", "why_tests_cant": "Universal over targets, including numerals of any length.", "anchors": ["lager/debug/http_server.hpp: http_debug_server_impl::init"]}
{"id": "C52", "title": "Debug server serves only files of its interface", "statement": "A GET request that is not for the API is answered with the file of that name below the gui directory of the resources path (index.html for /), with the MIME type of its extension whatever its case, or 404 if it cannot be opened; no file outside of that directory is served.", "quantifier": "every target, resources path and file system", "why_tests_cant": "Universal over paths.", "anchors": ["lager/debug/http_server.hpp: http_debug_server_impl::init", "lager/debug/http_server.hpp: mime_type_"]}
{"id": "C53", "title": "The SDL loop runs everything once, in order, and stops when told", "statement": "Functions posted to the SDL event loop and SDL events are taken out of the queue in the order in which they entered it, none twice and none lost; every function taken is called at once, every event is passed to the handler or, only because of a pause, dropped; function objects are deleted exactly once, after the call; while paused neither handler nor tick is called; after finish() at most one more entry is taken (run(handler)) or at most one more tick is called (run(handler, tick)) and run returns; it returns only if finish() was called or its own handler or tick returned false, and then without calling anything more.", "quantifier": "every interleaving of the loop with posts, events, finish, pause and resume of any threads, nested runs and exceptions included", "why_tests_cant": "Interleavings cannot be enumerated; the races are between single reads of atomics.", "anchors": ["lager/event_loop/sdl.hpp: sdl_event_loop"]}
{"id": "C54", "title": "Frame pacing keeps the rate", "statement": "In every window of time constant_fps_step lets through no more frames than the rate allows (one more at the border); it never sleeps longer than one frame; it returns the time since the last frame began, but never more than the longest frame to be simulated.", "quantifier": "every rate and every sequence of times at which frames begin and sleeps end", "why_tests_cant": "Universal over timings, including clock wrap-around.", "anchors": ["lager/event_loop/sdl.hpp: constant_fps_step"]}
{"id": "C55", "title": "The QML loop runs everything once, in order, and never forgets to ask for it", "statement": "Functions posted to the QML event loop run once each, in the order in which they entered the queue, none inside another one, and what has not run is in the queue; functions of other threads enter it in the order in which they were posted, each once and unchanged. While functions wait, the timer runs or Qt has been asked to polish and polishing will step the queue; either runs all of them or up to the first that throws, keeping the rest.", "quantifier": "every interleaving of posts of any threads with event delivery, polishing, painting and timeouts; functions that post and throw", "why_tests_cant": "Qt decides the order of callbacks; the test-suite only sees one.", "anchors": ["lager/event_loop/qml.hpp: event_loop_quick_item", "lager/event_loop/queue.hpp: queue_event_loop"]}
{"id": "C56", "title": "The QML loop keeps pace with painting, also when hidden", "statement": "Between two paints polishing steps the queue at most once. Once something was posted Qt is always asked to polish again, and a paint that polishing waits for has been asked for. Posted functions run also while the window is not visible and Qt does not polish.", "quantifier": "every history of posts, event delivery, polishing, painting and timeouts", "why_tests_cant": "Needs Qt to withhold callbacks and exceptions at chosen moments, for unbounded histories.", "anchors": ["lager/event_loop/qml.hpp: updatePolish", "lager/event_loop/qml.hpp: updatePaintNode"]}
{"id": "C57", "title": "The summary of the tree debugger tells the shape of the history", "statement": "summary() says exactly how the recorded steps branch: from it alone one can tell, for every cursor, whether goto finds a step there; histories of the same shape have the same summary and histories of different shapes have different ones; it has no needless entries.", "quantifier": "every tree of recorded steps, every cursor", "why_tests_cant": "Universal over trees of any depth and breadth.", "anchors": ["lager/debug/tree_debugger.hpp:91-101, 202-222"]}
{"id": "C58", "title": "operator[] selects what it says", "statement": "x[a][b]... with keys and pointers to members shows the value at that place of x, through any optionals on the way; as an optional (not wrapped twice) if the path can fail, and empty if it does. Writing changes that place and nothing else, and nothing if it is not there; what was written is then read. The compiler accepts exactly the paths that exist in the type. A lens is used as it is if it applies to the value, and is lifted if it only applies to what is in the optional.", "quantifier": "every type made of numbers, optionals, vectors, maps and classes; every path, value and value written; every lens", "why_tests_cant": "Universal over types, nesting of optionals and paths.", "anchors": ["lager/detail/smart_lens.hpp", "lager/with.hpp:166-173"]}
{"id": "C59", "title": "The example game of snake keeps its rules", "statement": "For any actions and random numbers: the snake has three cells or more, all on the board, each next to the one before, and lies where its head was last; the apple is on the board. Each action does what it says: a turn is taken unless it reverses the snake; a tick moves the head on unless it would leave the board or run into the snake, which ends the game; the snake grows by one cell with every apple. The game is over exactly if the head could not move on since it was started. No two parts of the snake share a cell while the game goes on, and nothing moves after its end. The user interface shows the last state and is told of exactly what changed.", "quantifier": "all sequences of actions, all sequences of random numbers", "why_tests_cant": "Universal over games of any length; the cases that go wrong need particular random numbers.", "anchors": ["example/snake/model.cpp", "example/snake/model.hpp", "example/snake/qml/qmodel.cpp"]}
{"id": "C60", "title": "The example program todo keeps, saves and loads what was entered", "statement": "Each item stays with its text at the place that the actions bring it to, newest first, toggled as often as asked, until it is removed; empty texts and places that do not exist are ignored. Actions are applied in the order in which they were dispatched; the document is what was loaded last with the edits since then; what is written to a file is the document as it was when asked to save it, and loading it again brings it back; failures are told to the logger and change nothing else. No edit is lost, and the file name is that of a file the document is in.", "quantifier": "all sequences of actions, all interleavings of dispatching, effects and changes of files, all failures", "why_tests_cant": "Universal over interleavings of dispatching and effects.", "anchors": ["example/todo/item.cpp", "example/todo/model.cpp", "example/todo/app.cpp"]}
{"id": "C61", "title": "Qt properties show the readers and cursors behind them", "statement": "A property of an object declared with LAGER_QT_READER or LAGER_QT_CURSOR READs the value of the node of its member at all times; its NOTIFY signal is emitted exactly once, with the new value, for each change of that node, in order, and never otherwise, for objects and nodes made, assigned, written and destroyed in any order; the last signal says what READ gives. WRITE makes all properties of the same node READ the value and notifies them if it differs, and affects no others.", "quantifier": "all sequences of constructing, assigning, writing and destroying objects and of changes of nodes", "why_tests_cant": "Universal over histories of any length and numbers of objects and nodes.", "anchors": ["lager/extra/qt.hpp", "lager/watch.hpp"]}
{"id": "C62", "title": "The example game autopong keeps its rules", "statement": "For any sequence of mouse movements and ticks: the paddle stays within the window, at the place nearest to where the mouse takes it. The ball moves equally fast in both directions, a tenth faster for every point. It flies straight ahead while it is away from paddle, walls and ground; it is never further beyond a wall than one tick takes it, and comes back from there. A point is won exactly if it comes to the paddle: a point is only won when its way comes within its radius of the paddle, and no ball crosses the paddle without a point, however fast. Falling to the ground loses the points; the best score is the greatest that was lost. The distance between two segments is the least one between their points.", "quantifier": "all sequences of actions, all tick lengths and random numbers, all pairs of segments", "why_tests_cant": "Universal over games of any length and over a continuum of positions; the cases that go wrong are thin: a crossing in one very short tick, a few coordinates in the division by small numbers.", "anchors": ["example/autopong/autopong.cpp:19-73", "example/autopong/autopong.cpp:77-127", "example/autopong/autopong.hpp:29-53"]}
{"id": "C63", "title": "match calls exactly the handler for what the variants hold", "statement": "match(vs...)(handlers...) calls exactly one handler, with the values held, in order: the only one that overload resolution prefers to all others; its result is returned. It compiles exactly if there is such a handler for every combination of alternatives, so that a forgotten alternative is refused, and all have one type of result. It throws exactly if a variant is valueless. The order of the handlers does not matter; a type that inherits from a variant is treated as the variant. A handler made for what is held is preferred to catch-alls and to handlers for other types.", "quantifier": "all types and implicit conversions, any number of variants and handlers, all values", "why_tests_cant": "Universal over sets of types and over the overload sets of client code; the tests have one overload set with one alternative held.", "anchors": ["lager/util.hpp:41-50", "lager/util.hpp:52-78", "lager/util.hpp:86-128", "lager/util.hpp:151-156"]}
{"id": "C64", "title": "The Boost.Asio loop runs everything it is given, in order and one at a time", "statement": "Posted functions are called in the order in which they were posted, each once; one at a time if the executor is a strand or one thread runs the context. Functions given to async are called once and may be started whatever the loop does. run() returns only if the context was stopped or if nothing is left: every posted function and every function given to async is back, so nothing these post is lost; a thread waits only if there is nothing to call. After finish() no function is called until the context is restarted; pause() keeps functions from being called. Function objects passed as variables are unchanged. Functions do not outlive the loop.", "quantifier": "all interleavings of any number of threads in run(), threads of async and other threads; both constructors, with and without strand", "why_tests_cant": "Universal over schedules; the test of the loop has one thread and one function, and the failures need two threads or a destruction at the right moment.", "anchors": ["lager/event_loop/boost_asio.hpp:36-48", "lager/event_loop/boost_asio.hpp:50-58", "lager/event_loop/boost_asio.hpp:60-64", "lager/event_loop/boost_asio.hpp:66-69"]}
{"id": "C65", "title": "The Qt loop calls functions in order, and its destructor waits for the pool", "statement": "Posted functions are called by the event loop of the main thread in the order in which they were posted, each once, one at a time, and never after the end of the object. Functions given to async are called in order, each once, at most as many at a time as the pool has threads, and as soon as a thread is free. The destructor of a loop object returns exactly when all functions given to the pool are back, so none uses the loop object it was given through after its end; it always returns eventually. After finish() every event loop returns.", "quantifier": "all interleavings of the main thread, pool threads and other threads; any number of copies of the loop, nested event loops, any size of the pool", "why_tests_cant": "Universal over schedules; deadlocks and lost functions need a destruction or a nested event loop at the right moment.", "anchors": ["lager/event_loop/qt.hpp:27-33", "lager/event_loop/qt.hpp:35-39", "lager/event_loop/qt.hpp:41-46", "lager/event_loop/qt.hpp:48-51"]}
{"id": "C66", "title": "Exceptions thrown by computations leave the graph in a state that later commits repair", "statement": "If the function of a lens, transducer or sensor, or a computation for writing through a cursor, throws during a write or commit, then: a reader that disagrees with its parents is below an uncommitted root or below a node that was passed over by the exception and not reached since; every node reached by a later commit that does not throw agrees with its parents again; no watcher is called by a commit that throws, and when that commit is repeated successfully the watchers of all nodes sent down by the first are called.", "quantifier": "all graphs, values, functions, sequences of writes and commits, and all choices of which computations throw", "why_tests_cant": "Every computation of every commit may throw; what is left inconsistent shows only in later commits of other values.", "anchors": ["lager/detail/nodes.hpp:205-226", "lager/detail/nodes.hpp:228-256", "lager/detail/nodes.hpp:296-329", "lager/detail/lens_nodes.hpp:63-99", "lager/detail/xform_nodes.hpp:98-141", "lager/commit.hpp:41-45", "lager/state.hpp:42-58", "lager/sensor.hpp:44"]}
{"id": "C67", "title": "What the page of the debugger shows was so", "statement": "In every run of the page together with the network, the debug server and the program: the step the page shows as loaded for index i is the step i that the server had at some time, the step it keeps showing while another one is loaded is some step the server had, the status is one the server had, and the selected index is that of a step the server had. While nothing is clicked or pressed, a page whose selection is at the cursor stays at the cursor that is reported. When the network is idle and the model does not change any more, the next status and the next step that arrive are the current ones. A page which waits for a step gets it unless a request fails; no request fails if none is lost and the history does not get shorter. What the page shows is not older than what it showed before, the selected step exists, and what is shown is current once everything has settled.", "quantifier": "all programs (reducers), histories, sequences of clicks, key presses, ticks, deliveries, losses and reorderings of requests and answers, actions of the program", "why_tests_cant": "Requests travel over several connections and are answered, lost and reordered in unboundedly many ways between polls and clicks; a test drives one order.", "anchors": ["resources/gui/gui.elm:116-187", "resources/gui/gui.elm:315-325", "lager/debug/http_server.hpp:265-298", "lager/debug/debugger.hpp:96-180"]}
{"id": "C68", "title": "What is asked at the page is what the debugger gets", "statement": "The paths that the page builds are those that the server routes, and numbers are read as written. In every run, the actions that the server dispatched, those under way and those lost are together exactly those wanted by clicks and keys, each once; nothing else is dispatched. From an idle system, each offered action makes the round trip: the debugger performs it and the page then shows the status after it. Actions are performed in the order in which they were asked, and a toggle of the pause that is pressed twice leaves it as it was.", "quantifier": "all runs of page, network, server and program", "why_tests_cant": "It is about every interleaving of requests of one page and about all numbers that indices can have.", "anchors": ["resources/gui/gui.elm:116-187", "resources/gui/gui.elm:315-350", "lager/debug/http_server.hpp:300-337"]}
{"id": "C69", "title": "Keys of the page of the debugger", "statement": "After any sequence of key presses and releases, a further one makes the page send itself a message exactly if the chord that is now held with the highest precedence was not so before, and then the message of that chord; repeats of a held key do nothing. Releasing a key does nothing, and each press of a bound key does something.", "quantifier": "all sequences of key-down and key-up events", "why_tests_cant": "The chord depends on the whole set of held keys and the previous chord; overlapping presses in all orders are not enumerable.", "anchors": ["resources/gui/gui.elm:295-302", "resources/gui/gui.elm:184-186", "resources/gui/gui.js:10510-10562"]}
{"id": "C70", "title": "The view of the page of the debugger", "statement": "The history has one item for each step from the initial one to the last, in order, with its number; exactly the selected one is marked as selected and exactly the one at the cursor as such; clicking it selects it, double-clicking goes to it. The detail shows the action and model of a loaded step, and says initial model exactly for step 0. Only the listed messages are offered. The header names the program, the server and the number of steps, and the title of the window is empty or names the program. The undo and redo buttons are marked as disabled exactly if the debugger would do nothing, and disabled buttons send nothing.", "quantifier": "all states of the page; for the detail all runs", "why_tests_cant": "A rendering test checks one model; this is for all summaries, cursors and selections.", "anchors": ["resources/gui/gui.elm:194-288"]}
{"id": "C71", "title": "Reading through a lens does not depend on what may be moved from", "statement": "view(l, x) returns the same value whether x is something that stays (an lvalue) or may be moved from (a temporary, std::move), for every lens that is composed of the lenses of the library, also where these hand temporaries to each other; and it leaves an lvalue as it was.", "quantifier": "all compositions of all lenses of the library, all wholes of all types, whatever is left of moved-from objects", "why_tests_cant": "The tests view a few lenses, on types whose moved-from objects keep their value. This is for all compositions and all types.", "anchors": ["lager/lenses.hpp:27-96", "lager/lenses/attr.hpp:17-29", "lager/lenses/optional.hpp:19-46", "lager/lenses/tuple.hpp:59-183", "lager/lenses/variant.hpp:16-40", "lager/detail/lens_nodes.hpp:56-66"]}
{"id": "C72", "title": "Writing through a lens does not lose what was moved from", "statement": "set(l, x, v) and over(l, x, fn) return what they return when nothing is ever moved: a lens reads its part before it is written, possibly by moving from it (when x is a temporary, or when a lens before it in a composition hands it one), but what is not overwritten is never left in a moved-from state. In particular writing nullopt through an optional lens changes nothing. The same holds of cursors that are zoomed by such lenses.", "quantifier": "all compositions of all lenses of the library, all wholes and values of all types, whatever is left of moved-from objects", "why_tests_cant": "It takes a type whose moved-from objects lose their value, a lens that reads by moving, and a write that is refused; the tests never write nullopt to a place that has a value.", "anchors": ["lager/lenses.hpp:80-116", "lager/lenses/optional.hpp:28-43", "lager/lenses/optional.hpp:149-160", "lager/lenses/variant.hpp:25-37", "lager/lenses/at.hpp:128-137", "lager/lenses/tuple.hpp:59-183", "lager/detail/lens_nodes.hpp:87-98", "lager/detail/nodes.hpp:341-348"]}
{"id": "C73", "title": "Nothing of a store is used after its last owner is gone", "statement": "The node of a store lives as long as the store object or a reader made from it (or a commit of it) does; in every execution, once the last of these is destroyed, no function posted by the store, no event loop, promise or future of it, and no call of a watcher uses it, and its reducer, effects and watchers are not called any more; watchers may destroy the store.", "quantifier": "every program with a store: any interleaving of dispatching, posting, chaining futures, fulfilling promises, watching, committing, making and destroying readers and the store, from the main program, effects, watchers, callbacks and posted functions, that may throw; automatic and transactional stores, with and without futures, manual loop and queue loop", "why_tests_cant": "Use after free shows only for the interleaving of the destruction with what is waiting or running, and often not even then; the claim is about all of them.", "anchors": ["lager/store.hpp: store_node, dispatch, roots", "lager/context.hpp: event_loop_impl, dispatch", "lager/future.hpp: promise::with_loop, then", "lager/commit.hpp", "lager/event_loop/manual.hpp: post"]}
{"id": "C74", "title": "What nothing owns is destroyed; a store with a debugger and its server", "statement": "An object made by the library is there exactly as long as the program can get to it through shared pointers, its own or those inside of objects; in particular a store with a debugger, its server's thread, and what its dependencies own are destroyed when the program has let go of them, and the thread of the server uses neither the store nor its loop after they are destroyed.", "quantifier": "all programs that make objects with any members, copy, assign, clear and drop shared pointers in any order; any dependencies; any interleaving with requests to the server and the destruction of the loop", "why_tests_cant": "A leak and a thread that goes on running have no visible result; whether the thread uses what is gone depends on when a request arrives, at the end of the program.", "anchors": ["lager/debug/debugger.hpp: with_debugger", "lager/debug/http_server.hpp: server, http_debug_server_impl::init, http_debug_server::make", "lager/deps.hpp: make_deps", "lager/store.hpp: store_node, store", "lager/detail/nodes.hpp: inner_node::parents_"]}
{"id": "C75", "title": "The counter in a terminal hears every key and quits when told to", "statement": "Every key that is typed is handed to the program once and in order until a key that quits; whenever the store has nothing left to do the number on the screen is how often up and not down was typed since the last space, as the instructions on the screen say; a key that is waiting can always be reached; the program does not end before it is told to; after a key that quits it ends, with no exception, having applied all actions, whatever else happens.", "quantifier": "all executions: any keys typed at any time, changes of the size of the terminal at any time, input that is no key, any interleaving of these with the completion of reads, the functions of the terminal and those of the store", "why_tests_cant": "The faults need a key or a change of size in the moment between quitting and the end of a loop or of the queue; a test types one key at a time.", "anchors": ["example/counter/ncurses/terminal.cpp: start, stop, next_key_, next_resize_", "example/counter/ncurses/main.cpp: draw, main", "example/counter/counter.hpp: update"]}
{"id": "C76", "title": "The SDL loop in the browser does what it does elsewhere", "statement": "Built with Emscripten, sdl_event_loop calls posted functions once each and in order, gives all events to the handler in order, calls the tick once for each frame after the events that were there, never one of these from within another, and tells the tick the time since the last one; finish and a handler that returns false end the loop, pause stops handler and tick until resume; the loop is not used after it is destroyed.", "quantifier": "all executions: any interleaving of posting, arriving events, time, frames and timers, finish, pause, resume and results, with run returning or not", "why_tests_cant": "The tests are not run in a browser; order, time and lifetime depend on the interleaving of frames and timers.", "anchors": ["lager/event_loop/sdl.hpp: step, run, post (__EMSCRIPTEN__)"]}
{"id": "C77", "title": "Writes and commits come to an end", "statement": "If watchers and with_setter functions only look (they do not write through a cursor, commit or watch), every set, update and commit on every graph returns or throws: no propagation, notification or upward write goes on for ever. With a watcher that writes, this is not so.", "quantifier": "every client program, every graph of states, sensors, lenses, merges, transducers and setters, every watcher and setter of that kind, every order of evaluation", "why_tests_cant": "Termination for all graphs, programs and callbacks is not a finite observation.", "anchors": ["lager/detail/nodes.hpp: reader_node::notify, send_down, inner_node::push_up", "lager/commit.hpp: commit", "lager/writer.hpp: set, update", "lager/setter.hpp: setter_node::send_up"]}
{"id": "C78", "title": "What is dispatched to a store comes to an end", "statement": "If the effect of every action dispatches only actions of a smaller rank (in whatever it posts or chains to futures too), watchers only look and other threads stop dispatching at some time, then every program with a store comes to an end: dispatching, chaining futures, fulfilling promises, committing and running the loop do not go on for ever. Without the condition on effects they may.", "quantifier": "every model, reducer, effect, client program, rank, with and without futures and transactions, on the manual and the queue loop, every arrival of actions of other threads", "why_tests_cant": "Termination for all programs is not a finite observation.", "anchors": ["lager/store.hpp: store_node::dispatch", "lager/future.hpp: promise::operator(), future::then", "lager/effect.hpp: invoke_reducer", "lager/event_loop/manual.hpp: post", "lager/event_loop/queue.hpp: step"]}
{"id": "C79", "title": "The counter on standard input prints every change once", "statement": "For every input the program comes to an end and has printed, in order, the number after every character that changed it, and nothing else; so the last number printed is the value of the counter. A character that leaves the number as it is, such as a reset at 0, prints nothing.", "quantifier": "every input", "why_tests_cant": "Inputs are unboundedly long.", "anchors": ["example/counter/std/main.cpp: draw, intent, main", "example/counter/counter.hpp: update", "lager/store.hpp: store_node::dispatch", "lager/detail/nodes.hpp: push_down, send_down, notify"]}
{"id": "C80", "title": "A click in the todo list with ImGui changes the item it was drawn for", "statement": "After a frame the model is what the user means: what was entered is put in front, the items whose check box was clicked are toggled, those whose button was clicked are deleted, all others stay as they are; so after any number of frames. (False if a text is entered in the frame of a click, or something is clicked below an item in the frame in which that is deleted: actions carry the index at which the item was drawn.)", "quantifier": "all models, all frames with any set of widgets that report something, all sequences of frames", "why_tests_cant": "Universal over models and sets of widgets; two widgets reporting in one frame is rare.", "anchors": ["example/todo/imgui/main.cpp:40-107", "example/todo/model.cpp:28-49"]}
{"id": "C81", "title": "The counter in an SDL window counts the keys in order and shows the count", "statement": "At any time the counter, and each number drawn so far, is the count of a first part of the keys that were reported, in the order of the reports, and numbers drawn later are of longer or equal parts; a number is drawn again only if an action changed the counter since. Once nothing more is reported the queue becomes empty or the program ends; if it is empty every reported key is counted and the number last drawn is the counter. The program ends if, and only if, the window was closed, and then the keys counted are exactly those whose actions were dispatched before the first such report: a key pressed before it that was still waiting is not counted.", "quantifier": "all sequences of reports by SDL, at any time between two steps of the loop", "why_tests_cant": "Reports interleave with the queue in unboundedly many ways; the reducer and the notification are posted to the queue in which the reports are.", "anchors": ["example/counter/sdl2/main.cpp:44-107", "example/counter/counter.hpp: update", "lager/store.hpp:152-192", "lager/event_loop/sdl.hpp:123-139"]}
{"id": "C82", "title": "The window of the game of snake ticks or asks", "statement": "The game in the store is where a first part of all that was asked (ticks of the timer, keys, accepted dialogs) leads, in order, and all of it once Qt's queue is empty. While the dialog is open the game is over and its timer is stopped. Once nothing happens outside, Qt's queue becomes empty; then the window shows the game of the store, and the timer runs or the dialog is open unless it was dismissed before. Accepting the dialog starts a new game whatever is still in the queue (ticks and turns posted before the end was shown among it); dismissing it ends the game for good: the timer never runs again and the dialog never opens again. The interval of the timer is between 10 and 100, falls as the snake grows, and is 10 from 48 cells on.", "quantifier": "all sequences of random numbers, all interleavings of timer, keys, answers to the dialog and steps of Qt's loop; all lengths of the snake", "why_tests_cant": "Ticks and keys interleave with the posted reducers and notifications in unboundedly many ways.", "anchors": ["example/snake/qml/main.qml:14-81", "example/snake/qml/main.cpp:28-50", "example/snake/qml/qmodel.cpp:31-80", "lager/store.hpp:152-192", "lager/detail/nodes.hpp:103-113, 204-211"]}
