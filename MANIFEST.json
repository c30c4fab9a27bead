{
 "claims": [
  {
   "property": "C01",
   "status": "proved",
   "theorems": [
    "C01_committed_consistent",
    "C01_after_commit",
    "C01_value_exists",
    "C01_partial_commit_refuted"
   ],
   "note": "For readers derived by lenses, merges, maps and filters (vocabulary: plain). The refutation shows that naming all written roots is needed."
  },
  {
   "property": "C02",
   "status": "proved",
   "theorems": [
    "C02_callbacks_see_consistent",
    "C02_roots_committed_together",
    "C02_automatic"
   ],
   "note": ""
  },
  {
   "property": "C03",
   "status": "proved",
   "theorems": [
    "C03_at_most_once",
    "C03_at_most_once_each"
   ],
   "note": ""
  },
  {
   "property": "C04",
   "status": "proved",
   "theorems": [
    "C04_change_notified"
   ],
   "note": "Needs == to be reflexive and no exception to leave a callback."
  },
  {
   "property": "C05",
   "status": "proved",
   "theorems": [
    "C05_nobody_left_stale"
   ],
   "note": "For histories in which no exception leaves a callback (C15 covers the rest)."
  },
  {
   "property": "C06",
   "status": "proved",
   "theorems": [
    "C06_idle_commit_silent",
    "C06_calls_need_assignments",
    "C06_written_back_refuted"
   ],
   "note": ""
  },
  {
   "property": "C07",
   "status": "proved",
   "theorems": [
    "C07_transactional_writes_invisible"
   ],
   "note": ""
  },
  {
   "property": "C08",
   "status": "proved",
   "theorems": [
    "C08_set_visible_on_return",
    "C08_derived_consistent_on_return"
   ],
   "note": ""
  },
  {
   "property": "C09",
   "status": "proved",
   "theorems": [
    "C09_set_through_lenses",
    "C09_after_commit",
    "C09_composed_lens_lawful"
   ],
   "note": ""
  },
  {
   "property": "C10",
   "status": "proved",
   "theorems": [
    "C10_siblings_compose"
   ],
   "note": ""
  },
  {
   "property": "C11",
   "status": "proved",
   "theorems": [
    "C11_update_reads_latest",
    "C11_updates_compose",
    "C11_stale_update_refuted"
   ],
   "note": ""
  },
  {
   "property": "C12",
   "status": "proved",
   "theorems": [
    "C12_merge_writes_components"
   ],
   "note": ""
  },
  {
   "property": "C13",
   "status": "proved",
   "theorems": [
    "C13_sampled_once_per_mention",
    "C13_shows_last_sample"
   ],
   "note": ""
  },
  {
   "property": "C14",
   "status": "proved",
   "theorems": [
    "C14_called_once",
    "C14_automatic_shows",
    "C14_tracks_source"
   ],
   "note": "The value is shown when set() returns unless a callback run by this set() commits something."
  },
  {
   "property": "C15",
   "status": "proved",
   "theorems": [
    "C15_commit_values_despite_throw",
    "C15_set_values_despite_throw",
    "C15_no_node_left_notifying",
    "C01_committed_consistent"
   ],
   "note": ""
  },
  {
   "property": "C16",
   "status": "proved",
   "theorems": [
    "C16_drop_invisible",
    "C16_no_use_after_free",
    "C16_only_connected_called",
    "C16_commit_forgets",
    "C16_notify_forgets"
   ],
   "note": "Two programs differing only by dropped readers of one node, at any points, have the same traces; orders of evaluation fixed but arbitrary. Forgetting is proved for every completed notification of a node."
  },
  {
   "property": "C17",
   "status": "proved",
   "theorems": [
    "C17_new",
    "C17_copy",
    "C17_move",
    "C17_watch",
    "C17_unbind",
    "C17_destroy",
    "C17_assign",
    "C17_move_assign",
    "C17_expire",
    "C17_exactly_once",
    "C17_notify_ends",
    "C17_value",
    "C17_bind",
    "C17_nudge",
    "C17_expire_when",
    "C17_every_pass",
    "C17_undefined_only_if",
    "C17_unbind_in_callback_refuted",
    "C17_assign_in_callback_refuted",
    "C17_assign_skips_others_refuted",
    "C17_twice_refuted"
   ],
   "note": "Any program over any number of reader objects and nodes; C17_every_pass and C17_undefined_only_if also with callbacks that create, assign, unbind, destroy reader objects and change nodes, to any depth. A reader object that is unbound, assigned to or destroyed by its own callback is undefined behaviour or makes the pass skip others; one assigned to by a later callback is called twice (refuted parts)."
  },
  {
   "property": "C18",
   "status": "partial",
   "theorems": [
    "C18_methods",
    "C18_calls",
    "C18_calls_fit",
    "C18_built",
    "C18_reads",
    "C18_latest",
    "C18_latest_many",
    "C18_writes",
    "C18_writes_same",
    "C18_filter_default_refuted",
    "C18_update_refuted"
   ],
   "note": "Proved for every chain and every choice of intermediate readers: reading whenever the filters of the chain accept; with no cursor that reads its source again, also what is shown when they reject later values (with several sources, told by a reader that merges them); writing for chains of two-way maps, writing filters, updates (unless fused onto another two-way transducer) and zooms over transactional states. False, with witnesses, for a filter that rejects from the start (the default value is put in at a different step) and for the writing transducer update fused onto another one."
  },
  {
   "property": "C19",
   "status": "partial",
   "theorems": [
    "C19_last_accepted",
    "C19_initial",
    "C19_made",
    "C19_never_rejected",
    "C19_transducer",
    "C19_uncommitted_refuted"
   ],
   "note": "A value that was never committed can be shown when a zoomed cursor is made from the filtered cursor: C19_uncommitted_refuted. Otherwise (not_reread) proved; that rejected values are never shown is proved always."
  },
  {
   "property": "C20",
   "status": "proved",
   "theorems": [
    "C20_reduced_in_order",
    "C20_get_is_fold",
    "C20_get_is_fold_up_to",
    "C20_manual_drains",
    "C20_step_drains"
   ],
   "note": ""
  },
  {
   "property": "C21",
   "status": "proved",
   "theorems": [
    "C21_effect_of_action",
    "C21_effects_in_order",
    "C21_dispatch_order",
    "C21_at_most_once",
    "C21_nothing_lost",
    "C21_exactly_once",
    "C21_own_action_reduced",
    "C21_model_visible",
    "C21_watchers_told",
    "C21_not_inside_dispatch",
    "C21_effect_executed",
    "C21_effect_lost_refuted"
   ],
   "note": "Exactly once if no exception leaves a watcher or a job; the refutation shows an effect that is not run because a watcher threw just before it."
  },
  {
   "property": "C22",
   "status": "partial",
   "theorems": [
    "C22_subsequence",
    "C22_subsequence_commit",
    "C22_last",
    "C22_no_repeats_refuted"
   ],
   "note": "'Without consecutive repeats' is false of the code: C22_no_repeats_refuted. Everything else is proved, for stores on which commit() is not called; with commit() the values are a subsequence with repetitions."
  },
  {
   "property": "C23",
   "status": "proved",
   "theorems": [
    "C23_done_after",
    "C23_callback_after",
    "C23_callback_at_most_once",
    "C23_done_once",
    "C23_done",
    "C23_callback_runs"
   ],
   "note": "Completeness (the callback does run) if no exception leaves a watcher or a job."
  },
  {
   "property": "C24",
   "status": "proved",
   "theorems": [
    "C24_quiet",
    "C24_quiet_from_the_start",
    "C24_seen_after_commit",
    "C24_commit_publishes"
   ],
   "note": ""
  },
  {
   "property": "C25",
   "status": "proved",
   "theorems": [
    "C25_at_most_once",
    "C25_after_both",
    "C25_exactly_once",
    "C25_posted_or_replaced",
    "C25_second_silent",
    "C25_progress",
    "C25_no_race",
    "C25_assert",
    "C25_two_attachments_refuted",
    "C25_assert_race_refuted",
    "C25_nested_deadlock_refuted"
   ],
   "note": "Any number of threads, promise copies and attachments; posted means the post function was called. Exactly once needs a single attachment (the interface moves the future); with two the first callback is destroyed (refuted). post is called with the mutex held: deadlock if it runs a second fulfilment inside (refuted). With asserts on then() reads the callback unlocked (race exhibited)."
  },
  {
   "property": "C26",
   "status": "proved",
   "theorems": [
    "C26_callback_after",
    "C26_then_done_after",
    "C26_chain_order",
    "C26_then_done",
    "C26_also",
    "C26_also_call",
    "C26_callback_executed",
    "C26_empty"
   ],
   "note": ""
  },
  {
   "property": "C27",
   "status": "partial",
   "theorems": [
    "C27_neutral",
    "C27_noop_before",
    "C27_noop_after_partial",
    "C27_order",
    "C27_throw",
    "C27_all",
    "C27_bracketing_partial",
    "C27_bracketing_refuted",
    "C27_empty_pair_refuted"
   ],
   "note": "Order and neutrality (of the empty effect in runs on the manual loop; of noop before any effect and after effects that return the empty future) are proved. Independence of the bracketing is proved for effects that return the empty future (all but the last two) on the manual loop, with no pair of empty effects; for others C27_bracketing_refuted shows that other functions of the loop may run in between or not, and C27_empty_pair_refuted that a sequence of two empty effects, which is not empty, makes a difference."
  },
  {
   "property": "C28",
   "status": "proved",
   "theorems": [
    "C28_manual_order",
    "C28_manual_drains",
    "C28_manual_ends",
    "C28_endless"
   ],
   "note": "C28_manual_order and C28_manual_drains hold of whatever ends; C28_manual_ends: functions that do not post endlessly come to an end; C28_endless: one that posts itself does not."
  },
  {
   "property": "C29",
   "status": "proved",
   "theorems": [
    "C29_queue_order",
    "C29_queue_step",
    "C29_queue_post_only",
    "C29_queue_ends",
    "C29_nested_step_refuted"
   ],
   "note": "For posted functions that do not call step() themselves; the refutation shows what happens if one does."
  },
  {
   "property": "C30",
   "status": "proved",
   "theorems": [
    "C30_once",
    "C30_nothing_lost",
    "C30_step_runs_all",
    "C30_order_per_thread",
    "C30_internal",
    "C30_adopt_order_refuted"
   ],
   "note": "Order per posting thread holds as long as adopt() does not move the loop to another thread; the refutation shows the exception."
  },
  {
   "property": "C31",
   "status": "proved",
   "theorems": [
    "C31_builtin_lenses_lawful",
    "C31_composition",
    "C31_type_erasure_transparent"
   ],
   "note": "All lenses generated by attr/element/unbox/getset/identity/zip/erasure/composition."
  },
  {
   "property": "C32",
   "status": "proved",
   "theorems": [
    "C32_fan_lawful",
    "C32_fan_head_wins",
    "C32_fan_overlap_refuted"
   ],
   "note": ""
  },
  {
   "property": "C33",
   "status": "partial",
   "theorems": [
    "C33_at_vector",
    "C33_at_map",
    "C33_immer_same",
    "C33_at_or",
    "C33_no_exceptions_same",
    "C33_at_absent_refuted",
    "C33_at_table_partial",
    "C33_at_table_shape_refuted"
   ],
   "note": "Proved for vectors and maps; false for immer::table, where set() inserts (C33_at_table_shape_refuted)."
  },
  {
   "property": "C34",
   "status": "proved",
   "theorems": [
    "C34_alternative"
   ],
   "note": ""
  },
  {
   "property": "C35",
   "status": "proved",
   "theorems": [
    "C35_map_opt",
    "C35_map_opt_laws",
    "C35_bind_opt",
    "C35_bind_opt_laws",
    "C35_value_or",
    "C35_value_or_get_put_refuted",
    "C35_force_opt"
   ],
   "note": "Values are never moved here; see C72."
  },
  {
   "property": "C36",
   "status": "proved",
   "theorems": [
    "C36_history_replays",
    "C36_in_store"
   ],
   "note": "Every list of debugger actions; and every model in any reachable state of a store with the debugger, for any operator== and any program."
  },
  {
   "property": "C37",
   "status": "proved",
   "theorems": [
    "C37_undo_redo",
    "C37_redo_undo",
    "C37_goto",
    "C37_goto_past",
    "C37_only_cursor",
    "C37_act_discards",
    "C37_undo_lost_refuted",
    "C37_tree_redo_refuted"
   ],
   "note": "For the debugger's reducer. In a store whose Model is a number or enumeration operator== of the debugger's model compares only the model shown, and the store drops an undo between equal models (refuted clause). The tree debugger's redo throws (refuted clause)."
  },
  {
   "property": "C38",
   "status": "proved",
   "theorems": [
    "C38_paused",
    "C38_paused_no_effect",
    "C38_resume",
    "C38_resume_throws",
    "C38_pause_resume",
    "C38_tree_paused",
    "C38_tree_resume",
    "C38_pause_lost_refuted"
   ],
   "note": "For the debugger's reducer; no effect means the effect noop, which does nothing; if the reducer throws while resuming nothing changes. In a store whose Model is a number or enumeration the pause itself is dropped (refuted clause)."
  },
  {
   "property": "C39",
   "status": "partial",
   "theorems": [
    "C39_same",
    "C39_same_alone",
    "C39_same_unwatched",
    "C39_same_unwatched_alone",
    "C39_models",
    "C39_tree_same",
    "C39_tree_same_alone",
    "C39_tree_same_unwatched",
    "C39_tree_same_unwatched_alone",
    "C39_extra_notification_refuted",
    "C39_late_future_refuted"
   ],
   "note": "The same run event by event (but for effects that do nothing, which the debugger adds) if operator== of the debugger's model agrees with that of the model (numbers, or no operator== at all), and for all models if there are no watchers; not for stores with both transactions and futures. Missing because false: with watchers and a class model with operator==, watchers are called again for equal models; with transactions and futures, callbacks of futures run later (both refuted)."
  },
  {
   "property": "C40",
   "status": "proved",
   "theorems": [
    "C40_never_undefined",
    "C40_never_lost",
    "C40_one_step",
    "C40_moves_keep",
    "C40_undo",
    "C40_consistent",
    "C40_goto"
   ],
   "note": "All lists of actions, undo, goto, pause, resume."
  },
  {
   "property": "C41",
   "status": "proved",
   "theorems": [
    "C41_shows_result",
    "C41_shows_first_branch",
    "C41_second_branch_refuted"
   ],
   "note": "With the condition in the statement; the counterexample for a second branch at a step is C41_second_branch_refuted."
  },
  {
   "property": "C42",
   "status": "partial",
   "theorems": [
    "C42_required",
    "C42_later",
    "C42_frozen",
    "C42_missing",
    "C42_has",
    "C42_part",
    "C42_merge",
    "C42_store",
    "C42_chain",
    "C42_chain_required",
    "C42_sequence",
    "C42_compiles",
    "C42_get",
    "C42_key",
    "C42_optional",
    "C42_there",
    "C42_throws",
    "C42_two",
    "C42_two_compiles",
    "C42_two_throws",
    "C42_with",
    "C42_sequence_refuted",
    "C42_has_refuted",
    "C42_missing_refuted"
   ],
   "note": "All specifications (val, ref, opt, fn, key, nested in any way) and bags. has() is shown equal to that of the source for specifications that are not optional twice over; for opt<opt<T>> the claim is false (C42_has_refuted), and a missing fn<opt<T>> throws bad_function_call instead of missing_dependency_error (C42_missing_refuted)."
  },
  {
   "property": "C43",
   "status": "proved",
   "theorems": [
    "C43_dispatch",
    "C43_meaning",
    "C43_listed",
    "C43_convertible",
    "C43_shared",
    "C43_exactly",
    "C43_ambiguous_refuted"
   ],
   "note": "Any chain of conversions, with and without converters. C43_dispatch: the composition as a relation; C43_meaning: independently of which of several conversions is chosen. C43_ambiguous_refuted is a further observation, not part of the claim."
  },
  {
   "property": "C44",
   "status": "partial",
   "theorems": [
    "C44_accepts",
    "C44_listed",
    "C44_defined",
    "C44_shape",
    "C44_irredundant",
    "C44_new",
    "C44_found",
    "C44_redundant_refuted",
    "C44_covered_refuted",
    "C44_accepts_refuted"
   ],
   "note": "Every preorder. That no action is convertible to an earlier kept one holds if it holds of the first list, and of everything taken from the second; otherwise it is false (C44_redundant_refuted)."
  },
  {
   "property": "C45",
   "status": "partial",
   "theorems": [
    "C45_sequence",
    "C45_sequence_into",
    "C45_sequence_throws",
    "C45_sequence_size",
    "C45_box",
    "C45_set",
    "C45_set_into",
    "C45_set_size",
    "C45_map",
    "C45_map_into",
    "C45_map_size",
    "C45_auto",
    "C45_enum",
    "C45_struct",
    "C45_tuple",
    "C45_variant",
    "C45_variant_unknown",
    "C45_variant_throws",
    "C45_injective",
    "C45_sequence_exact",
    "C45_box_exact",
    "C45_set_exact",
    "C45_set_fresh",
    "C45_map_exact",
    "C45_auto_exact",
    "C45_enum_exact",
    "C45_struct_exact",
    "C45_tuple_exact",
    "C45_variant_exact",
    "C45_plain",
    "C45_default_refuted",
    "C45_default_map_refuted",
    "C45_auto_refuted",
    "C45_variant_refuted"
   ],
   "note": "Proved for every codec of the elements, for containers into empty ones, and for structs whose members return when loaded into the members of the target. Refuted: structs whose default-constructed containers are not empty, maps of objects that are not kept under their id, variants with two alternatives of one name."
  },
  {
   "property": "C46",
   "status": "proved",
   "theorems": [
    "C46_round_trip",
    "C46_first_name",
    "C46_unknown_value",
    "C46_unknown_name",
    "C46_names_refuted"
   ],
   "note": "For every enumeration and list of names. C46_names_refuted shows that a second name of a value does not come back."
  },
  {
   "property": "C47",
   "status": "partial",
   "theorems": [
    "C47_eq",
    "C47_ne",
    "C47_leibniz",
    "C47_equivalence",
    "C47_hash",
    "C47_hash_template",
    "C47_hash_template_refuted"
   ],
   "note": "Equality in full. Hash: in full for LAGER_DERIVE; for LAGER_DERIVE_TEMPLATE the seed is the hash of typeid(x), so equal objects of different dynamic type have different hashes (refuted); proved where the types agree."
  },
  {
   "property": "C48",
   "status": "proved",
   "theorems": [
    "C48_plain_programs",
    "C48_model",
    "C48_plain_effect",
    "C48_thunk_once"
   ],
   "note": ""
  },
  {
   "property": "C49",
   "status": "partial",
   "theorems": [
    "C49_first",
    "C49_nobody",
    "C49_exactly_one",
    "C49_order",
    "C49_patterns",
    "C49_connection",
    "C49_always_refuted"
   ],
   "note": "'Never none' is false if a handler throws something that is not a std::exception (C49_always_refuted); everything else is proved. Parsing of patterns is not modelled: a pattern is a regular expression tree."
  },
  {
   "property": "C50",
   "status": "partial",
   "theorems": [
    "C50_struct",
    "C50_any_order",
    "C50_by_name",
    "C50_missing",
    "C50_sequence",
    "C50_box",
    "C50_map",
    "C50_enum",
    "C50_variant",
    "C50_data_first",
    "C50_tuple",
    "C50_set",
    "C50_auto_map",
    "C50_number_exact",
    "C50_string_exact",
    "C50_struct_exact",
    "C50_sequence_exact",
    "C50_box_exact",
    "C50_tuple_exact",
    "C50_set_exact",
    "C50_map_exact",
    "C50_auto_map_exact",
    "C50_enum_exact",
    "C50_variant_exact",
    "C50_unchanged",
    "C50_set_thrown",
    "C50_map_thrown",
    "C50_auto_map_thrown",
    "C50_empty_refuted",
    "C50_map_strong_refuted"
   ],
   "note": "The behaviour of the JSON archive is assumed as stated in JsonModel.v. The _exact theorems say for every file whether loading succeeds and what is loaded, the _thrown ones what an exception leaves behind. Refuted where an empty vector is loaded into one that is not empty."
  },
  {
   "property": "C51",
   "status": "partial",
   "theorems": [
    "C51_api",
    "C51_step",
    "C51_goto",
    "C51_action",
    "C51_unknown",
    "C51_get",
    "C51_responds",
    "C51_model",
    "C51_responses",
    "C51_in_turn",
    "C51_last",
    "C51_start",
    "C51_current_refuted"
   ],
   "note": "Before the first change the server shows a default constructed model and not the one of the store (C51_current_refuted). The JSON text is not modelled, only what it is made of; one thread, the atom makes loads and stores of the model atomic."
  },
  {
   "property": "C52",
   "status": "partial",
   "theorems": [
    "C52_file",
    "C52_path",
    "C52_below",
    "C52_confined_refuted",
    "C52_type",
    "C52_no_type",
    "C52_newline"
   ],
   "note": "Confinement is false for targets with '..' (C52_confined_refuted) and proved for all others, for file systems without links."
  },
  {
   "property": "C53",
   "status": "partial",
   "theorems": [
    "C53_order",
    "C53_memory",
    "C53_dropped_only_paused",
    "C53_finish_plain",
    "C53_finish_ticks",
    "C53_finish_returns",
    "C53_goes_on",
    "C53_stops",
    "C53_tick_empty",
    "C53_drains",
    "C53_client",
    "C53_mode",
    "C53_pause_silent",
    "C53_paused_goes_on",
    "C53_finish_paused_refuted",
    "C53_finish_wakes_refuted",
    "C53_resume_wakes_refuted",
    "C53_pause_plain_refuted",
    "C53_leak_refuted"
   ],
   "note": "Proved: order, once, memory, what happens after finish and during pauses. Refuted of the code: finish does not end a paused run(handler, tick) nor wake a waiting loop, run(handler) ignores pauses and leaks functions that throw."
  },
  {
   "property": "C54",
   "status": "partial",
   "theorems": [
    "C54_rate",
    "C54_delay",
    "C54_delta",
    "C54_rate_refuted"
   ],
   "note": "Exact arithmetic instead of float. Rate and delay hold while the clock fits into an int; refuted after 2^31 ms."
  },
  {
   "property": "C55",
   "status": "proved",
   "theorems": [
    "C55_order",
    "C55_remote",
    "C55_runs"
   ],
   "note": "For functions that do not call step() themselves (C29_nested_step_refuted shows what happens then)."
  },
  {
   "property": "C56",
   "status": "partial",
   "theorems": [
    "C56_pace",
    "C56_chain_partial",
    "C56_chain_refuted",
    "C56_hidden",
    "C56_hidden_refuted"
   ],
   "note": "The pace holds. That polishing goes on holds as long as no function throws while polishing and is refuted otherwise; that functions run while Qt does not polish is refuted: until the first polish the timer does not run."
  },
  {
   "property": "C57",
   "status": "proved",
   "theorems": [
    "C57_reads",
    "C57_exact",
    "C57_form",
    "C57_cursors"
   ],
   "note": "For all trees, not only those that can be recorded."
  },
  {
   "property": "C58",
   "status": "partial",
   "theorems": [
    "C58_type",
    "C58_read",
    "C58_write",
    "C58_missing",
    "C58_empty",
    "C58_put_get",
    "C58_get_put",
    "C58_put_put",
    "C58_elsewhere",
    "C58_as_is",
    "C58_lifted",
    "C58_empty_refuted",
    "C58_lens_refuted"
   ],
   "note": "All types, paths and values. Refuted: an optional member cannot be emptied through an optional; a lens of lager that only applies to what is in the optional makes the program ill-formed instead of being lifted (by the rules of the language: the return types of generic lambdas are deduced). Values are never moved here; see C72."
  },
  {
   "property": "C59",
   "status": "partial",
   "theorems": [
    "C59_defined",
    "C59_shape",
    "C59_trail",
    "C59_turn",
    "C59_tick",
    "C59_reset",
    "C59_over",
    "C59_still",
    "C59_overlap",
    "C59_view",
    "C59_signals",
    "C59_overlap_refuted",
    "C59_reverse_refuted",
    "C59_over_refuted",
    "C59_apple_refuted"
   ],
   "note": "All actions and random numbers. Refuted: the snake can lie over itself without the game being over (the head moves to where the tail was, with the apple there); two turns between ticks reverse it; it can be turned and moved on after the end; the apple can be placed on it."
  },
  {
   "property": "C60",
   "status": "partial",
   "theorems": [
    "C60_follow",
    "C60_origin",
    "C60_order",
    "C60_distinct",
    "C60_serial",
    "C60_document",
    "C60_file",
    "C60_saved",
    "C60_loaded",
    "C60_restores",
    "C60_load_fails",
    "C60_save_fails",
    "C60_lost_refuted",
    "C60_path_refuted",
    "C60_twice_refuted"
   ],
   "note": "All actions, interleavings and failures. Refuted: an edit applied between asking to load a document and its arrival is lost; the file name changes although saving failed; an action names an item by its place, which may by then be that of another item."
  },
  {
   "property": "C61",
   "status": "partial",
   "theorems": [
    "C61_follow",
    "C61_runs",
    "C61_last",
    "C61_write",
    "C61_assign_refuted",
    "C61_null_refuted"
   ],
   "note": "All histories; the slots connected to the signals do nothing to objects and readers. Refuted: assigning the member changes what is READ without a signal; READ of a property whose member was default constructed is undefined."
  },
  {
   "property": "C62",
   "status": "partial",
   "theorems": [
    "C62_distance",
    "C62_distance_least",
    "C62_distance_refuted",
    "C62_paddle",
    "C62_mouse",
    "C62_mouse_only",
    "C62_speed",
    "C62_flies",
    "C62_bounces",
    "C62_crossing",
    "C62_falls",
    "C62_best",
    "C62_walls",
    "C62_comes_back",
    "C62_lights",
    "C62_fading",
    "C62_lit",
    "C62_walls_refuted",
    "C62_crossing_refuted"
   ],
   "note": "Exact rational numbers instead of floats. All games; ticks of a thousandth of a millisecond or more for crossing, ticks that take the ball at most 500 pixels for the walls. Refuted: for shorter ticks the ball passes the paddle, as the distance of tiny segments is not the least; for longer ones it is shown outside of the window."
  },
  {
   "property": "C63",
   "status": "partial",
   "theorems": [
    "C63_calls",
    "C63_unique",
    "C63_compiles",
    "C63_missing",
    "C63_not_twice",
    "C63_throws",
    "C63_order",
    "C63_inherits",
    "C63_specific",
    "C63_ways",
    "C63_ladder",
    "C63_by_value",
    "C63_by_auto",
    "C63_converted",
    "C63_exact_first",
    "C63_ranks",
    "C63_same_rank",
    "C63_positions",
    "C63_pack",
    "C63_generic",
    "C63_packs",
    "C63_missing_refuted",
    "C63_specific_refuted",
    "C63_ambiguous_refuted",
    "C63_reference_refuted"
   ],
   "note": "All overload sets of plain and fully generic handlers. C63_specific is for parameters by value or const reference. Refuted: a forgotten alternative may be converted for the handler of another one; auto&& takes what a handler for const T& was made for; several handlers that take it may be ambiguous; a reference returned by a handler is copied."
  },
  {
   "property": "C64",
   "status": "partial",
   "theorems": [
    "C64_order",
    "C64_serial",
    "C64_alone",
    "C64_async",
    "C64_async_starts",
    "C64_returns",
    "C64_ran_out",
    "C64_waits",
    "C64_done",
    "C64_work",
    "C64_work_ends",
    "C64_finish",
    "C64_stopped",
    "C64_stopped_strand",
    "C64_kept",
    "C64_users",
    "C64_unprotected",
    "C64_undefined",
    "C64_back",
    "C64_async_back",
    "C64_throws",
    "C64_inside",
    "C64_enters",
    "C64_serial_refuted",
    "C64_finish_refuted",
    "C64_stopped_refuted",
    "C64_pause_refuted",
    "C64_kept_refuted",
    "C64_lifetime_refuted"
   ],
   "note": "All interleavings of any number of threads; the behaviour of Boost.Asio is assumed as stated in AsioModel.v. Refuted: without a strand several threads in run() call posted functions at once; finish() of the one-argument constructor and pause() do nothing; on a strand functions that were ready are called after finish(); async takes the function out of an lvalue; functions outlive the loop."
  },
  {
   "property": "C65",
   "status": "partial",
   "theorems": [
    "C65_order",
    "C65_delivers",
    "C65_gone",
    "C65_serial",
    "C65_async",
    "C65_most",
    "C65_starts",
    "C65_destructor",
    "C65_destructor_returns",
    "C65_uses",
    "C65_deadlock",
    "C65_deadlock_all",
    "C65_finish",
    "C65_finish_nested",
    "C65_returns",
    "C65_undefined",
    "C65_undefined_copy",
    "C65_unprotected",
    "C65_blocks",
    "C65_back",
    "C65_inner",
    "C65_serial_refuted",
    "C65_dropped_refuted",
    "C65_copy_refuted",
    "C65_finish_refuted",
    "C65_lifetime_refuted"
   ],
   "note": "All interleavings; the behaviour of Qt is assumed as stated in QtLoopModel.v. Refuted: a posted function that runs an event loop is interrupted by others; finish() before exec() has no effect; functions waiting when the object is destroyed are never called; destroying a copy waits for work of others, and for ever in a function of the pool; what is posted while the destructor waits is called after it."
  },
  {
   "property": "C66",
   "status": "partial",
   "theorems": [
    "C66_ends",
    "C66_stale",
    "C66_clean",
    "C66_recovers",
    "C66_arrives",
    "C66_shown",
    "C66_silent",
    "C66_late",
    "C66_owed",
    "C66_set",
    "C66_sensors",
    "C66_accepted",
    "C66_rejected",
    "C66_atomic_refuted",
    "C66_stale_refuted",
    "C66_lasting_refuted",
    "C66_set_refuted",
    "C66_write_refuted"
   ],
   "note": "All graphs, programs, choices of what throws and orders in which parents are refreshed and written to; transducers may filter but have no state, the graph does not change, watchers do nothing. Refuted: commit is not all or nothing; nodes passed over stay stale after later commits, even of other values of the root; set of an automatic state, or through a merged cursor, can throw and have written."
  },
  {
   "property": "C67",
   "status": "partial",
   "theorems": [
    "C67_loaded",
    "C67_changing",
    "C67_status",
    "C67_kept",
    "C67_selected",
    "C67_follows",
    "C67_follows_first",
    "C67_poll",
    "C67_settles",
    "C67_owed",
    "C67_none_fails",
    "C67_all_loaded",
    "C67_stale_refuted",
    "C67_exists_refuted",
    "C67_order_refuted",
    "C67_stuck_refuted"
   ],
   "note": "All reducers, encodings and runs of page, network, server and program. Refuted: after undo and another action the old step at the same index stays shown; the selected step may not exist any more; an older status may overwrite a newer one; a lost request for a step is never repeated."
  },
  {
   "property": "C68",
   "status": "partial",
   "theorems": [
    "C68_routes",
    "C68_distinct",
    "C68_asked",
    "C68_performed",
    "C68_round_trip",
    "C68_order_refuted",
    "C68_toggle_refuted"
   ],
   "note": "Indices are within the range of the server's size type. Refuted: requests may overtake each other; two toggles between polls both pause."
  },
  {
   "property": "C69",
   "status": "partial",
   "theorems": [
    "C69_fires",
    "C69_at_most_one",
    "C69_repeats",
    "C69_in_runs",
    "C69_release_refuted",
    "C69_press_refuted"
   ],
   "note": "All sequences of key events. Refuted: releasing shift with up held moves the selection; down does nothing while up is held."
  },
  {
   "property": "C70",
   "status": "partial",
   "theorems": [
    "C70_items",
    "C70_detail",
    "C70_initial",
    "C70_offered",
    "C70_header",
    "C70_title",
    "C70_buttons",
    "C70_disabled_refuted"
   ],
   "note": "Refuted: disabled buttons still send their requests."
  },
  {
   "property": "C71",
   "status": "proved",
   "theorems": [
    "C71_view",
    "C71_stays",
    "C71_select_read",
    "C71_cursor"
   ],
   "note": "All lenses of the library and their compositions, all types; C71_stays for pointers to members that behave as C++ makes them."
  },
  {
   "property": "C72",
   "status": "partial",
   "theorems": [
    "C72_trivial_moves",
    "C72_trivial_moves_over",
    "C72_set_partial",
    "C72_over_partial",
    "C72_operator_partial",
    "C72_operator_none_partial",
    "C72_force_opt",
    "C72_cleared",
    "C72_clear_refuted",
    "C72_variant_refuted",
    "C72_force_opt_refuted",
    "C72_value_refuted",
    "C72_getset_refuted",
    "C72_select",
    "C72_select_write_partial",
    "C72_select_empty_refuted",
    "C72_cursor_trivial_moves",
    "C72_cursor_partial",
    "C72_cursor_operator_partial",
    "C72_cursor_refuted",
    "C72_cursor_variant_refuted"
   ],
   "note": "All lenses if moves leave no trace; all types for lenses that refer to, copy or overwrite what they read (tame), and for values written where operator[] leads. Refuted: set(at(k) | with_opt(attr(m)), x, nullopt) leaves the member moved-from; so do alternative on a temporary and force_opt | map_opt(attr); a value written inside of alternative inside of map_opt on a temporary loses the other members; getset with a getter by value loses the whole on a temporary, so it does in every cursor (also the lens of the manual)."
  },
  {
   "property": "C73",
   "status": "partial",
   "theorems": [
    "C73_owned",
    "C73_loop_partial",
    "C73_future_partial",
    "C73_safe",
    "C73_silent",
    "C73_watchers",
    "C73_commit",
    "C73_waiting_refuted",
    "C73_effect_refuted",
    "C73_future_refuted",
    "C73_promise_refuted"
   ],
   "note": "All programs with one store, on the manual loop or a queue outside, in one thread; functions own no readers. Refuted: the store is used after it is destroyed by its functions that wait in a queue outside, by the manual loop that is a member of it if an effect destroys it, and by the futures of its actions."
  },
  {
   "property": "C74",
   "status": "partial",
   "theorems": [
    "C74_valid",
    "C74_destroyed_partial",
    "C74_by_age",
    "C74_leak",
    "C74_lost",
    "C74_start",
    "C74_server_stays",
    "C74_server_node",
    "C74_server_loop_partial",
    "C74_server_answers",
    "C74_server_uses",
    "C74_stops_refuted",
    "C74_loop_refuted"
   ],
   "note": "Shared pointers in general: exact for programs that put objects together when they are made, and objects that own themselves are the only reason for a leak. Refuted for with_debugger: the store owns the server through its dependencies and the server owns the store through its reader, so neither is destroyed and the server's thread uses the loop after the program destroyed it."
  },
  {
   "property": "C75",
   "status": "partial",
   "theorems": [
    "C75_order",
    "C75_until_quit",
    "C75_value",
    "C75_counts",
    "C75_hears_partial",
    "C75_runs_on",
    "C75_fails",
    "C75_quits_partial",
    "C75_returns_partial",
    "C75_returns_always_partial",
    "C75_quits_refuted",
    "C75_resize_refuted",
    "C75_deaf_refuted",
    "C75_instructions_refuted"
   ],
   "note": "Order, number, reaching keys and returning for all runs. Refuted: quitting with a further key typed or a change of size ready ends in bad_function_call; input that is no key leaves the program deaf; the instructions are the wrong way round. C75_fails: it fails for no other reason."
  },
  {
   "property": "C76",
   "status": "partial",
   "theorems": [
    "C76_posted",
    "C76_events",
    "C76_alone",
    "C76_framed",
    "C76_complete",
    "C76_frame",
    "C76_within",
    "C76_ignored",
    "C76_valid_partial",
    "C76_paced_refuted",
    "C76_finish_refuted",
    "C76_pause_refuted",
    "C76_quit_refuted",
    "C76_valid_refuted"
   ],
   "note": "Order, frames and nesting in full, for functions that do not throw. Refuted: the tick is told the time its events took, not the time since the last tick; finish, pause, resume and the result of the handler have no effect; run(.., infinite = false) leaves a loop that may be destroyed."
  },
  {
   "property": "C77",
   "status": "proved",
   "theorems": [
    "C77_ends",
    "C77_endless"
   ],
   "note": "For every graph and every tame client; outcomes other than running for ever (return, exception, misuse) are the subject of C16 and the others. C77_endless: with a watcher that writes it is false. Watchers that register watchers are outside the statement: they may not watch."
  },
  {
   "property": "C78",
   "status": "proved",
   "theorems": [
    "C78_ends",
    "C78_endless"
   ],
   "note": "Manual and queue loop, with and without futures and transactions, with actions of other threads that stop at some time. Results other than running for ever (Misuse, Deadlock) are the subject of other properties. C78_endless: without the condition on effects it is false."
  },
  {
   "property": "C79",
   "status": "proved",
   "theorems": [
    "C79_prints",
    "C79_last",
    "C79_unanswered"
   ],
   "note": "All inputs; the number does not overflow. The program is run by StoreModel; what is printed is only the numbers."
  },
  {
   "property": "C80",
   "status": "partial",
   "theorems": [
    "C80_frame_partial",
    "C80_frames_partial",
    "C80_enter_refuted",
    "C80_two_refuted"
   ],
   "note": "All frames in which no text is entered together with a click and nothing is clicked below an item that is deleted; the full statement is false, with witnesses."
  },
  {
   "property": "C81",
   "status": "proved",
   "theorems": [
    "C81_value",
    "C81_drawn",
    "C81_changed",
    "C81_settled",
    "C81_runs",
    "C81_ends",
    "C81_quit",
    "C81_quit_refuted"
   ],
   "note": "The stronger claim that all keys pressed before the window is closed are counted is false (C81_quit_refuted)."
  },
  {
   "property": "C82",
   "status": "proved",
   "theorems": [
    "C82_order",
    "C82_dialog",
    "C82_runs",
    "C82_settled",
    "C82_restart",
    "C82_dismissed",
    "C82_interval",
    "C82_settled_refuted"
   ],
   "note": "The stronger claim that the game can always be restarted is false: a dialog that is dismissed is not shown again (C82_dismissed, C82_settled_refuted)."
  }
 ]
}