{
 "claims": [
  {
   "property": "C01",
   "status": "proved",
   "theorems": [
    "C01_graph_last_write_wins",
    "C01_last_write_deterministic"
   ],
   "note": ""
  },
  {
   "property": "C02",
   "status": "proved",
   "theorems": [
    "C02_iteration_ascending_exact"
   ],
   "note": ""
  },
  {
   "property": "C03",
   "status": "proved",
   "theorems": [
    "C03_get_contains_agree"
   ],
   "note": ""
  },
  {
   "property": "C04",
   "status": "proved",
   "theorems": [
    "C04_from_iter_keeps_last"
   ],
   "note": ""
  },
  {
   "property": "C05",
   "status": "proved",
   "theorems": [
    "C05_iteration_history_independent"
   ],
   "note": ""
  },
  {
   "property": "C06",
   "status": "proved",
   "theorems": [
    "C06_virtual_iff_absent"
   ],
   "note": ""
  },
  {
   "property": "C07",
   "status": "proved",
   "theorems": [
    "C07_first_dereference",
    "C07_dereference_frozen"
   ],
   "note": ""
  },
  {
   "property": "C08",
   "status": "partial",
   "theorems": [
    "C08_deref_agrees_with_virtual_refuted",
    "C08_deref_agrees_with_virtual_partial"
   ],
   "note": "False of the code over contexts: the dereference is a snapshot, is_virtual is live. The partial theorem covers graphs, first dereferences, and contexts with nothing registered around them since; C64 is the exact behaviour."
  },
  {
   "property": "C09",
   "status": "proved",
   "theorems": [
    "C09_successors",
    "C09_proxy_fields",
    "C09_paths"
   ],
   "note": ""
  },
  {
   "property": "C10",
   "status": "proved",
   "theorems": [
    "C10_reads_are_overlays"
   ],
   "note": ""
  },
  {
   "property": "C100",
   "status": "proved",
   "theorems": [
    "C100_polite_never_blocks",
    "C100_save_delete_never_block",
    "C100_save_delete_come_back"
   ],
   "note": "The last theorem leaves out programs rustc rejects (OStuck)."
  },
  {
   "property": "C101",
   "status": "proved",
   "theorems": [
    "C101_pending_is_what_was_gathered",
    "C101_what_a_sub_transaction_brings",
    "C101_triggers_act_by_sub_transactions",
    "C101_no_commit_no_effect"
   ],
   "note": ""
  },
  {
   "property": "C102",
   "status": "proved",
   "theorems": [
    "C102_unseen_does_not_matter",
    "C102_save_looks_at_no_node",
    "C102_delete_looks_at_its_node"
   ],
   "note": ""
  },
  {
   "property": "C103",
   "status": "proved",
   "theorems": [
    "C103_trigger_of_a_schedule_never_executed"
   ],
   "note": ""
  },
  {
   "property": "C104",
   "status": "proved",
   "theorems": [
    "C104_target_is_not_changed",
    "C104_target_is_not_seen"
   ],
   "note": ""
  },
  {
   "property": "C105",
   "status": "proved",
   "theorems": [
    "C105_index_answers"
   ],
   "note": ""
  },
  {
   "property": "C106",
   "status": "proved",
   "theorems": [
    "C106_only_what_is_pending_matters"
   ],
   "note": "steady: no user code panics during a commit (C106_case shows that a crash half-way tells the difference, see C67)"
  },
  {
   "property": "C107",
   "status": "proved",
   "theorems": [
    "C107_pieces_can_be_replaced",
    "C107_save_with_triggers_replaced"
   ],
   "note": "the laws are the constructors of SpecPending.rewrites; C107_not_across shows they do not hold across contexts"
  },
  {
   "property": "C108",
   "status": "proved",
   "theorems": [
    "C108_lines_are_literals",
    "C108_literals_are_unambiguous"
   ],
   "note": "which characters that are not ASCII are written by their codes is any predicate"
  },
  {
   "property": "C109",
   "status": "proved",
   "theorems": [
    "C109_alone_among_many",
    "C109_unused_are_left_alone"
   ],
   "note": ""
  },
  {
   "property": "C11",
   "status": "proved",
   "theorems": [
    "C11_isolation",
    "C11_siblings_apart"
   ],
   "note": ""
  },
  {
   "property": "C110",
   "status": "proved",
   "theorems": [
    "C110_seen_from_one_schema",
    "C110_all_locks_released"
   ],
   "note": ""
  },
  {
   "property": "C111",
   "status": "proved",
   "theorems": [
    "C111_failed_tx_undoes_its_schema_only",
    "C111_ok_publishes_in_its_schema"
   ],
   "note": ""
  },
  {
   "property": "C112",
   "status": "proved",
   "theorems": [
    "C112_blocks_on_its_own_schema_only"
   ],
   "note": ""
  },
  {
   "property": "C113",
   "status": "proved",
   "theorems": [
    "C113_what_a_run_logs",
    "C113_a_panicking_run_logs_nothing"
   ],
   "note": ""
  },
  {
   "property": "C114",
   "status": "proved",
   "theorems": [
    "C114_absences_are_logged",
    "C114_logs_when_it_returns",
    "C114_not_found_means_found"
   ],
   "note": ""
  },
  {
   "property": "C115",
   "status": "proved",
   "theorems": [
    "C115_copies_start_unloaded",
    "C115_readers_may_disagree",
    "C115_a_proxy_has_its_own"
   ],
   "note": ""
  },
  {
   "property": "C116",
   "status": "proved",
   "theorems": [
    "C116_loaded_for_all"
   ],
   "note": ""
  },
  {
   "property": "C117",
   "status": "proved",
   "theorems": [
    "C117_as_if_dropped_at_once",
    "C117_iteration",
    "C117_get"
   ],
   "note": ""
  },
  {
   "property": "C118",
   "status": "proved",
   "theorems": [
    "C118_waits_exactly",
    "C118_never_after"
   ],
   "note": ""
  },
  {
   "property": "C119",
   "status": "proved",
   "theorems": [
    "C119_held_still",
    "C119_leaked_for_ever"
   ],
   "note": ""
  },
  {
   "property": "C12",
   "status": "proved",
   "theorems": [
    "C12_parent_visible_live"
   ],
   "note": ""
  },
  {
   "property": "C120",
   "status": "proved",
   "theorems": [
    "C120_sees_the_last_value",
    "C120_held_still"
   ],
   "note": ""
  },
  {
   "property": "C121",
   "status": "proved",
   "theorems": [
    "C121_logged_iff_spoilt",
    "C121_empty_exactly",
    "C121_spoilt_is_free"
   ],
   "note": ""
  },
  {
   "property": "C122",
   "status": "proved",
   "theorems": [
    "C122_waits_exactly",
    "C122_exclusive",
    "C122_leaked_for_ever"
   ],
   "note": ""
  },
  {
   "property": "C123",
   "status": "proved",
   "theorems": [
    "C123_reported_exactly",
    "C123_by_no_other",
    "C123_for_ever"
   ],
   "note": "Machine of Guards.v with panics and the poison of the graph's lock (Unwind.v). Panics of user code in a commit: see C137."
  },
  {
   "property": "C124",
   "status": "proved",
   "theorems": [
    "C124_panics_do_not_matter"
   ],
   "note": "Same machine."
  },
  {
   "property": "C125",
   "status": "proved",
   "theorems": [
    "C125_what_an_end_logs",
    "C125_logged_is_dropped",
    "C125_silent_is_published"
   ],
   "note": "Same machine; what a silent end of a sub-transaction brings is C13."
  },
  {
   "property": "C126",
   "status": "proved",
   "theorems": [
    "C126_literal_extension_in_characters"
   ],
   "note": "Utf8.v: the reading is proved to be the one of SpecUtf8 (lossy_iff)."
  },
  {
   "property": "C127",
   "status": "proved",
   "theorems": [
    "C127_listed_id_loads_its_file_iff"
   ],
   "note": ""
  },
  {
   "property": "C128",
   "status": "proved",
   "theorems": [
    "C128_extension_with_a_class"
   ],
   "note": ""
  },
  {
   "property": "C129",
   "status": "proved",
   "theorems": [
    "C129_index_records_everything_done",
    "C129_every_session"
   ],
   "note": "For the type instance in which the plugin finds its tree (T::Id = T), as in C81. Generalises C77, C78 and C81; the scripts leak no contexts and access no resources themselves."
  },
  {
   "property": "C13",
   "status": "proved",
   "theorems": [
    "C13_commit_transfers_view"
   ],
   "note": ""
  },
  {
   "property": "C130",
   "status": "proved",
   "theorems": [
    "C130_arguments_mean_what_the_grammar_says",
    "C130_arguments_unambiguous"
   ],
   "note": "clap itself is modelled from its documentation and sources as remembered (not part of /repo); ends that are no run (errors, help, version) are not told apart"
  },
  {
   "property": "C131",
   "status": "proved",
   "theorems": [
    "C131_commands_that_can_be_written"
   ],
   "note": ""
  },
  {
   "property": "C132",
   "status": "proved",
   "theorems": [
    "C132_listed_documents_within_reach"
   ],
   "note": ""
  },
  {
   "property": "C133",
   "status": "proved",
   "theorems": [
    "C133_no_run_without_a_working_directory"
   ],
   "note": ""
  },
  {
   "property": "C134",
   "status": "proved",
   "theorems": [
    "C134_none_installed",
    "C134_installed",
    "C134_trees_record_everything_done",
    "C134_ends_unless_a_tree_does_not"
   ],
   "note": "Without panics of user code (those are C135). The trees of plugins whose installed tree type differs from the one looked up (C59) are the case x ty = None."
  },
  {
   "property": "C135",
   "status": "proved",
   "theorems": [
    "C135_transaction_with_panics",
    "C135_session_with_panics",
    "C135_lost_for_ever",
    "C135_not_lost_otherwise",
    "C135_without_trees_as_without_plugins"
   ],
   "note": ""
  },
  {
   "property": "C136",
   "status": "proved",
   "theorems": [
    "C136_runs_are_histories",
    "C136_histories_are_runs",
    "C136_one_history",
    "C136_no_history",
    "C136_operations"
   ],
   "note": "the programs of Prog.v, which share the world of one run, against the machines of Unwind.v (graph, transactions, contexts) and Cells.v (targets, resources), whose calls stand alone: they were transcribed from the code independently, each is checked by the other"
  },
  {
   "property": "C137",
   "status": "proved",
   "theorems": [
    "C137_when",
    "C137_applies_a_prefix",
    "C137_as_if_dropped_then_written",
    "C137_logs_nothing",
    "C137_poisons"
   ],
   "note": "Machines of Guards.v and Unwind.v; what was gathered is the journal of SpecTx.v. Programs: C67, C98."
  },
  {
   "property": "C138",
   "status": "proved",
   "theorems": [
    "C138_without_panics",
    "C138_broken_off",
    "C138_may_panic",
    "C138_history",
    "C138_answers"
   ],
   "note": "User code panics in its k-th call, for any k; the order of calls is transcribed. That the code without panics is Interval.v's is C138_without_panics."
  },
  {
   "property": "C139",
   "status": "proved",
   "theorems": [
    "C139_how_many_calls",
    "C139_which_intervals",
    "C139_looked_at_in_vain"
   ],
   "note": "Calls of lo, hi, comparisons and the closure are counted; for intersects the search path is that of C80."
  },
  {
   "property": "C14",
   "status": "proved",
   "theorems": [
    "C14_failed_sub_leaves_no_trace",
    "C14_uncommitted_leaves_no_trace"
   ],
   "note": "programs (with closures, triggers, panics) and raw histories"
  },
  {
   "property": "C140",
   "status": "proved",
   "theorems": [
    "C140_written_by_calls",
    "C140_harmless_intervals",
    "C140_let_in_unnoticed",
    "C140_lost_by_the_next_save"
   ],
   "note": "Panics by single calls of user code; clones of ids do not panic here, and comparing two NodeIntervals is one call."
  },
  {
   "property": "C141",
   "status": "proved",
   "theorems": [
    "C141_in_exactly_one_place",
    "C141_nothing_is_lost",
    "C141_leaked_transactions",
    "C141_leaked_contexts",
    "C141_locked_while_dropping",
    "C141_waiting",
    "C141_rollback_drops",
    "C141_commit_drops",
    "C141_merge_drops",
    "C141_crash_drops"
   ],
   "note": "over all histories of the machine of guards and transactions; case C141_case"
  },
  {
   "property": "C142",
   "status": "proved",
   "theorems": [
    "C142_as_if_at_once",
    "C142_reads_change_nothing",
    "C142_changes_alone",
    "C142_waits_exactly",
    "C142_waits_only",
    "C142_waits_if",
    "C142_rejected",
    "C142_goes_on",
    "C142_read_panics",
    "C142_commit_panics"
   ],
   "note": ""
  },
  {
   "property": "C143",
   "status": "proved",
   "theorems": [
    "C143_as_plain_nodes",
    "C143_documents",
    "C143_one_place",
    "C143_dereferenced",
    "C143_one_content",
    "C143_loaded_by",
    "C143_not_loaded_while_waiting",
    "C143_content_stays",
    "C143_copies_ask_again"
   ],
   "note": "a call of try_deref is one step here (Lazy.v has several threads in one document, C38-C40, C65); the schema starts empty, nodes of a given graph can be put in through a guard"
  },
  {
   "property": "C144",
   "status": "proved",
   "theorems": [
    "C144_never_poisoned",
    "C144_calls",
    "C144_one_plan",
    "C144_effects",
    "C144_commit",
    "C144_reads",
    "C144_counts"
   ],
   "note": "Every call of user code is listed in order, with any set of panics; poison flags of the lists are in the model. Calls run while unwinding are not listed; the user code does not call the schema itself (C142 has that)."
  },
  {
   "property": "C145",
   "status": "proved",
   "theorems": [
    "C145_histories",
    "C145_in_exactly_one_place",
    "C145_nothing_is_lost",
    "C145_locked_while_dropping"
   ],
   "note": "Cases: C145_case (a leaked context, and a commit that panics), C145_case_failed (a roll-back). Histories of programs: C136; nodes: C141."
  },
  {
   "property": "C146",
   "status": "proved",
   "theorems": [
    "C146_the_beginning",
    "C146_partial_writes_are_harmless",
    "C146_no_more_room",
    "C146_not_open_unnoticed",
    "C146_silent_commands",
    "C146_written_by_the_end"
   ],
   "note": "std's writers are modelled after their source. Cases: C146_case (a disk with room for 5 and for 8 bytes), C146_written_by_the_end (a panic though all was written). A call interrupted for ever makes a run without an end."
  },
  {
   "property": "C147",
   "status": "proved",
   "theorems": [
    "C147_saving",
    "C147_deleting",
    "C147_up_to_the_first_panic",
    "C147_what_a_panic_costs",
    "C147_clones",
    "C147_interval_by_interval",
    "C147_saves_do_not_compare",
    "C147_ids_are_compared_first"
   ],
   "note": "A call is known by its arguments, a clone of a clone being told apart from the clone of the node's id and known by the interval it is made for. Destructors of ids and intervals are not among the calls."
  },
  {
   "property": "C148",
   "status": "proved",
   "theorems": [
    "C148_repeated_class",
    "C148_lazy_mark_lists_the_same"
   ],
   "note": "the limits of the regex crate on the size of patterns and numbers are left out"
  },
  {
   "property": "C149",
   "status": "proved",
   "theorems": [
    "C149_group_of_two_extensions",
    "C149_plain_groups_list_the_same"
   ],
   "note": ""
  },
  {
   "property": "C15",
   "status": "proved",
   "theorems": [
    "C15_failed_tx_leaves_graph",
    "C15_err_means_unchanged"
   ],
   "note": ""
  },
  {
   "property": "C150",
   "status": "proved",
   "theorems": [
    "C150_from_arguments_to_exit",
    "C150_where_nothing_fails",
    "C150_no_document_is_read"
   ],
   "note": "extensions within the fragment of regular expressions modelled"
  },
  {
   "property": "C151",
   "status": "proved",
   "theorems": [
    "C151_escaped_extension",
    "C151_any_ending_can_be_listed",
    "C151_backslash_at_the_end",
    "C151_unknown_escape_panics"
   ],
   "note": ""
  },
  {
   "property": "C152",
   "status": "proved",
   "theorems": [
    "C152_spellings_of_a_listed_id"
   ],
   "note": "The spellings are given by a grammar of strings (SpecSpelling.v) that does not use the model of paths."
  },
  {
   "property": "C16",
   "status": "proved",
   "theorems": [
    "C16_panicking_tx_leaves_graph"
   ],
   "note": "resources and targets are left as the closure left them (C36, C37 speak about those); everything else is indistinguishable by any later program"
  },
  {
   "property": "C17",
   "status": "proved",
   "theorems": [
    "C17_ok_publishes_final_view",
    "C17_ok_means_published"
   ],
   "note": ""
  },
  {
   "property": "C18",
   "status": "proved",
   "theorems": [
    "C18_nesting_transparent_view",
    "C18_nesting_transparent_graph"
   ],
   "note": ""
  },
  {
   "property": "C19",
   "status": "proved",
   "theorems": [
    "C19_serial_replay"
   ],
   "note": ""
  },
  {
   "property": "C20",
   "status": "proved",
   "theorems": [
    "C20_one_active_transaction",
    "C20_others_locked_out",
    "C20_graph_stable_while_active"
   ],
   "note": ""
  },
  {
   "property": "C21",
   "status": "partial",
   "theorems": [
    "C21_commit_atomic_refuted",
    "C21_commit_atomic_partial"
   ],
   "note": "false in general: a panic of user code mid-commit leaves a strict prefix applied; holds for crash points before the first or after the last operation; exact effect is C67"
  },
  {
   "property": "C22",
   "status": "partial",
   "theorems": [
    "C22_ok_implies_committed_refuted",
    "C22_ok_implies_committed_partial"
   ],
   "note": "false for closures that leak their context; holds otherwise; exact effect is C68"
  },
  {
   "property": "C23",
   "status": "proved",
   "theorems": [
    "C23_all_locks_released"
   ],
   "note": ""
  },
  {
   "property": "C24",
   "status": "proved",
   "theorems": [
    "C24_save_inserts_exactly",
    "C24_save_on_context"
   ],
   "note": "Top level and on any context."
  },
  {
   "property": "C25",
   "status": "proved",
   "theorems": [
    "C25_delete_absent_is_noop",
    "C25_delete_absent_on_context",
    "C25_delete_removes_exactly",
    "C25_delete_on_context"
   ],
   "note": "Noop whatever the triggers are."
  },
  {
   "property": "C26",
   "status": "proved",
   "theorems": [
    "C26_save_phases",
    "C26_save_succeeds",
    "C26_save_phases_on_context"
   ],
   "note": "Triggers borrow the context, as their type forces. The case of an unreadable target is part of the statement; see C29 and C69."
  },
  {
   "property": "C27",
   "status": "proved",
   "theorems": [
    "C27_failing_trigger_aborts_save",
    "C27_failing_trigger_aborts_delete",
    "C27_failing_trigger_aborts_save_on_context",
    "C27_failing_trigger_aborts_delete_on_context"
   ],
   "note": "Cells and output after the operation are those at the failure, so nothing ran after it."
  },
  {
   "property": "C28",
   "status": "proved",
   "theorems": [
    "C28_delete_phases",
    "C28_delete_phases_on_context"
   ],
   "note": ""
  },
  {
   "property": "C29",
   "status": "partial",
   "theorems": [
    "C29_ok_means_saved_refuted",
    "C29_ok_means_saved_refuted_by_poison",
    "C29_ok_means_saved_partial"
   ],
   "note": "False as stated: an AfterSave trigger may delete the node, and a caught panic that poisons the target makes Save silently save nothing. Proved when the target is readable and AfterSave triggers register nothing about its id; C69 is the exact statement."
  },
  {
   "property": "C30",
   "status": "proved",
   "theorems": [
    "C30_triggers_in_registration_order"
   ],
   "note": ""
  },
  {
   "property": "C31",
   "status": "proved",
   "theorems": [
    "C31_stops_at_first_failure"
   ],
   "note": ""
  },
  {
   "property": "C32",
   "status": "partial",
   "theorems": [
    "C32_save_terminates_refuted",
    "C32_save_delete_terminate_partial",
    "C32_save_comes_back_partial",
    "C32_delete_comes_back_partial"
   ],
   "note": "False as stated: a BeforeSave trigger that saves recurses for ever. Proved for stratified triggers, and for triggers that always come back together with all they execute."
  },
  {
   "property": "C33",
   "status": "proved",
   "theorems": [
    "C33_last_resource_found",
    "C33_found_ever_after",
    "C33_exists",
    "C33_types_apart"
   ],
   "note": "Built by any sequence of builder calls; then after any program."
  },
  {
   "property": "C34",
   "status": "proved",
   "theorems": [
    "C34_with_mut_visible",
    "C34_until_next_with_mut",
    "C34_being_read_never_changes",
    "C34_with_never_modifies"
   ],
   "note": ""
  },
  {
   "property": "C35",
   "status": "proved",
   "theorems": [
    "C35_runs_once_on_current_values",
    "C35_absent_does_nothing",
    "C35_same_twice_never_returns"
   ],
   "note": "\"Never returns\" is the outcome OHang: the second write lock of the same RwLock on one thread (std: deadlock or panic)."
  },
  {
   "property": "C36",
   "status": "partial",
   "theorems": [
    "C36_rolls_back_refuted",
    "C36_rolls_back_partial"
   ],
   "note": "False of the code: resources are not transactional (C71 has what holds). The partial theorem covers resources not accessed with with_mut during the transaction."
  },
  {
   "property": "C37",
   "status": "proved",
   "theorems": [
    "C37_panic_disables_exactly_those",
    "C37_stays_disabled",
    "C37_shared_panic_disables_nothing"
   ],
   "note": ""
  },
  {
   "property": "C38",
   "status": "proved",
   "theorems": [
    "C38_loaded_never_changes",
    "C38_unloaded_consults",
    "C38_loaded_or_unloaded"
   ],
   "note": "Accesses one at a time, over any history of constructions, clones and accesses with any repository answers."
  },
  {
   "property": "C39",
   "status": "proved",
   "theorems": [
    "C39_one_document",
    "C39_later_calls_agree"
   ],
   "note": "Any schedule of the atomic steps of any number of calls."
  },
  {
   "property": "C40",
   "status": "partial",
   "theorems": [
    "C40_never_absent_partial",
    "C40_never_absent_refuted"
   ],
   "note": "False of the code: the loser of a race on OnceLock::set answers None (refuted with a schedule). Proved for calls that overlap with no other step on the same document. C65 says what absence means."
  },
  {
   "property": "C41",
   "status": "partial",
   "theorems": [
    "C41_listed_id_loads_its_file_refuted",
    "C41_listed_id_loads_its_file_partial"
   ],
   "note": "False of the code for names with a dot before the extension (C72 has the exact behaviour). Proved for the others."
  },
  {
   "property": "C42",
   "status": "proved",
   "theorems": [
    "C42_listing_exact_sorted",
    "C84_listing_by_pattern"
   ],
   "note": "C42's theorem is for extensions without regex metacharacters, C84's for the others of the modelled fragment; entries as met by a walk that skips hidden names, and a base directory not itself named like a document."
  },
  {
   "property": "C43",
   "status": "proved",
   "theorems": [
    "C43_different_files_different_ids"
   ],
   "note": "Same assumptions as C42."
  },
  {
   "property": "C44",
   "status": "partial",
   "theorems": [
    "C44_saved_document_found_refuted",
    "C44_saved_document_found_partial"
   ],
   "note": "False of the code: nothing is ever written to disk (C73). Proved: within the process the saved document is in the graph."
  },
  {
   "property": "C45",
   "status": "partial",
   "theorems": [
    "C45_lookups_stay_below_refuted",
    "C45_lookups_stay_below_partial"
   ],
   "note": "False of the code for ids with \"..\" and absolute ids; C74 has the exact characterization."
  },
  {
   "property": "C46",
   "status": "partial",
   "theorems": [
    "C46_loaded_id_is_requested_id_refuted",
    "C46_loaded_id_is_requested_id_partial"
   ],
   "note": "False of the code for every listed id (C75). Proved for absolute ids that already have the extension."
  },
  {
   "property": "C47",
   "status": "proved",
   "theorems": [
    "C47_delete_succeeds_iff_listed",
    "C47_missing_id"
   ],
   "note": "Ids are compared as paths (by components), as PathBuf does."
  },
  {
   "property": "C48",
   "status": "proved",
   "theorems": [
    "C48_intersects_is_overlap"
   ],
   "note": ""
  },
  {
   "property": "C49",
   "status": "proved",
   "theorems": [
    "C49_insert_only_intersects_exact"
   ],
   "note": ""
  },
  {
   "property": "C50",
   "status": "proved",
   "theorems": [
    "C50_for_each_visits_exactly_overlaps"
   ],
   "note": ""
  },
  {
   "property": "C51",
   "status": "proved",
   "theorems": [
    "C51_insert_adds_one"
   ],
   "note": ""
  },
  {
   "property": "C52",
   "status": "partial",
   "theorems": [
    "C52_delete_terminates_refuted",
    "C52_delete_terminates_partial"
   ],
   "note": "False of the code: join never returns, so deleting an interval stored between two children hangs. The partial theorem covers all other trees; C61 is the exact condition."
  },
  {
   "property": "C53",
   "status": "partial",
   "theorems": [
    "C53_delete_removes_refuted",
    "C53_delete_removes_partial"
   ],
   "note": "False of the code: an interval below another one with the same lower bound is never found. The partial theorem covers lower bounds not shared with a different interval; C62 is the exact effect."
  },
  {
   "property": "C54",
   "status": "partial",
   "theorems": [
    "C54_intersects_after_delete_refuted",
    "C54_intersects_after_delete_partial"
   ],
   "note": "False of the code: delete does not refresh max, so intersects can miss a stored interval. Positive answers are always right; exact while maxima are exact."
  },
  {
   "property": "C55",
   "status": "proved",
   "theorems": [
    "C55_rotations"
   ],
   "note": ""
  },
  {
   "property": "C56",
   "status": "proved",
   "theorems": [
    "C56_dates_totally_ordered"
   ],
   "note": ""
  },
  {
   "property": "C57",
   "status": "proved",
   "theorems": [
    "C57_endianness"
   ],
   "note": ""
  },
  {
   "property": "C58",
   "status": "proved",
   "theorems": [
    "C58_date_overlaps_only_itself"
   ],
   "note": ""
  },
  {
   "property": "C59",
   "status": "partial",
   "theorems": [
    "C59_saved_node_indexed_refuted",
    "C59_installed_partial",
    "C59_saved_node_indexed_partial"
   ],
   "note": "False as stated: for T != T::Id the plugin registers a tree of one type and looks up one of another (C76). Proved for T = T::Id when the plugin's are the only triggers."
  },
  {
   "property": "C60",
   "status": "partial",
   "theorems": [
    "C60_index_follows_graph_refuted",
    "C60_index_follows_graph_partial"
   ],
   "note": "False as stated: T != T::Id (C76), rolled-back saves (C77), overwriting saves (C78). Proved for T = T::Id, top-level saves of new ids and deletes that return, intervals with distinct lower bounds."
  },
  {
   "property": "C61",
   "status": "proved",
   "theorems": [
    "C61_delete_terminates_iff"
   ],
   "note": ""
  },
  {
   "property": "C62",
   "status": "proved",
   "theorems": [
    "C62_delete_exact_effect",
    "C62_search_deterministic"
   ],
   "note": ""
  },
  {
   "property": "C63",
   "status": "proved",
   "theorems": [
    "C63_max_never_too_small"
   ],
   "note": ""
  },
  {
   "property": "C64",
   "status": "proved",
   "theorems": [
    "C64_snapshot_versus_live"
   ],
   "note": ""
  },
  {
   "property": "C65",
   "status": "proved",
   "theorems": [
    "C65_absent_only_once_raced"
   ],
   "note": ""
  },
  {
   "property": "C66",
   "status": "proved",
   "theorems": [
    "C66_wait_free"
   ],
   "note": ""
  },
  {
   "property": "C67",
   "status": "proved",
   "theorems": [
    "C67_crashed_commit_applies_prefix"
   ],
   "note": ""
  },
  {
   "property": "C68",
   "status": "proved",
   "theorems": [
    "C68_ok_commits_all_or_nothing_if_leaked",
    "C68_sub_commits_all_or_nothing_if_leaked"
   ],
   "note": ""
  },
  {
   "property": "C69",
   "status": "proved",
   "theorems": [
    "C69_ok_from_save_means"
   ],
   "note": ""
  },
  {
   "property": "C70",
   "status": "proved",
   "theorems": [
    "C70_stratified_programs_terminate"
   ],
   "note": ""
  },
  {
   "property": "C71",
   "status": "proved",
   "theorems": [
    "C71_resources_not_transactional"
   ],
   "note": ""
  },
  {
   "property": "C72",
   "status": "proved",
   "theorems": [
    "C72_file_loaded_for_listed_id"
   ],
   "note": ""
  },
  {
   "property": "C73",
   "status": "proved",
   "theorems": [
    "C73_no_command_has_a_lasting_effect"
   ],
   "note": "Rests on the reading that no code in /repo writes to the disk."
  },
  {
   "property": "C74",
   "status": "proved",
   "theorems": [
    "C74_lookups_below_exactly"
   ],
   "note": ""
  },
  {
   "property": "C75",
   "status": "proved",
   "theorems": [
    "C75_loaded_id_is_not_listed_id"
   ],
   "note": ""
  },
  {
   "property": "C76",
   "status": "proved",
   "theorems": [
    "C76_plugin_inert_triggers"
   ],
   "note": ""
  },
  {
   "property": "C77",
   "status": "proved",
   "theorems": [
    "C77_rolled_back_save_remains_indexed"
   ],
   "note": ""
  },
  {
   "property": "C78",
   "status": "proved",
   "theorems": [
    "C78_overwritten_intervals_remain"
   ],
   "note": ""
  },
  {
   "property": "C79",
   "status": "proved",
   "theorems": [
    "C79_delete_hangs_or_removes"
   ],
   "note": ""
  },
  {
   "property": "C80",
   "status": "proved",
   "theorems": [
    "C80_wrong_negative_iff_misled"
   ],
   "note": "exact version of C54"
  },
  {
   "property": "C81",
   "status": "proved",
   "theorems": [
    "C81_index_replays_history"
   ],
   "note": "exact version of C60 for histories of top-level commands"
  },
  {
   "property": "C82",
   "status": "proved",
   "theorems": [
    "C82_one_value",
    "C82_graph_value",
    "C82_asked_once",
    "C82_progress",
    "C82_retry_after_panic"
   ],
   "note": ""
  },
  {
   "property": "C83",
   "status": "proved",
   "theorems": [
    "C83_registered_again"
   ],
   "note": ""
  },
  {
   "property": "C84",
   "status": "proved",
   "theorems": [
    "C84_listing_by_pattern"
   ],
   "note": "Regex.v: parser proved equivalent to the grammar of SpecRegex (parse_iff), matcher to the relation matches (is_match_iff)."
  },
  {
   "property": "C85",
   "status": "proved",
   "theorems": [
    "C85_literal_extension_is_a_suffix"
   ],
   "note": "Carries the theorems about plain_repo (C41-C47, C72-C75) over to runs of main."
  },
  {
   "property": "C86",
   "status": "proved",
   "theorems": [
    "C86_extension_with_a_bar"
   ],
   "note": ""
  },
  {
   "property": "C87",
   "status": "proved",
   "theorems": [
    "C87_extension_with_a_dot"
   ],
   "note": ""
  },
  {
   "property": "C88",
   "status": "proved",
   "theorems": [
    "C88_invalid_extension_panics"
   ],
   "note": ""
  },
  {
   "property": "C89",
   "status": "proved",
   "theorems": [
    "C89_visits_latest_first"
   ],
   "note": ""
  },
  {
   "property": "C90",
   "status": "proved",
   "theorems": [
    "C90_reversed_intervals"
   ],
   "note": ""
  },
  {
   "property": "C91",
   "status": "proved",
   "theorems": [
    "C91_sorted_insertions_degenerate"
   ],
   "note": ""
  },
  {
   "property": "C92",
   "status": "proved",
   "theorems": [
    "C92_exit_status"
   ],
   "note": "for extensions in the modelled fragment of the syntax of regular expressions"
  },
  {
   "property": "C93",
   "status": "proved",
   "theorems": [
    "C93_listing_text",
    "C93_listing_read_back"
   ],
   "note": "which characters that are not ASCII are written by their codes is any predicate"
  },
  {
   "property": "C94",
   "status": "proved",
   "theorems": [
    "C94_history_is_serial",
    "C94_one_history",
    "C94_nothing_published_inside",
    "C94_transaction_publishes_once"
   ],
   "note": "Histories include those of runs that never end or hang."
  },
  {
   "property": "C95",
   "status": "proved",
   "theorems": [
    "C95_quiet_runs_lose_nothing",
    "C95_leaks_can_be_removed",
    "C95_published_or_logged",
    "C95_merged_or_logged"
   ],
   "note": ""
  },
  {
   "property": "C96",
   "status": "proved",
   "theorems": [
    "C96_dropped_save_is_logged",
    "C96_dropped_save_is_logged_on_context"
   ],
   "note": ""
  },
  {
   "property": "C97",
   "status": "proved",
   "theorems": [
    "C97_disabled_handles_are_logged",
    "C97_skipped_iff_logged"
   ],
   "note": ""
  },
  {
   "property": "C98",
   "status": "proved",
   "theorems": [
    "C98_poisoned_graph_is_logged",
    "C98_only_a_poisoned_graph_is_logged",
    "C98_poisoned_by_panics"
   ],
   "note": ""
  },
  {
   "property": "C99",
   "status": "proved",
   "theorems": [
    "C99_requests_and_guards",
    "C99_blocks_iff_unanswered",
    "C99_all_dropped"
   ],
   "note": "Locks of operation buffers, under which no user code runs, are left out."
  }
 ]
}
