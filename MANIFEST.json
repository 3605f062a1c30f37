{
 "claims": [
  {
   "property": "C01",
   "status": "proved",
   "theorems": [
    "C01_mem_contents_by_history"
   ],
   "note": ""
  },
  {
   "property": "C02",
   "status": "partial",
   "theorems": [
    "C02_duck_add_collection_idempotent_refuted",
    "C02_heed_add_collection_idempotent",
    "C02_mem_add_collection_idempotent_refuted",
    "C02_mem_add_collection_absent"
   ],
   "note": "Holds for LMDB (C02_heed_*). False for the in-memory store, which empties the collection, and for DuckDB, which panics: *_refuted give the histories; C02_mem_add_collection_absent and C23 prove what happens instead."
  },
  {
   "property": "C03",
   "status": "proved",
   "theorems": [
    "C03_mem_remove_collection"
   ],
   "note": ""
  },
  {
   "property": "C04",
   "status": "proved",
   "theorems": [
    "C04_mem_add_triples"
   ],
   "note": ""
  },
  {
   "property": "C05",
   "status": "proved",
   "theorems": [
    "C05_mem_remove_triples"
   ],
   "note": ""
  },
  {
   "property": "C06",
   "status": "partial",
   "theorems": [
    "C06_duck_write_to_missing",
    "C06_heed_write_to_missing_panics",
    "C06_heed_write_to_missing_refuted",
    "C06_mem_write_to_missing_panics",
    "C06_mem_write_to_missing_refuted"
   ],
   "note": "Holds for DuckDB (C06_duck_*). False for the in-memory and LMDB stores, which panic (exact behaviour proved, and refutations with witnesses)."
  },
  {
   "property": "C07",
   "status": "proved",
   "theorems": [
    "C07_duck_collections",
    "C07_heed_collections",
    "C07_heed_collections_all",
    "C07_mem_collections"
   ],
   "note": ""
  },
  {
   "property": "C08",
   "status": "proved",
   "theorems": [
    "C08_mem_filter",
    "C08_mem_texts"
   ],
   "note": ""
  },
  {
   "property": "C09",
   "status": "proved",
   "theorems": [
    "C09_mem_filter_variable"
   ],
   "note": ""
  },
  {
   "property": "C10",
   "status": "proved",
   "theorems": [
    "C10_match_query_single",
    "C10_solution_unique"
   ],
   "note": ""
  },
  {
   "property": "C11",
   "status": "proved",
   "theorems": [
    "C11_match_query"
   ],
   "note": ""
  },
  {
   "property": "C12",
   "status": "proved",
   "theorems": [
    "C12_row_key_decodes",
    "C12_row_key_injective",
    "C12_row_key_order",
    "C12_read_id"
   ],
   "note": ""
  },
  {
   "property": "C13",
   "status": "proved",
   "theorems": [
    "C13_heed_indexes_agree"
   ],
   "note": ""
  },
  {
   "property": "C14",
   "status": "proved",
   "theorems": [
    "C14_heed_dictionary",
    "C14_heed_counter_monotone",
    "C14_heed_ids_not_reused",
    "C14_heed_recreated_number"
   ],
   "note": ""
  },
  {
   "property": "C15",
   "status": "proved",
   "theorems": [
    "C15_heed_contents_with_faults",
    "C15_heed_contents_by_history"
   ],
   "note": ""
  },
  {
   "property": "C16",
   "status": "proved",
   "theorems": [
    "C16_heed_recreated_is_empty"
   ],
   "note": ""
  },
  {
   "property": "C17",
   "status": "proved",
   "theorems": [
    "C17_heed_atomic"
   ],
   "note": ""
  },
  {
   "property": "C18",
   "status": "partial",
   "theorems": [
    "C18_heed_ok_means_durable_refuted",
    "C18_heed_committed_triples_stay",
    "C18_heed_committed_collection_stays"
   ],
   "note": "As stated false (commit result ignored): refuted with a witness. Proved: committed writes stay through any later history until removed."
  },
  {
   "property": "C19",
   "status": "partial",
   "theorems": [
    "C19_heed_any_name_refuted",
    "C19_heed_listed_iff_storable"
   ],
   "note": "As stated false (empty and over-long names): refuted with a witness. Proved exactly: listed iff one to 511 UTF-8 bytes."
  },
  {
   "property": "C20",
   "status": "proved",
   "theorems": [
    "C20_heed_answers",
    "C20_heed_triples_missing"
   ],
   "note": ""
  },
  {
   "property": "C21",
   "status": "partial",
   "theorems": [
    "C21_heed_remove_frees_rows_refuted",
    "C21_heed_remove_keeps_rows"
   ],
   "note": "As stated false: refuted with a witness. Proved: remove_collection never changes an index table or dictionary."
  },
  {
   "property": "C22",
   "status": "proved",
   "theorems": [
    "C22_duck_contents_by_history"
   ],
   "note": ""
  },
  {
   "property": "C23",
   "status": "proved",
   "theorems": [
    "C23_duck_outside_contract",
    "C23_duck_answers"
   ],
   "note": ""
  },
  {
   "property": "C24",
   "status": "proved",
   "theorems": [
    "C24_duck_set_semantics"
   ],
   "note": ""
  },
  {
   "property": "C25",
   "status": "proved",
   "theorems": [
    "C25_duck_missing_err"
   ],
   "note": ""
  },
  {
   "property": "C26",
   "status": "proved",
   "theorems": [
    "C26_stores_agree"
   ],
   "note": ""
  },
  {
   "property": "C27",
   "status": "proved",
   "theorems": [
    "C27_entries_survive",
    "C27_heed_entries_survive",
    "C27_duck_entries_survive"
   ],
   "note": ""
  },
  {
   "property": "C28",
   "status": "proved",
   "theorems": [
    "C28_normal_form_exists_unique",
    "C28_mem_add_entries",
    "C28_heed_add_entries",
    "C28_duck_add_entries",
    "C28_entries_collapse"
   ],
   "note": ""
  },
  {
   "property": "C29",
   "status": "proved",
   "theorems": [
    "C29_mem_remove_entries",
    "C29_duck_remove_entries",
    "C29_heed_remove_entries"
   ],
   "note": ""
  },
  {
   "property": "C30",
   "status": "proved",
   "theorems": [
    "C30_mem_filter_variables",
    "C30_mem_filter",
    "C30_other_stores_panic"
   ],
   "note": ""
  },
  {
   "property": "C31",
   "status": "partial",
   "theorems": [
    "C31_namespaces_refuted",
    "C31_only_names_matter"
   ],
   "note": "As stated false: the graph keys collections by name only; refuted with a witness. Proved: only the name matters."
  },
  {
   "property": "C32",
   "status": "proved",
   "theorems": [
    "C32_tokens_are_the_text"
   ],
   "note": ""
  },
  {
   "property": "C33",
   "status": "proved",
   "theorems": [
    "C33_longest_match",
    "C33_fails_when_stuck",
    "C33_never_panics",
    "C33_grammar_is_deterministic",
    "C33_any_rules"
   ],
   "note": ""
  },
  {
   "property": "C34",
   "status": "proved",
   "theorems": [
    "C34_newline_separates",
    "C34_what_is_kept",
    "C34_fails_alike"
   ],
   "note": ""
  },
  {
   "property": "C35",
   "status": "proved",
   "theorems": [
    "C35_quoted_verbatim",
    "C35_escapes_not_decoded",
    "C35_exactly"
   ],
   "note": ""
  },
  {
   "property": "C36",
   "status": "proved",
   "theorems": [
    "C36_parse_is_the_grammar",
    "C36_grammar_unambiguous"
   ],
   "note": ""
  },
  {
   "property": "C37",
   "status": "partial",
   "theorems": [
    "C37_errors_not_panics_refuted",
    "C37_exactly"
   ],
   "note": "As stated false: e.g. a nested quote panics (todo!()); refuted with a witness. Proved exactly which scripts give Err, which panic, for every store and command table."
  },
  {
   "property": "C38",
   "status": "proved",
   "theorems": [
    "C38_parse_terminates",
    "C38_helpers_terminate"
   ],
   "note": ""
  },
  {
   "property": "C39",
   "status": "proved",
   "theorems": [
    "C39_comma_composes",
    "C39_texts_compose"
   ],
   "note": ""
  },
  {
   "property": "C40",
   "status": "proved",
   "theorems": [
    "C40_printed_element",
    "C40_json_text_bijective"
   ],
   "note": ""
  },
  {
   "property": "C41",
   "status": "proved",
   "theorems": [
    "C41_plain_values_read_back"
   ],
   "note": ""
  },
  {
   "property": "C42",
   "status": "proved",
   "theorems": [
    "C42_reads_back_normalised",
    "C42_not_the_identity",
    "C42_nested_quotes_do_not_read_back"
   ],
   "note": ""
  },
  {
   "property": "C43",
   "status": "proved",
   "theorems": [
    "C43_write_string"
   ],
   "note": ""
  },
  {
   "property": "C44",
   "status": "proved",
   "theorems": [
    "C44_one_outcome",
    "C44_equation",
    "C44_never_out_of_steps",
    "C44_common_is_a_table"
   ],
   "note": ""
  },
  {
   "property": "C45",
   "status": "proved",
   "theorems": [
    "C45_sequence",
    "C45_none_and_unknown"
   ],
   "note": ""
  },
  {
   "property": "C46",
   "status": "proved",
   "theorems": [
    "C46_queries_change_nothing"
   ],
   "note": ""
  },
  {
   "property": "C47",
   "status": "proved",
   "theorems": [
    "C47_let_then_read",
    "C47_let_quote_then_read",
    "C47_let_otherwise",
    "C47_lmdb_let_merges",
    "C47_duckdb_let_once"
   ],
   "note": ""
  },
  {
   "property": "C48",
   "status": "proved",
   "theorems": [
    "C48_only_named_mem",
    "C48_only_named_lmdb",
    "C48_only_named_duckdb",
    "C48_only_creates_and_adds"
   ],
   "note": ""
  },
  {
   "property": "C49",
   "status": "proved",
   "theorems": [
    "C49_equal",
    "C49_not_equal",
    "C49_two_arguments"
   ],
   "note": ""
  },
  {
   "property": "C50",
   "status": "proved",
   "theorems": [
    "C50_inverts_errors",
    "C50_one_quote"
   ],
   "note": ""
  },
  {
   "property": "C51",
   "status": "proved",
   "theorems": [
    "C51_docs",
    "C51_order_irrelevant",
    "C51_no_arguments",
    "C51_standard"
   ],
   "note": ""
  },
  {
   "property": "C52",
   "status": "proved",
   "theorems": [
    "C52_union",
    "C52_laws",
    "C52_other_arguments"
   ],
   "note": ""
  },
  {
   "property": "C53",
   "status": "proved",
   "theorems": [
    "C53_filter_variables",
    "C53_filter"
   ],
   "note": ""
  },
  {
   "property": "C54",
   "status": "proved",
   "theorems": [
    "C54_bad_script_no_effect"
   ],
   "note": ""
  },
  {
   "property": "C55",
   "status": "proved",
   "theorems": [
    "C55_graph_of_a_network",
    "C55_export",
    "C55_wasm_run"
   ],
   "note": ""
  },
  {
   "property": "C56",
   "status": "proved",
   "theorems": [
    "C56_server"
   ],
   "note": ""
  },
  {
   "property": "C57",
   "status": "proved",
   "theorems": [
    "C57_commands",
    "C57_scripts"
   ],
   "note": ""
  },
  {
   "property": "C58",
   "status": "proved",
   "theorems": [
    "C58_totals",
    "C58_panic",
    "C58_otherwise",
    "C58_any_order"
   ],
   "note": ""
  },
  {
   "property": "C59",
   "status": "proved",
   "theorems": [
    "C59_ids",
    "C59_table",
    "C59_no_repetition"
   ],
   "note": ""
  },
  {
   "property": "C60",
   "status": "partial",
   "theorems": [
    "C60_crash_leaves_a_prefix",
    "C60_let_crash_states",
    "C60_atomic_on_existing_partial",
    "C60_let_atomic_refuted",
    "C60_failed_commit_unnoticed"
   ],
   "note": "As stated false: a crash between the two commits leaves a new collection empty (C60_let_atomic_refuted). Proved: exactly which states a crash can leave, for let and (as a prefix of writes) for any program; atomic on an existing collection; and that a failed commit goes unnoticed."
  },
  {
   "property": "C61",
   "status": "proved",
   "theorems": [
    "C61_utf8_order"
   ],
   "note": ""
  },
  {
   "property": "C62",
   "status": "proved",
   "theorems": [
    "C62_canonical",
    "C62_plain_values"
   ],
   "note": ""
  },
  {
   "property": "C63",
   "status": "partial",
   "theorems": [
    "C63_callers_set_refuted",
    "C63_callers_set"
   ],
   "note": "As stated false: refuted with a witness. Proved exactly: the in-memory store empties the set, the others leave it."
  },
  {
   "property": "C64",
   "status": "proved",
   "theorems": [
    "C64_after_a_comma",
    "C64_after_a_call",
    "C64_no_other_scripts",
    "C64_newline_is_not_enough"
   ],
   "note": ""
  },
  {
   "property": "C65",
   "status": "proved",
   "theorems": [
    "C65_blank_text",
    "C65_any_line_can_be_commented",
    "C65_dashes_in_a_name"
   ],
   "note": ""
  },
  {
   "property": "C66",
   "status": "proved",
   "theorems": [
    "C66_ok",
    "C66_err",
    "C66_panic",
    "C66_names_panic",
    "C66_without_positions"
   ],
   "note": ""
  },
  {
   "property": "C67",
   "status": "proved",
   "theorems": [
    "C67_locations",
    "C67_tokens_are_the_text",
    "C67_filtered",
    "C67_filter_fails_alike"
   ],
   "note": ""
  },
  {
   "property": "C68",
   "status": "proved",
   "theorems": [
    "C68_session",
    "C68_shows_unique"
   ],
   "note": ""
  },
  {
   "property": "C69",
   "status": "proved",
   "theorems": [
    "C69_empty",
    "C69_one",
    "C69_more"
   ],
   "note": ""
  },
  {
   "property": "C70",
   "status": "proved",
   "theorems": [
    "C70_shown",
    "C70_never_clicked",
    "C70_panic"
   ],
   "note": ""
  },
  {
   "property": "C71",
   "status": "proved",
   "theorems": [
    "C71_same_script_any_store",
    "C71_tidy_scripts",
    "C71_undisciplined_refuted"
   ],
   "note": "For scripts that the watched store (S_Port.watched: the in-memory store that stops undisciplined calls) lets through; C71_tidy_scripts gives a syntactic class. C71_undisciplined_refuted shows scripts on which the backends differ."
  },
  {
   "property": "C72",
   "status": "proved",
   "theorems": [
    "C72_step_by_step",
    "C72_all_or_nothing",
    "C72_add_triples_failure",
    "C72_add_collection_failure",
    "C72_states",
    "C72_remove_triples_failure",
    "C72_remove_collection_failure",
    "C72_full_disk_can_be_silent"
   ],
   "note": ""
  },
  {
   "property": "C73",
   "status": "proved",
   "theorems": [
    "C73_step_by_step",
    "C73_failure_panics",
    "C73_every_statement_counts",
    "C73_ok_means_stored",
    "C73_failed_calls_do_not_count"
   ],
   "note": ""
  },
  {
   "property": "C74",
   "status": "proved",
   "theorems": [
    "C74_same_interpreter",
    "C74_same_interpreter_hosts",
    "C74_isolated",
    "C74_scripts_isolated",
    "C74_removing_not_isolated",
    "C74_scripts_not_atomic"
   ],
   "note": ""
  },
  {
   "property": "C75",
   "status": "proved",
   "theorems": [
    "C75_one_order",
    "C75_converge",
    "C75_order_irrelevant",
    "C75_so_far"
   ],
   "note": ""
  },
  {
   "property": "C76",
   "status": "proved",
   "theorems": [
    "C76_bounded",
    "C76_calls_bounded"
   ],
   "note": ""
  },
  {
   "property": "C77",
   "status": "proved",
   "theorems": [
    "C77_mem_contents",
    "C77_lmdb_contents",
    "C77_duck_contents"
   ],
   "note": ""
  },
  {
   "property": "C78",
   "status": "proved",
   "theorems": [
    "C78_never_an_error",
    "C78_mem_answers",
    "C78_lmdb_answers",
    "C78_duck_answers"
   ],
   "note": ""
  },
  {
   "property": "C79",
   "status": "proved",
   "theorems": [
    "C79_graphs_agree"
   ],
   "note": ""
  },
  {
   "property": "C80",
   "status": "proved",
   "theorems": [
    "C80_rerun",
    "C80_result",
    "C80_duck_never_again"
   ],
   "note": ""
  },
  {
   "property": "C81",
   "status": "proved",
   "theorems": [
    "C81_mem",
    "C81_duck",
    "C81_heed",
    "C81_heed_removal_leaks",
    "C81_reorder"
   ],
   "note": ""
  },
  {
   "property": "C82",
   "status": "proved",
   "theorems": [
    "C82_sessions",
    "C82_reopened",
    "C82_same_or_panic",
    "C82_tables_needed",
    "C82_failed_new",
    "C82_failed_again"
   ],
   "note": ""
  },
  {
   "property": "C83",
   "status": "proved",
   "theorems": [
    "C83_mem",
    "C83_duckdb",
    "C83_lmdb",
    "C83_lmdb_words_tell"
   ],
   "note": ""
  },
  {
   "property": "C84",
   "status": "proved",
   "theorems": [
    "C84_mem",
    "C84_lmdb",
    "C84_duckdb"
   ],
   "note": ""
  },
  {
   "property": "C85",
   "status": "proved",
   "theorems": [
    "C85_mem",
    "C85_duckdb",
    "C85_lmdb",
    "C85_lmdb_refused_halves"
   ],
   "note": ""
  },
  {
   "property": "C86",
   "status": "proved",
   "theorems": [
    "C86_ligature",
    "C86_trips",
    "C86_wander",
    "C86_hash",
    "C86_hash_value"
   ],
   "note": ""
  },
  {
   "property": "C87",
   "status": "proved",
   "theorems": [
    "C87_elements",
    "C87_entries",
    "C87_values",
    "C87_calls",
    "C87_round_trip",
    "C87_exactly",
    "C87_reads_proper"
   ],
   "note": ""
  },
  {
   "property": "C88",
   "status": "proved",
   "theorems": [
    "C88_values",
    "C88_entries",
    "C88_calls",
    "C88_injective"
   ],
   "note": ""
  },
  {
   "property": "C89",
   "status": "proved",
   "theorems": [
    "C89_run"
   ],
   "note": ""
  },
  {
   "property": "C90",
   "status": "proved",
   "theorems": [
    "C90_printed_alike",
    "C90_bare_injective",
    "C90_prefix"
   ],
   "note": ""
  },
  {
   "property": "C91",
   "status": "proved",
   "theorems": [
    "C91_answers",
    "C91_store",
    "C91_session"
   ],
   "note": ""
  },
  {
   "property": "C92",
   "status": "proved",
   "theorems": [
    "C92_typed_back",
    "C92_any_answer",
    "C92_backslash_refuted"
   ],
   "note": "As stated proved; C92_backslash_refuted only shows that the hypothesis about backslashes is needed."
  },
  {
   "property": "C93",
   "status": "proved",
   "theorems": [
    "C93_lmdb",
    "C93_duck",
    "C93_mem"
   ],
   "note": ""
  },
  {
   "property": "C94",
   "status": "proved",
   "theorems": [
    "C94_mem",
    "C94_lmdb",
    "C94_duck"
   ],
   "note": ""
  },
  {
   "property": "C95",
   "status": "proved",
   "theorems": [
    "C95_decode",
    "C95_texts",
    "C95_not_text",
    "C95_answers"
   ],
   "note": ""
  },
  {
   "property": "C96",
   "status": "proved",
   "theorems": [
    "C96_mem",
    "C96_lmdb",
    "C96_duck"
   ],
   "note": ""
  },
  {
   "property": "C97",
   "status": "proved",
   "theorems": [
    "C97_catalogue",
    "C97_replies_are_text",
    "C97_parse_text",
    "C97_parse_message",
    "C97_repl_line",
    "C97_literals_read_one_way",
    "C97_not_the_culprit",
    "C97_one_line"
   ],
   "note": ""
  },
  {
   "property": "C98",
   "status": "proved",
   "theorems": [
    "C98_no_crash",
    "C98_server",
    "C98_wasm",
    "C98_needed_refuted",
    "C98_exactly"
   ],
   "note": "C98_needed_refuted lists scripts the check rejects and that crash; C98_exactly says which quote-free calls do."
  },
  {
   "property": "C99",
   "status": "proved",
   "theorems": [
    "C99_mem",
    "C99_duckdb",
    "C99_lmdb",
    "C99_lmdb_new_words_refuted",
    "C99_lmdb_unstorable_refuted"
   ],
   "note": "C99_lmdb_new_words_refuted and C99_lmdb_unstorable_refuted show the two conditions of the LMDB theorem are needed."
  },
  {
   "property": "C100",
   "status": "proved",
   "theorems": [
    "C100_create",
    "C100_again",
    "C100_history",
    "C100_default",
    "C100_temp",
    "C100_temp_apart",
    "C100_temp_fresh_refuted"
   ],
   "note": "C100_temp_fresh_refuted: a temporary store whose random suffix is already used opens the old file with its rows."
  },
  {
   "property": "C101",
   "status": "proved",
   "theorems": [
    "C101_reference",
    "C101_mem",
    "C101_one_meaning",
    "C101_conversely",
    "C101_worlds",
    "C101_session"
   ],
   "note": ""
  },
  {
   "property": "C102",
   "status": "proved",
   "theorems": [
    "C102_contents",
    "C102_records",
    "C102_shape",
    "C102_sorted",
    "C102_written",
    "C102_answers",
    "C102_any_file_names",
    "C102_any_file_triples"
   ],
   "note": ""
  },
  {
   "property": "C103",
   "status": "proved",
   "theorems": [
    "C103_parsed",
    "C103_script_room",
    "C103_answers",
    "C103_calls_room",
    "C103_no_room_is_enough_for_all"
   ],
   "note": ""
  },
  {
   "property": "C104",
   "status": "proved",
   "theorems": [
    "C104_lmdb",
    "C104_duck",
    "C104_mem",
    "C104_numbers",
    "C104_lmdb_leaks",
    "C104_lmdb_steady",
    "C104_duck_grows"
   ],
   "note": ""
  },
  {
   "property": "C105",
   "status": "proved",
   "theorems": [
    "C105_no_crash",
    "C105_sessions",
    "C105_exactly",
    "C105_needed"
   ],
   "note": ""
  },
  {
   "property": "C106",
   "status": "proved",
   "theorems": [
    "C106_clean_history",
    "C106_contents"
   ],
   "note": ""
  },
  {
   "property": "C107",
   "status": "proved",
   "theorems": [
    "C107_apart_mem",
    "C107_apart_duckdb",
    "C107_apart_lmdb",
    "C107_reads_mem",
    "C107_reads_duckdb",
    "C107_reads_lmdb"
   ],
   "note": ""
  },
  {
   "property": "C108",
   "status": "proved",
   "theorems": [
    "C108_again_mem",
    "C108_again_lmdb",
    "C108_again_duckdb",
    "C108_batches_mem",
    "C108_batches_duckdb",
    "C108_batches_lmdb",
    "C108_undo_mem",
    "C108_undo_duckdb",
    "C108_undo_lmdb"
   ],
   "note": ""
  },
  {
   "property": "C109",
   "status": "proved",
   "theorems": [
    "C109_equivalence",
    "C109_around",
    "C109_inside",
    "C109_scripts",
    "C109_mem",
    "C109_not_everywhere"
   ],
   "note": ""
  },
  {
   "property": "C110",
   "status": "proved",
   "theorems": [
    "C110_laws",
    "C110_in_scripts",
    "C110_conditions",
    "C110_conditions_too"
   ],
   "note": ""
  },
  {
   "property": "C111",
   "status": "proved",
   "theorems": [
    "C111_restored",
    "C111_copied",
    "C111_dumps",
    "C111_conditions"
   ],
   "note": ""
  },
  {
   "property": "C112",
   "status": "proved",
   "theorems": [
    "C112_no_injection",
    "C112_same_commands",
    "C112_program_or_not",
    "C112_write_string",
    "C112_conditions"
   ],
   "note": ""
  },
  {
   "property": "C113",
   "status": "proved",
   "theorems": [
    "C113_scripts",
    "C113_sessions",
    "C113_mem",
    "C113_swaps",
    "C113_templates",
    "C113_conditions"
   ],
   "note": ""
  },
  {
   "property": "C114",
   "status": "proved",
   "theorems": [
    "C114_depends",
    "C114_written",
    "C114_no_common_name",
    "C114_any_order",
    "C114_any_order_mem",
    "C114_order_matters"
   ],
   "note": ""
  },
  {
   "property": "C115",
   "status": "proved",
   "theorems": [
    "C115_more",
    "C115_still_answers",
    "C115_sessions",
    "C115_not_always"
   ],
   "note": ""
  },
  {
   "property": "C116",
   "status": "proved",
   "theorems": [
    "C116_undisturbed",
    "C116_serial",
    "C116_reader_disturbed"
   ],
   "note": ""
  },
  {
   "property": "C117",
   "status": "proved",
   "theorems": [
    "C117_same_answers",
    "C117_lines",
    "C117_lines_any",
    "C117_told_apart",
    "C117_not_told_apart",
    "C117_how_often",
    "C117_twice",
    "C117_scripts",
    "C117_read",
    "C117_silent"
   ],
   "note": ""
  },
  {
   "property": "C118",
   "status": "proved",
   "theorems": [
    "C118_one_history",
    "C118_scripts_keep",
    "C118_reads_grow",
    "C118_no_invention",
    "C118_exact",
    "C118_own_write_lost"
   ],
   "note": ""
  },
  {
   "property": "C119",
   "status": "proved",
   "theorems": [
    "C119_at_once",
    "C119_real_time",
    "C119_no_faults",
    "C119_no_deadlock",
    "C119_never_waits",
    "C119_lifts",
    "C119_undisturbed",
    "C119_reads_grow"
   ],
   "note": ""
  },
  {
   "property": "C120",
   "status": "proved",
   "theorems": [
    "C120_history",
    "C120_graph",
    "C120_scripts",
    "C120_sessions",
    "C120_none_shipped"
   ],
   "note": ""
  },
  {
   "property": "C121",
   "status": "proved",
   "theorems": [
    "C121_contents",
    "C121_same_answers",
    "C121_includes",
    "C121_scripts"
   ],
   "note": ""
  },
  {
   "property": "C122",
   "status": "proved",
   "theorems": [
    "C122_same",
    "C122_histories",
    "C122_wraps",
    "C122_still_reads",
    "C122_scripts"
   ],
   "note": ""
  },
  {
   "property": "C123",
   "status": "proved",
   "theorems": [
    "C123_exact",
    "C123_between",
    "C123_not_always"
   ],
   "note": ""
  },
  {
   "property": "C124",
   "status": "proved",
   "theorems": [
    "C124_exact",
    "C124_life",
    "C124_life_reached",
    "C124_operations",
    "C124_may_lose"
   ],
   "note": ""
  },
  {
   "property": "C125",
   "status": "proved",
   "theorems": [
    "C125_reference",
    "C125_sessions",
    "C125_conversely",
    "C125_keeps",
    "C125_same_rules",
    "C125_no_faults"
   ],
   "note": ""
  },
  {
   "property": "C126",
   "status": "proved",
   "theorems": [
    "C126_one_outcome",
    "C126_prelude",
    "C126_ends",
    "C126_prelude_modest",
    "C126_may_not_end",
    "C126_other_commands",
    "C126_added",
    "C126_order",
    "C126_prelude_order",
    "C126_store_blind",
    "C126_history",
    "C126_do",
    "C126_scripts",
    "C126_eval"
   ],
   "note": ""
  },
  {
   "property": "C127",
   "status": "proved",
   "theorems": [
    "C127_kill_is_failure",
    "C127_operations",
    "C127_reference",
    "C127_reached",
    "C127_retry",
    "C127_between",
    "C127_attempt"
   ],
   "note": ""
  },
  {
   "property": "C128",
   "status": "proved",
   "theorems": [
    "C128_alone",
    "C128_room",
    "C128_prelude",
    "C128_same_clients",
    "C128_isolated",
    "C128_isolated_operations",
    "C128_prelude_homely",
    "C128_killed",
    "C128_kill_is_failure"
   ],
   "note": ""
  },
  {
   "property": "C129",
   "status": "proved",
   "theorems": [
    "C129_retry",
    "C129_operations",
    "C129_between",
    "C129_host_client",
    "C129_prelude",
    "C129_host"
   ],
   "note": ""
  },
  {
   "property": "C130",
   "status": "proved",
   "theorems": [
    "C130_alone",
    "C130_ended",
    "C130_at_any_time",
    "C130_script",
    "C130_reference",
    "C130_other_scripts",
    "C130_host"
   ],
   "note": ""
  },
  {
   "property": "C131",
   "status": "proved",
   "theorems": [
    "C131_any_order",
    "C131_depends",
    "C131_serial",
    "C131_ended",
    "C131_a_run",
    "C131_room"
   ],
   "note": ""
  },
  {
   "property": "C132",
   "status": "proved",
   "theorems": [
    "C132_all_end",
    "C132_readers",
    "C132_once",
    "C132_scripts"
   ],
   "note": ""
  },
  {
   "property": "C133",
   "status": "proved",
   "theorems": [
    "C133_lives",
    "C133_one_session",
    "C133_retry",
    "C133_retry_at_once"
   ],
   "note": ""
  },
  {
   "property": "C134",
   "status": "proved",
   "theorems": [
    "C134_in_turn",
    "C134_room",
    "C134_fair",
    "C134_scripts",
    "C134_script",
    "C134_hosts",
    "C134_host",
    "C134_strangers"
   ],
   "note": ""
  },
  {
   "property": "C135",
   "status": "proved",
   "theorems": [
    "C135_costs",
    "C135_run",
    "C135_reads_unbounded",
    "C135_at_once",
    "C135_fair",
    "C135_lives"
   ],
   "note": ""
  },
  {
   "property": "C136",
   "status": "proved",
   "theorems": [
    "C136_one_run",
    "C136_scripts"
   ],
   "note": ""
  },
  {
   "property": "C137",
   "status": "proved",
   "theorems": [
    "C137_in_turn",
    "C137_any_order",
    "C137_fair"
   ],
   "note": ""
  }
 ]
}