{
 "claims": [
  {
   "property": "C01",
   "status": "proved",
   "theorems": [
    "C01_encode_spells",
    "C01_encode_ordinary"
   ],
   "note": "PropModel.v, PropTokenizer.v. Ids fit in 32 bits (fits)."
  },
  {
   "property": "C02",
   "status": "proved",
   "theorems": [
    "C02_encode_optimal",
    "C02_encode_optimal_spellings",
    "C02_dropout_never_better"
   ],
   "note": ""
  },
  {
   "property": "C03",
   "status": "proved",
   "theorems": [
    "C03_last_token",
    "C03_empty_input",
    "C03_random_free"
   ],
   "note": ""
  },
  {
   "property": "C04",
   "status": "proved",
   "theorems": [
    "C04_fails_iff_no_spelling",
    "C04_never_panics"
   ],
   "note": ""
  },
  {
   "property": "C05",
   "status": "proved",
   "theorems": [
    "C05_covered_input_encodes",
    "C05_default_vocab"
   ],
   "note": ""
  },
  {
   "property": "C06",
   "status": "proved",
   "theorems": [
    "C06_full_dropout_single_bytes",
    "C06_nan_dropout_single_bytes",
    "C06_no_dropout_random_free"
   ],
   "note": ""
  },
  {
   "property": "C07",
   "status": "proved",
   "theorems": [
    "C07_encode_decode"
   ],
   "note": ""
  },
  {
   "property": "C08",
   "status": "proved",
   "theorems": [
    "C08_ordinary_round_trip",
    "C08_processors_in_order",
    "C08_round_trip"
   ],
   "note": ""
  },
  {
   "property": "C09",
   "status": "proved",
   "theorems": [
    "C09_pieces_exist",
    "C09_pieces_unique",
    "C09_pieces_concat",
    "C09_encode_by_pieces",
    "C09_encode_fails_by_pieces"
   ],
   "note": ""
  },
  {
   "property": "C10",
   "status": "proved",
   "theorems": [
    "C10_encode_ends",
    "C10_encode_ends_iff",
    "C10_empty_special_diverges"
   ],
   "note": "Termination is stated with fuel above the input length; divergence for every fuel."
  },
  {
   "property": "C11",
   "status": "proved",
   "theorems": [
    "C11_decode_meaning",
    "C11_decode_error",
    "C11_decode_total",
    "C11_meaning_unique"
   ],
   "note": ""
  },
  {
   "property": "C12",
   "status": "proved",
   "theorems": [
    "C12_model_decode",
    "C12_model_decode_total",
    "C12_decode_valid",
    "C12_exact_on_valid"
   ],
   "note": ""
  },
  {
   "property": "C13",
   "status": "proved",
   "theorems": [
    "C13_id_to_token",
    "C13_token_to_id",
    "C13_round_trip",
    "C13_inverse",
    "C13_partition",
    "C13_base_special"
   ],
   "note": ""
  },
  {
   "property": "C14",
   "status": "proved",
   "theorems": [
    "C14_special_ids_stable",
    "C14_registered",
    "C14_idempotent",
    "C14_registered_once"
   ],
   "note": ""
  },
  {
   "property": "C15",
   "status": "proved",
   "theorems": [
    "C15_model_add_tokens",
    "C15_history",
    "C15_ids_after_additions"
   ],
   "note": ""
  },
  {
   "property": "C16",
   "status": "proved",
   "theorems": [
    "C16_token_to_id_latest",
    "C16_encode_latest",
    "C16_search_latest",
    "C16_old_ids_decode"
   ],
   "note": ""
  },
  {
   "property": "C17",
   "status": "proved",
   "theorems": [
    "C17_search_sound_complete",
    "C17_search_sorted",
    "C17_search_ids",
    "C17_search_complete",
    "C17_search_buffer"
   ],
   "note": ""
  },
  {
   "property": "C18",
   "status": "proved",
   "theorems": [
    "C18_encode_batch_ok",
    "C18_encode_ordinary_batch_ok",
    "C18_decode_batch_ok",
    "C18_encode_batch_error",
    "C18_decode_batch_error",
    "C18_encode_ordinary_batch_error"
   ],
   "note": ""
  },
  {
   "property": "C19",
   "status": "proved",
   "theorems": [
    "C19_round_trip",
    "C19_exact_round_trip",
    "C19_unreadable",
    "C19_one_line"
   ],
   "note": "PropSerde.v. For any printer and reader of numbers that fit together; those of serde_json do, but not exactly: C67."
  },
  {
   "property": "C20",
   "status": "proved",
   "theorems": [
    "C20_accepts",
    "C20_rejects",
    "C20_files",
    "C20_version_and_keys",
    "C20_last_value_counts"
   ],
   "note": ""
  },
  {
   "property": "C21",
   "status": "proved",
   "theorems": [
    "C21_token_round_trip",
    "C21_form",
    "C21_base64",
    "C21_base64_unique",
    "C21_accepts"
   ],
   "note": ""
  },
  {
   "property": "C22",
   "status": "proved",
   "theorems": [
    "C22_processor_round_trip",
    "C22_accepts",
    "C22_untyped_is_crlf"
   ],
   "note": ""
  },
  {
   "property": "C23",
   "status": "proved",
   "theorems": [
    "C23_prefix_is_rejected",
    "C23_after_a_crash",
    "C23_old_file_may_be_lost"
   ],
   "note": ""
  },
  {
   "property": "C24",
   "status": "proved",
   "theorems": [
    "C24_crlf",
    "C24_crlf_unique",
    "C24_postprocess",
    "C24_idempotent_iff"
   ],
   "note": ""
  },
  {
   "property": "C25",
   "status": "proved",
   "theorems": [
    "C25_filter_is_safe",
    "C25_protected",
    "C25_panics",
    "C25_panics_iff"
   ],
   "note": ""
  },
  {
   "property": "C26",
   "status": "proved",
   "theorems": [
    "C26_filter_removes_all_it_may",
    "C26_lowest_first",
    "C26_no_minimum",
    "C26_lower_refuted"
   ],
   "note": "PropFilter.v. The manual's 'lower than' is false at the minimum itself: C26_lower_refuted."
  },
  {
   "property": "C27",
   "status": "proved",
   "theorems": [
    "C27_merge_appends",
    "C27_merge_panics",
    "C27_round"
   ],
   "note": ""
  },
  {
   "property": "C28",
   "status": "proved",
   "theorems": [
    "C28_result",
    "C28_terminates",
    "C28_progress",
    "C28_ends",
    "C28_stuck_forever",
    "C28_merge_may_hang"
   ],
   "note": ""
  },
  {
   "property": "C29",
   "status": "proved",
   "theorems": [
    "C29_merge_may_duplicate",
    "C29_older_never_produced"
   ],
   "note": ""
  },
  {
   "property": "C30",
   "status": "proved",
   "theorems": [
    "C30_mine_counts",
    "C30_schedule_independent",
    "C30_result_exists"
   ],
   "note": ""
  },
  {
   "property": "C31",
   "status": "proved",
   "theorems": [
    "C31_generate",
    "C31_distinct_bounded",
    "C31_added_kept",
    "C31_sorted"
   ],
   "note": ""
  },
  {
   "property": "C32",
   "status": "proved",
   "theorems": [
    "C32_byte_complete_encodes",
    "C32_generated",
    "C32_generated_encodes",
    "C32_filtered",
    "C32_merged",
    "C32_last_byte_missing",
    "C32_pruned"
   ],
   "note": ""
  },
  {
   "property": "C33",
   "status": "proved",
   "theorems": [
    "C33_feed_counts_samples",
    "C33_feed_bounds",
    "C33_only_permitted",
    "C33_feed_panics"
   ],
   "note": ""
  },
  {
   "property": "C34",
   "status": "proved",
   "theorems": [
    "C34_m_step",
    "C34_scores",
    "C34_digamma_ends",
    "C34_m_step_ends",
    "C34_e_step_length"
   ],
   "note": ""
  },
  {
   "property": "C35",
   "status": "proved",
   "theorems": [
    "C35_prune_vocab",
    "C35_removes",
    "C35_unused_removed"
   ],
   "note": ""
  },
  {
   "property": "C36",
   "status": "proved",
   "theorems": [
    "C36_result",
    "C36_protected",
    "C36_too_many_protected",
    "C36_outcomes",
    "C36_turns",
    "C36_hangs"
   ],
   "note": ""
  },
  {
   "property": "C37",
   "status": "proved",
   "theorems": [
    "C37_from_forgets",
    "C37_history_free",
    "C37_linked"
   ],
   "note": ""
  },
  {
   "property": "C38",
   "status": "proved",
   "theorems": [
    "C38_no_dropout",
    "C38_dropout"
   ],
   "note": ""
  },
  {
   "property": "C39",
   "status": "proved",
   "theorems": [
    "C39_viterbi_best",
    "C39_viterbi_gives_up"
   ],
   "note": ""
  },
  {
   "property": "C40",
   "status": "proved",
   "theorems": [
    "C40_viterbi_encode"
   ],
   "note": ""
  },
  {
   "property": "C41",
   "status": "proved",
   "theorems": [
    "C41_complete_distinct",
    "C41_terminates",
    "C41_returns",
    "C41_best_first",
    "C41_one",
    "C41_all_found"
   ],
   "note": ""
  },
  {
   "property": "C42",
   "status": "proved",
   "theorems": [
    "C42_general",
    "C42_marginals"
   ],
   "note": ""
  },
  {
   "property": "C43",
   "status": "proved",
   "theorems": [
    "C43_marginals",
    "C43_exact_lengths",
    "C43_lengths",
    "C43_gain"
   ],
   "note": ""
  },
  {
   "property": "C44",
   "status": "proved",
   "theorems": [
    "C44_wrong_constant",
    "C44_dead_end_counted"
   ],
   "note": ""
  },
  {
   "property": "C45",
   "status": "proved",
   "theorems": [
    "C45_e_step_order",
    "C45_token_counts",
    "C45_schedule_independent",
    "C45_fails",
    "C45_result_exists",
    "C45_float_order_matters"
   ],
   "note": ""
  },
  {
   "property": "C46",
   "status": "proved",
   "theorems": [
    "C46_chunks_partition",
    "C46_logged_chunks"
   ],
   "note": ""
  },
  {
   "property": "C47",
   "status": "proved",
   "theorems": [
    "C47_counters",
    "C47_monitor_stops_late",
    "C47_monitor_stops",
    "C47_bytes_refuted"
   ],
   "note": ""
  },
  {
   "property": "C48",
   "status": "proved",
   "theorems": [
    "C48_source",
    "C48_else_panic",
    "C48_sources",
    "C48_share",
    "C48_rounded_product",
    "C48_processors"
   ],
   "note": ""
  },
  {
   "property": "C49",
   "status": "proved",
   "theorems": [
    "C49_filter",
    "C49_prune",
    "C49_merge",
    "C49_reads_back"
   ],
   "note": ""
  },
  {
   "property": "C50",
   "status": "proved",
   "theorems": [
    "C50_allow",
    "C50_allow_names",
    "C50_mine",
    "C50_command",
    "C50_command_succeeds",
    "C50_builtin",
    "C50_repo_examples",
    "C50_repo_example_refuted",
    "C50_comment_panics_refuted",
    "C50_comment_refuted",
    "C50_break_refuted",
    "C50_name_panics"
   ],
   "note": "PropRegex.v. Patterns whose comments (flag x) end, and without a common group name; otherwise the claim is false, see C50_comment_refuted, C50_comment_panics_refuted, C50_name_panics. With a raw line break in a pattern: C50_break_refuted. One assertion of the program's own test fails: C50_repo_example_refuted."
  },
  {
   "property": "C51",
   "status": "proved",
   "theorems": [
    "C51_pipeline",
    "C51_unreadable_specials",
    "C51_generated_loads"
   ],
   "note": ""
  },
  {
   "property": "C52",
   "status": "proved",
   "theorems": [
    "C52_draws",
    "C52_dropout"
   ],
   "note": ""
  },
  {
   "property": "C53",
   "status": "proved",
   "theorems": [
    "C53_cuts",
    "C53_e_step",
    "C53_total",
    "C53_pieces_unique"
   ],
   "note": ""
  },
  {
   "property": "C54",
   "status": "proved",
   "theorems": [
    "C54_exists",
    "C54_digamma",
    "C54_ln"
   ],
   "note": ""
  },
  {
   "property": "C55",
   "status": "proved",
   "theorems": [
    "C55_m_step"
   ],
   "note": ""
  },
  {
   "property": "C56",
   "status": "proved",
   "theorems": [
    "C56_loss",
    "C56_defined",
    "C56_order",
    "C56_alternatives_refuted"
   ],
   "note": ""
  },
  {
   "property": "C57",
   "status": "proved",
   "theorems": [
    "C57_sample",
    "C57_occurrences_unique",
    "C57_feed"
   ],
   "note": ""
  },
  {
   "property": "C58",
   "status": "proved",
   "theorems": [
    "C58_expression",
    "C58_load_regex",
    "C58_load_fancy",
    "C58_tokens",
    "C58_patterns",
    "C58_no_errors",
    "C58_unreadable",
    "C58_nothing_given",
    "C58_mine"
   ],
   "note": ""
  },
  {
   "property": "C59",
   "status": "proved",
   "theorems": [
    "C59_choice",
    "C59_find",
    "C59_cover",
    "C59_runs",
    "C59_words",
    "C59_patterns",
    "C59_mine"
   ],
   "note": "PropFind.v. The regex crate is not in the repository: Find.v models its documented behaviour (leftmost-first); patterns as in C50."
  },
  {
   "property": "C60",
   "status": "proved",
   "theorems": [
    "C60_patterns",
    "C60_allow"
   ],
   "note": "PropPatterns.v; shapes in SpecPatterns.v. The classes do not depend on the tables of Unicode."
  },
  {
   "property": "C61",
   "status": "proved",
   "theorems": [
    "C61_bag",
    "C61_best_first",
    "C61_sorts",
    "C61_hypotheses",
    "C61_nan_refuted"
   ],
   "note": ""
  },
  {
   "property": "C62",
   "status": "proved",
   "theorems": [
    "C62_refused",
    "C62_history",
    "C62_history_exists",
    "C62_round_trip",
    "C62_answers",
    "C62_tokens",
    "C62_decode",
    "C62_knows",
    "C62_knows_all"
   ],
   "note": "PropPy.v; stub in SpecPy.v. pyo3 is not in the repository: Py.v models its documented conversions for the built-in types. An empty special token makes encode hang: C10."
  },
  {
   "property": "C63",
   "status": "proved",
   "theorems": [
    "C63_save",
    "C63_save_reports_failure_refuted",
    "C63_save_load",
    "C63_load_total",
    "C63_text_round_trip",
    "C63_state_round_trip",
    "C63_state_lost",
    "C63_setstate_raises",
    "C63_pickle_refuted"
   ],
   "note": "PropPy.v. Unpickling is false for every tokenizer (C63_pickle_refuted); a failed save is not reported (C63_save_reports_failure_refuted)."
  },
  {
   "property": "C64",
   "status": "proved",
   "theorems": [
    "C64_parse",
    "C64_help",
    "C64_order",
    "C64_accepted"
   ],
   "note": "PropArgs.v; the manual in SpecArgs.v. xflags is not in the repository: Args.v models the parser it generates; a bare -- is an unknown option."
  },
  {
   "property": "C65",
   "status": "proved",
   "theorems": [
    "C65_defaults",
    "C65_filter",
    "C65_prune",
    "C65_merge",
    "C65_regex",
    "C65_mine",
    "C65_generate",
    "C65_todo"
   ],
   "note": "PropMain.v. prune and merge may also hang: C36, C28."
  },
  {
   "property": "C66",
   "status": "proved",
   "theorems": [
    "C66_syntax",
    "C66_names",
    "C66_unbalanced",
    "C66_escapes"
   ],
   "note": "PropSyntax.v; the grammar in SpecSyntax.v. The regex crate is not in the repository: Regex.v models its documented syntax, without the limits on nesting and size. The grammar leaves out the flags x and u, blanks in braces, and unescaped dashes, & and ~ inside of classes."
  },
  {
   "property": "C67",
   "status": "proved",
   "theorems": [
    "C67_reads",
    "C67_short_exact",
    "C67_prints",
    "C67_codec",
    "C67_close",
    "C67_loads",
    "C67_near",
    "C67_order",
    "C67_once",
    "C67_same_refuted",
    "C67_encode_refuted",
    "C67_once_small_refuted",
    "C67_order_small_refuted"
   ],
   "note": "PropNum.v; decimals and rounding in SpecNum.v. serde_json and ryu are not in the repository: JsonNum.v models version 1.0.113 and ryu's specification. That scores stay the same is false: C67_same_refuted, C67_encode_refuted; below 2^-17 also C67_once_small_refuted, C67_order_small_refuted."
  },
  {
   "property": "C68",
   "status": "proved",
   "theorems": [
    "C68_piece",
    "C68_e_step",
    "C68_total"
   ],
   "note": "PropRound.v; accuracy of exp and the bound in SpecExp.v. A vocabulary of tokens of at most 32 bytes with scores above -25 has an error below 0.005 for w = 0. That a piece of weight 1 panics: C68_panics."
  },
  {
   "property": "C69",
   "status": "proved",
   "theorems": [
    "C69_encode",
    "C69_clear_winner",
    "C69_exact_refuted",
    "C69_viterbi",
    "C69_nbest"
   ],
   "note": "PropBest.v; the slack in SpecBest.v. Without slack the claim is false: C69_exact_refuted."
  },
  {
   "property": "C70",
   "status": "proved",
   "theorems": [
    "C70_syntax",
    "C70_decimal",
    "C70_word",
    "C70_closest",
    "C70_same",
    "C70_order",
    "C70_printed",
    "C70_as_in_files_refuted",
    "C70_long_refuted",
    "C70_defaults",
    "C70_whole"
   ],
   "note": "PropFloatText.v; the notation in SpecFloatText.v. f64::from_str is modelled in RustFloat.v from the documentation and code of Rust's standard library, which is not part of /repo."
  },
  {
   "property": "C71",
   "status": "proved",
   "theorems": [
    "C71_turn",
    "C71_turns",
    "C71_total",
    "C71_run",
    "C71_same"
   ],
   "note": "PropEm.v; the notion of a turn in SpecEm.v. The accuracy of exp and ln is a hypothesis; the error grows with the square of the piece length 81920, which makes delta about 0.0007 for short tokens and 0.04 for tokens of 64 bytes."
  },
  {
   "property": "C72",
   "status": "proved",
   "theorems": [
    "C72_files",
    "C72_training",
    "C72_quota_refuted",
    "C72_nul_refuted",
    "C72_markdown_fails"
   ],
   "note": "The filters of datagen.py, and how generate_infilling makes its samples, are not modelled: the theorems hold for all lists of samples. A Python str is its UTF-8 bytes."
  },
  {
   "property": "C73",
   "status": "proved",
   "theorems": [
    "C73_buckets",
    "C73_characters",
    "C73_all_counted_refuted",
    "C73_small",
    "C73_error",
    "C73_samples",
    "C73_datagen",
    "C73_same_text_refuted",
    "C73_find",
    "C73_percentage_refuted"
   ],
   "note": "For any encoder. The rounding of chars_per_token, the printing, and json.dump are not modelled."
  },
  {
   "property": "C74",
   "status": "proved",
   "theorems": [
    "C74_fails",
    "C74_any",
    "C74_kept",
    "C74_frequencies_ignored",
    "C74_frequent_kept_refuted",
    "C74_ranks_differ_refuted"
   ],
   "note": "Ids of special tokens among the v most frequent are excluded by hypothesis."
  },
  {
   "property": "C75",
   "status": "proved",
   "theorems": [
    "C75_log_gamma",
    "C75_exact",
    "C75_turn",
    "C75_turns",
    "C75_training",
    "C75_likelihood_refuted"
   ],
   "note": "PropBound.v; the objective in SpecBound.v. It is a function of counts; that the program's scores are those of its counts up to the error e is part of the theorems. Turns that drop tokens are not covered: the objective then has fewer terms. C75_likelihood_refuted refutes the stronger reading that the likelihood itself does not fall."
  },
  {
   "property": "C76",
   "status": "proved",
   "theorems": [
    "C76_files",
    "C76_counts",
    "C76_each_count",
    "C76_long_dropped_refuted",
    "C76_nan",
    "C76_empty"
   ],
   "note": ""
  },
  {
   "property": "C77",
   "status": "proved",
   "theorems": [
    "C77_pool",
    "C77_infilling",
    "C77_ends",
    "C77_few",
    "C77_enough",
    "C77_runs_out",
    "C77_short",
    "C77_readable"
   ],
   "note": ""
  },
  {
   "property": "C78",
   "status": "proved",
   "theorems": [
    "C78_call",
    "C78_positional",
    "C78_order",
    "C78_by_name",
    "C78_stub",
    "C78_stub_save_refuted",
    "C78_stub_from_str_refuted",
    "C78_load"
   ],
   "note": ""
  },
  {
   "property": "C79",
   "status": "proved",
   "theorems": [
    "C79_bytes_exact",
    "C79_base64",
    "C79_escapes",
    "C79_bytes",
    "C79_no_space",
    "C79_usual_list",
    "C79_dense_list",
    "C79_usual_found_refuted",
    "C79_kept",
    "C79_files"
   ],
   "note": ""
  },
  {
   "property": "C80",
   "status": "proved",
   "theorems": [
    "C80_framed",
    "C80_framed_decode",
    "C80_example",
    "C80_example_raises",
    "C80_benchmark_fails"
   ],
   "note": ""
  }
 ]
}