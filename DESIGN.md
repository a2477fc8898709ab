# Formal model of rojas-diego/tokengeex in Coq 8.16.1

## Layout

`rocq/theories/`
* `Base.v`, `F64.v`, `Utf8.v`, `Base64.v`, `Sort.v` – bytes, panics/errors, IEEE-754 binary64 (Flocq `BinarySingleNaN`,
  `binary_float 53 1024`, round to nearest even), UTF-8 validation and lossy decoding, base64, sorting.
* The code, function by function, each definition with its lines: `Trie.v` (trie.rs), `Model.v` (model.rs), `Processor.v`
  (processor.rs), `Tokenizer.v` (tokenizer.rs), `Json.v`, `JsonWrite.v`, `Serde.v` (the serialisation in lib.rs, processor.rs,
  tokenizer.rs, and the part of serde_json it uses), `Lattice.v` (lattice.rs), `Filter.v` (filter.rs), `Merge.v` (merge.rs),
  `Mine.v` (mine.rs), `Generate.v` (generate.rs), `Prune.v` (prune.rs), `Par.v` (task.rs and rayon's chunks), `Patterns.v`
  (regex.rs), `Regex.v`, `Find.v` (the part of the regex crate that /repo uses), `Heap.v` (`BinaryHeap`), `Cli.v` (cli.rs),
  `Args.v` (the parser of the command line that xflags generates), `Py.v` (bindings/python/src/lib.rs and the conversions of pyo3),
  `JsonNum.v` (how serde_json and ryu read and print numbers).
* `Spec*.v` – small independent specifications used by the property statements.
* `*Proofs.v` and the other files – lemmas.
* `Prop*.v` – the property theorems, each followed by `Print Assumptions`, and examples that meet the hypotheses.

`properties.jsonl` is written by `tools/gen_properties.py`, `MANIFEST.json` by `tools/gen_manifest.py` (notes in `tools/notes.json`),
the last section of this file by `tools/gen_assumptions.py`.

## Modelling conventions

* `u8` is `Byte.byte`; `&str`/`String`/`Vec<u8>` are `list byte`. That a `&str` is valid UTF-8 is a hypothesis
  (`Utf8` in the specification) where it matters and a theorem where the code builds strings.
* `usize` is `nat` (no overflow: a `usize` counts things held in memory). `u32` token ids are `N` and every
  `as u32` cast and `u32` addition wraps explicitly mod 2^32; theorems state the bound under which it does not.
* `f64` is Flocq's `binary_float 53 1024` with one NaN. `ln`, `exp` are not correctly rounded in the Rust
  library, so they are function arguments (theorems hold for every choice).
* Panics (`unwrap`, index out of bounds, `expect`) are the value `Panic`, errors the value `Err e`; loops that
  are not structurally bounded carry fuel and return `Diverge` when it runs out, and theorems speak about all
  large enough fuels.
* Hash maps are association lists with insert/lookup; where the code iterates over a hash map, the
  iteration order is an argument (any permutation). Unstable sorting is an argument too: any function returning a
  sorted permutation.
* rayon: `par_chunks(..).for_each` runs chunk bodies whose effects on shared state are atomic merges; the model
  takes the order of merges (any permutation / interleaving) as an argument. `collect::<Result<_>>` returns some
  item's error if there is one.
* Random draws are a stream argument.

## Plan per property

| id | modelled | proof |
|---|---|---|
| C01 | `Model::encode` as DP over an array, with index checks | DP invariant, backtracking invariant |
| C02 | same, binary64 scores | rounding of addition is monotone (Flocq), DP invariant |
| C03 | same | strict comparison + left-to-right scan: the first best start position stays |
| C04 | same | reachability invariant of the DP |
| C05 | same, random stream | one-byte tokens are never dropped |
| C06 | same | case split on the dropout guard |
| C07, C08 | `Tokenizer::encode/decode` | splitter characterisation + C01 + lossy decoding exact on valid UTF-8 |
| C09, C10 | `SpecialTokenSplitter` as a fuelled iterator | induction on remaining input; empty special: invariant loop |
| C11, C12 | `Tokenizer::decode`, `from_utf8_lossy` | induction over ids; induction over chunks |
| C13–C16 | id/token maps, add_* | invariants over histories |
| C17 | trie | induction on token list and text |
| C18 | parallel collect with arbitrary completion order | permutation argument |
| C19–C22 | JSON text printer and parser, serde visitors | parse-after-print theorem |
| C23 | file as byte prefix | strict prefixes of printed objects do not parse |
| C24 | `str::replace` | induction |
| C25, C26 | `filter` with arbitrary sorter | counting invariants of the loop |
| C27–C29 | merge loop with fuel | loop invariant; witnesses |
| C30, C33, C45–C47 | schedules as permutations/interleavings | commutativity of counting |
| C31, C32 | `generate` | seen-set invariant; UTF-8 never contains byte 255 |
| C34–C36 | M-step, pruning, digamma | invariants over loop; witnesses |
| C37, C38 | lattice, pool | invariants |
| C39–C41 | viterbi / nbest, generic in the score type | induction over positions / A* argument |
| C42–C44 | populate_marginal over reals | path-sum induction, cut-off error bound |
| C48–C50 | CLI helper functions | direct |
| C51 | all commands, one after the other | byte coverage is kept by each command and by the file |
| C52 | the random stream of `encode` | which number decides about which occurrence |
| C53 | E-step, over the reals | C42/C43 for every piece of text between reachable cuts |
| C54, C55 | digamma, M-step | bound of the series (reals) and of the rounding errors (Flocq), whatever `ln` is used |
| C56 | `prune_vocab` | bound of the rounding errors of the loss |
| C57 | `feed`, the counting of one sample | specification of occurrences |
| C58 | what commands read and write | case by case |
| C59 | `find_iter` of the regex crate | preferred match as a relation, proved functional |
| C66 | the parser of the regex crate | a grammar given as relations; induction over its derivations |
| C60 | the table of patterns | the parsed expressions are compared with shapes |
| C61 | the heap of `nbest` | heap invariant of the array; a run of the heap refines a run of a bag |
| C64, C65 | the command line, `main` | the parser against a table of the manual; composition of C25–C36, C49, C58 |
| C62, C63 | the Python class: conversions, methods, exceptions, files | case by case over the methods; histories of calls by induction |
| C67 | the numbers of a file, both ways | rounding of reals (Flocq); interval of a number, error of a product or quotient; powers of 2 and 10 are apart |
| C68 | E-step, in binary64 | rounding errors of `log_sum_exp` along the passes; counts as products of rounding factors plus denormal differences |
| C69 | `encode`, `viterbi`, `nbest` in binary64 | rounding errors of sums of any sign; the search keeps that every continuation of a hypothesis is worth at most its estimate plus half the slack |
| C70 | `f64::from_str` (Rust's standard library) on the values of options and the proportions of sources | a grammar of the texts; correct rounding of a quotient (Flocq) |
| C71 | `run_e_step` and `run_m_step` together, the EM loop and the loop of `prune`, in binary64 | C68 and C55 combined through the Lipschitz bounds of digamma; invariants of a turn |
| C72 | `scripts/datagen.py`: the loops that write the samples; `load_sources` | induction over the samples |
| C73 | `scripts/evaluate.py`, `scripts/find.py` | counting; slices of a sorted list |
| C74 | `scripts/convert.py` | lookups in a dictionary of Python |
| C75 | the turn of C71 (`turn`), the EM loop | Gibbs' inequality for the E-step; convexity of the logarithm of the beta function from x psi'(x) decreasing, shown for every step of Gauss' limits (`BoundReal.v`); `C75_likelihood_refuted`: the likelihood itself may fall |
| C76 | `scripts/datagen.py`: the filters | the comparisons in binary64 against exact fractions (`DatagenProofs.v`); induction over the samples |
| C77 | `scripts/datagen.py`: `generate_infilling` | induction over the texts; the random numbers are an argument |
| C78 | `PyKw.v`: the binding of arguments by pyo3, the names of the parameters; the stub | induction over the keywords |
| C79 | `DatagenRegex.v`: the three expressions of `scripts/datagen.py`, with the matcher of C59 | repeated texts of a fixed length that cannot overlap (`DatagenRegexProofs.v`); the first way to match is the longest (`PropDatagenBytes.v`) |
| C80 | `PyExample.v`: `bindings/python/example.py`, line by line, with its assertions; what it prints is left out | the pieces of a framed text (C09), then call by call |

Status of each property is in `MANIFEST.json`.

## Trusted base

* The Coq 8.16.1 kernel (the proofs are also checked by coqchk).
* The axioms below, all of the standard library; none of our own. They come with the real numbers of the standard library and
  with Flocq, on which `f64` is built: every theorem about a definition that mentions `f64` lists them.
* That the definitions of the model say what the Rust code does. Nothing of /repo was run: the model was written from the text.
  The semantics of the Rust standard library, of serde_json, rayon, rand, regex and base64 come from their documentation.
* That the specification of a property (`Spec*.v` and the statement) says what its English text says.

### Modelled

* src/trie.rs, model.rs, processor.rs, tokenizer.rs, lattice.rs, filter.rs, merge.rs, mine.rs, generate.rs, prune.rs, regex.rs:
  all functions that compute something, with their panics, index checks, `as u32` casts and errors.
* src/lib.rs: `ScoredToken`, `Error`, serialisation. src/task.rs: `par_chunk_size`, `Task`, `LocalTask` and the monitor thread
  as an interleaving of steps.
* src/cli.rs: the command line and `main`, every command, the loading of sources, patterns, tokens and processors, the files
  written. The parser that xflags 0.3 generates is modelled from its documented behaviour; simplified: a bare `--` is refused like
  an unknown option, printing to a closed stdout is not an error.
* serde_json: the parser (escapes, surrogates, depth limit, numbers) and both printers (compact, pretty). Numbers are read as in
  version 1.0.113 with its default features (significand, exponent, one product or quotient); those printed are the ones ryu is
  specified to print, its tables are not modelled. Cargo.toml:31 also admits later versions. base64 (standard
  alphabet, padding required). `String::from_utf8_lossy`, `str::replace`, `str::trim`, `char_indices`, `push` and `pop` of
  `BinaryHeap` as operations on its array.
* bindings/python/src/lib.rs: all methods, with the conversions of pyo3 0.19 between Python values and Rust types.
* scripts/datagen.py (the filters with their three expressions, the mixing of infilling texts, what is written where; `isdigit`, the tables
  of `\w` and `\s`, and the random numbers are arguments; the matcher is that of the regex crate, which finds the same for expressions
  that match no empty text), evaluate.py (the counts), find.py (the counts), convert.py (the shortened vocabulary).
* regex: the syntax with all flags but u, classes with their operators, assertions, `is_match`, `find_iter`.

### Taken as arguments (the theorems hold for all of them)

* `ln`, `exp`; where a bound is proved, the bound is in terms of their errors, or their relative error is assumed to be at most 2^-52
  (`accurate_ln`, `accurate_exp`: the correctly rounded ones are, and libm promises less than one unit in the last place).
* The printing and reading of numbers (`fmt_num`, `num_val`, `parse_f64`), except in C67, which is about those of serde_json, and in C70, which is about `f64::from_str`.
  Where a theorem asks that reading undoes printing, it does not apply to these: C67_same_refuted.
* Unicode normalisation; the tables of Unicode for \w, \d, \p, letters and case.
* The sorting algorithm (any that returns a sorted permutation), the order of iteration of a hash map (any permutation), the
  numbers drawn by rand (any stream), the schedule of rayon (any order of the merges), the number of threads.
* fancy_regex (its matches are an argument).

### Not modelled

* Of Python: values other than None, bool, int, float, str, bytes, list, tuple (they are one constructor that converts to nothing);
  the texts of exceptions other than those of the tokenizer's own errors; `pickle` beyond what it calls; logging
  and the progress bar; reading a file while another process writes it; running out of memory, the stack, or `usize`
  (a `usize` is a natural number), except where a property speaks about it; the limits of the regex crate on nesting and size of a
  compiled expression; the flag u of the regex crate; captures.
* Of the scripts: `re` of Python beyond the three expressions of datagen.py, downloads, the other tokenizers, plots, trainbpe.py,
  benchmark.py (but for its call of `encode_batch`).
* Data races inside of `dashmap`/`Mutex`: an update is one atomic step.
* NaN payloads and signs: one NaN.

## What the proofs found

The claims below are theorems with a witness, unless said otherwise.
* `SpecialTokenSplitter` never ends if an empty special token is registered (C10_empty_special_diverges).
* `merge` may hang (C28_merge_may_hang, C28_stuck_forever) and may add a token that exists (C29_merge_may_duplicate); the older of
  two equal tokens is never produced (C29_older_never_produced).
* `generate` has `0..255`: byte 255 is missing from the vocabulary (C32_last_byte_missing). UTF-8 text never contains it.
* `viterbi` gives up at a position no token ends at (C39_viterbi_gives_up); dead ends and unreachable starts corrupt the
  marginals (C44_wrong_constant, C44_dead_end_counted).
* `prune` may never return (C36_hangs, C36_too_many_protected).
* The loss of prune.rs:279 uses `alternatives.len()`, the number of all alternatives of the vocabulary, not of this token: the order of the candidates may turn round
  (C56_alternatives_refuted).
* A special token that needs an escape in JSON, or a score that is not finite, makes a file that can not be read back
  (C19_unreadable, C51_unreadable_specials): the visitor asks for borrowed strings, and serde_json prints such a score as null.
* Saving and loading changes scores by a unit in the last place (C67_same_refuted; a simulation in Python says 5 to 27 of 100
  scores), because serde_json is used without its feature `float_roundtrip`; a text may be encoded differently afterwards
  (C67_encode_refuted). Scores nearer to 0 than 2^-17 may change with every save, and two of them may change places
  (C67_once_small_refuted, C67_order_small_refuted).
* Progress: samples are counted before bytes, so the last report may show too few bytes (C47_bytes_refuted).
* A crash while saving loses the old file (C23_old_file_may_be_lost).
* A pattern that ends in a comment (flag x), or two that name a group alike, break or panic the allow expression
  (C50_comment_refuted, C50_comment_panics_refuted, C50_name_panics); a raw line break is lost in the file (C50_break_refuted).
* One assertion of the program's own test of the patterns fails (C50_repo_example_refuted).
* Sums of frequencies over f64 depend on the schedule: C45_float_order_matters, and C45_e_step_order for the whole E-step; but only within the error of C68.
* The check `z.is_normal()` of prune.rs:90 fails for a piece all of whose cuts together have weight 1, whose logarithm is 0 (C68_panics).
* `encode` maximises the rounded sum of the scores, not the sum: C69_exact_refuted has a vocabulary and a text whose best cut is not returned.
* A number on the command line and the same text in a tokenizer file can be different numbers (C70_as_in_files_refuted), so
  `filter --min-score` with the score of a token copied from the file, which should drop the token (the comparison is strict), may keep it.
* Decimals with more than 65536 characters can be misread by `f64::from_str`, whose exponent stops growing (C70_long_refuted).
* `nan`, `inf` and negative proportions of a source are accepted without a complaint; NaN takes no samples (C70_example).
* The Python class can not be unpickled (C63_pickle_refuted): it has `__setstate__` but no constructor. `save` drops the error
  (C63_save_reports_failure_refuted).
* Read as code only: `TokenGeeXError` is never added to the Python module, so `from tokengeex import TokenGeeXError`, which the
  stub promises, fails; the parameters of `save` and `from_str` have other names in the stub, by which they can not be called
  (C78_stub_save_refuted, C78_stub_from_str_refuted); the stub lacks `is_base`, and says that `base_vocab_size` includes the special tokens.
* The commands `encode` and `decode` are `todo!()` and always panic (C65_todo).
* `filter` also removes tokens that have just the `--min-score`; the manual says lower (C26_lower_refuted).
* Read as text only: the README gives the command for data/exact.regex again for data/fine.regex, which does not exist.

* `generate_chinese_markdown` of datagen.py always fails: `["train" "test"]` lacks a comma (C72_markdown_fails). What the test file gets
  beyond its quota is missing from the training file (C72_quota_refuted).
* evaluate.py leaves the rarest `vocab_size mod 50` ids out of its fifty numbers (C73_all_counted_refuted), turns CR LF into LF
  (C73_same_text_refuted); find.py reports percentages above 100 (C73_percentage_refuted).
* convert.py drops tokens by rank: the frequencies it counts have no effect (C74_frequencies_ignored, C74_frequent_kept_refuted);
  a special token among the most frequent ids may be given the rank of another token (C74_ranks_differ_refuted).
* datagen.py counts samples of more than 4096 lines as filtered, but lacks the `continue` that would drop them
  (C76_long_dropped_refuted); a NaN passes the filter of the line lengths (C76_nan); an empty text may end the run (C76_empty).
* The expression by which datagen.py looks for lists of bytes does not allow a space after a comma: in lists as they are usually
  written it finds nothing (C79_usual_list, C79_usual_found_refuted).
* The test file of the infilling texts is made of training samples (C77_infilling); the texts need far more samples than they
  keep of them: with short samples only NUL bytes are written (C77_short), and the run fails when the samples run out (C77_runs_out).
* `example.py` fails its assertion in line 49 for a file that has one of its special tokens already (C80_example); the call in line 50 of
  `benchmark.py` lacks an argument (C80_benchmark_fails), and `tokengeex.load` in line 47 does not exist (read as code only).
* Read as code only: trainbpe.py always fails: it reads `args.s`, but the option is called `-p`.

## Wrong programs

`seeded/LOG.jsonl` lists the edits of the model that were tried in a scratch copy and the theorems that failed.

## What Print Assumptions lists

<!-- assumptions -->

**Closed under the global context (no axiom)** (160 theorems):
C08_processors_in_order C09_pieces_unique C09_pieces_concat C11_decode_meaning C11_decode_error C11_decode_total
C11_meaning_unique C12_model_decode C12_model_decode_total C12_decode_valid C12_exact_on_valid C13_id_to_token
C13_token_to_id C13_round_trip C13_inverse C13_partition C13_base_special C14_special_ids_stable
C14_registered C14_idempotent C14_registered_once C15_model_add_tokens C15_history C15_ids_after_additions
C16_token_to_id_latest C16_search_latest C16_old_ids_decode C17_search_sound_complete C17_search_sorted C17_search_ids
C17_search_complete C17_search_buffer C18_decode_batch_ok C18_decode_batch_error C19_round_trip C19_exact_round_trip
C19_unreadable C19_one_line C20_accepts C20_rejects C20_files C20_version_and_keys
C20_last_value_counts C21_token_round_trip C21_form C21_base64 C21_base64_unique C21_accepts
C22_processor_round_trip C22_accepts C22_untyped_is_crlf C23_prefix_is_rejected C23_after_a_crash C23_old_file_may_be_lost
C24_crlf C24_crlf_unique C24_postprocess C24_idempotent_iff C26_no_minimum C30_mine_counts
C30_schedule_independent C30_result_exists C37_from_forgets C37_history_free C37_linked C38_no_dropout
C38_dropout C39_viterbi_gives_up C41_complete_distinct C41_terminates C41_one C41_all_found
C46_chunks_partition C46_logged_chunks C47_counters C47_monitor_stops_late C47_monitor_stops C47_bytes_refuted
C48_processors C49_filter C49_reads_back C50_allow C50_allow_names C50_mine
C50_command C50_command_succeeds C50_builtin C50_repo_examples C50_repo_example_refuted C50_comment_panics_refuted
C50_comment_refuted C50_break_refuted C50_name_panics C53_pieces_unique C57_sample C57_occurrences_unique
C58_expression C58_load_regex C58_load_fancy C58_tokens C58_patterns C59_choice
C59_find C59_cover C59_runs C59_words C59_patterns C60_patterns
C60_allow C61_bag C61_best_first C61_sorts C63_load_total C64_parse
C64_help C64_order C64_accepted C66_syntax C66_names C66_unbalanced
C66_escapes C72_files C72_quota_refuted C72_nul_refuted C72_markdown_fails C73_buckets
C73_characters C73_all_counted_refuted C73_small C73_error C73_samples C73_datagen
C73_same_text_refuted C73_find C73_percentage_refuted C74_fails C74_any C74_kept
C74_frequencies_ignored C74_frequent_kept_refuted C74_ranks_differ_refuted C77_pool C77_infilling C77_ends
C77_few C77_enough C77_runs_out C77_short C77_readable C78_stub_from_str_refuted
C78_load C79_bytes_exact C79_base64 C79_escapes C79_bytes C79_no_space
C79_usual_list C79_dense_list C79_usual_found_refuted C80_benchmark_fails

**`ClassicalDedekindReals.sig_forall_dec`, `FunctionalExtensionality.functional_extensionality_dep`** (1 theorems):
C79_kept

**`ClassicalDedekindReals.sig_forall_dec`, `ClassicalDedekindReals.sig_not_dec`, `FunctionalExtensionality.functional_extensionality_dep`** (2 theorems):
C43_marginals C43_exact_lengths

**`ClassicalDedekindReals.sig_forall_dec`, `ClassicalDedekindReals.sig_not_dec`, `Classical_Prop.classic`, `FunctionalExtensionality.functional_extensionality_dep`** (209 theorems):
C01_encode_spells C01_encode_ordinary C02_encode_optimal C02_encode_optimal_spellings C02_dropout_never_better C03_last_token
C03_empty_input C03_random_free C04_fails_iff_no_spelling C04_never_panics C05_covered_input_encodes C05_default_vocab
C06_full_dropout_single_bytes C06_nan_dropout_single_bytes C06_no_dropout_random_free C07_encode_decode C08_ordinary_round_trip C08_round_trip
C09_pieces_exist C09_encode_by_pieces C09_encode_fails_by_pieces C10_encode_ends C10_encode_ends_iff C10_empty_special_diverges
C16_encode_latest C18_encode_batch_ok C18_encode_ordinary_batch_ok C18_encode_batch_error C18_encode_ordinary_batch_error C25_filter_is_safe
C25_protected C25_panics C25_panics_iff C26_filter_removes_all_it_may C26_lowest_first C26_lower_refuted
C27_merge_appends C27_merge_panics C27_round C28_result C28_terminates C28_progress
C28_ends C28_stuck_forever C28_merge_may_hang C29_merge_may_duplicate C29_older_never_produced C31_generate
C31_distinct_bounded C31_added_kept C31_sorted C32_byte_complete_encodes C32_generated C32_generated_encodes
C32_filtered C32_merged C32_last_byte_missing C32_pruned C33_feed_counts_samples C33_feed_bounds
C33_only_permitted C33_feed_panics C34_m_step C34_scores C34_digamma_ends C34_m_step_ends
C34_e_step_length C35_prune_vocab C35_removes C35_unused_removed C36_result C36_protected
C36_too_many_protected C36_outcomes C36_turns C36_hangs C39_viterbi_best C40_viterbi_encode
C41_returns C41_best_first C42_general C42_marginals C43_lengths C43_gain
C44_wrong_constant C44_dead_end_counted C45_e_step_order C45_token_counts C45_schedule_independent C45_fails
C45_result_exists C45_float_order_matters C48_source C48_else_panic C48_sources C48_share
C48_rounded_product C49_prune C49_merge C51_pipeline C51_unreadable_specials C51_generated_loads
C52_draws C52_dropout C53_cuts C53_e_step C53_total C54_exists
C54_digamma C54_ln C55_m_step C56_loss C56_defined C56_order
C56_alternatives_refuted C57_feed C58_no_errors C58_unreadable C58_nothing_given C58_mine
C59_mine C61_hypotheses C61_nan_refuted C62_refused C62_history C62_history_exists
C62_round_trip C62_answers C62_tokens C62_decode C62_knows C62_knows_all
C63_save C63_save_reports_failure_refuted C63_save_load C63_text_round_trip C63_state_round_trip C63_state_lost
C63_setstate_raises C63_pickle_refuted C65_defaults C65_filter C65_prune C65_merge
C65_regex C65_mine C65_generate C65_todo C67_reads C67_short_exact
C67_prints C67_codec C67_close C67_loads C67_near C67_order
C67_once C67_same_refuted C67_encode_refuted C67_once_small_refuted C67_order_small_refuted C68_piece
C68_e_step C68_total C69_encode C69_clear_winner C69_exact_refuted C69_viterbi
C69_nbest C70_syntax C70_decimal C70_word C70_closest C70_same
C70_order C70_printed C70_as_in_files_refuted C70_long_refuted C70_defaults C70_whole
C71_turn C71_turns C71_total C71_run C71_same C72_training
C75_log_gamma C75_exact C75_turn C75_turns C75_training C75_likelihood_refuted
C76_files C76_counts C76_each_count C76_long_dropped_refuted C76_nan C76_empty
C78_call C78_positional C78_order C78_by_name C78_stub C78_stub_save_refuted
C79_files C80_framed C80_framed_decode C80_example C80_example_raises
<!-- end of assumptions -->
