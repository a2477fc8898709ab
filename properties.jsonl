{"id": "C01", "title": "Encoding loses nothing", "statement": "Whenever Model::encode / Tokenizer::encode_ordinary returns Ok(ids), every id is a base-vocabulary id and the token byte strings named by the ids, concatenated in order, are exactly the bytes of the (pre-processed) input.", "quantifier": "every vocabulary (duplicates, empty tokens and overlapping tokens included), every input string, every dropout value, every sequence of random draws", "why_tests_cant": "the vocabulary, the input and the random draws are unbounded; a test fixes all three", "anchors": ["src/model.rs: Model::encode, Model::from, Model::add_tokens", "src/tokenizer.rs: Tokenizer::encode_ordinary"]}
{"id": "C02", "title": "Encoding without dropout is optimal", "statement": "With dropout <= 0 and finite scores, the ids returned by encode have the greatest left-to-right accumulated f64 score among all ways of cutting the input into vocabulary tokens (with the f64 rounding of every addition taken into account).", "quantifier": "every vocabulary with finite scores, every input, every competing segmentation", "why_tests_cant": "the number of segmentations is exponential in the input length and the claim is about IEEE-754 rounding for every score", "anchors": ["src/model.rs: Model::encode"]}
{"id": "C03", "title": "Encoding ties are broken in favour of the longest last token, at every prefix", "statement": "With dropout <= 0, the result of encode is a fixed function of vocabulary and input: the ids without the last one are the encoding of the remaining prefix, and among the last tokens that reach the best score the longest one is taken; the random source is never consulted.", "quantifier": "every vocabulary with finite scores, every input, every random source", "why_tests_cant": "ties are measure-zero in tests; needs every tie pattern", "anchors": ["src/model.rs: Model::encode"]}
{"id": "C04", "title": "Encoding fails exactly when no segmentation exists", "statement": "With dropout <= 0, encode returns Err exactly when the input cannot be cut into vocabulary tokens, and the error is NoPath(len, len) with len the byte length of the processed input; it never panics.", "quantifier": "every vocabulary, every input", "why_tests_cant": "absence of a segmentation is a universally quantified statement", "anchors": ["src/model.rs: Model::encode", "src/lib.rs: Error::NoPath"]}
{"id": "C05", "title": "Byte coverage makes encoding total", "statement": "If every byte of the input is a single-byte token of the vocabulary then encode succeeds, for any dropout and any random draws.", "quantifier": "every vocabulary, every input over covered bytes, every dropout value including NaN, every random source", "why_tests_cant": "random source and inputs are unbounded", "anchors": ["src/model.rs: Model::encode, Model::populate_nodes"]}
{"id": "C06", "title": "Dropout bounds", "statement": "With dropout >= 1 the encoding only uses tokens of at most one byte; with dropout <= 0 the encoding does not depend on the random source.", "quantifier": "every vocabulary, input, random draws in [0,1)", "why_tests_cant": "a test sees one random stream", "anchors": ["src/model.rs: Model::encode"]}
{"id": "C07", "title": "encode then decode is the identity", "statement": "For a tokenizer without processors, if encode(s, dropout) returns Ok(ids) then decode(ids, include_special_tokens=true) returns exactly s, whatever special tokens occur in s.", "quantifier": "every tokenizer without processors (vocab plus specials below 2^32), every string, every dropout and random draws", "why_tests_cant": "unbounded strings, multi-byte characters cut at arbitrary token borders, special tokens overlapping each other and the base vocabulary", "anchors": ["src/tokenizer.rs: Tokenizer::encode, Tokenizer::decode, SpecialTokenSplitter", "src/model.rs: Model::decode"]}
{"id": "C08", "title": "encode then decode returns the pre-processed text", "statement": "With processors, decode(encode_ordinary(s)) is the processors applied to s in list order, and decode(encode(s), true) is s with every stretch between special tokens replaced by its processed form.", "quantifier": "every processor list (normalisation forms as arbitrary string functions), every string", "why_tests_cant": "quantifies over all strings and all processor lists", "anchors": ["src/tokenizer.rs: encode, encode_ordinary, decode", "src/processor.rs"]}
{"id": "C09", "title": "Special tokens are cut out leftmost-first, in registration order", "statement": "encode cuts the input at the leftmost occurrence of any registered special token (the earliest registered one if several start there), repeatedly; the pieces concatenate to the input, special pieces are encoded as base_vocab_size + registration index, and no special token starts inside an ordinary piece.", "quantifier": "every list of non-empty special tokens, every string", "why_tests_cant": "all overlaps between special tokens and all positions", "anchors": ["src/tokenizer.rs: SpecialTokenSplitter::next, Tokenizer::encode"]}
{"id": "C10", "title": "encode terminates exactly when no registered special token is empty", "statement": "encode always terminates when no special token is the empty string; when the empty string has been registered, there are inputs (every non-empty input that starts with no earlier-registered special token) on which encode never returns.", "quantifier": "every tokenizer, every input", "why_tests_cant": "non-termination cannot be observed by a test", "anchors": ["src/tokenizer.rs: SpecialTokenSplitter::next, add_special_tokens"]}
{"id": "C11", "title": "decode's meaning, including errors", "statement": "decode(ids, incl) cuts ids at special ids; each maximal run of base ids is turned into text by lossy UTF-8 decoding of the concatenated token bytes, special ids contribute their text iff incl; if some id is >= vocab_size the result is Err(TokenIdOutOfBounds(first such id)) and otherwise Ok; it never panics and always terminates.", "quantifier": "every tokenizer, every id list, both flag values", "why_tests_cant": "all id lists, including out-of-range ids in any position", "anchors": ["src/tokenizer.rs: Tokenizer::decode", "src/model.rs: Model::decode"]}
{"id": "C12", "title": "decode returns valid UTF-8 and is exact on valid UTF-8", "statement": "Every Ok result of decode is valid UTF-8; when the concatenated token bytes are valid UTF-8 nothing is replaced; every maximal ill-formed part is replaced by U+FFFD.", "quantifier": "every byte string", "why_tests_cant": "all byte strings", "anchors": ["src/model.rs: Model::decode (String::from_utf8_lossy)"]}
{"id": "C13", "title": "Ids and tokens are inverse to each other", "statement": "For a tokenizer whose base tokens are pairwise different and different from its special tokens, token_to_id and id_to_token are mutually inverse, base ids are 0..base_vocab_size-1, special ids follow, is_base/is_special partition 0..vocab_size-1 and everything beyond is unknown to all of them. Without that hypothesis id_to_token(token_to_id(t)) = t still holds for every known t.", "quantifier": "every tokenizer, every id, every byte string", "why_tests_cant": "all vocabularies and all u32 ids", "anchors": ["src/tokenizer.rs: token_to_id, id_to_token, id_to_special_token, special_token_to_id, is_special, is_base, vocab_size, base_vocab_size, special_vocab_size", "src/model.rs: token_to_id, id_to_token"]}
{"id": "C14", "title": "Adding special tokens never disturbs existing ids", "statement": "add_special_tokens keeps every existing base and special id and its text, gives new distinct tokens the next free ids in order, ignores tokens already registered, and is idempotent.", "quantifier": "every history of add_special_tokens calls", "why_tests_cant": "all call histories", "anchors": ["src/tokenizer.rs: add_special_tokens, new"]}
{"id": "C15", "title": "Adding base tokens is the same as building from the longer vocabulary, and shifts special ids", "statement": "After any sequence of add_base_tokens calls the tokenizer answers every query and encodes every input exactly like one built from the concatenated vocabulary; existing base ids keep their token; every special id grows by the number of added tokens.", "quantifier": "every vocabulary, every history of additions, every later query", "why_tests_cant": "histories and queries are unbounded", "anchors": ["src/model.rs: add_tokens, from", "src/tokenizer.rs: add_base_tokens"]}
{"id": "C16", "title": "Duplicate base tokens: the last one wins everywhere", "statement": "When several base tokens have the same bytes, token_to_id, common_prefix_search and encode all use the largest id; the smaller ids are never produced by encode but still decode.", "quantifier": "every vocabulary with repeated values, every input", "why_tests_cant": "all duplicate patterns", "anchors": ["src/model.rs: from, add_tokens, encode, token_to_id"]}
{"id": "C17", "title": "common_prefix_search finds exactly the tokens that are prefixes", "statement": "common_prefix_search(text) yields, in increasing length, exactly one id for every distinct non-empty base token that is a prefix of text, that id being the one token_to_id returns for it.", "quantifier": "every vocabulary, every text", "why_tests_cant": "all vocabularies and texts", "anchors": ["src/trie.rs: push, common_prefix_search, TrieIterator::next", "src/model.rs: common_prefix_search", "bindings/python/src/lib.rs: common_prefix_search"]}
{"id": "C18", "title": "Batch calls equal mapped single calls", "statement": "encode_batch, encode_ordinary_batch and decode_batch return Ok exactly when each item succeeds, with the results in input order; otherwise they return one of the items' errors.", "quantifier": "every batch, every scheduling of the items", "why_tests_cant": "all schedules of the parallel map", "anchors": ["src/tokenizer.rs: encode_batch, encode_ordinary_batch, decode_batch"]}
{"id": "C19", "title": "Saving then loading gives back the tokenizer", "statement": "from_str(to_string(t)) and from_file after save yield a tokenizer with the same special tokens, processors and vocabulary (values, keep flags, ids), scores being those the number printer and parser give back, provided no special token needs JSON escaping and scores are finite; tokenizers with a special token that needs escaping are saved into a file that can not be loaded. The text of to_string is a single line without control characters, the one save writes is indented.", "quantifier": "every reachable tokenizer", "why_tests_cant": "all vocabularies incl. non-UTF-8 tokens, all special tokens incl. quotes, backslashes and control characters", "anchors": ["src/tokenizer.rs: Serialize/Deserialize for Tokenizer, save, from_file, FromStr, ToString", "src/lib.rs: Serialize/Deserialize for ScoredToken", "src/processor.rs"]}
{"id": "C20", "title": "Loading checks the version and rejects unknown fields", "statement": "Loading succeeds only for an object whose version field is the string \"2.0\" and whose only keys are version, special_tokens, processors, vocab; repeated keys take the last value; missing lists are empty.", "quantifier": "every JSON document", "why_tests_cant": "all documents", "anchors": ["src/tokenizer.rs: TokenizerVisitor::visit_map"]}
{"id": "C21", "title": "Scored tokens survive serialisation byte for byte", "statement": "Deserialising a serialised scored token returns the same bytes, keep flag and (through the number codec) score, whether or not the bytes are valid UTF-8; base64 without padding is used exactly for invalid UTF-8.", "quantifier": "every byte string, every keep flag, every finite score", "why_tests_cant": "all byte strings", "anchors": ["src/lib.rs: Serialize for ScoredToken, Deserialize for ScoredToken"]}
{"id": "C22", "title": "Processor configuration survives serialisation", "statement": "Each of the five processors is restored by deserialisation from its own serialisation; the untagged format maps any object without a non-crlf type field to the CRLF processor.", "quantifier": "every processor list, every JSON object", "why_tests_cant": "all objects", "anchors": ["src/processor.rs: ProcessorWrapper, CrlfProcessorVisitor, UnicodeProcessorVisitor"]}
{"id": "C23", "title": "A save cut short by a crash is never mistaken for a tokenizer", "statement": "Every strict prefix of a saved tokenizer file is rejected by from_file, so a crash during save can lose the file (save truncates in place, the old content is not preserved) but can not load as a different tokenizer.", "quantifier": "every tokenizer, every crash point during the write", "why_tests_cant": "all crash points of all files", "anchors": ["src/tokenizer.rs: save, from_file"]}
{"id": "C24", "title": "CRLF processing", "statement": "The CRLF processor replaces every occurrence of CR LF by LF and changes nothing else: the output is the input with exactly the CR bytes that directly precede an LF removed; in particular applying it twice may differ from applying it once.", "quantifier": "every string", "why_tests_cant": "all strings, e.g. CR CR LF", "anchors": ["src/processor.rs: CrlfProcessor"]}
{"id": "C25", "title": "filter never removes past the requested size nor protected tokens", "statement": "filter leaves at least min(old size, requested size) tokens, never removes a keep token unless forced, never removes a token whose score is above min_score, never invents or alters a token, and returns the vocabulary unchanged when it is already small enough.", "quantifier": "every vocabulary without NaN scores, every size, threshold, force flag, every admissible sort result", "why_tests_cant": "all vocabularies and all outcomes of unstable sorting", "anchors": ["src/filter.rs: VocabularyFilter::filter"]}
{"id": "C26", "title": "filter removes as much as allowed, lowest scores first", "statement": "The number of removed tokens is min(size - target, number of eligible tokens); every removed token scores no higher than every eligible token that stays; the result is sorted by decreasing score.", "quantifier": "every vocabulary without NaN scores, all parameters", "why_tests_cant": "all vocabularies", "anchors": ["src/filter.rs: VocabularyFilter::filter"]}
{"id": "C27", "title": "merge only appends allowed concatenations", "statement": "merge keeps all existing tokens at their ids, appends at most num_merges tokens, each the concatenation of two tokens present before it, no longer than max_token_length, accepted by the allow regex, with score (a+b)*scale_factor in f64 and keep=false, and each pair was adjacent in the encoding of some sample.", "quantifier": "every vocabulary, every sample set, every regex, all parameters, every admissible sort result and schedule", "why_tests_cant": "all corpora and schedules", "anchors": ["src/merge.rs: ModelVocabularyMerger::merge"]}
{"id": "C28", "title": "merge terminates exactly when progress is possible", "statement": "The merge loop ends once num_merges tokens were added or a round that still has at least `step` merges to do adds none; if a round with fewer than `step` merges left adds none, the loop repeats forever with the same state.", "quantifier": "every vocabulary, corpus and parameters", "why_tests_cant": "non-termination can not be observed by a test", "anchors": ["src/merge.rs: ModelVocabularyMerger::merge"]}
{"id": "C29", "title": "merge may duplicate a token", "statement": "merge does not check whether the concatenation already exists, so the vocabulary it returns may hold two ids with the same bytes, the older of which can never be produced again.", "quantifier": "existence over vocabularies and corpora", "why_tests_cant": "depends on pair frequencies", "anchors": ["src/merge.rs: ModelVocabularyMerger::merge"]}
{"id": "C30", "title": "Idiom counts do not depend on chunking or thread schedule", "statement": "mine counts every pattern match in every sample exactly once, whatever the number of threads, chunk size and interleaving of updates, and returns at most num_idioms distinct idioms with their exact counts in non-increasing order, none left out being more frequent than one kept.", "quantifier": "every sample list, thread count, interleaving and admissible sort result", "why_tests_cant": "all schedules", "anchors": ["src/mine.rs: IdiomMiner::mine", "src/task.rs: par_chunk_size"]}
{"id": "C31", "title": "Generated vocabularies are duplicate-free, bounded and keep bytes and added tokens", "statement": "generate returns pairwise different tokens, at most max(255, size) of them, among them every single byte 0..254 with keep set, added tokens (of two bytes or more) first with keep set as long as there is room, then suggested ones, then the most frequent substrings, sorted by decreasing score.", "quantifier": "every corpus, every added/suggested list, every size, every hash iteration and sort order", "why_tests_cant": "all corpora and orders", "anchors": ["src/generate.rs: VocabularyGenerator::generate, new"]}
{"id": "C32", "title": "A generated vocabulary encodes every string", "statement": "A tokenizer built from generate's result (and from its later filtering without force, merging and pruning) encodes every valid UTF-8 string, for any dropout, although byte 255 is missing from the vocabulary.", "quantifier": "every corpus, every string", "why_tests_cant": "all strings", "anchors": ["src/generate.rs: VocabularyGenerator::generate", "src/model.rs: encode"]}
{"id": "C33", "title": "Substring statistics count samples, not occurrences, independently of the schedule", "statement": "With insert probability 1, feed increases the count of a string by the number of samples in which it occurs as a candidate (a character-aligned substring of a split part of at most max_token_length bytes accepted by the allow regex) or as an added/suggested token, whatever the chunking and interleaving; every counted string satisfies these limits for any probability.", "quantifier": "every sample list, regexes, schedule", "why_tests_cant": "all corpora and schedules", "anchors": ["src/generate.rs: VocabularyGenerator::feed"]}
{"id": "C34", "title": "The M-step keeps protected tokens and never invents tokens", "statement": "run_m_step keeps, in order, exactly the tokens with expected frequency >= 0.5 or the keep flag, with unchanged bytes and flags; its digamma recurrence terminates on all frequencies it is given.", "quantifier": "every vocabulary and every frequency vector", "why_tests_cant": "all float vectors", "anchors": ["src/prune.rs: run_m_step, digamma"]}
{"id": "C35", "title": "prune_vocab only removes, and never removes protected tokens", "statement": "prune_vocab returns tokens of the model unchanged, with every keep token among them, sorted by decreasing score; with target = max(vocab_size, floor(shrink_factor*size)), its size is the smaller of target and the number of all fixed tokens and candidates when the fixed tokens (those it may not remove) are at most target; otherwise no candidate at all is removed.", "quantifier": "every model, corpus, sort result", "why_tests_cant": "all models and corpora", "anchors": ["src/prune.rs: prune_vocab"]}
{"id": "C36", "title": "prune reaches the requested size or does not return", "statement": "When prune returns Ok the vocabulary has at most vocab_size tokens, every one of them a token of the input model with its keep flag, and all keep tokens are still there; when more than vocab_size tokens carry keep, prune never returns Ok.", "quantifier": "every model, corpus, random dropout, parameters", "why_tests_cant": "non-termination", "anchors": ["src/prune.rs: prune"]}
{"id": "C37", "title": "Lattices can be reused", "statement": "Lattice::from on a used lattice with any pool history gives the same lattice as on a fresh one: no node of an earlier sentence survives.", "quantifier": "every history of from/insert calls and pool contents", "why_tests_cant": "all histories", "anchors": ["src/lattice.rs: Lattice::from, VecPool"]}
{"id": "C38", "title": "The lattice holds exactly the token occurrences", "statement": "After populate_nodes without dropout the lattice has, besides begin and end, exactly one node for every position and every distinct non-empty token occurring there, linked at its start and end position; with dropout it has a subset that includes all one-byte occurrences.", "quantifier": "every vocabulary, sentence, random draws", "why_tests_cant": "all inputs", "anchors": ["src/model.rs: populate_nodes", "src/lattice.rs: insert, from"]}
{"id": "C39", "title": "viterbi finds the best path, provided every token start is reachable", "statement": "If every position where a lattice token starts is also a position where one ends (or 0), viterbi returns the nodes of a path through the whole sentence, followed by the end node, whose accumulated f64 score is the greatest of all paths; if some token starts at an unreachable position it returns an empty list although a path may exist.", "quantifier": "every lattice with finite scores", "why_tests_cant": "all lattices; the failure needs an unreachable token start", "anchors": ["src/lattice.rs: viterbi"]}
{"id": "C40", "title": "viterbi and encode agree", "statement": "On a vocabulary covering all bytes of a sentence, the best path found in the lattice and the ids returned by encode have the same accumulated score.", "quantifier": "every vocabulary and sentence", "why_tests_cant": "all inputs", "anchors": ["src/lattice.rs: viterbi", "src/model.rs: encode"]}
{"id": "C41", "title": "nbest returns distinct complete paths, best first", "statement": "nbest(n) for n >= 2 returns at most n pairwise different paths, each a complete segmentation; in exact arithmetic and below the agenda limit they are the n best ones in non-increasing order, and all paths if there are fewer; nbest(1) additionally contains the end node.", "quantifier": "every lattice whose token starts are reachable", "why_tests_cant": "exponentially many paths", "anchors": ["src/lattice.rs: nbest, Hypothesis"]}
{"id": "C42", "title": "Marginals are path probabilities", "statement": "In real arithmetic (up to the deliberate 50-nat cut-off of log_sum_exp, whose effect is bounded) populate_marginal returns the log of the total probability of all complete paths and adds to every token the sum over its nodes of the probability of the paths through them.", "quantifier": "every lattice in which every token begins at the start or where a token ends, and ends at the end or where a token begins", "why_tests_cant": "exponentially many paths, real-valued scores", "anchors": ["src/lattice.rs: populate_marginal, log_sum_exp"]}
{"id": "C43", "title": "Expected counts add up", "statement": "In real arithmetic the expected frequencies weighted with token lengths add up to the sentence length, and every node's marginal lies in (0,1].", "quantifier": "every lattice in which every token begins at the start or where a token ends, and ends at the end or where a token begins", "why_tests_cant": "real-valued scores", "anchors": ["src/lattice.rs: populate_marginal"]}
{"id": "C44", "title": "Unreachable tokens corrupt marginals", "statement": "If a token starts at a position no other token ends at, populate_marginal counts it as if the sentence began there (its forward score stays 0): the returned constant differs from the log probability of the sentence. Likewise a token ending where no token begins is counted although no segmentation uses it.", "quantifier": "existence over lattices", "why_tests_cant": "needs a comparison with the sum over all paths", "anchors": ["src/lattice.rs: populate_marginal"]}
{"id": "C45", "title": "Parallel frequency accumulation", "statement": "Integer accumulation over chunks (pair counts, token counts) equals the sequential count for every chunk size and merge order; f64 accumulation in run_e_step may depend on the order.", "quantifier": "every corpus, chunk size, merge order", "why_tests_cant": "all schedules", "anchors": ["src/prune.rs: run_e_step, prune_vocab", "src/merge.rs", "src/task.rs: par_chunk_size"]}
{"id": "C46", "title": "Chunks partition the samples", "statement": "par_chunk_size is at least 1 and cutting the samples by it yields non-empty chunks that concatenate to the samples; the number of chunks logged by Task::new is one too many exactly when the chunk size divides the sample count.", "quantifier": "every sample count, thread count and factor", "why_tests_cant": "all counts", "anchors": ["src/task.rs: par_chunk_size, Task::new"]}
{"id": "C47", "title": "Progress counters", "statement": "Under every interleaving of the workers' finish calls and the monitor's loads, the processed-samples counter never exceeds the number of samples and equals it when all chunks are finished, after which the monitor thread stops at its next check even if Task::finish is never called.", "quantifier": "every interleaving", "why_tests_cant": "all interleavings", "anchors": ["src/task.rs: Task, LocalTask"]}
{"id": "C48", "title": "Training sources are read as NUL-separated samples", "statement": "A source name:path[:proportion] yields the non-empty NUL-separated pieces of the file, the first floor(count*proportion) of them (the product rounded to f64 first, at most all, at least none), processed in processor order, non-empty results only; malformed descriptions and invalid UTF-8 stop the program.", "quantifier": "every source string, file content and processors", "why_tests_cant": "all files", "anchors": ["src/cli.rs: load_sources, load_processors"]}
{"id": "C49", "title": "Vocabulary commands keep processors and special tokens", "statement": "prune, filter and merge write a tokenizer with exactly the processors and special tokens of the input tokenizer.", "quantifier": "every input tokenizer and parameters", "why_tests_cant": "all tokenizers", "anchors": ["src/cli.rs: prune_cmd, filter_cmd, merge_cmd", "src/tokenizer.rs: into_inner, new"]}
{"id": "C50", "title": "The allow regex accepts exactly the full matches of its patterns", "statement": "A regex assembled by the regex command accepts a string exactly when some listed pattern matches the whole string; the empty pattern list accepts everything; writing it to a file and loading it with --allow gives the same pattern text unless a pattern contains a raw line break.", "quantifier": "every list of patterns, every string", "why_tests_cant": "all patterns and strings", "anchors": ["src/regex.rs: build_allow_regex, build_mine_regex", "src/cli.rs: load_regex, regex_cmd"]}
{"id": "C51", "title": "Every vocabulary the command pipeline produces encodes all text", "statement": "Any tokenizer loaded from a file written by generate, and then by any sequence of prune, filter without force and merge, still has a protected token for every byte that can occur in UTF-8, so encoding any text succeeds; generate's file can be loaded exactly when no special token needs a JSON escape.", "quantifier": "every sequence of commands, corpora, parameters, schedules, texts", "why_tests_cant": "sequences of commands, schedules and texts are unbounded", "anchors": ["src/cli.rs: generate_cmd, prune_cmd, filter_cmd, merge_cmd", "src/tokenizer.rs: save, from_file"]}
{"id": "C52", "title": "Dropout removes each multi-byte occurrence by its own random number", "statement": "With dropout > 0 the occurrences of tokens of two or more bytes at the positions that can be reached get the random numbers one after the other, in reading order (start, then length), one number each; an occurrence is dropped exactly when its number is not greater than the dropout; the result is a best cut (f64 scores) among those made of single bytes and kept occurrences, and NoPath exactly when there is none.", "quantifier": "every vocabulary, every input, every dropout > 0 or NaN, every random source, every competing cut", "why_tests_cant": "random sources are unbounded, and which occurrence gets which number depends on the earlier numbers", "anchors": ["src/model.rs: Model::encode"]}
{"id": "C53", "title": "The E-step computes expected token counts", "statement": "In exact arithmetic and without dropout, if every byte of the samples is a token, the frequency the E-step gives to a token is, up to the relative error of the cut-off in log_sum_exp, the sum over the 81920-byte pieces of all samples of the number of times the token is used on average over all ways to cut the piece, each cut weighted by exp of the sum of its token scores; this holds for every number of threads and every order in which the chunks finish; the only panic is the assertion on the normaliser.", "quantifier": "every vocabulary, every list of samples, every number of threads, every schedule, every random source", "why_tests_cant": "the number of cuts is exponential in the length of a sample and the schedules are unbounded", "anchors": ["src/prune.rs: run_e_step", "src/lattice.rs: populate_marginal"]}
{"id": "C54", "title": "digamma computes the digamma function", "statement": "For every finite number from 1/2 to 2^1000, digamma ends after at most 7 turns of its loop and returns a finite number within 6e-11 of the digamma function, the limit of ln(n+1) - sum of 1/(x+k) for k up to n, given a logarithm with a relative error of at most 2^-52.", "quantifier": "every binary64 number from 1/2 to 2^1000, every logarithm that accurate", "why_tests_cant": "there are some 2^62 such numbers, and a test compares with another approximation rather than with the limit; the program's own test prints the numbers only", "anchors": ["src/prune.rs: digamma"]}
{"id": "C55", "title": "The scores of the M-step are differences of digamma values", "statement": "For finite frequencies of at most 2^900 and at most 2^32 tokens the M-step does not panic; exactly the tokens that are protected or have a frequency of at least 1/2 go on, in order, and the score of each is psi(f) - psi(F) up to 2e-10 plus 1e-14 per token, where f is the frequency, raised to 1/2 if it is less, and F is the exact sum of these.", "quantifier": "every vocabulary, every list of frequencies within these bounds, every logarithm with a relative error of at most 2^-52", "why_tests_cant": "rounding errors of a sum of up to 2^32 numbers; a test would use the same arithmetic", "anchors": ["src/prune.rs: run_m_step, digamma"]}
{"id": "C56", "title": "The loss of a token, and how it differs from the one the comment describes", "statement": "For counts with a sum of at most 2^53, the loss computed for a token used n times in N samples is n/N (ln(n/T) - sum over its alternatives of ln((c+n)/(T + n(V-1)))), T the sum of the counts, c the count of the alternative, V the size of the vocabulary (not the number of alternatives of the token), up to n/N 2000 (k+1)^2 2^-53 for k alternatives; so the order in which candidates are kept is the order of these numbers up to such errors. With the number of alternatives in place of V, as the comment says, the order may be the opposite (witness).", "quantifier": "all counts, all tokens and alternatives within these bounds, every logarithm with a relative error of at most 2^-52", "why_tests_cant": "bounds on rounding errors for all counts", "anchors": ["src/prune.rs: prune_vocab"]}
{"id": "C57", "title": "Which strings a sample counts for", "statement": "During generation every stretch of a part of the sample (the whole sample without a split expression) that is at most max_token_length bytes long and allowed has one draw for each time it occurs, from left to right and short ones first; then each added and suggested token has one draw for each of its non-overlapping occurrences from the left, up to and including the first that wins; a draw wins if its number is less than insert_probability; feed adds, for each sample, exactly 1 to the count of each string that wins a draw and nothing to the others.", "quantifier": "every generator, every insert_probability including 0, 1 and NaN, all samples, every random source, every number of threads and schedule", "why_tests_cant": "random sources, schedules and samples are unbounded; a test sees one random stream it cannot control", "anchors": ["src/generate.rs: feed"]}
{"id": "C58", "title": "What the commands read and write", "statement": "The text of a regular expression in a file is the file without its line breaks and without the white space (Unicode White_Space) around it; a file of tokens is a JSON array of strings, escapes allowed, and the tokens of several files follow each other in the order of the files; a pattern is one of the built-in ones if it has its name and else the expression itself, in the order of the arguments; everything that can not be read or written stops the command by a panic, no command returns an error; merge without training data and mine without training data or patterns stop at once; mine writes a file of tokens that load_tokens reads, with the most frequent idioms, the most frequent first, at most num_idioms of them.", "quantifier": "all files, all arguments, all samples, all schedules and orders of samples, every expression engine", "why_tests_cant": "the space of files and arguments is unbounded; the program has no tests of its commands", "anchors": ["src/cli.rs: load_regex, load_fancy_regex, load_patterns, load_tokens, generate_cmd, prune_cmd, filter_cmd, regex_cmd, merge_cmd, mine_cmd"]}
{"id": "C59", "title": "What mining finds in a text", "statement": "find_iter, with which the mine command cuts the idioms out of the samples, finds at the leftmost place where the expression matches the match that a backtracking search tries first (left alternatives before right ones, more turns of a greedy loop before less, a loop left after an empty turn), goes on at its end, and skips an empty match at the end of the one before; what is found never overlaps, and every match begins inside or at the end of something found. A repeated class finds exactly the maximal runs of its characters. In the joined expression of mine, the first of the patterns (in the order given) that matches at a place wins, with the match it would choose alone. So mine writes the num_idioms strings most often found that way.", "quantifier": "all expressions (parsed from any text), all texts, all lists of patterns, all files and samples, all tables of Unicode, all schedules and orders of the hash map", "why_tests_cant": "expressions and texts are unbounded; the greedy order only shows on inputs where several matches compete", "anchors": ["src/mine.rs: mine", "src/cli.rs: mine_cmd", "src/regex.rs: PATTERNS"]}
{"id": "C60", "title": "What the built-in patterns accept", "statement": "Each of the 37 patterns of the program is a valid expression and accepts exactly the strings that its name promises, given as sequences of kinds of characters with how many of them: e.g. space-english-word is an optional space, letters, an apostrophe and one or two letters; punct is the visible ASCII characters that are no letters and no digits; space-operator-space is one of 41 operators with an optional space before and after. An allow expression built from some of them accepts exactly the strings of one of them.", "quantifier": "all strings of Unicode characters, all lists of built-in patterns, all tables of Unicode", "why_tests_cant": "the strings are unbounded; the tests of the program check a few examples and counterexamples per pattern, with an assertion that does not hold", "anchors": ["src/regex.rs: PATTERNS, OPERATORS, build_allow_regex"]}
{"id": "C61", "title": "nbest takes up its hypotheses best first", "statement": "Whatever hypotheses nbest puts into its queue and takes out, and in whatever order: nothing is lost, doubled or invented, it never fails, and as long as no score put in is NaN every hypothesis taken is one of the highest score in the queue. With a NaN this is false, and the disorder may outlast the NaN.", "quantifier": "all sequences of pushes and pops, all scores", "why_tests_cant": "the sequences are unbounded; the order of the pushes depends on the text and the vocabulary", "anchors": ["src/lattice.rs: Lattice::nbest, Agenda, Ord for Hypothesis"]}
{"id": "C62", "title": "The Python class answers what its stub promises", "statement": "A call of the Python class raises TypeError, OverflowError or UnicodeEncodeError if and only if its arguments are not of the types in the stub, and then changes nothing; any other call returns a value of the promised type or raises a TokenGeeXError whose text says where there is no path or which id is out of bounds (__setstate__: Exception); nothing panics or hangs as long as no special token is empty. A sequence of calls changes the tokenizer only by the special tokens it adds. The methods that only ask answer the table of the ids: the tokens of the vocabulary by position, then the special tokens; the last of equal tokens is found. Without processors the ids that encode returned decode to the text at any later time, and the tokens of the ids make up the text.", "quantifier": "all values of the modelled Python types as arguments, all sequences of calls, tokenizers, schedules, random numbers", "why_tests_cant": "the values and the sequences of calls are unbounded; the program has no tests of the bindings", "anchors": ["bindings/python/src/lib.rs: PyTokenizer", "bindings/python/tokengeex.pyi", "src/lib.rs: Display for Error"]}
{"id": "C63", "title": "What the Python class saves can be loaded", "statement": "save returns None whatever happens, so a failure shows only when the file is read; a file that was written, the text of to_string and the state of __getstate__ give back the tokenizer (with the scores as read back) if no special token needs an escape and all scores are finite, and otherwise the state is refused and the other tokenizer unchanged. from_file and from_str return a tokenizer or raise TokenGeeXError. Unpickling fails for every tokenizer, since the class has no constructor.", "quantifier": "all tokenizers, file systems, paths, outcomes of writing", "why_tests_cant": "a disk that is full and a state that is refused are rare; no test of the program pickles", "anchors": ["bindings/python/src/lib.rs: save, __getstate__, __setstate__, from_file, from_str"]}
{"id": "C64", "title": "What the command line is read as", "statement": "The arguments call a command if and only if they are its name followed by options of the manual under one of their names, each with a value that can be read as its type (text, a natural number below 2^64, a number, true or false), where the options that must be given once are, and those that may be given once are given at most once; then the command gets exactly these values. The order of the options does not matter, only that of the values of one option. The help is printed if and only if -h or --help stands where an option could stand and nothing before it is wrong. Anything else is refused.", "quantifier": "all lists of arguments (strings of any bytes)", "why_tests_cant": "the lines are unbounded; the program has no test of its command line", "anchors": ["src/cli.rs: flags, main"]}
{"id": "C65", "title": "What a command line does", "statement": "Leaving out an option is the same as giving it its default (0.1, 24, 0.01, 0.8, 1, 0, false, 1000, 50, 0.9, 24). What filter, prune, merge, generate, mine and regex write goes to the path after -o and is made from the files after -i, --train, --allow, --split, --added, --suggested, with the values of the other options: filter removes only tokens that are unprotected or with --force true, and none with a score above --min-score, and keeps --vocab-size tokens; prune leaves at most --vocab-size; merge adds at most --num-merges tokens of at most --max-token-length bytes that --allow permits; every token that generate writes is a single byte, in an --added or --suggested file, or a piece of a sample of at most --max-token-length bytes that --allow permits; mine writes the --num-idioms strings found most often; regex writes the expression of its --pattern in order, or lists the patterns. encode and decode always panic. The command in the README for data/exact.regex makes that file.", "quantifier": "all argument lists, all file systems, all sorts, schedules, random numbers", "why_tests_cant": "files and lines are unbounded; the program has no test of its commands", "anchors": ["src/cli.rs: main, generate_cmd, prune_cmd, filter_cmd, merge_cmd, regex_cmd, mine_cmd", "README.md", "data/exact.regex"]}
{"id": "C66", "title": "What the text of an expression means", "statement": "An expression for --allow or --split, or a pattern of mine, written by the grammar of the regex crate's documentation (characters, escapes, classes with ranges, named and Unicode classes and the set operations, places, groups, repetitions greedy or lazy, alternatives, and the flags i, m, s, U, R switched on and off for the rest of a group), is accepted, matches exactly the texts and finds exactly the stretches that the documentation says. It is refused exactly if two of its groups have the same name; so is a text that closes no group, leaves one open, repeats nothing, escapes a letter or a character beyond ASCII that cannot be escaped, or gives a code that is not a number in hexadecimal of the right length or not the code of a character.", "quantifier": "all texts of the grammar, all texts searched, all tables of Unicode", "why_tests_cant": "the texts of expressions are unbounded and nested; the program has tests only for its built-in patterns", "anchors": ["src/cli.rs: load_regex, mine_cmd, load_patterns", "src/regex.rs: build_allow_regex"]}
{"id": "C67", "title": "The scores of a file", "statement": "Every finite score is written as a number of JSON that says the shortest decimal for it, the closest of these, with its sign; and every number of JSON that is not too large is read as a finite number with its sign, less than 2^-50 of it away, which is the nearest one if the decimal has at most 53 bits and 22 as its exponent. So every tokenizer with finite scores is loaded again, with the scores that saving and loading make of them: they have the same signs, and if they are between 2^-17 and 2^47 in size they are off by at most one unit in the last place, two of them never change places, and a second save and load changes nothing. They are not the same, and a text may be encoded differently.", "quantifier": "all finite scores, all texts of numbers of less than 2^30 bytes, all tokenizers", "why_tests_cant": "there are 2^64 numbers; whether one of them survives depends on its decimal digits, and the error is in the last bit", "anchors": ["src/lib.rs: Serialize for ScoredToken, Deserialize for ScoredToken", "src/tokenizer.rs: save, from_file, from_str, to_string", "Cargo.toml: serde_json"]}
{"id": "C68", "title": "Rounding does not spoil the E-step", "statement": "In binary64, with an exponential and a logarithm whose relative error is at most 2^-52, the E-step computes for every token the number of times it is expected in the samples, each way to cut a piece being as probable as the product of its tokens, up to a relative error below (2n+8)(Ls+2n+70)/2^53 + w/2^52 and a difference below w/2^1072: L is the length of a piece, n the length times the longest token, s the largest score in size, w the number of bytes and samples. The order in which the threads finish does not matter for this. The only panic is that of a piece all of whose cuts together have weight 1 up to this error.", "quantifier": "all vocabularies with single bytes for the samples, samples, exponentials and logarithms of this accuracy, numbers of threads, schedules; as long as the error is at most 1 and w at most 2^52; no dropout", "why_tests_cant": "rounding errors add up over all bytes of all samples and depend on the order of the threads; the number of cuts is exponential in the length of a text", "anchors": ["src/lattice.rs: populate_marginal", "src/lattice.rs: log_sum_exp", "src/prune.rs: run_e_step"]}
{"id": "C69", "title": "Rounding hardly spoils the choice of the cut", "statement": "Scores are added in binary64, so the cut that is best in the sense of the program need not have the greatest exact score: of the text abbb a cut into four tokens can be returned although one token is better (refuted by a witness). But no cut of a text of L bytes is better than the one returned by more than (L+1)^2 S / 2^51, where S bounds the size of the scores, and a cut that is better than all others by more than this is returned. The same holds for the path of the Viterbi search in a lattice, whose score is off by half of this at most. The search for the n best paths returns different paths that are in order, and as good as any that was left out, up to (L+2)^2 S / 2^51, as long as the lattice has at most 50000 ends of paths, so that the agenda is never cut.", "quantifier": "all vocabularies, texts and lattices with finite scores of at most 2^900 in size and texts of less than 2^52 bytes; no dropout", "why_tests_cant": "the number of cuts is exponential in the length of a text, and a difference in the last bit shows only in some of them", "anchors": ["src/model.rs: encode", "src/lattice.rs: Lattice::viterbi", "src/lattice.rs: Lattice::nbest"]}
{"id": "C70", "title": "Numbers on the command line mean what they say", "statement": "The options --insert-probability, --dropout, --shrink-factor, --min-score and --scale-factor and the proportion of a source take exactly the texts that are an optional sign followed by a decimal (a digit before or after the point, an optional power of ten) or by one of the words inf, infinity and nan in letters of any case. A decimal of at most 64000 characters becomes the nearest binary64 number with its sign, or infinite if that would be 2^1024 or more: no number is closer, the order of decimals is kept, and texts that say the same number do the same. A word becomes the infinity or the NaN it says. The text that is printed for a score is read as this score, whereas the same text in a tokenizer file may become another number; and decimals of more than 65536 characters may be misread (both refuted by a witness). To give an option its default, or a source the proportion one in any notation, is to leave it out.", "quantifier": "all byte strings as values, all scores, all sources", "why_tests_cant": "there are infinitely many texts; wrong rounding shows only on decimals that are very close to the middle of two numbers", "anchors": ["src/cli.rs: load_sources", "src/cli.rs: flags", "src/cli.rs: main"]}
{"id": "C71", "title": "Training in binary64 is EM", "statement": "Without dropout and with platform functions exp and ln that are accurate, one turn of EM (E-step, then M-step) does what exact arithmetic would do up to an error delta: the tokens expected at least 1/2 + delta times in the pieces of the samples, and the protected ones, go on; those expected less than 1/2 - delta times do not; the rest of a token does not change; its new score is psi(f) - psi(sum of f) up to 12 delta + 2e-10 + 1e-14 per token, f being its expected number of uses over all cuts, at least 1/2. delta is twice the rounding error of the E-step. The only panic is the one of a piece the total weight of whose cuts is 1 up to rounding. If the single bytes of the samples are protected tokens the same holds, with the same delta, for any number of turns and for all turns of a whole training with prunings between them. Two runs on the same data, with any numbers of threads, keep the same tokens and give scores that differ by at most twice the error, unless a token is expected half a time up to delta.", "quantifier": "all vocabularies, samples, thread counts, schedules, numbers of turns, platform functions of the given accuracy", "why_tests_cant": "the rounding errors of millions of additions and the selection at 1/2 interact; no test has an exact result to compare with", "anchors": ["src/prune.rs: run_e_step", "src/prune.rs: run_m_step", "src/prune.rs: prune"]}
{"id": "C72", "title": "What datagen writes is what training reads", "statement": "The samples that pass the filters of datagen.py are written to two files, each followed by NUL. The fewest first samples that reach the quota of the test file are in it, the fewest that reach both quotas together, without these, in the training file; the program reads exactly these samples from the files, in order, provided that they are valid non-empty texts without NUL. False: each file gets its quota when there are samples enough (what the test file gets too much is missing from the other); a sample with NUL, or an empty one, is read back. The function for Chinese Markdown fails at its first sample with KeyError, because of a missing comma.", "quantifier": "all lists of samples and quotas", "why_tests_cant": "a script that downloads its data is not tested at all; the loop of the program and the one of the script must agree for all texts", "anchors": ["scripts/datagen.py: generate_the_stack", "scripts/datagen.py: generate_chinese_markdown", "scripts/datagen.py: generate_infilling", "src/cli.rs: load_sources"]}
{"id": "C73", "title": "What an evaluation reports", "statement": "The samples that evaluate.py counts are the parts of the text between NULs, after CR LF and CR have been turned into LF: for a file of datagen.py without CR its samples and an empty one; false for files with CR. For every file it reports the tokens and the characters (not bytes) of these samples. The fifty numbers of its report are the uses of the ids, from the most to the least frequent, in groups of vocab_size/50; the vocab_size mod 50 rarest ids are in none of them, so their sum is less than the number of tokens (false that they add up), and with less than fifty ids all are 0. There is no report exactly if a file has no tokens or an id is out of range. find.py counts, over the parts between NULs of all files, the occurrences (the most that do not overlap), the parts with one, and the parts, and fails exactly if a part is not UTF-8 or there is no file; the percentage of its last line is of occurrences, not of samples, and can exceed 100.", "quantifier": "all files, vocabularies, encoders and ways of sorting", "why_tests_cant": "the numbers go into a plot, where a missing remainder is not visible", "anchors": ["scripts/evaluate.py", "scripts/find.py: count_occurrences"]}
{"id": "C74", "title": "convert.py ignores the frequencies it counts", "statement": "convert.py counts how often the tokens of a vocabulary of tiktoken occur, sorts them by frequency, and is meant to keep the v most frequent. But the dictionary it adds these to already contains all of them, so what it writes are the single bytes, with their own numbers as ranks, and the other tokens whose rank was below v, for all frequencies: false that a frequent token is kept, the most frequent one may be dropped and the rarest one kept. In general it fails exactly if one of the v most frequent ids stands for no token, and a token without a rank (a special token) is added with 256 plus its first position among the ids, if that is below v: false that the ranks then differ.", "quantifier": "all vocabularies without doubles, frequencies and sizes v; for the first part as long as the v most frequent ids are ids of ordinary tokens", "why_tests_cant": "the output looks right; only a comparison over different texts shows that it is always the same", "anchors": ["scripts/convert.py"]}
{"id": "C75", "title": "A turn of EM does not lose what it is meant to gain", "statement": "EM with the digamma function is variational Bayes: its objective for the counts f is the log-likelihood of the pieces of the samples under the scores psi(f_i) - psi(sum f), minus the distance of the Dirichlet distribution with parameters f from its prior (sum of f_i times score, minus the log of the beta function of f). In exact arithmetic, as long as every token is expected half a time, the objective never falls, for any number of turns. The program's turns in binary64, if they drop no token, lose at most twice the error of the scores per byte of the samples, plus, for a token expected less than half a time, what it lacks of it times the change of its score. Gauss' limit for the logarithm of the gamma function exists. That a turn does not lower the likelihood itself is false: with the tokens a and b, the text ab and the counts 2 and 2 it falls.", "quantifier": "all vocabularies, samples, counts of at least 1/2, scores near those of the counts, numbers of turns, thread counts, schedules, platform functions of the given accuracy", "why_tests_cant": "the objective is never computed by the program; that it does not fall rests on the convexity of the logarithm of the beta function, which no number of runs shows", "anchors": ["src/prune.rs: run_e_step", "src/prune.rs: run_m_step", "src/prune.rs: prune", "src/prune.rs: digamma"]}
{"id": "C76", "title": "Which samples of The Stack are kept", "statement": "generate_the_stack of datagen.py keeps a sample exactly if its size is from 16 to 262144, it has at most 256 line ends in the languages json, yaml, toml, sql, r and hcl, its average line length is from 10 to 100, its longest line is at most 1000, its alphanumeric fraction is at least 1/4, at most three tenths of its characters are digits, none of the expressions matches more than 256 characters at once or more than half of the text, and at most a fifth of the characters are neither ASCII nor Chinese; the comparisons in binary64 are those of the exact fractions. Of the kept samples the fewest that fill the quotas are written, first to the test file. The counts it reports add up to the dropped samples plus the samples of more than 4096 lines in other languages; these are counted as dropped but are not. Every single count is that of the samples of which it is the first fault, in the order of the tests, that of the lines plus the long samples. A NaN as average line length is never dropped for it; an empty text that gets as far as the expressions ends the program.", "quantifier": "all sequences of samples, languages, quotas, predicates for digits, functions of the expressions whose matches are not longer than the text together; texts of at most 2^49 characters", "why_tests_cant": "the borders of the comparisons depend on roundings (0.3 is not three tenths); which samples exist is up to a data set of terabytes", "anchors": ["scripts/datagen.py: generate_the_stack", "scripts/datagen.py: has_many_non_chinese_non_ascii"]}
{"id": "C77", "title": "What infilling texts are made of", "statement": "generate_infilling of datagen.py takes the first fifth of the NUL-separated parts of every training file. Each of the texts it writes is made of four of these, which no other text uses: a part of less than 289 characters adds nothing, any other ten of its pieces, in any order, with DEL between. A piece is a tenth of the part, but from 32 to 128 characters. The texts are the fewest that fill the quotas, the test file first, so that the test file too is made of training samples; four further samples are used up. The program reads the files as exactly the texts that are not empty. The run ends; it fails if there are less than four samples, even for quotas of zero, or less than four for every 20517 bytes of the quotas and four more; it succeeds if there are four for every byte and four more. If no sample has 289 characters, the files have nothing but NUL bytes and are read as no samples.", "quantifier": "all training files, quotas, random sequences", "why_tests_cant": "which samples are drawn is random; whether the pool is enough depends on sizes no test has", "anchors": ["scripts/datagen.py: generate_infilling", "src/cli.rs: load_sources"]}
{"id": "C78", "title": "Keyword arguments of the Python class", "statement": "A call with positional and keyword arguments is the call with all arguments by position if the keywords name, in any order, each once, just the parameters that the positional arguments leave; any other call raises TypeError and changes nothing. The parameters that the stub tokengeex.pyi gives are those of the program, so that every argument of its methods may be given by that name, except for save and from_str: their only parameter is called filename and json in the program but filepath and s in the stub, and a call by the name of the stub raises TypeError.", "quantifier": "all calls of all methods, with any positional and keyword arguments, in all states", "why_tests_cant": "type checkers accept the calls of the stub; no test calls save or from_str by keyword", "anchors": ["bindings/python/src/lib.rs: PyTokenizer", "bindings/python/tokengeex.pyi"]}
{"id": "C79", "title": "What the expressions of datagen.py find", "statement": "The first of the three expressions by which datagen.py drops samples finds the maximal stretches of at least 64 letters, digits, '+', '/', '=' and line ends; the third one the maximal stretches of at least eight escapes \\uXXXX. So a kept sample has no stretch of more than 256 base64 characters and none of more than 42 escapes. The second one finds, from left to right, the longest lists of at least eight bytes XX, 0xXX or \\xXX, each beginning where a word begins or ends, and followed by a comma or, where a word begins or ends, by any white space. A list 0xXX,0xXX, of eight or more is found as a whole; that the expression finds lists as they are usually written is false: in 0xXX, 0xXX, with a space after the comma it finds nothing, however long the list. No run fails for these expressions, as their matches do not overlap.", "quantifier": "all texts, all tables of word characters and white space (commas, backslashes and hexadecimal digits not being white space)", "why_tests_cant": "which of the ways to match is found depends on the order of backtracking; the texts have up to 262144 characters", "anchors": ["scripts/datagen.py: generate_the_stack"]}
{"id": "C80", "title": "Special tokens around a text; the example of the Python class", "statement": "If the only special tokens in a sentence are one at its beginning and one at its end, encode gives the id of the first, what encode_ordinary gives for the text between them, and the id of the last; decode gives the sentence back, or only the text, processed, if special tokens are left out. So bindings/python/example.py runs through all of its assertions with any tokenizer file that has Hello and every byte of its sentences as tokens, whatever the processors, dropout draws and schedules, if no special token of the file occurs in its sentences; if the file has one of the four special tokens that the script adds already, the script fails at line 49, as the vocabulary does not grow by four; without a file it ends in line 3, and without a way to spell Hello, world! in line 8. The call of encode_batch in benchmark.py raises TypeError.", "quantifier": "all vocabularies, special tokens, processors, texts, dropouts, random draws, schedules; normalizations that leave ASCII as it is", "why_tests_cant": "the script is run with one file only, without special tokens; whether a text between special tokens is cut as it is by itself depends on all special tokens", "anchors": ["bindings/python/example.py", "src/tokenizer.rs: encode", "src/tokenizer.rs: decode", "bindings/python/src/lib.rs: PyTokenizer", "scripts/benchmark.py"]}
