{
 "C01": {
  "note": "PropModel.v, PropTokenizer.v. Ids fit in 32 bits (fits)."
 },
 "C10": {
  "note": "Termination is stated with fuel above the input length; divergence for every fuel."
 },
 "C50": {
  "note": "PropRegex.v. Patterns whose comments (flag x) end, and without a common group name; otherwise the claim is false, see C50_comment_refuted, C50_comment_panics_refuted, C50_name_panics. With a raw line break in a pattern: C50_break_refuted. One assertion of the program's own test fails: C50_repo_example_refuted."
 },
 "C59": {
  "note": "PropFind.v. The regex crate is not in the repository: Find.v models its documented behaviour (leftmost-first); patterns as in C50."
 },
 "C60": {
  "note": "PropPatterns.v; shapes in SpecPatterns.v. The classes do not depend on the tables of Unicode."
 },
 "C62": {
  "note": "PropPy.v; stub in SpecPy.v. pyo3 is not in the repository: Py.v models its documented conversions for the built-in types. An empty special token makes encode hang: C10."
 },
 "C63": {
  "note": "PropPy.v. Unpickling is false for every tokenizer (C63_pickle_refuted); a failed save is not reported (C63_save_reports_failure_refuted)."
 },
 "C26": {
  "note": "PropFilter.v. The manual's 'lower than' is false at the minimum itself: C26_lower_refuted."
 },
 "C64": {
  "note": "PropArgs.v; the manual in SpecArgs.v. xflags is not in the repository: Args.v models the parser it generates; a bare -- is an unknown option."
 },
 "C65": {
  "note": "PropMain.v. prune and merge may also hang: C36, C28."
 },
 "C66": {
  "note": "PropSyntax.v; the grammar in SpecSyntax.v. The regex crate is not in the repository: Regex.v models its documented syntax, without the limits on nesting and size. The grammar leaves out the flags x and u, blanks in braces, and unescaped dashes, & and ~ inside of classes."
 },
 "C67": {
  "note": "PropNum.v; decimals and rounding in SpecNum.v. serde_json and ryu are not in the repository: JsonNum.v models version 1.0.113 and ryu's specification. That scores stay the same is false: C67_same_refuted, C67_encode_refuted; below 2^-17 also C67_once_small_refuted, C67_order_small_refuted."
 },
 "C19": {
  "note": "PropSerde.v. For any printer and reader of numbers that fit together; those of serde_json do, but not exactly: C67."
 },
 "C68": {
  "note": "PropRound.v; accuracy of exp and the bound in SpecExp.v. A vocabulary of tokens of at most 32 bytes with scores above -25 has an error below 0.005 for w = 0. That a piece of weight 1 panics: C68_panics."
 },
 "C69": {
  "note": "PropBest.v; the slack in SpecBest.v. Without slack the claim is false: C69_exact_refuted."
 },
 "C70": {
  "note": "PropFloatText.v; the notation in SpecFloatText.v. f64::from_str is modelled in RustFloat.v from the documentation and code of Rust's standard library, which is not part of /repo."
 },
 "C71": {
  "note": "PropEm.v; the notion of a turn in SpecEm.v. The accuracy of exp and ln is a hypothesis; the error grows with the square of the piece length 81920, which makes delta about 0.0007 for short tokens and 0.04 for tokens of 64 bytes."
 },
 "C72": {
  "note": "The filters of datagen.py, and how generate_infilling makes its samples, are not modelled: the theorems hold for all lists of samples. A Python str is its UTF-8 bytes."
 },
 "C73": {
  "note": "For any encoder. The rounding of chars_per_token, the printing, and json.dump are not modelled."
 },
 "C74": {
  "note": "Ids of special tokens among the v most frequent are excluded by hypothesis."
 },
 "C75": {
  "note": "PropBound.v; the objective in SpecBound.v. It is a function of counts; that the program's scores are those of its counts up to the error e is part of the theorems. Turns that drop tokens are not covered: the objective then has fewer terms. C75_likelihood_refuted refutes the stronger reading that the likelihood itself does not fall."
 }
}