(** src/regex.rs: the texts of the regular expressions.  What they match is in Regex.v. *)
From Coq.Strings Require Import String.
From Verif Require Import Base SpecJson Json.
Set Implicit Arguments.
Local Open Scope string_scope.
Local Open Scope list_scope.

(** [regex::escape]: a backslash before every character that means something ([regex_syntax::is_meta_character]). *)
Definition is_meta (b : byte) : bool := existsb (Byte.eqb b) (B "\.+*?()|[]{}^$#&-~").
Definition regex_escape (s : bytes) : bytes := flat_map (fun b => if is_meta b then [x5c; b] else [b]) s.

(** src/regex.rs:84-88 [OPERATORS]. *)
Definition operators : list bytes := map B
  ["+"; "-"; "*"; "/"; "%"; "&"; "|"; "^"; "!"; "~"; "&&"; "||"; "=="; "!="; "!=="; "<"; ">";
   "<="; ">="; "<<"; ">>"; ">>>"; "++"; "--"; "+="; "-="; "*="; "/="; "%="; "&="; "|="; "^=";
   "=>"; "->"; "."; "..."; "?"; "="; ":="; "[]"; "()"].

(** [format!("(?:{})", r)]. *)
Definition grouped (r : bytes) : bytes := B "(?:" ++ r ++ B ")".

(** src/regex.rs:59-80 [space_anyof_space!]. *)
Definition space_anyof_space (arr : list bytes) : bytes :=
  B " ?(?:" ++ intercalate (B "|") (map (fun el => grouped (regex_escape el)) arr) ++ B ") ?".

(** src/regex.rs:3-48 and 178-411 [PATTERNS]: names and texts. *)
Definition patterns : list (bytes * bytes) := map (fun p => (B (fst p), B (snd p)))
  [("any-char", ".");
   ("lowercase-word", "[a-z]+");
   ("space-lowercase-word", " ?[a-z]+");
   ("uppercase-word", "[A-Z]+");
   ("space-uppercase-word", " ?[A-Z]+");
   ("capitalized-word", "[A-Z][a-z]+");
   ("space-capitalized-word", " ?[A-Z][a-z]+");
   ("word", "[A-Za-z]+");
   ("space-word", " ?[A-Za-z]+");
   ("space-english-word", " ?[A-Za-z]+'[a-zA-Z]{1,2}");
   ("space-french-word", " ?[A-Za-zÀ-ÿ]+");
   ("chinese-word", "[\u3400-\u4DBF\u4E00-\u9FFF]+");
   ("english-contraction", "'(?:re|ve|s|d|ll|t|m)");
   ("space-digit", " [0-9]");
   ("short-number", "[0-9]{1,3}");
   ("space-short-number", " [0-9]{1,3}");
   ("short-decimal-number", "[0-9]{1,3}\.[0-9]");
   ("space-short-decimal-number", " [0-9]{1,3}\.[0-9]");
   ("word-wrapped-in-brackets", "\[[A-Za-z]+\]");
   ("short-number-wrapped-in-brackets", "\[[0-9]{1,3}\]");
   ("word-wrapped-in-quotes", "['""][A-Za-z]+['""]");
   ("word-wrapped-in-angle-brackets", "<[A-Za-z]+>");
   ("punct-word", "[[:punct:]][A-Za-z]+");
   ("space-punct-word", " [[:punct:]][A-Za-z]+");
   ("word-punct", "[A-Za-z][[:punct:]]");
   ("dot-short-number", "\.[0-9]{1,3}");
   ("indent", "(?:[ ]+)|[\t]+");
   ("newline-indent", "(?:\n[ ]+)|(?:\n[\t]+)");
   ("whitespace", "\s+");
   ("space-punct-space", " ?[[:punct:]] ?");
   ("repeated-punct", "[[:punct:]]+");
   ("few-repeated-punct", "[[:punct:]]{1,4}");
   ("repeated-punct-space", "(?: |[[:punct:]])+");
   ("few-repeated-punct-space", "(?: |[[:punct:]]){1,4}");
   ("punct-newline", "[[:punct:]]+\n");
   ("repeated-punct-newline-indent", "[[:punct:]]+\n[ \t]+")]
  ++ [(B "space-operator-space", space_anyof_space operators)].

(** src/regex.rs:413-425 [build_allow_regex]: the text. *)
Definition allow_text (rs : list bytes) : bytes := intercalate (B "|") (map (fun r => B "^" ++ grouped r ++ B "$") rs).
(** src/regex.rs:427-439 [build_mine_regex]: the text. *)
Definition mine_text (rs : list bytes) : bytes := intercalate (B "|") (map grouped rs).
