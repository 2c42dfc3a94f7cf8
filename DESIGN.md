# Design: a Rocq model of actiondb

Target: the Rust crate at `/repo` (actiondb).  Model and proofs live in
`rocq/theories`, Coq 8.16.1, standard library only.  The properties are in
`properties.jsonl`, their status and theorems in `MANIFEST.json`, the wrong
programs the theorems were tried on in `seeded/LOG.jsonl`.

## Trusted base

* Coq's kernel (including its bytecode evaluator, used by `vm_compute`).
* Axioms: none.  `Print Assumptions` stands under every theorem of every
  `Properties_*.v` and prints "Closed under the global context" for each.  The
  checker's list of library axioms (`Coq.ssr.ssrunder.Under_rel.*`) comes from
  module types of the standard library that are loaded, not from anything the
  theorems use.
* The transcription of the Rust code into the model files below.  The code was
  read, not run.  `Tests.v` and `Tests_more.v` replay the repository's own tests
  on the model, as
  a check of the transcription.
* The statements: `Properties_*.v` together with the vocabulary of `Spec*.v`,
  `Rustpeg.v`.  Everything else is checked by the kernel and need not be read.

Hypotheses about things outside the model are visible in the statements:

| hypothesis | where | why |
|---|---|---|
| `utf8 s` | texts and literals | every Rust `&str` is valid UTF-8 |
| `sip` | tries | the hash function is a parameter; `Siphash.v` has the real one for examples and refutations |
| no collision among the parsers involved | C50 to C57, C61, C62, ... | the code identifies parsers by a 64-bit hash; C56_collision_unsound shows the code is wrong without it, C137 what it does then |
| `parse_uuid` | C47, C81 to C86 | the uuid crate's text parser is a parameter |
| `quoting debug` | C104_text_unique_partial | Rust's Debug format of strings shows where it ends; C104_quoting proves it for ASCII |
| `plain`, `zero`, `escaping plain` | C104_shown_* | which characters Rust's Debug format shows as they are depends on the version of the library; quotation mark and backslash never are |

## What is modelled

| model file | code |
|---|---|
| Base.v | Rust strings as byte lists, UTF-8, character boundaries, slices, panics |
| Utils.v | src/utils/*; std's binary search, stable sort, BTreeSet, BTreeMap |
| Parsers.v | src/parsers/*, src/matcher/trie/parser_factory.rs |
| Pattern.v | compiled_pattern.rs, result.rs, pattern.rs, testmessage/{message,error}.rs |
| Trie.v | src/matcher/trie/* (node/literal.rs, node/parser.rs, node/interface.rs, matcher.rs) |
| SuffixArray.v | src/matcher/suffix_array/* |
| Grammar.v | src/grammar/*: the generated pattern_parser.rs, function by function |
| Rustpeg.v | src/grammar/parser/pattern.rustpeg as data, with the meaning of parsing expressions |
| Source.v | pattern_source/*, pattern/file/{file,iter}.rs, pattern_loader.rs, factories, suites |
| Deser.v | pattern/deser.rs, pattern/file/deser.rs, testmessage/deser.rs over JSON-like values |
| Errors.v | Display, description and cause of the three error types |
| Pdb2adb.v | utils/pdb2adb (Perl): the conversion of patterns and of the rules into a document |
| Pdbread.v | utils/pdb2adb: the handlers that read the XML, and the whole script |
| Siphash.v | std's SipHasher, for concrete runs |

How:

* A Rust `&str`/`String` is the list of its UTF-8 bytes.  Slicing off a
  character boundary is a panic.
* Every call that can panic returns an `outcome`: `Ret`, `Panic` or `OutOfFuel`
  (recursion bound of the Gallina function; C25, C67_terminates and the other
  theorems rule it out).  `unwrap`, `unreachable!`, indexing and slicing are
  explicit.
* `&mut` references into a tree are modelled by continuations: the function that
  hands out the reference takes the update to perform through it.
* `BTreeSet<u8>`/`BTreeMap<String,String>` are sorted, duplicate-free lists;
  `HashSet<&str>` of expected terminals is a duplicate-free list, and statements
  about its printed form hold for every order.
* `Box<Parser>` ranges over the three parsers shipped (SET, INT, GREEDY).
* `usize` is unbounded except where it is parsed from text: there 2^64 is the
  bound, and exceeding it is the panic of C34/C67.

Simplifications, each also stated at its definition:

* serde_json and serde_yaml are not modelled: Deser.v starts at the values they
  produce (with duplicate keys and arbitrary order).  As in serde 0.7, null is
  an empty list or map.
* The uuid crate is modelled by its text form (`hyphenated`) and by a parameter
  for parsing.
* Opening and reading a file is an input of the model: the open error, or what
  was read together with the read error, which the code discards (C79).
* `str::lines` drops a carriage return at the end of each line, as used for the
  position of compile errors (C39, C71).
* `escape_default` is given for ASCII; all terminals of the grammar are ASCII.
  `{:?}` of strings is given for ASCII in `Errors.v` and for all characters in
  `Debug.v`, which shows every character by itself.
* utils/pdb2adb: the model starts at the tree XML::Twig builds of the document,
  whose handlers are called at the end of each element, and ends at the value
  handed to the JSON encoder, the one Deser.v reads.  A hash is a list in the
  order of its iteration; Pdbread.v takes the order of first use, Pdb2adb.v any.
  The option -a, which only exits, and fields that nothing uses are left out.  Created uuids are a sequence given
  as a parameter.  Warnings are left out.
* The pattern uuid of a test error is kept as a uuid and printed when shown,
  where the code stores the printed form.

Not modelled: memory and time, logging (`env_logger`, `log`), user-supplied
implementations of `Parser` or `Matcher` (theorems about loading hold for every
matcher given as a record of functions), `get_mut` (its effect is visible only
through the functions that use it), Clone/Debug derivations, and the text layers
named above.

## How the proofs are organised

Models contain no proofs.  `*_facts`, `*_refine`, `*_total`, `*_props`,
`*_cases`, `*_syntax` are lemmas; `*_claims` end in the statements used;
`Properties_*` only restate them with `exact`, print assumptions, and show
concrete instances (`Cnn_example`, `Cnn_hypotheses`).

* Utilities and parsers (C01 to C11, C49, C87 to C94): induction on the input;
  the specs are "longest prefix in the set", "first occurrence", sortedness and
  permutation, unique decodability of the hashed stream.
* Trie (C12 to C26, C50 to C57): `TrieSpec.v` is an abstract matcher, an ordered
  list of (first token, rest) entries; `Trie_refine.v` shows by an invariant of
  reachable tries that the real one simulates it, `Trie_total.v` that no
  `unwrap` fails for ASCII data.  C56_exact is the refinement as a theorem; the
  other statements follow from the abstract matcher.
* Panics of the trie (C120 to C124): `Spec_panics.v` says in terms of the
  abstract matcher's literals where two of them are compared; `Trie_panics.v`
  shows that exactly these comparisons fail.  The conditions do not depend on
  the order in which binary search or sort compare: whenever some comparison
  with the searched text would fail, all other nodes are empty or fail too, and
  a vector with a node that cannot be compared has at most two elements.
* Suffix table (C27 to C31, C58 to C66, C95): the same with `TableSpec.v`.
  Neighbours of the insertion point in a sorted vector maximise the common
  prefix.  Valid UTF-8 needs no ASCII restriction here (C29).
  C125 says exactly when the suffix table panics.
* Effort (C126, C127): `TrieCalls.v` and `TableCalls.v` are the matchers with the
  calls of parsers recorded; nodes are counted by weights that adding a pattern
  can only increase by the weights of its tokens.
* Order (C128, C129): `TrieSpec_order.v` describes the levels by lookup, where
  adding a literal changes one entry; a key that leads on keeps doing so.
* Content (C130, C131): `TrieSpec_content.v` follows the keys a literal is put
  behind when it is added; the entry keeps this place until something drops it.
* Grammar (C32 to C39, C67 to C73): `Peg.v` is the parser without positions,
  `Grammar_refine.v` relates each generated rule to it, `Spec_grammar.v` is an
  independent syntax with printing, `Grammar_syntax.v` relates the two.  C97
  relates the generated parser, including the failure positions it records, to
  the grammar file under the usual meaning of parsing expression grammars.  C98
  to C101 and C145 say what an error position and the expected set mean:
  `Viable_claims.v` continues the text before an error, `Complete_claims.v` runs
  the grammar on two texts that are equal up to the error and compares.
* Loading and files (C40 to C46, C48, C74 to C80), documents (C47, C81 to C86,
  C96, C148), error texts (C102 to C108, C147): induction over the source; case analysis.
* The converter (C109 to C119): the text it produces is the text of items in the
  sense of Spec_grammar.v, so that C32 says what it compiles to; its document is
  followed through Deser.v.
* Reading patterndb (C132 to C134): an invariant over the elements handled so
  far; for standard documents the handlers are run symbolically.
* Patterns that can match (C135, C136, C149, C150): from the sets of neighbouring
  tokens a message is built from right to left; beyond ASCII, the conditions of
  C121 are followed along the pattern.
* Text in front (C151, C152): no item of the pattern language reaches from the
  text into the pattern, so C32 gives the tokens; the walks of the matchers are
  compared step by step, and C134 gives the patterns of the converter.
* Programs in front (C153): C134 gives the two patterns with the same first
  literal, C131 says that the one added last takes the place of the other.
* Names (C154) and INT (C157): the specification of the matchers commutes with a
  one-to-one map on the parsers that keeps what they capture, and any map on the
  patterns. Both lists of patterns are images of
  a third one, whose patterns carry their place in the list as uuid.
* Labels (C158, C159): the functions of both matchers commute with a change of the
  patterns they hold that leaves the tokens alone (`tmap`, `smap` in
  Label_facts.v), without any condition; the loader then compares uuids only.
* Order of fields (C160): reading an object is a fold over its fields whose steps
  for different fields commute.
* Order of characters (C161): levels of the trie are compared up to the order of
  their literals; at most one literal of a level leads on, so the order is not used.
* Tokens and texts (C155, C156): C32 gives the items; a text is built from the
  tokens by escaping literals and writing the bounds in decimal. Escaping is the
  inverse of what the grammar does to text without the beginning of a parser.
* Order of characters in the table (C163): the functions of SuffixArray.v are run on
  related tables entry by entry; every comparison they make has the same result.
* Relaxed bounds (C164): a walk (C17, C60, C142) of the tokens is a walk of the
  relaxed ones, since a captured run does not depend on the bounds.
* Filled in patterns (C165): the condition on what follows a value makes the value
  the maximal run or the text before the first end string, so filling in is a walk.
* Continued messages (C166): values with something behind them stay the same when
  the message is continued, so the continuation can only belong to the last token
  (`Continued_claims.v`; `Continued_table_claims.v` for the suffix table, where what a
  literal shares with the message does not grow because a whole character differs).
* Depth of the recursion (C167): `Spec_depth.v`, `Depth_claims.v`,
  `Descent_claims.v`, `Properties_depth.v`. The fuel of `parse_fuel` counts nested
  calls of `parse`; `goes_down` counts the steps of `lookup_literal`.
* One pattern behind another (C168): `Spec_join.v`, `Join_claims.v`, `Properties_join.v`.
* Lengths of messages (C169): `Spec_length.v`, `Length_claims.v`, `Properties_length.v`.
* Reported values (C170): `Spec_values.v`, `Values_claims.v`, `Values_document.v`,
  `Properties_values.v`.
* Mixing (C171): `Spec_mix.v` says which lists of values are mixtures of two; the messages are those of `filled` in `Spec_fill.v`. Sets are ASCII here, so that every value is UTF-8 by itself.
* Early values (C172): `Spec_early.v` says when the beginning of a message settles the values of the first parsers, in terms of `captures` and of the beginning alone.
* Stuck beginnings (C173): `Spec_stuck.v` says when no message beginning with a text can be read by a token sequence.
* Argument lists (C162): C32 gives the items; a text with one closing brace, at its
  end, is one item, and the last closing parenthesis ends the arguments.
* Hash collisions (C137): the tokens after the first one are put into a new
  trie or table, so the hash is compared at the root only; the parsers there are
  the first ones with their hash.
* Later patterns (C138): the key the table chooses stays the nearest one when
  keys that share less are added or taken away; new parsers are tried last.
* Replaced patterns (C139): additions commute with the replaced pattern until it
  stands before the one that takes its place, where it is overwritten.
* One pattern (C17, C60, C54_apart_one) needs no ASCII sets: a capture that is not
  UTF-8 makes the parser panic, so by C121 and C125 the matcher would not answer
  (Single_claims.v).  In the same way C138_*_tests_stay_or_panic drop the ASCII
  hypotheses of C138_*_tests_stay.
* How loading ends (C140): induction over the source; that insertion ends by
  induction over the height of the trie.
* Shape (C141): a subtrie without values is the common prefix of the keys below
  it, so the keys of a level fix its nodes (Trie_canon.v).  C128, C129 and C139 use
  this for "the same trie", and C137 to do without hypotheses about hashes
  (Anyhash_claims.v).
* Separate patterns (C142): at most one first literal fits a text, so C54 decides
  the answer, and no parser comes first, so by C137 the hash does not matter.  A
  test message is checked against a prefix of the list, which is separate too.
  C142_loads assumes distinct uuids, because the check compares only these, and
  that loading does not panic; C142_document proves the latter for ASCII.
  C143 adds the table, by C61 and the language of one pattern (Separate_tests.v).
* Texts (C146): the table of well-formed sequences in `Base.v` against the
  encoding by arithmetic in `Spec_unicode.v`.
* Regular expressions (C144): `Spec_regex.v` has its own type of regular
  expressions with the usual inductive meaning, over bytes.  Every walk is a match.
  For `definite` patterns a match is turned into a walk: runs of SET and INT end
  where the next text begins, and for GREEDY the first occurrence of its end string
  serves as well as any other because GREEDY at the end takes more.

## Properties the code violates

A refuted property has status `partial` in the manifest, with a note that begins
with REFUTED, a theorem `Cnn_refuted` that exhibits the violation, and the
strongest true statements found.

| | violation | witness |
|---|---|---|
| C03 | SET panics when its last set byte ends inside a character | set "®" on "¡" |
| C04 | SET with max_len fails instead of stopping | `[abcd]{1,2}` on "abc" |
| C13 | the trie cuts literals inside characters and panics | pattern "a" on "¡"; adding "a®" after "a¡" |
| C18 | adding a pattern makes messages unmatched | `a%{INT:x} c` after `a%{INT:x} b` |
| C19 | adding a pattern drops patterns below a longer literal | `alma%{SET}` drops `almafa` |
| C20 | patterns with equal first literals interfere | `a%{INT:x}` then `a`, message "a1" |
| C26 | a longer pattern shadows a shorter one | `%{INT:x} foo` shadows `%{INT:x}` |
| C28 | the suffix table reports a pattern for a proper prefix of its literal | `app` on "ap" |
| C30, C57 | GREEDY without text to take does not match | `app%{GREEDY:x}` on "app" |
| C31 | the two matchers disagree, in both directions | `app` on "ap"; `a`, `%{INT:x}` on "7" |
| C34 | compiling panics on large numbers | min_len=18446744073709551616 |
| C36 | names with hyphens are rejected | `%{INT:ab-c}` |
| C39 | columns and lines are wrong after CR LF | |
| C42 | a later pattern may hide one that passed its tests | |
| C79 | a read error is ignored and the part read is loaded | |
| C82 | a missing uuid is reported as a missing pattern | |
| C99 to C101 | error positions and expected sets around hyphens and quotes | `%{INT:ab-c}`, `%{SET("")}` |
| C104 to C107 | error texts: ambiguous, inconsistent, misspelt; causes skipped | |
| C110 | the converter drops patterns with a doubled at sign | `a@@b` |
| C111 | the converter does not escape texts | `100%{`, `%{INT:n}` |
| C112 | a converted ESTRING does not end at its delimiter | `@ESTRING:x:,@ b` on "a,c, b" |
| C113 to C115 | the converter cuts options at colons, drops `0`, accepts unknown types | `@ESTRING:x:a:b@`, `@NOTQSTRINGS@` |
| C133 | rulesets with the same name share the first program; rules with the same id are merged | |
| C136 | the suffix table reports different messages alike | app%{INT:x}! on app42! and 42 |
| C139 | a replaced pattern still decides which parser is tried first, and which literals go behind its own in the trie | `%{INT:a}x`, `%{GREEDY:b}`, `%{INT:a}y` on "5y" |

## Trying the theorems on wrong programs

In a scratch copy, one definition of the model was edited to contain a realistic
bug, everything was rebuilt with broken proofs admitted one by one, and the
theorems whose proofs then depended on an admitted lemma were recorded
(`failed`).  Since a proof script can break without its statement becoming
false, most edits also came with a script deriving `False` from the statement of
a failed theorem on a concrete input, which shows that the statement itself
rules the bug out; `note` says where that was done.  Edits that no theorem
noticed led to new theorems (`tightened`), against which the edit was tried
again.
