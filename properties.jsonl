{"id": "C01", "title": "SET parser accepts exactly the maximal run of set bytes within its length bounds", "statement": "SetParser::parse(v) returns Some(w) exactly when w is the longest prefix of v all of whose bytes belong to the configured set, w is not empty, and its byte length is at least min_len (if set) and at most max_len (if set); in every other non-panicking case it returns None.", "quantifier": "every configured set, every optional min/max length, every input string", "why_tests_cant": "The unit tests try a handful of sets and strings; the claim is an equivalence over all sets, bounds and strings.", "anchors": ["src/parsers/set.rs: SetParser::parse, calculate_match_length", "src/parsers/has_length_constraint.rs: is_match_length_ok"]}
{"id": "C02", "title": "SET parser never panics on a set of ASCII characters", "statement": "If the set string given to SetParser contains only ASCII characters then SetParser::parse returns normally for every valid UTF-8 input.", "quantifier": "every ASCII set, every bound, every valid UTF-8 string", "why_tests_cant": "The panic depends on where the byte run stops relative to character boundaries; only a universal argument rules it out.", "anchors": ["src/parsers/set.rs: SetParser::parse"]}
{"id": "C03", "title": "SET parser never panics at all", "statement": "SetParser::parse returns normally for every valid UTF-8 set and every valid UTF-8 input.", "quantifier": "every valid UTF-8 set and input", "why_tests_cant": "Requires a search over multi-byte characters sharing bytes; the tests only use ASCII sets.", "anchors": ["src/parsers/set.rs: SetParser::parse"]}
{"id": "C04", "title": "SET with bounds is the README's regular expression", "statement": "The README says %{SET(\"abcd\",min_len=m,max_len=n)} is identical to [abcd]{m,n}: a value that is a run of n set characters followed by another set character is still matched, capturing the first n characters.", "quantifier": "every set, bounds and input", "why_tests_cant": "The difference only shows for runs longer than max_len followed by more pattern; no test covers it.", "anchors": ["README.md: SET", "src/parsers/set.rs: SetParser::parse, calculate_match_length", "src/parsers/has_length_constraint.rs: is_match_length_ok, is_min_length_ok, is_max_length_ok"]}
{"id": "C05", "title": "INT parser captures the maximal run of ASCII digits", "statement": "IntParser::parse(v) returns Some(w) exactly when w is the longest prefix of v made of ASCII digits 0-9 and its length is positive and within the bounds; it never panics.", "quantifier": "every bound and every valid UTF-8 input", "why_tests_cant": "Equivalence over all inputs.", "anchors": ["src/parsers/int.rs: IntParser::parse"]}
{"id": "C06", "title": "GREEDY parser captures up to the first occurrence of its end string", "statement": "Without an end string GreedyParser::parse returns the whole input. With end string e it returns the part before the first occurrence of e, and None exactly when e does not occur. It never panics.", "quantifier": "every end string and every valid UTF-8 input", "why_tests_cant": "First-occurrence and char-boundary safety range over all strings.", "anchors": ["src/parsers/greedy.rs: GreedyParser::parse"]}
{"id": "C07", "title": "A captured value is a prefix of the parsed text cut at a character boundary", "statement": "For every parser the crate ships, the value it returns is a prefix of its input, and both that prefix and the rest are valid UTF-8.", "quantifier": "every parser configuration, every valid UTF-8 input for which parse returns a value", "why_tests_cant": "All parser configurations and inputs.", "anchors": ["src/parsers/set.rs: SetParser::parse, calculate_match_length", "src/parsers/int.rs: IntParser::parse", "src/parsers/greedy.rs: GreedyParser::parse"]}
{"id": "C08", "title": "common_prefix_len is the longest common prefix cut at a character boundary", "statement": "For valid UTF-8 strings a and b, a.common_prefix_len(b) is the length of the longest string that is a prefix of both and consists of whole characters, it is symmetric, and truncating either string at it never panics.", "quantifier": "every pair of valid UTF-8 strings", "why_tests_cant": "The boundary bookkeeping in the loop interacts with every possible mix of character widths.", "anchors": ["src/utils/common_prefix.rs: common_prefix_len, ltrunc, rtrunc"]}
{"id": "C09", "title": "SortedVec is always sorted and loses nothing", "statement": "After any sequence of pushes a SortedVec holds exactly the pushed elements in ascending order, equal elements in push order.", "quantifier": "every element type with a total order, every sequence of pushes", "why_tests_cant": "Induction over arbitrary push sequences.", "anchors": ["src/utils/sortedvec.rs: push"]}
{"id": "C10", "title": "SortedVec lookup finds an element exactly when there is one", "statement": "find and find_pos on a SortedVec return an element (position) comparing equal to the needle if one exists and None otherwise; they terminate and never index out of range.", "quantifier": "every sorted content and needle", "why_tests_cant": "Correctness of the hand-written binary search over every length and position.", "anchors": ["src/utils/sortedvec.rs: find, find_pos, binary_search, binary_search_by"]}
{"id": "C11", "title": "Two parsers are treated as the same exactly when their configuration is the same", "statement": "The byte stream a parser feeds to the hasher determines kind, name, character set, bounds and end string: two parsers feed the same stream iff they have the same kind and equal configuration.", "quantifier": "every pair of shipped parsers with UTF-8 names and usize bounds", "why_tests_cant": "Injectivity of an encoding over all configurations; a test can only compare finitely many.", "anchors": ["src/parsers/set.rs: hash_os", "src/parsers/int.rs: hash_os", "src/parsers/greedy.rs: hash_os", "src/matcher/trie/node/mod.rs: lookup_parser"]}
{"id": "C12", "title": "The trie matcher never panics on ASCII data", "statement": "After adding any sequence of patterns whose literals and SET characters are ASCII (none of the additions panicking), parsing any ASCII message returns normally.", "quantifier": "every sequence of patterns with ASCII literals/sets, every ASCII message", "why_tests_cant": "The trie has unreachable!() and a dozen unwrap() calls whose safety depends on structural invariants of every reachable trie.", "anchors": ["src/matcher/trie/node/mod.rs: insert, parse, lookup_literal, insert_literal_tail", "src/matcher/trie/node/literal.rs: cmp_str, split", "src/matcher/trie/node/parser.rs: push_last_kvpair"]}
{"id": "C13", "title": "The trie matcher never panics on valid UTF-8", "statement": "Adding any patterns and parsing any message made of valid UTF-8 returns normally.", "quantifier": "every sequence of patterns, every message", "why_tests_cant": "Depends on which character the first-byte comparison slices; ASCII tests never see it.", "anchors": ["src/matcher/trie/node/literal.rs: cmp_str"]}
{"id": "C14", "title": "A trie match is always justified by an added pattern", "statement": "Whenever the trie returns a match, the returned pattern is one that was added, and the message is the concatenation, in token order, of that pattern's literals and of strings that its parsers accept at their position.", "quantifier": "every sequence of added patterns, every message", "why_tests_cant": "Soundness over all reachable tries, which are shaped by splitting and re-parenting nodes.", "anchors": ["src/matcher/trie/node/mod.rs: parse, insert", "src/matcher/trie/node/parser.rs: parse"]}
{"id": "C15", "title": "Reported key-value pairs are exactly the named captures, leftmost wins", "statement": "The values of a match map each parser name occurring in the matched pattern to the text captured by the leftmost parser with that name; unnamed parsers contribute nothing and no other key is present.", "quantifier": "every sequence of patterns, every message", "why_tests_cant": "Depends on the order results are pushed while the recursion unwinds; needs all patterns.", "anchors": ["src/matcher/result.rs: insert", "src/matcher/trie/node/mod.rs: parse_then_push_kvpair"]}
{"id": "C16", "title": "A trie of literal patterns is a dictionary", "statement": "If every added pattern is a single non-empty ASCII literal, then parsing a message returns the most recently added pattern whose literal equals the message, and no match if there is none.", "quantifier": "every sequence of literal patterns, every ASCII message", "why_tests_cant": "Exercises node splitting for every set of words and order of insertion.", "anchors": ["src/matcher/trie/node/mod.rs: insert_literal, lookup_literal, insert_literal_tail", "src/matcher/trie/node/literal.rs: split"]}
{"id": "C17", "title": "A trie holding one pattern matches exactly that pattern's language", "statement": "After adding a single pattern to an empty trie, a message is matched exactly when walking the tokens from left to right consumes it completely (literals must be equal, each parser takes what it captures), except that a message ending right after a literal that is followed by a parser is not matched.", "quantifier": "every pattern without empty literals and adjacent literals, every message on which no panic occurs", "why_tests_cant": "Completeness over all token sequences and messages.", "anchors": ["src/matcher/trie/node/mod.rs: insert, parse", "src/matcher/trie/node/parser.rs: parse"]}
{"id": "C18", "title": "Adding a pattern never makes another message unmatched", "statement": "If a message matches before add_pattern, it still matches afterwards.", "quantifier": "every trie, every added pattern, every message", "why_tests_cant": "The user-visible regressions need specific pairs of patterns; the test-suite's own sample file triggers it silently.", "anchors": ["src/matcher/trie/node/interface.rs: Entry::insert", "src/matcher/suffix_array/interface.rs: Entry::insert"]}
{"id": "C19", "title": "Adding a pattern can only disturb patterns starting with the same first token", "statement": "Adding a pattern with first token t keeps every stored pattern whose first token differs from t: it is still stored under the same token path with the same attributes. Only patterns sharing the first token can be dropped.", "quantifier": "every reachable trie, every added pattern", "why_tests_cant": "A frame property over all reachable tries.", "anchors": ["src/matcher/trie/node/interface.rs: Entry::insert", "src/matcher/trie/node/mod.rs: insert"]}
{"id": "C20", "title": "Patterns with incomparable first literals do not interact", "statement": "If every added pattern starts with a literal and no two of the distinct first literals are prefixes of one another, then a message is matched by the trie exactly as by a trie holding only the last added pattern whose first literal is a prefix of the message.", "quantifier": "every such set of patterns in every order, every message", "why_tests_cant": "Independence and order-independence over all families of patterns.", "anchors": ["src/matcher/trie/node/mod.rs: SuffixTree::insert, insert_literal, insert_parser, parse, lookup_literal, parse_with_parsers"]}
{"id": "C21", "title": "A pattern without tokens is ignored", "statement": "Adding a pattern whose token list is empty leaves the matcher unchanged.", "quantifier": "every matcher state", "why_tests_cant": "All states.", "anchors": ["src/matcher/trie/node/mod.rs: insert", "src/matcher/suffix_array/impls.rs: insert"]}
{"id": "C22", "title": "Re-adding the same tokens replaces the stored pattern", "statement": "Adding pattern p and then pattern q with the same tokens gives the same matcher as adding q alone at that point: what is reported is q.", "quantifier": "every reachable trie, every pair of patterns with equal tokens", "why_tests_cant": "Needs all tries and all token lists.", "anchors": ["src/matcher/trie/node/mod.rs: insert_literal, insert_parser", "src/matcher/trie/node/interface.rs: Entry::insert"]}
{"id": "C23", "title": "The pattern reported by a match carries the attributes it was added with", "statement": "The uuid, name, tags, static values and remaining test messages of the pattern in a match result are those of one added pattern.", "quantifier": "every sequence of added patterns, every message", "why_tests_cant": "Over all reachable tries.", "anchors": ["src/matcher/result.rs: MatchResult::new, pattern", "src/matcher/trie/node/mod.rs: SuffixTree::insert, insert_literal, insert_parser, parse, lookup_literal, parse_with_parsers"]}
{"id": "C24", "title": "Parsers at one position are tried in the order they were added", "statement": "For patterns consisting of one parser each, the trie reports the pattern of the first added parser (in order of first addition) that captures the whole message.", "quantifier": "every list of single-parser patterns with distinct hashes, every message", "why_tests_cant": "All lists and messages.", "anchors": ["src/matcher/trie/node/mod.rs: parse_with_parsers, insert_parser"]}
{"id": "C25", "title": "Matching always terminates", "statement": "Parsing a message with any trie or suffix table terminates; the recursion depth is bounded by the height of the tree.", "quantifier": "every tree, every message", "why_tests_cant": "Termination for all inputs.", "anchors": ["src/matcher/trie/node/mod.rs: parse", "src/matcher/suffix_array/impls.rs: parse"]}
{"id": "C26", "title": "A longer pattern does not shadow a shorter one", "statement": "If pattern p is a token-prefix of pattern q, adding q after p keeps messages of p matched.", "quantifier": "every pair of such patterns", "why_tests_cant": "Needs specific pairs.", "anchors": ["src/matcher/trie/node/parser.rs: parse", "src/matcher/trie/node/interface.rs: Entry::insert"]}
{"id": "C27", "title": "longest_common_prefix of the suffix table is maximal", "statement": "On every suffix table, longest_common_prefix(v) returns an entry whose common prefix with v is at least as long as that of every other literal entry, and returns one whenever there is a literal entry.", "quantifier": "every reachable suffix table, every valid UTF-8 value", "why_tests_cant": "Binary-search-neighbour argument over all sorted vectors.", "anchors": ["src/matcher/suffix_array/impls.rs: longest_common_prefix"]}
{"id": "C28", "title": "A suffix-table match is always justified by an added pattern", "statement": "Whenever the suffix table returns a match, the message is the concatenation of the pattern's literals and accepted captures.", "quantifier": "every sequence of added patterns, every message", "why_tests_cant": "Counterexamples are short messages no test tries.", "anchors": ["src/matcher/suffix_array/impls.rs: Matcher::parse"]}
{"id": "C29", "title": "The suffix table never panics on valid UTF-8", "statement": "After adding any patterns with valid UTF-8 literals and ASCII sets, parsing any valid UTF-8 message returns normally.", "quantifier": "every sequence of patterns, every message", "why_tests_cant": "All strings and character boundaries.", "anchors": ["src/matcher/suffix_array/impls.rs: SuffixTable::insert, insert_literal, insert_parser, parse, longest_common_prefix, parse_with_parsers", "src/utils/common_prefix.rs: CommonPrefix::common_prefix_len, ltrunc, rtrunc"]}
{"id": "C30", "title": "The suffix table matches every message of a single pattern", "statement": "After adding a single pattern to an empty suffix table every message that the tokens consume completely from left to right is matched with the captured values.", "quantifier": "every pattern, every message", "why_tests_cant": "Completeness over all patterns and messages.", "anchors": ["src/matcher/suffix_array/impls.rs: insert, parse"]}
{"id": "C31", "title": "Trie and suffix table agree", "statement": "For the same added patterns both matchers give the same answer on every message.", "quantifier": "every sequence of patterns, every message", "why_tests_cant": "Differential property over all inputs.", "anchors": ["src/matcher/trie/factory.rs: TrieMatcherFactory", "src/matcher/suffix_array/mod.rs: SuffixArrayMatcherFactory"]}
{"id": "C32", "title": "The pattern grammar accepts exactly the documented syntax with the documented meaning", "statement": "grammar::parser::pattern(s) succeeds exactly when s is a concatenation of literals (with %{ written as \\%\\{) and %{SET(..)}, %{INT(..)}, %{GREEDY} items in their concrete syntax, and then returns the corresponding tokens.", "quantifier": "every valid UTF-8 pattern string", "why_tests_cant": "Characterises a generated backtracking parser on all inputs.", "anchors": ["src/grammar/parser/pattern.rustpeg: pattern, pattern_piece, parser, parser_name, literal, string, int", "src/grammar/parser/pattern_parser.rs: pattern, parse_pattern", "src/grammar/mod.rs: unescape_literal"]}
{"id": "C33", "title": "Escaping makes any text a literal pattern", "statement": "Replacing every %{ in a text by \\%\\{ gives a pattern string that compiles to exactly one literal token equal to the text (for non-empty texts not already containing the escape sequence).", "quantifier": "every text", "why_tests_cant": "Round trip over all strings.", "anchors": ["src/grammar/mod.rs: unescape_literal", "src/grammar/parser/pattern_parser.rs: parse_literal"]}
{"id": "C34", "title": "Compiling a pattern never panics", "statement": "grammar::parser::pattern(s) returns Ok or Err for every string.", "quantifier": "every valid UTF-8 string", "why_tests_cant": "The panic needs a numeric argument above usize::MAX.", "anchors": ["src/grammar/parser/pattern_parser.rs: parse_int"]}
{"id": "C35", "title": "Compiling a pattern never panics when its numbers fit usize", "statement": "If every maximal digit run in s denotes a number below 2^64 then grammar::parser::pattern(s) returns Ok or Err.", "quantifier": "every valid UTF-8 string with small numbers", "why_tests_cant": "All strings.", "anchors": ["src/grammar/parser/pattern_parser.rs: parse_int"]}
{"id": "C36", "title": "Parser names may contain what the README allows", "statement": "A parser name made of a letter, underscore or dot followed by letters, digits, underscores, dots and hyphens is accepted as parser name.", "quantifier": "every such name", "why_tests_cant": "Hyphen handling depends on position; the tests use one name.", "anchors": ["README.md: Parsers", "src/grammar/parser/pattern.rustpeg: identifier"]}
{"id": "C37", "title": "Text after GREEDY is both its end string and the next literal", "statement": "%{GREEDY:n} followed by literal text compiles to a greedy parser whose end string is the text as written and a literal token with the same text; without following text it has no end string.", "quantifier": "every name and following literal text", "why_tests_cant": "All texts, including escaped ones.", "anchors": ["src/grammar/parser/pattern_parser.rs: parse_parser_GREEDY"]}
{"id": "C38", "title": "Compiled patterns contain no empty literal", "statement": "Every literal token produced by grammar::parser::pattern is non-empty.", "quantifier": "every pattern string that compiles", "why_tests_cant": "All strings.", "anchors": ["src/grammar/parser/pattern_parser.rs: parse_literal"]}
{"id": "C39", "title": "A compile error points inside the pattern", "statement": "When compiling fails, the reported offset is at most the length of the pattern, lies on a character boundary, and line and column are those of the offset.", "quantifier": "every pattern string that does not compile", "why_tests_cant": "All failing strings.", "anchors": ["src/grammar/parser/pattern_parser.rs: pattern, pos_to_line"]}
{"id": "C40", "title": "A test message passes exactly when its expected tags and values are there", "statement": "TestMessage::test_result is Ok exactly when every expected tag is among the pattern's tags (none expected: no check; expected but the pattern has none: error) and every expected key has exactly the expected value in the merge of static values overridden by parsed values.", "quantifier": "every test message and match result", "why_tests_cant": "Equivalence over all maps and tag lists.", "anchors": ["src/matcher/pattern/testmessage/message.rs: test_result"]}
{"id": "C41", "title": "Checked loading succeeds exactly when every pattern passes its own test messages at load time", "statement": "from_source returns Ok exactly when the source yields no error and, for each pattern in order, after adding it every test message of that pattern is matched, by a pattern with the same uuid, and passes its tag and value checks against the matcher built so far.", "quantifier": "every source, every list of patterns", "why_tests_cant": "All sequences.", "anchors": ["src/matcher/pattern_source/mod.rs: from_source, check_pattern"]}
{"id": "C42", "title": "A successfully loaded matcher passes all test messages", "statement": "If from_source returns Ok(matcher), then every test message of every pattern of the source is matched by the final matcher.", "quantifier": "every source", "why_tests_cant": "Later patterns may break earlier ones; needs pairs of patterns.", "anchors": ["src/matcher/pattern_source/mod.rs: from_source, from_source_ignore_errors, check_pattern, extract_test_messages, check_test_messages, check_test_message", "tests/matcher/ssh_ok.json: patterns"]}
{"id": "C43", "title": "Loading with errors ignored keeps every pattern", "statement": "from_source_ignore_errors adds every pattern the source yields, in order, whatever its test messages say, and equals adding the patterns one by one.", "quantifier": "every source", "why_tests_cant": "All sequences.", "anchors": ["src/matcher/pattern_source/mod.rs: from_source_ignore_errors"]}
{"id": "C44", "title": "A pattern file is loaded back to front", "statement": "Iterating a pattern file yields its patterns in the reverse of file order, each once.", "quantifier": "every pattern file", "why_tests_cant": "All lengths.", "anchors": ["src/matcher/pattern/file/iter.rs: IntoIter::next"]}
{"id": "C45", "title": "Test messages are consumed during loading", "statement": "A pattern stored by the checked or unchecked loader carries no test messages any more and is otherwise unchanged.", "quantifier": "every pattern", "why_tests_cant": "All patterns.", "anchors": ["src/matcher/pattern_source/mod.rs: extract_test_messages"]}
{"id": "C46", "title": "File type is chosen by the extension", "statement": "The loader reads a file as JSON exactly when its extension is json, as YAML exactly when it is yaml, yml, YAML or YML, and reports an unsupported or unknown type otherwise, without adding any pattern.", "quantifier": "every file name", "why_tests_cant": "All names.", "anchors": ["src/matcher/pattern_loader.rs: load_file"]}
{"id": "C47", "title": "Pattern documents: required, optional and unknown fields", "statement": "Deserialising a pattern object succeeds exactly when every field is known and well-typed, uuid and pattern are present, the uuid is a valid UUID text and the pattern compiles; the last occurrence of a repeated field wins and missing optional fields are None.", "quantifier": "every field list", "why_tests_cant": "All combinations and orders of fields.", "anchors": ["src/matcher/pattern/deser.rs: PatternVisitor::visit_map", "src/matcher/pattern/testmessage/deser.rs: TestMessageVisitor::visit_map"]}
{"id": "C48", "title": "Builder keeps order", "statement": "A pattern built with CompiledPatternBuilder has exactly the tokens added, in order.", "quantifier": "every sequence of builder calls", "why_tests_cant": "All sequences.", "anchors": ["src/matcher/compiled_pattern.rs: CompiledPatternBuilder"]}
{"id": "C49", "title": "SET agrees with the regular expression unless the run goes on past max_len", "statement": "For an ASCII set, SetParser::parse(v) returns Some(w) exactly when w is what [set]{min,max} matches at the start of v and w is also the whole run of set characters; when the run is longer than max_len it returns None.", "quantifier": "every ASCII set, bounds and valid UTF-8 input", "why_tests_cant": "Corrected form of C04: an equivalence over all inputs, sets and bounds.", "anchors": ["src/parsers/set.rs: SetParser::parse", "src/parsers/has_length_constraint.rs: is_match_length_ok, is_min_length_ok, is_max_length_ok", "README.md: SET"]}
{"id": "C50", "title": "A pattern starting with a new parser keeps every match", "statement": "Adding a pattern whose first token is a parser that no earlier pattern starts with leaves the answer to every matched message unchanged.", "quantifier": "every sequence of patterns, every message matched before", "why_tests_cant": "Corrected form of C18; quantifies over all tries and messages.", "anchors": ["src/matcher/trie/node/mod.rs: insert_parser, parse_with_parsers"]}
{"id": "C51", "title": "Locality of the trie", "statement": "The answer for a message is that of a trie holding only the patterns that start with a parser or with a literal having the same first byte as the message.", "quantifier": "every sequence of patterns, every message", "why_tests_cant": "Needs an argument about splitting and lookup in all reachable tries.", "anchors": ["src/matcher/trie/node/mod.rs: lookup_literal, insert_literal", "src/matcher/trie/node/literal.rs: cmp_str"]}
{"id": "C52", "title": "A second pattern with the same first token erases the first", "statement": "If two patterns of at least two tokens each have the same first token, adding the second right after the first gives the answers of adding the second alone.", "quantifier": "every trie, every two such patterns, every message", "why_tests_cant": "The tests never add two such patterns and then look for the first one in general.", "anchors": ["src/matcher/trie/node/interface.rs: Entry::insert"]}
{"id": "C53", "title": "What adding a pattern keeps", "statement": "Something stored in the trie is still stored after add_pattern(p) unless its path equals the path of p, or p has several tokens and the first token of p is a proper beginning of its path; p itself is stored, and nothing but added patterns is.", "quantifier": "every reachable trie, every added pattern", "why_tests_cant": "Corrected form of C19 over all tries.", "anchors": ["src/matcher/trie/node/mod.rs: insert", "src/matcher/trie/node/interface.rs: Entry::insert"]}
{"id": "C54", "title": "Patterns with incomparable first literals do not interact", "statement": "If all patterns start with literals none of which is a proper prefix of another, a message gets the answer of a trie holding only the patterns whose first literal it starts with; with one such pattern that is its own language, with none there is no match.", "quantifier": "every such set of patterns in every order, every message", "why_tests_cant": "Corrected form of C20.", "anchors": ["src/matcher/trie/node/mod.rs: insert_literal, lookup_literal"]}
{"id": "C55", "title": "One-parser patterns are shadowed by longer ones, one-literal patterns are not", "statement": "A pattern consisting of one parser is never reported when another pattern continues after the same parser, whichever comes first; a pattern consisting of one literal stays matched when another pattern continues after the same literal.", "quantifier": "every trie, all such pairs, every message", "why_tests_cant": "Corrected form of C26.", "anchors": ["src/matcher/trie/node/parser.rs: parse", "src/matcher/trie/node/mod.rs: search_prefix_is_found_and_node_is_not_leaf"]}
{"id": "C56", "title": "The trie is exactly an abstract keyed matcher", "statement": "Adding patterns to the trie and parsing gives exactly the answers of a matcher made of sorted maps from literals and lists of parsers, without node splitting; on ASCII data nothing panics. Parsers must not collide under the hash.", "quantifier": "every sequence of patterns, every message", "why_tests_cant": "Refinement over all reachable tries.", "anchors": ["src/matcher/trie/node/mod.rs: SuffixTree::insert, insert_literal, insert_parser, parse, lookup_literal, parse_with_parsers", "src/matcher/trie/node/literal.rs: LiteralNode::cmp_str, split", "src/matcher/trie/node/parser.rs: ParserNode::parse, push_last_kvpair", "src/matcher/trie/node/interface.rs: Entry::insert"]}
{"id": "C57", "title": "Every message of a pattern on its own is matched", "statement": "A trie holding one pattern matches every message that the pattern's tokens consume completely from left to right.", "quantifier": "every pattern, every message", "why_tests_cant": "Quantifies over all patterns and messages.", "anchors": ["src/matcher/trie/node/mod.rs: parse, search_prefix_is_found_and_node_is_not_leaf"]}
{"id": "C58", "title": "The suffix table holds exactly the patterns not displaced", "statement": "After a series of additions the table holds, under the tokens of an added pattern, that pattern without its tokens, unless a later pattern has the same first token and both or neither consist of this token only. It holds nothing else.", "quantifier": "every list of patterns whose parsers the hash tells apart, every path", "why_tests_cant": "Exact content of all reachable tables.", "anchors": ["src/matcher/suffix_array/impls.rs: insert, insert_literal, insert_parser"]}
{"id": "C59", "title": "What a suffix-table match means", "statement": "A match names an added pattern whose tokens read the message so: a last literal may be cut short anywhere, another literal is read as far as it agrees with the message and must leave some text, parsers capture as usual. The values are the named captures.", "quantifier": "every list of valid patterns, every UTF-8 message", "why_tests_cant": "The correct form of C28; ranges over all inputs.", "anchors": ["src/matcher/suffix_array/impls.rs: Matcher::parse, parse_with_parsers"]}
{"id": "C60", "title": "Exact language of a single pattern in a suffix table", "statement": "A table with one pattern matches a message exactly if the pattern's tokens read it in the sense of C59, and then in one way only.", "quantifier": "every pattern, every UTF-8 message on which no panic occurs", "why_tests_cant": "Both directions for all patterns and messages.", "anchors": ["src/matcher/suffix_array/impls.rs: Matcher::parse"]}
{"id": "C61", "title": "The suffix table matches what the trie matches when first literals are apart", "statement": "If all patterns start with literals none of which is a proper prefix of another, or if there is only one pattern, then whatever the trie matches the suffix table matches with the same pattern and values.", "quantifier": "every such list of patterns, every UTF-8 message", "why_tests_cant": "Differential property over all inputs.", "anchors": ["src/matcher/trie/node/mod.rs: parse", "src/matcher/suffix_array/impls.rs: parse"]}
{"id": "C62", "title": "Trie and suffix table agree on patterns without literals", "statement": "For patterns consisting of parsers only both matchers give the same answers.", "quantifier": "every such list of patterns, every UTF-8 message", "why_tests_cant": "Differential property over all inputs.", "anchors": ["src/matcher/trie/node/mod.rs: parse", "src/matcher/suffix_array/impls.rs: parse"]}
{"id": "C63", "title": "The suffix table as a dictionary of literals", "statement": "With patterns consisting of one literal each, a message matches exactly if it is a beginning of one of the literals; reported is the last pattern added with the bytewise least such literal, without values.", "quantifier": "every list of such patterns, every UTF-8 message", "why_tests_cant": "All dictionaries and messages.", "anchors": ["src/matcher/suffix_array/impls.rs: longest_common_prefix, parse"]}
{"id": "C64", "title": "The suffix table ignores leading parsers as soon as there is a leading literal", "statement": "If some pattern starts with a literal, removing all patterns that start with a parser changes no answer.", "quantifier": "every list of patterns, every UTF-8 message", "why_tests_cant": "All inputs.", "anchors": ["src/matcher/suffix_array/impls.rs: parse"]}
{"id": "C65", "title": "The suffix table only looks at one closest first literal", "statement": "If some pattern starts with a literal, there is for every message a first literal sharing at least as many characters with it as any other, such that only the patterns starting with this literal matter.", "quantifier": "every list of patterns, every UTF-8 message", "why_tests_cant": "All inputs.", "anchors": ["src/matcher/suffix_array/impls.rs: longest_common_prefix, parse"]}
{"id": "C66", "title": "Re-adding the same tokens to a suffix table replaces the pattern", "statement": "Adding p and then q with the same tokens gives the identical table as adding only q.", "quantifier": "every reachable table, every pair of patterns with equal tokens", "why_tests_cant": "All tables.", "anchors": ["src/matcher/suffix_array/impls.rs: insert"]}
{"id": "C67", "title": "Compiling panics exactly on numbers that do not fit usize", "statement": "grammar::parser::pattern(s) panics exactly when s is a sequence of well-formed items followed by the beginning of a SET or INT item with well-formed bounds whose last bound has a number of at least 2^64; in all other cases it returns Ok or Err.", "quantifier": "every valid UTF-8 string", "why_tests_cant": "Exact set of panicking inputs.", "anchors": ["src/grammar/parser/pattern_parser.rs: parse_int"]}
{"id": "C68", "title": "Parser names are accepted exactly when a hyphen is at most the second character", "statement": "%{INT:n} compiles to the named INT parser exactly when n starts with a letter, underscore or dot, continues with letters, digits, underscores and dots, and has a hyphen at most as second character.", "quantifier": "every UTF-8 string n", "why_tests_cant": "Exact set of names.", "anchors": ["src/grammar/parser/pattern_parser.rs: parse_parser_name, parse_identifier"]}
{"id": "C69", "title": "Shape of compiled patterns", "statement": "A compiled pattern is non-empty, has no two neighbouring literals, and every GREEDY parser has an end string exactly when the next token is a literal, which is then that literal.", "quantifier": "every pattern string that compiles", "why_tests_cant": "All strings.", "anchors": ["src/grammar/parser/pattern_parser.rs: pattern, parse_pattern"]}
{"id": "C70", "title": "Compiled patterns are well-formed", "statement": "Literals and end strings of compiled patterns are valid UTF-8, character sets are sorted without duplicates, bounds fit usize; ASCII pattern strings give ASCII literals and character sets.", "quantifier": "every pattern string that compiles", "why_tests_cant": "Connects the compiler with the assumptions of the matcher theorems.", "anchors": ["src/grammar/parser/pattern_parser.rs: pattern, parse_pattern", "src/grammar/mod.rs: unescape_literal"]}
{"id": "C71", "title": "A compile error has the right position in patterns without carriage returns", "statement": "When compiling fails, the offset is in the pattern, on a character boundary, something is expected there, no well-formed beginning (up to the end or up to a %{) ends after it, and if there is no carriage return before it then line and column are those of the offset.", "quantifier": "every pattern string that does not compile", "why_tests_cant": "All failing strings.", "anchors": ["src/grammar/parser/pattern_parser.rs: pattern, pos_to_line, mark_failure"]}
{"id": "C72", "title": "The pattern language is unambiguous", "statement": "However a pattern string is divided into literals and items, the tokens are the same.", "quantifier": "every valid UTF-8 string", "why_tests_cant": "All strings and all divisions.", "anchors": ["src/grammar/parser/pattern.rustpeg: pattern, pattern_piece, parser, parser_name, literal, string, int"]}
{"id": "C73", "title": "Compiling is compatible with concatenation", "statement": "If two pattern strings compile and the second begins with %{ then their concatenation compiles to the concatenated tokens.", "quantifier": "every pair of pattern strings", "why_tests_cant": "All pairs.", "anchors": ["src/grammar/parser/pattern_parser.rs: pattern, parse_pattern"]}
{"id": "C74", "title": "A failing test message names the first thing that is wrong", "statement": "test_result returns a given error exactly when: the tags are not all there and the error lists expected and actual tags; or the tags are there and, in key order, the first expected key whose value is absent or different is reported as KeyNotFound or as ValueNotMatch with expected and actual value.", "quantifier": "every test message, match result and error", "why_tests_cant": "The order of checks and the choice of the reported key matter only when several things are wrong at once; the tests break one thing at a time.", "anchors": ["src/matcher/pattern/testmessage/message.rs: TestMessage::test_result"]}
{"id": "C75", "title": "Checked loading reports exactly the first error", "statement": "from_source returns a given error exactly when all earlier items load without error and the first bad item is either an error of the source, which is passed on unchanged, or a pattern with a failing test message, of which the last failing one in file order is reported.", "quantifier": "every matcher implementation, every source, every error", "why_tests_cant": "Needs all combinations of several failing messages and source errors.", "anchors": ["src/matcher/pattern_source/mod.rs: FromPatternSource"]}
{"id": "C76", "title": "Test messages that stay valid after loading", "statement": "If from_source succeeds, the final matcher passes all test messages of the last pattern; with the trie it also passes those test messages of earlier patterns that no later pattern may concern (share neither the first byte of a literal nor a leading parser).", "quantifier": "every source; for the second part every valid collision-free ASCII source", "why_tests_cant": "Depends on every later insertion leaving the path of an earlier message alone.", "anchors": ["src/matcher/pattern_source/mod.rs: FromPatternSource", "src/matcher/trie/node/mod.rs: LiteralNode, Node"]}
{"id": "C77", "title": "Loading a file is loading its patterns back to front", "statement": "from_file returns Ok(m) exactly when the file can be opened, has a supported extension, its contents deserialise to patterns in the format of the extension, and checked loading of these patterns in reverse order gives m; the lenient variant then adds all of them in reverse order.", "quantifier": "every file system, every pair of readers, every matcher, every path", "why_tests_cant": "The combination of file type, order and checking is only sampled by the integration tests.", "anchors": ["src/matcher/pattern_loader.rs: PatternLoader"]}
{"id": "C78", "title": "Errors of file loading", "statement": "from_file returns a given error exactly in one of five situations: the file has a supported extension but cannot be opened; its JSON or its YAML is rejected; the extension is unsupported; a test message fails. NotUtf8FileName never occurs.", "quantifier": "every file system, every pair of readers, every matcher, every path, every error", "why_tests_cant": "Negative statement about unreachable errors and an exact case split.", "anchors": ["src/matcher/pattern_loader.rs: PatternLoader", "src/matcher/pattern_source/error.rs: BuildError"]}
{"id": "C79", "title": "A file is loaded only if it was read completely", "statement": "If reading a file fails after it was opened, from_file does not return Ok.", "quantifier": "every file system, every reader, every path", "why_tests_cant": "Requires an I/O error in the middle of a file.", "anchors": ["src/matcher/pattern_loader.rs: PatternLoader"]}
{"id": "C80", "title": "Loading valid sources never panics", "statement": "For valid patterns made of ASCII text with ASCII test messages (for the suffix table: ASCII parser sets and UTF-8 test messages) both loaders return normally, and the lenient one returns the matcher with all patterns.", "quantifier": "every hash function, every such source, both matchers", "why_tests_cant": "Absence of panics for all sources.", "anchors": ["src/matcher/pattern_source/mod.rs: FromPatternSource", "src/matcher/trie/node/mod.rs: SuffixTree::insert, insert_literal, insert_parser, parse, lookup_literal, parse_with_parsers", "src/matcher/suffix_array/impls.rs: SuffixTable::insert, insert_literal, insert_parser, parse, longest_common_prefix, parse_with_parsers"]}
{"id": "C81", "title": "A rejected pattern document reports its first problem", "statement": "Deserialising a pattern object (or a test message) returns a given error exactly when: it is not an object; or, all earlier fields being in order, the first bad field is unknown, of the wrong type, not a UUID, or has a bad test message as its first bad element; or all fields are in order and the pattern is missing, does not compile, or the uuid is missing. It panics exactly when all fields are in order and compiling the pattern panics. There is no other outcome.", "quantifier": "every document of UTF-8 texts, every error", "why_tests_cant": "Exact classification of all documents with any combination of defects.", "anchors": ["src/matcher/pattern/deser.rs: PatternVisitor::visit_map", "src/matcher/pattern/testmessage/deser.rs: visit_map"]}
{"id": "C82", "title": "A missing-field error names the missing field", "statement": "If deserialising a pattern object reports that a field is missing, the object has no field of that name.", "quantifier": "every document", "why_tests_cant": "The tests check that an error is returned, not its text for every missing field.", "anchors": ["src/matcher/pattern/deser.rs: PatternVisitor::visit_map"]}
{"id": "C83", "title": "Pattern files hold exactly the list of the last patterns field", "statement": "Deserialising a file document gives ps exactly when it is an object all of whose fields are named patterns, each holding a list (or null) of good pattern objects, and ps are the patterns of the last one in order.", "quantifier": "every document", "why_tests_cant": "Quantifies over all documents, including repeated fields.", "anchors": ["src/matcher/pattern/file/deser.rs: FileVisitor::visit_map"]}
{"id": "C84", "title": "A rejected file document reports its first problem", "statement": "Deserialising a file document returns a given error exactly when it is not an object, has no field, or the first bad field is unknown or its first bad element has that error; it panics exactly when compiling a pattern panics before any error is met. There is no other outcome.", "quantifier": "every document of UTF-8 texts, every error", "why_tests_cant": "Exact classification of all documents.", "anchors": ["src/matcher/pattern/file/deser.rs: FileVisitor::visit_map", "src/matcher/pattern/deser.rs: PatternVisitor::visit_map"]}
{"id": "C85", "title": "Loaded documents are in the domain of the matchers", "statement": "Patterns deserialised from a document of UTF-8 texts are valid; if the texts are ASCII, both matchers can be built from them, checked or unchecked, without panicking.", "quantifier": "every such document, every hash function", "why_tests_cant": "Combines deserialiser, compiler and both matchers for all documents.", "anchors": ["src/matcher/pattern/deser.rs: PatternVisitor::visit_map", "src/grammar/parser/pattern.rustpeg: pattern, pattern_piece, parser, parser_name, literal, string, int", "src/matcher/trie/node/mod.rs: SuffixTree::insert, insert_literal, insert_parser, parse, lookup_literal, parse_with_parsers", "src/matcher/suffix_array/impls.rs: SuffixTable::insert, insert_literal, insert_parser, parse, longest_common_prefix, parse_with_parsers"]}
{"id": "C86", "title": "What a trie built from a document reports comes from the document", "statement": "If a trie is built from the patterns of a file document in loading order and reports a match for a message, then the document has a pattern object whose text compiles to tokens that the message walks through with the reported values, and the reported pattern is that object's, without tokens and test messages.", "quantifier": "every document of UTF-8 texts, every message, every hash function without collisions among the document's parsers", "why_tests_cant": "End-to-end soundness over all documents and messages.", "anchors": ["src/matcher/pattern/file/deser.rs: FileVisitor::visit_map", "src/matcher/pattern_source/mod.rs: from_source, from_source_ignore_errors, check_pattern, extract_test_messages, check_test_messages, check_test_message", "src/matcher/trie/node/mod.rs: SuffixTree::insert, insert_literal, insert_parser, parse, lookup_literal, parse_with_parsers"]}
{"id": "C87", "title": "SortedVec is an indexed sequence", "statement": "get(i) returns the element at position i and None past the end; is_empty holds exactly when len is 0; remove(i) takes the i-th element out, keeps all others in order (hence sorted), and panics exactly when there is no i-th element.", "quantifier": "every element type, order, content and index", "why_tests_cant": "Tests look at a few short vectors.", "anchors": ["src/utils/sortedvec.rs: SortedVec::get, len, is_empty, remove"]}
{"id": "C88", "title": "binary_search_by is correct for every consistent comparison", "statement": "If the elements that compare Less come first and those that compare Greater last, binary_search_by returns the position of an Equal element if there is one, and otherwise the position that separates Less from Greater.", "quantifier": "every vector and comparison function", "why_tests_cant": "The one test searches two values in a vector of five.", "anchors": ["src/utils/sortedvec.rs: SortedVec::binary_search_by"]}
{"id": "C89", "title": "Truncation and has_common_prefix respect characters", "statement": "ltrunc(n) / rtrunc(n) drop exactly n bytes when that ends at a character boundary and panic otherwise; has_common_prefix returns the length of the longest common character prefix, or None if it is empty.", "quantifier": "every pair of valid UTF-8 strings, every n", "why_tests_cant": "Tests use ASCII strings only.", "anchors": ["src/utils/common_prefix.rs: ltrunc, rtrunc, has_common_prefix"]}
{"id": "C90", "title": "flatten_vec concatenates in order", "statement": "Flattening a vector of vectors yields the elements of each in order, nothing lost or duplicated.", "quantifier": "every vector of vectors", "why_tests_cant": "Quantifies over all nestings.", "anchors": ["src/utils/mod.rs: flatten_vec"]}
{"id": "C91", "title": "A parser does what its last configuration calls asked for", "statement": "After any sequence of set_name / set_min_length / set_max_length / set_character_set / set_end_string calls on any constructor, the parser has the name, bounds, characters and end string last asked for and parses accordingly. Renaming never changes what is parsed.", "quantifier": "every constructor argument, every sequence of calls, every text", "why_tests_cant": "Tests call at most two setters in one order.", "anchors": ["src/parsers/set.rs: SetParser::new, with_name, set_character_set, set_min_length, set_max_length, set_name", "src/parsers/int.rs: IntParser::default, with_name, set_min_length, set_max_length, set_name", "src/parsers/greedy.rs: GreedyParser::with_name, from_str, set_end_string, set_name"]}
{"id": "C92", "title": "The parser factory takes the last parameter of each key", "statement": "new_set / new_int build a parser with the given name, exactly the given characters (digits), and as bounds the last min_len / max_len parameter of the list, if any; other keys are ignored. new_greedy takes name and end string as given.", "quantifier": "every parameter list", "why_tests_cant": "Tests never repeat a parameter.", "anchors": ["src/matcher/trie/parser_factory.rs: TrieParserFactory"]}
{"id": "C93", "title": "Taking tokens and test messages off a pattern", "statement": "pop_first_token returns the first token and leaves the rest, pop_test_message returns the last test message and leaves those before; nothing else changes; both return None exactly when there is none. with_uuid has only the uuid.", "quantifier": "every pattern", "why_tests_cant": "Quantifies over all patterns.", "anchors": ["src/matcher/pattern/pattern.rs: pop_first_token, pop_test_message, with_uuid"]}
{"id": "C94", "title": "A match result maps each name to the last value inserted for it", "statement": "After inserting any sequence of parse results, the values are sorted by key and map a name to v exactly when v was inserted last under that name; results of unnamed parsers are ignored and the pattern is untouched.", "quantifier": "every sequence of insertions", "why_tests_cant": "Tests insert two values.", "anchors": ["src/matcher/result.rs: MatchResult::insert"]}
{"id": "C95", "title": "The suffix table is exactly an abstract keyed matcher", "statement": "For valid patterns with ASCII sets and a collision-free hash, the table built from them returns on every UTF-8 message exactly what the abstract matcher (sorted map of literals, list of parsers, nearest literal) returns.", "quantifier": "every list of patterns, every message", "why_tests_cant": "Equality of two programs for all inputs.", "anchors": ["src/matcher/suffix_array/impls.rs: SuffixTable::insert, insert_literal, insert_parser, parse, longest_common_prefix, parse_with_parsers"]}
{"id": "C96", "title": "What a suffix table built from a document reports comes from the document", "statement": "As C86 for the suffix table, with the table's own notion of walking through a text.", "quantifier": "every document of UTF-8 texts, every message, every hash function without collisions among the document's parsers", "why_tests_cant": "End-to-end soundness over all documents and messages.", "anchors": ["src/matcher/pattern/file/deser.rs: FileVisitor::visit_map", "src/matcher/pattern_source/mod.rs: from_source, from_source_ignore_errors, check_pattern, extract_test_messages, check_test_messages, check_test_message", "src/matcher/suffix_array/impls.rs: SuffixTable::insert, insert_literal, insert_parser, parse, longest_common_prefix, parse_with_parsers"]}
{"id": "C97", "title": "The checked-in generated parser implements the grammar file", "statement": "On every UTF-8 text on which compilation does not panic, the compiler accepts exactly when the start rule of pattern.rustpeg, read as a parsing expression grammar, consumes the whole text; otherwise the offset and the expected set reported are the furthest point at which that reading looked for a terminal in vain and exactly the terminals looked for there. The reading is deterministic.", "quantifier": "every UTF-8 text", "why_tests_cant": "The generated file is checked in beside its source; tests compare a handful of patterns, not the two artefacts.", "anchors": ["src/grammar/parser/pattern.rustpeg: pattern, pattern_piece, parser, parser_name, literal, string, int", "src/grammar/parser/pattern_parser.rs: parse_pattern, parse_pattern_piece, parse_parser, parse_identifier, ParseState::mark_failure"]}
{"id": "C98", "title": "The text before a reported error begins a valid pattern", "statement": "Whenever compilation fails with an error, the text before the reported offset can be continued to a pattern that compiles; errors are never reported too late.", "quantifier": "every UTF-8 text that is rejected", "why_tests_cant": "Tests look at one or two error messages.", "anchors": ["src/grammar/parser/pattern_parser.rs: ParseError, ParseState::mark_failure, slice_eq, any_char, pattern", "src/grammar/parser/mod.rs: pattern, pattern_with_factory"]}
{"id": "C99", "title": "An error is reported at the first character that cannot be continued", "statement": "If compilation fails at an offset before the end, no valid pattern begins with the text up to and including the character at that offset.", "quantifier": "every UTF-8 text that is rejected", "why_tests_cant": "Requires comparing with all continuations.", "anchors": ["src/grammar/parser/pattern_parser.rs: ParseError, ParseState::mark_failure, slice_eq, any_char, pattern", "src/grammar/parser/mod.rs: pattern, pattern_with_factory"]}
{"id": "C100", "title": "Every expected terminal can follow", "statement": "Every terminal listed as expected stands for a text that can be written at the reported offset and then continued without error.", "quantifier": "every rejected UTF-8 text, every element of its expected set", "why_tests_cant": "Requires looking at every element of every expected set.", "anchors": ["src/grammar/parser/pattern_parser.rs: ParseError, ParseState::mark_failure, slice_eq, any_char, pattern", "src/grammar/parser/mod.rs: pattern, pattern_with_factory"]}
{"id": "C101", "title": "The expected set is complete", "statement": "Every terminal of the grammar that can follow the text before the reported offset is listed as expected.", "quantifier": "every UTF-8 text that is rejected", "why_tests_cant": "Requires comparing with all continuations.", "anchors": ["src/grammar/parser/pattern_parser.rs: ParseError, ParseState::mark_failure, slice_eq, any_char, pattern", "src/grammar/parser/mod.rs: pattern, pattern_with_factory"]}
{"id": "C102", "title": "A uuid in an error message identifies the pattern", "statement": "Every 16-byte uuid is written as 8-4-4-4-12 lower-case hexadecimal digits, and different uuids are written differently.", "quantifier": "All 16-byte uuids.", "why_tests_cant": "There are 2^128 uuids; tests print a few.", "anchors": ["src/matcher/pattern/testmessage/error.rs: Error, fmt::Display for Error, error::Error for Error"]}
{"id": "C103", "title": "A test error's message names its kind and uuids and leaves nothing out", "statement": "Two test errors with the same message are of the same kind and carry the same uuids in the same roles, and the message of an error contains every uuid, key, value, message and tag that the error carries.", "quantifier": "All pairs of test errors and all texts in them, including texts that imitate the format.", "why_tests_cant": "Keys and values are arbitrary texts and could imitate the fixed parts of the format.", "anchors": ["src/matcher/pattern/testmessage/error.rs: Error, fmt::Display for Error, error::Error for Error"]}
{"id": "C104", "title": "The message of a test error determines the error", "statement": "Two test errors with the same message are equal.", "quantifier": "All pairs of test errors whose uuids have 16 bytes.", "why_tests_cant": "An ambiguity shows only for texts that contain parts of the format.", "anchors": ["src/matcher/pattern/testmessage/error.rs: Error, fmt::Display for Error, error::Error for Error"]}
{"id": "C105", "title": "The message of a test error begins with its description", "statement": "The Display text of a test error is its description, a colon and details; the description depends on the kind of error only, and tells the kinds apart.", "quantifier": "All test errors.", "why_tests_cant": "Tests look at neither text.", "anchors": ["src/matcher/pattern/testmessage/error.rs: Error, fmt::Display for Error, error::Error for Error"]}
{"id": "C106", "title": "The texts of loading errors agree and tell the errors apart", "statement": "For loading errors without details the Display text and the description are the same, and the Display text tells apart test errors, unsupported extensions and unreadable names.", "quantifier": "All loading errors other than those of libraries.", "why_tests_cant": "Tests look at neither text.", "anchors": ["src/matcher/pattern_source/error.rs: BuildError, fmt::Display for BuildError, error::Error for BuildError"]}
{"id": "C107", "title": "The cause of a loading error made from another error is that error", "statement": "For a BuildError that wraps an error, cause() refers to the wrapped error.", "quantifier": "All wrapped errors.", "why_tests_cant": "Tests never call cause.", "anchors": ["src/matcher/pattern_source/error.rs: BuildError, fmt::Display for BuildError, error::Error for BuildError"]}
{"id": "C108", "title": "The message of a compile error determines position and alternatives", "statement": "The texts of two compile errors are equal only if line, column and the set of expected terminals are the same, whatever the order in which the hash set is iterated; every expected terminal is listed; and the text never says that the end of the input was expected.", "quantifier": "All valid UTF-8 texts that do not compile, all orders of iteration.", "why_tests_cant": "Infinitely many erroneous texts, and the order of iteration changes from run to run.", "anchors": ["src/grammar/parser/pattern_parser.rs: Display for ParseError"]}
{"id": "C109", "title": "A converted patterndb pattern means what it should", "statement": "For a patterndb pattern made of texts without at signs and supported parsers with names actiondb accepts and options without colons (a colon is possible as the delimiter of ESTRING), whose texts contain no \"%{\" and whose sets contain no quotation mark, the converter produces a text that compiles exactly to the corresponding sequence of literals and parsers. Every supported parser has a counterpart, except SET without characters.", "quantifier": "All such patterns.", "why_tests_cant": "The converter has no tests.", "anchors": ["utils/pdb2adb: _p2p, _unescape_pattern, _validate_pattern"]}
{"id": "C110", "title": "At signs can be written in patterndb patterns", "statement": "A text with at signs, written with every at sign doubled as patterndb requires, is converted to the text itself.", "quantifier": "All UTF-8 texts.", "why_tests_cant": "The converter has no tests.", "anchors": ["utils/pdb2adb: _p2p, _unescape_pattern, _validate_pattern"]}
{"id": "C111", "title": "Texts of patterndb patterns are converted to literals", "statement": "A patterndb pattern that is only text is converted to a pattern that compiles to this text as its only literal.", "quantifier": "All non-empty UTF-8 texts without at signs.", "why_tests_cant": "The converter has no tests.", "anchors": ["utils/pdb2adb: _p2p, _unescape_pattern, _validate_pattern"]}
{"id": "C112", "title": "ESTRING ends at its first delimiter after conversion", "statement": "The value captured for a converted ESTRING parser is what precedes the first occurrence of its delimiter.", "quantifier": "All patterns that begin with an ESTRING parser, all messages.", "why_tests_cant": "The converter has no tests.", "anchors": ["utils/pdb2adb: _p2p, _unescape_pattern, _validate_pattern"]}
{"id": "C113", "title": "The whole option of a parser is converted", "statement": "Parsers with different options are converted to different texts.", "quantifier": "All options without at signs.", "why_tests_cant": "The converter has no tests.", "anchors": ["utils/pdb2adb: _p2p, _unescape_pattern, _validate_pattern"]}
{"id": "C114", "title": "Every pattern that can be converted is converted", "statement": "A pattern for which the converter finds a text that compiles is in the output.", "quantifier": "All patterns.", "why_tests_cant": "The converter has no tests.", "anchors": ["utils/pdb2adb: main loop over %rule, _p2p"]}
{"id": "C115", "title": "Patterns are dropped exactly if they have an unsupported parser", "statement": "The converter rejects a pattern exactly if one of the parts between at signs has a type that is not supported, and the supported types are the names of the parsers.", "quantifier": "All texts.", "why_tests_cant": "The converter has no tests.", "anchors": ["utils/pdb2adb: _p2p, _unescape_pattern, _validate_pattern"]}
{"id": "C116", "title": "The converted document describes the rules", "statement": "The patterns loaded from the output are, in order, the convertible patterns of the rules whose ruleset has a program: named after the ruleset and numbered, the first of a rule with the id of the rule, with the program in front if asked for, with the tags of the rule, its values without macros, and one test message per example with its values.", "quantifier": "All lists of rules, all rulesets, both settings of the option, all sequences of created uuids.", "why_tests_cant": "The converter has no tests.", "anchors": ["utils/pdb2adb: ruleset, ruleset_description, ruleset_pattern, rule, rule_pattern, example, rule_tag, rule_value, action", "utils/pdb2adb: main loop over %rule, _test_messages"]}
{"id": "C117", "title": "When the converted document can be loaded", "statement": "The output is loaded without an error exactly if all uuids used are valid and every converted pattern, with the program in front if asked for, compiles.", "quantifier": "All lists of rules, all rulesets, both settings of the option.", "why_tests_cant": "The converter has no tests.", "anchors": ["utils/pdb2adb: ruleset, ruleset_description, ruleset_pattern, rule, rule_pattern, example, rule_tag, rule_value, action", "utils/pdb2adb: main loop over %rule, _test_messages"]}
{"id": "C118", "title": "Names and uuids in the converted document are unique", "statement": "No two patterns loaded from the output have the same name, and if the ids of the rules are different and differ from the created uuids, no two have the same uuid.", "quantifier": "All lists of rules.", "why_tests_cant": "The converter has no tests.", "anchors": ["utils/pdb2adb: ruleset, ruleset_description, ruleset_pattern, rule, rule_pattern, example, rule_tag, rule_value, action", "utils/pdb2adb: main loop over %rule, _test_messages"]}
{"id": "C119", "title": "When the converter dies", "statement": "The converter dies exactly if a rule whose ruleset has a program has examples but no patterns.", "quantifier": "All lists of rules.", "why_tests_cant": "The converter has no tests.", "anchors": ["utils/pdb2adb: main loop over %rule, _test_messages"]}
{"id": "C120", "title": "Adding patterns to the trie panics exactly when literals meet at a non-ASCII character", "statement": "Adding patterns to an empty trie panics exactly if one of them begins with a literal for which, among the literals added before and reached by following it, two literals have to be compared at a character that is not ASCII, or the new literal parts from one of them at such a character; otherwise it succeeds.", "quantifier": "All lists of valid patterns whose parsers have different hashes.", "why_tests_cant": "Whether an addition panics depends on the order of all previous additions and on where literals part; the tests use one or two literals.", "anchors": ["src/matcher/trie/node/literal.rs: LiteralNode::cmp_str, split", "src/matcher/trie/node/mod.rs: add_literal_node", "src/matcher/trie/node/mod.rs: SuffixTree::parse, lookup_literal, search, parse_with_parsers, parse_then_push_kvpair", "src/matcher/trie/node/mod.rs: insert_literal, insert_literal_tail, lookup_freshly_inserted_literal"]}
{"id": "C121", "title": "Matching panics exactly when the message meets a literal at a non-ASCII character or a parser panics", "statement": "Matching a message panics exactly if, following the literals and the parsers that are tried, the message or a literal it is compared with goes on with a character that is not ASCII at a place where literals are compared, or a parser that is tried panics; otherwise the result is that of the abstract matcher.", "quantifier": "All tries built from valid patterns whose parsers have different hashes, all UTF-8 messages.", "why_tests_cant": "There is no test with a non-ASCII message for the trie.", "anchors": ["src/matcher/trie/node/literal.rs: LiteralNode::cmp_str", "src/matcher/trie/node/mod.rs: SuffixTree::parse, lookup_literal, search, parse_with_parsers, parse_then_push_kvpair"]}
{"id": "C122", "title": "When a trie of literals panics, in terms of the literals alone", "statement": "For patterns of one literal each: adding panics exactly if some literal and the earlier ones are compared, or parted, at a non-ASCII character; matching panics exactly if the message and the literals are compared at one. Only the set of literals matters, not how the trie splits them.", "quantifier": "All lists of one-literal patterns, all UTF-8 messages.", "why_tests_cant": "The nodes of the trie depend on the order of additions; tests fix one order.", "anchors": ["src/matcher/trie/node/literal.rs: LiteralNode::cmp_str, split", "src/matcher/trie/node/mod.rs: insert_literal, insert_literal_tail, lookup_freshly_inserted_literal"]}
{"id": "C123", "title": "A first character that is not ASCII breaks the trie", "statement": "As soon as one pattern begins with a non-empty literal, every message beginning with a non-ASCII character makes matching panic, and if that literal itself begins with a non-ASCII character, every non-empty message does; and two patterns that begin with non-empty literals can only be added if neither begins with a non-ASCII character.", "quantifier": "All tries built from valid patterns whose parsers have different hashes, all UTF-8 messages.", "why_tests_cant": "Tests only use ASCII first characters.", "anchors": ["src/matcher/trie/node/literal.rs: LiteralNode::cmp_str", "src/matcher/trie/node/mod.rs: SuffixTree::parse, lookup_literal, search, parse_with_parsers, parse_then_push_kvpair"]}
{"id": "C124", "title": "Without literals the trie never panics on UTF-8", "statement": "Patterns that consist of parsers over ASCII character sets can always be added, and matching any UTF-8 message gives the result of the abstract matcher.", "quantifier": "All lists of valid patterns without literals, all UTF-8 messages.", "why_tests_cant": "All messages and all character boundaries would have to be tried.", "anchors": ["src/matcher/trie/node/mod.rs: SuffixTree::parse, lookup_literal, search, parse_with_parsers, parse_then_push_kvpair", "src/parsers/set.rs: SetParser::parse, calculate_match_length"]}
{"id": "C125", "title": "Exactly when the suffix table panics", "statement": "A parser panics exactly when the text it is to take ends inside a character. Adding valid patterns to the suffix table never panics, and matching a message panics exactly when the nearest literals lead to a place where a parser that is tried takes text ending inside a character; otherwise the result is that of the abstract matcher.", "quantifier": "All lists of valid patterns whose parsers have different hashes, all UTF-8 messages.", "why_tests_cant": "Every combination of sets, messages and positions of multi-byte characters would have to be tried.", "anchors": ["src/matcher/suffix_array/impls.rs: SuffixTable::insert, insert_literal, insert_parser, parse, longest_common_prefix, parse_with_parsers", "src/parsers/set.rs: SetParser::parse, calculate_match_length", "src/parsers/base.rs: ParserBase"]}
{"id": "C126", "title": "No parser is called more often than it occurs in the patterns", "statement": "While one message is matched, a parser is called at most as often as it occurs in the patterns, always on a suffix of the message, so that the number of calls does not grow with the message.", "quantifier": "All lists of patterns, all messages, both matchers.", "why_tests_cant": "Tests observe results, not the work done, and only on a few messages.", "anchors": ["src/matcher/trie/node/mod.rs: SuffixTree::parse, lookup_literal, search, parse_with_parsers, parse_then_push_kvpair", "src/matcher/trie/node/parser.rs: ParserNode::parse, push_last_kvpair", "src/matcher/suffix_array/impls.rs: SuffixTable::insert, insert_literal, insert_parser, parse, longest_common_prefix, parse_with_parsers"]}
{"id": "C127", "title": "The matchers have at most one node for each token", "statement": "The nodes that hold parsers are at most as many as the parser tokens of the patterns. In the suffix table the entries that hold literals are at most as many as the literal tokens; in the trie there may be one more for each pattern beginning with a literal, as adding it may split a node.", "quantifier": "All lists of patterns, both matchers.", "why_tests_cant": "Tests do not look at sizes.", "anchors": ["src/matcher/trie/node/mod.rs: SuffixTree::insert, insert_literal, insert_parser, parse, lookup_literal, parse_with_parsers", "src/matcher/trie/node/literal.rs: LiteralNode::cmp_str, split", "src/matcher/suffix_array/impls.rs: SuffixTable::insert, insert_literal, insert_parser, parse, longest_common_prefix, parse_with_parsers"]}
{"id": "C128", "title": "The order of independent patterns does not matter", "statement": "Exchanging two neighbouring patterns does not change the trie if one begins with a literal and the other with a parser, or with literals neither of which is a prefix of the other, or if one consists of the first token of the other; so any order gives the same trie if all pairs are like this. The same holds for the suffix table, where the literals only have to differ.", "quantifier": "All lists of valid patterns, all hash functions, all orders for which adding does not panic.", "why_tests_cant": "All permutations and all messages would have to be tried.", "anchors": ["src/matcher/trie/node/mod.rs: SuffixTree::insert, insert_literal, insert_parser, parse, lookup_literal, parse_with_parsers", "src/matcher/suffix_array/impls.rs: SuffixTable::insert, insert_literal, insert_parser, parse, longest_common_prefix, parse_with_parsers"]}
{"id": "C129", "title": "Adding the same patterns again changes nothing", "statement": "If all patterns are added a second time in the same order, and this does not panic, the matcher is the same as before, node for node.", "quantifier": "All lists of valid patterns, all hash functions.", "why_tests_cant": "Tests do not load a source twice, and routing of the second round through nodes made by the first depends on all patterns.", "anchors": ["src/matcher/trie/node/mod.rs: SuffixTree::insert, insert_literal, insert_parser, parse, lookup_literal, parse_with_parsers", "src/matcher/suffix_array/impls.rs: SuffixTable::insert, insert_literal, insert_parser, parse, longest_common_prefix, parse_with_parsers"]}
{"id": "C130", "title": "The trie holds exactly the patterns not dropped", "statement": "After a series of additions the trie holds, under the path of an added pattern, that pattern without its tokens, unless a later pattern has the same tokens, or goes on after its first token and that first token is also the first token of the pattern, which goes on too, or is a literal behind which the first literal of the pattern was put when it was added. It holds nothing else, and only a pattern that is held is reported. The suffix table likewise reports only patterns that no later one displaced.", "quantifier": "all valid pattern lists without adjacent literals and without hash collision, all paths, all messages", "why_tests_cant": "What a trie holds depends on the whole history of additions; tests add two or three patterns.", "anchors": ["src/matcher/trie/node/mod.rs: SuffixTree::insert, insert_literal, insert_parser, parse, lookup_literal, parse_with_parsers", "src/matcher/trie/node/literal.rs: LiteralNode::cmp_str, split", "src/matcher/suffix_array/impls.rs: SuffixTable::insert, insert_literal, insert_parser, parse, longest_common_prefix, parse_with_parsers"]}
{"id": "C131", "title": "Every pattern of a pattern file can match", "statement": "Every pattern of a loaded pattern file is reported for some message.", "quantifier": "all pattern files that load", "why_tests_cant": "A single file with test messages for each pattern can be tested; that some pattern never matches any message cannot.", "anchors": ["README.md: JSON pattern files", "src/matcher/pattern/file/iter.rs: IntoIter::next", "src/matcher/pattern_loader.rs: PatternLoader::from_file, from_file_ignore_errors, load_file", "src/matcher/trie/node/mod.rs: SuffixTree::insert, insert_literal, insert_parser, parse, lookup_literal, parse_with_parsers"]}
{"id": "C132", "title": "What the converter reads from a patterndb file", "statement": "If the handlers of pdb2adb do not die, the programs under a ruleset name are the texts of exactly the pattern elements below rulesets with that name, in order; there is one rule for each id of a rule element; its patterns, tags and examples are those of the elements whose nearest rule has that id, its ruleset is that of the last rule element with the id, and its value for a name is the last one given. The script dies exactly at a ruleset that is the root, a rule or description outside of a ruleset, an action outside of a rule or without message, or (with examples) an example without test_message.", "quantifier": "all XML documents, with and without examples", "why_tests_cant": "Documents nest elements in arbitrary ways; a few sample files cannot show which nestings are read, merged or fatal.", "anchors": ["utils/pdb2adb: init, ruleset, ruleset_pattern, rule, rule_pattern, example, rule_tag, rule_value, action"]}
{"id": "C133", "title": "Rules keep apart and keep their programs", "statement": "Every rule of a patterndb file gives one rule of its own, and it is converted with the program of its own ruleset.", "quantifier": "all patterndb files", "why_tests_cant": "Needs files whose rulesets share a name or whose rules share an id; nothing fails visibly then.", "anchors": ["utils/pdb2adb: ruleset_pattern, rule, rule_pattern", "utils/pdb2adb: main loop over %rule"]}
{"id": "C134", "title": "The converter from file to patterns", "statement": "For a standard patterndb file (distinct, non-empty ruleset names, distinct ids and value names), the document written by pdb2adb, when it loads, gives exactly one pattern for each convertible pattern of the file, in order, with the first program of its own ruleset, the values, tags and test messages of its own rule; the script dies only at a rule with examples and without patterns; uuids stay distinct.", "quantifier": "all standard patterndb files, both options, all sequences of created uuids", "why_tests_cant": "End to end over unboundedly many rulesets, rules, patterns and examples.", "anchors": ["utils/pdb2adb: init, ruleset_pattern, rule, rule_pattern, example, rule_tag, rule_value, action, main loop over %rule, _test_messages, _p2p", "src/matcher/pattern/file/deser.rs: FileVisitor::visit_map", "src/matcher/pattern/deser.rs: PatternVisitor::visit_map"]}
{"id": "C135", "title": "Which patterns can match at all", "statement": "A pattern compiled from an ASCII string matches some ASCII message in a trie of its own exactly if every SET and INT has a character and a length within its bounds, what follows a SET or INT can begin with a character outside its set, and only GREEDY without an end string follows GREEDY without an end string; the suffix table is the same except that a literal after a SET or INT may be missing from the message. Together with other patterns, too, only patterns that satisfy this for the characters of the message are reported.", "quantifier": "all pattern strings, all sets of compiled patterns, all messages", "why_tests_cant": "That a pattern matches no message at all cannot be shown by trying messages.", "anchors": ["src/matcher/trie/node/mod.rs: SuffixTree::parse, lookup_literal, search, parse_with_parsers, parse_then_push_kvpair", "src/matcher/trie/node/parser.rs: ParserNode::parse, push_last_kvpair", "src/matcher/suffix_array/impls.rs: SuffixTable::parse, longest_common_prefix, parse_with_parsers, ParserE::parse, create_match_result", "src/parsers/set.rs: SetParser::parse, calculate_match_length", "src/parsers/greedy.rs: GreedyParser::parse", "README.md: Available parsers"]}
{"id": "C136", "title": "Pattern and values tell the message", "statement": "If all parsers of a reported pattern have names, different ones, then two messages with the same pattern and the same values are the same message.", "quantifier": "tries and suffix tables of all patterns without hash collisions, all pairs of messages", "why_tests_cant": "It speaks about all pairs of messages.", "anchors": ["src/matcher/result.rs: MatchResult::insert, MatchResult::pattern", "src/matcher/trie/node/mod.rs: SuffixTree::parse, lookup_literal, search, parse_with_parsers, parse_then_push_kvpair", "src/matcher/trie/node/parser.rs: ParserNode::parse, push_last_kvpair", "src/matcher/suffix_array/impls.rs: SuffixTable::parse, longest_common_prefix, parse_with_parsers, ParserE::parse, create_match_result"]}
{"id": "C137", "title": "Hash collisions confuse only parsers at the beginning of patterns", "statement": "For every hash function, the trie and the suffix table built from a list of patterns are exactly those that a hash function without collisions builds from the patterns in which the first token, if it is a parser, is replaced by the first parser of the same hash at the beginning of a pattern. If the parsers at the beginning have different hashes, collisions have no effect at all.", "quantifier": "all hash functions, all lists of patterns", "why_tests_cant": "No two parsers with the same SipHash value are known, so tests never see a collision.", "anchors": ["src/matcher/trie/node/mod.rs: lookup_parser", "src/matcher/trie/node/mod.rs: insert_parser, SuffixTree::insert", "src/matcher/suffix_array/impls.rs: insert_parser, SuffixTable::insert", "src/parsers/mod.rs: ObjectSafeHash"]}
{"id": "C138", "title": "Later patterns that leave a match and its test message alone", "statement": "A message that the suffix table matches is matched in the same way after more patterns are added, if each of them begins with a literal sharing fewer characters with the message than the first literal of a pattern already present, or, when there is such a literal, with a parser, or in any case with a parser that no pattern present begins with. For the trie the same holds of patterns that begin with a literal whose first byte is not that of the message, or with a new parser. A test message that passed while its pattern was loaded therefore passes against the final matcher if no other patterns come later. Patterns outdone in this way, wherever they stand, can be left out of the table without changing the answer.", "quantifier": "all lists of patterns, all messages, all sources of patterns with test messages", "why_tests_cant": "A test message is only checked against the patterns loaded so far; which later patterns may break it depends on all of them.", "anchors": ["src/matcher/suffix_array/impls.rs: SuffixTable::insert, insert_literal, insert_parser, parse, longest_common_prefix, parse_with_parsers", "src/matcher/trie/node/mod.rs: SuffixTree::insert, insert_literal, insert_parser, parse, lookup_literal, parse_with_parsers", "src/matcher/pattern_loader.rs: PatternLoader::from_file, from_file_ignore_errors, load_file", "src/matcher/pattern_source/mod.rs: from_source, from_source_ignore_errors, check_pattern, extract_test_messages, check_test_messages, check_test_message"]}
{"id": "C139", "title": "A pattern that a later one replaced does not change the answers", "statement": "A pattern whose place a later pattern takes (same first token, and both or neither of one token) has no effect on later answers: every message is answered as by a matcher that never got the replaced pattern. Known violation: in both matchers the replaced pattern still fixes the place of its first parser among the parsers tried, and in the trie it still fixes the node of its first literal, behind which other literals may have gone. When no pattern between the two shows such a trace the two matchers are equal, node for node, whatever the hash function.", "quantifier": "all lists of patterns, all positions of the replaced and the replacing pattern, all messages", "why_tests_cant": "A test would have to compare all messages against all lists of patterns with one of them left out.", "anchors": ["src/matcher/trie/node/mod.rs: SuffixTree::insert, insert_literal, insert_parser, parse, lookup_literal, parse_with_parsers", "src/matcher/suffix_array/impls.rs: SuffixTable::insert, insert_literal, insert_parser"]}
{"id": "C140", "title": "How loading ends", "statement": "Loading ends on every source, with either matcher: with a matcher, an error or a panic. Checked loading panics exactly when, after patterns that were added and passed their test messages, there is one that cannot be added or one of whose test messages cannot be matched, all later ones passing. With errors ignored the same holds of the patterns after any that could be added. In the trie a pattern cannot be added exactly when its first literal meets another one inside a character; adding to a suffix table never panics. When checked loading succeeds, loading with errors ignored gives the same matcher; when loading with errors ignored succeeds, checked loading gives the same matcher or an error, but no panic.", "quantifier": "all sources of patterns and errors, all patterns and test messages, both matchers (the first statements: any matcher)", "why_tests_cant": "Panics depend on all patterns loaded before and on the order in which test messages are tried; that no source makes loading run for ever cannot be tested.", "anchors": ["src/matcher/pattern_source/mod.rs: from_source, from_source_ignore_errors, check_pattern, extract_test_messages, check_test_messages, check_test_message", "src/matcher/trie/node/mod.rs: SuffixTree::insert, insert_literal, insert_parser, parse, lookup_literal, parse_with_parsers", "src/matcher/suffix_array/impls.rs: SuffixTable::insert, insert_literal, insert_parser"]}
{"id": "C141", "title": "A loaded trie has no idle nodes and is determined by what it holds", "statement": "In every trie made by adding patterns the literals side by side differ in their first byte and are ordered by it, the parsers side by side differ, every node holds a pattern or has nodes below it, and a node that ends no literal of a pattern is where at least two literals part. There is only one such trie for each content.", "quantifier": "All lists of valid patterns that can be added without a panic, all hash functions; all pairs of tries of this shape.", "why_tests_cant": "A test sees the shape of a few tries; here it is fixed for every order of additions and every split of nodes.", "anchors": ["src/matcher/trie/node/mod.rs: SuffixTree::insert, insert_literal, insert_literal_tail, insert_parser", "src/matcher/trie/node/literal.rs: LiteralNode::split"]}
{"id": "C142", "title": "Patterns with separate first literals are matched and loaded as if each were alone", "statement": "When every pattern begins with a literal and none of these literals is the beginning of another, at most one pattern matches a text on its own. The trie answers with exactly that pattern and its captures, and with nothing if there is none. The order of the patterns does not change the trie. Loading succeeds exactly when every test message describes its own pattern: the pattern alone matches it, has the expected tags and captures or brings along the expected values. For ASCII documents and texts none of this panics.", "quantifier": "All collections of valid patterns of this kind, all hash functions, all UTF-8 texts; for loading also all UTF-8 test messages and distinct uuids, whenever loading does not panic; all ASCII documents.", "why_tests_cant": "It excludes interference between patterns for every collection of this kind; tests look at a few files.", "anchors": ["src/matcher/trie/node/mod.rs: SuffixTree::parse, lookup_literal, search, parse_with_parsers, parse_then_push_kvpair", "src/matcher/trie/node/mod.rs: SuffixTree::insert, insert_literal, insert_literal_tail, insert_parser", "src/matcher/pattern_source/mod.rs: from_source, from_source_ignore_errors, check_pattern, extract_test_messages, check_test_messages, check_test_message"]}
{"id": "C143", "title": "Test messages of separate patterns stay valid in both matchers", "statement": "When every pattern begins with a literal and none of these is the beginning of another, every test message that passed while the trie was loaded passes on the loaded trie, unless matching it panics. A suffix table answers with the pattern that matches the text on its own, if there is one, and it is loaded when every test message describes its pattern; then they all pass on the loaded table. The converse holds for the trie (C142) but not for the table, which also accepts texts that stop within a literal.", "quantifier": "All collections of valid patterns of this kind with UTF-8 test messages, all hash functions; for the trie with distinct uuids, for the table with ASCII character sets.", "why_tests_cant": "C42 is false in general; that it holds for a whole class of collections concerns all of them and all later patterns.", "anchors": ["src/matcher/pattern_source/mod.rs: from_source, from_source_ignore_errors, check_pattern, extract_test_messages, check_test_messages, check_test_message", "src/matcher/suffix_array/impls.rs: SuffixTable::insert, insert_literal, insert_parser, parse, longest_common_prefix, parse_with_parsers", "src/matcher/trie/node/mod.rs: SuffixTree::parse, lookup_literal, search, parse_with_parsers, parse_then_push_kvpair"]}
{"id": "C144", "title": "Patterns and regular expressions", "statement": "Reading a literal as its text, SET and INT as [set]{m,n} of at least one character and GREEDY as .*, a pattern reported by the trie matches the message as a regular expression and the values are groups of that match. For a pattern in which what follows a SET or INT cannot be taken for a part of it and in which GREEDY is only followed by text and GREEDY in turn, the trie matches exactly what the regular expression matches (with .+ for a GREEDY at the end after a literal), alone and together with separate patterns. If GREEDY is only used for the rest of the message there is only one way to choose the groups. The suffix table reports a pattern only if it matches with its literals cut short, and a separate pattern of this kind whenever it matches.", "quantifier": "all patterns with UTF-8 literals, all messages, all hash functions without collisions among the patterns' parsers (any hash function for separate patterns)", "why_tests_cant": "The matcher never goes back, a regular expression does; that both agree is a statement about all ways to divide all messages, and the class of patterns for which they agree has no bound on its length.", "anchors": ["README.md: Available parsers", "src/matcher/trie/node/mod.rs: SuffixTree::parse, lookup_literal, search, parse_with_parsers, parse_then_push_kvpair", "src/matcher/trie/node/parser.rs: ParserNode::parse, push_last_kvpair", "src/parsers/set.rs: SetParser::parse, calculate_match_length", "src/parsers/greedy.rs: GreedyParser::parse", "src/matcher/suffix_array/impls.rs: SuffixTable::parse, longest_common_prefix, parse_with_parsers, ParserE::parse, create_match_result"]}
{"id": "C145", "title": "Nothing listed as expected stands at the error", "statement": "No terminal in the expected set of a compile error matches the text at the reported offset, when a class in brackets is read as a class (a character, a hyphen and a character being a range) and <character> as any one character.", "quantifier": "every UTF-8 text that is rejected, every listed terminal, every text it stands for", "why_tests_cant": "Tests compare a few messages; none checks that a listed terminal is absent from the text.", "anchors": ["src/grammar/parser/pattern_parser.rs: ParseState::mark_failure", "src/grammar/parser/pattern.rustpeg: pattern, pattern_piece, parser, parser_name, literal, string, int"]}
{"id": "C146", "title": "Texts are sequences of Unicode scalar values", "statement": "The texts the model quantifies over are exactly the UTF-8 encodings, by the arithmetic of RFC 3629, of sequences of scalar values (code points that are not surrogates). Each text encodes one sequence only; the positions at which it may be cut are those between the encodings; and reading the character at such a position yields the next value's encoding and the position after it.", "quantifier": "every byte sequence, every sequence of scalar values, every position", "why_tests_cant": "The tests use a handful of non-ASCII characters; slicing at a wrong byte panics.", "anchors": ["src/grammar/parser/pattern_parser.rs: char_range_at", "src/utils/common_prefix.rs: common_prefix_len, ltrunc, rtrunc"]}
{"id": "C147", "title": "Error texts are their format strings filled in", "statement": "The text of a failed test message is the format string of its kind with the hyphenated identifier(s), the key, values, message or tags in this order. The text of a compile error is the line and the column as decimal numerals and the expected terminals in backquotes, separated by commas, after 'one of' if there are several; every listed terminal is one of the nineteen of pattern.rustpeg, shown as it is except for the quotation mark, which is escaped.", "quantifier": "every test-message error, every rendering of tags, every rejected UTF-8 text and every iteration order", "why_tests_cant": "No test looks at the text of an error.", "anchors": ["src/matcher/pattern/testmessage/error.rs: fmt::Display for Error", "src/grammar/parser/pattern_parser.rs: Display for ParseError", "src/grammar/parser/pattern.rustpeg: pattern, pattern_piece, parser, parser_name, literal, string, int"]}
{"id": "C148", "title": "JSON and YAML pattern files with the same content are loaded alike", "statement": "When a file with the extension json and a file with the extension yaml, yml, YAML or YML can be opened and hold the same document, loading them gives the same matcher, or the same failed test message, or panics for both. If the document is not a pattern file, both loads fail with the same cause, reported as the JSON or the YAML deserialization error. This holds with and without ignoring errors.", "quantifier": "every document, every pair of paths with such extensions, every matcher implementation, every pair of readers that hand the document to the Deserialize implementation of PatternFile", "why_tests_cant": "The tests load one file in both formats and compare only the number of its patterns; no matcher is built from a YAML file.", "anchors": ["src/matcher/pattern_loader.rs: PatternLoader, load_file, from_file, from_file_ignore_errors", "src/matcher/pattern/file/deser.rs: deserialize, visit_map", "README.md: Their schema is the same"]}
{"id": "C149", "title": "In the trie a literal must not begin with a character beyond ASCII", "statement": "A trie holding one pattern whose sets are ASCII matches every message of the pattern, and reports the pattern and its captures, if no literal of the pattern begins with a character that is not ASCII; otherwise it panics on every message of the pattern. With other patterns, too, a pattern with such a literal is never reported.", "quantifier": "every pattern with ASCII sets, every UTF-8 message; every set of compiled patterns for the last sentence", "why_tests_cant": "The tests have no pattern in which a parser is followed by a character beyond ASCII, and that no message at all is matched cannot be shown by trying some.", "anchors": ["src/matcher/trie/node/literal.rs: cmp_str", "src/matcher/trie/node/mod.rs: SuffixTree::parse, lookup_literal, search, parse_with_parsers", "src/matcher/trie/node/parser.rs: ParserNode::parse"]}
{"id": "C150", "title": "Which patterns beyond ASCII can match at all", "statement": "A pattern compiled from a string whose sets are ASCII matches some message in a trie of its own exactly if neighbours fit as in C135, now with all characters available for messages, and no literal begins with a character that is not ASCII. The suffix table needs only the first condition, with the literals that may be missing from the message.", "quantifier": "all UTF-8 pattern strings whose sets are ASCII; all UTF-8 messages", "why_tests_cant": "That a pattern matches no message at all cannot be shown by trying messages.", "anchors": ["src/matcher/trie/node/mod.rs: SuffixTree::parse, lookup_literal, search, parse_with_parsers, parse_then_push_kvpair", "src/matcher/trie/node/literal.rs: cmp_str", "src/matcher/suffix_array/impls.rs: SuffixTable::parse, longest_common_prefix, parse_with_parsers, ParserE::parse, create_match_result", "src/parsers/set.rs: SetParser::parse, calculate_match_length", "src/parsers/greedy.rs: GreedyParser::parse"]}
{"id": "C151", "title": "Plain text in front of a pattern", "statement": "If a text has no percent sign and no backslash, then with it in front a pattern string compiles to the same tokens with the text in front, joined with the first literal if there is one. In a trie of its own, the longer pattern answers for a message that begins with the text as the shorter one answers for the rest, with the same values, and nothing else is matched; in a suffix table of its own it answers alike for messages that begin with the text.", "quantifier": "all texts without percent sign and backslash, all UTF-8 pattern strings that compile, all messages for which neither matcher panics (C121, C149 say when)", "why_tests_cant": "The tests compile a fixed set of strings and do not compare a pattern with a longer one on all messages.", "anchors": ["src/grammar/parser/pattern.rustpeg: pattern, pattern_piece, literal", "src/grammar/mod.rs: unescape_literal", "src/matcher/trie/node/mod.rs: SuffixTree::parse, lookup_literal", "src/matcher/suffix_array/impls.rs: SuffixTable::parse, longest_common_prefix"]}
{"id": "C152", "title": "The option -P of the converter", "statement": "For a standard patterndb file, the documents pdb2adb writes with and without -P, when both load, have as many patterns, and each pattern of the one with -P is the other one's with the program of the ruleset, a colon and a space in front (in the sense of C151): same name, uuid, tags and values, and the same test messages with the program of the example, a colon and a space in front.", "quantifier": "all standard patterndb files, all sequences of created uuids, all programs without percent sign and backslash", "why_tests_cant": "There are no tests of the converter.", "anchors": ["utils/pdb2adb: action, _test_messages, program"]}
{"id": "C153", "title": "Patterns converted with -P match behind the program what they match without it", "statement": "Let pdb2adb convert a pattern database of one program without -P and with -P, and let both files be loaded by the factory. A message the first matcher reports a pattern for is reported by the second one when the program, a colon and a space are put in front of it.", "quantifier": "For all pattern databases of one program, all messages and both matchers.", "why_tests_cant": "Tests use single rules; the loss shows only with two rules that begin with a parser.", "anchors": ["utils/pdb2adb: action, program", "src/matcher/trie/node/mod.rs: SuffixTree::parse, lookup_literal", "src/matcher/suffix_array/impls.rs: SuffixTable::parse"]}
{"id": "C154", "title": "Names of values and attributes of patterns do not influence matching", "statement": "Take two lists of patterns of the same length whose patterns have, place by place, the same literals and the same parsers except for the names of the values, where equal names are renamed alike and different ones stay different; uuids, names, tags, values and test messages of the patterns may differ. Adding the first list to a matcher panics exactly if adding the second one does. For each message, the matchers report patterns of the same place or both none, or both panic, and the values are the same under the new names.", "quantifier": "For all one-to-one renamings, all lists of usable patterns, all hash functions without collisions on them, all messages, and both matchers.", "why_tests_cant": "It compares two runs over arbitrary sets of patterns; the parsers hash their names, and the maps of values are sorted by them, so names do take part in what the code computes.", "anchors": ["src/parsers/mod.rs: ParserBase, name", "src/matcher/trie/node/mod.rs: SuffixTree::parse, lookup_literal", "src/matcher/suffix_array/impls.rs: SuffixTable::parse", "src/matcher/pattern/mod.rs: Pattern"]}
{"id": "C155", "title": "Which compiled patterns can be written", "statement": "A list of tokens is the result of compiling some pattern text exactly if it is not empty, no two literals follow each other, the end string of each GREEDY is the literal behind it or missing, literals are not empty, a literal behind GREEDY does not contain a percent sign followed by an opening brace, other literals do not contain the escape sequence, names are as the grammar allows, length bounds fit a usize, INT has the digits, and SET has the bytes of some non-empty text without quotation marks.", "quantifier": "For all lists of tokens and all pattern texts.", "why_tests_cant": "Tests compile given texts; that some tokens are the result of no text at all cannot be seen from examples.", "anchors": ["src/grammar/parser/pattern.rustpeg: pattern, pattern_piece, piece_literal, parser_GREEDY, identifier", "src/grammar/mod.rs: unescape_literal", "src/matcher/trie/parser_factory.rs: new_set, new_int, new_greedy"]}
{"id": "C156", "title": "When two patterns mean the same", "statement": "Two pattern texts are compiled to the same tokens exactly if they have the same texts, parsers and names in the same order, where a SET may list its characters in any order and more than once, and parameters may be in any order with the last one of each kind counting; spaces behind commas do not matter. In particular different texts between parsers always give different literals.", "quantifier": "For all pairs of pattern texts of the documented syntax.", "why_tests_cant": "It is about all pairs of texts, and the converse direction says that no two other texts are confused.", "anchors": ["src/grammar/parser/pattern.rustpeg: pattern, parser_SET, parser_INT, comma", "src/grammar/mod.rs: unescape_literal", "src/matcher/trie/parser_factory.rs: new_set, new_int"]}
{"id": "C157", "title": "INT is SET with the digits", "statement": "Replacing INT by SET with the ten digits in the text of a pattern, with the same parameters and name, gives the same tokens except for the kind of these parsers. Doing so in a list of patterns in which no INT has a SET of the digits with the same parameters and name beside it does not change whether adding panics, which patterns are reported and with which values, or when the matchers panic.", "quantifier": "For all pattern texts of the documented syntax, all lists of usable patterns, all hash functions without collisions on them, all messages, and both matchers.", "why_tests_cant": "The two kinds are distinguished by their hashes, so that the equivalence of sets of patterns, and its failure when both kinds are used, is a property of whole matchers.", "anchors": ["src/parsers/int.rs: IntParser", "src/parsers/set.rs: SetParser", "src/grammar/parser/pattern.rustpeg: parser_INT, parser_SET", "src/matcher/trie/node/mod.rs: SuffixTree::parse", "src/matcher/suffix_array/impls.rs: SuffixTable::parse"]}
{"id": "C158", "title": "Uuids and names of patterns are only labels", "statement": "Take a source of patterns with test messages and change the uuids of its patterns so that different ones stay different, and their names in any way. Then checked loading (from_source) succeeds, fails or panics as before; an error is the same one with the new uuids; loading with errors ignored is alike; and the loaded matcher gives for each message the same answer with the new uuid and name. If different uuids are made the same, a source that could be loaded still can, with the same answers, and adding patterns one by one still gives the same answers.", "quantifier": "For all sources (any patterns, errors of the source included), all changes of uuids and names, all hash functions, all messages, both matchers; no condition on patterns, hash or encoding.", "why_tests_cant": "It compares two loadings of arbitrary sources, including those that panic or are rejected.", "anchors": ["src/matcher/pattern_source/mod.rs: from_source, from_source_ignore_errors, check_test_message, extract_test_messages", "src/matcher/pattern/pattern.rs: Pattern", "src/matcher/pattern/testmessage/error.rs: MatchedToOtherPattern, ValueNotMatch, KeyNotFound, UnexpectedTags", "src/matcher/trie/node/mod.rs: SuffixTree, insert, parse", "src/matcher/suffix_array/impls.rs: SuffixTable, insert, parse"]}
{"id": "C159", "title": "A test message that passes is matched by its own pattern", "statement": "If from_source loads a source, each test message of each pattern was, when it was checked, matched by this very pattern (the README calls the uuid a unique identifier, and the check compares uuids).", "quantifier": "For all sources of usable patterns, all hash functions without collisions on them, and both matchers.", "why_tests_cant": "Whether a wrong pattern with the same uuid answers depends on all the patterns added before.", "anchors": ["src/matcher/pattern_source/mod.rs: from_source, check_test_message, check_test_messages", "src/matcher/pattern/pattern.rs: Pattern, uuid"]}
{"id": "C160", "title": "The order of the fields of a document does not matter", "statement": "Take a document and put the fields of its objects (files, patterns, test messages, values) into another order, where no object has two fields of the same name. A pattern or test message is then read to the same result, or rejected in both cases, perhaps with another error; reading a pattern panics in one case exactly if in the other. A file is read to the same list of patterns or to none in both cases. With two fields of the same name the order matters.", "quantifier": "For all documents, all reorderings at all levels, and all parsers of uuids.", "why_tests_cant": "The number of orders grows with the factorial of the fields, nested at three levels, and the documents are arbitrary.", "anchors": ["src/matcher/pattern/deser.rs: PatternVisitor, visit_map, Field", "src/matcher/pattern/testmessage/deser.rs: TestMessageVisitor, visit_map", "src/matcher/pattern/file/deser.rs: FileVisitor, visit_map"]}
{"id": "C161", "title": "In the trie the order of the characters does not matter", "statement": "Exchange ASCII characters one for one in the literals, the sets of characters and the end strings of a list of patterns; uuids, names, tags and test messages of the patterns may differ too. Adding the new list to a trie panics exactly if adding the old one does. For each message, the new trie answers the message with the characters exchanged as the old one answers the message: with the pattern of the same place and the values with the characters exchanged, with none, or with a panic. In the suffix table this is not so: which pattern is found depends on how the characters are ordered.", "quantifier": "For all exchanges of ASCII characters, all lists of usable patterns, all hash functions without collisions on them and all messages.", "why_tests_cant": "It compares two runs over arbitrary sets of patterns and all permutations of the characters; the children of the nodes are kept sorted and searched by comparing first characters, so the order does take part in what the code computes.", "anchors": ["src/matcher/trie/node/mod.rs: SuffixTree::parse, lookup_literal", "src/utils/sortedvec.rs: SortedVec, binary_search_by", "src/matcher/suffix_array/impls.rs: SuffixTable::parse"]}
{"id": "C162", "title": "Parsers can be written with the argument syntax of the README", "statement": "A parser written as the README says, %{TYPE(required, optional=\"value\", optional=value):name} with SET's characters as required argument and min_len, max_len as optional ones, is accepted. Exactly: after %{ only GREEDY without parentheses, INT with or without them and SET(\" can follow; between the parentheses of INT nothing or bounds, between those of SET the quoted characters, then nothing, a comma, or a comma and bounds; values of bounds are bare decimal numbers, and spaces stand after commas only.", "quantifier": "every text between the parentheses without closing brace, every name", "why_tests_cant": "A handful of argument lists is tried by tests, none of them quoted; the claim is about every list.", "anchors": ["src/grammar/parser/pattern.rustpeg: parser_SET, parser_INT, parser_GREEDY, parser_name", "README.md: PARSER_TYPE, required_arg1, optional_arg1"]}
{"id": "C163", "title": "Of the characters the suffix table uses the order only", "statement": "If ASCII characters are exchanged one for one in the literals, sets and end strings of all patterns and in the message, and the characters of the literals and of the message keep their order, then the suffix table reports the pattern at the same place with the same names and the exchanged values, or nothing in both cases.", "quantifier": "every exchange of ASCII characters, every list of valid patterns, every message, every collision-free hash", "why_tests_cant": "Needs all alphabets and all tables; tests use one alphabet.", "anchors": ["src/matcher/suffix_array/impls.rs: longest_common_prefix, insert_literal, longest_common_prefix_around_pos", "src/utils/common_prefix.rs: common_prefix_len"]}
{"id": "C164", "title": "Relaxing the bounds of parsers loses no match", "statement": "If minimal lengths of SET and INT parsers are lowered or dropped and maximal lengths raised or dropped, then a pattern alone in either matcher still matches every message it matched, with the same values, as do patterns with separate first literals together in the trie, whose test messages still pass. This is not so for patterns in general, whose first parsers may become the same, and not for characters added to a SET.", "quantifier": "every pattern or list of separate patterns, every way to relax the bounds, every message the relaxed ones do not panic on", "why_tests_cant": "Compares two configurations on every message.", "anchors": ["src/parsers/has_length_constraint.rs: is_match_length_ok, is_min_length_ok, is_max_length_ok", "src/parsers/set.rs: set_min_length, set_max_length, parse", "src/matcher/pattern_source/mod.rs: from_source"]}
{"id": "C165", "title": "Values put into a pattern come back", "statement": "Take a pattern in which the end of every value can be seen from what follows (after SET and INT something that cannot begin with one of their characters, after GREEDY its end string, or nothing). Write a message by putting values in place of its parsers: characters of the set, as many as the bounds allow, for SET and INT, and for GREEDY any text that does not contain the end string earlier. Then the message is matched with exactly these values, by the trie for the pattern alone, and by both matchers among patterns with separate first literals. Conversely, whatever the trie reports for one pattern or separate ones is such a filled in pattern. Without the condition on the ends values can be lost.", "quantifier": "every pattern and list of separate patterns, all admissible values, every message", "why_tests_cant": "Ranges over all values that can be put into all patterns.", "anchors": ["src/parsers/set.rs: SetParser, parse", "src/parsers/greedy.rs: GreedyParser, set_end_string, parse", "src/matcher/trie/node/mod.rs: parse", "src/matcher/suffix_array/impls.rs: parse"]}
{"id": "C166", "title": "What a longer message changes", "statement": "A message that ends with a byte no literal or set of the patterns mentions, like a newline, is reported, by either matcher, for patterns that end with GREEDY only. In the trie, for a pattern alone or separate ones: a pattern that ends with a literal matches no continuation of a message it matches; a pattern that ends with GREEDY matches every continuation; and whenever a message and its continuation are both matched, only the last value differs, by the continuation (unless it was empty). In a suffix table the last two hold of a pattern that ends with a parser and has sets of ASCII characters only; the table may match a message and its continuation with a literal.", "quantifier": "every list of compiled patterns, every message, every continuation", "why_tests_cant": "Compares all pairs of messages of which one continues the other.", "anchors": ["src/parsers/greedy.rs: GreedyParser, parse", "src/parsers/set.rs: calculate_match_length, parse", "src/matcher/trie/node/mod.rs: parse, parse_with_parsers", "src/matcher/suffix_array/impls.rs: parse"]}
{"id": "C167", "title": "Nesting of calls depends on the longest pattern only", "statement": "While a message is matched, calls of SuffixTree::parse nest at most one deeper than the largest number of parsers that stand before something else in one of the added patterns, and calls of SuffixTable::parse nest at most as deep as the longest pattern has tokens; within one call the trie's look-up of the text goes down through literal nodes at most once for each byte of the longest literal: neither the length of the message nor the number of patterns makes the recursion deeper, although patterns share nodes and adding one may split or replace nodes of others.", "quantifier": "every hash function, every list of patterns that loads, every message and every larger bound on the depth", "why_tests_cant": "A stack overflow shows only for inputs long enough; no test can show that no message and no set of patterns needs a deeper stack.", "anchors": ["src/matcher/trie/node/mod.rs: parse, parse_with_parsers, parse_then_push_kvpair, insert_literal, insert_parser, lookup_literal", "src/matcher/trie/node/literal.rs: split", "src/matcher/suffix_array/impls.rs: parse, insert_literal, insert_parser", "src/matcher/suffix_array/interface.rs: insert"]}
{"id": "C168", "title": "What a pattern followed by another matches", "statement": "If the source of one pattern is written in front of the source of another that begins with a parser, and every GREEDY of the first has an end, then a trie with the joined pattern (1) matches m followed by m' whenever a trie with the first matches m, a trie with the second matches m' and no SET or INT of the first can take the first character of m', and (2) matches a message only if it can be cut into two parts that tries with the two patterns match; in both cases the values are those of both matches, the first pattern's where both have a value. (2) also holds of three suffix tables.", "quantifier": "every hash function without collisions, every pair of compiled patterns, every pair of messages, every UTF-8 message; for (2) sets of ASCII characters in the first pattern", "why_tests_cant": "Relates three matchers on unboundedly many pairs of patterns and messages; parsers of the first pattern see a longer text than when it is alone.", "anchors": ["src/matcher/trie/node/mod.rs: parse, parse_with_parsers, parse_then_push_kvpair", "src/matcher/trie/node/parser.rs: push_last_kvpair", "src/matcher/suffix_array/impls.rs: longest_common_prefix, parse", "src/parsers/greedy.rs: parse", "src/parsers/set.rs: parse", "src/matcher/result.rs: insert"]}
{"id": "C169", "title": "How long matched messages are", "statement": "A message that the trie reports for a pattern has at least as many bytes as the literals of the pattern and the least lengths of its parsers together (at least 1 for every SET and INT, and 0 for every GREEDY), and, if there is no GREEDY and every SET and INT has a greatest length, at most as many as the literals and the greatest lengths together. For the suffix table the upper bound is the same and the lower bound is that of the parsers alone. So messages outside the bounds of all patterns are not matched.", "quantifier": "every hash function without collisions, every list of patterns, every UTF-8 message", "why_tests_cant": "Bounds all messages of unbounded length by the configuration of the patterns.", "anchors": ["src/parsers/set.rs: parse, calculate_match_length", "src/parsers/has_length_constraint.rs: is_match_length_ok", "src/parsers/greedy.rs: parse", "src/matcher/trie/node/mod.rs: parse", "src/matcher/suffix_array/impls.rs: parse"]}
{"id": "C170", "title": "What reported values look like", "statement": "Every value in a result of either matcher belongs to a parser of the reported pattern that has the value's name, and is a part of the message. It is not empty, has characters of the set (digits for INT) only and a length within the bounds, if the parser is a SET or INT, and does not contain the end string, if the parser is a GREEDY with one. The same, and the bounds of C169, hold of matchers loaded from a pattern file, with a pattern of the file.", "quantifier": "every hash function without collisions, every list of compiled patterns, every UTF-8 message", "why_tests_cant": "Speaks about all values that all matchers can report for unboundedly many patterns and messages.", "anchors": ["src/parsers/set.rs: parse, calculate_match_length", "src/parsers/has_length_constraint.rs: is_match_length_ok", "src/parsers/int.rs: parse", "src/parsers/greedy.rs: parse", "src/matcher/result.rs: insert", "src/matcher/trie/node/mod.rs: parse_then_push_kvpair", "src/matcher/suffix_array/impls.rs: parse"]}
{"id": "C171", "title": "The values of matched messages are independent of each other", "statement": "Take two messages for which the same pattern is reported, by a trie of this pattern alone or of patterns with separate first literals and different uuids. Choose for every parser of the pattern the value it has in the one message or in the other and put them into the pattern. Whatever the choice, the resulting message is valid UTF-8, and if matching it does not panic it is matched with the same pattern and with exactly the chosen values; among separate patterns the suffix table matches it in this way too. Nothing is asked about what stands between the parsers. Among patterns that are not separate the mixture can be reported for another pattern.", "quantifier": "every compiled pattern and list of compiled separate patterns whose sets are ASCII, all pairs of matched messages, all choices of values", "why_tests_cant": "Ranges over all pairs of messages and all mixtures of their values; a test tries a few messages one at a time.", "anchors": ["src/parsers/set.rs: SetParser, parse", "src/parsers/greedy.rs: GreedyParser, set_end_string, parse", "src/matcher/trie/node/mod.rs: parse, parse_then_push_kvpair", "src/matcher/suffix_array/impls.rs: parse"]}
{"id": "C172", "title": "Values are known before the message ends and do not depend on what follows", "statement": "If a beginning of a message runs through the first tokens of a pattern so that each SET or INT is followed by something else than one of its characters and each GREEDY by its end string, then the values of these parsers are settled: in every message with this beginning for which the pattern is reported, by either matcher and whatever other patterns there are, they have exactly these values. In every message matched by a trie of compiled patterns, every value that is not at the end is settled as soon as one more character, or the end string of a GREEDY, has been read. A value at the end of what has been read is still open.", "quantifier": "every hash function without collisions, every list of patterns with different uuids, every beginning and all continuations", "why_tests_cant": "Ranges over all continuations of all messages.", "anchors": ["src/parsers/set.rs: SetParser, parse", "src/parsers/greedy.rs: GreedyParser, parse", "src/matcher/trie/node/mod.rs: parse, parse_then_push_kvpair", "src/matcher/suffix_array/impls.rs: parse"]}
{"id": "C173", "title": "A message that went wrong stays wrong, and any other can be completed", "statement": "Call a beginning of a message stuck for a pattern if, behind tokens that are settled (C172), a literal is not there, a run of SET or INT characters has ended with a wrong length or is already too long, or something is left over. No message with a stuck beginning is reported for the pattern, whatever other patterns the trie has. For a trie of one pattern in which the ends of values can be seen (C165) and whose parsers have a non-empty ASCII set and satisfiable bounds this is exact: every beginning either is stuck, and then nothing that begins so is matched, or is not, and then it has a continuation that is matched if matching does not panic. A trie of several such patterns with separate first literals matches nothing that begins with a text that is stuck for all of them. A text that is not stuck for one of them has a continuation reported for this pattern by the trie, if matching does not panic, and by the suffix table. In the suffix table stuck beginnings can be matched.", "quantifier": "every hash function without collisions, every list of patterns with different uuids, or single pattern or list of separate patterns as described, every UTF-8 beginning, all continuations", "why_tests_cant": "Speaks about all continuations of a text, and about the existence of one.", "anchors": ["src/parsers/set.rs: SetParser, parse", "src/parsers/greedy.rs: GreedyParser, parse", "src/parsers/has_length_constraint.rs: is_match_length_ok", "src/matcher/trie/node/mod.rs: parse, lookup_literal"]}
