{
 "claims": [
  {
   "property": "C01",
   "status": "proved",
   "theorems": [
    "C01_set_exact"
   ],
   "note": "A panic occurs exactly when the run of set bytes ends inside a character."
  },
  {
   "property": "C02",
   "status": "proved",
   "theorems": [
    "C02_set_ascii_total"
   ],
   "note": ""
  },
  {
   "property": "C03",
   "status": "partial",
   "theorems": [
    "C03_refuted",
    "C01_set_exact",
    "C02_set_ascii_total"
   ],
   "note": "REFUTED: the set \"®\" panics on \"¡\". C01 says exactly when it panics, C02 that ASCII sets never do."
  },
  {
   "property": "C04",
   "status": "partial",
   "theorems": [
    "C04_refuted",
    "C49_set_is_regex",
    "C49_set_too_long"
   ],
   "note": "REFUTED: [abcd]{1,2} on \"abc\". C49 is what holds."
  },
  {
   "property": "C05",
   "status": "proved",
   "theorems": [
    "C05_int_exact"
   ],
   "note": ""
  },
  {
   "property": "C06",
   "status": "proved",
   "theorems": [
    "C06_greedy_exact"
   ],
   "note": ""
  },
  {
   "property": "C07",
   "status": "proved",
   "theorems": [
    "C07_captured_value"
   ],
   "note": ""
  },
  {
   "property": "C08",
   "status": "proved",
   "theorems": [
    "C08_common_prefix_longest",
    "C08_common_prefix_symmetric",
    "C08_truncation_safe"
   ],
   "note": ""
  },
  {
   "property": "C09",
   "status": "proved",
   "theorems": [
    "C09_sorted_vec"
   ],
   "note": ""
  },
  {
   "property": "C10",
   "status": "proved",
   "theorems": [
    "C10_find_pos",
    "C10_find"
   ],
   "note": ""
  },
  {
   "property": "C11",
   "status": "proved",
   "theorems": [
    "C11_hash_stream_injective"
   ],
   "note": ""
  },
  {
   "property": "C12",
   "status": "proved",
   "theorems": [
    "C12_ascii_total"
   ],
   "note": "For every hash function; also shows that the additions do not panic."
  },
  {
   "property": "C13",
   "status": "partial",
   "theorems": [
    "C13_parse_refuted",
    "C13_add_refuted",
    "C12_ascii_total",
    "C120_adding_panics",
    "C121_matching_panics"
   ],
   "note": "REFUTED: pattern \"a\" on \"¡\"; adding \"a®\" after \"a¡\". C12 covers ASCII; C120 and C121 say exactly when it panics."
  },
  {
   "property": "C14",
   "status": "proved",
   "theorems": [
    "C14_C15_C23_sound"
   ],
   "note": ""
  },
  {
   "property": "C15",
   "status": "proved",
   "theorems": [
    "C14_C15_C23_sound"
   ],
   "note": ""
  },
  {
   "property": "C16",
   "status": "proved",
   "theorems": [
    "C16_dictionary",
    "C12_ascii_total"
   ],
   "note": "C12_ascii_total excludes panics for ASCII literals and messages."
  },
  {
   "property": "C17",
   "status": "proved",
   "theorems": [
    "C17_single_pattern"
   ],
   "note": "Also covers patterns with empty or adjacent literals: trie_walk says what happens then. Holds whenever matching does not panic (C121 says when it does)."
  },
  {
   "property": "C18",
   "status": "partial",
   "theorems": [
    "C18_refuted",
    "C50_new_parser_keeps_matches",
    "C51_locality"
   ],
   "note": "REFUTED: \"a%{INT:x} c\" after \"a%{INT:x} b\"."
  },
  {
   "property": "C19",
   "status": "partial",
   "theorems": [
    "C19_refuted",
    "C53_retention"
   ],
   "note": "REFUTED: \"alma%{SET}\" drops \"almafa\" stored below \"alma\". C53 is what holds."
  },
  {
   "property": "C20",
   "status": "partial",
   "theorems": [
    "C20_refuted",
    "C54_apart",
    "C54_apart_one",
    "C54_apart_none"
   ],
   "note": "REFUTED when first literals repeat: \"a%{INT:x}\" then \"a\", message \"a1\". C54 is what holds."
  },
  {
   "property": "C21",
   "status": "proved",
   "theorems": [
    "C21_empty_pattern_ignored",
    "C21_table_ignored"
   ],
   "note": ""
  },
  {
   "property": "C22",
   "status": "proved",
   "theorems": [
    "C22_replaced",
    "C22_replaced_content"
   ],
   "note": ""
  },
  {
   "property": "C23",
   "status": "proved",
   "theorems": [
    "C14_C15_C23_sound"
   ],
   "note": ""
  },
  {
   "property": "C24",
   "status": "proved",
   "theorems": [
    "C24_parser_order"
   ],
   "note": ""
  },
  {
   "property": "C25",
   "status": "proved",
   "theorems": [
    "C25_trie_terminates",
    "C25_table_terminates"
   ],
   "note": ""
  },
  {
   "property": "C26",
   "status": "partial",
   "theorems": [
    "C26_refuted",
    "C55_shadowed",
    "C55_literal_not_shadowed"
   ],
   "note": "REFUTED: \"%{INT:x} foo\" shadows \"%{INT:x}\". C55 is what holds."
  },
  {
   "property": "C49",
   "status": "proved",
   "theorems": [
    "C49_set_is_regex",
    "C49_set_too_long"
   ],
   "note": ""
  },
  {
   "property": "C50",
   "status": "proved",
   "theorems": [
    "C50_new_parser_keeps_matches"
   ],
   "note": ""
  },
  {
   "property": "C51",
   "status": "proved",
   "theorems": [
    "C51_locality"
   ],
   "note": ""
  },
  {
   "property": "C52",
   "status": "proved",
   "theorems": [
    "C52_same_first_token_erased"
   ],
   "note": ""
  },
  {
   "property": "C53",
   "status": "proved",
   "theorems": [
    "C53_retention",
    "C53_new_is_held",
    "C53_only_added_are_held"
   ],
   "note": ""
  },
  {
   "property": "C54",
   "status": "proved",
   "theorems": [
    "C54_apart",
    "C54_apart_one",
    "C54_apart_none"
   ],
   "note": ""
  },
  {
   "property": "C55",
   "status": "proved",
   "theorems": [
    "C55_shadowed",
    "C55_literal_not_shadowed"
   ],
   "note": ""
  },
  {
   "property": "C56",
   "status": "proved",
   "theorems": [
    "C56_refines",
    "C56_exact",
    "C56_collision_unsound"
   ],
   "note": "C56_collision_unsound shows that the hypothesis on the hash function is needed."
  },
  {
   "property": "C57",
   "status": "partial",
   "theorems": [
    "C57_refuted",
    "C17_single_pattern"
   ],
   "note": "REFUTED: \"app%{GREEDY:x}\" on \"app\". C17 says exactly what is matched."
  },
  {
   "property": "C27",
   "status": "proved",
   "theorems": [
    "C27_longest_common_prefix"
   ],
   "note": "Also for the tables below the top one."
  },
  {
   "property": "C28",
   "status": "partial",
   "theorems": [
    "C28_refuted",
    "C59_table_sound"
   ],
   "note": "REFUTED: pattern \"app\" is reported for the message \"ap\". C59 is what holds."
  },
  {
   "property": "C29",
   "status": "proved",
   "theorems": [
    "C29_table_total"
   ],
   "note": "For every hash function."
  },
  {
   "property": "C30",
   "status": "partial",
   "theorems": [
    "C30_refuted",
    "C60_table_single_pattern"
   ],
   "note": "REFUTED: \"app%{GREEDY:x}\" on \"app\". C60 says exactly what is matched."
  },
  {
   "property": "C31",
   "status": "partial",
   "theorems": [
    "C31_refuted",
    "C31_converse_refuted",
    "C61_table_follows_trie",
    "C61_table_follows_trie_one",
    "C62_table_is_trie_for_parsers"
   ],
   "note": "REFUTED in both directions: \"app\" on \"ap\"; \"a\" and \"%{INT:x}\" on \"7\". C61 and C62 are what holds."
  },
  {
   "property": "C58",
   "status": "proved",
   "theorems": [
    "C58_table_content",
    "C58_table_add"
   ],
   "note": ""
  },
  {
   "property": "C59",
   "status": "proved",
   "theorems": [
    "C59_table_sound"
   ],
   "note": ""
  },
  {
   "property": "C60",
   "status": "proved",
   "theorems": [
    "C60_table_single_pattern",
    "C60_table_walk_unique"
   ],
   "note": ""
  },
  {
   "property": "C61",
   "status": "proved",
   "theorems": [
    "C61_table_follows_trie",
    "C61_table_follows_trie_one"
   ],
   "note": ""
  },
  {
   "property": "C62",
   "status": "proved",
   "theorems": [
    "C62_table_is_trie_for_parsers"
   ],
   "note": ""
  },
  {
   "property": "C63",
   "status": "proved",
   "theorems": [
    "C63_table_dictionary"
   ],
   "note": ""
  },
  {
   "property": "C64",
   "status": "proved",
   "theorems": [
    "C64_table_literals_first"
   ],
   "note": ""
  },
  {
   "property": "C65",
   "status": "proved",
   "theorems": [
    "C65_table_local"
   ],
   "note": ""
  },
  {
   "property": "C66",
   "status": "proved",
   "theorems": [
    "C66_table_replaced"
   ],
   "note": ""
  },
  {
   "property": "C32",
   "status": "proved",
   "theorems": [
    "C32_language"
   ],
   "note": ""
  },
  {
   "property": "C33",
   "status": "proved",
   "theorems": [
    "C33_escaped_text",
    "C33_every_text_escapes"
   ],
   "note": ""
  },
  {
   "property": "C34",
   "status": "partial",
   "theorems": [
    "C34_refuted",
    "C67_panics",
    "C35_no_panic"
   ],
   "note": "REFUTED: a number of at least 2^64 panics in parse_int (unwrap). C67 gives the exact set of panicking strings, C35 excludes panics for small numbers."
  },
  {
   "property": "C35",
   "status": "proved",
   "theorems": [
    "C35_no_panic"
   ],
   "note": ""
  },
  {
   "property": "C36",
   "status": "partial",
   "theorems": [
    "C36_refuted",
    "C68_names"
   ],
   "note": "REFUTED: the name ab-c is rejected. C68 gives the exact set of accepted names."
  },
  {
   "property": "C37",
   "status": "proved",
   "theorems": [
    "C37_greedy"
   ],
   "note": ""
  },
  {
   "property": "C38",
   "status": "proved",
   "theorems": [
    "C38_literals"
   ],
   "note": ""
  },
  {
   "property": "C39",
   "status": "partial",
   "theorems": [
    "C39_refuted",
    "C71_error_position"
   ],
   "note": "REFUTED for line and column after a CR LF line end (and only the columns and lines: the offset part holds). C71 proves the offset part for all strings and line and column when no carriage return precedes the offset."
  },
  {
   "property": "C67",
   "status": "proved",
   "theorems": [
    "C67_panics",
    "C67_terminates"
   ],
   "note": ""
  },
  {
   "property": "C68",
   "status": "proved",
   "theorems": [
    "C68_names"
   ],
   "note": ""
  },
  {
   "property": "C69",
   "status": "proved",
   "theorems": [
    "C69_shape"
   ],
   "note": ""
  },
  {
   "property": "C70",
   "status": "proved",
   "theorems": [
    "C70_valid",
    "C70_ascii"
   ],
   "note": ""
  },
  {
   "property": "C71",
   "status": "proved",
   "theorems": [
    "C71_error_position",
    "C71_position_unique"
   ],
   "note": ""
  },
  {
   "property": "C72",
   "status": "proved",
   "theorems": [
    "C72_unambiguous"
   ],
   "note": ""
  },
  {
   "property": "C73",
   "status": "proved",
   "theorems": [
    "C73_concatenation"
   ],
   "note": ""
  },
  {
   "property": "C40",
   "status": "proved",
   "theorems": [
    "C40_test_passes"
   ],
   "note": ""
  },
  {
   "property": "C41",
   "status": "proved",
   "theorems": [
    "C41_checked_loading"
   ],
   "note": "For every matcher implementation."
  },
  {
   "property": "C42",
   "status": "partial",
   "theorems": [
    "C42_refuted",
    "C42_refuted_table",
    "C76_last_pattern",
    "C76_unconcerned"
   ],
   "note": "REFUTED for both matchers: a later pattern may hide an earlier one that passed when it was loaded. C76 is what holds."
  },
  {
   "property": "C43",
   "status": "proved",
   "theorems": [
    "C43_ignoring_errors",
    "C43_ignoring_errors_total"
   ],
   "note": ""
  },
  {
   "property": "C44",
   "status": "proved",
   "theorems": [
    "C44_back_to_front"
   ],
   "note": ""
  },
  {
   "property": "C45",
   "status": "proved",
   "theorems": [
    "C45_test_messages_taken",
    "C45_nothing_else_changes",
    "C45_stored",
    "C45_stored_table"
   ],
   "note": ""
  },
  {
   "property": "C46",
   "status": "proved",
   "theorems": [
    "C46_json",
    "C46_yaml",
    "C46_other",
    "C46_one_extension"
   ],
   "note": ""
  },
  {
   "property": "C48",
   "status": "proved",
   "theorems": [
    "C48_builder"
   ],
   "note": ""
  },
  {
   "property": "C74",
   "status": "proved",
   "theorems": [
    "C74_test_error"
   ],
   "note": ""
  },
  {
   "property": "C75",
   "status": "proved",
   "theorems": [
    "C75_loading_error"
   ],
   "note": ""
  },
  {
   "property": "C76",
   "status": "proved",
   "theorems": [
    "C76_last_pattern",
    "C76_unconcerned"
   ],
   "note": ""
  },
  {
   "property": "C77",
   "status": "proved",
   "theorems": [
    "C77_file_loaded",
    "C77_file_loaded_ignoring",
    "C77_file_loaded_ignoring_total"
   ],
   "note": ""
  },
  {
   "property": "C78",
   "status": "proved",
   "theorems": [
    "C78_file_errors",
    "C78_file_errors_ignoring",
    "C78_no_name_error"
   ],
   "note": ""
  },
  {
   "property": "C79",
   "status": "partial",
   "theorems": [
    "C79_refuted",
    "C79_partial_read"
   ],
   "note": "REFUTED: the result of read_to_string is discarded, so what was read before the error is loaded. C79_partial_read says that the result is that of the part read."
  },
  {
   "property": "C80",
   "status": "proved",
   "theorems": [
    "C80_trie_loading_total",
    "C80_table_loading_total"
   ],
   "note": ""
  },
  {
   "property": "C47",
   "status": "proved",
   "theorems": [
    "C47_pattern",
    "C47_message"
   ],
   "note": "The uuid crate's text parser is a parameter."
  },
  {
   "property": "C81",
   "status": "proved",
   "theorems": [
    "C81_pattern_error",
    "C81_message_error",
    "C81_pattern_panic",
    "C81_nothing_else"
   ],
   "note": ""
  },
  {
   "property": "C82",
   "status": "partial",
   "theorems": [
    "C82_refuted",
    "C82_something_missing"
   ],
   "note": "REFUTED: a missing uuid is reported as a missing pattern (deser.rs). C82_something_missing says what a missing-field error does mean."
  },
  {
   "property": "C83",
   "status": "proved",
   "theorems": [
    "C83_file"
   ],
   "note": ""
  },
  {
   "property": "C84",
   "status": "proved",
   "theorems": [
    "C84_file_error",
    "C84_file_panic",
    "C84_nothing_else"
   ],
   "note": ""
  },
  {
   "property": "C85",
   "status": "proved",
   "theorems": [
    "C85_valid",
    "C85_loads"
   ],
   "note": ""
  },
  {
   "property": "C86",
   "status": "proved",
   "theorems": [
    "C86_end_to_end"
   ],
   "note": ""
  },
  {
   "property": "C87",
   "status": "proved",
   "theorems": [
    "C87_get_len_is_empty",
    "C87_remove"
   ],
   "note": ""
  },
  {
   "property": "C88",
   "status": "proved",
   "theorems": [
    "C88_binary_search_by"
   ],
   "note": ""
  },
  {
   "property": "C89",
   "status": "proved",
   "theorems": [
    "C89_has_common_prefix",
    "C89_ltrunc",
    "C89_rtrunc"
   ],
   "note": ""
  },
  {
   "property": "C90",
   "status": "proved",
   "theorems": [
    "C90_flatten"
   ],
   "note": ""
  },
  {
   "property": "C91",
   "status": "proved",
   "theorems": [
    "C91_set",
    "C91_int",
    "C91_greedy",
    "C91_set_name"
   ],
   "note": ""
  },
  {
   "property": "C92",
   "status": "proved",
   "theorems": [
    "C92_set",
    "C92_int",
    "C92_greedy"
   ],
   "note": ""
  },
  {
   "property": "C93",
   "status": "proved",
   "theorems": [
    "C93_pop_first_token",
    "C93_pop_test_message",
    "C93_with_uuid"
   ],
   "note": ""
  },
  {
   "property": "C94",
   "status": "proved",
   "theorems": [
    "C94_inserts"
   ],
   "note": ""
  },
  {
   "property": "C95",
   "status": "proved",
   "theorems": [
    "C95_refines",
    "C95_exact"
   ],
   "note": ""
  },
  {
   "property": "C96",
   "status": "proved",
   "theorems": [
    "C96_end_to_end"
   ],
   "note": ""
  },
  {
   "property": "C97",
   "status": "proved",
   "theorems": [
    "C97_generated_parser",
    "C97_one_meaning"
   ],
   "note": "pattern.rustpeg is transcribed in Rustpeg.v; texts with an overflowing number, on which the compiler panics, are excluded."
  },
  {
   "property": "C98",
   "status": "proved",
   "theorems": [
    "C98_viable_prefix"
   ],
   "note": ""
  },
  {
   "property": "C99",
   "status": "partial",
   "theorems": [
    "C99_refuted",
    "C99_stuck_partial",
    "C98_viable_prefix"
   ],
   "note": "REFUTED: a hyphen in a name makes the compiler give up one character too early (%{INT:ab-c} is reported at b). C99_stuck_partial proves it with the exceptions listed: a longer listed terminal that begins with the character but is not there (%{GRxx), an empty SET, and a hyphen after the character."
  },
  {
   "property": "C100",
   "status": "partial",
   "theorems": [
    "C100_refuted",
    "C100_expected_partial"
   ],
   "note": "REFUTED: [-] is listed after a name although a hyphen there is an error. C100_expected_partial proves it for everything except [-] and a quotation mark right after a quotation mark; a number may become too large, which is a panic."
  },
  {
   "property": "C101",
   "status": "partial",
   "theorems": [
    "C101_refuted",
    "C101_complete_partial"
   ],
   "note": "REFUTED: %{SET(\"\")} is reported at offset 2 with GREEDY and INT expected, although SET can follow. C101_complete_partial proves that every valid continuation begins with a listed terminal, except there and before a hyphen in a name."
  },
  {
   "property": "C102",
   "status": "proved",
   "theorems": [
    "C102_uuid_shape",
    "C102_uuid_unique"
   ],
   "note": ""
  },
  {
   "property": "C103",
   "status": "proved",
   "theorems": [
    "C103_kind_and_uuids",
    "C103_nothing_left_out"
   ],
   "note": ""
  },
  {
   "property": "C104",
   "status": "partial",
   "theorems": [
    "C104_refuted",
    "C104_text_unique_partial",
    "C104_quoting",
    "C104_shown_partial",
    "C104_shown_ends"
   ],
   "note": "REFUTED for ValueNotMatch: expected \"a\", got \"b got=c\" reads like expected \"a got=b\", got \"c\". C104_text_unique_partial proves it for the other four kinds; C104_shown_partial proves it of the Debug format of Rust's library for all characters, whatever its version shows as it is."
  },
  {
   "property": "C105",
   "status": "partial",
   "theorems": [
    "C105_refuted",
    "C105_description_partial",
    "C105_description_kind"
   ],
   "note": "REFUTED for TestMessageDoesntMatch, whose two texts differ. C105_description_partial proves it for the other kinds."
  },
  {
   "property": "C106",
   "status": "partial",
   "theorems": [
    "C106_refuted",
    "C106_kinds"
   ],
   "note": "REFUTED: the Display text of UnsupportedFileExtension is misspelt. C106_kinds proves that the texts tell the errors apart."
  },
  {
   "property": "C107",
   "status": "partial",
   "theorems": [
    "C107_refuted",
    "C107_cause_of_wrapped"
   ],
   "note": "REFUTED: cause() skips the wrapped error and returns that error's own cause, so for a test error it is None. C107_cause_of_wrapped says exactly when there is a cause."
  },
  {
   "property": "C108",
   "status": "proved",
   "theorems": [
    "C108_text_unique",
    "C108_no_eof",
    "C108_lists_all"
   ],
   "note": ""
  },
  {
   "property": "C109",
   "status": "proved",
   "theorems": [
    "C109_conversion",
    "C109_every_parser"
   ],
   "note": "C132 says how the patterns are read from the XML."
  },
  {
   "property": "C110",
   "status": "partial",
   "theorems": [
    "C110_refuted",
    "C110_at_signs_partial"
   ],
   "note": "REFUTED: the text is cut at every at sign, so that a doubled one is an empty parser and the pattern is dropped. C110_at_signs_partial: texts without at signs are kept, all others are lost."
  },
  {
   "property": "C111",
   "status": "partial",
   "theorems": [
    "C111_refuted",
    "C111_plain_text_partial"
   ],
   "note": "REFUTED: nothing is escaped. The text 100%{ does not compile, %{INT:n} becomes a parser, and \\%\\{ loses its backslashes. C111_plain_text_partial proves it for texts with neither of the two sequences."
  },
  {
   "property": "C112",
   "status": "partial",
   "theorems": [
    "C112_refuted",
    "C112_first_delimiter_partial"
   ],
   "note": "REFUTED: the delimiter is joined with the text that follows, @ESTRING:x:,@ b captures a,c from a,c, b. C112_first_delimiter_partial proves it when a parser other than QSTRING or nothing follows."
  },
  {
   "property": "C113",
   "status": "partial",
   "theorems": [
    "C113_refuted",
    "C113_rest_ignored"
   ],
   "note": "REFUTED: options are cut at a colon. C113_rest_ignored says that everything after it is lost."
  },
  {
   "property": "C114",
   "status": "partial",
   "theorems": [
    "C114_refuted",
    "C116_loaded"
   ],
   "note": "REFUTED: the text 0 is false in Perl. C116_loaded says exactly which patterns are in the output."
  },
  {
   "property": "C115",
   "status": "partial",
   "theorems": [
    "C115_refuted",
    "C115_dropped",
    "C115_parts",
    "C115_known_types"
   ],
   "note": "The second half is REFUTED: any type containing QSTRING, starting with FLOAT and so on is accepted. C115_dropped proves the first half for the types that are accepted."
  },
  {
   "property": "C116",
   "status": "proved",
   "theorems": [
    "C116_loaded"
   ],
   "note": ""
  },
  {
   "property": "C117",
   "status": "proved",
   "theorems": [
    "C117_loads"
   ],
   "note": ""
  },
  {
   "property": "C118",
   "status": "proved",
   "theorems": [
    "C118_uuids",
    "C118_names"
   ],
   "note": ""
  },
  {
   "property": "C119",
   "status": "proved",
   "theorems": [
    "C119_dies"
   ],
   "note": ""
  },
  {
   "property": "C120",
   "status": "proved",
   "theorems": [
    "C120_adding_panics"
   ],
   "note": ""
  },
  {
   "property": "C121",
   "status": "proved",
   "theorems": [
    "C121_matching_panics"
   ],
   "note": "C03 says when a parser panics."
  },
  {
   "property": "C122",
   "status": "proved",
   "theorems": [
    "C122_literals_adding",
    "C122_literals_matching"
   ],
   "note": ""
  },
  {
   "property": "C123",
   "status": "proved",
   "theorems": [
    "C123_text_beyond_ascii",
    "C123_two_first_literals"
   ],
   "note": ""
  },
  {
   "property": "C124",
   "status": "proved",
   "theorems": [
    "C124_parsers_never_panic"
   ],
   "note": ""
  },
  {
   "property": "C125",
   "status": "proved",
   "theorems": [
    "C125_parser_panics",
    "C125_table_panics"
   ],
   "note": ""
  },
  {
   "property": "C126",
   "status": "proved",
   "theorems": [
    "C126_trie_calls",
    "C126_table_calls"
   ],
   "note": "Calls are recorded by instrumented copies (TrieCalls.v, TableCalls.v), which the theorems show to give the same results."
  },
  {
   "property": "C127",
   "status": "proved",
   "theorems": [
    "C127_trie_size",
    "C127_table_size"
   ],
   "note": ""
  },
  {
   "property": "C128",
   "status": "proved",
   "theorems": [
    "C128_trie_order",
    "C128_table_order"
   ],
   "note": ""
  },
  {
   "property": "C129",
   "status": "proved",
   "theorems": [
    "C129_trie_again",
    "C129_table_again"
   ],
   "note": ""
  },
  {
   "property": "C130",
   "status": "proved",
   "theorems": [
    "C130_trie_content",
    "C130_trie_reported",
    "C130_table_reported"
   ],
   "note": "For patterns without adjacent literals, which compiled ones are (C69)."
  },
  {
   "property": "C131",
   "status": "partial",
   "theorems": [
    "C131_every_pattern_refuted",
    "C131_trie_file",
    "C131_table_file"
   ],
   "note": "REFUTED: the second pattern of the README's example file has the same first literal as the first and is never reported. C131_trie_file and C131_table_file prove that a reported pattern is the first one of the file among those that displace each other."
  },
  {
   "property": "C132",
   "status": "proved",
   "theorems": [
    "C132_read",
    "C132_dies",
    "C132_elements",
    "C132_owner",
    "C132_proper"
   ],
   "note": "The input is the tree of the document as XML::Twig builds it."
  },
  {
   "property": "C133",
   "status": "partial",
   "theorems": [
    "C133_own_program_refuted",
    "C133_apart_refuted",
    "C133_standard_partial"
   ],
   "note": "REFUTED: the programs of rulesets with the same name are joined and the first is used for all; rules with the same id are merged. C133_standard_partial proves it for files with distinct names and ids."
  },
  {
   "property": "C134",
   "status": "proved",
   "theorems": [
    "C134_loaded",
    "C134_dies",
    "C134_uuids"
   ],
   "note": ""
  },
  {
   "property": "C135",
   "status": "proved",
   "theorems": [
    "C135_trie",
    "C135_table",
    "C135_trie_reports",
    "C135_table_reports",
    "C135_same_characters",
    "C135_greedy_then_parser"
   ],
   "note": ""
  },
  {
   "property": "C136",
   "status": "partial",
   "theorems": [
    "C136_table_refuted",
    "C136_unnamed_refuted",
    "C136_trie_lossless"
   ],
   "note": "REFUTED for the suffix table, which reads app42! and 42 alike. C136_trie_lossless proves it for the trie; C136_unnamed_refuted shows that the names are needed."
  },
  {
   "property": "C137",
   "status": "proved",
   "theorems": [
    "C137_trie",
    "C137_table",
    "C137_trie_reports",
    "C137_table_reports",
    "C137_trie_first_parsers",
    "C137_table_first_parsers",
    "C137_ideal_exists"
   ],
   "note": ""
  },
  {
   "property": "C138",
   "status": "proved",
   "theorems": [
    "C138_table_outdone",
    "C138_table_keeps",
    "C138_trie_keeps",
    "C138_table_tests_stay",
    "C138_trie_tests_stay",
    "C138_table_tests_stay_or_panic",
    "C138_trie_tests_stay_or_panic"
   ],
   "note": ""
  },
  {
   "property": "C139",
   "status": "partial",
   "theorems": [
    "C139_table_refuted",
    "C139_trie_refuted",
    "C139_table",
    "C139_trie"
   ],
   "note": "REFUTED: the place of the first parser of a replaced pattern, and in the trie the node of its first literal, stay. C139_table and C139_trie prove it when the patterns between show no such trace."
  },
  {
   "property": "C140",
   "status": "proved",
   "theorems": [
    "C140_checked_panics",
    "C140_ignoring_panics",
    "C140_trie_ends",
    "C140_table_ends",
    "C140_loading_ends",
    "C140_trie_checked",
    "C140_trie_ignoring",
    "C140_table_checked",
    "C140_table_ignoring",
    "C140_ok_ignoring",
    "C140_ignoring_checked"
   ],
   "note": ""
  },
  {
   "property": "C141",
   "status": "proved",
   "theorems": [
    "C141_compact",
    "C141_determined"
   ],
   "note": ""
  },
  {
   "property": "C142",
   "status": "proved",
   "theorems": [
    "C142_answers",
    "C142_order",
    "C142_loads",
    "C142_document"
   ],
   "note": ""
  },
  {
   "property": "C143",
   "status": "proved",
   "theorems": [
    "C143_trie",
    "C143_table_answers",
    "C143_table_loads",
    "C143_table_converse_refuted"
   ],
   "note": "C143_table_converse_refuted is the last part of the statement."
  },
  {
   "property": "C144",
   "status": "proved",
   "theorems": [
    "C144_every_match",
    "C144_definite",
    "C144_separate",
    "C144_groups",
    "C144_table_at_most",
    "C144_table_at_least",
    "C144_any_pattern_refuted"
   ],
   "note": "The regular expressions are a data type of their own with the usual meaning. C144_any_pattern_refuted shows that the condition on the pattern is needed, with a pattern from the README."
  },
  {
   "property": "C145",
   "status": "proved",
   "theorems": [
    "C145_not_there"
   ],
   "note": ""
  },
  {
   "property": "C146",
   "status": "proved",
   "theorems": [
    "C146_texts",
    "C146_one_reading",
    "C146_boundaries",
    "C146_char_at"
   ],
   "note": ""
  },
  {
   "property": "C147",
   "status": "proved",
   "theorems": [
    "C147_test_message",
    "C147_every_error",
    "C147_parse_error",
    "C147_terminals"
   ],
   "note": "The rendering of a String by {:?} is a parameter. Backslashes before quotation marks only: the terminals are ASCII."
  },
  {
   "property": "C148",
   "status": "proved",
   "theorems": [
    "C148_loaded_alike",
    "C148_loaded_alike_ignoring",
    "C148_same_matcher"
   ],
   "note": "That serde_json and serde_yaml hand the same document to the Deserialize implementation is a hypothesis about the two texts; these libraries are not modelled."
  },
  {
   "property": "C149",
   "status": "proved",
   "theorems": [
    "C149_own_messages",
    "C149_never_reported"
   ],
   "note": ""
  },
  {
   "property": "C150",
   "status": "proved",
   "theorems": [
    "C150_trie",
    "C150_table"
   ],
   "note": "For sets of ASCII characters; C03 shows what other sets do."
  },
  {
   "property": "C151",
   "status": "proved",
   "theorems": [
    "C151_compiled",
    "C151_trie",
    "C151_table"
   ],
   "note": "When the matchers do not panic; C121 and C149 say when they do."
  },
  {
   "property": "C152",
   "status": "proved",
   "theorems": [
    "C152_programs"
   ],
   "note": "For programs without percent sign and backslash; with them the text in front is read differently, see the example C151_example_others."
  },
  {
   "property": "C153",
   "status": "partial",
   "theorems": [
    "C153_kept_refuted",
    "C153_first_only_trie",
    "C153_first_only_table"
   ],
   "note": "REFUTED: all patterns of a program get the same literal in front, and of those that began with a parser only the first one in the file is ever reported (C153_first_only_trie, C153_first_only_table); the pattern database shop_db has two such rules."
  },
  {
   "property": "C154",
   "status": "proved",
   "theorems": [
    "C154_trie",
    "C154_table",
    "C154_merged"
   ],
   "note": "C154_merged: different names have to stay different."
  },
  {
   "property": "C155",
   "status": "proved",
   "theorems": [
    "C155_written"
   ],
   "note": ""
  },
  {
   "property": "C156",
   "status": "proved",
   "theorems": [
    "C156_spelling"
   ],
   "note": "pattern_text is the documented syntax of C32."
  },
  {
   "property": "C157",
   "status": "proved",
   "theorems": [
    "C157_text",
    "C157_trie",
    "C157_table",
    "C157_twins"
   ],
   "note": "C157_twins: the condition on patterns with both kinds is needed."
  },
  {
   "property": "C158",
   "status": "proved",
   "theorems": [
    "C158_trie",
    "C158_table",
    "C158_added",
    "C158_merged_trie",
    "C158_merged_table"
   ],
   "note": "C158_merged_*, C158_added: uuids that become the same."
  },
  {
   "property": "C159",
   "status": "partial",
   "theorems": [
    "C159_refuted",
    "C159_unique_trie",
    "C159_unique_table"
   ],
   "note": "REFUTED: two patterns with the same uuid are accepted, and a test message of the second one passes when the first one matches it. C159_unique_*: the claim holds when no uuid occurs twice."
  },
  {
   "property": "C160",
   "status": "proved",
   "theorems": [
    "C160_pattern",
    "C160_message",
    "C160_file",
    "C160_repeated"
   ],
   "note": "C160_repeated: the condition on repeated fields is needed."
  },
  {
   "property": "C161",
   "status": "proved",
   "theorems": [
    "C161_trie",
    "C161_table_differs"
   ],
   "note": "C161_table_differs: the suffix table with literals a and ac does not find am, with a and az it does."
  },
  {
   "property": "C162",
   "status": "partial",
   "theorems": [
    "C162_refuted",
    "C162_types",
    "C162_int",
    "C162_set"
   ],
   "note": "REFUTED: min_len=\"1\" is rejected, and so are parentheses after GREEDY. The other theorems give what is accepted."
  },
  {
   "property": "C163",
   "status": "proved",
   "theorems": [
    "C163_table"
   ],
   "note": "C161_table_differs shows that the order is needed."
  },
  {
   "property": "C164",
   "status": "proved",
   "theorems": [
    "C164_trie",
    "C164_table",
    "C164_separate",
    "C164_loads",
    "C164_together_refuted",
    "C164_characters_refuted"
   ],
   "note": "The two refuted variants show that the restrictions are needed."
  },
  {
   "property": "C165",
   "status": "proved",
   "theorems": [
    "C165_trie",
    "C165_separate",
    "C165_table",
    "C165_only",
    "C165_separate_only",
    "C165_spacing_refuted"
   ],
   "note": "The refuted variant shows that the condition on the ends of values is needed."
  },
  {
   "property": "C166",
   "status": "proved",
   "theorems": [
    "C166_trie_ending",
    "C166_table_ending",
    "C166_whole",
    "C166_separate_whole",
    "C166_last_value",
    "C166_separate_last_value",
    "C166_open",
    "C166_separate_open",
    "C166_table_last_value",
    "C166_table_open",
    "C166_table_separate_open",
    "C166_table_whole_refuted",
    "C166_empty_value_refuted"
   ],
   "note": "The refuted variants show where the restrictions are needed."
  },
  {
   "property": "C167",
   "status": "proved",
   "theorems": [
    "C167_trie",
    "C167_table",
    "C167_lookup"
   ],
   "note": "Depth is the fuel of the parse functions: a run with that fuel equals the unbounded one. C167_lookup bounds the descent of lookup_literal, for compiled patterns."
  },
  {
   "property": "C168",
   "status": "proved",
   "theorems": [
    "C168_join",
    "C168_split",
    "C168_table_split"
   ],
   "note": "C168_needed shows that both conditions on the first pattern are needed; C168_table_example shows that (1) is not claimed of the suffix table, where a message may stop inside the last literal."
  },
  {
   "property": "C169",
   "status": "proved",
   "theorems": [
    "C169_trie",
    "C169_table",
    "C169_trie_outside",
    "C169_table_outside"
   ],
   "note": "C169_example shows that the bounds are reached."
  },
  {
   "property": "C170",
   "status": "proved",
   "theorems": [
    "C170_trie",
    "C170_table",
    "C170_trie_document",
    "C170_table_document"
   ],
   "note": "C86_example and C96_example meet the hypotheses of the theorems about documents."
  },
  {
   "property": "C171",
   "status": "proved",
   "theorems": [
    "C171_trie",
    "C171_separate",
    "C171_others_refuted"
   ],
   "note": "C171_others_refuted shows that the condition on other patterns is needed. That a value's end does not depend on the other values rests on GREEDY's end string being the next literal, which compilation guarantees."
  },
  {
   "property": "C172",
   "status": "proved",
   "theorems": [
    "C172_trie",
    "C172_table",
    "C172_when",
    "C172_end_refuted"
   ],
   "note": "C172_end_refuted shows that the look-ahead of one character is needed."
  },
  {
   "property": "C173",
   "status": "proved",
   "theorems": [
    "C173_stays_wrong",
    "C173_exactly",
    "C173_separate",
    "C173_table_refuted"
   ],
   "note": "C173_table_refuted: the suffix table also takes a part of a literal, so a beginning that is stuck can be matched there; the statement says so."
  }
 ]
}