-Q theories Verif
theories/Base.v
theories/Utils.v
theories/Parsers.v
theories/Pattern.v
theories/Trie.v
theories/SuffixArray.v
theories/Grammar.v
theories/Source.v
theories/Deser.v
theories/Siphash.v
theories/Tests.v
theories/Tests_more.v
theories/Base_facts.v
theories/Spec.v
theories/Utils_facts.v
theories/Parsers_facts.v
theories/Hash_facts.v
theories/TrieSpec.v
theories/TrieSpec_facts.v
theories/Trie_refine.v
theories/Trie_total.v
theories/TrieSpec_props.v
theories/TrieSpec_cases.v
theories/Spec_trie.v
theories/Trie_main.v
theories/Trie_canon.v
theories/Spec_canon.v
theories/Canon_claims.v
theories/Deciders.v
theories/Trie_claims.v
theories/Parsers_claims.v
theories/Properties_utils.v
theories/Properties_parsers.v
theories/Properties_trie.v
theories/Spec_panics.v
theories/Trie_panics.v
theories/Panics_claims.v
theories/Properties_panics.v
theories/TableSpec.v
theories/Table_refine.v
theories/Spec_table.v
theories/Table_facts.v
theories/Table_content.v
theories/Table_claims.v
theories/Spec_table_panics.v
theories/Table_panics.v
theories/Single_claims.v
theories/Properties_table.v
theories/Peg.v
theories/Grammar_refine.v
theories/Spec_grammar.v
theories/Grammar_syntax.v
theories/Grammar_claims.v
theories/Rustpeg.v
theories/Rustpeg_claims.v
theories/Viable_claims.v
theories/Complete_claims.v
theories/Properties_grammar.v
theories/Spec_source.v
theories/Source_claims.v
theories/Loading_claims.v
theories/Properties_source.v
theories/Spec_deser.v
theories/Deser_claims.v
theories/Document_claims.v
theories/Properties_deser.v
theories/Spec_formats.v
theories/Formats_claims.v
theories/Properties_formats.v
theories/Spec_api.v
theories/Api_claims.v
theories/Properties_api.v
theories/Errors.v
theories/Spec_errors.v
theories/Errors_claims.v
theories/Spec_messages.v
theories/Messages_claims.v
theories/Debug.v
theories/Spec_debug.v
theories/Debug_claims.v
theories/Properties_errors.v
theories/Pdb2adb.v
theories/Spec_pdb.v
theories/Pdb_claims.v
theories/Pdb_document.v
theories/Properties_pdb.v
theories/Effort.v
theories/TrieCalls.v
theories/TableCalls.v
theories/Spec_effort.v
theories/Effort_facts.v
theories/Properties_effort.v
theories/Spec_order.v
theories/TrieSpec_order.v
theories/Order_claims.v
theories/Properties_order.v
theories/Spec_content.v
theories/TrieSpec_content.v
theories/Content_claims.v
theories/Content_readme.v
theories/Properties_content.v
theories/Pdbread.v
theories/Spec_pdbread.v
theories/Pdbread_facts.v
theories/Pdbread_standard.v
theories/Pdbread_claims.v
theories/Properties_pdbread.v
theories/Spec_live.v
theories/Live_claims.v
theories/Properties_live.v
theories/Own_claims.v
theories/Properties_own.v
theories/Spec_prefix.v
theories/Prefix_claims.v
theories/Properties_prefix.v
theories/Program_claims.v
theories/Properties_program.v
theories/Spec_rename.v
theories/Rename_claims.v
theories/Properties_rename.v
theories/Spec_written.v
theories/Written_claims.v
theories/Properties_written.v
theories/Spec_int.v
theories/Int_claims.v
theories/Properties_int.v
theories/Spec_hash.v
theories/Collide_claims.v
theories/Properties_hash.v
theories/Spec_stay.v
theories/Stay_claims.v
theories/Properties_stay.v
theories/Spec_forget.v
theories/Forget_claims.v
theories/Anyhash_claims.v
theories/Properties_forget.v
theories/Properties_canon.v
theories/Spec_ending.v
theories/Ending_claims.v
theories/Properties_ending.v
theories/Spec_separate.v
theories/Separate_claims.v
theories/Separate_tests.v
theories/Properties_separate.v
theories/Spec_regex.v
theories/Regex_claims.v
theories/Regex_readme.v
theories/Properties_regex.v
theories/Spec_unicode.v
theories/Unicode_claims.v
theories/Properties_unicode.v
theories/Spec_label.v
theories/Label_facts.v
theories/Label_claims.v
theories/Properties_label.v
theories/Spec_fields.v
theories/Fields_claims.v
theories/Properties_fields.v
theories/Spec_bytes.v
theories/Bytes_claims.v
theories/Properties_bytes.v
theories/Spec_arguments.v
theories/Arguments_claims.v
theories/Properties_arguments.v
theories/Spec_ordered.v
theories/Ordered_claims.v
theories/Properties_ordered.v
theories/Spec_relaxed.v
theories/Relaxed_claims.v
theories/Properties_relaxed.v
theories/Spec_fill.v
theories/Fill_claims.v
theories/Properties_fill.v
theories/Spec_continued.v
theories/Continued_claims.v
theories/Properties_continued.v
theories/Spec_depth.v
theories/Depth_claims.v
theories/Descent_claims.v
theories/Properties_depth.v
theories/Spec_join.v
theories/Join_claims.v
theories/Continued_table_claims.v
theories/Properties_join.v
theories/Spec_length.v
theories/Length_claims.v
theories/Properties_length.v
theories/Spec_values.v
theories/Values_claims.v
theories/Values_document.v
theories/Properties_values.v
theories/Spec_mix.v
theories/Mix_claims.v
theories/Properties_mix.v
theories/Spec_early.v
theories/Early_claims.v
theories/Properties_early.v
theories/Spec_stuck.v
theories/Stuck_claims.v
theories/Stuck_separate.v
theories/Properties_stuck.v
