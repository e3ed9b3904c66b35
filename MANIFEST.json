{
 "claims": [
  {
   "property": "C01",
   "status": "proved",
   "theorems": [
    "C01_dfa_accepts",
    "C01_dfa_accepts_foreign",
    "C01_dfa_accepts_graphemes"
   ],
   "note": ""
  },
  {
   "property": "C02",
   "status": "proved",
   "theorems": [
    "C02_dfa_history",
    "C02_dfa_step_result",
    "C02_dfa_step_multiple_result",
    "C02_dfa_step_all"
   ],
   "note": ""
  },
  {
   "property": "C03",
   "status": "proved",
   "theorems": [
    "C03_nfa_accepts",
    "C03_nfa_accepts_foreign",
    "C03_nfa_accepts_graphemes"
   ],
   "note": ""
  },
  {
   "property": "C04",
   "status": "proved",
   "theorems": [
    "C04_nfa_history",
    "C04_nfa_step_result",
    "C04_nfa_step_multiple_result",
    "C04_nfa_step_all"
   ],
   "note": ""
  },
  {
   "property": "C05",
   "status": "proved",
   "theorems": [
    "C05_nfa_closure"
   ],
   "note": ""
  },
  {
   "property": "C06",
   "status": "proved",
   "theorems": [
    "C06_dfa_accepted_iff_well_formed",
    "C06_dfa_faithful",
    "C06_dfa_valid"
   ],
   "note": ""
  },
  {
   "property": "C07",
   "status": "proved",
   "theorems": [
    "C07_nfa_accepted_iff_well_formed",
    "C07_nfa_faithful",
    "C07_nfa_valid"
   ],
   "note": ""
  },
  {
   "property": "C08",
   "status": "proved",
   "theorems": [
    "C08_dfa_error_is_real",
    "C08_nfa_error_is_real",
    "C08_dfa_defect_rejected",
    "C08_nfa_defect_rejected",
    "C08_dfa_first_error",
    "C08_nfa_first_error",
    "C08_messages"
   ],
   "note": ""
  },
  {
   "property": "C09",
   "status": "proved",
   "theorems": [
    "C09_dfa_to_table_roundtrip",
    "C09_dfa_ascii_table_roundtrip"
   ],
   "note": ""
  },
  {
   "property": "C10",
   "status": "proved",
   "theorems": [
    "C10_nfa_to_table_roundtrip",
    "C10_nfa_ascii_table_roundtrip"
   ],
   "note": ""
  },
  {
   "property": "C11",
   "status": "partial",
   "theorems": [
    "C11_dfa_tables_partial",
    "C11_nfa_tables_partial",
    "C11_regex_symbol_refuted",
    "C11_table_refuted",
    "C11_dfa_tables_iff",
    "C11_nfa_tables_iff",
    "C11_dfa_programs_iff",
    "C11_nfa_programs_iff",
    "C11_other_automaton_refuted",
    "C11_documented_claim_refuted"
   ],
   "note": "The documented claim is refuted (empty alphabet: C11_documented_claim_refuted, C11_table_refuted; symbols like # from regular expressions: C11_regex_symbol_refuted). The _partial theorems prove it for every API program whose regular expressions use legal tokens, when the alphabet is not empty. C11_dfa_tables_iff, C11_nfa_tables_iff and the _programs_iff theorems say exactly when the claim holds: if the symbols are tokens of the format (and the alphabet of a DFA is not empty); names never are the reason. Otherwise the table may even be read as another automaton (C11_other_automaton_refuted)."
  },
  {
   "property": "C12",
   "status": "proved",
   "theorems": [
    "C12_dfa_equivalent_to"
   ],
   "note": ""
  },
  {
   "property": "C13",
   "status": "proved",
   "theorems": [
    "C13_nfa_equivalent_to"
   ],
   "note": ""
  },
  {
   "property": "C14",
   "status": "proved",
   "theorems": [
    "C14_dfa_to_nfa"
   ],
   "note": ""
  },
  {
   "property": "C15",
   "status": "proved",
   "theorems": [
    "C15_nfa_to_dfa",
    "C15_nfa_to_dfa_words"
   ],
   "note": ""
  },
  {
   "property": "C16",
   "status": "proved",
   "theorems": [
    "C16_dfa_reachable_state_idx",
    "C16_dfa_unreachable_state_idx",
    "C16_dfa_reachable_states",
    "C16_dfa_unreachable_states",
    "C16_nfa_reachable_state_idx",
    "C16_nfa_unreachable_state_idx",
    "C16_nfa_reachable_states",
    "C16_nfa_unreachable_states"
   ],
   "note": ""
  },
  {
   "property": "C17",
   "status": "proved",
   "theorems": [
    "C17_dfa_remove_unreachable",
    "C17_nfa_remove_unreachable"
   ],
   "note": ""
  },
  {
   "property": "C18",
   "status": "proved",
   "theorems": [
    "C18_dfa_has_reachable_accepting_state",
    "C18_nfa_has_reachable_accepting_state"
   ],
   "note": ""
  },
  {
   "property": "C19",
   "status": "proved",
   "theorems": [
    "C19_state_equivalence_classes_idx",
    "C19_state_equivalence_classes"
   ],
   "note": ""
  },
  {
   "property": "C20",
   "status": "proved",
   "theorems": [
    "C20_merge"
   ],
   "note": ""
  },
  {
   "property": "C21",
   "status": "proved",
   "theorems": [
    "C21_minimize",
    "C21_minimize_states"
   ],
   "note": ""
  },
  {
   "property": "C22",
   "status": "proved",
   "theorems": [
    "C22_minimal_unique"
   ],
   "note": ""
  },
  {
   "property": "C23",
   "status": "proved",
   "theorems": [
    "C23_invert"
   ],
   "note": ""
  },
  {
   "property": "C24",
   "status": "proved",
   "theorems": [
    "C24_dfa_product",
    "C24_dfa_product_states"
   ],
   "note": ""
  },
  {
   "property": "C25",
   "status": "proved",
   "theorems": [
    "C25_union",
    "C25_intersection",
    "C25_difference",
    "C25_symmetric_difference"
   ],
   "note": ""
  },
  {
   "property": "C26",
   "status": "proved",
   "theorems": [
    "C26_dfa_product_names",
    "C26_nfa_product_names",
    "C26_nfa_to_dfa_names",
    "C26_nfa_union_names",
    "C26_remove_epsilon_names",
    "C26_regex_names"
   ],
   "note": ""
  },
  {
   "property": "C27",
   "status": "proved",
   "theorems": [
    "C27_nfa_union",
    "C27_nfa_union_states",
    "C27_nfa_union_edges"
   ],
   "note": ""
  },
  {
   "property": "C28",
   "status": "proved",
   "theorems": [
    "C28_nfa_intersection"
   ],
   "note": ""
  },
  {
   "property": "C29",
   "status": "proved",
   "theorems": [
    "C29_nfa_product",
    "C29_nfa_product_states",
    "C29_nfa_product_or",
    "C29_nfa_product_both"
   ],
   "note": ""
  },
  {
   "property": "C30",
   "status": "proved",
   "theorems": [
    "C30_remove_epsilon_moves"
   ],
   "note": ""
  },
  {
   "property": "C31",
   "status": "proved",
   "theorems": [
    "C31_optimize"
   ],
   "note": ""
  },
  {
   "property": "C32",
   "status": "proved",
   "theorems": [
    "C32_no_dead_state_left",
    "C32_survivors",
    "C32_transitions_refuted"
   ],
   "note": "Exact (C32_survivors). The documented remark that no states without transitions remain is false for accepting states (C32_transitions_refuted)."
  },
  {
   "property": "C33",
   "status": "proved",
   "theorems": [
    "C33_indices_sound",
    "C33_components_sound",
    "C33_words_sound"
   ],
   "note": ""
  },
  {
   "property": "C34",
   "status": "proved",
   "theorems": [
    "C34_language_only",
    "C34_indices",
    "C34_every_word_listed",
    "C34_components",
    "C34_words"
   ],
   "note": ""
  },
  {
   "property": "C35",
   "status": "proved",
   "theorems": [
    "C35_none_iff_exhausted",
    "C35_none_forever",
    "C35_new_panics_iff"
   ],
   "note": ""
  },
  {
   "property": "C36",
   "status": "proved",
   "theorems": [
    "C36_regex_to_nfa",
    "C36_alphabet",
    "C36_valid",
    "C36_evaluate",
    "C36_names"
   ],
   "note": ""
  },
  {
   "property": "C37",
   "status": "proved",
   "theorems": [
    "C37_tokens",
    "C37_documented_syntax_parses",
    "C37_only_documented_syntax_parses",
    "C37_unambiguous",
    "C37_documented_example_refuted"
   ],
   "note": "The documentation's own example `0*1(0+ε)` contradicts the documented syntax: C37_documented_example_refuted."
  },
  {
   "property": "C38",
   "status": "partial",
   "theorems": [
    "C38_escaped_epsilon_refuted",
    "C38_escaped_empty_refuted",
    "C38_whitespace_refuted",
    "C38_whitespace_language_refuted",
    "C38_marks_refuted",
    "C38_to_string_reparses_partial",
    "C38_to_string_inner_whitespace_partial",
    "C38_to_string_reads_as",
    "C38_to_string_iff",
    "C38_to_string_whitespace",
    "C38_to_string_exact"
   ],
   "note": "The claim as stated is refuted (printed ε/∅ lose their backslash, whitespace symbols at the ends are trimmed away, a symbol made of a reserved character and a combining mark loses its backslash); proved for every parsed expression without these symbols, see the _partial theorems. C38_to_string_reads_as and C38_to_string_iff say exactly what the printed text is read as when ε or ∅ are symbols. C38_to_string_whitespace and C38_to_string_exact also cover whitespace at the ends: the symbols of whitespace there are lost and nothing else is."
  },
  {
   "property": "C39",
   "status": "proved",
   "theorems": [
    "C39_dfa_parser_total",
    "C39_nfa_parser_total",
    "C39_dfa_parser_error",
    "C39_nfa_parser_error",
    "C39_regex_parser_total"
   ],
   "note": ""
  },
  {
   "property": "C40",
   "status": "proved",
   "theorems": [
    "C40_dfa_layouts",
    "C40_nfa_layouts",
    "C40_dfa_layout_irrelevant",
    "C40_nfa_layout_irrelevant",
    "C40_dfa_crlf",
    "C40_nfa_crlf",
    "C40_dfa_lines_around",
    "C40_nfa_lines_around",
    "C40_whitespace_lines_refuted",
    "C40_comment_cr_refuted"
   ],
   "note": ""
  },
  {
   "property": "C41",
   "status": "proved",
   "theorems": [
    "C41_dfa_programs",
    "C41_nfa_programs",
    "C41_dfa_queries",
    "C41_nfa_queries"
   ],
   "note": ""
  },
  {
   "property": "C42",
   "status": "proved",
   "theorems": [
    "C42_sessions",
    "C42_final_state",
    "C42_dfa_frame",
    "C42_nfa_frame",
    "C42_regex_frame",
    "C42_dfa_language_fixed",
    "C42_nfa_to_dfa",
    "C42_dfa_to_nfa",
    "C42_regex_to_nfa",
    "C42_unknown_dfa",
    "C42_unknown_nfa",
    "C42_unknown_regex",
    "C42_wraparound_refuted",
    "C42_overflow_refuted"
   ],
   "note": "Beyond usize::MAX handles the claim is false: C42_wraparound_refuted (no overflow checks: handles are reused), C42_overflow_refuted (overflow checks: panic)."
  },
  {
   "property": "C43",
   "status": "proved",
   "theorems": [
    "C43_equivalence",
    "C43_equivalent_iff",
    "C43_other_verdicts"
   ],
   "note": ""
  },
  {
   "property": "C44",
   "status": "proved",
   "theorems": [
    "C44_binary_op",
    "C44_tables_are_legal",
    "C44_readable_table_refuted"
   ],
   "note": "The printed table reads back as the computed DFA whenever the alphabet is not empty and consists of legal tokens (always, for inputs given as tables, C44_tables_are_legal); for expressions with symbols like # it does not: C44_readable_table_refuted."
  },
  {
   "property": "C45",
   "status": "proved",
   "theorems": [
    "C45_place_arrows",
    "C45_levels_compact"
   ],
   "note": ""
  },
  {
   "property": "C46",
   "status": "partial",
   "theorems": [
    "C46_dfa_partial",
    "C46_nfa_partial",
    "C46_short_labels_partial",
    "C46_long_label_refuted",
    "C46_wide_label_refuted",
    "C46_dfa_long_labels",
    "C46_nfa_long_labels",
    "C46_dfa_exact",
    "C46_nfa_exact",
    "C46_bytes"
   ],
   "note": "Refuted: a label that does not fit between its states can end behind the drawing (C46_long_label_refuted) or put a multi-byte character where the next arrow starts (C46_wide_label_refuted); both panic. Proved, with the exact drawing, whenever the labels fit (always, for labels of at most five characters), and when all labels that do not fit are ASCII: then it panics exactly if some label ends behind the line (C46_dfa_long_labels, C46_nfa_long_labels). For labels of any length and characters it returns a drawing exactly if every label can be written into the bytes of its line, from left to right (C46_dfa_exact, C46_nfa_exact), and panics otherwise."
  },
  {
   "property": "C47",
   "status": "proved",
   "theorems": [
    "C47_step_multiple_empty_refuted",
    "C47_after_foreign"
   ],
   "note": ""
  },
  {
   "property": "C48",
   "status": "proved",
   "theorems": [
    "C48_dfa_programs",
    "C48_nfa_programs",
    "C48_success"
   ],
   "note": ""
  },
  {
   "property": "C49",
   "status": "proved",
   "theorems": [
    "C49_dfa_tables_aligned",
    "C49_nfa_tables_aligned"
   ],
   "note": ""
  },
  {
   "property": "C50",
   "status": "proved",
   "theorems": [
    "C50_enumerate_regex",
    "C50_enumerate_file",
    "C50_first_words_unique",
    "C50_alphabet_distinct"
   ],
   "note": ""
  },
  {
   "property": "C51",
   "status": "proved",
   "theorems": [
    "C51_test_files",
    "C51_lines_unique"
   ],
   "note": ""
  },
  {
   "property": "C52",
   "status": "partial",
   "theorems": [
    "C52_relative_partial",
    "C52_absolute_partial",
    "C52_all_and_none",
    "C52_long_refuted",
    "C52_exact",
    "C52_every_path"
   ],
   "note": "Refuted for absolute paths with fewer than n components: only '/' is shown (C52_long_refuted). Proved for relative paths and for absolute paths with at least n components; C52_exact says what is shown of any text whatever (C52_every_path), with empty pieces, '.' and '..' in it."
  },
  {
   "property": "C53",
   "status": "partial",
   "theorems": [
    "C53_main_partial",
    "C53_same_lines_refuted",
    "C53_same_only_if_empty"
   ],
   "note": "Refuted for the --out file: results are written there without line feeds (C53_same_lines_refuted). C53_main_partial proves the rest, and that the file is the concatenation of the results."
  },
  {
   "property": "C54",
   "status": "partial",
   "theorems": [
    "C54_first_state_partial",
    "C54_nfa_first_state_partial",
    "C54_last_line",
    "C54_initial_refuted",
    "C54_loops_refuted"
   ],
   "note": "Refuted: the arrow always leads to the first state (C54_initial_refuted) and labels of loops are not shown (C54_loops_refuted). Proved: if the first state is initial, the arrow leads to it; every drawing ends with the line of all states (C54_last_line); the labels of all other transitions are shown (C46_dfa_partial, C46_nfa_partial give the exact drawing). Exactly what can be read off is proved as C83 (C83_dfa, C83_nfa, C83_dfa_exact)."
  },
  {
   "property": "C55",
   "status": "proved",
   "theorems": [
    "C55_draw_dfa",
    "C55_draw_nfa"
   ],
   "note": ""
  },
  {
   "property": "C56",
   "status": "partial",
   "theorems": [
    "C56_canvas_dfa_partial",
    "C56_canvas_nfa_partial",
    "C56_throws_iff",
    "C56_any_calls",
    "C56_canvas_exact_refuted",
    "C56_from_element_refuted",
    "C56_page_dfa_partial",
    "C56_page_nfa_partial"
   ],
   "note": "Refuted: finish_drawing strokes the leftover path once more, so the last line or circle is painted over, closed, in the text colour (C56_canvas_exact_refuted), and CanvasDrawer::from_element does not centre texts (C56_from_element_refuted). The _partial theorems give the exact list of marks including that extra stroke; C56_throws_iff is exact."
  },
  {
   "property": "C57",
   "status": "proved",
   "theorems": [
    "C57_egui_dfa",
    "C57_egui_nfa",
    "C57_any_calls",
    "C57_window",
    "C57_start",
    "C57_files"
   ],
   "note": ""
  },
  {
   "property": "C58",
   "status": "proved",
   "theorems": [
    "C58_sessions",
    "C58_text_areas"
   ],
   "note": ""
  },
  {
   "property": "C59",
   "status": "partial",
   "theorems": [
    "C59_outputs_partial",
    "C59_stale_output_refuted",
    "C59_canvas_refuted",
    "C59_outputs_exact",
    "C59_canvas_exact"
   ],
   "note": "Refuted: an error leaves the output of an earlier text in place (C59_stale_output_refuted), and the canvas is never cleared (C59_canvas_refuted). C59_outputs_partial: right after a click the output is right in the sense of C58, and outputs and inputs stay until the next click/edit. C59_outputs_exact and C59_canvas_exact say exactly what is shown: outputs show the result of the last click that delivered one (any click for the conversion to a DFA, else the last click with a legal text), and the canvas shows the pictures of all clicks with legal texts, in order."
  },
  {
   "property": "C60",
   "status": "proved",
   "theorems": [
    "C60_sessions",
    "C60_bounded_refuted"
   ],
   "note": "The number of automata kept is not bounded (C60_bounded_refuted): the page frees only after successful comparisons and NFA-to-DFA conversions."
  },
  {
   "property": "C61",
   "status": "partial",
   "theorems": [
    "C61_dfa_graphemes_only",
    "C61_nfa_graphemes_only",
    "C61_dfa_texts",
    "C61_nfa_texts",
    "C61_ascii_unambiguous_partial",
    "C61_unambiguous_iff",
    "C61_unambiguous_refuted"
   ],
   "note": "The characterisations of graphemes_only and accepts_graphemes are proved in full. Unambiguity is proved for alphabets of single ASCII characters (C61_ascii_unambiguous_partial) and refuted in general: symbols that are one grapheme each can merge into another grapheme when written after each other (C61_unambiguous_refuted). The segmentation is a parameter; the theorems assume that its pieces are not empty, concatenate to the text and are not cut further on their own. C61_unambiguous_iff: an alphabet is unambiguous exactly if the segmentation reads back every word over it."
  },
  {
   "property": "C62",
   "status": "proved",
   "theorems": [
    "C62_dfa_product_attained",
    "C62_set_operations_attained",
    "C62_nfa_product_attained",
    "C62_subset_construction_attained",
    "C62_same_size",
    "C62_dfa_product",
    "C62_dfa_set_operations",
    "C62_nfa_product",
    "C62_nfa_union",
    "C62_subset_construction",
    "C62_minimize",
    "C62_optimize",
    "C62_regex"
   ],
   "note": ""
  },
  {
   "property": "C63",
   "status": "proved",
   "theorems": [
    "C63_regex",
    "C63_nfa_to_dfa",
    "C63_dfa_remove_unreachable",
    "C63_nfa_remove_unreachable",
    "C63_dfa_product",
    "C63_dfa_set_operations",
    "C63_nfa_product",
    "C63_nfa_intersection",
    "C63_dfa_product_shape",
    "C63_nfa_product_shape",
    "C63_remove_epsilon_moves",
    "C63_optimize",
    "C63_minimize",
    "C63_minimize_refuted",
    "C63_remove_epsilon_moves_refuted",
    "C63_product_names_refuted",
    "C63_ascii_art_refuted"
   ],
   "note": "The differences that remain are shown by the theorems named _refuted: literal equality of the results fails for minimization, epsilon removal, clashing pair names and ASCII art."
  },
  {
   "property": "C64",
   "status": "proved",
   "theorems": [
    "C64_bound",
    "C64_no_plus_linear",
    "C64_nested_plus",
    "C64_polynomial_refuted"
   ],
   "note": "A polynomial bound is refuted: C64_polynomial_refuted."
  },
  {
   "property": "C65",
   "status": "proved",
   "theorems": [
    "C65_remove_unreachable",
    "C65_remove_unreachable_twice",
    "C65_constructions_reachable",
    "C65_merge",
    "C65_minimize",
    "C65_minimize_twice",
    "C65_remove_epsilon_twice",
    "C65_optimize_twice_refuted",
    "C65_optimize_thrice",
    "C65_round_trip"
   ],
   "note": "Optimizing twice differs from optimizing once: C65_optimize_twice_refuted; C65_optimize_thrice is what holds."
  },
  {
   "property": "C66",
   "status": "proved",
   "theorems": [
    "C66_equality",
    "C66_dfa_table_reparse",
    "C66_nfa_table_reparse",
    "C66_dfa_minimize_eq",
    "C66_dfa_to_nfa_to_dfa",
    "C66_nfa_to_dfa_to_nfa",
    "C66_nfa_remove_epsilon_transitions",
    "C66_nfa_remove_unreachable_states",
    "C66_dfa_binary_ops",
    "C66_nfa_binary_ops",
    "C66_dfa_self_union",
    "C66_dfa_self_intersection",
    "C66_dfa_inversion_tautologies",
    "C66_nfa_words",
    "C66_regex",
    "C66_regex_decides",
    "C66_regex_parse",
    "C66_random_regex_parses",
    "C66_test_subset_construction"
   ],
   "note": ""
  },
  {
   "property": "C67",
   "status": "proved",
   "theorems": [
    "C67_words",
    "C67_laws",
    "C67_no_other_laws",
    "C67_exact_laws",
    "C67_comparisons",
    "C67_equivalence_relation",
    "C67_minimize_invert"
   ],
   "note": ""
  },
  {
   "property": "C68",
   "status": "proved",
   "theorems": [
    "C68_listed_within",
    "C68_listed_once",
    "C68_complement"
   ],
   "note": ""
  },
  {
   "property": "C69",
   "status": "proved",
   "theorems": [
    "C69_dfa",
    "C69_fixed_alphabet_dfa",
    "C69_nfa",
    "C69_fixed_alphabet_nfa",
    "C69_tests",
    "C69_fixed_alphabet_tests"
   ],
   "note": ""
  },
  {
   "property": "C70",
   "status": "proved",
   "theorems": [
    "C70_table",
    "C70_dfa_tables",
    "C70_operations",
    "C70_nfa_tables",
    "C70_parser_nfa",
    "C70_regex",
    "C70_one_once_refuted",
    "C70_listed_words_refuted",
    "C70_ambiguous",
    "C70_examples"
   ],
   "note": "The sentence about 0*1(0|ε) is proved false (C70_one_once_refuted)."
  },
  {
   "property": "C71",
   "status": "proved",
   "theorems": [
    "C71_dfa_result",
    "C71_nfa_result",
    "C71_regex_result",
    "C71_one_error",
    "C71_place",
    "C71_messages",
    "C71_page"
   ],
   "note": ""
  },
  {
   "property": "C72",
   "status": "proved",
   "theorems": [
    "C72_dfa_calls",
    "C72_nfa_calls",
    "C72_no_calls",
    "C72_without_memory"
   ],
   "note": ""
  },
  {
   "property": "C73",
   "status": "proved",
   "theorems": [
    "C73_covers",
    "C73_exact_iff",
    "C73_exact_combinators",
    "C73_difference_words",
    "C73_documented_words",
    "C73_only_documented_words_refuted",
    "C73_converted_dfas"
   ],
   "note": "The documented description of the words accepted with 'first and not second' is not complete (C73_only_documented_words_refuted); C73_difference_words is exact."
  },
  {
   "property": "C74",
   "status": "proved",
   "theorems": [
    "C74_exponential",
    "C74_dictionary_iff",
    "C74_dictionary_refuted",
    "C74_dictionary_impossible",
    "C74_minimal_nfas",
    "C74_swapping_refuted",
    "C74_swapping_dfas"
   ],
   "note": ""
  },
  {
   "property": "C75",
   "status": "proved",
   "theorems": [
    "C75_dfa_stays",
    "C75_nfa_goes_on",
    "C75_nfa_never_accepts",
    "C75_taken",
    "C75_one_by_one_refuted",
    "C75_dfa_one_by_one",
    "C75_nfa_one_by_one"
   ],
   "note": "That the states of an NFA evaluator do not depend on how the elements are fed is false with foreign elements: C75_one_by_one_refuted."
  },
  {
   "property": "C76",
   "status": "proved",
   "theorems": [
    "C76_main",
    "C76_only_stdout",
    "C76_shown"
   ],
   "note": ""
  },
  {
   "property": "C77",
   "status": "proved",
   "theorems": [
    "C77_dfa",
    "C77_nfa",
    "C77_arrows_above_states",
    "C77_dfa_size",
    "C77_nfa_size",
    "C77_page_canvas",
    "C77_touch_refuted"
   ],
   "note": "Arrows of one level never overlap, but an arrow may touch the loop of the state it ends at: C77_touch_refuted. Arithmetic is exact."
  },
  {
   "property": "C78",
   "status": "proved",
   "theorems": [
    "C78_dfa",
    "C78_nfa",
    "C78_loaded"
   ],
   "note": ""
  },
  {
   "property": "C79",
   "status": "proved",
   "theorems": [
    "C79_into_dfa",
    "C79_into_nfa",
    "C79_into_minimized_dfa",
    "C79_into_minimized_dfa_if_not_dfa",
    "C79_convert_to",
    "C79_prepare_to_compare_with",
    "C79_test_equivalence",
    "C79_determined",
    "C79_names"
   ],
   "note": ""
  },
  {
   "property": "C80",
   "status": "proved",
   "theorems": [
    "C80_setters",
    "C80_values",
    "C80_new",
    "C80_default",
    "C80_dfa_layout",
    "C80_nfa_layout",
    "C80_offset_and_scale",
    "C80_colours",
    "C80_arrow_heads"
   ],
   "note": ""
  },
  {
   "property": "C81",
   "status": "proved",
   "theorems": [
    "C81_inputs",
    "C81_dfa_comparison",
    "C81_nfa_comparison",
    "C81_minimize",
    "C81_to_dfa",
    "C81_regex",
    "C81_visualize"
   ],
   "note": ""
  },
  {
   "property": "C82",
   "status": "proved",
   "theorems": [
    "C82_depth",
    "C82_any_text",
    "C82_height",
    "C82_height_attained"
   ],
   "note": ""
  },
  {
   "property": "C83",
   "status": "proved",
   "theorems": [
    "C83_dfa",
    "C83_nfa",
    "C83_initial_unseen",
    "C83_dfa_exact",
    "C83_spaces_refuted"
   ],
   "note": ""
  },
  {
   "property": "C84",
   "status": "proved",
   "theorems": [
    "C84_every_run",
    "C84_apart",
    "C84_read_again",
    "C84_words_pass",
    "C84_input_lost",
    "C84_compare_self",
    "C84_enumerate_refuted",
    "C84_words_refuted"
   ],
   "note": "C84_input_lost, C84_compare_self, C84_enumerate_refuted and C84_words_refuted state what goes wrong; the property says so."
  },
  {
   "property": "C85",
   "status": "proved",
   "theorems": [
    "C85_exact",
    "C85_unambiguous",
    "C85_every_run",
    "C85_written",
    "C85_order",
    "C85_defaults",
    "C85_unknown_option",
    "C85_program"
   ],
   "note": ""
  },
  {
   "property": "C86",
   "status": "proved",
   "theorems": [
    "C86_same_output",
    "C86_equivalence",
    "C86_set_operations",
    "C86_set_operations_of_dfas",
    "C86_tables_refuted"
   ],
   "note": ""
  },
  {
   "property": "C87",
   "status": "proved",
   "theorems": [
    "C87_documented_example",
    "C87_documented_second_example",
    "C87_comparisons",
    "C87_test_file",
    "C87_even_number_of_as",
    "C87_example_tables",
    "C87_subset_construction",
    "C87_bench_powerset",
    "C87_bench_equivalence_check",
    "C87_bench_regex",
    "C87_main1"
   ],
   "note": ""
  },
  {
   "property": "C88",
   "status": "proved",
   "theorems": [
    "C88_script",
    "C88_compare",
    "C88_enumerate",
    "C88_expression",
    "C88_equation",
    "C88_every_combination",
    "C88_no_other"
   ],
   "note": ""
  },
  {
   "property": "C89",
   "status": "proved",
   "theorems": [
    "C89_dfa",
    "C89_nfa",
    "C89_small",
    "C89_dfa_picture",
    "C89_nfa_picture",
    "C89_page_canvas",
    "C89_large_refuted"
   ],
   "note": ""
  },
  {
   "property": "C90",
   "status": "proved",
   "theorems": [
    "C90_numbers",
    "C90_canvas_dfa",
    "C90_canvas_nfa",
    "C90_sessions",
    "C90_first_page"
   ],
   "note": ""
  },
  {
   "property": "C91",
   "status": "proved",
   "theorems": [
    "C91_window",
    "C91_page"
   ],
   "note": ""
  },
  {
   "property": "C92",
   "status": "proved",
   "theorems": [
    "C92_texts",
    "C92_canvas",
    "C92_browser",
    "C92_minimize_refuted",
    "C92_canvas_refuted"
   ],
   "note": ""
  },
  {
   "property": "C93",
   "status": "proved",
   "theorems": [
    "C93_dfa_equivalence",
    "C93_nfa_equivalence",
    "C93_classes",
    "C93_dfa_emptiness",
    "C93_nfa_emptiness",
    "C93_finiteness",
    "C93_attained"
   ],
   "note": ""
  },
  {
   "property": "C94",
   "status": "proved",
   "theorems": [
    "C94_conversions",
    "C94_arithmetic",
    "C94_nearest",
    "C94_conversion_nearest",
    "C94_equality",
    "C94_parts",
    "C94_parts_refuted"
   ],
   "note": ""
  },
  {
   "property": "C95",
   "status": "proved",
   "theorems": [
    "C95_canvas",
    "C95_canvas_rect",
    "C95_egui",
    "C95_egui_rect",
    "C95_options",
    "C95_options_refuted"
   ],
   "note": ""
  },
  {
   "property": "C96",
   "status": "proved",
   "theorems": [
    "C96_laws",
    "C96_refused",
    "C96_complete",
    "C96_put",
    "C96_parts",
    "C96_induction",
    "C96_typed"
   ],
   "note": ""
  },
  {
   "property": "C97",
   "status": "proved",
   "theorems": [
    "C97_dfa",
    "C97_nfa",
    "C97_only_graphemes",
    "C97_single_characters"
   ],
   "note": ""
  },
  {
   "property": "C98",
   "status": "proved",
   "theorems": [
    "C98_every_run",
    "C98_one_end",
    "C98_healthy",
    "C98_prefix",
    "C98_room",
    "C98_error_status_refuted",
    "C98_old_text_refuted"
   ],
   "note": ""
  },
  {
   "property": "C99",
   "status": "proved",
   "theorems": [
    "C99_every_run",
    "C99_reads",
    "C99_snapshot",
    "C99_distinct",
    "C99_written",
    "C99_moment_refuted",
    "C99_twice_refuted"
   ],
   "note": ""
  },
  {
   "property": "C100",
   "status": "proved",
   "theorems": [
    "C100_every_process",
    "C100_refused",
    "C100_status",
    "C100_prefix",
    "C100_alone"
   ],
   "note": ""
  },
  {
   "property": "C101",
   "status": "proved",
   "theorems": [
    "C101_texts",
    "C101_every_process",
    "C101_reread"
   ],
   "note": ""
  },
  {
   "property": "C102",
   "status": "partial",
   "theorems": [
    "C102_cut_text_partial",
    "C102_cut_table_partial",
    "C102_cut_bytes_partial",
    "C102_cut_nfa_text",
    "C102_cut_nfa_table",
    "C102_cut_nfa_bytes",
    "C102_cut_product_partial",
    "C102_cut_output_partial",
    "C102_cut_table_refuted",
    "C102_cut_states_refuted"
   ],
   "note": "Proved for all NFAs. False for DFAs in general (C102_cut_table_refuted: a cut table of a union loads as an automaton that accepts less); proved for DFA tables in which no name of a state is the beginning of another one."
  }
 ]
}