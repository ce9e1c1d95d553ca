{
 "claims": [
  {
   "property": "C01",
   "status": "proved",
   "theorems": [
    "C01_match_decides_language",
    "C01_match_exact"
   ],
   "note": "C01_match_decides_language covers the fragment `regular` and `possessive_free`; C01_match_exact covers every backreference-free regex that compiles, against the specification `walk` of what the code tries."
  },
  {
   "property": "C02",
   "status": "partial",
   "theorems": [
    "C02_match_prefix_priority_partial",
    "C02_match_prefix_priority_refuted",
    "C02_match_prefix_exact",
    "C02_paths_are_the_matches"
   ],
   "note": "Proved for all `regular` trees; refuted beyond (possessive loops over bodies that can match the empty string, F13; anchors and nested lookarounds inside lookbehinds, F5/F6). C02_match_prefix_exact gives the exact result for every backreference-free regex that compiles."
  },
  {
   "property": "C03",
   "status": "proved",
   "theorems": [
    "C03_search_leftmost",
    "C03_search_first_offset",
    "C03_search_exact"
   ],
   "note": "C03_search_first_offset covers every backreference-free regex that compiles; C03_search_leftmost relates it to the independent specification for `regular` trees, C03_search_exact to `walk` for all of them."
  },
  {
   "property": "C04",
   "status": "proved",
   "theorems": [
    "C04_matching_terminates",
    "C04_calls_terminate"
   ],
   "note": ""
  },
  {
   "property": "C05",
   "status": "proved",
   "theorems": [
    "C05_no_out_of_bounds",
    "C05_forward_multiline_refuted"
   ],
   "note": "The _refuted theorem is finding F12: outside the quantifier of the property (multiline ^ on forward iterators)."
  },
  {
   "property": "C06",
   "status": "proved",
   "theorems": [
    "C06_groups_valid"
   ],
   "note": ""
  },
  {
   "property": "C07",
   "status": "proved",
   "theorems": [
    "C07_calls_agree"
   ],
   "note": ""
  },
  {
   "property": "C08",
   "status": "proved",
   "theorems": [
    "C08_unroll_irrelevant"
   ],
   "note": ""
  },
  {
   "property": "C09",
   "status": "proved",
   "theorems": [
    "C09_category_irrelevant",
    "C09_bidirectional_like_random_access",
    "C09_failed_group0_refuted"
   ],
   "note": "Verdict, groups 1.. and, on success, group 0. The _refuted theorem is finding F15: group 0 of a failed call does depend on the category."
  },
  {
   "property": "C10",
   "status": "proved",
   "theorems": [
    "C10_ungreedy_swaps_modes"
   ],
   "note": ""
  },
  {
   "property": "C11",
   "status": "partial",
   "theorems": [
    "C11_possessive_groups_partial",
    "C11_possessive_any_body_partial",
    "C11_possessive_any_bound_partial",
    "C11_possessive_is_atomic_greedy_partial",
    "C11_possessive_is_atomic_greedy_refuted"
   ],
   "note": "Proved in every context for every body unless the upper bound is infinite and the body can be empty, also with backreferences and the content of every group; what the loop means otherwise is proved exactly for the lower bounds 0 and 1 and every body (an atomic loop over the body as an atomic group), and for every lower bound and bodies without groups (C11_possessive_any_bound_partial). The case of an empty body with an infinite bound is refuted (finding F13)."
  },
  {
   "property": "C12",
   "status": "proved",
   "theorems": [
    "C12_atomic_commits",
    "C12_atomic_commits_any"
   ],
   "note": ""
  },
  {
   "property": "C13",
   "status": "proved",
   "theorems": [
    "C13_lookahead",
    "C13_lookahead_any"
   ],
   "note": ""
  },
  {
   "property": "C14",
   "status": "proved",
   "theorems": [
    "C14_lookbehind"
   ],
   "note": ""
  },
  {
   "property": "C15",
   "status": "partial",
   "theorems": [
    "C15_anchor_in_lookbehind_refuted",
    "C15_lookaround_in_lookbehind_refuted",
    "C15_match_as_read",
    "C15_match_prefix_as_read",
    "C15_search_as_read",
    "C15_read_as_written"
   ],
   "note": "False of the code: refuted by findings F5 and F6. The as_read theorems prove exactly what the code does instead, for all nestings, and that nothing else is affected."
  },
  {
   "property": "C16",
   "status": "proved",
   "theorems": [
    "C16_documented_classes",
    "C16_sets_and_ranges"
   ],
   "note": ""
  },
  {
   "property": "C17",
   "status": "proved",
   "theorems": [
    "C17_icase_class",
    "C17_icase_negated_class"
   ],
   "note": ""
  },
  {
   "property": "C18",
   "status": "proved",
   "theorems": [
    "C18_icase_input_case_irrelevant"
   ],
   "note": ""
  },
  {
   "property": "C19",
   "status": "proved",
   "theorems": [
    "C19_anchors"
   ],
   "note": ""
  },
  {
   "property": "C20",
   "status": "proved",
   "theorems": [
    "C20_quantifier_shorthands"
   ],
   "note": ""
  },
  {
   "property": "C21",
   "status": "partial",
   "theorems": [
    "C21_regrouping",
    "C21_regrouping_alternations_partial",
    "C21_regrouping_refuted"
   ],
   "note": "Proved for all regexes for concatenations, for alternations in last position, and for every other alternation unless some character fits two of the single characters where it meets the following alternatives; for all nestings in backreference-free regexes; refuted for left-nested alternations of equal single characters with backreferences (finding F16)."
  },
  {
   "property": "C22",
   "status": "proved",
   "theorems": [
    "C22_backref_repeats_group",
    "C22_named_backref_repeats_group",
    "C22_backref_in_lookbehind"
   ],
   "note": ""
  },
  {
   "property": "C23",
   "status": "partial",
   "theorems": [
    "C23_groups_numbered_in_order_partial",
    "C23_groups_numbered_in_order_refuted",
    "C23_numbers_exact"
   ],
   "note": "Proved for all accepted patterns in which at most one branch of every alternation has groups; refuted otherwise (finding F1). C23_numbers_exact gives the numbers of every accepted pattern: groups in other branches are not counted."
  },
  {
   "property": "C24",
   "status": "proved",
   "theorems": [
    "C24_groups_are_parentheses",
    "C24_group_count"
   ],
   "note": ""
  },
  {
   "property": "C25",
   "status": "proved",
   "theorems": [
    "C25_captured_text_in_language",
    "C25_captured_text_on_path"
   ],
   "note": "All `regular` regexes (lookbehinds and lookaheads with captures included), all three calls, whether they succeed or not."
  },
  {
   "property": "C26",
   "status": "partial",
   "theorems": [
    "C26_group_of_match_partial",
    "C26_group_of_match_prefix_partial",
    "C26_group_of_search_partial",
    "C26_group_on_match_partial",
    "C26_group_off_match_partial",
    "C26_abandoned_branch_refuted",
    "C26_earlier_position_refuted"
   ],
   "note": "False of groups inside lookarounds, atomic groups and possessive repetitions (finding F3). Proved for every other group of every accepted regex and all three calls, backreferences included; for groups captured at most once on a path, also inside lookaheads and atomic groups, the range is the one of the preferred match."
  },
  {
   "property": "C27",
   "status": "partial",
   "theorems": [
    "C27_every_loop_partial",
    "C27_repeated_group_partial",
    "C27_unbounded_loop_empties",
    "C27_last_iteration_refuted"
   ],
   "note": "False of greedy and possessive loops that stop before their upper bound (finding F2). Proved exactly: lazy loops and loops that reach their bound hold the last iteration, all others leave the group empty; for results of calls with loops at the top level of the pattern, and for every loop at every point where the search leaves it."
  },
  {
   "property": "C28",
   "status": "partial",
   "theorems": [
    "C28_failed_match_refuted",
    "C28_failed_prefix_refuted",
    "C28_failed_search_partial",
    "C28_failed_other_groups_partial",
    "C28_failed_search_groups_refuted"
   ],
   "note": "False of match and match_prefix (finding F4). Proved for search and every accepted pattern, backreferences included. The other groups: empty after every failed call unless inside lookarounds, possessive repetitions or atomic groups, where it is false."
  },
  {
   "property": "C29",
   "status": "partial",
   "theorems": [
    "C29_parser_verdict_partial",
    "C29_parser_verdict_refuted",
    "C29_stuck_exactly"
   ],
   "note": "Every pattern gets a verdict except those that consist only of openings of groups, the last one a lookaround, atomic or named group; these are exactly the patterns that leave the parser stuck (finding F14)."
  },
  {
   "property": "C30",
   "status": "proved",
   "theorems": [
    "C30_error_is_first_offence",
    "C30_error_position"
   ],
   "note": ""
  },
  {
   "property": "C31",
   "status": "proved",
   "theorems": [
    "C31_hex_escapes_match_exactly",
    "C31_plain_text_matches_exactly",
    "C31_spelled_text_matches"
   ],
   "note": ""
  },
  {
   "property": "C32",
   "status": "partial",
   "theorems": [
    "C32_counts_as_written_partial",
    "C32_backreference_numbers_partial",
    "C32_counts_as_written_refuted",
    "C32_counts_exact",
    "C32_backreference_numbers_exact"
   ],
   "note": "Proved for numerals below 2^64; refuted beyond (finding F9: the numbers wrap). The _exact theorems give the tree for numerals of any size: they are read modulo 2^64."
  },
  {
   "property": "C33",
   "status": "partial",
   "theorems": [
    "C33_brace_is_literal_partial",
    "C33_brace_is_literal_refuted",
    "C33_brace_exact"
   ],
   "note": "Proved for every accepted pattern, wherever the brace stands, if no alternation follows in the same group; refuted otherwise (finding F7). C33_brace_exact says what the brace stands for in every accepted pattern: a character in a set, elsewhere a group of its own with the piece in front and the rest of the group."
  },
  {
   "property": "C34",
   "status": "partial",
   "theorems": [
    "C34_set_is_union_partial",
    "C34_set_is_union_refuted",
    "C34_set_exact"
   ],
   "note": "Proved for all item lists except a dash between a class and something other than one character, or behind \\R; refuted there (findings F8 and F17). C34_set_exact gives the elements and the verdicts for every accepted text between brackets."
  },
  {
   "property": "C35",
   "status": "proved",
   "theorems": [
    "C35_print_then_parse",
    "C35_parse_then_print",
    "C35_trees_of_patterns",
    "C35_parser_reads_the_grammar",
    "C35_names_and_numerals"
   ],
   "note": "Moreover the accepted patterns and their trees are exactly those of the grammar in Syntax.v."
  },
  {
   "property": "C36",
   "status": "proved",
   "theorems": [
    "C36_tokens_contiguous",
    "C36_tokens_preferred",
    "C36_ranges_cut_generators",
    "C36_tokenize_exact"
   ],
   "note": ""
  },
  {
   "property": "C37",
   "status": "proved",
   "theorems": [
    "C37_searcher_ordered"
   ],
   "note": ""
  },
  {
   "property": "C38",
   "status": "partial",
   "theorems": [
    "C38_find_all_complete_partial",
    "C38_find_all_covers_partial",
    "C38_find_all_exact",
    "C38_find_all_refuted"
   ],
   "note": "Refuted in general (finding F10). Proved when no match is empty; the exact sequence of matches is proved for every regex (C38_find_all_partial without backreferences, C55_find_all in general)."
  },
  {
   "property": "C39",
   "status": "proved",
   "theorems": [
    "C39_exhausted_stays"
   ],
   "note": ""
  },
  {
   "property": "C40",
   "status": "proved",
   "theorems": [
    "C40_owned_text",
    "C40_group_by_name",
    "C40_verdict_kept"
   ],
   "note": ""
  },
  {
   "property": "C41",
   "status": "partial",
   "theorems": [
    "C41_capture_bool_refuted",
    "C41_capture_bool_means_empty"
   ],
   "note": "False of the code (finding F11); the exact meaning of the conversion is proved instead."
  },
  {
   "property": "C42",
   "status": "proved",
   "theorems": [
    "C42_clearing_flags",
    "C42_flags_are_a_set",
    "C42_adding_flags"
   ],
   "note": ""
  },
  {
   "property": "C43",
   "status": "partial",
   "theorems": [
    "C43_str_partial",
    "C43_str_refuted",
    "C43_concat",
    "C43_either_partial",
    "C43_either_apart_partial",
    "C43_repetitions",
    "C43_groups",
    "C43_negate_class"
   ],
   "note": "All expression builders; `either` when no backreference occurs or no character fits two of the single characters where an alternation meets the following operands (finding F16) and `str` for non-empty texts (finding F18: str<\"\"> does not compile, refuted)."
  },
  {
   "property": "C44",
   "status": "partial",
   "theorems": [
    "C44_parsed_trees_well_shaped",
    "C44_parsed_trees_compile_partial",
    "C44_parsed_trees_compile_refuted",
    "C44_compiles_exactly"
   ],
   "note": "Shapes and group numbers for all accepted patterns; the full compile check under the conditions of the property plus the two under which the code is known to fail (findings F1, F6), each refuted separately."
  },
  {
   "property": "C45",
   "status": "proved",
   "theorems": [
    "C45_captures_irrelevant"
   ],
   "note": ""
  },
  {
   "property": "C46",
   "status": "partial",
   "theorems": [
    "C46_match_partial",
    "C46_match_prefix_partial",
    "C46_search_partial",
    "C46_order_without_backrefs",
    "C46_loop_misses_match_refuted",
    "C46_loop_accepts_nonmatch_refuted",
    "C46_abandoned_branch_refuted"
   ],
   "note": "False in general (finding F19). Proved for the trees in which every backreference is preceded by its group and the group is captured at most once on a path, outside loops, negations and lookbehinds."
  },
  {
   "property": "C47",
   "status": "proved",
   "theorems": [
    "C47_type_sequences",
    "C47_pattern_text",
    "C47_reversed_view",
    "C47_distance",
    "C47_index_offsets"
   ],
   "note": ""
  },
  {
   "property": "C48",
   "status": "partial",
   "theorems": [
    "C48_range_loops",
    "C48_at_most_one_empty",
    "C48_tokens_not_empty_refuted"
   ],
   "note": "Loops over the range object and the position of an empty element are proved for all regexes. The documented claim that tokens are non-empty is refuted (finding F10)."
  },
  {
   "property": "C49",
   "status": "partial",
   "theorems": [
    "C49_results_outlive_partial",
    "C49_results_outlive_exact",
    "C49_temporary_array_refuted",
    "C49_temporary_generator_refuted",
    "C49_finished_generator"
   ],
   "note": "Proved for match, match_prefix and search with every argument except a temporary of a trivially destructible class that holds the characters; refuted for that and for the generator and range calls (finding F20). An exact condition is proved for the three methods."
  },
  {
   "property": "C50",
   "status": "partial",
   "theorems": [
    "C50_transform_groups_partial",
    "C50_transform_groups_exact",
    "C50_for_each_group",
    "C50_single_pair_refuted"
   ],
   "note": "for_each_group in full; transform_groups whenever there is more than group 0 or the function returns no pair or tuple. Refuted otherwise (finding F21). An exact condition is proved."
  },
  {
   "property": "C51",
   "status": "proved",
   "theorems": [
    "C51_meaningless_escapes",
    "C51_empty_sets",
    "C51_empty_sets_in_context"
   ],
   "note": ""
  },
  {
   "property": "C52",
   "status": "partial",
   "theorems": [
    "C52_undefined_number_partial",
    "C52_undefined_name_partial",
    "C52_undefined_group_refuted",
    "C52_unused_body_exact"
   ],
   "note": "Proved for every backreference except in the body of a repetition without iterations, where it is refuted (finding F22). C52_unused_body_exact: such a body has no influence at all, neither on whether the calls compile nor on their results."
  },
  {
   "property": "C53",
   "status": "proved",
   "theorems": [
    "C53_names",
    "C53_result_equals",
    "C53_results_read_alike",
    "C53_length_of_any_view"
   ],
   "note": ""
  },
  {
   "property": "C54",
   "status": "partial",
   "theorems": [
    "C54_calls_on_wide_texts_partial",
    "C54_wide_text_partial",
    "C54_low_bits_only",
    "C54_wide_text_refuted"
   ],
   "note": "False of characters above 255 (finding F23): exactly the low eight bits are compared. Proved for all other texts."
  },
  {
   "property": "C55",
   "status": "proved",
   "theorems": [
    "C55_match",
    "C55_match_prefix",
    "C55_search",
    "C55_tokenize",
    "C55_find_all"
   ],
   "note": ""
  },
  {
   "property": "C56",
   "status": "partial",
   "theorems": [
    "C56_forward_ranges_partial",
    "C56_forward_ranges_refuted",
    "C56_forward_exact",
    "C56_line_starts_exact",
    "C56_leading_line_start_exact",
    "C56_opening_line_starts",
    "C56_first_line_starts_exact"
   ],
   "note": "Proved for regexes without lookbehinds, backreferences, word boundaries and multiline ^; refuted for backreferences and word boundaries, which do not compile (finding F24), and for multiline ^ (finding F12). C56_forward_exact says for every regex whether it compiles on forward ranges; C56_line_starts_exact says that what compiles there is undefined behaviour or agrees with every other range. C56_leading_line_start_exact says for a single ^ in front exactly which calls are undefined behaviour: search unless the text is empty or begins with a match, find_all for every nonempty text unless the match at the beginning is empty. C56_opening_line_starts extends this to every expression that begins each attempt with ^. C56_first_line_starts_exact says for ^ that stands only where nothing has been taken yet that match and match_prefix are defined and are those with \\A, and, if the expression opens with ^, exactly which of search, find_all and tokenize are undefined behaviour."
  },
  {
   "property": "C57",
   "status": "proved",
   "theorems": [
    "C57_character_helpers"
   ],
   "note": ""
  },
  {
   "property": "C58",
   "status": "proved",
   "theorems": [
    "C58_match",
    "C58_match_prefix",
    "C58_search"
   ],
   "note": ""
  },
  {
   "property": "C59",
   "status": "partial",
   "theorems": [
    "C59_expressions_partial",
    "C59_expressions_refuted"
   ],
   "note": "Proved for expressions of any depth whose groups carry the numbers a pattern would give them, and in which, when there are backreferences, the first operand of either is no alternation and no character fits two of the single characters where another one meets the following operands (finding F16). Refuted without the condition on the numbers: two xpr::regex with groups share the number 1 (finding F25)."
  },
  {
   "property": "C60",
   "status": "partial",
   "theorems": [
    "C60_documented_partial",
    "C60_documented_refuted"
   ],
   "note": "The word expression is its pattern. The url expression is another pattern than the documented one, which is refuted with texts that only one of them accepts (finding F26); the pattern it is equal to is proved."
  },
  {
   "property": "C61",
   "status": "proved",
   "theorems": [
    "C61_same_outcomes",
    "C61_linear_depth",
    "C61_constant_depth",
    "C61_depth_grows"
   ],
   "note": "That the conditions of the constant bound are needed is proved too: (a)* nests a call for each character (finding F28). Calls are counted without tail call elimination, see Costs.v for what is a call."
  },
  {
   "property": "C62",
   "status": "partial",
   "theorems": [
    "C62_polynomial_steps_partial",
    "C62_degree_attained",
    "C62_polynomial_steps_refuted",
    "C62_atomic_costs",
    "C62_exponential_steps"
   ],
   "note": "Proved when what is repeated without a bound, other than possessively, leaves no alternatives behind; otherwise refuted: a star in a star takes 2^n steps on n characters (finding F27). In every case at most exponential in the length. The exponents of the polynomial bound are attained (C62_degree_attained). Steps are calls, rounds of loops (also in utility/distance.hpp) and tests of unrolled blocks. C62_atomic_costs: an atomic group costs at least its body, a lookahead more than what it looks for."
  },
  {
   "property": "C63",
   "status": "partial",
   "theorems": [
    "C63_same_results",
    "C63_linear_total",
    "C63_constant_depth_partial",
    "C63_constant_depth_refuted"
   ],
   "note": "The linear total is proved. The constant depth is refuted: each range in a set, and each brace that begins no quantifier, leaves symbols on the stack that are removed in one recursion later (finding F29). Proved is a bound by a constant and a multiple of their number."
  },
  {
   "property": "C64",
   "status": "partial",
   "theorems": [
    "C64_flags_are_rewritings_partial",
    "C64_backreferences_refuted",
    "C64_lookbehind_refuted",
    "C64_forward_refuted"
   ],
   "note": "Proved without backreferences under icase, and under multiline for iterators that can go back and without line anchors in lookbehinds. Refuted without these conditions: backreferences compare without case, which no rewriting of the tree expresses; findings F5 and F12."
  },
  {
   "property": "C65",
   "status": "proved",
   "theorems": [
    "C65_anchored_patterns",
    "C65_anchored_trees"
   ],
   "note": "For accepted patterns and for trees. A failed search leaves group 0 of the result at the last start it tried, so group 0 is only compared on success."
  },
  {
   "property": "C66",
   "status": "proved",
   "theorems": [
    "C66_tokens",
    "C66_occurrences",
    "C66_condition_needed"
   ],
   "note": "The condition is needed: shown by an example with \\b."
  },
  {
   "property": "C67",
   "status": "proved",
   "theorems": [
    "C67_search_finds_words",
    "C67_prefix_finds_words",
    "C67_conditions_needed"
   ],
   "note": "That both conditions are needed is shown by examples."
  },
  {
   "property": "C68",
   "status": "proved",
   "theorems": [
    "C68_same_results",
    "C68_results_are_counted",
    "C68_one_attempt_for_each_start",
    "C68_polynomial_steps",
    "C68_exponential_steps",
    "C68_linear_depth"
   ],
   "note": "Steps are counted as in C61 and C62, and one more for each call of the generator. The polynomial bound holds for the expressions of C62."
  },
  {
   "property": "C69",
   "status": "partial",
   "theorems": [
    "C69_enough_memory",
    "C69_reported_partial",
    "C69_reported_refuted",
    "C69_memory_owner_exact"
   ],
   "note": "Proved for content and as_optional of views and of owners that are not constant expiring values. Refuted for as_memory_owner and the calls on temporaries (finding F30) and for as_optional of constant expiring owners (finding F31)."
  },
  {
   "property": "C70",
   "status": "proved",
   "theorems": [
    "C70_laws_keep_verdicts",
    "C70_ends_differ"
   ],
   "note": "For both sides in the fragment of C01. That the ends of matches can differ is shown by an example."
  },
  {
   "property": "C71",
   "status": "proved",
   "theorems": [
    "C71_results",
    "C71_bounds",
    "C71_traits",
    "C71_attained"
   ],
   "note": "Nothing is claimed about the length of the text of a backreference."
  },
  {
   "property": "C72",
   "status": "proved",
   "theorems": [
    "C72_wider_patterns",
    "C72_flags_only_add",
    "C72_negation_needed",
    "C72_possessive_needed"
   ],
   "note": "Stated for trees without backreferences and possessive parts; C72_negation_needed and C72_possessive_needed show that these conditions, and positive for the flags, are necessary."
  },
  {
   "property": "C73",
   "status": "proved",
   "theorems": [
    "C73_concatenation",
    "C73_alternatives",
    "C73_repetition",
    "C73_group",
    "C73_references_needed",
    "C73_parentheses_needed"
   ],
   "note": "Stated for self-contained patterns; C73_references_needed and C73_parentheses_needed show why backreferences and missing parentheses are excluded. A composition with groups is only claimed to match those texts if it compiles (two branches with groups of different names do not, finding F1)."
  },
  {
   "property": "C74",
   "status": "partial",
   "theorems": [
    "C74_shape",
    "C74_reversed_texts_partial",
    "C74_reversed_search_partial",
    "C74_reversed_texts_refuted",
    "C74_reversed_match_exact",
    "C74_reversed_prefix_exact",
    "C74_reversed_search_exact"
   ],
   "note": "The reversal is false for line and input anchors and for lookarounds over more than one character, which inversion leaves as they are (C74_reversed_texts_refuted, findings F5 and F6); proved for trees without them. For all trees without backreferences the exact result of all three calls is proved (C74_reversed_match_exact, C74_reversed_prefix_exact, C74_reversed_search_exact)."
  },
  {
   "property": "C75",
   "status": "proved",
   "theorems": [
    "C75_match",
    "C75_match_prefix",
    "C75_search",
    "C75_delimited"
   ],
   "note": "C75_match, C75_match_prefix, C75_search and C75_delimited; the specification (divides) mentions texts only."
  },
  {
   "property": "C76",
   "status": "proved",
   "theorems": [
    "C76_basic",
    "C76_record",
    "C76_optional",
    "C76_date",
    "C76_log",
    "C76_words",
    "C76_words_unique",
    "C76_token",
    "C76_runs",
    "C76_short_words"
   ],
   "note": "Specifications speak of texts only (record, announcement, date, log_line, maximal_run). The URL program is checked on its own text; using_expressions.cpp is the subject of C60."
  },
  {
   "property": "C77",
   "status": "proved",
   "theorems": [
    "C77_surrounded_search",
    "C77_whole_lines",
    "C77_parentheses_needed"
   ],
   "note": "The demands are described on the texts before and behind a place, without offsets or configuration; the flag multiline appears as a flag of the regex."
  },
  {
   "property": "C78",
   "status": "proved",
   "theorems": [
    "C78_pieces",
    "C78_all_pieces",
    "C78_search",
    "C78_conditions_needed"
   ],
   "note": "Where the matches are; what the capturing groups hold may be left over from an earlier piece (C26)."
  },
  {
   "property": "C79",
   "status": "proved",
   "theorems": [
    "C79_only_classes_matter",
    "C79_recoded",
    "C79_conditions_needed"
   ],
   "note": "Full statement, together with the rewriting form; C79_conditions_needed shows by counterexamples that each condition matters."
  },
  {
   "property": "C80",
   "status": "partial",
   "theorems": [
    "C80_same_characters_partial",
    "C80_characters_seen",
    "C80_same_characters_refuted"
   ],
   "note": "Proved for every argument except string literals with a NUL in them, for which it is refuted (finding F33). C80_characters_seen says exactly what is seen in every case."
  },
  {
   "property": "C81",
   "status": "proved",
   "theorems": [
    "C81_lists_lines",
    "C81_list_unique",
    "C81_words_of_one_line",
    "C81_condition_needed"
   ],
   "note": "C81_condition_needed shows that the condition on the words cannot be dropped; C81_words_of_one_line is a check of the tree that implies it."
  },
  {
   "property": "C82",
   "status": "proved",
   "theorems": [
    "C82_linear_steps",
    "C82_ranges",
    "C82_search_attained",
    "C82_condition_needed"
   ],
   "note": "For trees that pass the test `determined` (sufficient, not necessary). Backreferences and longer lookarounds do not pass it; possessive loops pass it only over single characters."
  },
  {
   "property": "C83",
   "status": "proved",
   "theorems": [
    "C83_possessive_for_free",
    "C83_possessive_for_free_in_match",
    "C83_condition_needed"
   ],
   "note": "For trees of the regular fragment of C02; loops over single sets. Verdicts and matched ranges, not the other groups."
  },
  {
   "property": "C84",
   "status": "proved",
   "theorems": [
    "C84_intersection",
    "C84_difference",
    "C84_condition_needed"
   ],
   "note": ""
  },
  {
   "property": "C85",
   "status": "proved",
   "theorems": [
    "C85_search_behind_gap",
    "C85_last_place",
    "C85_contains",
    "C85_tokens",
    "C85_condition_needed"
   ],
   "note": ""
  },
  {
   "property": "C86",
   "status": "proved",
   "theorems": [
    "C86_match",
    "C86_match_prefix",
    "C86_search",
    "C86_tokenize",
    "C86_find_all",
    "C86_condition_needed"
   ],
   "note": "Proved for the three calls and the two ranges; the conditions are shown to be needed by witnesses."
  },
  {
   "property": "C87",
   "status": "proved",
   "theorems": [
    "C87_rewrites_keep_ranges",
    "C87_single_needed",
    "C87_exclusive_needed"
   ],
   "note": ""
  },
  {
   "property": "C88",
   "status": "proved",
   "theorems": [
    "C88_rewrites_keep_results"
   ],
   "note": "C88_exchange_refused shows a law of C87 that keeps the ranges but not the groups."
  },
  {
   "property": "C89",
   "status": "partial",
   "theorems": [
    "C89_iterators_share_a_position_partial",
    "C89_iterators_exact",
    "C89_postfix_refuted",
    "C89_default_iterator_refuted",
    "C89_kept_iterator_refuted"
   ],
   "note": "Programs with it++ do not compile (C89_postfix_refuted) and a default-constructed iterator can not be tested (C89_default_iterator_refuted); for all other programs the theorem is complete. C89_iterators_exact says exactly which programs do not compile, which have undefined behaviour and which return."
  },
  {
   "property": "C90",
   "status": "partial",
   "theorems": [
    "C90_groups_nest_or_follow_partial",
    "C90_groups_in_order_partial",
    "C90_groups_nest_or_follow_refuted"
   ],
   "note": "Proved for all groups outside lookarounds, atomic groups and possessive repetitions; of the others it is false: lookaheads see text behind them, and abandoned branches leave their text (C90_groups_nest_or_follow_refuted, finding F3)."
  },
  {
   "property": "C91",
   "status": "partial",
   "theorems": [
    "C91_texts_taken_partial",
    "C91_content_refuted"
   ],
   "note": "Complete except for content(): on an expiring capture it returns an lvalue and moves nothing, on a constant expiring one it does not compile (C91_content_refuted, finding F32)."
  },
  {
   "property": "C92",
   "status": "proved",
   "theorems": [
    "C92_ends_cost",
    "C92_parts_cost",
    "C92_loop_explodes",
    "C92_whole_explodes",
    "C92_alternatives_ambiguous",
    "C92_nested_loops"
   ],
   "note": "Generalises the witness of F27: C92_loop_explodes for any ambiguous body, C92_nested_loops for a star or plus of any class in a loop, C92_alternatives_ambiguous for two alternatives that both can go on."
  },
  {
   "property": "C93",
   "status": "proved",
   "theorems": [
    "C93_finite_memory",
    "C93_backreference_needs_more",
    "C93_repeatable_part",
    "C93_short_texts_suffice",
    "C93_short_texts_suffice_search",
    "C93_agreement_decidable",
    "C93_matching_decidable"
   ],
   "note": "C93_finite_memory for the three calls; C93_backreference_needs_more shows that the condition is needed; C93_repeatable_part, C93_short_texts_suffice(_search), C93_agreement_decidable and C93_matching_decidable are consequences. The last ones are proved constructively, without axioms: the bound, the decision and the text are computed."
  },
  {
   "property": "C94",
   "status": "proved",
   "theorems": [
    "C94_two_passes"
   ],
   "note": "C94_two_passes for the three calls; C94_one_pass_example shows why one pass is not enough."
  },
  {
   "property": "C95",
   "status": "proved",
   "theorems": [
    "C95_same_ranges_decidable",
    "C95_short_texts_settle"
   ],
   "note": "C95_same_ranges_decidable for the three calls, C95_short_texts_settle; constructive, without axioms."
  },
  {
   "property": "C96",
   "status": "proved",
   "theorems": [
    "C96_machines_are_patterns",
    "C96_classical_patterns_suffice",
    "C96_complement",
    "C96_combinations",
    "C96_relations_decidable",
    "C96_backreference_needs_more"
   ],
   "note": "C96_machines_are_patterns (constructive), C96_classical_patterns_suffice for the three calls, C96_complement, C96_combinations, C96_relations_decidable; C96_backreference_needs_more shows that the condition is needed."
  },
  {
   "property": "C97",
   "status": "partial",
   "theorems": [
    "C97_group_dropped_partial",
    "C97_still_usable_exact",
    "C97_still_usable_refuted",
    "C97_ranges_kept",
    "C97_group_dropped_refuted"
   ],
   "note": "C97_group_dropped_partial gives all groups under the condition separates_nothing; C97_still_usable_exact says exactly when the shorter regex compiles; C97_ranges_kept gives the ranges of regexes without backreferences with no condition on alternatives; C97_group_dropped_refuted and C97_still_usable_refuted show that the full claims are false (findings F16 and F34)."
  }
 ]
}
