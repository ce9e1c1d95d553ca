{
 "C01": {
  "status": "proved",
  "note": "C01_match_decides_language covers the fragment `regular` and `possessive_free`; C01_match_exact covers every backreference-free regex that compiles, against the specification `walk` of what the code tries."
 },
 "C05": {
  "status": "proved",
  "note": "The _refuted theorem is finding F12: outside the quantifier of the property (multiline ^ on forward iterators)."
 },
 "C09": {
  "status": "proved",
  "note": "Verdict, groups 1.. and, on success, group 0. The _refuted theorem is finding F15: group 0 of a failed call does depend on the category."
 },
 "C11": {
  "status": "partial",
  "note": "Proved in every context for every body unless the upper bound is infinite and the body can be empty, also with backreferences and the content of every group; what the loop means otherwise is proved exactly for the lower bounds 0 and 1 and every body (an atomic loop over the body as an atomic group), and for every lower bound and bodies without groups (C11_possessive_any_bound_partial). The case of an empty body with an infinite bound is refuted (finding F13)."
 },
 "C15": {
  "status": "partial",
  "note": "False of the code: refuted by findings F5 and F6. The as_read theorems prove exactly what the code does instead, for all nestings, and that nothing else is affected."
 },
 "C02": {
  "status": "partial",
  "note": "Proved for all `regular` trees; refuted beyond (possessive loops over bodies that can match the empty string, F13; anchors and nested lookarounds inside lookbehinds, F5/F6). C02_match_prefix_exact gives the exact result for every backreference-free regex that compiles."
 },
 "C03": {
  "status": "proved",
  "note": "C03_search_first_offset covers every backreference-free regex that compiles; C03_search_leftmost relates it to the independent specification for `regular` trees, C03_search_exact to `walk` for all of them."
 },
 "C21": {
  "status": "partial",
  "note": "Proved for all regexes for concatenations, for alternations in last position, and for every other alternation unless some character fits two of the single characters where it meets the following alternatives; for all nestings in backreference-free regexes; refuted for left-nested alternations of equal single characters with backreferences (finding F16)."
 },
 "C38": {
  "status": "partial",
  "note": "Refuted in general (finding F10). Proved when no match is empty; the exact sequence of matches is proved for every regex (C38_find_all_partial without backreferences, C55_find_all in general)."
 },
 "C41": {
  "status": "partial",
  "note": "False of the code (finding F11); the exact meaning of the conversion is proved instead."
 },
 "C23": {
  "status": "partial",
  "note": "Proved for all accepted patterns in which at most one branch of every alternation has groups; refuted otherwise (finding F1). C23_numbers_exact gives the numbers of every accepted pattern: groups in other branches are not counted."
 },
 "C29": {
  "status": "partial",
  "note": "Every pattern gets a verdict except those that consist only of openings of groups, the last one a lookaround, atomic or named group; these are exactly the patterns that leave the parser stuck (finding F14)."
 },
 "C44": {
  "status": "partial",
  "note": "Shapes and group numbers for all accepted patterns; the full compile check under the conditions of the property plus the two under which the code is known to fail (findings F1, F6), each refuted separately."
 },
 "C32": {
  "status": "partial",
  "note": "Proved for numerals below 2^64; refuted beyond (finding F9: the numbers wrap). The _exact theorems give the tree for numerals of any size: they are read modulo 2^64."
 },
 "C33": {
  "status": "partial",
  "note": "Proved for every accepted pattern, wherever the brace stands, if no alternation follows in the same group; refuted otherwise (finding F7). C33_brace_exact says what the brace stands for in every accepted pattern: a character in a set, elsewhere a group of its own with the piece in front and the rest of the group."
 },
 "C34": {
  "status": "partial",
  "note": "Proved for all item lists except a dash between a class and something other than one character, or behind \\R; refuted there (findings F8 and F17). C34_set_exact gives the elements and the verdicts for every accepted text between brackets."
 },
 "C35": {
  "status": "proved",
  "note": "Moreover the accepted patterns and their trees are exactly those of the grammar in Syntax.v."
 },
 "C43": {
  "status": "partial",
  "note": "All expression builders; `either` when no backreference occurs or no character fits two of the single characters where an alternation meets the following operands (finding F16) and `str` for non-empty texts (finding F18: str<\"\"> does not compile, refuted)."
 },
 "C25": {
  "status": "proved",
  "note": "All `regular` regexes (lookbehinds and lookaheads with captures included), all three calls, whether they succeed or not."
 },
 "C28": {
  "status": "partial",
  "note": "False of match and match_prefix (finding F4). Proved for search and every accepted pattern, backreferences included. The other groups: empty after every failed call unless inside lookarounds, possessive repetitions or atomic groups, where it is false."
 },
 "C26": {
  "status": "partial",
  "note": "False of groups inside lookarounds, atomic groups and possessive repetitions (finding F3). Proved for every other group of every accepted regex and all three calls, backreferences included; for groups captured at most once on a path, also inside lookaheads and atomic groups, the range is the one of the preferred match."
 },
 "C27": {
  "status": "partial",
  "note": "False of greedy and possessive loops that stop before their upper bound (finding F2). Proved exactly: lazy loops and loops that reach their bound hold the last iteration, all others leave the group empty; for results of calls with loops at the top level of the pattern, and for every loop at every point where the search leaves it."
 },
 "C46": {
  "status": "partial",
  "note": "False in general (finding F19). Proved for the trees in which every backreference is preceded by its group and the group is captured at most once on a path, outside loops, negations and lookbehinds."
 },
 "C48": {
  "status": "partial",
  "note": "Loops over the range object and the position of an empty element are proved for all regexes. The documented claim that tokens are non-empty is refuted (finding F10)."
 },
 "C49": {
  "status": "partial",
  "note": "Proved for match, match_prefix and search with every argument except a temporary of a trivially destructible class that holds the characters; refuted for that and for the generator and range calls (finding F20). An exact condition is proved for the three methods."
 },
 "C50": {
  "status": "partial",
  "note": "for_each_group in full; transform_groups whenever there is more than group 0 or the function returns no pair or tuple. Refuted otherwise (finding F21). An exact condition is proved."
 },
 "C52": {
  "status": "partial",
  "note": "Proved for every backreference except in the body of a repetition without iterations, where it is refuted (finding F22). C52_unused_body_exact: such a body has no influence at all, neither on whether the calls compile nor on their results."
 },
 "C54": {
  "status": "partial",
  "note": "False of characters above 255 (finding F23): exactly the low eight bits are compared. Proved for all other texts."
 },
 "C56": {
  "status": "partial",
  "note": "Proved for regexes without lookbehinds, backreferences, word boundaries and multiline ^; refuted for backreferences and word boundaries, which do not compile (finding F24), and for multiline ^ (finding F12). C56_forward_exact says for every regex whether it compiles on forward ranges; C56_line_starts_exact says that what compiles there is undefined behaviour or agrees with every other range. C56_leading_line_start_exact says for a single ^ in front exactly which calls are undefined behaviour: search unless the text is empty or begins with a match, find_all for every nonempty text unless the match at the beginning is empty. C56_opening_line_starts extends this to every expression that begins each attempt with ^. C56_first_line_starts_exact says for ^ that stands only where nothing has been taken yet that match and match_prefix are defined and are those with \\A, and, if the expression opens with ^, exactly which of search, find_all and tokenize are undefined behaviour."
 },
 "C59": {
  "status": "partial",
  "note": "Proved for expressions of any depth whose groups carry the numbers a pattern would give them, and in which, when there are backreferences, the first operand of either is no alternation and no character fits two of the single characters where another one meets the following operands (finding F16). Refuted without the condition on the numbers: two xpr::regex with groups share the number 1 (finding F25)."
 },
 "C60": {
  "status": "partial",
  "note": "The word expression is its pattern. The url expression is another pattern than the documented one, which is refuted with texts that only one of them accepts (finding F26); the pattern it is equal to is proved."
 },
 "C61": {
  "status": "proved",
  "note": "That the conditions of the constant bound are needed is proved too: (a)* nests a call for each character (finding F28). Calls are counted without tail call elimination, see Costs.v for what is a call."
 },
 "C62": {
  "status": "partial",
  "note": "Proved when what is repeated without a bound, other than possessively, leaves no alternatives behind; otherwise refuted: a star in a star takes 2^n steps on n characters (finding F27). In every case at most exponential in the length. The exponents of the polynomial bound are attained (C62_degree_attained). Steps are calls, rounds of loops (also in utility/distance.hpp) and tests of unrolled blocks. C62_atomic_costs: an atomic group costs at least its body, a lookahead more than what it looks for."
 },
 "C63": {
  "status": "partial",
  "note": "The linear total is proved. The constant depth is refuted: each range in a set, and each brace that begins no quantifier, leaves symbols on the stack that are removed in one recursion later (finding F29). Proved is a bound by a constant and a multiple of their number."
 },
 "C64": {
  "status": "partial",
  "note": "Proved without backreferences under icase, and under multiline for iterators that can go back and without line anchors in lookbehinds. Refuted without these conditions: backreferences compare without case, which no rewriting of the tree expresses; findings F5 and F12."
 },
 "C65": {
  "status": "proved",
  "note": "For accepted patterns and for trees. A failed search leaves group 0 of the result at the last start it tried, so group 0 is only compared on success."
 },
 "C66": {
  "status": "proved",
  "note": "The condition is needed: shown by an example with \\b."
 },
 "C67": {
  "status": "proved",
  "note": "That both conditions are needed is shown by examples."
 },
 "C68": {
  "status": "proved",
  "note": "Steps are counted as in C61 and C62, and one more for each call of the generator. The polynomial bound holds for the expressions of C62."
 },
 "C69": {
  "status": "partial",
  "note": "Proved for content and as_optional of views and of owners that are not constant expiring values. Refuted for as_memory_owner and the calls on temporaries (finding F30) and for as_optional of constant expiring owners (finding F31)."
 },
 "C70": {
  "status": "proved",
  "note": "For both sides in the fragment of C01. That the ends of matches can differ is shown by an example."
 },
 "C71": {
  "status": "proved",
  "note": "Nothing is claimed about the length of the text of a backreference."
 },
 "C72": {
  "status": "proved",
  "note": "Stated for trees without backreferences and possessive parts; C72_negation_needed and C72_possessive_needed show that these conditions, and positive for the flags, are necessary."
 },
 "C73": {
  "status": "proved",
  "note": "Stated for self-contained patterns; C73_references_needed and C73_parentheses_needed show why backreferences and missing parentheses are excluded. A composition with groups is only claimed to match those texts if it compiles (two branches with groups of different names do not, finding F1)."
 },
 "C74": {
  "status": "partial",
  "note": "The reversal is false for line and input anchors and for lookarounds over more than one character, which inversion leaves as they are (C74_reversed_texts_refuted, findings F5 and F6); proved for trees without them. For all trees without backreferences the exact result of all three calls is proved (C74_reversed_match_exact, C74_reversed_prefix_exact, C74_reversed_search_exact)."
 },
 "C75": {
  "status": "proved",
  "note": "C75_match, C75_match_prefix, C75_search and C75_delimited; the specification (divides) mentions texts only."
 },
 "C76": {
  "status": "proved",
  "note": "Specifications speak of texts only (record, announcement, date, log_line, maximal_run). The URL program is checked on its own text; using_expressions.cpp is the subject of C60."
 },
 "C77": {
  "status": "proved",
  "note": "The demands are described on the texts before and behind a place, without offsets or configuration; the flag multiline appears as a flag of the regex."
 },
 "C78": {
  "status": "proved",
  "note": "Where the matches are; what the capturing groups hold may be left over from an earlier piece (C26)."
 },
 "C79": {
  "status": "proved",
  "note": "Full statement, together with the rewriting form; C79_conditions_needed shows by counterexamples that each condition matters."
 },
 "C80": {
  "status": "partial",
  "note": "Proved for every argument except string literals with a NUL in them, for which it is refuted (finding F33). C80_characters_seen says exactly what is seen in every case."
 },
 "C81": {
  "status": "proved",
  "note": "C81_condition_needed shows that the condition on the words cannot be dropped; C81_words_of_one_line is a check of the tree that implies it."
 },
 "C82": {
  "status": "proved",
  "note": "For trees that pass the test `determined` (sufficient, not necessary). Backreferences and longer lookarounds do not pass it; possessive loops pass it only over single characters."
 },
 "C83": {
  "status": "proved",
  "note": "For trees of the regular fragment of C02; loops over single sets. Verdicts and matched ranges, not the other groups."
 },
 "C84": {
  "status": "proved",
  "note": ""
 },
 "C85": {
  "status": "proved",
  "note": ""
 },
 "C86": {
  "status": "proved",
  "note": "Proved for the three calls and the two ranges; the conditions are shown to be needed by witnesses."
 },
 "C87": {
  "status": "proved",
  "note": ""
 },
 "C88": {
  "status": "proved",
  "note": "C88_exchange_refused shows a law of C87 that keeps the ranges but not the groups."
 },
 "C89": {
  "status": "partial",
  "note": "Programs with it++ do not compile (C89_postfix_refuted) and a default-constructed iterator can not be tested (C89_default_iterator_refuted); for all other programs the theorem is complete. C89_iterators_exact says exactly which programs do not compile, which have undefined behaviour and which return."
 },
 "C90": {
  "status": "partial",
  "note": "Proved for all groups outside lookarounds, atomic groups and possessive repetitions; of the others it is false: lookaheads see text behind them, and abandoned branches leave their text (C90_groups_nest_or_follow_refuted, finding F3)."
 },
 "C91": {
  "status": "partial",
  "note": "Complete except for content(): on an expiring capture it returns an lvalue and moves nothing, on a constant expiring one it does not compile (C91_content_refuted, finding F32)."
 },
 "C92": {
  "status": "proved",
  "note": "Generalises the witness of F27: C92_loop_explodes for any ambiguous body, C92_nested_loops for a star or plus of any class in a loop, C92_alternatives_ambiguous for two alternatives that both can go on."
 },
 "C93": {
  "status": "proved",
  "note": "C93_finite_memory for the three calls; C93_backreference_needs_more shows that the condition is needed; C93_repeatable_part, C93_short_texts_suffice(_search), C93_agreement_decidable and C93_matching_decidable are consequences. The last ones are proved constructively, without axioms: the bound, the decision and the text are computed."
 },
 "C94": {
  "status": "proved",
  "note": "C94_two_passes for the three calls; C94_one_pass_example shows why one pass is not enough."
 },
 "C95": {
  "status": "proved",
  "note": "C95_same_ranges_decidable for the three calls, C95_short_texts_settle; constructive, without axioms."
 },
 "C96": {
  "status": "proved",
  "note": "C96_machines_are_patterns (constructive), C96_classical_patterns_suffice for the three calls, C96_complement, C96_combinations, C96_relations_decidable; C96_backreference_needs_more shows that the condition is needed."
 },
 "C97": {
  "status": "partial",
  "note": "C97_group_dropped_partial gives all groups under the condition separates_nothing; C97_still_usable_exact says exactly when the shorter regex compiles; C97_ranges_kept gives the ranges of regexes without backreferences with no condition on alternatives; C97_group_dropped_refuted and C97_still_usable_refuted show that the full claims are false (findings F16 and F34)."
 }
}