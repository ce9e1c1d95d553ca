{"id": "C01", "title": "match() decides the textbook language", "statement": "For a regex built from literals, classes, anchors, concatenation, alternation, groups, lookaheads and greedy/lazy quantifiers, match(input) reports a match exactly when the whole input belongs to the set of strings the pattern denotes in the usual textbook reading (concatenation splits the input, alternation is union, x{n,m} is between n and m copies, a lookahead holds when some prefix of the rest matches).", "quantifier": "all regexes of the fragment (no backreference, atomic group, possessive quantifier), all flag combinations, all iterator categories, all inputs", "why_tests_cant": "Backtracking engines fail on rare interactions of nested quantifiers and alternatives; the space of (regex, input) pairs is infinite and tests sample a few hundred pairs.", "anchors": ["include/mregex/regex.hpp: regex_adapter::match", "include/mregex/regex_methods.hpp: regex_match_method", "include/mregex/ast/nodes: sequence, alternation, capture", "include/mregex/ast/nodes/quantifiers: basic_repetition"]}
{"id": "C02", "title": "match_prefix() follows the documented priority order", "statement": "match_prefix(input) ends where the first path in priority order ends: leftmost alternative first, greedy quantifiers try more repetitions first, lazy ones fewer, atomic groups and possessive quantifiers commit to their first path. If no path exists it reports no match.", "quantifier": "all backreference-free regexes including atomic groups, possessive quantifiers and lookarounds; all flags, inputs", "why_tests_cant": "The priority order is a property of an exponentially large backtracking tree; each optimised code path (trivial sequences, trivial loops, reversed loops) must agree with it.", "anchors": ["include/mregex/regex.hpp: regex_adapter::match_prefix", "include/mregex/ast/nodes/quantifiers/repetition.hpp: bounded_greedy_match, bounded_lazy_match, bounded_possessive_match", "include/mregex/ast/nodes/alternation.hpp"]}
{"id": "C03", "title": "search() returns the leftmost match", "statement": "search(input) succeeds exactly when match_prefix started at some offset of the input would succeed; the reported match starts at the smallest such offset and ends where the prefix match from that offset ends.", "quantifier": "all backreference-free regexes, flags and inputs", "why_tests_cant": "Requires reasoning about every start offset of every input, and about state carried from one failed offset to the next.", "anchors": ["include/mregex/regex.hpp: regex_adapter::search", "include/mregex/regex_methods.hpp: regex_search_method::invoke"]}
{"id": "C04", "title": "Matching always terminates", "statement": "match, match_prefix and search return for every regex that compiles and every input, including nested quantifiers over sub-expressions that can match the empty string and loops over backreferences.", "quantifier": "all well-formed regexes (with backreferences, lookarounds, captures), all flags, all inputs, any contents of the capture groups", "why_tests_cant": "Non-termination needs a sub-expression that can stop consuming input inside an unbounded quantifier; the guard is a static per-node analysis, so a missed case hangs only for particular nestings.", "anchors": ["include/mregex/ast/nodes/quantifiers/repetition.hpp: will_loop_forever, continue_unless_infinite_loop", "include/mregex/ast/traits.hpp: is_zero_length_matcher"]}
{"id": "C05", "title": "Matching never reads outside the input", "statement": "During match, match_prefix, search and iteration no iterator is dereferenced outside [begin, end), including the optimised paths that dereference several characters after one length check, backreferences, word boundaries and lookbehinds.", "quantifier": "all well-formed regexes, flags, inputs; bidirectional and random-access iterators (forward iterators: regexes without multiline line anchors)", "why_tests_cant": "Out-of-bounds reads are silent undefined behaviour; a test passes even when it happens.", "anchors": ["include/mregex/ast/nodes/sequence.hpp: unrolled_trivial_match", "include/mregex/ast/nodes/quantifiers/fixed_repetition.hpp: unrolled_trivial_match, non_unrolled_trivial_match", "include/mregex/utility/distance.hpp", "include/mregex/ast/predicates/anchor_predicates.hpp", "include/mregex/ast/nodes/terminals/backref.hpp"]}
{"id": "C06", "title": "Reported groups are valid sub-ranges of the input", "statement": "After any call every capture group is either default (unset) or a range [b,e) with b <= e <= size of the input; on success group 0 of match/match_prefix starts at begin, and its length is the number of characters consumed.", "quantifier": "all well-formed regexes, flags, inputs, successful and failed calls", "why_tests_cant": "A single inverted or stale range makes length() huge and content() undefined; needs an invariant over all backtracking paths and both matching directions.", "anchors": ["include/mregex/ast/nodes/capture.hpp: capture_matched_range", "include/mregex/regex_methods.hpp", "include/mregex/regex_capture.hpp: regex_capture_view"]}
{"id": "C07", "title": "match() and match_prefix() agree", "statement": "If match(input) succeeds then match_prefix(input) and search(input) succeed, and search starts at offset 0; if match_prefix ends at the end of the input then match succeeds.", "quantifier": "all backreference-free regexes, flags, inputs", "why_tests_cant": "It relates two different continuations threaded through the same backtracking search.", "anchors": ["include/mregex/regex_methods.hpp: regex_match_method, regex_match_prefix_method", "include/mregex/utility/continuations.hpp"]}
{"id": "C08", "title": "The unroll flag changes nothing observable", "statement": "Adding regex_flag::unroll to a regex changes neither whether match/match_prefix/search succeed, nor where the match ends, nor the content of any capture group.", "quantifier": "all regexes (with captures and backreferences), all other flags, iterator categories and inputs", "why_tests_cant": "The flag selects different code for every fixed repetition; equality must hold for every repetition count and every continuation.", "anchors": ["include/mregex/regex_flags.hpp: regex_flag::unroll", "include/mregex/ast/nodes/quantifiers/fixed_repetition.hpp: unrolled_backtracking_match, non_unrolled_backtracking_match"]}
{"id": "C09", "title": "The iterator category changes nothing observable", "statement": "Matching the same characters through forward-only, bidirectional or random-access iterators gives the same verdict, the same match end and the same capture contents whenever the regex compiles for the weaker category.", "quantifier": "all regexes that compile for forward iterators (no lookbehind, word boundary, backreference, multiline ^), all flags and inputs", "why_tests_cant": "Each category is served by different overloads (longest-run-then-step-back against recursion, offset against increment).", "anchors": ["include/mregex/ast/nodes/quantifiers/repetition.hpp: bounded_greedy_match overloads", "include/mregex/ast/nodes/sequence.hpp: unrolled_trivial_match overloads", "include/mregex/utility/distance.hpp"]}
{"id": "C10", "title": "The ungreedy flag swaps lazy and greedy", "statement": "A regex with regex_flag::ungreedy behaves on every input exactly like the regex without the flag in which every greedy quantifier is made lazy and vice versa; possessive quantifiers are unaffected.", "quantifier": "all regexes, inputs, other flags; verdict, end and captures", "why_tests_cant": "Needs an induction over arbitrary nesting, including quantifiers inside lookarounds.", "anchors": ["include/mregex/ast/nodes/quantifiers/repetition.hpp: match_between_bounds", "include/mregex/regex_flags.hpp"]}
{"id": "C11", "title": "A possessive quantifier is an atomic greedy quantifier", "statement": "x{n,m}+ accepts the same prefix as (?>x{n,m}): documented as 'match without backtracking'.", "quantifier": "all sub-expressions x, all bounds n <= m, all inputs", "why_tests_cant": "The two forms run different loops; they can only differ when an iteration matches the empty string, which tests rarely reach.", "anchors": ["include/mregex/ast/nodes/quantifiers/repetition.hpp: bounded_possessive_match", "include/mregex/ast/nodes/quantifiers/fixed_repetition.hpp"]}
{"id": "C12", "title": "Atomic groups never give back characters", "statement": "(?>x)y matches exactly when y matches right after the preferred match of x; no other match of x is ever tried, whatever follows.", "quantifier": "all backreference-free x, all continuations y, flags, inputs", "why_tests_cant": "Absence of backtracking is a statement about all alternatives that must not be explored.", "anchors": ["include/mregex/ast/nodes/quantifiers/fixed_repetition.hpp: possessive specialisation"]}
{"id": "C13", "title": "Lookaheads consume nothing and negate exactly", "statement": "(?=x) succeeds without consuming input exactly when x matches a prefix of the remaining input, and (?!x) succeeds without consuming exactly when x does not.", "quantifier": "all backreference-free x, positions, inputs, flags", "why_tests_cant": "Negative conditions quantify over all possible matches of x.", "anchors": ["include/mregex/ast/predicates/lookaround_predicate.hpp: lookahead_predicate", "include/mregex/ast/predicates/negate.hpp", "include/mregex/ast/nodes/negated.hpp"]}
{"id": "C14", "title": "Lookbehind tests the text that precedes the position", "statement": "(?<=x) succeeds at a position exactly when some substring ending at that position belongs to the language of x (and (?<!x) exactly when none does), although the library matches a mirrored pattern over reversed iterators.", "quantifier": "all x built from classes, concatenation, alternation, groups, word boundaries and greedy/lazy quantifiers; all positions and inputs", "why_tests_cant": "Correctness of mirroring is an induction over the syntax tree and over all splits of the preceding text.", "anchors": ["include/mregex/ast/predicates/lookaround_predicate.hpp: lookbehind_predicate", "include/mregex/ast/inversion.hpp: invert", "include/mregex/utility/type_sequence.hpp: reverse_type_pack"]}
{"id": "C15", "title": "Anchors and lookarounds inside a lookbehind keep their meaning", "statement": "Inside (?<=...) the anchors ^ $ \\A \\Z and nested lookarounds test the same positions and text as they do outside a lookbehind.", "quantifier": "all patterns with an anchor or a lookaround nested in a lookbehind, all inputs", "why_tests_cant": "The mirrored pattern swaps the roles of both ends of the input; only a few nestings are covered by tests.", "anchors": ["include/mregex/ast/inversion.hpp: invert", "include/mregex/ast/predicates/anchor_predicates.hpp"]}
{"id": "C16", "title": "Character classes accept exactly the documented bytes", "statement": "\\d \\w \\s \\R \\N and their negations, '.', explicit sets, ranges and negated sets accept a byte exactly as documented: ranges compare unsigned byte values, '.' excludes \\n and \\r unless dotall is set, negation is the exact complement.", "quantifier": "all 256 byte values, all range bounds, all sets, all flag combinations", "why_tests_cant": "Signed char, high bytes and set/negation nesting give 2^256 possible sets; tests check some dozens of characters.", "anchors": ["include/mregex/ast/nodes/terminals/literal.hpp", "include/mregex/ast/nodes/terminals/range.hpp", "include/mregex/ast/nodes/terminals/wildcard.hpp", "include/mregex/ast/nodes/set.hpp", "include/mregex/ast/astfwd.hpp: word, whitespace, linebreak", "include/mregex/utility/char_traits.hpp"]}
{"id": "C17", "title": "icase accepts a letter exactly with its case variant", "statement": "With regex_flag::icase a literal, range, set or class accepts a byte exactly when, without the flag, it accepts the byte or (for ASCII letters) its other-case variant.", "quantifier": "all bytes, all literals and ranges, all nested sets without negation (and complements of them)", "why_tests_cant": "Range and case interact through bit tricks (flip bit 5, intersect with a-z and A-Z); errors hide at range ends and non-letters.", "anchors": ["include/mregex/ast/nodes/terminals/range.hpp: is_in_alpha_subrange, range_intersection", "include/mregex/ast/nodes/terminals/literal.hpp", "include/mregex/utility/char_traits.hpp: flip_lowercase_bit, is_alpha"]}
{"id": "C18", "title": "With icase the letter case of the input is irrelevant", "statement": "For a regex with regex_flag::icase, changing the case of any letters of the input changes neither the verdict nor the position of the match or of any capture group.", "quantifier": "all regexes including backreferences and lookarounds, all inputs, every pattern of case changes", "why_tests_cant": "2^n case variants per input; involves every node kind including backreference comparison.", "anchors": ["include/mregex/ast/nodes/terminals/backref.hpp: equals", "include/mregex/ast/nodes/terminals/range.hpp", "include/mregex/ast/nodes/terminals/literal.hpp", "include/mregex/regex_flags.hpp: icase"]}
{"id": "C19", "title": "Anchors test the documented positions", "statement": "^ holds at the beginning of the input, and with multiline also right after a line break; $ at the end, and with multiline also right before a line break; \\A and \\Z only at the ends; \\b exactly between a word and a non-word character (ends count as non-word); \\B is its negation. None consumes input.", "quantifier": "all inputs, positions, flags", "why_tests_cant": "Positions around line breaks and at the ends of arbitrary inputs cannot be enumerated.", "anchors": ["include/mregex/ast/predicates/anchor_predicates.hpp", "include/mregex/ast/nodes/terminals/anchors.hpp", "include/mregex/ast/nodes/assertion.hpp"]}
{"id": "C20", "title": "Quantifier shorthands are interchangeable", "statement": "x{1} behaves like x, x{0} like the empty pattern, x{n}x{0,m} like x{n,n+m}, x+ like xx*, and x{n} like n copies of x: same verdict, same preferred end.", "quantifier": "all sub-expressions x without backreferences, all n and m, inputs, flags", "why_tests_cant": "Universal over counts; different template specialisations serve 0, 1 and n > 1.", "anchors": ["include/mregex/ast/nodes/quantifiers/fixed_repetition.hpp", "include/mregex/ast/nodes/quantifiers/repetition.hpp", "include/mregex/ast/astfwd.hpp"]}
{"id": "C21", "title": "Regrouping concatenations and alternations changes nothing", "statement": "Concatenation and alternation are associative in every observable respect, so the flattening done by the parser and by the expression API (concat, either, >>, |) preserves the verdict, the end of the match and all captures.", "quantifier": "all operand regexes (captures and backreferences included), all ways to nest them, all inputs", "why_tests_cant": "Flattened and nested forms take different code paths (all-trivial sequences are matched by a block comparison).", "anchors": ["include/mregex/xpr/adapters.hpp: flatten, flat_wrap_sequence", "include/mregex/xpr/components.hpp: concat, either", "include/mregex/xpr/operators.hpp", "include/mregex/ast/build.hpp: make_sequence, make_alternation"]}
{"id": "C22", "title": "A backreference matches exactly the captured text", "statement": "\\k or \\N at a position continues matching exactly when the input at that position repeats the text currently held by the group (up to ASCII case with icase); an unset or empty group matches the empty string.", "quantifier": "all group contents, positions, inputs, flags, both directions (plain and inside a lookbehind)", "why_tests_cant": "Depends on arbitrary captured text and on reversed comparison inside lookbehinds.", "anchors": ["include/mregex/ast/nodes/terminals/backref.hpp: backref_base::match", "include/mregex/utility/reversed_range_view.hpp"]}
{"id": "C23", "title": "Group numbers follow the order of opening parentheses", "statement": "In an accepted pattern the i-th capturing parenthesis from the left is group i of the result.", "quantifier": "all accepted patterns", "why_tests_cant": "Numbering is computed by a recursive renumbering over arbitrary trees; tests use a handful of shapes.", "anchors": ["include/mregex/ast/indexing.hpp: capture_indexer", "include/mregex/parser/parser.hpp: transition<accept>", "include/mregex/ast/build.hpp: make_capture"]}
{"id": "C24", "title": "The number of groups is the number of capturing parentheses", "statement": "The match result of a regex has one group more than the pattern has capturing (plain or named) parentheses, and the names appear in the order of the parentheses.", "quantifier": "all accepted patterns / all syntax trees", "why_tests_cant": "Escapes, sets, lookarounds and non-capturing groups must all be excluded for every pattern.", "anchors": ["include/mregex/ast/traits.hpp: capture_count, capture_name_spec", "include/mregex/regex_capture_storage.hpp", "include/mregex/regex_traits.hpp: regex_capture_name_spec_t"]}
{"id": "C25", "title": "Every captured text is a match of its group", "statement": "Whenever a group holds a non-empty text after a call (successful or not), that text occurs at the reported place and belongs to the language of the group's own sub-expression.", "quantifier": "all backreference-free regexes of the textbook fragment with captures anywhere outside lookbehinds, all inputs", "why_tests_cant": "Captures are never rolled back, so the statement must hold through every abandoned path.", "anchors": ["include/mregex/ast/nodes/capture.hpp"]}
{"id": "C26", "title": "Groups that did not take part in the match are empty", "statement": "After a successful call a group that is not on the successful path holds no text.", "quantifier": "all regexes with captures, all inputs", "why_tests_cant": "Stale captures appear only when an abandoned path ran inside a lookahead, atomic group or possessive loop, or at an earlier search offset.", "anchors": ["include/mregex/ast/nodes/capture.hpp: match", "include/mregex/regex_methods.hpp: regex_search_method", "include/mregex/ast/predicates/lookaround_predicate.hpp"]}
{"id": "C27", "title": "A group in a loop holds its last iteration", "statement": "After (x)* or (x)+ or (x){n,m} succeeded with at least one iteration, the group holds the text of the last iteration.", "quantifier": "all x, bounds, inputs", "why_tests_cant": "The failing last attempt of the loop runs after the capture was stored; tests check only the verdict of such regexes.", "anchors": ["include/mregex/ast/nodes/capture.hpp: match (clear on failure)", "include/mregex/ast/nodes/quantifiers/repetition.hpp"]}
{"id": "C28", "title": "A failed call exposes no content", "statement": "When match, match_prefix or search reports no match, group 0 of the result is empty, and so is every other group.", "quantifier": "all regexes, inputs", "why_tests_cant": "The failure path reports the end iterator of whichever branch failed last; which branch depends on regex, flags and iterator category.", "anchors": ["include/mregex/regex_methods.hpp: regex_match_method::invoke", "include/mregex/ast/match_result.hpp: non_match"]}
{"id": "C29", "title": "The parser gives a verdict for every pattern", "statement": "For every pattern string the parser either accepts it with a syntax tree or reports a syntax error at a position not larger than the pattern length; it never gets stuck in the middle of building the tree (which would be an obscure compile error).", "quantifier": "all byte strings", "why_tests_cant": "Universal over strings; the parser is a stack machine with separate symbol and node stacks.", "anchors": ["include/mregex/parser/parser.hpp: parse, transition", "include/mregex/parser/state.hpp: final_parser_state", "include/mregex/grammar/grammar.hpp: rule", "include/mregex/ast/build.hpp: build"]}
{"id": "C30", "title": "Syntax errors are reported at the first offending token", "statement": "If a pattern is rejected with an error at position I then every pattern that agrees with it up to and including position I is rejected at the same position. The position is the length of the longest beginning of the pattern that can still be completed to a valid pattern.", "quantifier": "all rejected patterns and all continuations of them", "why_tests_cant": "Quantifies over all possible continuations of a pattern.", "anchors": ["include/mregex/parser/parser.hpp: transition<reject>", "include/mregex/parser/state.hpp: syntax_error", "include/mregex/parser/lexer.hpp"]}
{"id": "C31", "title": "Escaping a string gives a regex for exactly that string", "statement": "Writing every byte of a string as \\xHH gives an accepted pattern whose regex matches that string and no other; the same holds for the plain string when it contains no metacharacter.", "quantifier": "all byte strings", "why_tests_cant": "Universal over all strings, including NUL, high bytes, and every hex digit spelling.", "anchors": ["include/mregex/grammar/hexadecimal.hpp", "include/mregex/grammar/escapes.hpp", "include/mregex/parser/parser.hpp", "include/mregex/regex.hpp: regex_adapter::match"]}
{"id": "C32", "title": "Quantifier bounds mean the number that is written", "statement": "x{N}, x{N,} and x{N,M} repeat x as often as the decimal numerals N and M say.", "quantifier": "all decimal numerals", "why_tests_cant": "Numerals are accumulated in std::size_t; overflow needs numerals that no test writes.", "anchors": ["include/mregex/grammar/quantifiers.hpp: continue_quantifier_value", "include/mregex/grammar/backrefs.hpp: continue_backref_id", "include/mregex/symbols/quantifiers.hpp"]}
{"id": "C33", "title": "A brace that starts no quantifier is an ordinary character", "statement": "If '{' is not followed by a digit, the pattern means the same as the pattern with that brace escaped ('\\{').", "quantifier": "all patterns containing such a brace after an atom", "why_tests_cant": "Documented for simple cases only; precedence against | and groups needs all contexts.", "anchors": ["include/mregex/grammar/quantifiers.hpp: abort_quantifier_parsing", "include/mregex/grammar/grammar.hpp: rule<mod>, rule<quantifier_begin>"]}
{"id": "C34", "title": "A set accepts the union of its items", "statement": "A set [...] accepts exactly the bytes covered by its items, where a-b between single characters is a range and '-' next to a class escape, at the start or at the end is literal; [^...] accepts the complement.", "quantifier": "all item lists", "why_tests_cant": "Item order, escapes, hex bounds and dashes combine freely.", "anchors": ["include/mregex/grammar/grammar.hpp: rule<set_seq>, rule<set_range_begin>", "include/mregex/ast/build.hpp: make_set_from_stack, make_range, make_range_from_stack"]}
{"id": "C35", "title": "Printing a syntax tree and parsing it back is the identity", "statement": "Every syntax tree of the grammar (atoms, concatenations, alternations, groups, quantifiers with modifiers, lookarounds) written out in the documented syntax is accepted and parses back to the same tree (with groups numbered and nested concatenations flattened).", "quantifier": "all trees of the printable fragment, unbounded size", "why_tests_cant": "Operator precedence and nesting to arbitrary depth.", "anchors": ["include/mregex/parser/parser.hpp", "include/mregex/grammar/grammar.hpp", "include/mregex/ast/build.hpp"]}
{"id": "C36", "title": "The tokenizer yields contiguous tokens", "statement": "The tokens produced by tokenizer()/tokenize() are adjacent: the first starts at the beginning, each next one starts where the previous ended, so together they spell a prefix of the input; each is the preferred prefix match at its position.", "quantifier": "all regexes, inputs and numbers of calls", "why_tests_cant": "Statement about whole sequences of calls of arbitrary length.", "anchors": ["include/mregex/match_result_generator.hpp: match_result_generator::next", "include/mregex/regex.hpp: tokenizer, tokenize"]}
{"id": "C37", "title": "The searcher yields ordered, disjoint matches and stops", "statement": "Successive results of searcher()/find_all() start at or after the end of the previous one, at most one result is empty and it is the last, and there are at most size+1 results.", "quantifier": "all regexes, inputs and numbers of calls", "why_tests_cant": "Statement about whole sequences of calls of arbitrary length.", "anchors": ["include/mregex/match_result_generator.hpp", "include/mregex/regex.hpp: searcher, find_all", "include/mregex/utility/input_range_adapter.hpp"]}
{"id": "C38", "title": "find_all() yields every non-empty match", "statement": "find_all is documented as 'a lazy view of all non-empty matches': it yields all non-overlapping non-empty matches of the input and no empty one.", "quantifier": "all regexes and inputs", "why_tests_cant": "An empty match in the middle of the input is needed to see the difference.", "anchors": ["include/mregex/regex.hpp: find_all (lines 142-169)", "include/mregex/match_result_generator.hpp: next"]}
{"id": "C39", "title": "Exhausted generators stay exhausted", "statement": "After a tokenizer or searcher has returned a non-match or an empty match, every later call returns a non-match whose groups are all unset.", "quantifier": "all regexes, inputs, numbers of further calls", "why_tests_cant": "Unbounded number of further calls.", "anchors": ["include/mregex/match_result_generator.hpp: next, active"]}
{"id": "C40", "title": "Result conversions preserve the result", "statement": "as_optional() is engaged exactly when the result matched and then holds the same result; as_memory_owner() keeps the verdict and gives every group the same text, independent of the original input afterwards; group by name equals group by number.", "quantifier": "all results of all calls", "why_tests_cant": "Universal over results; names, counts and contents vary with the regex.", "anchors": ["include/mregex/match_result.hpp: as_optional, as_memory_owner, group", "include/mregex/regex_capture.hpp", "include/mregex/utility/tuple.hpp: transform_tuple"]}
{"id": "C41", "title": "A capture converts to true when it captured something", "statement": "static_cast<bool>(capture) is true exactly when the capture is non-empty.", "quantifier": "all captures", "why_tests_cant": "No test converts a capture to bool.", "anchors": ["include/mregex/regex_capture.hpp: operator bool"]}
{"id": "C42", "title": "Flags are a set", "statement": "Order and repetition of flags and the way they are added (template arguments or add_flags) do not matter.", "quantifier": "all lists of flags, all regexes and inputs", "why_tests_cant": "All permutations and repetitions of five flags.", "anchors": ["include/mregex/regex_flags.hpp: regex_flag_sequence", "include/mregex/regex.hpp: add_flags, clear_flags", "include/mregex/xpr/flags.hpp"]}
{"id": "C43", "title": "Expression-API regexes equal their pattern counterparts", "statement": "str<s> matches exactly s; concat, either, maybe, zero_or_more, one_or_more, between, exactly, at_least, atomic, ahead, behind and negate denote the same language as the corresponding pattern operators.", "quantifier": "all operands, strings and inputs", "why_tests_cant": "Operands are arbitrary regexes.", "anchors": ["include/mregex/xpr/components.hpp", "include/mregex/xpr/adapters.hpp: to_sequence, pack_sequence"]}
{"id": "C44", "title": "Trees built by the parser satisfy the library's own static checks", "statement": "For an accepted pattern whose ranges and repetition bounds are in order and whose backreferences name existing groups, the syntax tree passes every static check of the node templates: sets and negations contain only single-character matchers, every group number is inside the group tuple.", "quantifier": "all accepted patterns", "why_tests_cant": "All patterns; a violation is a compile error far away from the pattern.", "anchors": ["include/mregex/ast/nodes/set.hpp: static_assert", "include/mregex/ast/nodes/negated.hpp: static_assert", "include/mregex/ast/build.hpp", "include/mregex/ast/indexing.hpp"]}
{"id": "C45", "title": "The verdict does not depend on earlier captures", "statement": "For a regex without backreferences the verdict and end of a match do not depend on the contents of the capture groups when matching starts; so reusing groups between search offsets is harmless for it.", "quantifier": "all backreference-free regexes, all group contents, inputs", "why_tests_cant": "All possible earlier states.", "anchors": ["include/mregex/regex_methods.hpp: regex_search_method", "include/mregex/regex_match_context.hpp"]}
{"id": "C46", "title": "A backreference repeats what its group captured last on the path that matches", "statement": "Matching with backreferences follows the textbook order of paths in which every path remembers what each group captured last on it: match succeeds exactly when some path ends at the end of the input, match_prefix and search report the end of the first path. What abandoned paths captured plays no role.", "quantifier": "all regexes with backreferences whose possessive loops and lookbehinds are regular, all inputs and flags", "why_tests_cant": "All trees, texts and captured contents; the capture store is shared by all paths and only partly undone on backtracking.", "anchors": ["include/mregex/ast/nodes/capture.hpp: capture::match", "include/mregex/ast/nodes/terminals/backref.hpp: backref_base::match", "include/mregex/regex_match_context.hpp"]}
{"id": "C47", "title": "The compile-time containers behave as lists", "statement": "Concatenation, reversal, push, pop and front of type sequences are the list operations for any number of elements although written in chunks; a pattern reaches the parser unchanged, also with NUL characters in it, and the lexer returns its characters in order and then the end symbol; the reversed view visits exactly the characters in reverse order without stepping out of the range; both overloads of the distance test answer whether fewer than n characters are left; the group numbers of the parts of a sequence start at the prefix sums of the group counts.", "quantifier": "all lists, texts, positions and counts", "why_tests_cant": "All lengths; the code treats chunks of four and eight elements separately, so errors can sit at lengths no test has.", "anchors": ["include/mregex/utility/type_sequence.hpp", "include/mregex/utility/static_string.hpp", "include/mregex/parser/lexer.hpp", "include/mregex/utility/reversed_range_view.hpp", "include/mregex/utility/distance.hpp", "include/mregex/ast/indexing.hpp: capture_index_offsets"]}
{"id": "C48", "title": "Range objects can be iterated as documented", "statement": "A range-for loop over the object returned by tokenize() or find_all() sees exactly the results of the generator up to the first failure, a loop that is left early sees a prefix, and a later loop over the same object continues at the element where the first one stopped and never repeats earlier ones. At most one element is empty and it is the last. The tokens of tokenize() are non-empty, as its documentation says.", "quantifier": "all regexes, inputs, flags, stopping points", "why_tests_cant": "All inputs and all points at which a loop can be left; the iterator shares its state with the range.", "anchors": ["include/mregex/utility/input_range_adapter.hpp", "include/mregex/regex.hpp: tokenize, find_all", "include/mregex/match_result_generator.hpp"]}
{"id": "C49", "title": "Results of a call on a temporary stay valid", "statement": "When a text is passed as a temporary that dies at the end of the full expression, the groups of the result can still be read afterwards and have the content they had in the call; for arguments that outlive the call the result refers to the text without copying. The same holds of generators and ranges.", "quantifier": "all regexes, texts, kinds of arguments, calls", "why_tests_cant": "A dangling view usually still shows the old characters, so a test passes by luck.", "anchors": ["include/mregex/regex.hpp: match, match_prefix, search overloads", "include/mregex/utility/type_traits.hpp: is_expiring_memory_owner", "include/mregex/utility/concepts.hpp", "include/mregex/match_result.hpp: as_memory_owner", "include/mregex/match_result_generator.hpp"]}
{"id": "C50", "title": "transform_groups and for_each_group visit every group once, in order", "statement": "transform_groups(f) returns a tuple with one element per group, element i being f of group i; for_each_group(f) calls f once for each group in the order of the numbers.", "quantifier": "all results, functions and numbers of groups", "why_tests_cant": "All result types of the function and all group counts; the deduced tuple type depends on both.", "anchors": ["include/mregex/match_result.hpp: transform_groups, for_each_group", "include/mregex/utility/tuple.hpp"]}
{"id": "C51", "title": "Escapes without meaning and empty sets do what the documentation says", "statement": "A backslash in front of a character that has no special meaning in its place changes nothing: the pattern with and the pattern without it give the same tree. In sets digits have no meaning, so [\\12] is [12]. The set [] matches nothing in any text under any flags; [^] matches exactly the texts of one character.", "quantifier": "all patterns around the escape, all characters without meaning, all flags, iterator categories and texts", "why_tests_cant": "All contexts of the escape: what counts as meaningful depends on everything before it.", "anchors": ["README.md: Notes Regarding the Syntax", "include/mregex/grammar/escapes.hpp", "include/mregex/grammar/grammar.hpp", "include/mregex/ast/nodes/set.hpp"]}
{"id": "C52", "title": "A backreference to an undefined group does not compile", "statement": "If a pattern contains a backreference by number or by name to a group that the pattern does not define, every call (matching, generators, ranges) is a compile-time error.", "quantifier": "all accepted patterns, flags, iterator categories, calls", "why_tests_cant": "Tests cannot contain code that does not compile, and the place of the backreference in the pattern is arbitrary.", "anchors": ["README.md: Backreferences", "include/mregex/ast/nodes/terminals/backref.hpp", "include/mregex/ast/nodes/quantifiers/fixed_repetition.hpp"]}
{"id": "C53", "title": "All ways of reading a result agree", "statement": "For every group of every result, content(), the conversion to a string view, stream output, length(), is_empty(), operator[] below the length and the owning copy all describe the same part of the text, the one between begin() and end(), for every kind of iterator; the result itself prints and converts as group 0; a structured binding gives the groups in order, one per group.", "quantifier": "all regexes, calls, texts, groups, kinds of iterators", "why_tests_cant": "The accessors take different code paths for contiguous, random access and other iterators, and a group can be unset, empty or anywhere in the text.", "anchors": ["include/mregex/regex_capture.hpp", "include/mregex/match_result.hpp: operator<<, get, tuple_size, operator string_view", "include/mregex/regex_capture_storage.hpp"]}
{"id": "C54", "title": "Texts of wider characters are compared by their full values", "statement": "The interface accepts ranges whose elements convert to char32_t. A pattern that spells out a text matches such a range exactly when its elements are the characters of that text, and every other regex treats the elements as characters of the same value.", "quantifier": "all regexes, all texts over wider character types", "why_tests_cant": "All values of a 32-bit character type.", "anchors": ["include/mregex/utility/concepts.hpp: char_range", "include/mregex/ast/nodes/terminals/literal.hpp: match_one", "include/mregex/ast/nodes/terminals/backref.hpp: equals", "include/mregex/regex_capture.hpp: content"]}
{"id": "C55", "title": "The result of every call is that of a plain backtracking search", "statement": "Verdict, matched range and the content of every group are those of a backtracking search that tries the parts of the pattern in order: alternatives from left to right, loops by their mode, atomic parts once, lookbehinds from right to left. A group is set when its body has matched and emptied when all attempts of its body are exhausted; a backreference reads what its group holds at that moment; search keeps the groups of earlier offsets. This holds for match, match_prefix, search and for every element of tokenize and find_all, for every regex that compiles, with backreferences.", "quantifier": "all compiled regexes, flags, iterator categories, texts; all groups", "why_tests_cant": "What a group holds depends on every attempt the search made before and abandoned; tests only see a few of them.", "anchors": ["include/mregex/ast/nodes/capture.hpp", "include/mregex/ast/nodes/terminals/backref.hpp", "include/mregex/ast/nodes/quantifiers/repetition.hpp", "include/mregex/match_result_generator.hpp"]}
{"id": "C56", "title": "Only lookbehinds need bidirectional iterators", "statement": "The README offers matching on every sequence with forward iterators and names lookbehinds as the only construct that requires bidirectional ones. So a regex without lookbehinds that can be used with bidirectional iterators can be used with forward iterators, with the same results.", "quantifier": "all regexes without lookbehinds, flags, texts", "why_tests_cant": "Whether a call compiles cannot be tested at run time, and the construct in question can be anywhere in the pattern.", "anchors": ["README.md: Features", "include/mregex/ast/nodes/terminals/backref.hpp: reverse_if", "include/mregex/ast/predicates/anchor_predicates.hpp", "example/forward_list.cpp"]}
{"id": "C57", "title": "The character helpers are the ASCII ones", "statement": "is_upper, is_lower, is_digit, is_alpha, is_word, is_hexdigit, to_lower, to_upper and invert_case are the functions of the ASCII table for every value of char, in particular they leave alone the non-letters that differ from letters by one bit and all values above 127.", "quantifier": "all 256 values of char", "why_tests_cant": "Bit tricks on a signed type; the suite tests a few characters only.", "anchors": ["include/mregex/utility/char_traits.hpp"]}
{"id": "C58", "title": "Classical regular expressions keep their language from text to verdict", "statement": "Take any regular expression in the classical sense (nothing, empty word, symbol, concatenation, union, star) and write it as a pattern, with special characters escaped and operands in non-capturing groups. The pattern is accepted, every call compiles for every iterator category, match answers true exactly for the words of the language (up to case under icase), match_prefix finds a prefix in the language iff there is one, and search finds a leftmost factor in the language iff there is one.", "quantifier": "all classical regular expressions over all 256 characters, all flags, iterator categories, texts", "why_tests_cant": "All regular expressions of any depth, from the pattern text to the verdict.", "anchors": ["include/mregex/parser/parser.hpp", "include/mregex/regex.hpp: match, match_prefix, search", "README.md: Syntax Reference"]}
{"id": "C59", "title": "Composed expressions are the patterns they spell", "statement": "Take any expression composed of the components of the expression interface (terminals, chr, str, range, group, regex, concat, either, atomic, capture, the quantifiers with their modes, ahead, behind and negate), nested to any depth. Write it down as a pattern component by component, each operand in a non-capturing group. The pattern is accepted, and both regexes give the same results with all groups in all calls, provided that the groups carry the numbers a pattern would give them.", "quantifier": "all expressions, flags, iterator categories, texts", "why_tests_cant": "Expressions of any depth and shape; the suite compares the trees of single components.", "anchors": ["include/mregex/xpr/components.hpp", "include/mregex/xpr/adapters.hpp", "include/mregex/xpr/operators.hpp", "include/mregex/parser/parser.hpp"]}
{"id": "C60", "title": "The documented expressions are the documented patterns", "statement": "The expressions in the README and the example program behave in all calls, on all texts and under all flags like the patterns given beside them.", "quantifier": "all flags, iterator categories, texts", "why_tests_cant": "Documentation is not compiled with the tests, and equivalence is a claim about all texts.", "anchors": ["README.md: Usage", "example/using_expressions.cpp", "include/mregex/xpr/components.hpp"]}
{"id": "C61", "title": "Depth of recursion", "statement": "The depth of nested calls of a match, prefix match or search grows at most linearly with the length of the text, by factors that depend on the regex, the flags and the iterator category alone; it does not grow with the text at all when the iterators are bidirectional and only single characters are repeated without a bound (possessive repetitions excepted).", "quantifier": "all regexes, flags, iterator categories, texts, starting positions, methods", "why_tests_cant": "A bound on the depth for texts of all lengths; the tests use short texts, on which the stack never runs out.", "anchors": ["include/mregex/ast/nodes/quantifiers/repetition.hpp", "include/mregex/ast/nodes/quantifiers/fixed_repetition.hpp", "include/mregex/ast/nodes/sequence.hpp", "include/mregex/utility/continuations.hpp"]}
{"id": "C62", "title": "Number of steps", "statement": "The number of node matches and loop rounds of a match, prefix match or search is bounded by a polynomial in the length of the text. The exponent is the number of unbounded repetitions and backreferences on a way through the regex, each counted as often as finite repetitions repeat it, and one more for a search. For every regex it is at most exponential in the length of the text.", "quantifier": "all regexes, flags, iterator categories, texts, starting positions", "why_tests_cant": "A bound for texts of all lengths; catastrophic backtracking shows only on texts chosen for the regex.", "anchors": ["include/mregex/ast/nodes/quantifiers/repetition.hpp", "include/mregex/ast/nodes/alternation.hpp", "include/mregex/regex_methods.hpp"]}
{"id": "C63", "title": "Effort of the parser", "statement": "Parsing a pattern takes one step of the parser's fold for each character and one for the end, and the parser instantiates its parse template a number of times that is linear in the length of the pattern. The depth of the template recursion within one step is bounded by a constant.", "quantifier": "all patterns", "why_tests_cant": "A bound for patterns of all lengths; long patterns with many sets are not in the tests.", "anchors": ["include/mregex/parser/parser.hpp", "include/mregex/parser/state.hpp", "include/mregex/grammar/grammar.hpp", "include/mregex/grammar/quantifiers.hpp"]}
{"id": "C64", "title": "Flags can be written out", "statement": "A regex with flags answers every call like the regex without flags whose tree is rewritten as the documentation of the flags says: with icase each character stands for both of its cases, with dotall the wildcard stands for every character and otherwise for every character but the line breaks, with multiline ^ and $ test the neighbouring character and otherwise the ends of the input, with ungreedy lazy and greedy are exchanged.", "quantifier": "all trees, combinations of flags, iterator categories, texts, and calls", "why_tests_cant": "The tests try single flags on a few patterns; combinations of flags and constructs are too many.", "anchors": ["include/mregex/regex_flags.hpp", "include/mregex/ast/nodes/terminals/literal.hpp", "include/mregex/ast/nodes/terminals/range.hpp", "include/mregex/ast/nodes/terminals/wildcard.hpp", "include/mregex/ast/predicates/anchor_predicates.hpp", "include/mregex/ast/nodes/quantifiers/repetition.hpp", "README.md"]}
{"id": "C65", "title": "Whole matches are anchored searches", "statement": "match(p, s) succeeds exactly if search of \\A(?:p)\\Z in s succeeds, and exactly if match_prefix of (?:p)\\Z succeeds; match_prefix(p, s) succeeds exactly if search of \\A(?:p) succeeds. On success all groups, and on failure the groups from 1 on, are the same.", "quantifier": "all accepted patterns, trees, flags, iterator categories and texts", "why_tests_cant": "The tests check the three calls separately on single patterns; that they relate in this way for every pattern is a statement about pairs of regexes.", "anchors": ["include/mregex/regex_methods.hpp", "include/mregex/regex.hpp", "include/mregex/ast/predicates/anchor_predicates.hpp", "include/mregex/ast/nodes/sequence.hpp", "include/mregex/parser/parser.hpp"]}
{"id": "C66", "title": "Matches do not depend on the text before them", "statement": "For a regex without ^, \\A, \\b, \\B and lookbehind, what find_all, searcher, tokenize and tokenizer yield after a match is what they yield for the rest of the text alone, with all positions moved by the length of what was cut off.", "quantifier": "all such regexes, iterator categories and texts, any number of results", "why_tests_cant": "The tests enumerate results for a few texts; independence of the text before is about all texts with all possible prefixes.", "anchors": ["include/mregex/match_result_generator.hpp", "include/mregex/regex_methods.hpp", "include/mregex/regex.hpp", "include/mregex/ast/nodes/terminals/backref.hpp"]}
{"id": "C67", "title": "A search finds the words that are matched as a whole", "statement": "For a regex without anchors, lookarounds, backreferences, possessive repetitions and atomic groups, search succeeds exactly if some part of the text is matched as a whole by match, match_prefix exactly if some prefix is; the text found is such a part, and no such part begins before it.", "quantifier": "all such regexes, flags, iterator categories and texts", "why_tests_cant": "Relates the answers for a text to the answers for all of its parts.", "anchors": ["include/mregex/regex_methods.hpp", "include/mregex/regex.hpp", "include/mregex/ast/nodes/sequence.hpp", "include/mregex/ast/nodes/quantifiers/repetition.hpp"]}
{"id": "C68", "title": "Effort of going through all results", "statement": "Going through all results of tokenize or find_all makes at most one attempt for each start in the text, so it takes at most length+1 times the steps of one attempt and a constant for each; it is of the order of a single search in the worst case. The calls nest only as deep as for a single result.", "quantifier": "all usable regexes, iterator categories and texts", "why_tests_cant": "A bound on the work for texts of all lengths and any number of results.", "anchors": ["include/mregex/match_result_generator.hpp", "include/mregex/utility/input_range_adapter.hpp", "include/mregex/regex_methods.hpp", "include/mregex/regex.hpp"]}
{"id": "C69", "title": "Running out of memory is reported by an exception", "statement": "When there is no memory for a copy of a captured text, as_memory_owner, the calls on temporaries, content and as_optional throw std::bad_alloc; they do not terminate the program. What is declared noexcept does not throw. As long as there is memory, the results are those without exceptions.", "quantifier": "all results, captures, iterator layouts, value categories, and all ways in which allocations can fail", "why_tests_cant": "No test makes an allocation fail.", "anchors": ["include/mregex/match_result.hpp", "include/mregex/regex_capture.hpp", "include/mregex/regex.hpp", "include/mregex/utility/tuple.hpp"]}
{"id": "C70", "title": "The laws of regular expressions hold", "statement": "Rewriting a regex with the laws of Kleene algebras (associativity, distributivity, idempotence, unfolding, denesting and sliding of stars), with the arithmetic of counted repetitions, with another order of alternatives, between greedy and lazy, or by dropping the capturing of a group, anywhere in the expression and any number of times, changes neither whether match, match_prefix and search succeed nor where the match found by search starts.", "quantifier": "all trees without backreferences and possessive constructs (lookbehinds as in C14), flags, iterator categories and texts", "why_tests_cant": "Equality of two expressions on all texts; arbitrary many rewriting steps.", "anchors": ["include/mregex/regex_methods.hpp", "include/mregex/ast/nodes/sequence.hpp", "include/mregex/ast/nodes/alternation.hpp", "include/mregex/ast/nodes/quantifiers/repetition.hpp", "include/mregex/ast/nodes/quantifiers/fixed_repetition.hpp", "include/mregex/ast/nodes/capture.hpp"]}
{"id": "C71", "title": "How long matches are", "statement": "The length of every match, and of every text held by a group, is one that the structure of the expression allows: 1 for a character, sums for concatenations, any of the alternatives, as many iterations as the quantifier allows, 0 for assertions. The bounds computed from the expression hold for all results of all calls, and in expressions without assertions, backreferences and possessive parts every allowed length occurs. The traits is_trivially_matchable, is_zero_length_matcher and is_assertion say exactly which lengths are possible.", "quantifier": "all usable regexes, iterator categories and texts", "why_tests_cant": "Tests see single matches; this bounds the matches in all texts and compares traits with all possible matches.", "anchors": ["include/mregex/ast/traits.hpp", "include/mregex/ast/nodes/quantifiers/repetition.hpp", "include/mregex/ast/nodes/quantifiers/fixed_repetition.hpp", "include/mregex/ast/nodes/sequence.hpp", "include/mregex/ast/nodes/trivially_matchable.hpp", "include/mregex/regex_methods.hpp"]}
{"id": "C72", "title": "Enlarging a part enlarges what is matched", "statement": "If a pattern arises from another one by enlarging parts (more characters in a class, more alternatives, looser counts, assertions left out, optional parts added, and the opposite under a negative lookaround), then match, match_prefix and search succeed with it whenever they succeed with the other one, and search does not start later. In particular, adding any of the flags icase, dotall, multiline, ungreedy and unroll to a pattern without negation never loses a match.", "quantifier": "all usable regexes without backreferences and possessive parts, iterator categories and texts", "why_tests_cant": "Each metamorphic test compares two patterns on one text; the relation covers all pairs of patterns and all texts.", "anchors": ["include/mregex/ast/nodes/alternation.hpp", "include/mregex/ast/nodes/quantifiers/repetition.hpp", "include/mregex/ast/nodes/set.hpp", "include/mregex/ast/nodes/negated.hpp", "include/mregex/ast/nodes/lookaround.hpp", "include/mregex/regex_flags.hpp", "include/mregex/regex_methods.hpp"]}
{"id": "C73", "title": "Patterns compose as texts", "statement": "For accepted patterns p and q that only test the characters they consume: the pattern (?:p)(?:q) is accepted and matches exactly the texts that split into a text matched by p and one matched by q; (?:p)|(?:q) matches exactly the texts matched by p or by q; (?:p) with a greedy or lazy quantifier matches exactly the texts that split into an allowed number of texts matched by p; (p) matches the same texts as p.", "quantifier": "all accepted self-contained patterns, quantifiers, flags, iterator categories and texts", "why_tests_cant": "It relates what the parser makes of a composed text to what the calls do with the parts, for arbitrary parts; tests use fixed patterns.", "anchors": ["include/mregex/regex.hpp", "include/mregex/ast/build.hpp", "include/mregex/ast/indexing.hpp", "include/mregex/ast/nodes/sequence.hpp", "include/mregex/ast/nodes/alternation.hpp", "include/mregex/ast/nodes/quantifiers/repetition.hpp", "include/mregex/ast/nodes/capture.hpp"]}
{"id": "C74", "title": "Inversion mirrors the expression", "statement": "ast::invert is an involution and keeps the number of groups and the traits; for every expression, the inverted one matches exactly the reversed texts, and its leftmost match in the reversed text is a match of the expression with the last end.", "quantifier": "all trees, flags, iterator categories and texts", "why_tests_cant": "Inversion is only reached through lookbehinds in tests, with a handful of bodies; the claim is about all trees and texts.", "anchors": ["include/mregex/ast/inversion.hpp", "include/mregex/ast/transform.hpp", "include/mregex/utility/type_sequence.hpp", "include/mregex/ast/nodes/lookaround.hpp"]}
{"id": "C75", "title": "The groups are the fields of the text", "statement": "For a pattern that is a row of pieces, some of them fields in capturing groups: match succeeds exactly on the texts that can be divided into one text per piece, match_prefix when a beginning of the text can, search when some part can, and at the leftmost place. On success group 0 is the divided text and the groups are, in order, the fields of one such division. When every piece is followed by a character it cannot contain (as in key=value lines) the division is unique, and the groups are the fields the text was put together from.", "quantifier": "for all lists of pieces (any trees without assertions, backreferences, possessive parts or groups of their own), flags, iterator categories and texts", "why_tests_cant": "Tests compare the groups of single patterns on single texts; which group goes with which field is a statement about every template and every text.", "anchors": ["include/mregex/regex.hpp", "include/mregex/match_result.hpp", "example/extracting_captures.cpp"]}
{"id": "C76", "title": "The example programs do what they say, on every text", "statement": "The patterns of the example programs compute, for any text: ab+ matches exactly a followed by b's; the record pattern matches exactly the well-formed records and returns their fields, the country also by name; try_parse_day returns the day exactly for announcements; the date search finds the leftmost date and its three numbers; the log line (possessive) matches exactly the well-formed lines and returns level and message; find_all of the word pattern lists exactly the maximal runs of word characters, each once and from left to right (and the same for any character class with a + that takes all it can); tokenize yields only a word at the very beginning; the searcher pattern lists exactly the words of four or five characters.", "quantifier": "for all texts and iterator categories (the last needs a bidirectional one); the statement on runs for all classes, flags and modes that take all", "why_tests_cant": "The programs print the result of one text each and are not tests at all.", "anchors": ["example/basic.cpp", "example/extracting_captures.cpp", "example/optional.cpp", "example/structured_bindings.cpp", "example/forward_list.cpp", "example/regex_range.cpp", "example/regex_searcher.cpp", "example/url_parsing.cpp"]}
{"id": "C77", "title": "A search finds words by what stands around them", "statement": "Let p be a pattern that only tests the characters it consumes. The pattern (?:p) with any list of ^, $, \\A, \\Z, \\b, \\B, lookaheads and lookbehinds (positive or negative, over such patterns) in front of it and behind it is accepted, and search with it succeeds exactly when the text contains a text of p whose two ends satisfy the demands; it finds the leftmost. In particular ^(?:p)$ with the flag multiline finds the lines that p matches.", "quantifier": "for all accepted patterns p without anchors, lookarounds, backreferences and possessive parts, all lists of demands, flags, texts and iterator categories with which the composed pattern can be used", "why_tests_cant": "Tests look at a few patterns with one or two assertions on short texts; the claim relates two arbitrary patterns and the text around a match.", "anchors": ["include/mregex/ast/predicates/anchor_predicates.hpp", "include/mregex/ast/predicates/lookaround_predicate.hpp", "include/mregex/ast/nodes/terminals/anchors.hpp", "include/mregex/regex_methods.hpp", "include/mregex/regex_flags.hpp", "include/mregex/parser/parser.hpp"]}
{"id": "C78", "title": "A text is searched piece by piece", "statement": "If no part of a pattern can read a separator character and its tests of places (^ and $ under multiline for a newline, \\b and \\B for a character that is no word character) treat the separator like the border of the text, then find_all() on a text lists the matches of its pieces between the separators, one piece after the other, each at its place (up to the first empty match, where find_all() stops); search() finds what it finds in the first piece that has a match.", "quantifier": "every pattern without backreferences that meets the condition, with lookarounds, atomic groups and possessive or lazy loops; every separator; every number of pieces of any length and content; all flags and iterator categories", "why_tests_cant": "A test compares a few lines of a few texts; loops, lookbehinds and anchors at the borders of a line must be shown to behave as at the borders of a text of any length.", "anchors": ["include/mregex/regex_methods.hpp", "include/mregex/match_result_generator.hpp", "include/mregex/ast/predicates/anchor_predicates.hpp", "include/mregex/ast/nodes/lookaround.hpp", "include/mregex/ast/nodes/trivially_matchable.hpp"]}
{"id": "C79", "title": "Characters matter only through the classes of the pattern", "statement": "If no test of a pattern (character class, wildcard, line anchor in multiline mode, word boundary) tells two texts apart place by place and, for patterns with backreferences, the same places of both texts hold equal characters, then match, match_prefix, search, tokenize, find_all, tokenizer and searcher return identical results (verdicts, places, groups) for both texts. In particular rewriting a text character by character within the classes of the pattern changes nothing.", "quantifier": "for all regexes, flags, iterator categories and pairs of texts of equal length", "why_tests_cant": "Tests use fixed texts; they cannot show for all texts that no fast path, loop or lookaround ever looks at anything but class membership and, for backreferences, equality.", "anchors": ["include/mregex/ast/nodes/trivially_matchable.hpp", "include/mregex/ast/nodes/set.hpp", "include/mregex/ast/nodes/terminals/backref.hpp", "include/mregex/ast/predicates/anchor_predicates.hpp", "include/mregex/regex_methods.hpp"]}
{"id": "C80", "title": "A call sees the characters its argument holds", "statement": "A text given as a string literal, a pointer, a string_view or any object is seen by every call as exactly the characters it holds: the terminator of a literal is not part of the text, nothing behind it is read, and the same characters give the same result whatever holds them.", "quantifier": "all calls, kinds of arguments, value categories, contents of memory", "why_tests_cant": "The tests use literals without NUL; which overload an array takes shows only when the terminator or an embedded NUL matters.", "anchors": ["include/mregex/regex.hpp", "include/mregex/utility/concepts.hpp", "include/mregex/utility/type_traits.hpp"]}
{"id": "C81", "title": "^(?:p)$ with multiline lists the lines that match p", "statement": "If no word of a pattern p has a line break in it, find_all() of ^(?:p)$ with the multiline flag lists exactly the lines of the text that p matches as a whole, in order and each at its place, up to the first matching line that is empty (where find_all() stops). Lines are what lies between the characters \\n and \\r.", "quantifier": "every accepted pattern p that does not refer out of itself (no backreferences, nothing that looks beyond its match) and whose words have no line break; every text, cut into any number of lines of any length; every usable iterator category; all other flags", "why_tests_cant": "A test lists the lines of one text; that no line is missed or cut short, whatever the loops of p try first, and that no match straddles lines has to be shown for every pattern and text.", "anchors": ["include/mregex/regex.hpp", "include/mregex/match_result_generator.hpp", "include/mregex/ast/predicates/anchor_predicates.hpp", "include/mregex/regex_methods.hpp"]}
{"id": "C82", "title": "Expressions without ambiguity are matched in linear time", "statement": "If at every choice the next character excludes all but one of the ways to go on, then an attempt (match or match_prefix) takes at most a constant number of steps for each character of the text, even with loops inside loops; a search or a listing of all results takes at most a constant times the square. The condition is a computable test of the expression: the characters that can open an alternative, a further round or what comes behind are disjoint. Without it the bound is false, and the square is needed for a search.", "quantifier": "every expression tree that passes the test (groups, alternations, nested greedy, lazy and possessive loops, anchors, word boundaries, lookarounds at one character); every text of any length and every start; every iterator category and all flags", "why_tests_cant": "A measurement covers some texts; that no text makes such an expression backtrack needs an argument about all texts and all ways the loops can give back, and the constant must not depend on the text.", "anchors": ["include/mregex/ast/nodes/quantifiers/repetition.hpp", "include/mregex/ast/nodes/quantifiers/fixed_repetition.hpp", "include/mregex/ast/nodes/sequence.hpp", "include/mregex/ast/nodes/alternation.hpp", "include/mregex/regex_methods.hpp"]}
{"id": "C83", "title": "Loops that cannot give back may be possessive", "statement": "A greedy or lazy loop over single characters may be made possessive wherever no character of the loop can come behind it, anywhere in an expression and any number of times: match, match_prefix and search keep their verdicts and matched ranges. For match the end of the expression counts as followed by nothing. Without the condition the verdict changes.", "quantifier": "every tree of the regular fragment and every such change in it (inside groups, alternatives, other loops, atomic groups and lookarounds); every text; every usable iterator category; all flags including ungreedy", "why_tests_cant": "Whether giving back can ever matter depends on all texts; a test shows it for the texts it tries.", "anchors": ["include/mregex/ast/nodes/quantifiers/repetition.hpp", "include/mregex/ast/nodes/quantifiers/fixed_repetition.hpp", "include/mregex/ast/nodes/sequence.hpp", "include/mregex/regex_methods.hpp"]}
{"id": "C84", "title": "Lookaheads intersect and subtract patterns", "statement": "For any two accepted patterns p and q without backreferences, the pattern (?=(?:p)\\Z)(?:q) is accepted and matches exactly the texts matched as a whole by both p and q, and (?!(?:p)\\Z)(?:q) is accepted and matches exactly the texts matched by q but not by p. If neither has capturing groups, the composed patterns compile and run whenever p and q do.", "quantifier": "for all texts p and q of accepted patterns without backreferences (with assertions, lookarounds and possessive parts), all flags, iterator categories and subject texts", "why_tests_cant": "Both patterns and the subject range over infinite sets, and the claim compares three different compiled regexes; a test can compare only chosen patterns on chosen texts.", "anchors": ["include/mregex/ast/predicates/lookaround_predicate.hpp", "include/mregex/ast/nodes/negated.hpp", "include/mregex/ast/predicates/anchor_predicates.hpp"]}
{"id": "C85", "title": "Searches are matches with gaps", "statement": "For every accepted pattern p, search(p) gives the verdict, the end and all numbered groups of match_prefix([^]*?(?:p)); only the begin of the whole match differs. With a greedy gap, match_prefix([^]*(?:p)) finds the last place where p matches instead of the first. match([^]*(?:p)[^]*) succeeds exactly when search(p) does, with greedy or lazy gaps. When no occurrence is empty, tokenize([^]*?(?:p)) cuts the text exactly at the ends of the occurrences listed by find_all(p). Under ungreedy lazy and greedy are exchanged.", "quantifier": "for all accepted pattern texts (the first claim with backreferences, the others without), all flags, iterator categories and subject texts", "why_tests_cant": "The claim relates three entry points with different loops (the search loop, the lazy and the greedy loop over characters) on infinitely many patterns and texts; tests compare them on a few.", "anchors": ["include/mregex/ast/nodes/quantifiers/repetition.hpp", "include/mregex/regex_methods.hpp"]}
{"id": "C86", "title": "Appended text does not change what was found before", "statement": "For a pattern that does not look at what follows its matches and makes no final decisions (no $, \\Z, \\b, lookahead, atomic group, possessive repetition or backreference): a text that is matched, or has a prefix match or an occurrence, still has one as a prefix or occurrence when text is appended. A prefix match or leftmost occurrence in the longer text that ends within the first part is the one found in the first part alone. The tokens and the occurrences in the first part begin with those of the longer text that end within the first part.", "quantifier": "all such regexes with all flags and iterator categories, all texts and all appended texts", "why_tests_cant": "The appended text is arbitrary and loops read into it and come back; all texts and all ways to divide them are quantified over.", "anchors": ["include/mregex/regex_methods.hpp", "include/mregex/match_result_generator.hpp", "include/mregex/ast/nodes/quantifiers/repetition.hpp"]}
{"id": "C87", "title": "Rewritings keep the matched ranges", "statement": "Flattening, dropping the capturing of a group, removing a repeated alternative, exchanging alternatives that exclude each other (different first characters, or opposite tests in front), taking out a common suffix, taking out a common prefix that has only one possible end, replacing characters by classes with the same members (also a lookahead at a character in front of a class), unfolding and folding of loops and optional parts, joining and denesting of stars of the same mode, making fixed repetitions of parts with one possible end possessive, and reordering or repeating tests: used anywhere in an expression (in possessive loops, atomic groups and lookbehinds too) and any number of times, they change neither the verdicts nor the matched ranges of match, match_prefix and search, nor the ranges listed by tokenize and find_all.", "quantifier": "all trees without backreferences, all flags (which of the two modes of a loop tries more first depends on ungreedy), iterator categories and texts", "why_tests_cant": "The claim quantifies over all expressions, all sequences of rewriting steps and all texts; unlike C70 it is about the order in which ends are tried, which a test observes only through one text at a time.", "anchors": ["include/mregex/ast/nodes/alternation.hpp", "include/mregex/ast/nodes/sequence.hpp", "include/mregex/ast/nodes/quantifiers/repetition.hpp"]}
{"id": "C88", "title": "Rewritings keep the content of all groups", "statement": "Flattening of concatenations and of alternations (if the inner alternation is the last alternative or does not end in a single-character alternative), moving what follows an alternation into its alternatives, taking out a common prefix that neither sets nor reads groups and has one possible end, replacing characters by classes with the same members, writing x{n,m} as x{n}x{0,m-n}, x{n+k} as x{n}x{k}, x? as an alternation with the empty expression, x{0,n+1} and (if x always takes a character) x* with their first iteration written out, making possessive what has one attempt, writing a possessive loop as an atomic greedy loop (if it is bounded, or its body takes a character or has one attempt), making the body of x*+ or x++ atomic, writing an atomic lazy loop as its required iterations, and reordering or repeating tests without groups: used anywhere (in groups, lookbehinds, negations and possessive loops too) and any number of times, they change neither the verdicts nor the content of any group of match, match_prefix and search, nor any element of the ranges, backreferences included, as long as the expression keeps its list of groups.", "quantifier": "for all pairs of syntax trees related by the laws, all flags, iterator categories and texts", "why_tests_cant": "The laws are used in unboundedly many contexts, and the groups that abandoned attempts leave behind depend on the whole order of trial.", "anchors": ["include/mregex/ast/nodes/alternation.hpp", "include/mregex/ast/nodes/sequence.hpp", "include/mregex/ast/nodes/quantifiers/repetition.hpp", "include/mregex/ast/nodes/capture.hpp", "include/mregex/ast/nodes/terminals/backref.hpp"]}
{"id": "C89", "title": "Iterators of a range object share one position", "statement": "A program that uses range objects of tokenize() and find_all() and their iterators in any order - begin(), copying and assigning iterators, copying, assigning and destroying range objects (iterators are not used after the lifetime of their range object), reading with * and ->, testing against the sentinel, ++it - sees what positions in the list of matches predict: all iterators of one range object show the match at its position, advancing one of them advances all, a copied range object goes on independently from the position of the original, and behind the last match the iterators stay equal to the sentinel and may be read and advanced. The iterators provide the operations of an input iterator.", "quantifier": "for all programs (finite lists of operations over any number of range objects and iterators), all regexes, texts and iterator categories for which the list of matches is defined", "why_tests_cant": "Tests use one iterator in one loop; the aliasing between copies shows only in programs of unbounded variety.", "anchors": ["include/mregex/utility/input_range_adapter.hpp", "include/mregex/match_result_generator.hpp", "include/mregex/regex.hpp"]}
{"id": "C90", "title": "The texts of groups nest and follow each other as their parentheses do", "statement": "After a successful match, match_prefix or search, the texts of any two groups that took some text either lie one within the other, and then the parentheses of the inner one stand inside those of the outer one, or do not overlap, and then the group of the earlier text can be passed before the other: it stands to the left of it in a concatenation, or both stand in a loop that can be passed twice. Every text of a group lies within group 0.", "quantifier": "for all regexes, flags, iterator categories, texts, all three calls and all pairs of groups", "why_tests_cant": "The relation concerns all pairs of groups under all nestings of groups, alternations and loops, and all paths that a match can take.", "anchors": ["include/mregex/ast/nodes/capture.hpp", "include/mregex/ast/nodes/sequence.hpp", "include/mregex/ast/nodes/alternation.hpp", "include/mregex/ast/nodes/quantifiers/repetition.hpp", "include/mregex/regex_capture.hpp"]}
{"id": "C91", "title": "Texts leave a result only when they are moved out of it", "statement": "A result that owns its texts can be used again and again, in any order, as an lvalue, as a constant and as an expiring value: every use - group, get, content, for_each_group, transform_groups, as_optional - hands out exactly the texts of the groups it names, except for those that an earlier use took away; a text is taken away exactly by using the result as an expiring value that is not constant with group, get, content, for_each_group or as_optional of a positive result.", "quantifier": "for all programs (finite sequences of uses with all four value categories), all regexes, texts, calls and iterator categories", "why_tests_cant": "Which overload is chosen, and what later uses see, depends on unboundedly many sequences of uses.", "anchors": ["include/mregex/match_result.hpp", "include/mregex/regex_capture.hpp", "include/mregex/utility/tuple.hpp"]}
{"id": "C92", "title": "Every end that is tried costs a step; ambiguous loops take exponentially many steps to fail", "statement": "A call takes at least one step for every end of the expression - or, in a concatenation, for every end of the parts before any split - that it tries. Therefore a loop without an upper bound that is not possessive, over something that can match the characters ahead in two ways piece by piece, takes at least 2^q steps before a call can report that there is no match, q being the number of pieces.", "quantifier": "for all usable regexes, texts, iterator categories and flags; all expressions around and inside the loop; match, match_prefix and search", "why_tests_cant": "A lower bound on the work over all texts, for all patterns of a kind; tests see single patterns and stop when they become slow.", "anchors": ["include/mregex/ast/nodes/quantifiers/repetition.hpp", "include/mregex/ast/nodes/sequence.hpp", "include/mregex/ast/nodes/alternation.hpp", "include/mregex/regex_methods.hpp"]}
{"id": "C93", "title": "Patterns without backreferences are matched with finite memory", "statement": "For every pattern without backreferences, whatever its lookaheads, lookbehinds, negations, anchors, atomic groups and possessive or lazy loops, there is a machine with finitely many states that reads the text once from left to right and whose last state tells whether match (match_prefix, search) reports a match. Therefore a long text always has a part near its beginning that can be left out or repeated without changing the answer, two patterns that give the same answers on all texts up to a length that can be computed from them give the same answers on all texts, and it can be decided whether two patterns always give the same answers and whether a pattern matches any text at all. With backreferences there is no such machine.", "quantifier": "for all usable regexes without backreferences, texts, iterator categories and flags; match, match_prefix and search", "why_tests_cant": "It is about the answers on infinitely many texts at once; tests see finitely many and cannot know that the rest follows from them.", "anchors": ["include/mregex/ast/nodes/quantifiers/repetition.hpp", "include/mregex/ast/nodes/sequence.hpp", "include/mregex/ast/nodes/alternation.hpp", "include/mregex/ast/nodes/lookaround.hpp", "include/mregex/ast/nodes/negated.hpp", "include/mregex/ast/nodes/terminals/backref.hpp", "include/mregex/regex_methods.hpp"]}
{"id": "C94", "title": "The ranges of all matches are found in two passes with finite memory", "statement": "For every pattern without backreferences there are two machines with finitely many states, one reading the text from left to right and one from right to left, such that at every offset of every text their two states decide whether a range found by find_all (tokenize, search) begins there, and whether one ends there. In particular neither the number nor the length of the earlier results matters beyond finitely many cases.", "quantifier": "for all usable regexes without backreferences, texts, offsets, iterator categories and flags; find_all, tokenize and search", "why_tests_cant": "It relates the results on infinitely many texts; tests compare single texts.", "anchors": ["include/mregex/match_result_generator.hpp", "include/mregex/regex_methods.hpp", "include/mregex/regex.hpp"]}
{"id": "C95", "title": "It can be decided whether two patterns find the same ranges in all texts", "statement": "For any two patterns without backreferences, with any flags and iterator categories, it can be decided whether find_all (tokenize, search) finds the same ranges in the same order in all texts: comparing them on all texts up to a length computed from the two patterns is enough. This is more than giving the same answers: a+ and a+? are found in the same texts but cover different ranges.", "quantifier": "for all pairs of usable regexes without backreferences, all texts, iterator categories and flags; find_all, tokenize and search", "why_tests_cant": "Tests compare two patterns on chosen texts; here finitely many texts are shown to settle all of them, and how long they may be.", "anchors": ["include/mregex/match_result_generator.hpp", "include/mregex/regex_methods.hpp", "include/mregex/regex.hpp"]}
{"id": "C96", "title": "Patterns express exactly what machines with finite memory decide", "statement": "For every machine with finitely many states that reads texts of characters there is a classical pattern (characters, concatenation, alternatives and stars only) which the parser accepts and whose match gives the answers of the machine. With C93 it follows that lookaheads, lookbehinds, anchors, atomic groups, possessive and lazy loops and flags add nothing to the answers that match, match_prefix and search can give: each pattern without backreferences has a classical pattern whose match gives the same answers on all texts. The texts a pattern does not match, and the texts that two patterns match together or one of them only, are those of a classical pattern too, and it can be decided whether there are any. With backreferences there is no such classical pattern in general.", "quantifier": "for all machines with finitely many states, all usable regexes without backreferences, all texts, iterator categories and flags; match, match_prefix and search", "why_tests_cant": "It says that for every pattern another one exists that agrees with it on infinitely many texts; no set of tests shows this.", "anchors": ["include/mregex/ast/nodes/quantifiers/repetition.hpp", "include/mregex/ast/nodes/sequence.hpp", "include/mregex/ast/nodes/alternation.hpp", "include/mregex/ast/nodes/lookaround.hpp", "include/mregex/parser/parser.hpp", "include/mregex/regex_methods.hpp"]}
{"id": "C97", "title": "Groups nobody refers to can be made non-capturing", "statement": "If no backreference refers to a capturing group, neither by number nor by name, then making it non-capturing (the later groups and the backreferences to them move down by one number) changes nothing but that the group is gone: match, match_prefix, search, tokenize and find_all give the same verdicts, the same ranges and the same other groups. Without backreferences the ranges stay in every case; with backreferences the parentheses must not separate two alternatives that are single characters and share one. The shorter regex compiles whenever the longer one does, except for loops of at least 2^63 rounds.", "quantifier": "for all usable regexes with groups numbered in order, all groups nothing refers to, all texts, iterator categories and flags, five calls", "why_tests_cant": "The claim compares two regex types on all texts; each test fixes one pattern and one text. The exception needs a loop in which an earlier attempt leaves a group behind.", "anchors": ["include/mregex/ast/nodes/capture.hpp", "include/mregex/ast/nodes/alternation.hpp", "include/mregex/ast/nodes/terminals/backref.hpp", "include/mregex/ast/indexing.hpp", "include/mregex/regex_methods.hpp", "include/mregex/utility/distance.hpp"]}
