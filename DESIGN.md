# Formal model of mregex — design

Subject: `/repo` (iulian-rusu/mregex), a header-only C++20 compile-time regex
library. Everything here is a Rocq/Coq 8.16 model written by reading the
source; the C++ code itself is neither built nor run.

## 1. What is modelled

| Part of the library | Model file (`rocq/theories`) |
|---|---|
| `utility/char_traits.hpp`, byte arithmetic | `Chars.v` |
| AST node types, `ast/astfwd.hpp` aliases, `symbols/quantifiers.hpp` | `Ast.v` |
| `ast/traits.hpp`, `ast/inversion.hpp`, `ast/indexing.hpp`, `ast/transform.hpp`, `utility/type_sequence.hpp` | `Traits.v` |
| `match`/`match_one` of every node, predicates, continuations, `utility/distance.hpp` | `Matcher.v` |
| `regex_methods.hpp`, `match_result_generator.hpp`, `match_result.hpp`, `regex_capture*.hpp`, `input_range_adapter.hpp` | `Api.v` |
| `utility/type_sequence.hpp`, `static_string.hpp`, `reversed_range_view.hpp`, `tuple.hpp`, `parser/lexer.hpp` as written | `Containers.v` |
| range objects and their iterators, lifetime of temporaries | `Adapter.v` |
| `symbols/*`, `grammar/*`, `ast/build.hpp`, `parser/*` | `Grammar.v`, `Parser.v` |
| `xpr/*`, `regex_flags.hpp` | `Xpr.v` |
| reading results and captures, texts of other character types | `Views.v` |
| copies of captures when memory runs out, `noexcept` | `Exceptions.v` |
| iterators of range objects as programs use them | `Cursors.v` |
| copies and moves of results and captures | `Moves.v` |
| comparison of syntax trees (`std::is_same`), used by the translated tests | `Equality.v` |
| the matcher, the generators and the parser once more, with counters for depth and steps | `Costs.v`, `RangeCosts.v`, `ParserCosts.v` |

Types become values: a C++ template instantiation `sequence<A, B>` is the value
`Seq [A; B]`; a template specialisation is a branch of a Coq function; a
`static_assert` or an ill-formed instantiation is the outcome `IllFormed`.

### Matching

* A text is a `list ascii`; an iterator is its offset (`nat`) in the text.
  A `reverse_iterator` view is the reversed list with offset `len - cur`, and
  the number of nested reversals (the C++ iterator type) is a parameter.
* The captures tuple is a list of cells; `None` is a default-constructed
  capture, `Some (b, e)` a range of the original text.
* `Node::match(begin, end, current, ctx, cont)` is a function in
  continuation-passing style that threads the captures explicitly (`ctx` is a
  mutable reference in C++).
* Outcomes: `Res ctx end matched`, `Undef` (dereference outside the text,
  `std::prev` of begin, …), `IllFormed` (does not compile), `Diverge` (fuel
  exhausted: a loop that would not terminate).
* Recursion over the syntax tree uses fuel (the size of the tree) because a
  lookbehind recurses into the *inverted* tree. Unbounded loops use fuel
  `len - current + 1`; running out gives `Diverge`, which C04 excludes.
* All overloads are modelled separately: unrolled/not unrolled, random access /
  bidirectional / forward, trivially matchable / generic.

### Specifications (independent of the model)

The specifications share only the syntax trees, the flags and the text with the
model. They do not mention continuations, captures tuples, iterators or fuel.

| Specification | File | Meaning |
|---|---|---|
| `accepts cf n a` | `Spec.v` | the characters of a class, by structural recursion |
| `matches cf s n i j` | `Spec.v` | the textbook language as a relation between offsets |
| `paths cf s n i` | `Spec.v` | the ends of all matches from `i`, in priority order |
| `walk cf s left back n i` | `Walk.v` | the ends the code tries, in order, for every tree without backreferences: `paths` with the deviations of F5, F6 and F13 written out |
| `as_read left back n` | `Walk.v` | the tree the code takes `n` for: anchors of lookbehind bodies exchanged, bodies of lookarounds inside lookbehinds reversed |
| `explore cf names s depth back n i g` | `Explore.v` | the attempts of the code for every tree, with the content of all groups at each of them |
| `re`, `lang`, `written` | `Classical.v` | classical regular expressions, their languages as sets of words, and as patterns |
| `regular`, `backref_free`, `possessive_free`, `reversible` | `Spec.v` | the fragments in which theorems hold, as Boolean functions on trees |
| `tracks cf s n (i, e)` | `Tracks.v` | like `paths`, but each path also carries what the groups captured last on it (`e`), and backreferences repeat that text |
| `scoped`, `traceable ids` | `Tracks.v` | every backreference is preceded by its group, which is captured at most once on a path and outside loops, negations and lookbehinds; the same for the groups `ids` |
| `takes cf s n i j t` | `Held.v` | a match with the captures made along it, in order |
| `group_in`, `holds` | `Groups.v` | the groups of a tree; a cell that holds a text of a relation |
| `last_iteration`, `loop_in`, `tries_more` | `Last.v` | the last of `q` consecutive matches; a loop at the top level |
| `body`, `piece`, `item`, `suffix`, ... | `Syntax.v` | the pattern syntax as an inductive grammar, with the tree of each text |
| `print` | `Print.v` | trees as patterns |
| `scan` | `Scan.v` | the capturing parentheses of a pattern, read from the text alone |
| `spells`, `counts` | `Literal.v` | escaped texts, written quantifiers |
| `decided_by`, `finite_memory` | `Memory.v` | a machine with finitely many states whose last state decides a call |
| `two_passes`, `marked_in_two_passes` | `Passes.v` | where ranges begin and end, decided by what two machines read on both sides |
| `spans`, `verdict` | `SameRanges.v`, `Memory.v` | the ranges of all results; whether a call matches |
| `regrouped` | `Regroup.v` | dissolving nested concatenations and alternations |

`regular n` (Spec.v) holds of the trees without backreferences, in which the
body of a possessive loop without upper bound cannot match the empty text, and
in which lookbehinds contain no anchors and no nested lookarounds. The excluded
shapes are those of findings F13, F5 and F6 and of C22.

### Correspondence with the test suite

`Conformance.v` is generated by `tools/gen_conformance.py` from the
`static_assert`s of `/repo/test`. Each one is evaluated in the model by
`vm_compute`, so the build fails if the model disagrees with an assertion of
the project. `ConformanceUnits.v` holds the assertions about containers, symbols,
arguments, expressions and members of results. `Comparing.v` proves that the comparisons of trees used there
(`Equality.v`) decide equality.

## 2. Per-property account

The theorems are in the `Prop_*.v` files; each has an `Example` beside it that
meets its hypotheses. `MANIFEST.json` lists the names.

| Id | What is proved, and how |
|---|---|
| C01 | `match` answers true iff `matches 0 (length s)`. Adequacy of the matcher with respect to `paths` (`Adequacy.v`: induction on fuel, loops by induction on the remaining length; `Impl.v` reduces the overloads to one), then `paths` against `matches` (`Paths.v`). `C01_match_exact` covers every backreference-free tree, against `walk` (`Exact.v`: the adequacy proof again, with reading direction and part order as parameters). |
| C02 | `match_prefix` returns the head of `paths`, for `regular` trees; `paths` enumerates exactly the matches. Partial because the claim is false beyond (F5, F6, F13; `…_refuted`). `C02_match_prefix_exact` says what the code returns for every backreference-free tree: the head of `walk`. |
| C03 | `search` returns the least offset at which `paths` is not empty, and its head. `Uniform.v` extends the first part to all backreference-free trees; `C03_search_exact` gives the range too, by `walk`. |
| C04, C05, C06 | One invariant over the whole matcher (`Safe.v`): from well-formed captures, an offset inside the text and a continuation with the same contract, the outcome is a result with well-formed captures, never `Diverge` or `Undef`. |
| C07 | `match` and `match_prefix` agree; `Uniform.v`. |
| C08, C09 | Two-run theorems (`Impl.v`, `Lift.v`). Verdict and groups are equal; the end of a failed call is excluded because of F15. |
| C10 | Exact equality with the tree in which lazy and greedy are swapped (`Cong.v`). |
| C11 | Same answers as the atomic greedy loop, in every context (also inside lookbehinds), whenever the upper bound is finite or the body cannot be empty (`Actual.v`); the same with backreferences and all groups, and for the lower bounds 0 and 1 exactly for every body: `x*+` is the atomic loop over `(?>x)` (`Commits.v`, from the laws of C88 in `Exchange.v`); for bodies without groups and every lower bound `x{n,m}+` is `(?>x{n})(?>(?>x){0,m-n})` (`CommitsAll.v`). Refuted for the remaining case: F13. |
| C12, C13 | Local theorems about the node, for every continuation: against the matching relation for regular trees, and against the node's own run for any tree (`Uniform.v`). |
| C14 | `matches (invert x)` on the reversed text is `matches x` on the text (`Mirror.v`), and the matcher of a lookbehind computes it. |
| C15 | False: F5 and F6, refuted with witnesses. The exact extent is proved instead: the code matches the tree `as_read` by its textbook meaning (`C15_match_as_read` for the language, `C15_match_prefix_as_read` and `C15_search_as_read` for priority order), and `as_read` changes nothing except lookbehind bodies with anchors or nested lookarounds (`C15_read_as_written`). `Actual.v`. |
| C16, C17 | Sweeps over the 256 bytes, lifted to all sets and ranges by induction (`Classes.v`). |
| C18 | Two runs on texts that are equal up to case (`Cong.v`). |
| C19 | Case analysis with symbolic positions. |
| C20 | Exact equality of calls. |
| C21 | Two-run theorem over `regrouped` (`Relate.v`, `Runs.v`, `Regroup.v`). With backreferences, dissolving an alternation that is not the last needs that no character fits two of the single characters at the joint (`separate`: `alt_first_apart`, by induction on the nested alternatives); refuted without this: F16. |
| C22 | Local theorem for arbitrary captures and continuation; also at reverse depth 1. |
| C23 | The groups of an accepted pattern are numbered 1, 2, ... when at most one branch of each alternation has groups. Refuted otherwise: F1. For every accepted pattern: a group is numbered one more than the groups in front of it that are not in another branch (`Numbering.v`). |
| C24 | The groups of the tree are the capturing parentheses found by `scan` (`Scan.v`). |
| C25 | Invariant over captures along the adequacy proof (`Groups.v`). |
| C26 | Every successful call has a match with trace `t` such that each group is empty or holds its latest capture in `t` (`Held.v`: the matcher is related to `takes` for every continuation that, on failure, leaves each watched cell unchanged or empty). No restriction to `regular` trees. Groups inside lookarounds, atomic groups and possessive loops are excluded because of F3, which is refuted with witnesses. `Tracking.v` adds, for groups captured at most once on a path (also inside lookaheads and atomic groups), that the group holds its range on the *preferred* match. |
| C27 | Exact content of a repeated group after the loop (`Last.v`): the last iteration if the loop is lazy or has reached its bound, nothing otherwise. The second half is F2. For the results of calls: loops that are the pattern or an element of its top-level sequence. For a loop in any place, lookarounds included, `C27_every_loop_partial` (`Iterations.v`) says the same of every point where the search of C55 leaves the loop. |
| C28 | A failed `search` leaves group 0 empty, for every accepted pattern; a failed call of any kind leaves the other groups empty, except those inside lookarounds, possessive repetitions and atomic groups (`Failed.v`). Refuted for group 0 of `match` and `match_prefix`, and for groups inside lookarounds: F4. |
| C29 | Typing of the symbol stack against the node stack (`Typing.v`): no action meets the wrong nodes. Refuted for patterns that consist only of openings of groups, the last of a kind that needs a body: F14; these are exactly the exceptions (`C29_stuck_exactly`). |
| C30 | Every pattern with the same text up to the error position is rejected at the same position, and the position is the length of the longest beginning that can be completed to a pattern of the grammar (`Viable.v`: every state of the parser has a continuation that closes it). |
| C31 | Texts spelled with plain characters and escapes are matched exactly. |
| C32 | For numerals below 2^64. Refuted beyond: F9. The `_exact` theorems cover numerals of any size (read modulo 2^64). |
| C33 | A brace that starts no quantifier may be escaped without changing the tree, if no alternation follows in the group. Refuted otherwise: F7. `C33_brace_exact` (`BraceGroups.v`, induction over the grammar) gives the pattern without such a brace that has the same tree, for every accepted pattern. |
| C34 | A set accepts the union of its items. Refuted for a dash behind a class or `\R`: F8 and F17. `C34_set_exact`: the elements and verdicts of every accepted text between brackets. |
| C35 | Printing and parsing are inverse; the accepted patterns and their trees are exactly those of the grammar (`Reading.v`, `Accepted.v`). |
| C36-C39 | Induction over the generator calls (`Generators.v`). `Scans.v` gives the exact content of both ranges as inductive scans of the text. C38 is refuted in general: F10. |
| C40, C42 | Direct (`Results.v`). |
| C41 | False: F11. The exact meaning of the conversion is proved instead. |
| C43 | Every builder against its pattern counterpart (`Expressions.v`). `either` without backreferences, or with distinct single characters where alternations meet (F16), `str` for non-empty texts (F18). |
| C44 | Shapes for all accepted patterns; the compile check under the stated conditions (`Shape.v`). Refuted beyond: F1 and F6. `Compile.v` says exactly which patterns compile. |
| C45 | Two runs with different initial captures (`Relate.v`, `Uniform.v`). |
| C46 | The matcher follows `tracks` on `scoped` trees, for all three calls (`Tracking.v`: induction on fuel, with the invariant that the captures hold the groups of the current path; parts that capture no called group are reduced to `Exact.v` by writing the captured texts into the tree, `fill`). False in general: F19, refuted with witnesses. |
| C47 | `Containers.v` models the helpers with their chunked recursion, `Utilities.v` proves them equal to the list functions. |
| C48 | `Adapter.v` models the range object whose iterators share its state. The loops are related to `range_elements` by induction (`Utilities.v`). The documented "non-empty tokens" is refuted: F10. |
| C49 | `Adapter.v` models overload resolution by kind of argument and what dies with a temporary. Reading through a dangling view is undefined behaviour. Refuted for trivially destructible owners and for generators: F20. `C49_results_outlive_exact` says exactly when the results survive. |
| C50 | `transform_tuple` with class template argument deduction of `std::tuple{…}` (`Containers.v`). Refuted for one group and a pair or tuple: F21; `C50_transform_groups_exact` shows that this is the only exception. |
| C51 | `Escapes.v` compares the two parser runs: behind the backslash their stacks differ by one symbol until the character is read. `Notes.v` treats the empty sets. |
| C52 | From the exact compile check and the groups counted in the text (`Compile.v`, `Notes.v`). Refuted inside `{0}`: F22; such a body has no influence on anything (`DeadBodies.v`: the compile check by induction, the results from the laws of C88). |
| C53 | `Views.v` models the accessors with the loops and ranges they run over; `Viewing.v` proves that all of them give the denoted part of the text, for the results of all calls. |
| C54 | The matcher reads every element through a parameter of type `char`; `Views.v` models the conversion. Refuted beyond eight bits: F23. |
| C55 | `Explore.v` describes the attempts at an offset as a lazy tree in which each attempt carries all groups; no continuations, reversed texts, inverted trees, overloads or unrolling. `Follows.v` proves by induction on fuel that running the matcher with a continuation is the same as trying the continuation at these attempts in order (`Explored.v` has the loops). It needs continuations that keep the captures well formed and never diverge. `Searches.v` lifts this to the five calls. |
| C56 | Induction on the compile check, then C09 (`Forward.v`). Refuted for backreferences, word boundaries and multiline `^`: F24 and F12. For every regex: which constructs keep it from compiling on forward ranges, and that a call that compiles is undefined behaviour or agrees (`LineStarts.v`, by the simulation of `Impl.v` with the first run allowed to be undefined). For a single `^` in front: exactly which calls are undefined behaviour (`LeadingLines.v`, by unfolding the first step of each run); whatever begins each attempt with `^` finds nothing behind the first character (`OpeningLines.v`, by induction on the tree); where nothing has been taken yet `^` means `\A` on forward ranges too, which makes the previous statement exact (`FirstLines.v`, by induction on the tree at position 0). |
| C57 | Sweep over the 256 bytes (`Forward.v`). |
| C58 | `Classical.v`: derivations in the grammar give the tree, the compile check holds of its nodes, and the textbook relation of C01 on it is the language, by induction on the expression. |
| C59 | `Composed.v`: expressions as a datatype, `built` with the functions of the model, `spelled` as text. By induction on the expression the text derives (C30) a tree that is, after numbering the groups, regrouped (C21) from the built one. Refuted when groups have other numbers: F25. |
| C60 | The trees are computed and equal (`Prop_Composed.v`). Refuted for the url expression: F26. |
| C61 | `Costs.v` repeats the matcher with counters; `Costing.v` proves that the outcomes are the same. `Depth.v`: by induction on the tree, a node adds a constant and a multiple of the characters it consumes to the depth of its continuation; each loop with its own invariant. That the depth grows without the conditions of the constant bound: F28. |
| C62 | `Effort.v`: by induction on the tree, T steps and F calls of the continuation, both bounded by a power of the length; `once` nodes call it at most once. `Budget.v` for the methods and for the exponential lower bound. Refuted without the condition: F27. `Exponential.v`: without the condition still at most exponential, since the loop calls its body again only on a shorter rest; the base of the power is multiplied by twice the number of calls at each level of nesting. `Tight.v` shows that the exponents are the right ones: k stars followed by a letter that is not there take n^k / k! steps in `match` and n^(k+1) / (k+1)! in `search` (`C62_degree_attained`). The steps inside atomic groups and lookaheads are counted (`C62_atomic_costs`, AtomicCosts.v) |
| C63 | `ParserCosts.v` repeats the parser with counters. `ParserDepth.v`: weights of symbols as a potential for the total; for the depth, a finite set of stack pieces closed under the rules (checked by computation), with the pieces that ranges and literal braces leave below counted separately. Refuted for a constant depth: F29. |
| C64 | `Flags.v`: `spelled` writes the flags into the tree. By induction on the tree both matchers give equal outcomes for equal continuations; the classes by a sweep over the characters of a range; the compile-time checks are the same. Refuted for backreferences under `icase`, for line anchors in lookbehinds (F5) and for forward iterators (F12). |
| C65 | `Anchored.v`: one step of a sequence that begins with `\A` or ends with `\Z` is the continuation of the call; a search whose pattern begins with `\A` fails at every start but the first. The patterns are read by the grammar theorem of C35. |
| C66 | `Shift.v`: by induction on the fuel, matching in a text from an offset on is matching in the rest of the text, with moved positions and captures; the generators are then compared step by step. The condition is shown to be needed. |
| C67 | `Contained.v`: by induction on the tree, `matches` between two offsets of a text is `matches` of the part between them; with C01, C02 and C03. Examples show that both conditions are needed. |
| C68 | `RangeCosts.v` repeats the generator and the range with counters; `RangeEffort.v` proves that they have the same results and, by induction on the results, that the steps of each call are paid for by the characters it passes. |
| C69 | `Exceptions.v` models the copies of captured texts with an arbitrary set of allocations that fail and the `noexcept` declarations on the way; `Raised.v` computes each call exactly. Refuted for `as_memory_owner` (F30) and for `as_optional() const &&` (F31). |
| C70 | `Laws.v`: `law` is the equational theory as an inductive relation; each rule is sound for `matches` by induction on the derivation (stars by an induction principle), and C01-C03 carry this to the calls. |
| C71 | `Lengths.v`: `possible_length` by structural recursion; every end of `explore` (C55) lies that far from its start, by induction on the tree, together with an invariant on the groups; the converse builds a text for every length, with C67. The traits are compared with it by induction. |
| C72 | `Widening.v`: `wider`, an inductive relation between trees under two sets of flags, contravariant under negation; it is shown to include the textbook languages by induction on its derivation (with the two sets of flags exchanged under a negation), and carried to the calls with C01 to C03. The flags are the case of a tree compared with itself, by induction on the tree. |
| C73 | `Compose.v`: the composed texts are derived in the grammar of `Syntax.v` and read by C31; the textbook language does not depend on the numbers of groups, by induction on the tree; words at an offset of a larger text with C67; repetitions by induction on the number of iterations. |
| C74 | `Inverted.v`: involution and traits by induction on the tree; the languages with `mirror` (Mirror.v, also used for C14), carried to the calls with C01 and C03. `InvertedExact.v`: for every tree without backreferences, `walk` of the inverted tree on the reversed text is `walk` towards the beginning (`walk_invert`, `mirrored_walk`), which gives all three calls exactly (C74_reversed_*_exact). |
| C75 | Template.v. `divides` is an inductive specification on texts; the proof follows the groups with `tracks` (Tracking.v) through the numbered pieces and cuts the text at the places they stand. Uniqueness for delimited pieces by induction on the division. |
| C76 | Sample.v, LogLine.v, WordRuns.v: the patterns are parsed by the model's parser, brought into template form (C75) by computation, and the divisions translated into plain descriptions of the text; the word lists via the scan theorem for find_all and the first path of a class loop. |
| C77 | Surrounded.v: the accepted-pattern relation gives the tree of the composed text; its textbook matches are the words with the demands as zero-width steps; then the leftmost-search theorem (C03). |
| C78 | Records.v: `stays_between` is a check of the tree. `piece_walk`: the walk (Walk.v) of a pattern from a place in a piece within the text is the walk in the piece alone, moved, by induction on the tree for both reading directions; the loops are compared with different fuels. `scan_both` puts the scans of two pieces together, induction on the pieces gives the theorem for all of them. `C78_conditions_needed` has a witness for each condition. |
| C79 | `Alike.v`: `tells_apart`, `equal_chars` and `same_repeats` are the specification; proved through the congruence theorem `m_cong` of `Cong.v`, which compares two runs node by node and was generalised to ask only for the tests that occur in the tree. `C79_only_classes_matter`, `C79_recoded`, `C79_conditions_needed`. |
| C80 | `Adapter.v`, `text_seen`: arrays and pointers can only take the `string_view` overload, since `char_range` is false for them; its constructor stops at the first NUL and without one reads outside. `Seen.v`: characterised for every argument. Refuted for literals with a NUL: F33. |
| C81 | Lines.v: the matches of the concatenated pattern are those of C76/C41 (words between two line borders); `lines_scan` follows the scan of find_all() along the lines by induction on them. `listed` is an independent inductive description of the result, unique by `listed_unique`; `stays_avoids` shows by induction on the tree that a match reads no separator. |
| C82 | Linear.v and Linear2.v, on the counting functions of Costs.v. The invariant `linear` says that a node takes steps proportional to the distance to one position p, and calls its continuation at length only there; elsewhere the continuation gives up within a constant. It is shown for each node by induction on the tree: `linear_then` composes it for sequences, `linear_or` for alternatives with disjoint openings, `linear_greedy`/`linear_lazy` for loops whose body and follow-up are disjoint. |
| C83 | Harden.v. `hardened` is an inductive relation between trees with the set of characters that may come behind. `hardened_paths`: both trees have the same priority-ordered paths once those are dropped that end where nothing can go on (`alike`); `alike_loop` shows it for the changed loop, `alike_flat` carries it through sequences and outer loops. With C02 the calls agree. |
| C84 | `look_text` composes the pattern texts and `look_body` derives the composed text in the grammar of Syntax.v, so that `pattern_parses` gives its tree. `walk_both` and `walk_minus` compute the ends tried by the composed tree (C01_match_exact), `walk_index` shows that the numbers of groups do not matter. Backreferences have to be excluded (C84_condition_needed): those of q would refer to groups of p. Boolean.v |
| C85 | `lazy_search` (Gaps.v) runs the search loop and the lazy loop side by side, for every tree; `walk_gap` gives the places a gap tries, and the other claims follow from C01, C02 and C03 (exact forms). Pattern texts are derived in the grammar of Syntax.v and their flattened trees related by C21. `adjacent_there` (GapTokens.v) compares the scan of `tokenize` with that of `find_all` step by step. A possessive gap has to be excluded (C85_condition_needed). |
| C86 | `Appended.v`: for `open_ended` trees the ends of `walk` in a text are the ends of `walk` in the longer text that lie in the text, in the same order (induction on the tree; loops with different fuel). Lifted to the calls with the exact theorems of C02 and C03, and to the ranges with the scans of C36 and C38. |
| C87 | `walk` lists the ends in the order of trial; `alike` (Ordered.v) compares such lists by what `find` takes from them, for every predicate, which is what a continuation does. It is a congruence for all clauses of `walk`, in both reading directions, and each law is proved for it (`rewrites_sound`, Rewrites.v); the results of the calls follow from C01-C03 (exact forms) and the scans of C36-C38. Witnesses show that the side conditions are needed. |
| C88 | `explore` (C55) is the tree of attempts with the groups at each of them; `same` (Exchange.v) says that two such trees have the same attempts with the same groups, whatever a failing continuation leaves. It is a congruence for all clauses of `explore`; each law of `keeps` is proved for it at every depth of lookbehinds (`keeps_sound`, Exchanged.v), the laws about tests and prefixes through the fact that trees without groups pass the groups on unchanged. The results of the calls follow from C55. |
| C89 | `Cursors.v` models pointers to range objects; the specification (`expect`, Positions.v) knows only positions; range objects may be destroyed and leave dangling iterators behind. Invariant `at_position`: the range object shows the match at its position and `compute_next` leads to the next position; behind the end the generator is inactive. Induction on the program. Refuted for `it++` and default-constructed iterators: F12. `C89_iterators_exact` decides for every program whether it compiles (`proper`: variables created before their use, no `it++` anywhere), has undefined behaviour or returns; the model rejects a program before running it (`program_compiles`). |
| C90 | By C26 the texts are captures on one match (`takes`, Held.v). Induction on this match: any two captures of different groups on it are `arranged` as the tree says (`taken_arranged`, Laminar.v); the captures of uncommitted groups lie within the part that made them. |
| C91 | `Moves.v` models the reference categories: the declared return types (`returned`), the categories of `_captures`, `std::move(_captures)` and `_capture`, and copying against moving. The specification (`sees`, Taken.v) only says which statements take which texts away. Induction on the program. |
| C92 | The ends and their order are those of `explore` (C55); `ends_tried`, `tried_at`, `tried_from` count them, `finds`/`ambiguous` say that there are two ways whatever the groups hold. `all_pay` (PayingNodes.v): every matcher of Costs.v pays one step per end plus the steps of the continuation, by induction on the expression; `parts_paid` for concatenations; `loop_finds`: 2^q ends. |
| C93 | `finite_memory` speaks of states that are numbers below a bound and of the answers of the calls only. The ends tried (`walk`, exact by C01) are found by machines reading the text backwards (`mach_tree`, Machines.v, by induction on the expression: a machine finds the first success of any continuation with finitely many outcomes); zero-width tests are labels computed from both sides (`regular`), so lookarounds nest in all directions; tables of states turn the direction round. The machines are data (`memory` in `Type`), so that the bound of C93_short_texts_suffice and the decisions are computed (as a mere existence in `Prop` they would follow from excluded middle alone). The counterexample follows C46 and the pigeonhole principle. |
| C94 | `two_passes` and `marked_in_two_passes` speak only of the ranges in the results. Built on the machines of C93: whether an offset is the preferred end of the range begun earlier is kept as a table of states (`reached`, `at_end_spec`), the machine that follows the ranges reads labels made by the other one (`regular_left`), `marks_of` by induction on the sequence of ranges (C36_tokenize_exact, C38_find_all_exact). |
| C95 | `spans` is the list of the ranges in the results. The two machines of C94 are shortened on both sides of an offset (`short_marks`, pigeonhole on pairs of states), so offsets with different marks occur in short texts; a sequence of ranges in order, of which only the last can be empty, is determined by where ranges begin and where they end (`same_marks`, SameRanges.v). |
| C96 | The expressions and their languages are those of C58 (`re`, `lang`, `written`), the machines those of C93. The expression for the texts that lead from one state to another through states below a number is built by recursion on that number (`leading`, Kleene.v), exact by induction (`leading_sound`, `route_split`); C58 takes it through the parser and the matcher. |
| C97 | `uncaptured k n` is the tree without the group, `lacks k` says that one result is the other without entry `k` (Dropped.v). The search of C55 on both trees is followed step by step with a relation that leaves out the group in every storage (`similar`); names are looked up in the shortened table (`names_uncaptured`). The condition on alternatives is needed because an alternation of single characters without parentheses is one class. The range statement goes through the rewritings of C87. When the shorter regex compiles is decided by induction over the compile-time conditions, in both directions (`uncaptured_compiles`, `compiled_fits`, DroppedUsable.v): exactly if no loop of 2^63 rounds or more becomes one over a single character (`counts_fit`, finding F34). Groups are numbered in order in parsed patterns under the condition of C23. |

No property is marked `not_applicable`.

## 3. Trusted base

* The Coq kernel (8.16.1) and its standard library.
* The reading of the C++ source: the correspondence between model and code is
  by inspection; each definition cites the file and lines it models. The
  assertions of the project's tests are checked against the model
  (`Conformance.v`, `ConformanceUnits.v`).
* The properties are about the model. The C++ code was not built or run, so the
  findings below are derived from the source and were not observed on a binary.
* Not modelled: template instantiation limits and compile time, the size of the
  stack (the depth of recursion is, C61), exceptions other than those of failed copies (C69), locale
  (the library uses none).
  Lifetimes are modelled only for texts passed as temporaries (C49) and for range objects (C89), moves only for
  results and captures (C91).

## 4. Findings

Behaviour of the model that contradicts a property, or that a reader of the
documentation would not expect.

| Id | Finding | Witness | Theorem or place |
|---|---|---|---|
| F1 | Alternation branches are numbered from the same start; with different names this does not compile | `(a)\|(b)`: both groups have number 1 | `C23_groups_numbered_in_order_refuted`, `C44_parsed_trees_compile_refuted` |
| F2 | The attempt that ends a greedy or possessive loop empties the group inside | `(a)*` on "aa" | `C27_last_iteration_refuted`, `C27_unbounded_loop_empties` |
| F3 | Texts captured inside atomic constructs survive when the branch is given up, or at an earlier search position | `(?>(a))b\|ac` on "ac" leaves group 1 = "a"; `(?:^(?=(a))b\|c)` searched in "ac" | `C26_abandoned_branch_refuted`, `C26_earlier_position_refuted` |
| F4 | A failed `match` or `match_prefix` has a non-empty group 0; a group inside a lookahead keeps its text after a failed `search` | `test` on "testx": group 0 has length 4; `c(?=(a))b` on "ca": group 1 is "a" | `C28_failed_match_refuted`, `C28_failed_prefix_refuted`, `C28_failed_search_groups_refuted` |
| F5 | Anchors inside a lookbehind are not inverted | `(?<=^a)b` in "ab" fails | `C15_anchor_in_lookbehind_refuted` |
| F6 | Lookarounds nested in a lookbehind keep their own direction; groups at reverse depth 2 do not compile; backreferences there compare reversed | `(?<=(?=(x))x)y` | `C15_lookaround_in_lookbehind_refuted`, `C44_parsed_trees_compile_refuted` |
| F7 | An aborted brace takes the rest of the group with it | `ab{x\|c` is `a(?:b\{x\|c)` | `C33_brace_is_literal_refuted` |
| F8 | `\R` before a dash in a set counts as `\n` | `[\R-a]` is the range from `\n` to `a` | `C34_set_is_union_refuted` |
| F9 | Numerals wrap modulo 2^64 | `a{18446744073709551617}` | `C32_counts_as_written_refuted` |
| F10 | `find_all` and `tokenize` stop after an empty match | `a*` in "baaa" | `C38_find_all_refuted` |
| F11 | A capture converts to true iff it is empty | any non-empty capture | `C41_capture_bool_refuted` |
| F12 | Multiline `^` uses `std::prev` on forward iterators; postfix `++` of the range iterator is ill-formed; `[z-a]` and `{5,2}` parse but fail a `static_assert` | `^` with multiline on a forward range | `C05_forward_multiline_refuted`, `C56_leading_line_start_exact` (`^key:` with `find_all` is undefined behaviour for every nonempty text unless an empty match is found at its beginning), `C89_postfix_refuted`; the third is in the model's `compiles` |
| F13 | A possessive loop stops at an iteration that matched nothing, an atomic greedy one tries the alternatives | `(?:(?:)\|a)*+` on "a" | `C11_possessive_is_atomic_greedy_refuted` |
| F14 | Patterns that consist only of openings of groups, the last one neither `(` nor `(?:`, make the builder stuck instead of reporting an error | `(?=`, `(?!`, `(?>`, `(?<=`, `(?<!`, `(?<n>` | `C29_parser_verdict_refuted` |
| F15 | Group 0 of a failed call depends on the iterator category | `ab` on "ax" | `C09_failed_group0_refuted` |
| F16 | Dissolving a left-nested alternation of single characters that are not distinct changes results when there are backreferences | see the theorem | `C21_regrouping_refuted`, `C97_group_dropped_refuted` |
| F17 | A dash behind a class takes the next character as the end of a range | `[\d-a-z]`; `[\d-\w]` is rejected | `C34_set_is_union_refuted` |
| F18 | `str<"">` and `concat`, `either` without arguments are ill-formed | `str<"">` | `C43_str_refuted` |
| F19 | Backreferences see captures that are not on the path: a loop that gives up an iteration leaves its group empty, and a branch given up behind an atomic group leaves its text. Matches are missed and non-matches accepted | `(?:(a)(?:b\|bab)\1)*d` on "ababad" fails; `(a\|b)+\1` on "ab" matches, because the last attempt of the loop empties group 1; `(?:(?>(a))b\|a)\1c` matches "aac" and not "ac" | `C46_loop_misses_match_refuted`, `C46_loop_accepts_nonmatch_refuted`, `C46_abandoned_branch_refuted` |
| F20 | Views into a temporary: `tokenizer`, `searcher`, `tokenize` and `find_all` have no overload for temporaries, and the test for owners (`!is_trivially_destructible`) misses `std::array<char, N>` | `regex<"b">::searcher(std::string{"ab"})`, then `next()`; `regex<"ab">::match(std::array{'a', 'b'})` | `C49_temporary_generator_refuted`, `C49_temporary_array_refuted` |
| F21 | `transform_groups` of a result with group 0 only takes a returned pair or tuple apart (`std::tuple{x}` copies a tuple instead of wrapping it) | `regex<"ab">::match("ab").transform_groups(f)` with `f` returning a `std::pair` | `C50_single_pair_refuted` |
| F22 | A backreference to an undefined group compiles in the body of a repetition without iterations, which is never instantiated | `(a)\2{0}` | `C52_undefined_group_refuted` |
| F23 | Texts of wider characters (not contiguous, e.g. `std::deque<char32_t>`) are accepted, but only the low eight bits of a character are compared | `regex<"A">::match` of a `std::deque<char32_t>` with U+0141 | `C54_wide_text_refuted`, `C54_low_bits_only` |
| F24 | Backreferences and word boundaries do not compile for forward iterators, although the README requires bidirectional ones for lookbehinds only (`reverse_if` constrains its argument even when it reverses nothing) | `(a)\1` and `a\b` on a `std::forward_list<char>` | `C56_forward_ranges_refuted` |
| F25 | `xpr::regex` keeps the group numbers of its own pattern, so groups of composed expressions can share a number; the earlier one is lost and the later number never set | `xpr::regex<"(a)"> >> xpr::regex<"(b)">` on "ab": group 1 is "b", group 2 is unset | `C59_expressions_refuted` |
| F26 | The url expression of the README and of `example/using_expressions.cpp` is not equivalent to the pattern given for it | "https://google.com" is accepted by the expression only, "ftp://:a:b!com" by the pattern only | `C60_documented_refuted` |
| F27 | Catastrophic backtracking: nothing is remembered between alternatives, so a star in a star takes exponentially many steps | `(?:a*)*b` on n letters a: at least 2^n steps | `C62_polynomial_steps_refuted` |
| F28 | The depth of recursion grows with the text whenever more than a single character is repeated without a bound (or with forward iterators), so long texts exhaust the stack unless the compiler eliminates the calls | `(a)*` on n letters a: at least n nested calls | `C61_depth_grows` |
| F29 | The fold of `parser/state.hpp` is meant to keep the template recursion flat (comment in lines 54-57), but `set_seq` on a minus sign pushes itself again below the range, and an aborted quantifier pushes another `seq` and `alt`. They are removed one inside the other at the end of the set or group, so the recursion is as deep as there are ranges or literal braces | `[a-bc-de-fg-h]`: 7 nested instantiations at `]`, one more for each range | `C63_constant_depth_refuted` |
| F30 | `as_memory_owner` copies the captures in a lambda declared `noexcept` (match_result.hpp:86), so a failed allocation ends the program, also in `match`, `match_prefix` and `search` of a temporary | a capture that does not fit into memory | `C69_reported_refuted`, `C69_memory_owner_exact` |
| F31 | `as_optional() const &&` of a result that owns its texts copies them in a function declared `noexcept` for all rvalues (match_result.hpp:278) | `std::move(std::as_const(result)).as_optional()` | `C69_reported_refuted` |
| F32 | `regex_capture::content() const &&` is ill-formed when used (an rvalue reference to an lvalue), and `content() &&` returns an lvalue reference, so nothing is moved (regex_capture.hpp:173-181) | `std::move(capture).content()` | `C91_content_refuted` |
| F33 | `char_range` is false for arrays (the parameter of its `requires` decays), so a literal becomes a `string_view` by `strlen` and is cut at the first NUL, although a pattern keeps its NULs; an array without a NUL is read beyond its end | `regex<"a">::match("a\0b")` matches | `C80_same_characters_refuted`, `C80_characters_seen` |
| F34 | A loop over a single character with a lower bound of 2^63 or more does not compile, because `distance_less_than` takes the count as a `std::ptrdiff_t` (distance.hpp:8), while the same loop over a group does | `(a){9223372036854775808}` compiles, `a{9223372036854775808}` does not | `C97_still_usable_refuted` |

## 5. Axioms

`Print Assumptions` answers "Closed under the global context" for every theorem
of the `Prop_*.v` files. The development adds no axioms. The kernel checker
lists the constants of `Coq.ssr.ssrunder` (`Under_rel`, `Under_rel_from_rel`,
`Under_relE`, `under_rel_done`, `Over_rel`, `over_rel`, `over_rel_done`), which
the standard library's SSReflect files declare and which no theorem here uses.

## 6. Tests of the theorems

`seeded/mutate.py` applies wrong versions of the model's definitions
(`seeded/round*.json`) in a scratch copy, replaces each proof that no longer
goes through by `Admitted` there, and reads off `Print Assumptions` which
property theorems are lost. `seeded/LOG.jsonl` has one line per attempt. A
mutation that loses no theorem of the claim it breaks leads to a tighter
statement, recorded in the same line.
