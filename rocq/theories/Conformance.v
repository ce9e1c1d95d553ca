(** The assertions of /repo/test, evaluated in the model.  Generated by
    tools/gen_conformance.py; every case is a [static_assert] of the project. *)
From Verif Require Import Api Xpr Parser Equality.

(** [regex<Pattern, Flags...>] for an accepted pattern. *)
Definition with_regex (p : list ascii) (fl : list regex_flag) (f : regex -> bool) : bool :=
  match parse p with P_ok n => f (mk_regex n fl) | _ => false end.

(** The three std iterator categories the library distinguishes.  A forward
    iterator is not tried where the library rejects it or reads backwards. *)
Definition verdict_is (b : bool) (r : call match_res) : bool :=
  match r with Returned x => Bool.eqb (matched x) b | _ => false end.
Definition check_match '(p, fl, s, b) : bool :=
  with_regex p fl (fun r => verdict_is b (regex_match r RandomAccessIt s)
                         && verdict_is b (regex_match r BidirectionalIt s)).
Definition check_search '(p, fl, s, b) : bool :=
  with_regex p fl (fun r => verdict_is b (regex_search r RandomAccessIt s)).
Definition count_is (k : nat) (r : call (list match_res)) : bool :=
  match r with Returned l => Nat.eqb (length l) k | _ => false end.
Definition check_find_all '(p, fl, s, k) : bool :=
  with_regex p fl (fun r => count_is k (find_all r RandomAccessIt s)).
Definition check_tokenize '(p, fl, s, k) : bool :=
  with_regex p fl (fun r => count_is k (tokenize r RandomAccessIt s)).
Definition check_accept '(p, b) : bool :=
  match parse p with
  | P_ok _ => b
  | P_error _ => negb b
  | _ => false
  end.
Definition check_error '(p, i) : bool :=
  match parse p with P_error j => Nat.eqb i j | _ => false end.
Definition check_ast '(p, n) : bool :=
  match parse p with P_ok n' => node_eqb n n' | _ => false end.
Definition check_indexing '(a, b) : bool := node_eqb (index_captures a) b.
Definition check_inversion '(a, b) : bool := node_eqb (invert a) b.
Definition check_trait (f : node -> bool) '(a, b) : bool := Bool.eqb (f a) b.
Definition check_names '(p, l) : bool :=
  match parse p with
  | P_ok n => names_eqb (capture_name_spec n) l
  | _ => false
  end.

(** test/regex_match_tests.cpp: 370 assertions. *)
Definition match_tests_cases : list (list ascii * list regex_flag * list ascii * bool) :=
  [((str ""), [], (str ""), true);
   ((str "()"), [], (str ""), true);
   ((str "a"), [], (str "a"), true);
   ((str "abcd"), [], (str "abcd"), true);
   ((str "\a"), [], (map ascii_of_nat [7]), true);
   ((str "\xf8"), [], (map ascii_of_nat [248]), true);
   ((str "\n"), [], (map ascii_of_nat [10]), true);
   ((str "\N"), [], (str "N"), true);
   ((str "\R"), [], (map ascii_of_nat [13]), true);
   ((str "\R"), [], (map ascii_of_nat [10]), true);
   ((str "\btest"), [], (str "test"), true);
   ((str "test\b"), [], (str "test"), true);
   ((str "\btest\b"), [], (str "test"), true);
   ((str "\w+ \btest\b"), [], (str "another test"), true);
   ((str "\B test"), [], (str " test"), true);
   ((str "test \B"), [], (str "test "), true);
   ((str "test\Btest"), [], (str "testtest"), true);
   ((str "test \B test"), [], (str "test  test"), true);
   ((str "^a"), [], (str "a"), true);
   ((str "a$"), [], (str "a"), true);
   ((str "^abcd$"), [], (str "abcd"), true);
   ((str "abcdef"), [], (str "abcdef"), true);
   ((str "^\nabcd$\n.+$"), [F_multiline], (map ascii_of_nat [10; 97; 98; 99; 100; 10; 97; 98; 99]), true);
   ((str "^abcd$\n.+$\n"), [F_multiline], (map ascii_of_nat [97; 98; 99; 100; 10; 97; 98; 99; 10]), true);
   ((str "^\nabcd$\n.+$\n"), [F_multiline], (map ascii_of_nat [10; 97; 98; 99; 100; 10; 97; 98; 99; 10]), true);
   ((str "^abcd$"), [F_multiline], (str "abcd"), true);
   ((str "^abcd$\n"), [F_multiline], (map ascii_of_nat [97; 98; 99; 100; 10]), true);
   ((str "^\nabcd$"), [F_multiline], (map ascii_of_nat [10; 97; 98; 99; 100]), true);
   ((str "\n^abcd$\n"), [F_multiline], (map ascii_of_nat [10; 97; 98; 99; 100; 10]), true);
   ((str "\A\nabcd\n\Z"), [F_multiline], (map ascii_of_nat [10; 97; 98; 99; 100; 10]), true);
   ((str "abc[]?def"), [], (str "abcdef"), true);
   ((str "[a]"), [], (str "a"), true);
   ((str "[a-z]+"), [], (str "aqwertyz"), true);
   ((str "[A-Z]+"), [], (str "AAABBBCCEEFFZZZ"), true);
   ((str "[0-9]+"), [], (str "123123123123"), true);
   ((str "[a-zA-Z]+"), [], (str "aBcDefghijklmnopqrstuvqXyZ"), true);
   ((str "[A-Z]+"), [F_icase], (str "aBcDefghijklmnopqrstuvqXyZ"), true);
   ((str "[0-Z]+"), [F_icase], (str "1234abczABCZ"), true);
   ((str "[123A-z-+]+"), [F_icase], (str "123-+abcdxyz[`]^ABCDXYZ"), true);
   ((str "[Y-b]+"), [F_icase], (str "[aAbByYzZ]"), true);
   ((str "[X-`]+"), [F_icase], (str "xXyYzZ[]"), true);
   ((str "[!-C]+"), [F_icase], (str "aAbBcC"), true);
   ((str "[\^a]+"), [], (str "^a"), true);
   ((str "[^]+"), [], (map ascii_of_nat [97; 65; 48; 49; 45; 94; 42; 64; 35; 40; 41; 123; 125; 91; 93; 10]), true);
   ((str "[^\^a]+"), [], (str "b$"), true);
   ((str "[(|)][^0-9]+[a-z]+"), [], (str "(xy"), true);
   ((str "a?"), [], (str ""), true);
   ((str "a?"), [], (str "a"), true);
   ((str "a??"), [], (str "a"), true);
   ((str "(?:a??)*b"), [], (str "aaaaab"), true);
   ((str "a?+"), [], (str "a"), true);
   ((str "a?+"), [], (str ""), true);
   ((str "(?:a?+)?a"), [], (str "a"), true);
   ((str "a?b?c?"), [], (str "abc"), true);
   ((str "a?b?c?"), [], (str "a"), true);
   ((str "a?b?c?"), [], (str "b"), true);
   ((str "a?b?c?"), [], (str "c"), true);
   ((str "a??b?c?"), [], (str "ac"), true);
   ((str "a*"), [], (str ""), true);
   ((str "a*"), [], (str "a"), true);
   ((str "a*"), [], (str "aa"), true);
   ((str "a*"), [], (str "aaaaa"), true);
   ((str "a*a"), [], (str "aaaaa"), true);
   ((str "a*+"), [], (str "aaaaa"), true);
   ((str "a*"), [F_ungreedy], (str ""), true);
   ((str "a*a"), [F_ungreedy], (str "a"), true);
   ((str "a*a"), [F_ungreedy], (str "aa"), true);
   ((str "a*a"), [F_ungreedy], (str "aaaaa"), true);
   ((str ".+"), [], (str "this regex will match any input!"), true);
   ((str ".+"), [F_dotall], (str "this regex will match any input!?"), true);
   ((str ".+"), [F_dotall], (map ascii_of_nat [10; 101; 118; 101; 110; 32; 110; 101; 119; 32; 108; 105; 110; 101; 115; 33; 13; 10]), true);
   ((str "(a*)*"), [], (str ""), true);
   ((str "(a*)*?"), [], (str ""), true);
   ((str "(a*)*+"), [], (str ""), true);
   ((str "(a*?)*"), [], (str ""), true);
   ((str "(a*?)*?"), [], (str ""), true);
   ((str "(a*?)*+"), [], (str ""), true);
   ((str "(a*)*"), [], (str "a"), true);
   ((str "(a*)*?"), [], (str "a"), true);
   ((str "(a*)*+"), [], (str "a"), true);
   ((str "(a*?)*"), [], (str "a"), true);
   ((str "(a*?)*?"), [], (str "a"), true);
   ((str "(a*)*"), [], (str "aa"), true);
   ((str "(a*)*?"), [], (str "aa"), true);
   ((str "(a*)*+"), [], (str "aa"), true);
   ((str "(a*?)*"), [], (str "aaaaa"), true);
   ((str "(a*?)*?"), [], (str "aaaaa"), true);
   ((str "(a*aa)?aa"), [], (str "aaaaa"), true);
   ((str "a+b+c+"), [], (str "abc"), true);
   ((str "a+b+?c+"), [], (str "aaabbcccccc"), true);
   ((str "a*aa"), [], (str "aa"), true);
   ((str "a*aab+bb"), [], (str "aaaaabbb"), true);
   ((str "(abc)+"), [], (str "abcabcabc"), true);
   ((str "(x|y|z)+"), [], (str "xyzxzyxyzxyzyxyxxxzxxzyxyzx"), true);
   ((str "a{1}"), [], (str "a"), true);
   ((str "a\{1}"), [], (str "a{1}"), true);
   ((str "a{5}"), [], (str "aaaaa"), true);
   ((str "a{0,5}"), [], (str "aaaaa"), true);
   ((str "a{1,3}"), [], (str "aaa"), true);
   ((str "a{3,3}"), [], (str "aaa"), true);
   ((str "a{3,6}"), [], (str "aaa"), true);
   ((str "a{3,6}a"), [], (str "aaaa"), true);
   ((str "a{3,6}a"), [], (str "aaaaaa"), true);
   ((str "a{3,6}a"), [], (str "aaaaaaa"), true);
   ((str "a{1,5}?"), [], (str "aaa"), true);
   ((str "(abc){0,}"), [], (str "abcabc"), true);
   ((str "\w{2}-\w{3}-\w{4}"), [F_unroll], (str "ab-abc-xyzt"), true);
   ((str "[a-z]{2}"), [], (str "xy"), true);
   ((str "a{0}?"), [F_unroll], (str ""), true);
   ((str "(_x){7,17}y"), [], (str "_x_x_x_x_x_x_xy"), true);
   ((str "(_x){7,17}y"), [], (str "_x_x_x_x_x_x_x_xy"), true);
   ((str "(_x){7,17}+y"), [], (str "_x_x_x_x_x_x_x_xy"), true);
   ((str "(_x){7,17}?y"), [], (str "_x_x_x_x_x_x_x_xy"), true);
   ((str "(_x){7,17}y"), [], (str "_x_x_x_x_x_x_x_x_x_x_x_x_x_x_x_xy"), true);
   ((str "(_x){7,17}y"), [], (str "_x_x_x_x_x_x_x_x_x_x_x_x_x_x_x_x_xy"), true);
   ((str "(_x){7,17}+y"), [], (str "_x_x_x_x_x_x_x_x_x_x_x_x_x_x_x_x_xy"), true);
   ((str "(_x){7,17}?y"), [], (str "_x_x_x_x_x_x_x_x_x_x_x_x_x_x_x_x_xy"), true);
   ((str "(a?){4,5}"), [], (str "aaa"), true);
   ((str "(a|bc){0,5}"), [], (str "abcbcbc"), true);
   ((str "(a|bc){0,5}?"), [], (str "abcbcbc"), true);
   ((str "(a|bc){0,5}+"), [], (str "abcbcbc"), true);
   ((str "(a|b|c){3}"), [], (str "abc"), true);
   ((str "(ab+){3}"), [], (str "ababbbbbab"), true);
   ((str "^(a|b|ab){3}b$"), [], (str "aabab"), true);
   ((str "^(a|b|ab){3}?b$"), [], (str "aabab"), true);
   ((str "^(a|b|ab){3}+b$"), [], (str "abab"), true);
   ((str "^(a|ab){3}b$"), [], (str "aabab"), true);
   ((str "^(a|ab){3}?b$"), [], (str "aabab"), true);
   ((str "^(a|ab){3}+b$"), [], (str "aabab"), true);
   ((str "^(a|ab|aab){3}b$"), [], (str "aabab"), true);
   ((str "^(a|ab|aab){3}?b$"), [], (str "aabab"), true);
   ((str "^(a|ab|aab){3}+b$"), [], (str "aabab"), true);
   ((str "^(a|ab|aab){3}b$"), [F_unroll], (str "aabaab"), true);
   ((str "^(a|ab|aab){3}?b$"), [F_unroll], (str "aabaab"), true);
   ((str "a|ab|abc"), [], (str "a"), true);
   ((str "a|ab|abc"), [], (str "ab"), true);
   ((str "a|ab|abc"), [], (str "abc"), true);
   ((str "(a|ab)xd"), [], (str "abxd"), true);
   ((str "(a|ab)+?x"), [], (str "aaaababx"), true);
   ((str "(a|ab)+x"), [], (str "aaaababx"), true);
   ((str "(a|ab|abc)+x"), [], (str "abx"), true);
   ((str "(a|ab|abc)+x"), [], (str "abcx"), true);
   ((str "(a|ab|abc)+x"), [], (str "aabcaaabababcx"), true);
   ((str "(a|ab|abc){3}x"), [F_unroll], (str "aabcabx"), true);
   ((str "(a|ab|abc){3,}bc"), [F_unroll], (str "aabaabcabcabaaabc"), true);
   ((str "(ab?c??d){3}"), [], (str "abcdacdad"), true);
   ((str "(a|ab|abc)+?x"), [], (str "ax"), true);
   ((str "(?:ab|a)++b"), [], (str "ababb"), true);
   ((str "(?:a|(?:))+"), [], (str ""), true);
   ((str "hello|salut|bonjour"), [F_icase], (str "SaLuT"), true);
   ((str "([a-z]+):\1"), [], (str "abcd:abcd"), true);
   ((str "([a-z]+):\1"), [F_icase], (str "abcd:abcd"), true);
   ((str "([a-z]+):\1"), [F_icase], (str "aBCd:AbCd"), true);
   ((str ".*(.).*\1"), [], (str "abcdefd"), true);
   ((str ".*(.).*\1"), [F_ungreedy], (str "abcdefd"), true);
   ((str "(.)(?:(x)|y)\1"), [], (str "aya"), true);
   ((str "(.)(\w)([a-z])\3\2\1"), [], (str "abccba"), true);
   ((str "(abc)+|tu ?(xyz)+"), [], (str "abcabcabc"), true);
   ((str "(abc)+|tu ?(xyz)+"), [], (str "tuxyz"), true);
   ((str "(abc)+|tu ?(xyz ?)+"), [], (str "tuxyzxyz"), true);
   ((str "(abc)+|tu ?(xyz ?)+"), [], (str "tuxyz xyz"), true);
   ((str "(abc)+|tu ?(xyz ?)+"), [], (str "tu xyz xyz "), true);
   ((str "\w+(\.\w+)?@\w+?(\.\w+)?"), [], (str "example@gmail.com"), true);
   ((str "\w+?(\.\w+)?@\w+(\.\w+)?"), [], (str "example.test@gmail.com"), true);
   ((str "\w+(\.\w+)?@\w+(\.\w+)?"), [], (str "cpp@regex"), true);
   ((str "\w+(\.\w+)?@\w+(\.\w+?)?"), [], (str "abc123_321bca@gmail.com"), true);
   ((str "0(x|X)([\da-fA-F]+?)(h|H)?"), [], (str "0x1234F"), true);
   ((str "(x{2,})\1+"), [], (str "xxxxxxxxx"), true);
   ((str "(a*(x|axx))e"), [], (str "aaaxxe"), true);
   ((str "0(x)([\da-f]+?)(h)?"), [F_icase], (str "0X0h"), true);
   ((str "a{}"), [], (str "a{}"), true);
   ((str "a{x}"), [], (str "a{x}"), true);
   ((str "\(.+\)"), [], (str "(aaabb)"), true);
   ((str "\(\.+\)"), [], (str "(...)"), true);
   ((str "(?=)"), [], (str ""), true);
   ((str "a(?=b)\w"), [], (str "ab"), true);
   ((str ".(?!b).{2}"), [], (str "xxx"), true);
   ((str "a(?=(\w))\w\1"), [], (str "abb"), true);
   ((str "..(?<=x)a"), [], (str "_xa"), true);
   ((str "..(?<=xy)a"), [], (str "xya"), true);
   ((str ".{9}(?<=ab{2,4}c{3,5}d)test"), [], (str "abbbccccdtest"), true);
   ((str ".{7}?(?<=ab{2,4}c{3,5}d)test"), [], (str "abbcccdtest"), true);
   ((str ".{12}(?<!ab{2,4}?c{3,5}d)test"), [], (str "abbbbbcccccdtest"), true);
   ((str ".{10}(?<!ab{2,4}c{3,5}?d)test"), [], (str "abbbbccccctest"), true);
   ((str ".(?<!a(?!t)).{2,}?st"), [F_ungreedy], (str "atest"), true);
   ((str ".(?<=a(?=t)).{2,}st"), [F_ungreedy], (str "atest"), true);
   ((str "(?<!\\)\\(?!\w+).?"), [], (str "\"), true);
   ((str "(?<!\\)\\(?!\w+)."), [], (str "\?"), true);
   ((str "(?<!\\)\\(?!\w+)."), [], (str "\%"), true);
   ((str "(.*)(?<=\1)"), [], (str "abc"), true);
   ((str "abc(?<=(abc))"), [], (str "abc"), true);
   ((str ".{3}(?<=(.{3}?))\1"), [], (str "abcabc"), true);
   ((str "(.*?)x(?<=\1x)"), [], (str "abcx"), true);
   ((str "(?:(?<grp_name>x)x|xy)\k<grp_name>"), [], (str "xy"), true);
   ((str "(?:(?<grp_name>x)x|xy)\k<grp_name>"), [], (str "xxx"), true);
   ((str "(?<name>a+|b+?)x\k<name>"), [], (str "aaaxaaa"), true);
   ((str ".*(?<blah>.).*\1"), [], (str "abcdefd"), true);
   ((str ".*(?<blah>.).*\k<blah>"), [F_ungreedy], (str "abcdefd"), true);
   ((str "(?<duplicate>.)(?<duplicate>.)\1\2"), [], (str "abab"), true);
   ((str "(?>ab|a)x"), [], (str "abx"), true);
   ((str "(?>a+?)a"), [], (str "aa"), true);
   ((str ".*(?>.{1,2})x"), [], (str "aax"), true);
   ((str ".*(?>.{1,}?)x"), [], (str "aaaax"), true);
   ((str "(?>.{1,}?)x"), [], (str "ax"), true);
   ((str "^(?>(?:ab.?){2,})x"), [], (str "abcabcabcx"), true);
   ((str "^(?>(?:ab.?){2,})x"), [], (str "ababcx"), true);
   ((str "(?>integer|insert|in)"), [], (str "integer"), true);
   ((str "(?>integer|insert|in)"), [], (str "insert"), true);
   ((str "(?>integer|insert|in)"), [], (str "in"), true);
   ((str "(?>in|insert|integer)"), [], (str "in"), true);
   ((str ""), [], (str "x"), false);
   ((str "()"), [], (str "."), false);
   ((str "a"), [], (str "b"), false);
   ((str "abc"), [], (str "cba"), false);
   ((str "\a"), [], (str "1"), false);
   ((str "\xf8"), [], (map ascii_of_nat [249]), false);
   ((str "\n"), [], (str "n"), false);
   ((str "\N"), [], (map ascii_of_nat [13]), false);
   ((str "\N"), [], (map ascii_of_nat [10]), false);
   ((str "\b test"), [], (str " test"), false);
   ((str "test \b"), [], (str "test "), false);
   ((str "\b@test@\b"), [], (str "@test@"), false);
   ((str "x\btest"), [], (str "xtest"), false);
   ((str "test\bx"), [], (str "testx"), false);
   ((str "\Btest"), [], (str "test"), false);
   ((str "test\B"), [], (str "test"), false);
   ((str "test \Btest"), [], (str "test test"), false);
   ((str "test\B test"), [], (str "test test"), false);
   ((str "^a"), [], (str " a"), false);
   ((str "a$"), [], (str "a "), false);
   ((str "^abcd$"), [], (str " abcd"), false);
   ((str "^abcd$"), [F_multiline], (map ascii_of_nat [10; 97; 98; 99; 100; 10; 10]), false);
   ((str "^abcd$.+$"), [F_multiline], (map ascii_of_nat [10; 10; 97; 98; 99; 100; 10]), false);
   ((str "^\nabcd$\n"), [F_multiline], (map ascii_of_nat [10; 97; 98; 99; 100; 10; 101]), false);
   ((str "^abcd$\n"), [F_multiline], (map ascii_of_nat [97; 10; 98; 99; 100; 10]), false);
   ((str "abcd\Z\nabcd"), [F_multiline], (map ascii_of_nat [97; 98; 99; 100; 10; 97; 98; 99; 100]), false);
   ((str "[]"), [], (str "a"), false);
   ((str "[]"), [], (str ""), false);
   ((str "[\^a]+"), [], (str "^ca"), false);
   ((str "[^a]"), [], (str "a"), false);
   ((str "[^\^a]+"), [], (str "bb^$"), false);
   ((str "[a-z]+"), [], (str "abasbdbAasdbasbdabs"), false);
   ((str "[A-Z]+"), [], (str "AAAAVVVVVVVVCCCCCCxCD"), false);
   ((str "[0-9]+"), [], (str "123123f123123"), false);
   ((str "[0-3]+"), [], (str "1231243123123"), false);
   ((str "[Y-b]"), [F_icase], (str "~"), false);
   ((str "[Y-b]"), [F_icase], (str "x"), false);
   ((str "[Y-b]"), [F_icase], (str "X"), false);
   ((str "[Y-b]"), [F_icase], (str "c"), false);
   ((str "[Y-b]"), [F_icase], (str "C"), false);
   ((str "[Y-b]"), [F_icase], (str "{"), false);
   ((str "[Y-b]"), [F_icase], (str ";"), false);
   ((str "[!-C]"), [F_icase], (str "d"), false);
   ((str "[!-C]"), [F_icase], (str "D"), false);
   ((str "[X-`]"), [F_icase], (str "w"), false);
   ((str "[X-`]"), [F_icase], (str "W"), false);
   ((str "abc[]def"), [], (str "abcdef"), false);
   ((str "abcdef[^x]"), [], (str "abcdef"), false);
   ((str "[(|)][^0-9]+[a-z]+"), [], (str "(x"), false);
   ((str "a?+a"), [], (str "a"), false);
   ((str "a??"), [], (str "b"), false);
   ((str "a?"), [], (str "ab"), false);
   ((str "a+"), [], (str ""), false);
   ((str ".+"), [F_dotall], (str ""), false);
   ((str ".+x"), [F_dotall], (str "xy"), false);
   ((str "[^a-z]+"), [F_icase], (str "AABBBDBDBDBBSABBDBDBABBA"), false);
   ((str "a*"), [], (str "aaaaaaaaabaaaa"), false);
   ((str "a*aa"), [], (str "a"), false);
   ((str "a*aab+?bb"), [], (str "aaabb"), false);
   ((str "a*+a"), [], (str "aaaaaaaaaaa"), false);
   ((str "(a*)*"), [], (str "aaaab"), false);
   ((str "(a*?)*+"), [], (str "a"), false);
   ((str "(a*?)?+"), [], (str "a"), false);
   ((str "a++a"), [], (str "aaaaaaaaaaa"), false);
   ((str "(a++)+aa"), [], (str "aaaaa"), false);
   ((str "(a*)+"), [], (str "aaab"), false);
   ((str "(a+)*"), [], (str "aaab"), false);
   ((str "(a+)+"), [], (str "aaab"), false);
   ((str "(a+)+?"), [], (str "aaab"), false);
   ((str "(a+?)+"), [], (str ""), false);
   ((str "a?b?c?"), [], (str "abbc"), false);
   ((str "a+b+c+"), [], (str "ab"), false);
   ((str "(abc)+"), [], (str "abcabcbc"), false);
   ((str "a.+?"), [], (str "this regex will match any input"), false);
   ((str ".+"), [], (map ascii_of_nat [10; 101; 120; 99; 101; 112; 116; 32; 110; 101; 119; 32; 108; 105; 110; 101; 115]), false);
   ((str "a?   b?? c?"), [], (str "abc"), false);
   ((str "a{3,10}+a"), [], (str "aaaaa"), false);
   ((str "a{1}"), [], (str "a{1}"), false);
   ((str "a{1}"), [], (str "aa"), false);
   ((str "a{1}"), [], (str "b"), false);
   ((str "a{1}"), [], (str ""), false);
   ((str "a{5}"), [], (str "aaaba"), false);
   ((str "a{5}"), [], (str "aaaaaa"), false);
   ((str "a{5}"), [], (str "aaaa"), false);
   ((str "a{5}"), [], (str "aaaaa"), true);
   ((str "a{0,5}"), [], (str "aaaaaa"), false);
   ((str "a{2,3}?"), [], (str "a"), false);
   ((str "a{3,3}"), [], (str "aa"), false);
   ((str "a{3,6}"), [], (str "aaaaaaa"), false);
   ((str "a{1,5}"), [], (str ""), false);
   ((str "(_x){7,17}"), [], (str "_x_x_x_x_x"), false);
   ((str "(_x){7,17}"), [], (str "_x_x_x_x_x_x_"), false);
   ((str "(_x){7,17}?"), [], (str "_x_x_x_x_x_x_x_x_x_xx_x_x_x_x_x_x"), false);
   ((str "(_x){7,17}"), [], (str "_x_x_x_x_x_x_x_x_x_x_x_x_x_x_x_x_x_"), false);
   ((str "(_x){7,17}?"), [], (str "_x_x_x_x_x_x_x_x_x_x_x_x_x_x_x_x_x_x"), false);
   ((str "(_x){7,17}+"), [], (str "_x_x_x_x_x_x_x_x_x_x_x_x_x_x_x_x_x_x"), false);
   ((str "(abc){0,5}"), [], (str "acabc"), false);
   ((str "(a|bc){0,5}"), [], (str "abcbcbcbcaa"), false);
   ((str "(ab+){1,3}"), [], (str "ababbbbbabab"), false);
   ((str "(abc){1,}"), [], (str ""), false);
   ((str "(abc){0,}"), [], (str "abcabcabcabbabc"), false);
   ((str "[a-z]{2}"), [], (str "0y"), false);
   ((str "a{0}"), [], (str "a"), false);
   ((str "(a|b|c){3}"), [], (str "abc"), true);
   ((str "(a|b|c)+"), [], (str "abcxabc"), false);
   ((str "(a|ab)*x"), [], (str "aaaabbabx"), false);
   ((str "(a|ab)+?x"), [], (str "aaaabcabx"), false);
   ((str "^(a|ab){3}+b$"), [], (str "abababb"), false);
   ((str "^(a|ab){3}+$"), [], (str "aabab"), false);
   ((str "^(a|ab|aab){3}+b$"), [], (str "aabaab"), false);
   ((str "^(a|b|ab){3}+b$"), [], (str "aabab"), false);
   ((str "(?:ab|a)++b"), [], (str "abab"), false);
   ((str "(?:a|ab)++"), [], (str "aaab"), false);
   ((str "a|ab|abc"), [], (str ""), false);
   ((str "a|ab|abc"), [], (str "a|ab|abc"), false);
   ((str "a|ab|abc"), [], (str "aba"), false);
   ((str "(a|ab|abc)+"), [], (str "abcx"), false);
   ((str "(a|ab|abc)+x"), [], (str "ab"), false);
   ((str "(a|ab|abc)+x"), [], (str "x"), false);
   ((str "(a|ab|abc){2}x"), [], (str "aabcabx"), false);
   ((str "(a|ab|abc){4}x"), [], (str "aabcabx"), false);
   ((str "(a|ab|abc){0,5}bc"), [], (str "aabaabcababc"), false);
   ((str "(a+|b+)x\1"), [], (str "aaaxbbb"), false);
   ((str ".*(.).*\1"), [], (str "abcdef"), false);
   ((str "(abc)+|tu ?(xyz)+"), [], (str "xyz"), false);
   ((str "(abc)+|tu ?(xyz ?)+"), [], (str "tuxyxyz"), false);
   ((str "(abc)+|tu ?(xyz ?)+"), [], (str "tu xyz  xyz "), false);
   ((str "\w+(\.\w+)?@\w+(\.\w+)?"), [], (str "exa.mp.le@gmail.com"), false);
   ((str "\w+(\.\w+)?@\w+(\.\w+)?"), [], (str "example.test@gm.ail.com"), false);
   ((str "\w+(\.\w+)?@\w+(\.\w+)?"), [], (str "cpp..@regex"), false);
   ((str "\w+(\.\w+)?@\w+(\.\w+)?"), [], (str "abc123_321bca.gmail.com"), false);
   ((str "(x{2,})\1+"), [], (str "xxxxxxx"), false);
   ((str "!"), [F_icase], (str "A"), false);
   ((str "(?!)"), [], (str ""), false);
   ((str "(?!)"), [], (str "a"), false);
   ((str "a(?=b)"), [], (str "ab"), false);
   ((str ".(?!b).{2}"), [], (str "xbx"), false);
   ((str "a(?!b)|cb"), [], (str "ab"), false);
   ((str "..(?<=x)a"), [], (str "__a"), false);
   ((str "..(?<=xy)a"), [], (str "yxa"), false);
   ((str "..(?<=xy)a"), [], (str "yya"), false);
   ((str ".(?<!\\)\\(?!\w+)"), [], (str "\\"), false);
   ((str "(?<!\\)\\(?!\w+?)."), [], (str "\a"), false);
   ((str ".{7}(?<=ab{2,4}c{3,5}d)test"), [], (str "abccccdtest"), false);
   ((str ".{7}(?<=ab{2,4}c{3,5}d)test"), [], (str "abbcccdtes"), false);
   ((str ".{7}(?<!ab{2,4}c{3,5}d)test"), [], (str "abbcccdtest"), false);
   ((str ".{2}(?<!a(?=t))test"), [], (str "atest"), false);
   ((str "(.*)(?<!\1)"), [], (str "abc"), false);
   ((str "(.*?)x(?<!\1x)"), [], (str "abcx"), false);
   ((str "(?<grp1>x{2,})\k<grp1>+"), [], (str "xxxxxxxxxxx"), false);
   ((str "(?<name1>a+|b+)x\k<name1>"), [], (str "aaaxbbb"), false);
   ((str ".*(?<test_name>.).*\k<test_name>"), [], (str "abcdef"), false);
   ((str "(?>a|ab)x"), [], (str "abx"), false);
   ((str "(?>a+)a"), [], (str "aa"), false);
   ((str ".*(?>.{1,2})x"), [], (str "ax"), false);
   ((str ".*(?>.{1,})x"), [], (str "aaaax"), false);
   ((str "(?>.{1,}?)x"), [], (str "aaaax"), false);
   ((str "^(?>(?:ab.?){2,})x"), [], (str "abcabcababcx"), false);
   ((str "(?>in|insert|integer)"), [], (str "integer"), false);
   ((str "(?>in|insert|integer)"), [], (str "insert"), false)].
Example match_tests : forallb check_match match_tests_cases = true.
Proof. vm_compute. reflexivity. Qed.

(** test/regex_search_tests.cpp: 35 assertions. *)
Definition search_tests_cases : list (list ascii * list regex_flag * list ascii * bool) :=
  [((str "([a-zA-Z][a-zA-Z0-9]*)://([^ /]+)(/[^ ]*)?"), [], (str "https://google.com"), true);
   ((str "([a-zA-Z][a-zA-Z0-9]*)://([^ /]+)(/[^ ]*)?"), [], (str "      https://google.com"), true);
   ((str "([a-zA-Z][a-zA-Z0-9]*)://([^ /]+)(/[^ ]*)?"), [], (str "https://google.com       "), true);
   ((str "([a-zA-Z][a-zA-Z0-9]*)://([^ /]+)(/[^ ]*)?"), [], (str "... https://google.com ..."), true);
   ((str "([a-zA-Z][a-zA-Z0-9]*)://([^ /]+)(/[^ ]*)?"), [], (map ascii_of_nat [46; 46; 46; 32; 104; 116; 116; 112; 115; 58; 47; 47; 103; 111; 111; 103; 108; 101; 46; 99; 111; 109; 10; 32; 46; 46; 46; 32; 104; 116; 116; 112; 115; 58; 47; 47; 121; 111; 117; 116; 117; 98; 101; 46; 99; 111; 109; 32; 46; 46; 46]), true);
   ((str "([^ @]+)@([^ @]+)"), [], (str "sample@gmail.com"), true);
   ((str "([^ @]+)@([^ @]+)"), [], (str "      sample@gmail.com"), true);
   ((str "([^ @]+)@([^ @]+)"), [], (str "sample@gmail.com      "), true);
   ((str "([^ @]+)@([^ @]+)"), [], (str "... sample@gmail.com ..."), true);
   ((str "([^ @]+)@([^ @]+)"), [], (map ascii_of_nat [46; 46; 46; 32; 115; 97; 109; 112; 108; 101; 64; 103; 109; 97; 105; 108; 46; 99; 111; 109; 10; 32; 46; 46; 46; 32; 110; 97; 109; 101; 46; 117; 115; 101; 114; 64; 115; 101; 114; 118; 105; 99; 101; 46; 99; 111; 109; 32; 46; 46; 46]), true);
   ((str "[^]"), [], (str " "), true);
   ((str "[^]"), [], (str "a"), true);
   ((str "[^]"), [], (str "0"), true);
   ((str "[^]"), [], (str "abcd0123@#$%"), true);
   ((str "^abc"), [], (str "abcdefg"), true);
   ((str "abc$"), [], (str "... abc"), true);
   ((str "^"), [], (str "abcdefg"), true);
   ((str "$"), [], (str "... abc"), true);
   ((str "^"), [], (str ""), true);
   ((str "$"), [], (str ""), true);
   ((str "^$"), [], (str ""), true);
   ((str "^$"), [], (str ""), true);
   ((str "([a-zA-Z][a-zA-Z0-9]*)://([^ /]+)(/[^ ]*)?"), [], (str "https:// google.com"), false);
   ((str "([a-zA-Z][a-zA-Z0-9]*)://([^ /]+)(/[^ ]*)?"), [], (str ""), false);
   ((str "([a-zA-Z][a-zA-Z0-9]*)://([^ /]+)(/[^ ]*)?"), [], (str "     google.com       "), false);
   ((str "([a-zA-Z][a-zA-Z0-9]*)://([^ /]+)(/[^ ]*)?"), [], (str "... "), false);
   ((str "([^ @]+)@([^ @]+)"), [], (str "samplegmail.com"), false);
   ((str "([^ @]+)@([^ @]+)"), [], (str ""), false);
   ((str "([^ @]+)@([^ @]+)"), [], (str "      samp @gmail.com"), false);
   ((str "([^ @]+)@([^ @]+)"), [], (str "..."), false);
   ((str "[^]"), [], (str ""), false);
   ((str "^abc"), [], (str " abcdefg"), false);
   ((str "abc$"), [], (str "... abc "), false);
   ((str " ^"), [], (str ""), false);
   ((str "$ "), [], (str ""), false)].
Example search_tests : forallb check_search search_tests_cases = true.
Proof. vm_compute. reflexivity. Qed.

(** test/iterator_api_tests.cpp (matching through a reverse iterator): 22 assertions. *)
Definition iterator_tests_cases : list (list ascii * list regex_flag * list ascii * bool) :=
  [((str ""), [], rev (str ""), true);
   ((str "a"), [], rev (str "a"), true);
   ((str "a?"), [], rev (str ""), true);
   ((str "a?"), [], rev (str "a"), true);
   ((str "ab"), [], rev (str "ba"), true);
   ((str "abc"), [], rev (str "cba"), true);
   ((str "olleh"), [], rev (str "hello"), true);
   ((str "\w+(?<=olleh)"), [], rev (str "hello"), true);
   ((str "(?=olleh)\w+"), [], rev (str "hello"), true);
   ((str "a{2}c{1,3}b{1}"), [], rev (str "bcccaa"), true);
   ((str "a{2}c{1,3}b{1}"), [], rev (str "bccaa"), true);
   ((str "a{2}c{1,3}b{1}"), [], rev (str "bcaa"), true);
   ((str "(.+)ab\1"), [], rev (str "[xyz ]ba[xyz ]"), true);
   ((str ""), [], rev (str "a"), false);
   ((str "a"), [], rev (str ""), false);
   ((str "a?"), [], rev (str "aa"), false);
   ((str "ab"), [], rev (str "ab"), false);
   ((str "abc"), [], rev (str "abc"), false);
   ((str "a{2}c{1,3}b{1}"), [], rev (str "bccccaa"), false);
   ((str "a{2}c{1,3}b{1}"), [], rev (str "baa"), false);
   ((str "a{2}c{1,3}b{1}"), [], rev (str "bccca"), false);
   ((str "(.+)ab\1"), [], rev (str "[ xyz]ba[xyz ]"), false)].
Example iterator_tests : forallb check_match iterator_tests_cases = true.
Proof. vm_compute. reflexivity. Qed.

(** test/regex_iteration_tests.cpp, match_count: 35 assertions. *)
Definition find_all_tests_cases : list (list ascii * list regex_flag * list ascii * nat) :=
  [((str ""), [], (str ""), 1);
   ((str ""), [], (str "a"), 1);
   ((str "a"), [], (str "a"), 1);
   ((str "a"), [], (str ""), 0);
   ((str "a"), [], (str "a a a"), 3);
   ((str "a"), [], (str "aaaaa"), 5);
   ((str "a"), [], (str "b"), 0);
   ((str "a*"), [], (str ""), 1);
   ((str "a*"), [], (str "aa"), 2);
   ((str "a+"), [], (str ""), 0);
   ((str "a+"), [], (str "aa"), 1);
   ((str "a+"), [], (str "a aa aaa"), 3);
   ((str "a+"), [], (str "bbb ccc ddd"), 0);
   ((str "a+"), [F_ungreedy], (str "a aa aaa"), 6);
   ((str "a+?"), [F_ungreedy], (str "a aa aaa"), 3);
   ((str "a+(?:$|\s)"), [], (str "aaaa aaa aa a aa aaa aaaa"), 7);
   ((str "abc"), [], (str "a"), 0);
   ((str "abc"), [], (str "abcd abcd"), 2);
   ((str "^abc"), [], (str "abcd abcd"), 1);
   ((str "abc$"), [], (str "abcd abcd"), 0);
   ((str "abc$"), [], (str "abcd abc"), 1);
   ((str "^abc$"), [], (str "abcd abc"), 0);
   ((str "^abc$"), [], (str "abc"), 1);
   ((str "$abc$"), [], (str "abc"), 0);
   ((str "$"), [], (str "abc def"), 1);
   ((str "^"), [], (str "abcd abcd"), 1);
   ((str "a{3}"), [], (str "a aa aaa aaaa a a aaaaaa"), 4);
   ((str "a{2,}b{1,2}"), [], (str "aab ab aa bb aaaaaabb aaaaaab"), 3);
   ((str "\s"), [], (map ascii_of_nat [97; 32; 98; 32; 99; 32; 100; 9; 101; 13; 102; 10; 103]), 6);
   ((str "."), [], (str "123456"), 6);
   ((str "."), [], (str ""), 0);
   ((str "."), [], (str "a"), 1);
   ((str ".+"), [], (str "123456"), 1);
   ((str ".+"), [F_ungreedy], (str "123456"), 6);
   ((str ".+?"), [F_ungreedy], (str "123456"), 1)].
Example find_all_tests : forallb check_find_all find_all_tests_cases = true.
Proof. vm_compute. reflexivity. Qed.

(** test/regex_iteration_tests.cpp, token_count: 16 assertions. *)
Definition tokenize_tests_cases : list (list ascii * list regex_flag * list ascii * nat) :=
  [((str ""), [], (str ""), 1);
   ((str ""), [], (str "a"), 1);
   ((str "a"), [], (str "a"), 1);
   ((str "a"), [], (str ""), 0);
   ((str "a"), [], (str "b"), 0);
   ((str "a"), [], (str "ababab"), 1);
   ((str "a*"), [], (str ""), 1);
   ((str "a*"), [], (str "aa"), 2);
   ((str "a+"), [], (str ""), 0);
   ((str "a+"), [], (str "aa"), 1);
   ((str "a+"), [], (str "a aa aaa"), 1);
   ((str "[ab]"), [], (str "ababab"), 6);
   ((str "^[ab]"), [], (str "ababab"), 1);
   ((str "[ab]$"), [], (str "ababab"), 0);
   ((str "[a-z]|[0-9]{2}|\s"), [], (str "a11 b22 c33"), 8);
   ((str "[a-z]|[0-9]{2}|\s"), [], (str "a11 b2_ c33"), 4)].
Example tokenize_tests : forallb check_tokenize tokenize_tests_cases = true.
Proof. vm_compute. reflexivity. Qed.

(** test/parser_accept_tests.cpp: 297 assertions. *)
Definition accept_tests_cases : list (list ascii * bool) :=
  [((str ""), true);
   ((str "()"), true);
   ((str "a"), true);
   ((str "abcd"), true);
   ((str "(^)?"), true);
   ((str "($)?"), true);
   ((str "(^$)*?"), true);
   ((str "\b"), true);
   ((str "\B"), true);
   ((str "(\b)+"), true);
   ((str "(\B)?+"), true);
   ((str "(\b)+?"), true);
   ((str "\\"), true);
   ((str "\n"), true);
   ((str "\N"), true);
   ((str "\a"), true);
   ((str "\\a"), true);
   ((str "\\D"), true);
   ((str "\x00"), true);
   ((str "\x0a"), true);
   ((str "\x0af"), true);
   ((str "\x00_"), true);
   ((str "\x0a?+"), true);
   ((str "\x0a+"), true);
   ((str "\x0a{1,2}+"), true);
   ((str "\x0ab{1,2}+"), true);
   ((str "\b\{x1}"), true);
   ((str "\B\{+}?"), true);
   ((str "\A\{??"), true);
   ((str "\Z\{ x{3}?x{13,}+"), true);
   ((str "(\(+)*"), true);
   ((str "(\++?)*"), true);
   ((str "(\?+)?"), true);
   ((str "(\?+?)?"), true);
   ((str "(\|+\))?"), true);
   ((str "x\*\(x\?(abc\+(?:xyz)\?)\+x\)\*x"), true);
   ((str "c?"), true);
   ((str "c*"), true);
   ((str "c+"), true);
   ((str "c??"), true);
   ((str "c*?"), true);
   ((str "c+?"), true);
   ((str "c?+"), true);
   ((str "c*+"), true);
   ((str "c++"), true);
   ((str "^c+"), true);
   ((str "^c+$"), true);
   ((str "c{2}"), true);
   ((str "c{2}?"), true);
   ((str "c{2}+"), true);
   ((str "c{,0}"), true);
   ((str "c{,0}?"), true);
   ((str "c{0}"), true);
   ((str "c{123}"), true);
   ((str "c{1,23}"), true);
   ((str "c{12,}"), true);
   ((str "c{0,123}"), true);
   ((str "c{0,123}?"), true);
   ((str "c{1,2}"), true);
   ((str "c{}"), true);
   ((str "\{}"), true);
   ((str "\{1x}"), true);
   ((str "\{123}x"), true);
   ((str "\{123,124}x"), true);
   ((str "c{}?"), true);
   ((str "c{"), true);
   ((str "c{?"), true);
   ((str "c{?}"), true);
   ((str "c{?}?"), true);
   ((str "c{?}+"), true);
   ((str "c{*}"), true);
   ((str "c{+}"), true);
   ((str "c{|}"), true);
   ((str "c{x}"), true);
   ((str "c{,}"), true);
   ((str "c{ 0, 123}"), true);
   ((str "c\{123}"), true);
   ((str "c\{"), true);
   ((str "c*+\{"), true);
   ((str "one|two"), true);
   ((str "(one|two)?"), true);
   ((str "(one|two)*"), true);
   ((str "(one|two)+"), true);
   ((str "one+|two"), true);
   ((str "(one|two?)?"), true);
   ((str "(one*|two)*"), true);
   ((str "(one|two|three?)?"), true);
   ((str "(one+|two|three)*"), true);
   ((str "(one|two+|three)+"), true);
   ((str "(c)"), true);
   ((str "(c)\1"), true);
   ((str "x(?:x)"), true);
   ((str "(?:x)x"), true);
   ((str "(?:x)?"), true);
   ((str "(?:x)+"), true);
   ((str "(?:)"), true);
   ((str "(?:abc())"), true);
   ((str "(?:)+"), true);
   ((str "x+(?:x)?y*"), true);
   ((str "(?:ab|cd)?"), true);
   ((str "(?:abcd)|xy"), true);
   ((str "(?:ab|cd)|xy"), true);
   ((str "(?:(abc){4})"), true);
   ((str "(?:(?:abc))"), true);
   ((str "12(ab(?:cd)ef)\1gh"), true);
   ((str "(?:(((?:abd))+)x?)|(?:xyz)+"), true);
   ((str "x*(x?(abc+(?:xyz)?)+x)*x"), true);
   ((str "x*(x?(abc+(?:xyz)?)+x)*x\1+\2?"), true);
   ((str "x*?(x?(abc+?(?:xyz)?)+x)*x\1+?\2??"), true);
   ((str "x*+(x?(abc+?(?:xyz)?)+x)*x\1++\2?+"), true);
   ((str "(?>)"), true);
   ((str "(?>c)"), true);
   ((str "(?>c)+"), true);
   ((str "(?>(:>((?>(?:(?>())))(?>c))((?:(?>(?>(?>c))((?>c)))(?>)(?:(?>)(?:))))))"), true);
   ((str "(?>ab{2,3}c?)+"), true);
   ((str "(?>ab|c)|(?>[xyz])"), true);
   ((str "(?>(..){2,3}(?>[ab]{3}c?)\s+)*?"), true);
   ((str "[a]"), true);
   ((str "[]"), true);
   ((str "[\b]"), true);
   ((str "[\1]"), true);
   ((str "[\0]"), true);
   ((str "[\k]"), true);
   ((str "[\k<test>]"), true);
   ((str "[(]"), true);
   ((str "[a][b]"), true);
   ((str "[-a]"), true);
   ((str "[a-z]"), true);
   ((str "[\w-a]"), true);
   ((str "[\l-\u]"), true);
   ((str "[A-\\w]"), true);
   ((str "[A-\\D]"), true);
   ((str "[A-\\x]"), true);
   ((str "[^a]"), true);
   ((str "[^-a]"), true);
   ((str "[^a-]"), true);
   ((str "[^]"), true);
   ((str "[^a-z]"), true);
   ((str "^[a]$"), true);
   ((str "^[^a-z]$"), true);
   ((str "[^-a-z]"), true);
   ((str "[\0-\n]"), true);
   ((str "[a-\xf9]"), true);
   ((str "f?[a-zA-Z]?a?"), true);
   ((str "f?[a-z-]?a?"), true);
   ((str "f?[a-z-A]?a?"), true);
   ((str "f?[a-zA-]?a?"), true);
   ((str "f??[a-z-A]??a?"), true);
   ((str "f?+[a-z-A]*+a?"), true);
   ((str "f*[a-zA-Z]*a?"), true);
   ((str "f+[a-zA-Z]+a+"), true);
   ((str "f?[a-zA-Z]?a?[xyzt\w0-9]+d?"), true);
   ((str "]"), true);
   ((str "[]]"), true);
   ((str "[a]{12}[]"), true);
   ((str "[][b]"), true);
   ((str "[]-z]"), true);
   ((str "[- -[]"), true);
   ((str "ab|cd|[a-zA-Z]|ab{3}|ac"), true);
   ((str "ab|(cd|[a-zA-Z]|ab)|ac"), true);
   ((str "^(ab|(cd|[a-zA-Z]|ab)|ac)$"), true);
   ((str "((a|\\a)|(d|\\d))?"), true);
   ((str "((a|\\a+)|(d?|\\d))*"), true);
   ((str "((a|\\a)|(0|1|2|3))?"), true);
   ((str "(((a|\\a)|(0|1|2|3))?)*x?y+abcd|efgh((x|z)?t)+"), true);
   ((str "xyz(?=a)abc"), true);
   ((str "xyz(?!a)abc"), true);
   ((str "xyz(?=)abc"), true);
   ((str "xyz(?!)abc"), true);
   ((str "xyz(?<=abc)abc"), true);
   ((str "xyz(?<!abc)abc"), true);
   ((str "xyz(?<=a)abc"), true);
   ((str "xyz(?<!a)abc"), true);
   ((str "xyz(?<=)abc"), true);
   ((str "xyz(?<!)abc"), true);
   ((str "abc(?<test>.[a-d]+)*cd"), true);
   ((str "abc(?<te2_3>.[a-d]+)+cd"), true);
   ((str "abc(?<lvl1>.[a-d]+(?<lvl2>x+y*))+cd"), true);
   ((str "abc(?<____>.[a-d]+(?<_1232>x+y*)+){2,3}cd"), true);
   ((str "abc(?<____>.[a-d]+(?<_1232>x+y*)+){2,3}cd\k<_1232>+"), true);
   ((str "abc(?<____>.[a-d]+(?<_1232>\k<____>{2}x+y*)+){2,3}cd"), true);
   ((str "(?<foo>.)\k<foo>\1"), true);
   ((str "(?<foo>.+?)\k<foo>*?\1"), true);
   ((str "("), false);
   ((str ")"), false);
   ((str "+"), false);
   ((str "?"), false);
   ((str "*"), false);
   ((str "|"), false);
   ((str "\"), false);
   ((str "a|"), false);
   ((str "|a"), false);
   ((str "a|)"), false);
   ((str "^?"), false);
   ((str "^?"), false);
   ((str "$?"), false);
   ((str "^$+"), false);
   ((str "^$*"), false);
   ((str "^$*?"), false);
   ((str "^*$?"), false);
   ((str "^?$??"), false);
   ((str "\b+"), false);
   ((str "\b?"), false);
   ((str "\B?+"), false);
   ((str "\b+?"), false);
   ((str "\b{**"), false);
   ((str "\b{*++"), false);
   ((str "\b{??+"), false);
   ((str "{"), false);
   ((str "{x}"), false);
   ((str "{1}"), false);
   ((str "c+{x"), false);
   ((str "c+{3}"), false);
   ((str "c{2x}"), false);
   ((str "c{123"), false);
   ((str "c{123\}"), false);
   ((str "c{1,2,3}"), false);
   ((str "c{12,3"), false);
   ((str "c{0,123,}"), false);
   ((str "c{0, 123}"), false);
   ((str "c{0,123 }"), false);
   ((str "c{1\,2}"), false);
   ((str "(|)"), false);
   ((str "(+)"), false);
   ((str "(?)"), false);
   ((str "(*)"), false);
   ((str "(()"), false);
   ((str "())"), false);
   ((str "(|a)"), false);
   ((str "(a{|)"), false);
   ((str "(+|-)"), false);
   ((str "x(?)"), false);
   ((str "(?:xx"), false);
   ((str "?:x)?"), false);
   ((str "x+(?:?)*"), false);
   ((str "(?:|x)"), false);
   ((str "(?:a)|"), false);
   ((str "|(?:ab)"), false);
   ((str "(?x)"), false);
   ((str "(?:abc"), false);
   ((str "xy?((?:abc)zt\)?"), false);
   ((str "(Inner|a)+)"), false);
   ((str "\((Inner|a)+)"), false);
   ((str "((((((a)))))"), false);
   ((str "((((((a)))))\)"), false);
   ((str "((a|\\a)|\(d|\\d))?"), false);
   ((str "((a|\\a+*)|(d?|\\d))*"), false);
   ((str "((a|\\a)|(0|1|?2|3))?"), false);
   ((str "(((|\\a)|(0|1|2|3))?)*x?y+abcd|efgh((x|z)?t)+"), false);
   ((str "(?>c"), false);
   ((str "(?>c))"), false);
   ((str "(?>c)|"), false);
   ((str "(?>c|)"), false);
   ((str "(?>|)"), false);
   ((str "(?>+)"), false);
   ((str "(?>{3,2})"), false);
   ((str "[\]"), false);
   ((str "[\"), false);
   ((str "[]["), false);
   ((str "[a-\d]"), false);
   ((str "[a-\w]"), false);
   ((str "[a-\D]"), false);
   ((str "[a-\W]"), false);
   ((str "[a-\N]"), false);
   ((str "[a-\R]"), false);
   ((str "[a-\x]"), false);
   ((str "["), false);
   ((str "[a]["), false);
   ((str "?[a-zA-Z]?a?"), false);
   ((str "ab||[a-zA-Z]"), false);
   ((str "ab|(cd|[a-zA-Z]|"), false);
   ((str "f?[a-z-A]?+*"), false);
   ((str "f*[a-zA-Z*a?"), false);
   ((str "f**[a-zA-Z]"), false);
   ((str "+[a-zA-Z]+a+"), false);
   ((str "ab|cd|[a-zA-Z]|ab{3|ac"), false);
   ((str "ab|(cd|[a-zA-Z]|ab\)|ac"), false);
   ((str "^(ab||(cd|[a-zA-Z]|ab)|ac)$"), false);
   ((str "xyz(?<abc)abc"), false);
   ((str "xyz(?<)abc"), false);
   ((str "xyz(?<a)abc"), false);
   ((str "xyz(?<<a)abc"), false);
   ((str "(?<>xyz)"), false);
   ((str "(?<1name>xyz)"), false);
   ((str "(?<namexyz)"), false);
   ((str "(?<name >xyz)"), false);
   ((str "(?< name>xyz)"), false);
   ((str "(?<+name>xyz)"), false);
   ((str "\k"), false);
   ((str "\k<"), false);
   ((str "\k<>"), false);
   ((str "\k<+name>"), false);
   ((str "\k<name"), false);
   ((str "\k<name >"), false);
   ((str "\kname>"), false);
   ((str "\k<1name>"), false);
   ((str "\k<name>**"), false)].
Example accept_tests : forallb check_accept accept_tests_cases = true.
Proof. vm_compute. reflexivity. Qed.

(** test/parser_error_tests.cpp: 28 assertions. *)
Definition error_tests_cases : list (list ascii * nat) :=
  [((str "("), 1);
   ((str ")"), 0);
   ((str "["), 1);
   ((str "+"), 0);
   ((str "|"), 0);
   ((str "?"), 0);
   ((str "a)"), 1);
   ((str "a?*"), 2);
   ((str "(?a)"), 2);
   ((str "(?<*)"), 3);
   ((str "ab|+cd"), 3);
   ((str "((ab)"), 5);
   ((str "(?xx)"), 2);
   ((str "a{3x}"), 3);
   ((str "a{34,x}"), 5);
   ((str "a{3,"), 4);
   ((str "a{1,2,3}"), 5);
   ((str "a**b"), 2);
   ((str "\x"), 2);
   ((str "\x0"), 3);
   ((str "\x0x"), 3);
   ((str "(a(b(c(d)))))"), 12);
   ((str "(?<1name>x)"), 3);
   ((str "(?<name+>x)"), 7);
   ((str "(?<namex)"), 8);
   ((str "\k<"), 3);
   ((str "\k<name"), 7);
   ((str "\kname>"), 2)].
Example error_tests : forallb check_error error_tests_cases = true.
Proof. vm_compute. reflexivity. Qed.

(** test/parser_ast_tests.cpp: 140 assertions. *)
Definition ast_tests_cases : list (list ascii * node) :=
  [((str ""), Empty);
   ((str "a"), (Lit "a"%char));
   ((str "(?:)"), Empty);
   ((str "(?:)+"), (plus Greedy Empty));
   ((str "(?:^)+"), (plus Greedy BeginLine));
   ((str "(?!)"), (Neg (Look Ahead Empty)));
   ((str "()"), (Cap 1 None Empty));
   ((str "a.?b"), (Seq [(Lit "a"%char); (optional Greedy Wild); (Lit "b"%char)]));
   ((str "^ab"), (Seq [BeginLine; (Lit "a"%char); (Lit "b"%char)]));
   ((str "ab$"), (Seq [(Lit "a"%char); (Lit "b"%char); EndLine]));
   ((str "^ab$"), (Seq [BeginLine; (Lit "a"%char); (Lit "b"%char); EndLine]));
   ((str "(?>)"), (atomic Empty));
   ((str "(?>a)"), (atomic (Lit "a"%char)));
   ((str "(?>a)+"), (plus Greedy (atomic (Lit "a"%char))));
   ((str "(?>a)++"), (plus Possessive (atomic (Lit "a"%char))));
   ((str "(?>ab*(\d))+?"), (plus Lazy (atomic (Seq [(Lit "a"%char); (star Greedy (Lit "b"%char)); (Cap 1 None n_digit)]))));
   ((str "x(?=ab)x"), (Seq [(Lit "x"%char); (Look Ahead (Seq [(Lit "a"%char); (Lit "b"%char)])); (Lit "x"%char)]));
   ((str ".+(?<=a+)a"), (Seq [(plus Greedy Wild); (Look Behind (plus Greedy (Lit "a"%char))); (Lit "a"%char)]));
   ((str ".*(?<!a|b)"), (Seq [(star Greedy Wild); (Neg (Look Behind (Alt [(Lit "a"%char); (Lit "b"%char)])))]));
   ((str "x(?!ab){2}x"), (Seq [(Lit "x"%char); (Rep Greedy 2 (Fin 2) (Neg (Look Ahead (Seq [(Lit "a"%char); (Lit "b"%char)])))); (Lit "x"%char)]));
   ((str "x(?<=a(?<!c*d?)b)x"), (Seq [(Lit "x"%char); (Look Behind (Seq [(Lit "a"%char); (Neg (Look Behind (Seq [(star Greedy (Lit "c"%char)); (optional Greedy (Lit "d"%char))]))); (Lit "b"%char)])); (Lit "x"%char)]));
   ((str "\R"), n_linebreak);
   ((str "\N"), (Neg n_linebreak));
   ((str "\D"), (Neg n_digit));
   ((str "\b"), WordB);
   ((str "\B"), (Neg WordB));
   ((str "\A"), BeginInput);
   ((str "\Z"), EndInput);
   ((str "\n"), (Lit "010"%char));
   ((str "\r"), (Lit "013"%char));
   ((str "\t"), (Lit "009"%char));
   ((str "\f"), (Lit "012"%char));
   ((str "\v"), (Lit "011"%char));
   ((str "\a"), (Lit "007"%char));
   ((str "\e"), (Lit "027"%char));
   ((str "\x1b"), (Lit "027"%char));
   ((str "\x5F"), (Lit "_"%char));
   ((str "\x61"), (Lit "a"%char));
   ((str "\l"), (Lit "l"%char));
   ((str "\x01?"), (optional Greedy (Lit "001"%char)));
   ((str "\x09*"), (star Greedy (Lit "009"%char)));
   ((str "\x0a+"), (plus Greedy (Lit "010"%char)));
   ((str ".\xFF."), (Seq [Wild; (Lit "255"%char); Wild]));
   ((str "\xff{3,5}?"), (Rep Lazy 3 (Fin 5) (Lit "255"%char)));
   ((str "f*\xfff+"), (Seq [(star Greedy (Lit "f"%char)); (Lit "255"%char); (plus Greedy (Lit "f"%char))]));
   ((str "(c)"), (Cap 1 None (Lit "c"%char)));
   ((str "(?:c)"), (Lit "c"%char));
   ((str "\1"), (Backref 1));
   ((str "\10"), (Backref 10));
   ((str "(?:\1)0"), (Seq [(Backref 1); (Lit "0"%char)]));
   ((str "\1+"), (plus Greedy (Backref 1)));
   ((str "\42?"), (optional Greedy (Backref 42)));
   ((str "\1+?"), (plus Lazy (Backref 1)));
   ((str "\1++"), (plus Possessive (Backref 1)));
   ((str "\42??"), (optional Lazy (Backref 42)));
   ((str "\42?+"), (optional Possessive (Backref 42)));
   ((str "(c)\1"), (Seq [(Cap 1 None (Lit "c"%char)); (Backref 1)]));
   ((str "(c)\0"), (Seq [(Cap 1 None (Lit "c"%char)); (Lit "000"%char)]));
   ((str "(c)\12"), (Seq [(Cap 1 None (Lit "c"%char)); (Backref 12)]));
   ((str "(c)\01"), (Seq [(Cap 1 None (Lit "c"%char)); (Lit "000"%char); (Lit "1"%char)]));
   ((str "(c)\12?x"), (Seq [(Cap 1 None (Lit "c"%char)); (optional Greedy (Backref 12)); (Lit "x"%char)]));
   ((str "(?>((?>(c)))(e))"), (atomic (Seq [(Cap 1 None (atomic (Cap 2 None (Lit "c"%char)))); (Cap 3 None (Lit "e"%char))])));
   ((str "((?:c))(e)"), (Seq [(Cap 1 None (Lit "c"%char)); (Cap 2 None (Lit "e"%char))]));
   ((str "c?"), (optional Greedy (Lit "c"%char)));
   ((str "c*"), (star Greedy (Lit "c"%char)));
   ((str "c+"), (plus Greedy (Lit "c"%char)));
   ((str "c??"), (optional Lazy (Lit "c"%char)));
   ((str "c*?"), (star Lazy (Lit "c"%char)));
   ((str "c+?"), (plus Lazy (Lit "c"%char)));
   ((str "c{0}"), (Rep Greedy 0 (Fin 0) (Lit "c"%char)));
   ((str "c{2,3}?"), (Rep Lazy 2 (Fin 3) (Lit "c"%char)));
   ((str "c{2}c{2}?c{2}+"), (Seq [(Rep Greedy 2 (Fin 2) (Lit "c"%char)); (Rep Lazy 2 (Fin 2) (Lit "c"%char)); (Rep Possessive 2 (Fin 2) (Lit "c"%char))]));
   ((str "c{"), (Seq [(Lit "c"%char); (Lit "{"%char)]));
   ((str "c{}"), (Seq [(Lit "c"%char); (Lit "{"%char); (Lit "}"%char)]));
   ((str "c{*}"), (Seq [(Lit "c"%char); (star Greedy (Lit "{"%char)); (Lit "}"%char)]));
   ((str "c{22}"), (Rep Greedy 22 (Fin 22) (Lit "c"%char)));
   ((str "c{022}"), (Rep Greedy 22 (Fin 22) (Lit "c"%char)));
   ((str "c{22,}"), (Rep Greedy 22 Inf (Lit "c"%char)));
   ((str "c{22,0}?"), (Rep Lazy 22 (Fin 0) (Lit "c"%char)));
   ((str "c{984,7644}+"), (Rep Possessive 984 (Fin 7644) (Lit "c"%char)));
   ((str "c{0,22}"), (Rep Greedy 0 (Fin 22) (Lit "c"%char)));
   ((str "c{,22}"), (Seq [(Lit "c"%char); (Lit "{"%char); (Lit ","%char); (Lit "2"%char); (Lit "2"%char); (Lit "}"%char)]));
   ((str "c\{22}"), (Seq [(Lit "c"%char); (Lit "{"%char); (Lit "2"%char); (Lit "2"%char); (Lit "}"%char)]));
   ((str "c{x}"), (Seq [(Lit "c"%char); (Lit "{"%char); (Lit "x"%char); (Lit "}"%char)]));
   ((str "c*\{012}"), (Seq [(star Greedy (Lit "c"%char)); (Lit "{"%char); (Lit "0"%char); (Lit "1"%char); (Lit "2"%char); (Lit "}"%char)]));
   ((str "\b\{"), (Seq [WordB; (Lit "{"%char)]));
   ((str "\b\{012}"), (Seq [WordB; (Lit "{"%char); (Lit "0"%char); (Lit "1"%char); (Lit "2"%char); (Lit "}"%char)]));
   ((str "x\A\{+x?"), (Seq [(Lit "x"%char); BeginInput; (plus Greedy (Lit "{"%char)); (optional Greedy (Lit "x"%char))]));
   ((str "(c*?\{012}){3,}"), (Rep Greedy 3 Inf (Cap 1 None (Seq [(star Lazy (Lit "c"%char)); (Lit "{"%char); (Lit "0"%char); (Lit "1"%char); (Lit "2"%char); (Lit "}"%char)]))));
   ((str "a(b(c()d)*){15}?"), (Seq [(Lit "a"%char); (Rep Lazy 15 (Fin 15) (Cap 1 None (Seq [(Lit "b"%char); (star Greedy (Cap 2 None (Seq [(Lit "c"%char); (Cap 3 None Empty); (Lit "d"%char)])))])))]));
   ((str "(\(+)*"), (star Greedy (Cap 1 None (plus Greedy (Lit "("%char)))));
   ((str "(\++)*"), (star Greedy (Cap 1 None (plus Greedy (Lit "+"%char)))));
   ((str "(?:\++\???)*?"), (star Lazy (Seq [(plus Greedy (Lit "+"%char)); (optional Lazy (Lit "?"%char))])));
   ((str "x(?:abc)*x"), (Seq [(Lit "x"%char); (star Greedy (Seq [(Lit "a"%char); (Lit "b"%char); (Lit "c"%char)])); (Lit "x"%char)]));
   ((str "x(?:abc)*+x"), (Seq [(Lit "x"%char); (star Possessive (Seq [(Lit "a"%char); (Lit "b"%char); (Lit "c"%char)])); (Lit "x"%char)]));
   ((str "()()((()())())"), (Seq [(Cap 1 None Empty); (Cap 2 None Empty); (Cap 3 None (Seq [(Cap 4 None (Seq [(Cap 5 None Empty); (Cap 6 None Empty)])); (Cap 7 None Empty)]))]));
   ((str "\\"), (Lit "\"%char));
   ((str "\(??\x8c+"), (Seq [(optional Lazy (Lit "("%char)); (plus Greedy (Lit "140"%char))]));
   ((str "abc"), (Seq [(Lit "a"%char); (Lit "b"%char); (Lit "c"%char)]));
   ((str "a|b|c"), (Alt [(Lit "a"%char); (Lit "b"%char); (Lit "c"%char)]));
   ((str "aa|bb|cc"), (Alt [(Seq [(Lit "a"%char); (Lit "a"%char)]); (Seq [(Lit "b"%char); (Lit "b"%char)]); (Seq [(Lit "c"%char); (Lit "c"%char)])]));
   ((str "a?|b|c"), (Alt [(optional Greedy (Lit "a"%char)); (Lit "b"%char); (Lit "c"%char)]));
   ((str "[a]"), (CSet [(Lit "a"%char)]));
   ((str "[.]"), (CSet [(Lit "."%char)]));
   ((str "[]"), n_nothing);
   ((str "[^]"), (Neg n_nothing));
   ((str "[-]"), (CSet [(Lit "-"%char)]));
   ((str "[\0]"), (CSet [(Lit "000"%char)]));
   ((str "[\1]"), (CSet [(Lit "1"%char)]));
   ((str "[\k]"), (CSet [(Lit "k"%char)]));
   ((str "[(]"), (CSet [(Lit "("%char)]));
   ((str "[)]"), (CSet [(Lit ")"%char)]));
   ((str "[\k<test>]"), (CSet [(Lit ">"%char); (Lit "t"%char); (Lit "s"%char); (Lit "e"%char); (Lit "t"%char); (Lit "<"%char); (Lit "k"%char)]));
   ((str "[a-]"), (CSet [(Lit "-"%char); (Lit "a"%char)]));
   ((str "[\d-a]"), (CSet [(Lit "a"%char); (Lit "-"%char); n_digit]));
   ((str "[\d-\xf8]"), (CSet [(Lit "248"%char); (Lit "-"%char); n_digit]));
   ((str "[a][b\w]"), (Seq [(CSet [(Lit "a"%char)]); (CSet [n_lower; n_upper; n_digit; (Lit "_"%char); (Lit "b"%char)])]));
   ((str "[][b]"), (Seq [n_nothing; (CSet [(Lit "b"%char)])]));
   ((str "[a]?[\x10]"), (Seq [(optional Greedy (CSet [(Lit "a"%char)])); (CSet [(Lit "016"%char)])]));
   ((str "[a]??[b]?"), (Seq [(optional Lazy (CSet [(Lit "a"%char)])); (optional Greedy (CSet [(Lit "b"%char)]))]));
   ((str "[abc]"), (CSet [(Lit "c"%char); (Lit "b"%char); (Lit "a"%char)]));
   ((str "[a-z]"), (CSet [(Range "a"%char "z"%char)]));
   ((str "[\0-\n]"), (CSet [(Range "000"%char "010"%char)]));
   ((str "[\X-\Y]"), (CSet [(Range "X"%char "Y"%char)]));
   ((str "[a\-z]"), (CSet [(Lit "z"%char); (Lit "-"%char); (Lit "a"%char)]));
   ((str "[a-z-]"), (CSet [(Lit "-"%char); (Range "a"%char "z"%char)]));
   ((str "[a-z-A]"), (CSet [(Lit "A"%char); (Lit "-"%char); (Range "a"%char "z"%char)]));
   ((str "[a-z0-9A-Z]"), (CSet [(Range "A"%char "Z"%char); (Range "0"%char "9"%char); (Range "a"%char "z"%char)]));
   ((str "[A-[0-\]]"), (CSet [(Range "0"%char "]"%char); (Range "A"%char "["%char)]));
   ((str "[^A-[0-\]]"), (Neg (CSet [(Range "0"%char "]"%char); (Range "A"%char "["%char)])));
   ((str "[-A-[0-\]]"), (CSet [(Range "0"%char "]"%char); (Range "A"%char "["%char); (Lit "-"%char)]));
   ((str "[^-aA-Z]"), (Neg (CSet [(Range "A"%char "Z"%char); (Lit "a"%char); (Lit "-"%char)])));
   ((str "a[^-a-z\WA-Z]"), (Seq [(Lit "a"%char); (Neg (CSet [(Range "A"%char "Z"%char); (Neg n_word); (Range "a"%char "z"%char); (Lit "-"%char)]))]));
   ((str "\h\X[^a^[\]b\c]yy"), (Seq [(Lit "h"%char); (Lit "X"%char); (Neg (CSet [(Lit "c"%char); (Lit "b"%char); (Lit "]"%char); (Lit "["%char); (Lit "^"%char); (Lit "a"%char)])); (Lit "y"%char); (Lit "y"%char)]));
   ((str "((?<_t3st1ng>tuv)?b+?)*|\x0E??y"), (Alt [(star Greedy (Cap 1 None (Seq [(optional Greedy (Cap 2 (Some (str "_t3st1ng")) (Seq [(Lit "t"%char); (Lit "u"%char); (Lit "v"%char)]))); (plus Lazy (Lit "b"%char))]))); (Seq [(optional Lazy (Lit "014"%char)); (Lit "y"%char)])]));
   ((str "(?<group_name>)"), (Cap 1 (Some (str "group_name")) Empty));
   ((str "(?<test>x+)"), (Cap 1 (Some (str "test")) (plus Greedy (Lit "x"%char))));
   ((str "(?<group_name>x+?)\k<group_name>"), (Seq [(Cap 1 (Some (str "group_name")) (plus Lazy (Lit "x"%char))); (NBackref (str "group_name"))]));
   ((str "x(?<_capture_name>(?>abc?))+"), (Seq [(Lit "x"%char); (plus Greedy (Cap 1 (Some (str "_capture_name")) (atomic (Seq [(Lit "a"%char); (Lit "b"%char); (optional Greedy (Lit "c"%char))]))))]));
   ((str "(?<grp_1>abc)?\x09\k<grp_1>\x0A(?<grp_2>xyz){2,}"), (Seq [(optional Greedy (Cap 1 (Some (str "grp_1")) (Seq [(Lit "a"%char); (Lit "b"%char); (Lit "c"%char)]))); (Lit "009"%char); (NBackref (str "grp_1")); (Lit "010"%char); (Rep Greedy 2 Inf (Cap 2 (Some (str "grp_2")) (Seq [(Lit "x"%char); (Lit "y"%char); (Lit "z"%char)])))]))].
Example ast_tests : forallb check_ast ast_tests_cases = true.
Proof. vm_compute. reflexivity. Qed.

(** test/ast_indexing_tests.cpp: 18 assertions. *)
Definition indexing_tests_cases : list (node * node) :=
  [(n_nothing, n_nothing);
   (Wild, Wild);
   ((Lit "a"%char), (Lit "a"%char));
   (n_word, n_word);
   (WordB, WordB);
   ((Seq [n_digit; n_whitespace]), (Seq [n_digit; n_whitespace]));
   ((Cap 1 None Wild), (Cap 1 None Wild));
   ((Seq [(Cap 1 None Wild)]), (Seq [(Cap 1 None Wild)]));
   ((Alt [(Cap 1 None Wild)]), (Alt [(Cap 1 None Wild)]));
   ((Look Ahead (Cap 1 None Wild)), (Look Ahead (Cap 1 None Wild)));
   ((Seq [n_word; (Cap 1 None Wild); n_digit]), (Seq [n_word; (Cap 1 None Wild); n_digit]));
   ((Seq [n_word; (star Greedy (Cap 1 None Wild)); n_digit]), (Seq [n_word; (star Greedy (Cap 1 None Wild)); n_digit]));
   ((Cap 0 None (Cap 0 None n_nothing)), (Cap 1 None (Cap 2 None n_nothing)));
   ((Seq [(Cap 0 None n_nothing); (Cap 0 None n_nothing)]), (Seq [(Cap 1 None n_nothing); (Cap 2 None n_nothing)]));
   ((Cap 0 None (Cap 0 None (Cap 0 None (Cap 0 None n_nothing)))), (Cap 1 None (Cap 2 None (Cap 3 None (Cap 4 None n_nothing)))));
   ((Seq [(Cap 0 None (Cap 0 None (Cap 0 None (Cap 0 None n_nothing)))); (Cap 0 None (Cap 0 None (Cap 0 None (Cap 0 None n_nothing))))]), (Seq [(Cap 1 None (Cap 2 None (Cap 3 None (Cap 4 None n_nothing)))); (Cap 5 None (Cap 6 None (Cap 7 None (Cap 8 None n_nothing))))]));
   ((Cap 0 None (Seq [(Cap 0 None n_nothing); (Cap 0 None n_nothing); (Cap 0 None n_nothing)])), (Cap 1 None (Seq [(Cap 2 None n_nothing); (Cap 3 None n_nothing); (Cap 4 None n_nothing)])));
   ((Cap 0 None (Seq [(Cap 0 None (Seq [(Cap 0 None n_nothing); (Cap 0 None n_nothing)])); (Cap 0 None n_nothing); (Cap 0 None n_nothing); (Cap 0 None (Seq [(Cap 0 None n_nothing); (Cap 0 None (Cap 0 None n_nothing)); (Cap 0 None n_nothing)]))])), (Cap 1 None (Seq [(Cap 2 None (Seq [(Cap 3 None n_nothing); (Cap 4 None n_nothing)])); (Cap 5 None n_nothing); (Cap 6 None n_nothing); (Cap 7 None (Seq [(Cap 8 None n_nothing); (Cap 9 None (Cap 10 None n_nothing)); (Cap 11 None n_nothing)]))])))].
Example indexing_tests : forallb check_indexing indexing_tests_cases = true.
Proof. vm_compute. reflexivity. Qed.

(** test/ast_inversion_tests.cpp: 13 assertions. *)
Definition inversion_tests_cases : list (node * node) :=
  [(n_nothing, n_nothing);
   ((Lit "a"%char), (Lit "a"%char));
   ((plus Greedy (Lit "a"%char)), (plus Greedy (Lit "a"%char)));
   ((Cap 1 None (Lit "a"%char)), (Cap 1 None (Lit "a"%char)));
   ((Alt [Wild; (Lit "a"%char)]), (Alt [Wild; (Lit "a"%char)]));
   ((Rep Greedy 3 (Fin 5) (Lit "a"%char)), (Rep Greedy 3 (Fin 5) (Lit "a"%char)));
   ((Seq [Wild; (Lit "a"%char)]), (Seq [(Lit "a"%char); Wild]));
   ((Seq [(Lit "a"%char); (star Greedy (Lit "b"%char)); (Lit "c"%char)]), (Seq [(Lit "c"%char); (star Greedy (Lit "b"%char)); (Lit "a"%char)]));
   ((Seq [(Lit "a"%char); (Lit "b"%char); (Lit "c"%char); (Lit "d"%char)]), (Seq [(Lit "d"%char); (Lit "c"%char); (Lit "b"%char); (Lit "a"%char)]));
   ((Seq [(Lit "a"%char); (Lit "b"%char); (Seq [Empty; (Lit "c"%char)])]), (Seq [(Seq [(Lit "c"%char); Empty]); (Lit "b"%char); (Lit "a"%char)]));
   ((Alt [(Lit "a"%char); (Lit "b"%char); (Seq [Empty; (Lit "c"%char)])]), (Alt [(Lit "a"%char); (Lit "b"%char); (Seq [(Lit "c"%char); Empty])]));
   ((Alt [(Lit "a"%char); (Lit "b"%char); (Look Ahead (Seq [Empty; (Lit "c"%char)]))]), (Alt [(Lit "a"%char); (Lit "b"%char); (Look Behind (Seq [Empty; (Lit "c"%char)]))]));
   ((Seq [(atomic (Lit "x"%char)); (optional Greedy (Seq [(Lit "a"%char); (Neg (Look Behind Wild)); (Lit "b"%char)])); (Lit "y"%char)]), (Seq [(Lit "y"%char); (optional Greedy (Seq [(Lit "b"%char); (Neg (Look Ahead Wild)); (Lit "a"%char)])); (atomic (Lit "x"%char))]))].
Example inversion_tests : forallb check_inversion inversion_tests_cases = true.
Proof. vm_compute. reflexivity. Qed.

(** test/ast_traits_tests.cpp, is_trivially_matchable: 23 assertions. *)
Definition is_trivially_matchable_tests_cases : list (node * bool) :=
  [(n_nothing, true);
   ((Neg n_nothing), true);
   ((Lit "a"%char), true);
   (n_whitespace, true);
   (Wild, true);
   ((Range "a"%char "z"%char), true);
   ((CSet [Wild; (Lit "b"%char); n_whitespace]), true);
   ((Seq [Wild]), true);
   ((Alt [Wild]), true);
   ((atomic Wild), true);
   ((Rep Greedy 1 (Fin 1) Wild), true);
   ((Alt [n_whitespace; (Lit "a"%char); (Lit "b"%char)]), true);
   (BeginLine, false);
   (EndInput, false);
   ((Seq [Wild; n_whitespace]), false);
   ((Alt [Wild; BeginLine]), false);
   ((atomic (plus Greedy Wild)), false);
   ((Cap 1 None Wild), false);
   ((Rep Greedy 1 (Fin 1) (optional Greedy Wild)), false);
   ((Backref 1), false);
   ((NBackref (str "a")), false);
   ((star Greedy (Lit "a"%char)), false);
   ((Alt [(star Greedy n_whitespace); (Lit "a"%char); (Lit "b"%char)]), false)].
Example is_trivially_matchable_tests : forallb (check_trait trivial) is_trivially_matchable_tests_cases = true.
Proof. vm_compute. reflexivity. Qed.

(** test/ast_traits_tests.cpp, is_zero_length_matcher: 30 assertions. *)
Definition is_zero_length_matcher_tests_cases : list (node * bool) :=
  [(Empty, true);
   ((Backref 1), true);
   ((NBackref (str "abc")), true);
   (BeginLine, true);
   (BeginInput, true);
   (EndLine, true);
   (EndInput, true);
   (WordB, true);
   ((Neg WordB), true);
   ((Look Ahead Wild), true);
   ((Look Behind Wild), true);
   ((Neg (Look Ahead Wild)), true);
   ((Neg (Look Behind Wild)), true);
   ((plus Greedy Empty), true);
   ((optional Greedy (Seq [Wild; n_word])), true);
   ((plus Greedy (optional Greedy (Seq [Wild; n_word]))), true);
   ((Seq [(optional Greedy Wild); Empty]), true);
   ((optional Greedy (Alt [Wild; n_word])), true);
   ((Alt [(optional Greedy Wild); WordB]), true);
   ((Alt [n_word; Empty; (Lit "a"%char)]), true);
   ((Seq [(Cap 1 None (optional Greedy Wild)); (star Greedy n_word)]), true);
   ((atomic (Seq [(Cap 1 None (optional Greedy Wild)); (star Greedy n_word)])), true);
   ((Lit "a"%char), false);
   ((CSet []), false);
   ((Neg n_word), false);
   ((Seq [Empty; n_digit]), false);
   ((Alt [n_whitespace; (Lit "a"%char)]), false);
   ((Cap 1 None Wild), false);
   ((Seq [(Cap 1 None (optional Greedy Wild)); (plus Greedy n_digit)]), false);
   ((atomic (plus Greedy n_digit)), false)].
Example is_zero_length_matcher_tests : forallb (check_trait zlm) is_zero_length_matcher_tests_cases = true.
Proof. vm_compute. reflexivity. Qed.

(** test/ast_traits_tests.cpp, is_assertion: 15 assertions. *)
Definition is_assertion_tests_cases : list (node * bool) :=
  [(BeginLine, true);
   (BeginInput, true);
   (EndLine, true);
   (EndInput, true);
   (WordB, true);
   ((Neg WordB), true);
   ((Neg WordB), true);
   ((Look Ahead Wild), true);
   ((Look Behind Wild), true);
   ((Neg (Look Ahead Wild)), true);
   ((Neg (Look Behind Wild)), true);
   (Empty, false);
   ((Seq [WordB; n_word]), false);
   ((Neg n_word), false);
   ((plus Greedy (Look Ahead Wild)), false)].
Example is_assertion_tests : forallb (check_trait is_assertion) is_assertion_tests_cases = true.
Proof. vm_compute. reflexivity. Qed.

(** test/ast_traits_tests.cpp, capture_name_spec: 17 assertions. *)
Definition name_spec_tests_cases : list (list ascii * list group_name) :=
  [((str ""), []);
   ((str "abc"), []);
   ((str "a?b+|c*d"), []);
   ((str "(a)"), [None]);
   ((str "(a){5}"), [None]);
   ((str "(a)+"), [None]);
   ((str "a?(b+)c*"), [None]);
   ((str "(a?)(b+(c{1,2}))c*"), [None; None; None]);
   ((str "(?<test>a)"), [Some (str "test")]);
   ((str "(?<test>a)+"), [Some (str "test")]);
   ((str "(?<test>a){5,10}"), [Some (str "test")]);
   ((str "(a?)(?<test>b+)c*"), [None; Some (str "test")]);
   ((str "(a?)(?<test>b+b(b))c*"), [None; Some (str "test"); None]);
   ((str "(?=(?<ahead>a)+)(?<!(?<behind>a)+)"), [Some (str "ahead"); Some (str "behind")]);
   ((str "(?<a1>a?)(?<a2>b+b(b))c*"), [Some (str "a1"); Some (str "a2"); None]);
   ((str "((?<a1>.)(?<a2>(.))((?<a3>.(?<a4>(?<a5>.).))(.)))"), [None; Some (str "a1"); Some (str "a2"); None; None; Some (str "a3"); Some (str "a4"); Some (str "a5"); None]);
   ((str "(?<a1>.){5}(?<a2>.){5,10}?(?<a3>.){5,}+"), [Some (str "a1"); Some (str "a2"); Some (str "a3")])].
Example name_spec_tests : forallb check_names name_spec_tests_cases = true.
Proof. vm_compute. reflexivity. Qed.
