(** Forward ranges, character helpers, names and flags: C56, C57, and parts of
    C40, C42 and C53. *)
From Verif Require Import Examples Views Scan Viewing Lift Parsed Forward LineStarts LeadingLines OpeningLines FirstLines.

(** C56, full statement: as below with "no lookbehind" instead of "nothing that
    looks back", and without the condition on [^].  False of the code (findings
    F24 and F12).  [looks_back]: a word boundary, a backreference or a lookbehind
    somewhere; [line_starts]: [^] under [multiline]. *)
Theorem C56_forward_ranges_partial : forall r ct s,
  usable r BidirectionalIt -> looks_back (ast r) = false -> line_starts r = false ->
  usable r ForwardIt
  /\ agree (regex_match r ForwardIt s) (regex_match r ct s)
  /\ agree (regex_match_prefix r ForwardIt s) (regex_match_prefix r ct s)
  /\ regex_search r ForwardIt s = regex_search r ct s
  /\ (forall k, agree_lists (tokenizer r ForwardIt s k) (tokenizer r ct s k))
  /\ (forall k, searcher r ForwardIt s k = searcher r ct s k).
Proof.
  intros r ct s Hu Hb Hl. pose proof (forward_usable r Hu Hb Hl) as Hf.
  split; [exact Hf|]. exact (forward_agrees r ct s Hf).
Qed.
Print Assumptions C56_forward_ranges_partial.

Example C56_example :
  let r := rx "(?<x>a|bc)*?(?!d)^.$(?>e{2,3})" [] in
  usable r BidirectionalIt /\ looks_back (ast r) = false /\ line_starts r = false
  /\ line_starts (rx "a^" [F_multiline]) = true /\ looks_back (tree "a(?:b|(?<=c))") = true.
Proof. split; [show_usable|]. repeat split; vm_compute; reflexivity. Qed.

(** Finding F24: without any lookbehind, a backreference or a word boundary does
    not compile for forward ranges; [^] under [multiline] is undefined behaviour
    (F12). *)
Theorem C56_forward_ranges_refuted :
  exists r1 r2 r3 s,
    usable r1 BidirectionalIt /\ ast r1 = Seq [Cap 1 None (Lit "a"); Backref 1]
    /\ regex_match r1 ForwardIt s = DoesNotCompile
    /\ usable r2 BidirectionalIt /\ ast r2 = Seq [Lit "a"; WordB]
    /\ regex_match r2 ForwardIt s = DoesNotCompile
    /\ usable r3 BidirectionalIt /\ ast r3 = Seq [Lit "a"; BeginLine]
    /\ regex_match r3 ForwardIt s = UndefinedBehaviour.
Proof.
  exists (rx "(a)\1" []), (rx "a\b" []), (rx "a^" [F_multiline]), (str "aa").
  split; [show_usable|]. split; [reflexivity|]. split; [vm_compute; reflexivity|].
  split; [show_usable|]. split; [reflexivity|]. split; [vm_compute; reflexivity|].
  split; [show_usable|]. split; vm_compute; reflexivity.
Qed.
Print Assumptions C56_forward_ranges_refuted.

(** C56, what is true of every regex that can be used on bidirectional ranges: with
    something that looks back, outside repetitions without iterations, no call on a
    forward range compiles; without it, and without [^] under [multiline], the regex
    can be used there (and then C56_forward_ranges_partial and C09 give the results). *)
Theorem C56_forward_exact : forall r, usable r BidirectionalIt ->
  (needs_back (ast r) = true -> forall s k,
     regex_match r ForwardIt s = DoesNotCompile /\ regex_match_prefix r ForwardIt s = DoesNotCompile
     /\ regex_search r ForwardIt s = DoesNotCompile
     /\ tokenizer r ForwardIt s k = DoesNotCompile /\ searcher r ForwardIt s k = DoesNotCompile)
  /\ (line_starts r = false -> (usable r ForwardIt <-> needs_back (ast r) = false)).
Proof. exact forward_exactly. Qed.
Print Assumptions C56_forward_exact.

Example C56_exact_example :
  (let r := rx "(a)(?:b|\1)c" [] in usable r BidirectionalIt /\ needs_back (ast r) = true)
  /\ (let r := rx "(a)(?:\1\b){0}c" [] in usable r BidirectionalIt /\ needs_back (ast r) = false
       /\ looks_back (ast r) = true /\ line_starts r = false /\ usable r ForwardIt).
Proof.
  split; (split; [show_usable|]); [vm_compute; reflexivity|]. do 3 (split; [vm_compute; reflexivity|]). show_usable.
Qed.

(** C56, the remaining case: without anything that looks back, but possibly with [^]
    under [multiline], every call on a forward range is undefined behaviour or gives
    what the same call on any other range gives; it always compiles and never runs
    forever.  Together with C56_forward_exact this covers every regex that can be used
    on bidirectional ranges.  [undefined_or R o1 o2]: [o1] is undefined behaviour or
    [R o1 o2]. *)
Theorem C56_line_starts_exact : forall r ct s k,
  usable r BidirectionalIt -> needs_back (ast r) = false ->
  undefined_or Lift.agree (regex_match r ForwardIt s) (regex_match r ct s)
  /\ undefined_or Lift.agree (regex_match_prefix r ForwardIt s) (regex_match_prefix r ct s)
  /\ undefined_or eq (regex_search r ForwardIt s) (regex_search r ct s)
  /\ undefined_or agree_lists (tokenizer r ForwardIt s k) (tokenizer r ct s k)
  /\ undefined_or eq (searcher r ForwardIt s k) (searcher r ct s k).
Proof. exact forward_or_undefined. Qed.
Print Assumptions C56_line_starts_exact.

(** Both happen: the line start is tried at the first character only, or later. *)
Example C56_line_starts_example :
  let r := rx "^(a*)b" [F_multiline] in
  usable r BidirectionalIt /\ needs_back (ast r) = false /\ line_starts r = true
  /\ regex_search r ForwardIt (str "aabc") = regex_search r RandomAccessIt (str "aabc")
  /\ regex_search r ForwardIt (str "aabc") = Returned (mk_res [Some (0, 3); Some (0, 2)] true)
  /\ regex_search r ForwardIt (str "cab") = UndefinedBehaviour
  /\ regex_search r RandomAccessIt (str "cab") <> UndefinedBehaviour.
Proof.
  split; [show_usable|]. do 5 (split; [vm_compute; reflexivity|]). vm_compute. discriminate.
Qed.

(** C56, which calls are undefined behaviour when [^] comes first and nowhere else, as
    in "^key:" under [multiline].  [q] is the expression behind the [^].  Matches of the
    whole text and of a prefix are defined, and as on any other range.  A search on a
    forward range is undefined behaviour for every nonempty text that does not begin
    with a match.  [find_all] is undefined behaviour for every nonempty text unless an
    empty match is found at the beginning, where it stops: lines behind the first one are
    never found. *)
Theorem C56_leading_line_start_exact : forall l fl s ct,
  let q := mk_regex (Seq l) fl in let r := mk_regex (Seq (BeginLine :: l)) fl in
  flag_test fl F_multiline = true -> usable q ForwardIt ->
  regex_match r ForwardIt s = regex_match q ForwardIt s
  /\ Lift.agree (regex_match r ForwardIt s) (regex_match r ct s)
  /\ exists a e, regex_match_prefix r ForwardIt s = Returned a
    /\ regex_match_prefix q ForwardIt s = Returned a
    /\ Lift.agree (Returned a) (regex_match_prefix r ct s)
    /\ group0 (groups a) = Some (0, e)
    /\ (matched a = true -> regex_search r ForwardIt s = Returned a)
    /\ (matched a = false -> s <> [] -> regex_search r ForwardIt s = UndefinedBehaviour)
    /\ (matched a = false -> tokenize r ForwardIt s = Returned [])
    /\ (matched a = true -> e <> 0 -> tokenize r ForwardIt s = UndefinedBehaviour)
    /\ (matched a = true -> e <> 0 -> find_all r ForwardIt s = UndefinedBehaviour)
    /\ (matched a = false -> s <> [] -> find_all r ForwardIt s = UndefinedBehaviour)
    /\ (matched a = true -> e = 0 ->
        tokenize r ForwardIt s = Returned [a] /\ find_all r ForwardIt s = Returned [a])
    /\ (s = [] -> exists b, regex_search r ForwardIt s = Returned b /\ matched b = matched a
        /\ (matched a = false -> find_all r ForwardIt s = Returned [])).
Proof. exact leading_calls. Qed.
Print Assumptions C56_leading_line_start_exact.

Example C56_leading_line_start_example :
  let r := rx "^([a-z]+):\s*(?=\d)" [F_multiline] in let s := str "key: 1" in
  exists l, ast r = Seq (BeginLine :: l) /\ flag_test (flags r) F_multiline = true
    /\ usable (mk_regex (Seq l) (flags r)) ForwardIt
    /\ regex_search r ForwardIt s = Returned (mk_res [Some (0, 5); Some (0, 3)] true)
    /\ find_all r ForwardIt s = UndefinedBehaviour
    /\ (exists k, find_all r RandomAccessIt s = Returned k /\ length k = 1)
    /\ regex_search r ForwardIt (str "# key: 1") = UndefinedBehaviour
    /\ regex_match_prefix r ForwardIt (str "# key: 1") <> UndefinedBehaviour.
Proof.
  intros r s. eexists. split; [vm_compute; reflexivity|]. split; [reflexivity|]. split; [show_usable|].
  split; [vm_compute; reflexivity|]. split; [vm_compute; reflexivity|].
  split; [eexists; split; vm_compute; reflexivity|]. split; [vm_compute; reflexivity|].
  vm_compute. discriminate.
Qed.

(** C56, every expression that begins each attempt with a [^] ([opens], OpeningLines.v:
    through groups, lookaheads, first alternatives and loops that try an iteration first),
    with [multiline] on a nonempty forward range.  When a search returns, it has found a
    match at the beginning of the text; when [find_all] returns, this is an empty match
    and the only one.  Otherwise these calls are undefined behaviour
    (C56_line_starts_exact); the lines behind the first one are never found. *)
Theorem C56_opening_line_starts : forall r s,
  flag_test (flags r) F_multiline = true -> opens (flags r) (ast r) = true -> s <> [] ->
  (forall a, regex_search r ForwardIt s = Returned a ->
     matched a = true /\ regex_match_prefix r ForwardIt s = Returned a)
  /\ (forall k, find_all r ForwardIt s = Returned k -> exists a, k = [a]
     /\ matched a = true /\ regex_match_prefix r ForwardIt s = Returned a
     /\ cell_is_empty (group0 (groups a)) = true)
  /\ (forall k, tokenize r ForwardIt s = Returned k -> k = [] \/ exists a, k = [a]
     /\ regex_match_prefix r ForwardIt s = Returned a /\ cell_is_empty (group0 (groups a)) = true).
Proof. exact opening_calls. Qed.
Print Assumptions C56_opening_line_starts.

(** The calls that return, and some that do not. *)
Example C56_opening_line_starts_example :
  let r := rx "(?!^#)(?:(^a)|b)*" [F_multiline] in
  flag_test (flags r) F_multiline = true /\ opens (flags r) (ast r) = true
  /\ (exists a, regex_search r ForwardIt (str "c") = Returned a /\ matched a = true)
  /\ (exists a, find_all r ForwardIt (str "c") = Returned [a] /\ group0 (groups a) = Some (0, 0))
  /\ regex_search r ForwardIt (str "#") = UndefinedBehaviour
  /\ find_all r ForwardIt (str "b") = UndefinedBehaviour
  /\ opens [] (tree "(?:^a)*?b") = false /\ opens [F_ungreedy] (tree "(?:^a)*?b") = true
  /\ opens [] (tree "(?:a|^b)") = false.
Proof.
  do 2 (split; [vm_compute; reflexivity|]). do 2 (split; [eexists; split; vm_compute; reflexivity|]).
  repeat split; vm_compute; reflexivity.
Qed.

(** C56, a further part of the full statement: [^] only where nothing has been taken
    yet ([initial_lines], on the tree).  Matching at the beginning is then defined on
    forward ranges and is that with [\A] instead of each [^] ([to_input]); for
    expressions that open with [^] ([opens]), the result at the beginning says which of
    the other calls are undefined and what they give otherwise. *)
Theorem C56_first_line_starts_exact : forall n fl s ct,
  let r := mk_regex n fl in let q := mk_regex (to_input n) fl in
  initial_lines n = true -> usable q ForwardIt ->
  regex_match r ForwardIt s = regex_match q ForwardIt s
  /\ regex_match_prefix r ForwardIt s = regex_match_prefix q ForwardIt s
  /\ agree (regex_match r ForwardIt s) (regex_match r ct s)
  /\ agree (regex_match_prefix r ForwardIt s) (regex_match_prefix r ct s)
  /\ (flag_test fl F_multiline = true -> opens fl n = true ->
      exists a e, regex_match_prefix r ForwardIt s = Returned a
      /\ group0 (groups a) = Some (0, e)
      /\ (matched a = true -> regex_search r ForwardIt s = Returned a)
      /\ (matched a = false -> s <> [] ->
           regex_search r ForwardIt s = UndefinedBehaviour /\ find_all r ForwardIt s = UndefinedBehaviour)
      /\ (matched a = true -> e <> 0 ->
           find_all r ForwardIt s = UndefinedBehaviour /\ tokenize r ForwardIt s = UndefinedBehaviour)
      /\ (matched a = true -> e = 0 ->
           find_all r ForwardIt s = Returned [a] /\ tokenize r ForwardIt s = Returned [a])
      /\ (matched a = false -> tokenize r ForwardIt s = Returned [])).
Proof. exact first_calls. Qed.
Print Assumptions C56_first_line_starts_exact.

Example C56_first_line_starts_example :
  let n := tree "(?!^#)(?:(?<k>^a|^(?=^b))?c|^d)(e*)" in let r := mk_regex n [F_multiline] in
  initial_lines n = true /\ usable (mk_regex (to_input n) [F_multiline]) ForwardIt
  /\ line_starts r = true
  /\ (exists a, regex_match r ForwardIt (str "acee") = Returned a /\ matched a = true)
  /\ initial_lines (tree "a^b") = false /\ initial_lines (tree "(?:^a)*") = false
  /\ initial_lines (tree "(?:^a){0,1}b*") = true.
Proof.
  split; [vm_compute; reflexivity|]. split; [show_usable|]. split; [vm_compute; reflexivity|].
  split; [eexists; split; vm_compute; reflexivity|]. repeat split; vm_compute; reflexivity.
Qed.

(** With expressions that open so: all the cases. *)
Example C56_first_line_starts_calls :
  let n := tree "^(?:a|(?=b))" in let r := mk_regex n [F_multiline] in
  initial_lines n = true /\ usable (mk_regex (to_input n) [F_multiline]) ForwardIt
  /\ opens [F_multiline] n = true
  /\ regex_search r ForwardIt (str "c") = UndefinedBehaviour
  /\ tokenize r ForwardIt (str "c") = Returned []
  /\ find_all r ForwardIt (str "ac") = UndefinedBehaviour
  /\ tokenize r ForwardIt (str "ac") = UndefinedBehaviour
  /\ (exists a, find_all r ForwardIt (str "b") = Returned [a] /\ group0 (groups a) = Some (0, 0))
  /\ (exists a, regex_search r ForwardIt (str "ac") = Returned a /\ group0 (groups a) = Some (0, 1)).
Proof.
  split; [vm_compute; reflexivity|]. split; [show_usable|]. do 5 (split; [vm_compute; reflexivity|]).
  split; eexists; split; vm_compute; reflexivity.
Qed.

(** C57.  [upper_code] etc.: the ranges of codes 65-90, 97-122 and 48-57. *)
Theorem C57_character_helpers : forall c,
  let x := N_of_ascii c in
  is_upper c = upper_code x /\ is_lower c = lower_code x /\ is_digit c = digit_code x
  /\ is_alpha c = (upper_code x || lower_code x)
  /\ is_word c = (upper_code x || lower_code x || digit_code x || N.eqb x 95)
  /\ is_hexdigit c = (digit_code x || (N.leb 65 x && N.leb x 70) || (N.leb 97 x && N.leb x 102))
  /\ N_of_ascii (to_lower c) = (if upper_code x then x + 32 else x)%N
  /\ N_of_ascii (to_upper c) = (if lower_code x then x - 32 else x)%N
  /\ N_of_ascii (invert_case c) = (if upper_code x then x + 32 else if lower_code x then x - 32 else x)%N.
Proof. exact helpers. Qed.
Print Assumptions C57_character_helpers.

Example C57_example :
  to_lower "Q" = "q"%char /\ to_lower "[" = "["%char /\ to_upper "{" = "{"%char
  /\ is_hexdigit "F" = true /\ is_hexdigit "g" = false /\ is_alpha "200" = false.
Proof. repeat split; reflexivity. Qed.

(** C53: [has_name] and [name] of the groups of a pattern, by the parentheses in
    its text ([scan]); comparing a result with a truth value. *)
Theorem C53_names : forall p n,
  parse p = P_ok n ->
  map (fun nm => (has_name nm, capture_name nm)) (group_names n)
  = (false, []) :: map (fun nm => match nm with Some t => (true, t) | None => (false, []) end) (scan InText p).
Proof. exact names_of_groups. Qed.
Print Assumptions C53_names.

Theorem C53_result_equals : forall res b, result_equals res b = true <-> matched res = b.
Proof. intros res b. apply Bool.eqb_true_iff. Qed.
Print Assumptions C53_result_equals.

Example C53_names_example :
  exists n, parse (str "a(b)(?<year>[(])") = P_ok n
  /\ map has_name (group_names n) = [false; false; true]
  /\ map capture_name (group_names n) = [[]; []; str "year"].
Proof. eexists. split; [vm_compute; reflexivity|]. split; reflexivity. Qed.

(** C42: a regex without its flags. *)
Theorem C42_clearing_flags : forall r extra ct s,
  same_calls (clear_flags (add_flags r extra)) (mk_regex (ast r) []) ct s s.
Proof. intros. repeat split. Qed.
Print Assumptions C42_clearing_flags.

Example C42_clearing_example :
  let r := rx "a" [F_icase] in
  regex_match (clear_flags (add_flags r [F_dotall])) RandomAccessIt (str "A")
  <> regex_match (add_flags r [F_dotall]) RandomAccessIt (str "A").
Proof. vm_compute. discriminate. Qed.
