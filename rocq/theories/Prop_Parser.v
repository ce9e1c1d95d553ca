(** Properties of the parser: C23, C24, C29, C30, C44. *)
From Verif Require Import Examples.
From Verif Require Import Typing Shape Scan Steps Parsed Syntax Stuck Compile Numbering.

(** C23, full statement: for every accepted pattern the i-th group of the tree
    is numbered i.  False of the code when two branches of an alternation
    contain groups (finding F1); proved when at most one branch does.
    [caps_in n]: numbers and names of the groups of [n] from left to right;
    [scan InText p]: names of the capturing parentheses of the text [p]. *)
Theorem C23_groups_numbered_in_order_partial : forall p n,
  parse p = P_ok n -> one_branch n = true ->
  caps_in n = combine (numbers 1 (length (scan InText p))) (scan InText p).
Proof. exact parse_groups. Qed.
Print Assumptions C23_groups_numbered_in_order_partial.

Theorem C23_groups_numbered_in_order_refuted :
  exists p n, parse p = P_ok n
    /\ map snd (caps_in n) = [None; None]
    /\ map fst (caps_in n) = [1; 1]%N
    /\ exists res, regex_match (mk_regex n []) RandomAccessIt (str "b") = Returned res
         /\ matched res = true /\ groups res = [Some (0, 1); Some (0, 1); None].
Proof.
  exists (str "(a)|(b)"). eexists. split; [vm_compute; reflexivity|].
  repeat split; try (vm_compute; reflexivity). eexists. split; [vm_compute; reflexivity|]. now split.
Qed.
Print Assumptions C23_groups_numbered_in_order_refuted.

Example C23_example :
  one_branch (tree "((?<x>a)|b)(?=\((c[(]))(?:d)*") = true
  /\ caps_in (tree "((?<x>a)|b)(?=\((c[(]))(?:d)*") = [(1, None); (2, Some (str "x")); (3, None)]%N.
Proof. split; vm_compute; reflexivity. Qed.

(** C23, what is true of every accepted pattern.  [places n]: the groups of [n] from
    left to right, with the way to each; [counted]: a group is numbered one more than
    there are groups in front of it, not counting those in other branches of an
    alternation around it ([apart]). *)
Theorem C23_numbers_exact : forall p n, parse p = P_ok n ->
  caps_in n = counted [] (places n) /\ map snd (places n) = scan InText p.
Proof. exact parsed_numbers. Qed.
Print Assumptions C23_numbers_exact.

Example C23_exact_example :
  let p := str "(a)(?:(b)|(?<y>c(d))|e)(f)" in
  parse p = P_ok (tree "(a)(?:(b)|(?<y>c(d))|e)(f)")
  /\ map fst (places (tree "(a)(?:(b)|(?<y>c(d))|e)(f)"))
     = [[Part 0]; [Part 1; Branch 0]; [Part 1; Branch 1]; [Part 1; Branch 1; Part 0; Part 1]; [Part 2]]
  /\ counted [] (places (tree "(a)(?:(b)|(?<y>c(d))|e)(f)"))
     = [(1, None); (2, None); (2, Some (str "y")); (3, None); (5, None)]%N.
Proof. repeat split; vm_compute; reflexivity. Qed.

(** C24. *)
Theorem C24_groups_are_parentheses : forall p n,
  parse p = P_ok n -> group_names n = None :: scan InText p.
Proof. exact parse_group_names. Qed.
Print Assumptions C24_groups_are_parentheses.

Theorem C24_group_count : forall p n fl ct s,
  parse p = P_ok n -> usable (mk_regex n fl) ct ->
  let fine res := group_count res = S (length (scan InText p)) in
  (exists res, regex_match (mk_regex n fl) ct s = Returned res /\ fine res)
  /\ (exists res, regex_match_prefix (mk_regex n fl) ct s = Returned res /\ fine res)
  /\ (exists res, regex_search (mk_regex n fl) ct s = Returned res /\ fine res)
  /\ (exists l, tokenize (mk_regex n fl) ct s = Returned l /\ Forall fine l)
  /\ (exists l, find_all (mk_regex n fl) ct s = Returned l /\ Forall fine l).
Proof. exact parse_group_count. Qed.
Print Assumptions C24_group_count.

Example C24_example :
  let p := "\((?:a(b(?<n>c)))[(\]](?!(d))"%string in
  usable (rx p []) RandomAccessIt
  /\ scan InText (str p) = [None; Some (str "n"); None].
Proof. split; [show_usable|vm_compute; reflexivity]. Qed.

(** C29, full statement: [parse p] is [P_ok n] or [P_error i] with
    [i <= length p].  False for patterns that end behind the opening of a
    lookaround, atomic or named group (finding F14); they are the only
    exceptions. *)
Theorem C29_parser_verdict_partial : forall p,
  match parse p with
  | P_ok n => True
  | P_error i => i <= length p
  | P_stuck => exists q c, p = q ++ [c] /\ (c = "=" \/ c = "!" \/ c = ">")%char
  | P_loop => False
  end.
Proof. exact parse_total. Qed.
Print Assumptions C29_parser_verdict_partial.

Theorem C29_parser_verdict_refuted :
  Forall (fun p => parse p = P_stuck)
    [str "(?="; str "(?!"; str "(?>"; str "(?<="; str "(?<!"; str "(?<n>"].
Proof. repeat constructor; vm_compute; reflexivity. Qed.
Print Assumptions C29_parser_verdict_refuted.

Example C29_example :
  (exists n, parse (str "a(?<n>b|c)*?[^\d-]{2,}") = P_ok n)
  /\ parse (str "ab)c") = P_error 2 /\ parse (str "(a") = P_error 2.
Proof. split; [eexists|split]; vm_compute; reflexivity. Qed.

(** The exceptions exactly.  [openings p]: [p] is a sequence of openings of
    groups (Syntax.v), the last one neither [(] nor [(?:]. *)
Theorem C29_stuck_exactly : forall p, parse p = P_stuck <-> openings p.
Proof. exact stuck_exact. Qed.
Print Assumptions C29_stuck_exactly.

Example C29_stuck_example :
  openings (str "((?:(?<n>(?=") /\ parse (str "((?:(?<n>(?=") = P_stuck
  /\ parse (str "((?:(?<n>(") = P_error 10 /\ parse (str "a(?=") = P_error 4.
Proof.
  split; [|split; [|split]; vm_compute; reflexivity].
  apply (openings_more [] _ _ open_capture), (openings_more _ _ _ open_plain).
  apply (openings_more _ _ _ (open_name (str "n") eq_refl)).
  apply (openings_last _ _ open_ahead); discriminate.
Qed.

(** C30. *)
Theorem C30_error_is_first_offence : forall p q i,
  parse p = P_error i ->
  (forall k, k <= i -> nth_error q k = nth_error p k) ->
  parse q = P_error i.
Proof. exact parse_error_first. Qed.
Print Assumptions C30_error_is_first_offence.

Example C30_example :
  parse (str "(a|b)c**d") = P_error 7 /\ parse (str "(a|b)c**)))") = P_error 7.
Proof. split; vm_compute; reflexivity. Qed.

(** The position of an error exactly: behind the longest beginning of the
    pattern that can still be completed to a pattern of the grammar (Syntax.v). *)
Theorem C30_error_position : forall p i,
  parse p = P_error i <->
  i <= length p /\ completable (firstn i p) /\ (i < length p -> ~ completable (firstn (S i) p))
  /\ (i = length p -> ~ openings p /\ ~ exists x, body p x).
Proof. exact error_exact. Qed.
Print Assumptions C30_error_position.

Example C30_position_example :
  parse (str "(a|b") = P_error 4 /\ completable (firstn 4 (str "(a|b"))
  /\ parse (str "(a|*b)") = P_error 3 /\ completable (firstn 3 (str "(a|*b)")).
Proof.
  assert (E : forall p t, (exists n, parse (p ++ t) = P_ok n) -> completable p).
  { intros p t [n H]. apply completable_viable. now exists t, n. }
  split; [vm_compute; reflexivity|]. split; [apply (E _ (str ")")); eexists; vm_compute; reflexivity|].
  split; [vm_compute; reflexivity|]. apply (E _ (str "c)")). eexists. vm_compute. reflexivity.
Qed.

(** C44.  [shaped]: sets and negations only contain what their static checks
    allow.  [shallow]: no group below two levels of backward matching.  Full statement of the second part: without [one_branch] and
    [shallow] (findings F1 and F6). *)
Theorem C44_parsed_trees_well_shaped : forall p n,
  parse p = P_ok n ->
  shaped n = true
  /\ forall id nm, In (id, nm) (caps_in n) -> (1 <= id <= N.of_nat (capture_count n))%N.
Proof. exact parse_well_shaped. Qed.
Print Assumptions C44_parsed_trees_well_shaped.

Theorem C44_parsed_trees_compile_partial : forall p n cf,
  parse p = P_ok n -> is_bidirectional cf = true ->
  ordered n = true -> refers (group_names n) n = true ->
  one_branch n = true -> shallow 0 false n = true ->
  compilable cf n = true.
Proof. exact parse_compiles. Qed.
Print Assumptions C44_parsed_trees_compile_partial.

Theorem C44_parsed_trees_compile_refuted :
  (exists p n, parse p = P_ok n /\ ordered n = true /\ refers (group_names n) n = true
     /\ shallow 0 false n = true /\ compilable (config_of [] RandomAccessIt) n = false)
  /\ (exists p n, parse p = P_ok n /\ ordered n = true /\ refers (group_names n) n = true
     /\ one_branch n = true /\ compilable (config_of [] RandomAccessIt) n = false).
Proof.
  split.
  - exists (str "(?<a>x)|(?<b>y)"). eexists. split; [vm_compute; reflexivity|].
    repeat split; vm_compute; reflexivity.
  - exists (str "(?<=(?=(x))x)y"). eexists. split; [vm_compute; reflexivity|].
    repeat split; vm_compute; reflexivity.
Qed.
Print Assumptions C44_parsed_trees_compile_refuted.

(** Exactly which accepted patterns compile.  [part]: the parts of a tree that
    are used in matching, with the levels of backward matching above; [sound]:
    the demands of a part (Compile.v); [scan]: the groups of the text. *)
Theorem C44_compiles_exactly : forall p n cf,
  parse p = P_ok n ->
  (compilable cf n = true <->
   forall k rev x, part 0 false n k rev x ->
     sound (is_bidirectional cf) (None :: scan InText p) k rev x).
Proof. exact compiles_exactly. Qed.
Print Assumptions C44_compiles_exactly.

Example C44_compiles_exactly_example :
  compilable (config_of [] ForwardIt) (tree "a(b*)c") = true
  /\ compilable (config_of [] ForwardIt) (tree "a(b*)\b") = false
  /\ compilable (config_of [] RandomAccessIt) (tree "[b-a]") = false
  /\ compilable (config_of [] RandomAccessIt) (tree "(?:[b-a]{2,1}){0}") = true
  /\ compilable (config_of [] RandomAccessIt) (tree "(?<n>a)(?<n>b)\k<n>") = false.
Proof. repeat split; vm_compute; reflexivity. Qed.

Example C44_example :
  let n := tree "(?<q>['x])(?:\\.|[^\\\s])*?\k<q>(?<=\1(?<=(b)|c)d)e{2,3}" in
  (exists p, parse p = P_ok n) /\ ordered n = true /\ refers (group_names n) n = true
  /\ one_branch n = true /\ shallow 0 false n = true.
Proof.
  split; [exists (str "(?<q>['x])(?:\\.|[^\\\s])*?\k<q>(?<=\1(?<=(b)|c)d)e{2,3}"); vm_compute; reflexivity|].
  repeat split; vm_compute; reflexivity.
Qed.
