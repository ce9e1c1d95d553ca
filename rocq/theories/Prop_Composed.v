(** Composed expressions (C59) and the expressions in the documentation (C60). *)
From Verif Require Import Examples Xpr Parser Spec Calls Equiv Regroup Pairs Syntax Print Literal Expressions Composed.

(** C59, full statement: the same without the condition on the numbers of the
    groups (false: finding F25) and without the last condition.  [sensible]:
    accepted patterns, proper names, numbers of type [std::size_t], at least one
    operand, negation of classes, word boundaries and lookarounds only.
    [numbered]: the captures carry the numbers 1, 2, … in the order of their
    opening, each alternative starting with the same number. *)
Theorem C59_expressions_partial : forall e fl ct s,
  sensible e -> numbered 1 e ->
  backref_free (built e) = true \/ tame e ->
  exists n, parse (spelled e) = P_ok n /\ indistinguishable n (built e) fl ct s.
Proof. exact numbered_agree. Qed.
Print Assumptions C59_expressions_partial.

(** Two nested alternations, two groups, a backreference, bounds, a lookbehind
    and negations. *)
Definition C59_expression : expr :=
  E_concat
    [E_capture 1 (Some (str "year")) [E_between 2 4 Lazy [E_terminal T_digit]];
     E_either [E_regex (str "-+"); E_concat [E_chr "/"; E_negate (E_chr ")")];
               E_either [E_str (str "*)"); E_terminal T_empty]];
     E_capture 2 None [E_one_or_more Possessive [E_negate (E_terminal T_upper); E_terminal T_wildcard]];
     E_negate (E_behind [E_range "0" "9"]); E_group_named (str "year"); E_group 2].

Example C59_example :
  sensible C59_expression /\ numbered 1 C59_expression
  /\ tame C59_expression
  /\ spelled C59_expression = str
       "(?:(?<year>(?:(?:(?:\d)){2,4}?)))(?:(?:-+)|(?:(?:\x2f)(?:[^\x29]))|(?:(?:\x2a\x29)|(?:)))(?:((?:(?:(?:[^A-Z])(?:.))++)))(?:(?<!(?:[\x30-\x39])))(?:\k<year>)(?:\2)"%string.
Proof.
  vm_compute. repeat split; try (intros H; discriminate H); [eexists; reflexivity|now right].
Qed.

(** An alternation in the middle, with a backreference. *)
Example C59_alternation_example :
  let e := E_concat [E_capture 1 None [E_terminal T_wildcard];
    E_either [E_str (str "ab"); E_regex (str "cd|e"); E_group 1; E_regex (str "f|f")]] in
  sensible e /\ numbered 1 e /\ tame e /\ backref_free (built e) = false
  /\ exists res, regex_match (mk_regex (built e) []) RandomAccessIt (str "xx") = Returned res /\ matched res = true.
Proof.
  cbv zeta. split.
  - repeat split; try discriminate; eexists; vm_compute; reflexivity.
  - split; [vm_compute; repeat split; (now left) || (now right)|]. split; [|split; [vm_compute; reflexivity|eexists; split; vm_compute; reflexivity]].
    vm_compute. repeat split. right. repeat split; discriminate.
Qed.

(** Finding F25: [xpr::regex] keeps the numbers of the groups of its pattern, so
    two of them put together share the number 1. *)
Theorem C59_expressions_refuted :
  exists e n s res1 res2,
    sensible e /\ tame e /\ e = E_concat [E_regex (str "(a)"); E_regex (str "(b)")]
    /\ parse (spelled e) = P_ok n
    /\ regex_match (mk_regex n []) RandomAccessIt s = Returned res1
    /\ regex_match (mk_regex (built e) []) RandomAccessIt s = Returned res2
    /\ matched res1 = true /\ matched res2 = true
    /\ groups res1 = [Some (0, 2); Some (0, 1); Some (1, 2)] /\ groups res2 = [Some (0, 2); Some (1, 2); None].
Proof.
  eexists (E_concat [E_regex (str "(a)"); E_regex (str "(b)")]), _, (str "ab"), _, _.
  split; [|repeat split; vm_compute; reflexivity].
  split; [discriminate|]. split; [eexists; vm_compute; reflexivity|]. split; [eexists; vm_compute; reflexivity|exact I].
Qed.
Print Assumptions C59_expressions_refuted.

(** ** The documented expressions *)

(** README.md:84. *)
Definition word_expression : expr :=
  E_concat [E_one_or_more Greedy [E_terminal T_word]; E_negate (E_ahead [E_terminal T_word])].

(** README.md:93-96, example/using_expressions.cpp:26-29; the operators take two
    operands. *)
Definition url_expression : expr :=
  let schema := E_either [E_either [E_str (str "ftp"); E_str (str "ssh")]; E_regex (str "https?")] in
  let domain := E_concat [E_one_or_more Greedy [E_regex (str "[-.a-z]")]; E_str (str ".com")] in
  let path := E_concat [E_chr "/"; E_zero_or_more Greedy [E_negate (E_terminal T_whitespace)]] in
  E_concat [E_concat [E_concat [schema; E_str (str "://")]; E_capture 1 (Some (str "domain")) [domain]];
            E_maybe Greedy [path]].

(** C60, full statement: both expressions are the patterns given for them in
    README.md:79 and README.md:92.  That is false of the second one (finding F26,
    below), which is the pattern here instead. *)
Theorem C60_documented_partial : forall fl ct s,
  (exists n, parse (str "\w+(?!\w)"%string) = P_ok n /\ indistinguishable n (built word_expression) fl ct s)
  /\ (exists n, parse (str "(?:ftp|ssh|https?)://(?<domain>[-.a-z]+\.com)(?:/\S*)?"%string) = P_ok n
      /\ indistinguishable n (built url_expression) fl ct s).
Proof.
  intros fl ct s. split; eexists.
  - split; [vm_compute; reflexivity|]. apply regrouped_agree, rgd_refl.
  - split; [vm_compute; reflexivity|]. apply regrouped_agree, rgd_refl.
Qed.
Print Assumptions C60_documented_partial.

Example C60_example :
  regex_match (mk_regex (built word_expression) []) RandomAccessIt (str "a_1")
    = Returned (mk_res [Some (0, 3)] true)
  /\ regex_match (mk_regex (built url_expression) []) RandomAccessIt (str "https://google.com")
    = Returned (mk_res [Some (0, 18); Some (8, 18)] true).
Proof. split; vm_compute; reflexivity. Qed.

(** Finding F26: the documented pattern asks for a colon in front of each
    character of the domain, repeats the group instead of its content, and
    leaves ".com" out of it with a wildcard for the dot. *)
Theorem C60_documented_refuted :
  exists n s1 s2 res1 res2 res3 res4,
    parse (str "(?:ftp|ssh|https?)://(?<domain>:[-.a-z])+.com(?:/\S*)?"%string) = P_ok n
    /\ s1 = str "https://google.com"%string /\ s2 = str "ftp://:a:b!com"%string
    /\ regex_match (mk_regex (built url_expression) []) RandomAccessIt s1 = Returned res1 /\ matched res1 = true
    /\ regex_match (mk_regex n []) RandomAccessIt s1 = Returned res2 /\ matched res2 = false
    /\ regex_match (mk_regex (built url_expression) []) RandomAccessIt s2 = Returned res3 /\ matched res3 = false
    /\ regex_match (mk_regex n []) RandomAccessIt s2 = Returned res4 /\ matched res4 = true.
Proof. do 7 eexists. repeat split; vm_compute; reflexivity. Qed.
Print Assumptions C60_documented_refuted.
