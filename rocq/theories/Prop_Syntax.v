(** Properties of the pattern syntax: C31-C35. *)
From Verif Require Import Examples.
From Verif Require Import Syntax Reading Accepted Print Literal Sets Braces BraceGroups.

(** C31.  Bytes in hexadecimal, in any spelling of the digits. *)
Theorem C31_hex_escapes_match_exactly : forall t digits fl ct s,
  hex_digits_of digits -> ~ In F_icase fl ->
  exists n, parse (in_hex t digits) = P_ok n
    /\ returns (regex_match (mk_regex n fl) ct s) (fun res => matched res = true <-> s = t).
Proof. intros t digits fl ct s H. exact (spelled_match_exact _ t fl ct s (in_hex_spells t digits H)). Qed.
Print Assumptions C31_hex_escapes_match_exactly.

(** The text itself, when it has none of the metacharacters. *)
Theorem C31_plain_text_matches_exactly : forall t fl ct s,
  forallb (fun c => negb (existsb (Ascii.eqb c) (str "\[(){|*+?.^$"))) t = true -> ~ In F_icase fl ->
  exists n, parse t = P_ok n
    /\ returns (regex_match (mk_regex n fl) ct s) (fun res => matched res = true <-> s = t).
Proof. intros t fl ct s H. exact (spelled_match_exact t t fl ct s (plain_spells t H)). Qed.
Print Assumptions C31_plain_text_matches_exactly.

(** Any mixture of plain characters and escapes, and any flags. *)
Theorem C31_spelled_text_matches : forall p t fl ct s,
  spells p t ->
  exists n, parse p = P_ok n
    /\ returns (regex_match (mk_regex n fl) ct s) (fun res =>
         matched res = true <-> Forall2 (same_letter (flag_test fl F_icase)) t s).
Proof. exact spelled_match. Qed.
Print Assumptions C31_spelled_text_matches.

Example C31_example :
  hex_digits_of (fun c => (hex_digit (code c / 16), hex_digit (code c mod 16)))
  /\ in_hex (str "a{") (fun c => (hex_digit (code c / 16), hex_digit (code c mod 16))) = str "\x61\x7b"
  /\ spells (str "a\*\x2A\n}") (str "a**" ++ ["010"; "}"]%char).
Proof.
  split; [|split].
  - intros c. destruct (hex_nibbles c) as (H1 & H2 & _). do 2 eexists. split; [exact H1|]. split; [exact H2|].
    apply N.div_mod. discriminate.
  - vm_compute. reflexivity.
  - apply spell_char; [reflexivity|]. apply (spell_escape (str "\*")); [now apply ce_self|].
    apply (spell_escape (str "\x2A") (ascii_of_N (16 * 2 + 10))); [constructor; cbn; tauto|].
    apply (spell_escape (str "\n")); [apply ce_named; cbn; tauto|].
    apply spell_char; [reflexivity|]. constructor.
Qed.

(** C32, full statement: without the bound on the numbers.  The code computes
    them in [std::size_t], modulo 2^64 (finding F9). *)
Theorem C32_counts_as_written_partial : forall b n q nums P md,
  parse b = P_ok n -> counts q nums P -> Forall (fun k => k < 2 ^ 64)%N nums ->
  exists r, parse (str "(?:" ++ b ++ str ")" ++ q ++ mode_text md) = P_ok r
    /\ forall fl ct s, usable (mk_regex r fl) ct -> regular r = true -> possessive_free r = true ->
         returns (regex_match (mk_regex r fl) ct s) (fun res =>
           matched res = true <->
           exists k, P (N.of_nat k) /\ iterate (matches (config_of fl ct) s n) k 0 (length s)).
Proof. exact counted_match. Qed.
Print Assumptions C32_counts_as_written_partial.

Theorem C32_backreference_numbers_partial : forall d ds,
  is_digit d = true -> d <> "0"%char -> forallb is_digit ds = true -> (decimal (d :: ds) < 2 ^ 64)%N ->
  parse (str "\" ++ d :: ds) = P_ok (Backref (decimal (d :: ds))).
Proof. exact numbered_backref. Qed.
Print Assumptions C32_backreference_numbers_partial.

(** a{18446744073709551617} stands for a{1}. *)
Theorem C32_counts_as_written_refuted :
  exists q nums P r res, counts q nums P
    /\ parse (str "(?:a)" ++ q) = P_ok r
    /\ usable (mk_regex r []) RandomAccessIt
    /\ regex_match (mk_regex r []) RandomAccessIt (str "a") = Returned res
    /\ matched res = true /\ ~ P 1%N.
Proof.
  exists (str "{18446744073709551617}"), [decimal (str "18446744073709551617")],
    (fun k => k = decimal (str "18446744073709551617")). do 2 eexists.
  split; [apply (counts_exact (str "18446744073709551617")); split; [discriminate|reflexivity]|].
  split; [vm_compute; reflexivity|]. split; [show_usable|]. split; [vm_compute; reflexivity|].
  split; [reflexivity|]. vm_compute. discriminate.
Qed.
Print Assumptions C32_counts_as_written_refuted.

Example C32_example :
  counts (str "{02,17}") [decimal (str "02"); decimal (str "17")] (fun k => decimal (str "02") <= k <= decimal (str "17"))%N
  /\ decimal (str "02") = 2%N /\ decimal (str "17") = 17%N
  /\ usable (rx "(?:a|bc){02,17}" []) RandomAccessIt
  /\ regular (tree "(?:a|bc){02,17}") = true /\ possessive_free (tree "(?:a|bc){02,17}") = true.
Proof.
  split; [apply (counts_range (str "02") (str "17")); split; try discriminate; reflexivity|].
  split; [reflexivity|]. split; [reflexivity|]. split; [show_usable|]. split; reflexivity.
Qed.

(** What the code does with numbers of any size, pattern by pattern. *)
Theorem C32_counts_exact : forall b n ds es md, parse b = P_ok n -> numeral_text ds -> numeral_text es ->
  let lo := (decimal ds mod 2 ^ 64)%N in let hi := (decimal es mod 2 ^ 64)%N in
  let q := fun t => str "(?:" ++ b ++ str ")" ++ t ++ mode_text md in
  parse (q (str "{" ++ ds ++ str "}")) = P_ok (Rep md lo (Fin lo) n)
  /\ parse (q (str "{" ++ ds ++ str ",}")) = P_ok (Rep md lo Inf n)
  /\ parse (q (str "{" ++ ds ++ str "," ++ es ++ str "}")) = P_ok (Rep md lo (Fin hi) n).
Proof. exact counted_exactly. Qed.
Print Assumptions C32_counts_exact.

Theorem C32_backreference_numbers_exact : forall d ds,
  is_digit d = true -> d <> "0"%char -> forallb is_digit ds = true ->
  parse (str "\" ++ d :: ds) = P_ok (Backref (decimal (d :: ds) mod 2 ^ 64)).
Proof. exact backref_exactly. Qed.
Print Assumptions C32_backreference_numbers_exact.

(** The largest number wraps to 2^64 - 1, the next one to group 0. *)
Example C32_exact_example :
  numeral_text (str "18446744073709551616") /\ (decimal (str "18446744073709551616") mod 2 ^ 64 = 0)%N
  /\ parse (str "(a)\18446744073709551616") = P_ok (Seq [Cap 1 None (Lit "a"); Backref 0])
  /\ parse (str "a{18446744073709551615}") = P_ok (Rep Greedy (2 ^ 64 - 1) (Fin (2 ^ 64 - 1)) (Lit "a")).
Proof.
  split; [split; [discriminate|reflexivity]|]. repeat split; vm_compute; reflexivity.
Qed.

(** C33, full statement: without the condition on alternations.  [unescaped p1]:
    the brace itself is not escaped.  [no_bar]: no alternation between the brace
    and the end of its group; such an alternation is taken together with the
    brace and the character in front of it (finding F7). *)
Theorem C33_brace_is_literal_partial : forall p1 p2 n,
  unescaped p1 = true -> match p2 with [] => True | c :: _ => is_digit c = false end ->
  no_bar Outside 0 p2 = true ->
  parse (p1 ++ str "{" ++ p2) = P_ok n -> parse (p1 ++ str "\{" ++ p2) = P_ok n.
Proof. exact brace_is_literal. Qed.
Print Assumptions C33_brace_is_literal_partial.

(** [ab{x|c] matches "ac" and not "c"; [ab\{x|c] the other way round. *)
Theorem C33_brace_is_literal_refuted :
  exists p1 p2 n n' s res res',
    unescaped p1 = true /\ match p2 with [] => True | c :: _ => is_digit c = false end
    /\ parse (p1 ++ str "{" ++ p2) = P_ok n /\ parse (p1 ++ str "\{" ++ p2) = P_ok n'
    /\ regex_match (mk_regex n []) RandomAccessIt s = Returned res /\ matched res = false
    /\ regex_match (mk_regex n' []) RandomAccessIt s = Returned res' /\ matched res' = true.
Proof.
  exists (str "ab"), (str "x|c"). do 2 eexists. exists (str "c"). do 2 eexists.
  split; [reflexivity|]. split; [reflexivity|].
  split; [vm_compute; reflexivity|]. split; [vm_compute; reflexivity|].
  split; [vm_compute; reflexivity|]. split; [reflexivity|].
  split; [vm_compute; reflexivity|]. reflexivity.
Qed.
Print Assumptions C33_brace_is_literal_refuted.

Example C33_example :
  no_bar Outside 0 (str "x(?:y|z)[|]{,3}\|)|w") = true
  /\ exists n, parse (str "(ab{x(?:y|z)[|]{,3}\|)|w") = P_ok n.
Proof. split; [reflexivity|]. eexists. vm_compute. reflexivity. Qed.

(** What such a brace stands for in every accepted pattern.  [scan] reads from the left
    and knows whether it is in a set.  In a set the brace is a character.  Elsewhere the
    piece [u] in front of it, the brace and the text [m] up to the end of the group (or
    of the pattern) form a group of their own. *)
Theorem C33_brace_exact : forall p1 p2 n,
  unescaped p1 = true -> match p2 with [] => True | c :: _ => is_digit c = false end ->
  parse (p1 ++ str "{" ++ p2) = P_ok n ->
  (scan Outside p1 = Inside /\ parse (p1 ++ str "\{" ++ p2) = P_ok n)
  \/ (scan Outside p1 = Outside
      /\ exists p0 u u' m p3 y, p1 = p0 ++ u /\ p2 = m ++ p3 /\ lead u u'
           /\ parse (u' ++ str "\{" ++ m) = P_ok y /\ (p3 = [] \/ hd_error p3 = Some ")"%char)
           /\ parse (p0 ++ str "(?:" ++ u' ++ str "\{" ++ m ++ str ")" ++ p3) = P_ok n).
Proof. exact brace_meaning. Qed.
Print Assumptions C33_brace_exact.

(** With an alternation behind the brace, in a group. *)
Example C33_exact_example :
  parse (str "(x|ab{y|c)d") = parse (str "(x|a(?:b\{y|c))d")
  /\ (exists n, parse (str "(x|ab" ++ str "{" ++ str "y|c)d") = P_ok n)
  /\ unescaped (str "(x|ab") = true /\ scan Outside (str "(x|ab") = Outside
  /\ scan Outside (str "x[a") = Inside.
Proof. repeat split; try reflexivity. eexists. vm_compute. reflexivity. Qed.

(** C34, full statement: without [simple_class_dash].  [its]: the items in the
    order of the text; [covers]: the bytes of an item.  A dash between a class
    and something else is only read as documented when a single character
    follows and the class is not \R (findings F8 and F17). *)
Theorem C34_set_is_union_partial : forall its fl ct s,
  Forall well_written its -> dashes_ok None its = true -> simple_class_dash None its = true ->
  ~ In F_icase fl ->
  (hd_error (flat_map written its) <> Some "^"%char ->
   exists n, parse (str "[" ++ flat_map written its ++ str "]") = P_ok n
     /\ returns (regex_match (mk_regex n fl) ct s) (fun res =>
          matched res = match s with [a] => existsb (fun x => covers x a) its | _ => false end))
  /\ exists n, parse (str "[^" ++ flat_map written its ++ str "]") = P_ok n
     /\ returns (regex_match (mk_regex n fl) ct s) (fun res =>
          matched res = match s with [a] => negb (existsb (fun x => covers x a) its) | _ => false end).
Proof. exact written_set_match. Qed.
Print Assumptions C34_set_is_union_partial.

(** [\R-a] accepts "0"; [\d-a-z] does not accept "b"; [\d-\w] is rejected. *)
Theorem C34_set_is_union_refuted :
  let good its := Forall well_written its /\ dashes_ok None its = true in
  (exists its n s res, good its /\ parse (str "[" ++ flat_map written its ++ str "]") = P_ok n
     /\ regex_match (mk_regex n []) RandomAccessIt s = Returned res /\ matched res = true
     /\ forall a, s = [a] -> existsb (fun x => covers x a) its = false)
  /\ (exists its n a res, good its /\ parse (str "[" ++ flat_map written its ++ str "]") = P_ok n
     /\ regex_match (mk_regex n []) RandomAccessIt [a] = Returned res /\ matched res = false
     /\ existsb (fun x => covers x a) its = true)
  /\ exists its i, good its /\ parse (str "[" ++ flat_map written its ++ str "]") = P_error i.
Proof.
  intros good. split; [|split].
  - exists [Class "R"; Dash; One (str "a") "a"]%char. eexists. exists (str "0"). eexists.
    split; [split; [|reflexivity]|].
    { apply Forall_cons; [cbn; tauto|]. apply Forall_cons; [exact I|]. apply Forall_cons; [|apply Forall_nil].
      left. split; reflexivity. }
    split; [vm_compute; reflexivity|]. split; [vm_compute; reflexivity|]. split; [reflexivity|].
    intros a E. injection E as <-. reflexivity.
  - exists [Class "d"; Dash; Span (str "a") "a" (str "z") "z"]%char. eexists. exists "b"%char. eexists.
    split; [split; [|reflexivity]|].
    { apply Forall_cons; [cbn; tauto|]. apply Forall_cons; [exact I|]. apply Forall_cons; [|apply Forall_nil].
      split; [left; split; reflexivity|]. split; [now apply range_plain|]. vm_compute. discriminate. }
    split; [vm_compute; reflexivity|]. split; [vm_compute; reflexivity|]. split; reflexivity.
  - exists [Class "d"; Dash; Class "w"]%char, 5.
    split; [split; [|reflexivity]|].
    { apply Forall_cons; [cbn; tauto|]. apply Forall_cons; [exact I|]. apply Forall_cons; [cbn; tauto|apply Forall_nil]. }
    vm_compute. reflexivity.
Qed.
Print Assumptions C34_set_is_union_refuted.

(** What every accepted text between brackets stands for: [set_body] (Syntax.v) reads it
    from left to right into elements. *)
Theorem C34_set_exact : forall t l fl ct s, set_body true [] t l ->
  (hd_error t <> Some "^"%char ->
   parse (str "[" ++ t ++ str "]") = P_ok (CSet l)
   /\ (usable (mk_regex (CSet l) fl) ct -> returns (regex_match (mk_regex (CSet l) fl) ct s) (fun res =>
         matched res = match s with [a] => existsb (fun x => accepts (config_of fl ct) x a) l | _ => false end)))
  /\ parse (str "[^" ++ t ++ str "]") = P_ok (Neg (CSet l))
  /\ (usable (mk_regex (Neg (CSet l)) fl) ct -> returns (regex_match (mk_regex (Neg (CSet l)) fl) ct s) (fun res =>
        matched res = match s with [a] => negb (existsb (fun x => accepts (config_of fl ct) x a) l) | _ => false end)).
Proof. exact set_text_match. Qed.
Print Assumptions C34_set_exact.

(** \R counts as its last character, behind a class only one character is taken. *)
Example C34_exact_example :
  set_body true [] (str "\R-a\d-a-z") [Lit "z"; Lit "-"; Lit "a"; Lit "-"; Range "0" "9"; Range "010" "a"; Lit "013"]%char
  /\ parse (str "[\R-a\d-a-z]")
     = P_ok (CSet [Lit "z"; Lit "-"; Lit "a"; Lit "-"; Range "0" "9"; Range "010" "a"; Lit "013"]%char).
Proof.
  split; [|vm_compute; reflexivity].
  apply (set_class true [] (str "\R") n_linebreak); [constructor; cbn; tauto|].
  apply (set_range _ _ (str "a") "a"%char); [now apply range_plain|].
  apply (set_class true _ (str "\d") n_digit); [constructor; cbn; tauto|].
  apply (set_class_dash _ _ (str "a") "a"%char); [reflexivity|now apply range_plain|].
  apply set_dash, set_char; [reflexivity|]. apply set_end.
Qed.

(** The set [-a\x5D0-9-\w-$!-/-]. *)
Example C34_example :
  let its := [Dash; One (str "a") "a"; One (str "\x5D") "]"; Span (str "0") "0" (str "9") "9"; Dash; Class "w"; Dash;
              One (str "$") "$"; Span (str "!") "!" (str "\/") "/"; Dash]%char in
  Forall well_written its /\ dashes_ok None its = true /\ simple_class_dash None its = true
  /\ flat_map written its = str "-a\x5D0-9-\w-$!-\/-".
Proof.
  intros its. split; [|split; [|split]]; try reflexivity. unfold its.
  repeat (apply Forall_cons); try apply Forall_nil; try exact I; cbn [well_written].
  - left. split; reflexivity.
  - right. apply (ce_hex _ _ "5"%char "D"%char 5%N 13%N); cbn; tauto.
  - split; [left; split; reflexivity|]. split; [now apply range_plain|]. vm_compute. discriminate.
  - cbn. tauto.
  - left. split; reflexivity.
  - split; [left; split; reflexivity|]. split; [apply range_escape; now apply ce_self|]. vm_compute. discriminate.
Qed.

(** C35.  [printable]: the trees of the grammar; [print 0 n]: the tree as a
    pattern; [index_captures n]: the tree with its groups numbered. *)
Theorem C35_print_then_parse : forall n,
  printable n = true -> parse (print 0 n) = P_ok (index_captures n).
Proof. exact parse_print. Qed.
Print Assumptions C35_print_then_parse.

Theorem C35_parse_then_print : forall p n,
  parse p = P_ok n -> parse (print 0 n) = P_ok n.
Proof. exact parse_print_parse. Qed.
Print Assumptions C35_parse_then_print.

(** These are all the trees that patterns have. *)
Theorem C35_trees_of_patterns : forall n,
  (exists p, parse p = P_ok n) <-> printable n = true /\ index_captures n = n.
Proof. exact parse_image. Qed.
Print Assumptions C35_trees_of_patterns.

(** The accepted patterns are those of the grammar in Syntax.v. *)
Theorem C35_parser_reads_the_grammar : forall p n,
  parse p = P_ok n <-> exists x, body p x /\ n = index_captures x.
Proof. exact parse_is_grammar. Qed.
Print Assumptions C35_parser_reads_the_grammar.

(** The characters of numerals and of group names that the grammar refers to. *)
Theorem C35_names_and_numerals : forall c,
  is_digit c = among c (str "0123456789")
  /\ is_word c = among c (str "ABCDEFGHIJKLMNOPQRSTUVWXYZabcdefghijklmnopqrstuvwxyz0123456789_").
Proof. intros c. split; sweep c. Qed.
Print Assumptions C35_names_and_numerals.

Example C35_example :
  let n := Seq [Alt [Lit "a"; Empty; Seq [Rep Lazy 2 Inf (CSet [Lit "z"; Range "0" "9"]); Wild]];
                Neg (Look Behind (Alt [Cap 0 (Some (str "q")) (Lit "*"); BeginLine]));
                Rep Possessive 0 (Fin 3) (Cap 0 None (Seq [Backref 1; EndLine]))]%char%N in
  printable n = true
  /\ print 0 n = str "(?:a|(?:)|[\x30-\x39\x7a]{2,}?.)(?<!(?<q>\x2a)|^)(\1$){0,3}+".
Proof. split; vm_compute; reflexivity. Qed.
