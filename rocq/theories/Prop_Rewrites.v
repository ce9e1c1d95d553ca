(** Property C87: rewritings that keep the matched ranges.  Each theorem is followed by
    its assumptions and by a concrete instance. *)
From Verif Require Import Matcher Api Spec Calls Equiv Examples Gaps Ordered Rewrites.
From Coq Require Import Lia.

(** C87.  [rewrites] (Rewrites.v) is the equational theory: associativity, removal of
    repeated alternatives, exchange of alternatives that exclude each other, common
    suffixes, common prefixes with one end, classes with the same characters, unfolding
    and folding of loops, atomic groups around something with one end, order of tests; used
    anywhere in a tree, in lookbehinds and possessive loops too, any number of times.
    [same_answers] (Equiv.v): the three calls return, with the same verdict and, if it is
    positive, the same range; [same_ranges]: all results have the same ranges. *)
Theorem C87_rewrites_keep_ranges : forall n1 n2 fl ct s, rewrites (config_of fl ct) false false n1 n2 ->
  let r1 := mk_regex n1 fl in let r2 := mk_regex n2 fl in
  usable r1 ct -> backref_free n1 = true -> usable r2 ct -> backref_free n2 = true ->
  same_answers r1 r2 ct s
  /\ same_ranges (tokenize r1 ct s) (tokenize r2 ct s)
  /\ same_ranges (find_all r1 ct s) (find_all r2 ct s).
Proof. exact rewritten_answers. Qed.
Print Assumptions C87_rewrites_keep_ranges.

(** A common prefix, an exchange, a class in a lookbehind, a loop behind itself. *)
Example C87_example :
  let r1 := rx "(?<=\d|-)(?:cat|car|dog)\w*\w*" [F_icase] in
  let r2 := rx "(?<=[\d\-])(?:dog|ca[tr])\w*" [F_icase] in
  rewrites (config_of [F_icase] BidirectionalIt) false false (ast r1) (ast r2)
  /\ usable r1 BidirectionalIt /\ backref_free (ast r1) = true
  /\ usable r2 BidirectionalIt /\ backref_free (ast r2) = true.
Proof.
  intros r1 r2. split; [|split; [show_usable|split; [reflexivity|split; [show_usable|reflexivity]]]].
  set (c := config_of [F_icase] BidirectionalIt).
  set (w := Rep Greedy 0 Inf (CSet [Range "a" "z"; Range "A" "Z"; Range "0" "9"; Lit "_"])%char).
  replace (ast r1) with (Seq [Look Behind (Alt [Range "0" "9"; Lit "-"]);
    Alt [Seq [Lit "c"; Lit "a"; Lit "t"]; Seq [Lit "c"; Lit "a"; Lit "r"]; Seq [Lit "d"; Lit "o"; Lit "g"]]; w; w]%char)
    by (vm_compute; reflexivity).
  replace (ast r2) with (Seq [Look Behind (CSet [Lit "-"; Range "0" "9"]);
    Alt [Seq [Lit "d"; Lit "o"; Lit "g"]; Seq [Lit "c"; Lit "a"; CSet [Lit "r"; Lit "t"]]]; w]%char)
    by (vm_compute; reflexivity).
  clear r1 r2. eapply rw_trans; [apply rw_sym, (rw_seq_flat c false false [_; _] [w; w] [])|].
  eapply rw_trans; [apply (rw_seq c false false [_; _] (Seq [w; w]) w []), (rw_star_twice c false false Greedy); discriminate|].
  eapply rw_trans.
  { apply (rw_seq c false false [] _ (Look Behind (CSet [Lit "-"; Range "0" "9"]%char))). apply rw_behind; [reflexivity|].
    apply rw_chars; [reflexivity|reflexivity|]. intros [[] [] [] [] [] [] [] []]; reflexivity. }
  cbn [app]. apply (rw_seq c false false [_] _ _ [w]).
  eapply rw_trans; [apply rw_sym, (rw_alt_flat c false false [] [_; _] [_])|].
  eapply rw_trans.
  { eapply (rw_alt c false false [] (Alt [_; _])
      (Seq [Lit "c"; Lit "a"; CSet [Lit "r"; Lit "t"]]%char) [Seq [Lit "d"; Lit "o"; Lit "g"]]%char).
    eapply rw_trans; [apply (rw_alt c false false []); apply rw_sym; eapply (rw_seq_flat c false false [] [_; _] [_])|].
    eapply rw_trans; [eapply (rw_alt c false false [_] _ _ []); apply rw_sym; eapply (rw_seq_flat c false false [] [_; _] [_])|].
    eapply rw_trans.
    { apply rw_sym. apply (rw_prefix c false false (Seq [Lit "c"; Lit "a"]%char) [Lit "t"; Lit "r"]%char). reflexivity. }
    eapply rw_trans; [apply (rw_seq_flat c false false [] [_; _] [_])|].
    apply (rw_seq c false false [_; _] _ _ []). apply rw_chars; [reflexivity|reflexivity|].
    intros [[] [] [] [] [] [] [] []]; reflexivity. }
  apply (rw_swap c false false [] _ _ []). eapply ex_chars.
  - apply bg_first; [reflexivity|]. apply bg_class. reflexivity.
  - apply bg_first; [reflexivity|]. apply bg_class. reflexivity.
  - vm_compute. reflexivity.
Qed.

(** Unfolding a loop and an optional part, which the flag ungreedy makes lazy, inside a
    possessive loop; a lookahead at a character becomes a class. *)
Example C87_example_ungreedy :
  let r1 := rx "(?:a(?!b)\w|c?)++(?:xy)*" [F_ungreedy] in
  let n2 := (Seq [Rep Possessive 1 Inf (Alt [Seq [Lit "a"; CSet [Lit "a"; Range "c" "z"; Range "A" "Z"; Range "0" "9"; Lit "_"]];
                                             Empty; Lit "c"]);
                  Alt [Empty; Seq [Seq [Lit "x"; Lit "y"]; Rep Greedy 0 Inf (Seq [Lit "x"; Lit "y"])]]])%char in
  let r2 := mk_regex n2 [F_ungreedy] in
  rewrites (config_of [F_ungreedy] ForwardIt) false false (ast r1) n2
  /\ usable r1 ForwardIt /\ backref_free (ast r1) = true
  /\ usable r2 ForwardIt /\ backref_free n2 = true.
Proof.
  intros r1 n2 r2. split; [|split; [show_usable|split; [reflexivity|split; [show_usable|reflexivity]]]].
  set (c := config_of [F_ungreedy] ForwardIt). set (w := CSet [Range "a" "z"; Range "A" "Z"; Range "0" "9"; Lit "_"]%char).
  replace (ast r1) with (Seq [Rep Possessive 1 Inf (Alt [Seq [Lit "a"; Neg (Look Ahead (Lit "b")); w];
    Rep Greedy 0 (Fin 1) (Lit "c")]); Rep Greedy 0 Inf (Seq [Lit "x"; Lit "y"])]%char) by (vm_compute; reflexivity).
  clear r1 r2. subst n2. eapply rw_trans.
  - apply (rw_seq c false false [_] _ (maybe c Greedy (then_ false (Seq [Lit "x"; Lit "y"]%char) (Rep Greedy 0 Inf (Seq [Lit "x"; Lit "y"]%char)))) []).
    apply (rw_unfold c false false Greedy Inf); discriminate.
  - apply (rw_seq c false false [] _ _ [_]). apply rw_rep. eapply rw_trans.
    + eapply (rw_alt c false false [_] _ (maybe c Greedy (Lit "c"%char)) []). apply rw_optional. discriminate.
    + eapply rw_trans; [apply (rw_alt_flat c false false [_] [Empty; Lit "c"%char] [])|].
      apply (rw_alt c false false [] _ _ [_; _]). eapply rw_trans; [apply rw_sym; eapply (rw_seq_flat c false false [_] [_; _] [])|].
      apply (rw_seq c false false [_] _ _ []). apply rw_but; try reflexivity.
      intros [[] [] [] [] [] [] [] []]; reflexivity.
Qed.

(** What a rewriting must not do: taking out a prefix that can end at several places, and
    exchanging alternatives that do not exclude each other. *)
Theorem C87_single_needed : exists x l fl s a b,
  single x = false
  /\ let n1 := then_ false x (Alt l) in let n2 := Alt (map (fun y => then_ false x y) l) in
     usable (mk_regex n1 fl) RandomAccessIt /\ backref_free n1 = true
     /\ usable (mk_regex n2 fl) RandomAccessIt /\ backref_free n2 = true
     /\ regex_match_prefix (mk_regex n1 fl) RandomAccessIt s = Returned a /\ group0 (groups a) = Some (0, 1)
     /\ regex_match_prefix (mk_regex n2 fl) RandomAccessIt s = Returned b /\ group0 (groups b) = Some (0, 3).
Proof.
  exists (tree "a|ab"), [tree "c"; Empty], [], (str "abc"). do 2 eexists.
  split; [vm_compute; reflexivity|]. intros n1 n2. split; [show_usable|]. split; [vm_compute; reflexivity|].
  split; [show_usable|]. split; [vm_compute; reflexivity|].
  split; [vm_compute; reflexivity|]. split; [reflexivity|]. split; [vm_compute; reflexivity|]. reflexivity.
Qed.
Print Assumptions C87_single_needed.

Theorem C87_exclusive_needed : exists x y fl s a b,
  let n1 := Alt [x; y] in let n2 := Alt [y; x] in
  usable (mk_regex n1 fl) RandomAccessIt /\ backref_free n1 = true
  /\ usable (mk_regex n2 fl) RandomAccessIt /\ backref_free n2 = true
  /\ regex_match_prefix (mk_regex n1 fl) RandomAccessIt s = Returned a /\ group0 (groups a) = Some (0, 1)
  /\ regex_match_prefix (mk_regex n2 fl) RandomAccessIt s = Returned b /\ group0 (groups b) = Some (0, 2).
Proof.
  exists (tree "a"), (tree "ab"), [], (str "ab"). do 2 eexists. intros n1 n2.
  split; [show_usable|]. split; [vm_compute; reflexivity|].
  split; [show_usable|]. split; [vm_compute; reflexivity|].
  split; [vm_compute; reflexivity|]. split; [reflexivity|]. split; [vm_compute; reflexivity|]. reflexivity.
Qed.
Print Assumptions C87_exclusive_needed.
