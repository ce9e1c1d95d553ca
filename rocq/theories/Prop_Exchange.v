(** Rewritings that keep whole results: C88. *)
From Verif Require Import Examples Explore Calls Exchange Exchanged.
From Verif Require Rewrites.
From Verif Require Lift.

(** C88.  [keeps] (Exchange.v): laws of regular expressions for every tree, groups and
    backreferences included, such as [(x|y)z = xz|yz], [x{n,m} = x{n}x{0,m-n}],
    [x? = (x|)], [x* = (xx*|)].  Two trees that arise from each other by these laws and
    have the same groups give the same results: the same verdicts, and the same content
    of every group after a match and after a failure, except that group 0 after a failure
    of [match] and [match_prefix] may differ ([Lift.agree]). *)
Theorem C88_rewrites_keep_results : forall x y fl ct s,
  keeps (config_of fl ct) false x y -> all_names x = all_names y ->
  usable (mk_regex x fl) ct -> usable (mk_regex y fl) ct ->
  Lift.agree (regex_match (mk_regex x fl) ct s) (regex_match (mk_regex y fl) ct s)
  /\ Lift.agree (regex_match_prefix (mk_regex x fl) ct s) (regex_match_prefix (mk_regex y fl) ct s)
  /\ regex_search (mk_regex x fl) ct s = regex_search (mk_regex y fl) ct s
  /\ tokenize (mk_regex x fl) ct s = tokenize (mk_regex y fl) ct s
  /\ find_all (mk_regex x fl) ct s = find_all (mk_regex y fl) ct s.
Proof. exact kept_results. Qed.
Print Assumptions C88_rewrites_keep_results.

(** What is behind an alternation moved into its alternatives. *)
Example C88_example_suffix :
  keeps (config_of [] BidirectionalIt) false (tree "(.)(?:\1a|bb)c") (tree "(.)(?:\1ac|bbc)")
  /\ all_names (tree "(.)(?:\1a|bb)c") = all_names (tree "(.)(?:\1ac|bbc)")
  /\ usable (rx "(.)(?:\1a|bb)c" []) BidirectionalIt /\ usable (rx "(.)(?:\1ac|bbc)" []) BidirectionalIt
  /\ regex_search (rx "(.)(?:\1ac|bbc)" []) BidirectionalIt (str "xaaac")
     = Returned (mk_res [Some (1, 5); Some (1, 2)] true).
Proof.
  split.
  - replace (tree "(.)(?:\1a|bb)c")
      with (Seq ([Cap 1 None Wild] ++ [Alt ([Seq [Backref 1; Lit "a"]] ++ [Seq [Lit "b"; Lit "b"]]); Lit "c"] ++ []))%char
      by (vm_compute; reflexivity).
    replace (tree "(.)(?:\1ac|bbc)")
      with (Seq ([Cap 1 None Wild] ++ Alt [Seq [Backref 1; Lit "a"; Lit "c"]; Seq [Lit "b"; Lit "b"; Lit "c"]] :: []))%char
      by (vm_compute; reflexivity).
    eapply kp_trans; [apply kp_sym, kp_seq_flat|]. apply kp_seq.
    eapply kp_trans; [apply (kp_suffix _ false [Seq [Backref 1; Lit "a"]]%char (Seq [Lit "b"; Lit "b"]%char) (Lit "c"%char)); reflexivity|].
    cbn [map app then_ Rewrites.then_].
    eapply kp_trans.
    + apply (kp_alt _ false [] (Seq [Seq [Backref 1; Lit "a"]; Lit "c"]%char) (Seq [Backref 1; Lit "a"; Lit "c"]%char)); [reflexivity|reflexivity|].
      apply (kp_seq_flat _ false [] [Backref 1; Lit "a"]%char [Lit "c"%char]).
    + apply (kp_alt _ false [Seq [Backref 1; Lit "a"; Lit "c"]%char] (Seq [Seq [Lit "b"; Lit "b"]; Lit "c"]%char)
               (Seq [Lit "b"; Lit "b"; Lit "c"]%char) []); [reflexivity|reflexivity|].
      apply (kp_seq_flat _ false [] [Lit "b"; Lit "b"]%char [Lit "c"%char]).
  - do 1 (split; [vm_compute; reflexivity|]). do 2 (split; [show_usable|]). vm_compute; reflexivity.
Qed.

(** The first iteration of a loop written out; the iterations take at least a character. *)
Example C88_example_star :
  keeps (config_of [F_icase] BidirectionalIt) false (tree "(?<n>a)(?:\k<n>b)*") (tree "(?<n>a)(?:\k<n>b(?:\k<n>b)*)?")
  /\ all_names (tree "(?<n>a)(?:\k<n>b)*") = all_names (tree "(?<n>a)(?:\k<n>b(?:\k<n>b)*)?")
  /\ usable (rx "(?<n>a)(?:\k<n>b)*" [F_icase]) BidirectionalIt
  /\ usable (rx "(?<n>a)(?:\k<n>b(?:\k<n>b)*)?" [F_icase]) BidirectionalIt
  /\ regex_match (rx "(?<n>a)(?:\k<n>b(?:\k<n>b)*)?" [F_icase]) BidirectionalIt (str "aabAB")
     = Returned (mk_res [Some (0, 5); Some (0, 1)] true).
Proof.
  split.
  - set (x := Seq [NBackref ["n"%char]; Lit "b"%char]).
    replace (tree "(?<n>a)(?:\k<n>b)*")
      with (Seq ([Cap 1 (Some ["n"%char]) (Lit "a"%char)] ++ Rep Greedy 0 Inf x :: [])) by (vm_compute; reflexivity).
    replace (tree "(?<n>a)(?:\k<n>b(?:\k<n>b)*)?")
      with (Seq ([Cap 1 (Some ["n"%char]) (Lit "a"%char)]
                 ++ Rep Greedy 0 (Fin 1) (Seq [NBackref ["n"%char]; Lit "b"%char; Rep Greedy 0 Inf x]) :: []))
      by (vm_compute; reflexivity).
    apply kp_seq. eapply kp_trans; [apply kp_unfold_star; [discriminate|reflexivity]|].
    eapply kp_trans; [apply kp_sym, kp_optional; discriminate|]. apply kp_rep.
    apply (kp_seq_flat _ false [] [NBackref ["n"%char]; Lit "b"%char] [Rep Greedy 0 Inf x]).
  - do 1 (split; [vm_compute; reflexivity|]). do 2 (split; [show_usable|]). vm_compute; reflexivity.
Qed.

(** A bounded loop split into the iterations that must be made and the others. *)
Example C88_example_counts :
  keeps (config_of [] BidirectionalIt) false (tree "(.)(?:\1){2,3}") (tree "(.)\1\1(?:\1)?")
  /\ all_names (tree "(.)(?:\1){2,3}") = all_names (tree "(.)\1\1(?:\1)?")
  /\ usable (rx "(.)(?:\1){2,3}" []) BidirectionalIt /\ usable (rx "(.)\1\1(?:\1)?" []) BidirectionalIt
  /\ find_all (rx "(.)\1\1(?:\1)?" []) BidirectionalIt (str "aaaaxbbb")
     = Returned [mk_res [Some (0, 4); Some (0, 1)] true; mk_res [Some (5, 8); Some (5, 6)] true].
Proof.
  split.
  - replace (tree "(.)(?:\1){2,3}") with (Seq ([Cap 1 None Wild] ++ Rep Greedy 2 (Fin 3) (Backref 1) :: []))
      by (vm_compute; reflexivity).
    replace (tree "(.)\1\1(?:\1)?")
      with (Seq ([Cap 1 None Wild] ++ [Backref 1; Backref 1; Rep Greedy 0 (Fin 1) (Backref 1)] ++ []))
      by (vm_compute; reflexivity).
    eapply kp_trans; [|apply kp_seq_flat]. apply kp_seq.
    eapply kp_trans; [apply kp_split|]. cbn [then_ Rewrites.then_ Spec.remaining].
    eapply kp_trans; [|apply (kp_seq_flat _ false [] [Backref 1; Backref 1] [Rep Greedy 0 (Fin 1) (Backref 1)])].
    apply (kp_seq _ false [] (Rep Greedy 2 (Fin 2) (Backref 1)) (Seq [Backref 1; Backref 1]) [Rep Greedy 0 (Fin 1) (Backref 1)]).
    eapply kp_trans; [apply (kp_counts _ false Greedy 1 1); discriminate|]. cbn [then_ Rewrites.then_].
    eapply kp_trans.
    + apply (kp_seq _ false [] (Rep Greedy 1 (Fin 1) (Backref 1)) (Backref 1)). apply kp_once. discriminate.
    + apply (kp_seq _ false [Backref 1] (Rep Greedy 1 (Fin 1) (Backref 1)) (Backref 1) []). apply kp_once. discriminate.
  - do 1 (split; [vm_compute; reflexivity|]). do 2 (split; [show_usable|]). vm_compute; reflexivity.
Qed.

(** The laws of C87 keep the matched ranges but not always the groups: alternatives
    that begin with different characters can be exchanged for the ranges, but the attempt
    of an alternative that fails empties its group (finding F2). *)
Example C88_exchange_refused :
  Rewrites.rewrites (config_of [] BidirectionalIt) false false (tree "(?:(a)|c){2}") (tree "(?:c|(a)){2}")
  /\ regex_match (rx "(?:(a)|c){2}" []) BidirectionalIt (str "ac") = Returned (mk_res [Some (0, 2); Some (0, 0)] true)
  /\ regex_match (rx "(?:c|(a)){2}" []) BidirectionalIt (str "ac") = Returned (mk_res [Some (0, 2); Some (0, 1)] true).
Proof.
  split; [|split; vm_compute; reflexivity].
  replace (tree "(?:(a)|c){2}") with (Rep Greedy 2 (Fin 2) (Alt ([] ++ Cap 1 None (Lit "a") :: Lit "c" :: [])))%char
    by (vm_compute; reflexivity).
  replace (tree "(?:c|(a)){2}") with (Rep Greedy 2 (Fin 2) (Alt ([] ++ Lit "c" :: Cap 1 None (Lit "a") :: [])))%char
    by (vm_compute; reflexivity).
  apply Rewrites.rw_rep, Rewrites.rw_swap. eapply Rewrites.ex_chars.
  - apply Rewrites.bg_cap, Rewrites.bg_class. reflexivity.
  - apply Rewrites.bg_class. reflexivity.
  - vm_compute. reflexivity.
Qed.
