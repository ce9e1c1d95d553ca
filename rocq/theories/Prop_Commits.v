(** Possessive loops and atomic groups with all groups and backreferences: C11. *)
From Verif Require Import Examples Spec Equiv Explore Calls Exchange Commits CommitsAll.
From Verif Require Lift.

(** C11, with the content of every group and with backreferences, for every context [C]
    and every body, except an unbounded repetition of a body that can be empty and has
    several ends. *)
Theorem C11_possessive_groups_partial : forall C lo hi x fl ct s,
  ~ In F_ungreedy fl -> hi <> Inf \/ may_be_empty x = false \/ plain x = true ->
  let r1 := mk_regex (plug C (Rep Possessive lo hi x)) fl in
  let r2 := mk_regex (plug C (atomic (Rep Greedy lo hi x))) fl in
  usable r1 ct -> usable r2 ct ->
  Lift.agree (regex_match r1 ct s) (regex_match r2 ct s)
  /\ Lift.agree (regex_match_prefix r1 ct s) (regex_match_prefix r2 ct s)
  /\ regex_search r1 ct s = regex_search r2 ct s
  /\ tokenize r1 ct s = tokenize r2 ct s
  /\ find_all r1 ct s = find_all r2 ct s.
Proof. intros C lo hi x fl ct s Hu. exact (possessive_commits C lo hi x fl ct s Hu). Qed.
Print Assumptions C11_possessive_groups_partial.

Example C11_groups_example :
  let x := Alt [Seq [Backref 1; Cap 2 None (Lit "b")]; Lit "c"] in
  let C := CSeq [Cap 1 None Wild] Hole [Lit "d"] in
  let r1 := mk_regex (plug C (Rep Possessive 1 (Fin 3) x)) [] in
  let r2 := mk_regex (plug C (atomic (Rep Greedy 1 (Fin 3) x))) [] in
  ast r1 = tree "(.)(?:\1(b)|c){1,3}+d" /\ ast r2 = tree "(.)(?>(?:\1(b)|c){1,3})d"
  /\ usable r1 BidirectionalIt /\ usable r2 BidirectionalIt
  /\ regex_search r1 BidirectionalIt (str "aabcabd") = Returned (mk_res [Some (0, 7); Some (0, 1); Some (5, 6)] true).
Proof.
  cbv zeta. do 2 (split; [vm_compute; reflexivity|]). do 2 (split; [show_usable|]). vm_compute; reflexivity.
Qed.

(** C11 for every body: [x*+], [x++], [x?+] and [x{0,n}+] are atomic loops over the body
    as an atomic group: each iteration keeps the first end of the body. *)
Theorem C11_possessive_any_body_partial : forall C lo hi x fl ct s,
  ~ In F_ungreedy fl -> (lo <= 1)%N ->
  let r1 := mk_regex (plug C (Rep Possessive lo hi x)) fl in
  let r2 := mk_regex (plug C (atomic (Rep Greedy lo hi (atomic x)))) fl in
  usable r1 ct -> usable r2 ct ->
  Lift.agree (regex_match r1 ct s) (regex_match r2 ct s)
  /\ Lift.agree (regex_match_prefix r1 ct s) (regex_match_prefix r2 ct s)
  /\ regex_search r1 ct s = regex_search r2 ct s
  /\ tokenize r1 ct s = tokenize r2 ct s
  /\ find_all r1 ct s = find_all r2 ct s.
Proof. intros C lo hi x fl ct s Hu. exact (possessive_commits_twice C lo hi x fl ct s Hu). Qed.
Print Assumptions C11_possessive_any_body_partial.

(** The body can be empty; without the inner atomic group the loop would take more. *)
Example C11_any_body_example :
  let x := Seq [Rep Greedy 0 (Fin 1) (Cap 1 None (Lit "b")); Rep Lazy 0 (Fin 1) (Lit "a")] in
  let r1 := mk_regex (plug Hole (Rep Possessive 0 Inf x)) [] in
  let r2 := mk_regex (plug Hole (atomic (Rep Greedy 0 Inf (atomic x)))) [] in
  ast r1 = tree "(?:(b)?a??)*+" /\ ast r2 = tree "(?>(?>(b)?a??)*)"
  /\ may_be_empty x = true /\ plain x = false
  /\ usable r1 ForwardIt /\ usable r2 ForwardIt
  /\ regex_match_prefix r1 ForwardIt (str "bbab") = Returned (mk_res [Some (0, 2); Some (1, 1)] true)
  /\ regex_match_prefix r2 ForwardIt (str "bbab") = Returned (mk_res [Some (0, 2); Some (1, 1)] true)
  /\ regex_match_prefix (rx "(?>(?:(b)?a??)*)" []) ForwardIt (str "bbab")
     = Returned (mk_res [Some (0, 4); Some (3, 3)] true).
Proof.
  cbv zeta. do 4 (split; [vm_compute; reflexivity|]). do 2 (split; [show_usable|]).
  do 2 (split; [vm_compute; reflexivity|]). vm_compute; reflexivity.
Qed.

(** The iterations that must be made are committed to together: from two of them on the
    body may not be made atomic. *)
Example C11_any_body_refused :
  regex_match (rx "(?:a|ab){2}+" []) ForwardIt (str "aba") = Returned (mk_res [Some (0, 3)] true)
  /\ exists res, regex_match (rx "(?>(?>a|ab){2})" []) ForwardIt (str "aba") = Returned res /\ matched res = false.
Proof. split; [vm_compute; reflexivity|]. eexists; split; vm_compute; reflexivity. Qed.

(** C11 for every lower bound and every body without groups (also with backreferences to
    groups elsewhere): [x{n,m}+] is [(?>x{n})(?>(?>x){0,m-n})].  The iterations up to the
    lower bound are tried together, the others keep the first end of the body.  Where a
    lookbehind reads the parts of a concatenation from the last to the first, the two
    parts change places. *)
Theorem C11_possessive_any_bound_partial : forall C lo hi x fl ct s,
  ~ In F_ungreedy fl -> names_in x = [] -> hi <> Fin lo ->
  let first := atomic (Rep Greedy lo (Fin lo) x) in
  let rest := atomic (Rep Greedy 0 (match hi with Fin h => Fin (h - lo) | Inf => Inf end) (atomic x)) in
  let r1 := mk_regex (plug C (Rep Possessive lo hi x)) fl in
  let r2 := mk_regex (plug C (if read_backwards C false then Seq [rest; first] else Seq [first; rest])) fl in
  usable r1 ct -> usable r2 ct ->
  Lift.agree (regex_match r1 ct s) (regex_match r2 ct s)
  /\ Lift.agree (regex_match_prefix r1 ct s) (regex_match_prefix r2 ct s)
  /\ regex_search r1 ct s = regex_search r2 ct s
  /\ tokenize r1 ct s = tokenize r2 ct s
  /\ find_all r1 ct s = find_all r2 ct s.
Proof. intros C lo hi x fl ct s Hu Hn Hh. exact (possessive_in_two C lo hi x fl ct s Hu Hn (loop_no_class lo hi x Hh)). Qed.
Print Assumptions C11_possessive_any_bound_partial.

(** The body can be empty, has several ends and refers to a group in front.  In a
    lookbehind the parts change places. *)
Example C11_any_bound_example :
  let x := Seq [Rep Lazy 0 (Fin 1) (Lit "b"); Rep Lazy 0 (Fin 1) (Backref 1); Look Ahead (Alt [Lit "a"; EndLine])] in
  let C := CSeq [Cap 1 None (Lit "a")] Hole [Lit "a"] in
  let first := atomic (Rep Greedy 2 (Fin 2) x) in
  let rest := atomic (Rep Greedy 0 Inf (atomic x)) in
  let r1 := mk_regex (plug C (Rep Possessive 2 Inf x)) [] in
  let r2 := mk_regex (plug C (Seq [first; rest])) [] in
  ast r1 = tree "(a)(?:b??\1??(?=a|$)){2,}+a"
  /\ read_backwards C false = false /\ names_in x = [] /\ may_be_empty x = true /\ plain x = false
  /\ usable r1 BidirectionalIt /\ usable r2 BidirectionalIt
  /\ regex_search r1 BidirectionalIt (str "aba") = Returned (mk_res [Some (0, 3); Some (0, 1)] true)
  /\ regex_search r2 BidirectionalIt (str "aba") = Returned (mk_res [Some (0, 3); Some (0, 1)] true)
  /\ read_backwards (CLook Behind (CSeq [] Hole [Lit "c"])) false = true
  /\ read_backwards (CLook Behind (CLook Ahead Hole)) false = true.
Proof.
  cbv zeta. do 5 (split; [vm_compute; reflexivity|]). do 2 (split; [show_usable|]).
  repeat (split; [vm_compute; reflexivity|]). vm_compute; reflexivity.
Qed.
