(** Groups nobody refers to: C97. *)
From Verif Require Import Examples Spec Calls Explore Equiv Rewrites Dropped DroppedRanges DroppedUsable.

(** C97.  [uncaptured k n]: the tree in which the group [k] is made non-capturing; the groups
    behind it and the references to them are renumbered.  [lacks k]: the same verdict and the
    same content of all groups, the whole match included, except that the group [k] is
    missing.  Conditions: nothing refers to the group ([unreferenced]), and its parentheses
    do not separate a single character from a negation, or from other single characters in
    an alternation some character of which it shares ([separates_nothing]). *)
Theorem C97_group_dropped_partial : forall n k name fl ct s,
  in_order n -> bare_sets n -> In (k, name) (groups_of n) -> unreferenced k name n ->
  separates_nothing (config_of fl ct) k n ->
  let r1 := mk_regex n fl in let r2 := mk_regex (uncaptured k n) fl in
  usable r1 ct -> usable r2 ct ->
  let K := N.to_nat k in
  both_return (lacks K) (regex_match r1 ct s) (regex_match r2 ct s)
  /\ both_return (lacks K) (regex_match_prefix r1 ct s) (regex_match_prefix r2 ct s)
  /\ both_return (lacks K) (regex_search r1 ct s) (regex_search r2 ct s)
  /\ both_return (Forall2 (lacks K)) (tokenize r1 ct s) (tokenize r2 ct s)
  /\ both_return (Forall2 (lacks K)) (find_all r1 ct s) (find_all r2 ct s).
Proof. exact uncaptured_calls. Qed.
Print Assumptions C97_group_dropped_partial.

(** The second of four groups; the name still calls its group, which is now the second,
    and what a failed iteration leaves in the groups is the same. *)
Example C97_example :
  let n := tree "(a)((?:b|bc)+)(?<w>c|(d))\k<w>\1" in
  let m := tree "(a)(?:b|bc)+(?<w>c|(d))\k<w>\1" in
  uncaptured 2 n = m
  /\ in_order n /\ bare_sets n /\ In (2%N, None) (groups_of n) /\ unreferenced 2 None n
  /\ separates_nothing (config_of [F_icase] BidirectionalIt) 2 n
  /\ usable (mk_regex n [F_icase]) BidirectionalIt /\ usable (mk_regex m [F_icase]) BidirectionalIt
  /\ regex_search (mk_regex n [F_icase]) BidirectionalIt (str "xabcbDda")
     = Returned (mk_res [Some (1, 8); Some (1, 2); Some (2, 5); Some (5, 6); Some (5, 6)] true)
  /\ regex_search (mk_regex m [F_icase]) BidirectionalIt (str "xabcbDda")
     = Returned (mk_res [Some (1, 8); Some (1, 2); Some (5, 6); Some (5, 6)] true).
Proof.
  cbv zeta. split; [vm_compute; reflexivity|]. split; [vm_compute; reflexivity|].
  split; [vm_compute; repeat split|]. split; [vm_compute; auto|].
  split; [vm_compute; repeat split; discriminate|]. split; [apply keeps_separates; vm_compute; reflexivity|].
  do 2 (split; [show_usable|]). split; vm_compute; reflexivity.
Qed.

(** Without the parentheses the two alternatives are one class; no character fits both. *)
Example C97_classes_example :
  let n := tree "(?<w>c|(d))\k<w>" in
  let m := tree "(?<w>c|d)\k<w>" in
  uncaptured 2 n = m
  /\ in_order n /\ bare_sets n /\ In (2%N, None) (groups_of n) /\ unreferenced 2 None n
  /\ separates_nothing (config_of [] RandomAccessIt) 2 n
  /\ usable (mk_regex n []) RandomAccessIt /\ usable (mk_regex m []) RandomAccessIt
  /\ (exists l, find_all (mk_regex n []) RandomAccessIt (str "ddcdcc") = Returned l
       /\ map groups l = [[Some (0, 2); Some (0, 1); Some (0, 1)]; [Some (4, 6); Some (4, 5); Some (3, 3)]])
  /\ exists l, find_all (mk_regex m []) RandomAccessIt (str "ddcdcc") = Returned l
       /\ map groups l = [[Some (0, 2); Some (0, 1)]; [Some (4, 6); Some (4, 5)]].
Proof.
  cbv zeta. split; [vm_compute; reflexivity|]. split; [vm_compute; reflexivity|].
  split; [vm_compute; repeat split|]. split; [vm_compute; auto|].
  split; [vm_compute; repeat split; discriminate|].
  split.
  { replace (tree "(?<w>c|(d))\k<w>") with (Seq [Cap 1 (Some (str "w")) (Alt [Lit "c"; Cap 2 None (Lit "d")]); NBackref (str "w")])
      by (vm_compute; reflexivity).
    cbn [separates_nothing map fold_right]. repeat split. intros l1 l2 E _. right.
    destruct l1 as [|x [|y [|z l1]]]; cbn in E; try discriminate; try (injection E; intros); subst; cbn [map uncaptured N.eqb Pos.eqb].
    - constructor; [|repeat constructor]. constructor; [|constructor]. intros [[] [] [] [] [] [] [] []] H;
        vm_compute in H |- *; congruence.
    - repeat constructor.
    - constructor. }
  do 2 (split; [show_usable|]). split; eexists; split; vm_compute; reflexivity.
Qed.

(** Exactly when the regex without the parentheses is usable too: every name and number still
    refers to a group, and the counts of loops are the only obstacle. *)
Theorem C97_still_usable_exact : forall n k name fl ct,
  in_order n -> bare_sets n -> In (k, name) (groups_of n) -> unreferenced k name n ->
  usable (mk_regex n fl) ct -> usable (mk_regex (uncaptured k n) fl) ct <-> counts_fit k n.
Proof. exact uncaptured_usable. Qed.
Print Assumptions C97_still_usable_exact.

Example C97_still_usable_example :
  let n := tree "(?<=(a))(?<v>b){3,}(?<w>c|(?!(d)))\k<w>\3" in
  in_order n /\ bare_sets n /\ In (2%N, Some (str "v")) (groups_of n) /\ unreferenced 2 (Some (str "v")) n
  /\ counts_fit 2 n /\ usable (mk_regex n []) BidirectionalIt
  /\ uncaptured 2 n = tree "(?<=(a))b{3,}(?<w>c|(?!(d)))\k<w>\2".
Proof.
  cbv zeta. split; [vm_compute; reflexivity|]. split; [vm_compute; repeat split|]. split; [vm_compute; auto|].
  split; [vm_compute; repeat split; discriminate|]. split; [vm_compute; repeat split|]. split; [show_usable|].
  vm_compute; reflexivity.
Qed.

(** From 2^63 repetitions on it is an obstacle: [distance_less_than] takes the count of a loop
    over single characters as a signed number. *)
Theorem C97_still_usable_refuted : exists n,
  parse (str "(a){9223372036854775808}") = P_ok n
  /\ in_order n /\ bare_sets n /\ In (1%N, None) (groups_of n) /\ unreferenced 1 None n
  /\ usable (mk_regex n []) RandomAccessIt /\ ~ counts_fit 1 n
  /\ ~ usable (mk_regex (uncaptured 1 n) []) RandomAccessIt.
Proof.
  eexists. split; [vm_compute; reflexivity|]. split; [vm_compute; reflexivity|]. split; [vm_compute; repeat split|].
  split; [vm_compute; auto|]. split; [vm_compute; repeat split; discriminate|]. split; [show_usable|].
  split; [intros [H _]; specialize (H eq_refl); vm_compute in H; discriminate|].
  intros [H _]. vm_compute in H. discriminate.
Qed.
Print Assumptions C97_still_usable_refuted.

(** Without backreferences the ranges are the same, also where the parentheses separate
    alternatives that share a character. *)
Theorem C97_ranges_kept : forall k n fl ct s,
  same_negations k n -> backref_free n = true ->
  let r1 := mk_regex n fl in let r2 := mk_regex (uncaptured k n) fl in
  usable r1 ct -> usable r2 ct ->
  same_answers r1 r2 ct s
  /\ same_ranges (tokenize r1 ct s) (tokenize r2 ct s)
  /\ same_ranges (find_all r1 ct s) (find_all r2 ct s).
Proof. exact uncaptured_ranges. Qed.
Print Assumptions C97_ranges_kept.

Example C97_ranges_example :
  let n := tree "(?!(q))(?:a|(a))+(b|(c))" in
  let m := tree "(?!(q))(?:a|a)+(b|(c))" in
  uncaptured 2 n = m
  /\ same_negations 2 n /\ backref_free n = true
  /\ usable (mk_regex n []) ForwardIt /\ usable (mk_regex m []) ForwardIt
  /\ (exists l, find_all (mk_regex n []) ForwardIt (str "aabxac") = Returned l
       /\ map (fun x => group0 (groups x)) l = [Some (0, 3); Some (4, 6)])
  /\ exists l, find_all (mk_regex m []) ForwardIt (str "aabxac") = Returned l
       /\ map (fun x => group0 (groups x)) l = [Some (0, 3); Some (4, 6)].
Proof.
  cbv zeta. split; [vm_compute; reflexivity|]. split; [vm_compute; repeat split|].
  split; [vm_compute; reflexivity|]. do 2 (split; [show_usable|]).
  split; eexists; split; vm_compute; reflexivity.
Qed.

(** Where the parentheses separate two alternatives that share a character, a regex with
    backreferences may match less without them: the second attempt with the same character
    finds other groups. *)
Theorem C97_group_dropped_refuted : exists n s x y,
  in_order n /\ bare_sets n /\ In (1%N, None) (groups_of n) /\ unreferenced 1 None n
  /\ usable (mk_regex n []) RandomAccessIt /\ usable (mk_regex (uncaptured 1 n) []) RandomAccessIt
  /\ regex_match (mk_regex n []) RandomAccessIt s = Returned x /\ matched x = true
  /\ regex_match (mk_regex (uncaptured 1 n) []) RandomAccessIt s = Returned y /\ matched y = false.
Proof.
  exists (tree "(?:(?:a|(a))(?:\2d!|([cd])))*"), (str "acad!"). do 2 eexists.
  split; [vm_compute; reflexivity|]. split; [vm_compute; repeat split|]. split; [vm_compute; auto|].
  split; [vm_compute; repeat split; discriminate|]. do 2 (split; [show_usable|]).
  split; [vm_compute; reflexivity|]. split; [vm_compute; reflexivity|]. split; vm_compute; reflexivity.
Qed.
Print Assumptions C97_group_dropped_refuted.
