(** Properties of the groups of one result together: C90. *)
From Verif Require Import Examples Groups Held Laminar.

(** C90, full statement: after a successful call the texts of any two groups that took
    some text are nested or follow each other, and only in the ways that the parentheses
    allow.  [arranged]: one follows the other and can be passed after it ([before]: to the
    right of it, or in the same loop), or one lies within the other and its parentheses
    stand inside those of the other ([inside]).  Every text lies within group 0.  Not proved
    for groups inside lookarounds, atomic groups and possessive repetitions
    ([committed]), of which it is false, see below. *)
Theorem C90_groups_nest_or_follow_partial : forall r ct s call res,
  call = regex_match \/ call = regex_match_prefix \/ call = regex_search ->
  call r ct s = Returned res -> matched res = true ->
  forall i p q, i <> 0%N -> ~ committed (ast r) i -> nth (N.to_nat i) (groups res) None = Some (p, q) -> p < q ->
  (exists b e, group0 (groups res) = Some (b, e) /\ b <= p /\ q <= e)
  /\ forall j p' q', j <> 0%N -> i <> j -> ~ committed (ast r) j ->
       nth (N.to_nat j) (groups res) None = Some (p', q') -> p' < q' ->
       arranged (ast r) i j (p, q) (p', q').
Proof. exact groups_arranged. Qed.
Print Assumptions C90_groups_nest_or_follow_partial.

(** Groups that stand in one order only hold texts in this order. *)
Theorem C90_groups_in_order_partial : forall r ct s call res,
  call = regex_match \/ call = regex_match_prefix \/ call = regex_search ->
  call r ct s = Returned res -> matched res = true ->
  forall i j p q p' q', i <> 0%N -> j <> 0%N -> i <> j -> ~ committed (ast r) i -> ~ committed (ast r) j ->
  nth (N.to_nat i) (groups res) None = Some (p, q) -> p < q ->
  nth (N.to_nat j) (groups res) None = Some (p', q') -> p' < q' ->
  ~ before (ast r) j i -> ~ inside (ast r) j i ->
  q <= p' \/ (inside (ast r) i j /\ p <= p' /\ q' <= q).
Proof. exact groups_in_order. Qed.
Print Assumptions C90_groups_in_order_partial.

(** Nested groups, groups in a loop that is passed twice (the group 5 holds the text of
    the first round, the group 4 that of the second), and a group behind the loop. *)
Example C90_example :
  let r := rx "((a+)-(b+))(?:(c)|((d))){2}(f)" [] in
  usable r RandomAccessIt
  /\ exists res, regex_search r RandomAccessIt (str "-aa-bbdcfg") = Returned res /\ matched res = true
    /\ groups res = [Some (1, 9); Some (1, 6); Some (1, 3); Some (4, 6); Some (7, 8); Some (6, 7); None; Some (8, 9)]
    /\ (forall i, ~ committed (ast r) i)
    /\ inside (ast r) 1 2 /\ ~ inside (ast r) 2 1 /\ ~ before (ast r) 3 2
    /\ ~ inside (ast r) 7 1 /\ ~ before (ast r) 7 1
    /\ arranged (ast r) 4 5 (7, 8) (6, 7) /\ inside (ast r) 4 5 /\ before (ast r) 5 4.
Proof.
  split; [show_usable|]. eexists. split; [vm_compute; reflexivity|]. split; [reflexivity|].
  split; [reflexivity|]. split; [intros i; show_uncommitted|].
  assert (E : ast (rx "((a+)-(b+))(?:(c)|((d))){2}(f)" [])
    = Seq [Cap 1 None (Seq [Cap 2 None (Rep Greedy 1 Inf (Lit "a")); Lit "-"; Cap 3 None (Rep Greedy 1 Inf (Lit "b"))]);
           Rep Greedy 2 (Fin 2) (Alt [Cap 4 None (Lit "c"); Cap 4 None (Cap 5 None (Lit "d"))]);
           Cap 7 None (Lit "f")]) by (vm_compute; reflexivity).
  cbv zeta. rewrite E. clear E.
  assert (B : before (Seq [Cap 1 None (Seq [Cap 2 None (Rep Greedy 1 Inf (Lit "a")); Lit "-"; Cap 3 None (Rep Greedy 1 Inf (Lit "b"))]);
           Rep Greedy 2 (Fin 2) (Alt [Cap 4 None (Lit "c"); Cap 4 None (Cap 5 None (Lit "d"))]);
           Cap 7 None (Lit "f")]) 5 4).
  { eapply bf_in_seq; [right; left; reflexivity|]. apply bf_loop with (gi := Lit "d") (gj := Lit "c") (q := 2).
    - split; cbn; discriminate.
    - constructor.
    - eapply gi_alt; [right; left; reflexivity|]. repeat constructor.
    - eapply gi_alt; [left; reflexivity|]. constructor. }
  split.
  { exists (Seq [Cap 2 None (Rep Greedy 1 Inf (Lit "a")); Lit "-"; Cap 3 None (Rep Greedy 1 Inf (Lit "b"))]), (Rep Greedy 1 Inf (Lit "a")).
    split; [eapply gi_seq; [left; reflexivity|constructor]|]. eapply gi_seq; [left; reflexivity|constructor]. }
  split; [intros H; apply nested_spec in H; cbn in H; intuition congruence|].
  split; [intros H; apply ordered_spec in H; cbn in H; intuition congruence|].
  split; [intros H; apply nested_spec in H; cbn in H; intuition congruence|].
  split; [intros H; apply ordered_spec in H; cbn in H; intuition congruence|].
  split; [apply ar_right; [exact B|constructor]|]. split; [|exact B].
  exists (Cap 5 None (Lit "d")), (Lit "d"). split; [|constructor].
  eapply gi_seq; [right; left; reflexivity|]. constructor. eapply gi_alt; [right; left; reflexivity|]. constructor.
Qed.

(** Groups in lookaheads and atomic groups: the texts "ab" and "bc" of "abc" overlap; in
    the second case the first one comes from an abandoned branch (finding F3). *)
Theorem C90_groups_nest_or_follow_refuted : exists p1 s1 p2 s2 r1 r2,
  usable (rx p1 []) RandomAccessIt /\ usable (rx p2 []) RandomAccessIt
  /\ regex_match (rx p1 []) RandomAccessIt s1 = Returned r1 /\ matched r1 = true
  /\ groups r1 = [Some (0, 3); Some (0, 2); Some (1, 3)]
  /\ ~ arranged (ast (rx p1 [])) 1 2 (0, 2) (1, 3)
  /\ regex_match (rx p2 []) RandomAccessIt s2 = Returned r2 /\ matched r2 = true
  /\ groups r2 = [Some (0, 3); Some (0, 2); Some (1, 3)]
  /\ ~ arranged (ast (rx p2 [])) 1 2 (0, 2) (1, 3).
Proof.
  exists "(?=(ab))a(bc)"%string, (str "abc"), "(?:(?>(ab))c|a)(bd)"%string, (str "abd"). do 2 eexists.
  split; [show_usable|]. split; [show_usable|]. split; [vm_compute; reflexivity|]. do 2 (split; [reflexivity|]).
  split; [intros H; inversion H; subst; lia|]. split; [vm_compute; reflexivity|]. do 2 (split; [reflexivity|]).
  intros H; inversion H; subst; lia.
Qed.
Print Assumptions C90_groups_nest_or_follow_refuted.
