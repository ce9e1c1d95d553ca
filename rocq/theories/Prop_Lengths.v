(** How long matches are: C71. *)
From Verif Require Import Examples Safe Searches Contained Lengths.
From Coq Require Import Lia.

(** C71.  [possible_length n d]: by the structure of the tree, it can match texts
    of length [d]; [well_sized]: the whole match has a possible length, and every
    group is unset, empty or as long as a group of its number can be. *)
Theorem C71_results : forall r ct s, usable r ct ->
  exists a b c l1 l2, regex_match r ct s = Returned a /\ regex_match_prefix r ct s = Returned b
    /\ regex_search r ct s = Returned c /\ tokenize r ct s = Returned l1 /\ find_all r ct s = Returned l2
    /\ Forall (well_sized (ast r)) (a :: b :: c :: l1 ++ l2).
Proof. exact results_sized. Qed.
Print Assumptions C71_results.

(** Groups in a lookbehind, a group in a loop, a backreference. *)
Example C71_results_example :
  let r := rx "(?<=(x|yz))(?:(ab)|c){2,3}(?!\1)" [] in
  usable r RandomAccessIt
  /\ possible_length (ast r) 2 /\ possible_length (ast r) 5 /\ ~ possible_length (ast r) 7
  /\ regex_search r RandomAccessIt (str "yzcabca")
     = Returned (mk_res [Some (2, 6); Some (0, 2); Some (3, 3)] true).
Proof.
  split; [show_usable|].
  assert (P : forall d, possible_length (ast (rx "(?<=(x|yz))(?:(ab)|c){2,3}(?!\1)" [])) d
    <-> exists k, (2 <= N.of_nat k)%N /\ (N.of_nat k <= 3)%N
          /\ sum_of (possible_length (tree "(?:(ab)|c)")) k d).
  { intros d. vm_compute (ast _). cbn [possible_length]. split.
    - intros (a & b & -> & -> & x & y & -> & (k & K1 & K2 & Hk) & z & w & -> & -> & ->).
      rewrite Nat.add_0_l, !Nat.add_0_r. exists k. split; [exact K1|]. split; [exact K2|]. exact Hk.
    - intros (k & K1 & K2 & Hk). exists 0, d. split; [reflexivity|]. split; [reflexivity|].
      exists d, 0. split; [lia|]. split; [exists k; split; [exact K1|]; split; [exact K2|exact Hk]|].
      exists 0, 0. repeat split. }
  assert (Q : forall d, possible_length (tree "(?:(ab)|c)") d <-> d = 2 \/ d = 1).
  { intros d. vm_compute (tree _). cbn [possible_length]. split.
    - intros [(a & b & -> & -> & x & y & -> & -> & ->)|[->|[]]]; auto.
    - intros [->| ->]; [left|right; now left]. exists 1, 1. split; [reflexivity|]. split; [reflexivity|].
      exists 1, 0. repeat split. }
  split; [|split; [|split]].
  - apply P. exists 2. split; [lia|]. split; [lia|]. exists 1, 1. split; [reflexivity|]. split; [apply Q; auto|].
    apply sum_one, Q. auto.
  - apply P. exists 3. split; [lia|]. split; [lia|]. exists 1, 4. split; [reflexivity|]. split; [apply Q; auto|].
    exists 2, 2. split; [reflexivity|]. split; [apply Q; auto|]. apply sum_one, Q. auto.
  - intros H. apply P in H as (k & K1 & K2 & Hk).
    apply (sum_bounds _ 1 (Some 2)%N) in Hk; [cbn in Hk; lia|].
    intros d Hd. apply Q in Hd. cbn. lia.
  - vm_compute. reflexivity.
Qed.

(** The bounds that can be computed from the tree. *)
Theorem C71_bounds : forall r ct s, usable r ct ->
  exists a b c l1 l2, regex_match r ct s = Returned a /\ regex_match_prefix r ct s = Returned b
    /\ regex_search r ct s = Returned c /\ tokenize r ct s = Returned l1 /\ find_all r ct s = Returned l2
    /\ Forall (fun res => matched res = true ->
         exists b e, group0 (groups res) = Some (b, e) /\ b <= e
           /\ (shortest (ast r) <= N.of_nat (e - b))%N
           /\ match longest (ast r) with Some m => (N.of_nat (e - b) <= m)%N | None => True end)
         (a :: b :: c :: l1 ++ l2).
Proof.
  intros r ct s Hu. destruct (results_sized r ct s Hu) as (a & b & c & l1 & l2 & E1 & E2 & E3 & E4 & E5 & H).
  exists a, b, c, l1, l2. repeat (split; [assumption|]). eapply Forall_impl; [|exact H].
  intros res [Hr _] Hm. destruct (Hr Hm) as (i & j & E & Hij & Hl). exists i, j.
  apply length_bounds in Hl as [L1 L2]. auto.
Qed.
Print Assumptions C71_bounds.

Example C71_bounds_example :
  let r := rx "(a|bcd){2,4}+(?=x*)|\d{3}" [] in
  usable r RandomAccessIt /\ shortest (ast r) = 2%N /\ longest (ast r) = Some 12%N
  /\ longest (tree "(?:a*){0}|(?:b?\b){3}") = Some 3%N /\ longest (tree "(?:^|$)*") = Some 0%N
  /\ longest (tree "(a)\1") = None.
Proof. intros r. split; [show_usable|]. repeat split; vm_compute; reflexivity. Qed.

(** The traits on which the library bases its decisions say exactly this:
    [is_trivially_matchable]: one character; [is_zero_length_matcher]: the empty
    text is possible; [is_assertion]: nothing else. *)
Theorem C71_traits : forall n,
  (zlm n = true <-> possible_length n 0)
  /\ (trivial n = true -> forall d, possible_length n d <-> d = 1)
  /\ (is_assertion n = true -> forall d, possible_length n d <-> d = 0).
Proof. intros n. split; [apply zlm_length|]. split; [apply trivial_length|apply assertion_length]. Qed.
Print Assumptions C71_traits.

Example C71_traits_example :
  zlm (tree "(?:a*|b)+\b") = true /\ zlm (tree "a*b") = false
  /\ trivial (tree "[^a-z]|\d") = true /\ trivial (tree "a{2}") = false
  /\ is_assertion (tree "(?!a)") = true /\ is_assertion (tree "(?!a)*") = false.
Proof. repeat split; vm_compute; reflexivity. Qed.

(** Nothing smaller would do: every possible length is the length of some text
    that is matched.  [inhabited]: every class of characters accepts something. *)
Theorem C71_attained : forall r ct d, usable r ct -> self_contained (ast r) = true ->
  inhabited (config_of (flags r) ct) (ast r) -> possible_length (ast r) d ->
  exists u, length u = d /\ is_word r ct u.
Proof. exact lengths_attained. Qed.
Print Assumptions C71_attained.

Example C71_attained_example :
  let r := rx "(?:a[^b])*|c{2,}?" [] in
  usable r ForwardIt /\ self_contained (ast r) = true
  /\ inhabited (config_of (flags r) ForwardIt) (ast r) /\ possible_length (ast r) 4.
Proof.
  intros r. split; [show_usable|]. split; [reflexivity|]. split.
  - vm_compute (ast r). cbn [inhabited is_class forallb andb]. repeat split.
    + exists "a"%char. reflexivity.
    + exists "c"%char. reflexivity.
    + exists "c"%char. reflexivity.
  - vm_compute (ast r). left. exists 2. split; [cbn; lia|]. split; [exact I|].
    assert (P : possible_length (tree "(?:a[^b])") 2).
    { vm_compute (tree _). exists 1, 1. split; [reflexivity|]. split; [reflexivity|]. exists 1, 0.
      repeat split. }
    exists 2, 2. split; [reflexivity|]. split; [exact P|]. exists 2, 0. split; [reflexivity|]. split; [exact P|reflexivity].
Qed.
