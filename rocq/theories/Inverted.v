(** The inversion of trees (C74). *)
From Verif Require Import Matcher Api Traits Basics Safe Cong Impl Spec Paths Mirror Adequacy Calls
  Lift Matching Actual Classes Laws Anchored.
From Coq Require Import Lia Permutation.

Lemma count_invert n : capture_count (invert n) = capture_count n.
Proof.
  assert (M : forall l, Forall (fun n => capture_count (invert n) = capture_count n) l ->
            map capture_count (map invert l) = map capture_count l).
  { intros l H. rewrite map_map. now apply map_ext_Forall. }
  induction n using node_ind'; try reflexivity; try (cbn [invert capture_count]; congruence).
  - cbn [invert capture_count]. now rewrite M.
  - rewrite invert_Seq. cbn [capture_count]. rewrite map_rev, M by assumption.
    generalize (map capture_count l). clear. intros l. induction l as [|x l IH]; [reflexivity|].
    cbn [rev]. rewrite list_sum_app, IH. change (list_sum (x :: l)) with (x + list_sum l).
    change (list_sum [x]) with (x + 0). lia.
  - cbn [invert capture_count]. now rewrite M.
Qed.

Theorem inverted_shape n :
  invert (invert n) = n /\ size (invert n) = size n /\ capture_count (invert n) = capture_count n
  /\ trivial (invert n) = trivial n /\ zlm (invert n) = zlm n /\ is_assertion (invert n) = is_assertion n.
Proof.
  repeat split; [apply invert_invert|apply size_invert|apply count_invert|apply trivial_invert
                |apply zlm_invert|apply is_assertion_invert].
Qed.

Section Calls.
  Variables (n : node) (fl : list regex_flag) (ct : category).
  Let r1 := mk_regex n fl.
  Let r2 := mk_regex (invert n) fl.
  Hypothesis U1 : usable r1 ct.
  Hypothesis U2 : usable r2 ct.
  Hypothesis R : reversible n = true.
  Let cf := config_of fl ct.

  Lemma inverted_matches s i j : i <= j -> j <= length s ->
    (matches cf s n i j <-> matches cf (rev s) (invert n) (length s - j) (length s - i)).
  Proof.
    intros. apply mirror; auto. destruct U1 as [Hc _]. eapply compiles_well_formed; exact Hc.
  Qed.

  Lemma regular_both : regular n = true /\ possessive_free n = true
    /\ regular (invert n) = true /\ possessive_free (invert n) = true.
  Proof.
    assert (R' : reversible (invert n) = true) by now rewrite reversible_invert.
    repeat split; auto using reversible_regular, reversible_possessive_free.
  Qed.

  Theorem inverted_match s : verdicts (regex_match r1 ct s) (regex_match r2 ct (rev s)).
  Proof.
    destruct regular_both as (A1 & A2 & B1 & B2).
    destruct (match_language r1 ct s U1 A1 A2) as (x & Ex & Hx).
    destruct (match_language r2 ct (rev s) U2 B1 B2) as (y & Ey & Hy).
    exists x, y. repeat split; auto. eapply bool_iff; [exact Hx|exact Hy|].
    pose proof (inverted_matches s 0 (length s) (Nat.le_0_l _) (le_n _)) as H.
    rewrite Nat.sub_diag, Nat.sub_0_r in H. rewrite rev_length. exact H.
  Qed.

  (** Where the leftmost match of the inverted tree starts the match with the last
      end ends. *)
  Definition last_ending (a : call match_res) (s : list ascii) : Prop :=
    exists y, a = Returned y
      /\ (matched y = true <-> exists i j, i <= j /\ j <= length s /\ matches cf s n i j)
      /\ (matched y = true -> exists i j, group0 (groups y) = Some (length s - j, length s - i)
            /\ i <= j /\ j <= length s /\ matches cf s n i j
            /\ forall i' j', i' <= j' -> j' <= length s -> matches cf s n i' j' -> j' <= j).

  Theorem inverted_search s : last_ending (regex_search r2 ct (rev s)) s.
  Proof.
    destruct regular_both as (A1 & A2 & B1 & B2).
    destruct (search_leftmost r2 ct (rev s) U2 B1) as (y & Ey & Hy1 & Hy2).
    cbn in Hy1, Hy2. fold cf in Hy1, Hy2. rewrite rev_length in Hy1, Hy2.
    assert (Q : forall i, i <= length s -> preferred cf (rev s) (invert n) i <> None
                <-> exists j, matches cf (rev s) (invert n) i j).
    { intros i Hi. exact (preferred_iff r2 ct (rev s) i U2 B2 ltac:(now rewrite rev_length)). }
    assert (Bd : forall i j, i <= length s -> matches cf (rev s) (invert n) i j -> i <= j <= length s).
    { intros i j Hi Hm. rewrite <- (rev_length s) in *. now apply (matches_bounds cf (rev s) (invert n)). }
    assert (T : forall i j, i <= j -> j <= length s ->
              (matches cf (rev s) (invert n) i j <-> matches cf s n (length s - j) (length s - i))).
    { intros i j H1 H2. rewrite (inverted_matches s (length s - j) (length s - i)) by lia.
      replace (length s - (length s - i)) with i by lia.
      now replace (length s - (length s - j)) with j by lia. }
    assert (W : well_formed (invert n) = true) by (destruct U2 as [Hc _]; eapply compiles_well_formed; exact Hc).
    exists y. split; [exact Ey|].
    assert (E : matched y = true -> exists i j, group0 (groups y) = Some (length s - j, length s - i)
            /\ i <= j /\ j <= length s /\ matches cf s n i j
            /\ forall i' j', i' <= j' -> j' <= length s -> matches cf s n i' j' -> j' <= j).
    { intros My. destruct (Hy1 My) as (a & e & Ha & Hp & Hl & G).
      assert (Hm : matches cf (rev s) (invert n) a e).
      { apply preferred_in in Hp. apply in_paths in Hp; auto. now rewrite rev_length. }
      destruct (Bd _ _ Ha Hm) as [H1 H2]. exists (length s - e), (length s - a).
      split; [rewrite G; repeat f_equal; lia|]. split; [lia|]. split; [lia|].
      split; [now apply T|]. intros i' j' H3 H4 H5.
      destruct (le_lt_dec j' (length s - a)) as [|Hlt]; [assumption|exfalso].
      apply (inverted_matches s i' j' H3 H4) in H5.
      assert (Hn : preferred cf (rev s) (invert n) (length s - j') <> None) by (apply Q; [lia|eauto]).
      apply Hn, Hl. lia. }
    split; [|exact E]. split.
    - intros My. destruct (E My) as (i & j & _ & H1 & H2 & H3 & _). eauto.
    - intros (i & j & H1 & H2 & H3). apply inverted_matches in H3; [|assumption..].
      destruct (matched y) eqn:My; [reflexivity|exfalso].
      assert (Hn : preferred cf (rev s) (invert n) (length s - j) <> None) by (apply Q; [lia|eauto]).
      apply Hn, Hy2; [reflexivity|lia].
  Qed.
End Calls.
