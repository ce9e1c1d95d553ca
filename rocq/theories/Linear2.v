(** Expressions whose next character decides how to go on take a linear number of
    steps: the nodes (Linear.v), and the calls. *)
From Verif Require Import Costs RangeCosts Basics Effort Lift Examples Budget Calls RangeEffort Tight Linear.

Lemma linear_pointwise s A D O F z mx (my : nat -> cmatcher) :
  (forall i, linear s A D O F z (my i)) -> (forall cur c k, mx cur c k = my cur cur c k) ->
  linear s A D O F z mx.
Proof.
  intros H E. split.
  - intros q cur c k Hc Hk. rewrite E. now apply (proj1 (H cur)).
  - intros Hz cur c k Hc Ho. rewrite E. now apply (proj2 (H cur)).
Qed.

Lemma block_pointwise s D n O mx (my : nat -> cmatcher) :
  (forall i, block s D n O (my i)) -> (forall cur c k, mx cur c k = my cur cur c k) ->
  block s D n O mx.
Proof.
  intros H E cur c Hc. destruct (H cur cur c Hc) as [H1|(H1 & H2 & H3)].
  - left. intros k. rewrite E. apply H1.
  - right. split; auto. split; auto. intros k. rewrite E. apply H3.
Qed.

Lemma far_enough cf n len cur : distance_less_than cf n len cur = false -> cur <= len ->
  cur + N.to_nat n <= len.
Proof.
  unfold distance_less_than. destruct (is_random cf).
  - intros H Hc. apply N.ltb_ge in H. lia.
  - generalize (N.to_nat n). intros k. revert cur. induction k as [|k IH]; intros cur H Hc; [lia|].
    cbn [distance_loop] in H. destruct (Nat.eqb_spec cur len); [discriminate|]. apply IH in H; lia.
Qed.

Section Nodes.
  Variable cf : config.

  Lemma trivial_skippable n : trivial n = true -> skippable n = false.
  Proof.
    induction n using node_ind'; cbn [trivial skippable]; auto; try discriminate.
    - intros T. now rewrite T.
    - destruct l as [|x [|]]; try discriminate. intros T. inversion H; subst. cbn. now rewrite H2.
    - destruct l as [|x r]; [discriminate|]. intros T.
      assert (T' : forallb trivial (x :: r) = true) by exact T. clear T. induction H as [|y l Hy _ IH]; auto.
      cbn in T' |- *. apply andb_prop in T' as [T1 T2]. rewrite (Hy T1). auto.
    - intros T. destruct lo as [|[]]; try discriminate; destruct hi as [[|[]]|]; try discriminate.
      now rewrite IHn.
  Qed.

  Lemma trivial_opening n a : trivial n = true -> opening cf n a = match_one cf n a.
  Proof.
    induction n using node_ind'; cbn [trivial opening]; auto; try discriminate.
    - intros T. now rewrite T.
    - destruct l as [|x [|]]; try discriminate. intros T. inversion H; subst. cbn [match_one].
      rewrite H2 by assumption. rewrite andb_false_r. apply orb_false_r.
    - destruct l as [|x r]; [discriminate|]. intros T. cbn [match_one].
      assert (T' : forallb trivial (x :: r) = true) by exact T. clear T. induction H as [|y l Hy _ IH]; auto.
      cbn in T' |- *. apply andb_prop in T' as [T1 T2]. rewrite (Hy T1). f_equal. auto.
    - intros T. cbn [match_one]. destruct lo as [|[]]; try discriminate; destruct hi as [[|[]]|]; try discriminate.
      now apply IHn.
  Qed.

  (** ** Repetitions *)

  Section Rep.
    Variables (x : node) (A D : nat) (O F : ascii -> bool).
    Hypothesis HO : trivial x = true -> forall a, match_one cf x a = O a.
    Local Notation G := (fun a => O a || F a).

    Lemma sees_match s j : trivial x = true -> sees s (match_one cf x) j = sees s O j.
    Proof. intros T. apply sees_ext. now apply HO. Qed.

    Lemma linear_times n : 1 <= n -> exists A' D', forall s mx, linear s A D O G false mx ->
      linear s A' D' O F false (c_unrolled_backtracking mx n)
      /\ linear s A' D' O F false (c_non_unrolled_backtracking mx n).
    Proof.
      intros Hn. induction n as [|n IH]; [lia|]. destruct n as [|n].
      - exists A, (S (S D)). intros s mx H.
        assert (H1 : linear s A (S D) O F false mx).
        { eapply linear_follow; [exact H|]. intros j E. rewrite sees_or, E. apply orb_true_r. }
        split.
        + eapply linear_mono; [exact H1|lia|lia].
        + exact (linear_called s _ _ _ _ _ _ H1).
      - destruct IH as (A' & D' & IH); [lia|]. exists (A * S D' + A'), (S (S D * S D' + D')).
        intros s mx H. destruct (IH s mx H) as [IH1 IH2].
        assert (H1 : linear s A (S D) O (fun a => O a || (false && F a)) false mx).
        { eapply linear_follow; [exact H|]. intros j. rewrite !sees_or, sees_and. now destruct (sees s O j). }
        assert (E : forall j, sees s (fun a => O a || (false && O a)) j = true -> sees s O j = true).
        { intros j. rewrite sees_or, sees_and. now rewrite orb_false_r. }
        split.
        + refine (linear_called s _ _ _ _ _ (fun cur c k => mx cur c (fun j c' => c_unrolled_backtracking mx (S n) j c' k)) _).
          eapply linear_opening; [exact (linear_then s _ _ _ _ _ _ _ _ _ _ _ H1 IH1)|exact E].
        + refine (linear_called s _ _ _ _ _ (fun cur c k => mx cur c (fun j c' => c_non_unrolled_backtracking mx (S n) j c' k)) _).
          eapply linear_opening; [exact (linear_then s _ _ _ _ _ _ _ _ _ _ _ H1 IH2)|exact E].
    Qed.

    Lemma block_fixed n s mx : trivial x = true -> (1 <= n)%N ->
      block s (2 * N.to_nat n) (N.to_nat n) O (c_fixed_backtracking cf s x mx n).
    Proof.
      intros T Hn cur c Hc. unfold c_fixed_backtracking. rewrite T.
      pose proof (distance_rounds_le cf n (length s) cur) as Hr.
      destruct (distance_less_than cf n (length s) cur) eqn:Ed.
      { left. intros k. cbn [paid steps out]. split; [cbn [c_non_match leaf steps]; lia|discriminate]. }
      pose proof (far_enough _ _ _ _ Ed Hc) as Hf.
      assert (W : forall g : ccont -> costed,
        ((forall k, steps (g k) <= N.to_nat n /\ forall c' e, out (g k) <> Res c' e true)
         \/ sees s O cur = true /\ forall k, steps (g k) <= N.to_nat n + steps (k (cur + N.to_nat n) c)
              /\ out (g k) = out (k (cur + N.to_nat n) c)) ->
        (forall k, steps (paid (distance_rounds cf n (length s) cur) (g k)) <= 2 * N.to_nat n
           /\ forall c' e, out (paid (distance_rounds cf n (length s) cur) (g k)) <> Res c' e true)
        \/ sees s O cur = true /\ cur + N.to_nat n <= length s
           /\ forall k, steps (paid (distance_rounds cf n (length s) cur) (g k)) <= 2 * N.to_nat n + steps (k (cur + N.to_nat n) c)
                        /\ out (paid (distance_rounds cf n (length s) cur) (g k)) = out (k (cur + N.to_nat n) c)).
      { intros g [H|[H1 H2]].
        - left. intros k. destruct (H k). cbn [paid steps out]. split; [lia|assumption].
        - right. split; auto. split; auto. intros k. destruct (H2 k). cbn [paid steps out]. split; [lia|assumption]. }
      destruct (is_random cf); [destruct (unroll cf)|].
      - apply (W (fun k => c_trivial_block_random s (repeat (match_one cf x) (N.to_nat n)) cur c k)).
        destruct (N.to_nat n) as [|m] eqn:Em; [lia|].
        destruct (block_random s (match_one cf x) (repeat (match_one cf x) m) cur c Hc) as [H|(H1 & H2 & H3)];
          rewrite repeat_length in *; [now left|]. right. rewrite <- sees_match by assumption. auto.
      - apply (W (fun k => c_repetition_loop_random s (match_one cf x) (N.to_nat n) 0 cur c k)).
        destruct (block_loop_random s (match_one cf x) c (N.to_nat n) 0 cur ltac:(lia)) as [H|(H1 & H2)]; [now left|].
        right. rewrite Nat.add_0_r in *. rewrite <- sees_match by assumption. split; [apply H1; lia|exact H2].
      - apply (W (fun k => c_repetition_block_forward s (match_one cf x) (N.to_nat n) cur c k)).
        destruct (block_loop_forward s (match_one cf x) c (N.to_nat n) cur Hf) as [H|(H1 & H2)]; [now left|].
        right. rewrite <- sees_match by assumption. split; [apply H1; lia|exact H2].
    Qed.

    Lemma linear_fixed md n : (1 <= n)%N -> (md = Possessive -> trivial x = true) ->
      exists A' D', forall s mx, linear s A D O G false mx ->
        linear s A' D' O F false (c_fixed_match cf s md n x mx).
    Proof.
      intros Hn Hp. destruct (N.eqb_spec n 1) as [->|Hn1].
      - exists A, (S D). intros s mx H.
        assert (H1 : linear s A (S D) O F false mx).
        { eapply linear_follow; [exact H|]. intros j E. rewrite sees_or, E. apply orb_true_r. }
        unfold c_fixed_match. cbn [N.eqb Pos.eqb].
        destruct md; [exact H1|exact H1|]. rewrite (Hp eq_refl). exact H1.
      - assert (E0 : N.eqb n 0 = false) by (apply N.eqb_neq; lia).
        assert (E1 : N.eqb n 1 = false) by now apply N.eqb_neq.
        destruct (bool_dec (trivial x) true) as [T|T]; [|apply not_true_is_false in T].
        + exists 0, (S (S (2 * N.to_nat n))). intros s mx _. unfold c_fixed_match. rewrite E0, E1.
          pose proof (block_fixed n s mx T Hn) as B. apply (block_linear s _ (N.to_nat n)); [lia|].
          destruct md; apply block_called; try exact B. now apply block_possessive.
        + destruct (linear_times (N.to_nat n) ltac:(lia)) as (A' & D' & H).
          exists A', (S D'). intros s mx Hmx. destruct (H s mx Hmx) as [H1 H2]. unfold c_fixed_match. rewrite E0, E1.
          unfold c_fixed_backtracking. rewrite T.
          destruct md; [| |specialize (Hp eq_refl); congruence]; apply linear_called; destruct (unroll cf); assumption.
    Qed.

  End Rep.

  Section Loop.
    Variables (x : node) (A D : nat) (O F : ascii -> bool).
    Hypothesis HO : trivial x = true -> forall a, match_one cf x a = O a.
    Local Notation G := (fun a => O a || F a).
    Local Notation sees_match := (sees_match x O HO).

    Lemma linear_between md : (md = Possessive -> trivial x = true) ->
      (md <> Possessive -> disjoint O F = true) ->
      exists A' D', forall s mx b w, linear s A D O G false mx ->
        linear s A' D' O F true (c_between_bounds cf s md b w x mx).
    Proof.
      intros Hp Hd. exists (loop_A A D + 2), (loop_D D + 2). intros s mx b w Hmx.
      assert (Hds : md <> Possessive -> forall j, sees s O j = true -> sees s F j = false).
      { intros H j. apply disjoint_sees. auto. }
      assert (M : forall my, linear s 2 2 (match_one cf x) F true my -> trivial x = true ->
        linear s (loop_A A D + 2) (loop_D D + 2) O F true my).
      { intros my H T. eapply linear_mono; [eapply linear_opening; [exact H|]|lia|lia].
        intros j. now rewrite sees_match. }
      assert (M2 : forall my, linear s (loop_A A D) (loop_D D) O F true my ->
        linear s (loop_A A D + 2) (loop_D D + 2) O F true my).
      { intros my H. eapply linear_mono; [exact H|lia|lia]. }
      set (loop := fun i : nat => match md with
        | Possessive =>
            if trivial x then c_possessive_trivial (loop_fuel b (length s) i) s (match_one cf x) b
            else c_possessive_generic (loop_fuel b (length s) i) mx w b
        | _ =>
            if xorb (match md with Greedy => true | _ => false end) (ungreedy cf) then
              if trivial x && is_bidirectional cf then
                fun cur c k => c_possessive_trivial (loop_fuel b (length s) i) s (match_one cf x) b cur c
                  (fun next c' => c_step_back cur (next - cur) c' k)
              else c_greedy_generic (loop_fuel b (length s) i) mx w b
            else if trivial x then c_lazy_trivial (loop_fuel b (length s) i) s (match_one cf x) b
            else c_lazy_generic (loop_fuel b (length s) i) mx w b
        end : cmatcher).
      apply (linear_pointwise s _ _ _ _ _ _ loop).
      - intros i. unfold loop. destruct (bool_dec (trivial x) true) as [T|T]; [|apply not_true_is_false in T]; rewrite T.
        + assert (Hd' : md <> Possessive -> forall j, sees s (match_one cf x) j = true -> sees s F j = false).
          { intros H j. rewrite sees_match by exact T. now apply Hds. }
          destruct md; cbn [andb].
          * destruct (xorb _ _); [|apply M; [apply linear_lazy_trivial; now apply Hd'|exact T]].
            destruct (is_bidirectional cf); [apply M; [apply linear_greedy_trivial; now apply Hd'|exact T]|].
            apply M2, linear_greedy; [exact Hmx|now apply Hds].
          * destruct (xorb _ _); [|apply M; [apply linear_lazy_trivial; now apply Hd'|exact T]].
            destruct (is_bidirectional cf); [apply M; [apply linear_greedy_trivial; now apply Hd'|exact T]|].
            apply M2, linear_greedy; [exact Hmx|now apply Hds].
          * apply M; [|exact T]. eapply linear_mono; [apply linear_possessive_trivial|lia|lia].
        + destruct md; cbn [andb]; [| |specialize (Hp eq_refl); congruence].
          * destruct (xorb _ _); apply M2; [apply linear_greedy|apply linear_lazy]; try exact Hmx; now apply Hds.
          * destruct (xorb _ _); apply M2; [apply linear_greedy|apply linear_lazy]; try exact Hmx; now apply Hds.
      - intros cur c k. unfold c_between_bounds, loop. destruct md; [| |now destruct (trivial x)];
          (destruct (xorb _ _); [destruct (trivial x && is_bidirectional cf)|destruct (trivial x)]); reflexivity.
    Qed.

    Lemma linear_rep md lo hi :
      (md = Possessive -> trivial x = true) ->
      (md <> Possessive -> (match hi with Fin h => N.eqb lo h | Inf => false end || disjoint O F) = true) ->
      exists A' D', forall s mx, linear s A D O G false mx ->
        linear s A' D' O F (N.eqb lo 0) (c_rep_match cf s md lo hi x mx).
    Proof.
      intros Hp Hd. destruct (match hi with Fin h => N.eqb lo h | Inf => false end) eqn:Ef.
      - destruct (N.eqb_spec lo 0) as [E|E].
        + exists 0, 2. intros s mx H. unfold c_rep_match. rewrite Ef. unfold c_fixed_match. rewrite E. cbn [N.eqb].
          apply linear_here. intros cur c k _. right. exists c. cbn [called steps]. lia.
        + destruct (linear_fixed x A D O F HO md lo ltac:(lia) Hp) as (A' & D' & H). exists A', D'. intros s mx Hmx.
          unfold c_rep_match. rewrite Ef. now apply H.
      - assert (Hd' : md <> Possessive -> disjoint O F = true) by (intros E; now apply Hd in E).
        destruct (linear_between md Hp Hd') as (A2 & D2 & H2).
        destruct (N.eqb_spec lo 0) as [->|E].
        + exists A2, (S D2). intros s mx Hmx. unfold c_rep_match. rewrite Ef. cbn [is_zero].
          exact (linear_called s _ _ _ _ _ _ (H2 s mx _ _ Hmx)).
        + (* the fixed part is followed by what the loop accepts *)
          destruct (linear_fixed x A (S D) O (fun a => O a || (true && F a)) HO md lo ltac:(lia) Hp) as (A1 & D1 & H1).
          exists (A1 * S D2 + A2), (S (D1 * S D2 + D2)). intros s mx Hmx. unfold c_rep_match. rewrite Ef.
          destruct (is_zero lo) eqn:Ez; [apply N.eqb_eq in Ez; contradiction|].
          refine (linear_called s _ _ _ _ _ (fun cur c k => c_fixed_match cf s md lo x mx cur c
            (fun j c' => c_between_bounds cf s md (bound_subtract hi lo) (is_infinity hi && zlm x) x mx j c' k)) _).
          assert (H1' : linear s A1 D1 O (fun a => O a || (true && F a)) false (c_fixed_match cf s md lo x mx)).
          { apply H1. eapply linear_follow; [exact Hmx|]. intros j. rewrite !sees_or, sees_and. now destruct (sees s O j). }
          eapply linear_opening; [exact (linear_then s _ _ _ _ _ _ _ _ _ _ _ H1' (H2 s mx _ _ Hmx))|].
          intros j. rewrite sees_or, sees_and. now rewrite orb_false_r.
    Qed.
  End Loop.

  (** ** Tests of a position *)

  Lemma checks_skippable n : checks n = true -> skippable n = true.
  Proof.
    destruct n; cbn; auto; try discriminate. intros H. apply andb_prop in H as [H _].
    now rewrite (is_assertion_not_trivial _ H).
  Qed.

  Lemma steps_assert b cur c k : steps (c_assert_that b cur c k) <= steps (k cur c).
  Proof. destruct b; cbn; lia. Qed.

  Lemma checks_here n : checks n = true -> exists D, forall names base f rd cur c k,
    steps (c_m cf names base f rd n cur c k) <= D
    \/ exists c', steps (c_m cf names base f rd n cur c k) <= D + steps (k cur c').
  Proof.
    induction n using node_ind'; try discriminate; intros Hn.
    - exists 1. intros names base [|f] rd cur c k; [left; cbn; lia|]. right. exists c. cbn. lia.
    - exists 1. intros names base [|f] rd cur c k; [left; cbn; lia|]. cbn [c_m called steps].
      destruct (Nat.eqb cur 0); [right; exists c; lia|].
      destruct (multiline cf); [|left; cbn; lia]. destruct (is_bidirectional cf); [|left; cbn; lia].
      unfold c_deref. destruct (nth_error _ _); [|left; cbn; lia]. right. exists c.
      pose proof (steps_assert (match_one cf n_linebreak a) cur c k). lia.
    - exists 1. intros names base [|f] rd cur c k; [left; cbn; lia|]. cbn [c_m called steps].
      right. exists c. pose proof (steps_assert (Nat.eqb cur 0) cur c k). lia.
    - exists 1. intros names base [|f] rd cur c k; [left; cbn; lia|]. cbn [c_m called steps].
      destruct (Nat.eqb cur _); [right; exists c; lia|].
      destruct (multiline cf); [|left; cbn; lia].
      unfold c_deref. destruct (nth_error _ _); [|left; cbn; lia]. right. exists c.
      pose proof (steps_assert (match_one cf n_linebreak a) cur c k). lia.
    - exists 1. intros names base [|f] rd cur c k; [left; cbn; lia|]. cbn [c_m called steps].
      right. exists c. pose proof (steps_assert (Nat.eqb cur (length (view base rd))) cur c k). lia.
    - exists 1. intros names base [|f] rd cur c k; [left; cbn; lia|]. cbn [c_m].
      destruct (negb (is_bidirectional cf)); [left; cbn; lia|]. cbn [called steps].
      assert (H : forall b, steps (if Nat.eqb cur (length (view base rd)) then c_assert_that (xorb b false) cur c k
        else c_deref (view base rd) cur (fun a => c_assert_that (xorb b (match_one cf n_word a)) cur c k))
        <= steps (k cur c)).
      { intros b. destruct (Nat.eqb cur _); [apply steps_assert|]. unfold c_deref.
        destruct (nth_error _ _); [apply steps_assert|cbn; lia]. }
      right. exists c. destruct (Nat.eqb cur 0); [pose proof (H false); lia|].
      unfold c_deref at 1. destruct (nth_error (view base rd) (cur - 1)) as [a|]; [|cbn; lia].
      pose proof (H (match_one cf n_word a)). lia.
    - cbn [checks] in Hn. apply andb_prop in Hn as [Ha Hn]. destruct (IHn Hn) as [D H]. exists (S D).
      intros names base [|f] rd cur c k; [left; cbn; lia|]. cbn [c_m called steps]. rewrite Ha.
      assert (Hs : steps (c_m cf names base f rd n cur c c_success) <= D).
      { destruct (H names base f rd cur c c_success) as [Hs|[c' Hs]]; [lia|]. cbn [c_success leaf steps] in Hs. lia. }
      unfold c_on_result. destruct (out _) as [c' e []| | |]; try (left; lia).
      + left. cbn. lia.
      + right. exists c'. cbn [Costs.after steps]. lia.
    - exists 1. cbn [checks] in Hn. intros names base [|f] rd cur c k; [left; cbn; lia|]. cbn [c_m].
      destruct d; rewrite Hn.
      + cbn [called steps]. destruct (Nat.eqb cur _); [left; cbn; lia|]. unfold c_deref.
        destruct (nth_error _ _); [|left; cbn; lia]. right. exists c.
        pose proof (steps_assert (match_one cf n a) cur c k). lia.
      + destruct (negb (is_bidirectional cf)); [left; cbn; lia|].
        cbn [called steps]. destruct (Nat.eqb cur _); [left; cbn; lia|]. unfold c_deref.
        destruct (nth_error _ _); [|left; cbn; lia]. right. exists c.
        pose proof (steps_assert (match_one cf n a) cur c k). lia.
  Qed.

  Lemma trivial_determined n F : trivial n = true -> determined cf n F = true.
  Proof.
    revert F. induction n using node_ind'; intros F; cbn [trivial determined]; auto; try discriminate.
    - intros T. destruct (is_assertion n) eqn:E; auto. apply is_assertion_not_trivial in E. congruence.
    - destruct l as [|x [|]]; try discriminate. intros T. inversion H; subst. rewrite H2 by assumption. reflexivity.
    - destruct l as [|x r]; [discriminate|]. intros T.
      assert (T' : forallb trivial (x :: r) = true) by exact T. now rewrite T'.
    - intros T. destruct lo as [|[]]; try discriminate; destruct hi as [[|[]]|]; try discriminate.
      rewrite IHn by assumption. rewrite (trivial_skippable _ T). destruct md; auto.
  Qed.

  Lemma linear_ext s A D O F z mx my : linear s A D O F z mx ->
    (forall cur c k, my cur c k = mx cur c k) -> linear s A D O F z my.
  Proof. intros H E. now apply (linear_pointwise s A D O F z my (fun _ => mx)). Qed.

  (** ** Groups *)

  Lemma linear_cap s A D O F z mx (st : nat -> nat -> caps -> option caps) (cl : caps -> option caps) :
    linear s A D O F z mx ->
    linear s A D O F z (fun cur c k => c_or_else
      (mx cur c (fun next c' => match st cur next c' with Some c'' => k next c'' | None => leaf IllFormed end))
      (fun c' => match cl c' with Some c'' => c_non_match cur c'' | None => leaf IllFormed end)).
  Proof.
    intros [H1 H2].
    assert (S : forall x cur, steps (c_or_else x
      (fun c' => match cl c' with Some c'' => c_non_match cur c'' | None => leaf IllFormed end)) <= steps x).
    { intros x cur. unfold c_or_else. destruct (out x) as [c' e []| | |]; try lia.
      destruct (cl c'); cbn; lia. }
    split.
    - intros q cur c k Hc Hk.
      set (k' := fun next c' => match st cur next c' with Some c'' => k next c'' | None => leaf IllFormed end).
      assert (Hk' : quick s F q k').
      { intros j c' Hj Hf. unfold k'. destruct (st cur j c'); [now apply Hk|cbn; lia]. }
      destruct (H1 q cur c k' Hc Hk') as (p & P1 & P2 & P3). pose proof (S (mx cur c k') cur) as Hs.
      exists p. split; auto. split; auto.
      destruct P3 as [P3|(P3 & P4 & c' & P5)]; [left; lia|]. unfold k' in P5 at 2.
      destruct (st cur p c') as [c''|]; [|left; cbn [leaf steps] in P5; lia].
      right. split; auto. split; auto. exists c''. lia.
    - intros Hz cur c k Hc Ho. eapply Nat.le_trans; [apply S|]. now apply H2.
  Qed.

  (** ** Sequences and alternations *)

  Definition steady (n : node) : Prop := forall F, determined cf n F = true ->
    exists A D, forall names base f rd,
      linear (view base rd) A D (opening cf n) F (skippable n) (c_m cf names base f rd n).

  Lemma linear_none s A D O F z mx : (forall cur c k, steps (mx cur c k) = 0) -> linear s A D O F z mx.
  Proof.
    intros H. split.
    - intros q cur c k Hc _. exists cur. split; [lia|]. split; auto. left. rewrite H. lia.
    - intros _ cur c k _ _. rewrite H. lia.
  Qed.

  Lemma block_seq s x y r : forallb trivial (x :: y :: r) = true ->
    block s (2 * length (x :: y :: r)) (length (x :: y :: r)) (opening cf x) (fun cur c k =>
      paid (distance_rounds cf (N.of_nat (length (x :: y :: r))) (length s) cur)
       (if distance_less_than cf (N.of_nat (length (x :: y :: r))) (length s) cur
        then c_non_match cur c
        else if is_random cf
        then c_trivial_block_random s (map (match_one cf) (x :: y :: r)) cur c k
        else c_sequence_block_forward s (map (match_one cf) (x :: y :: r)) cur c k)).
  Proof.
    intros T cur c Hc. apply andb_prop in T as [T _].
    pose proof (distance_rounds_le cf (N.of_nat (length (x :: y :: r))) (length s) cur) as Hr.
    rewrite Nat2N.id in Hr.
    assert (Es : forall j, sees s (match_one cf x) j = sees s (opening cf x) j).
    { intros j. apply sees_ext. intros a. symmetry. now apply trivial_opening. }
    destruct (distance_less_than _ _ _ _) eqn:Ed.
    { left. intros k. cbn [paid steps out c_non_match leaf]. split; [lia|discriminate]. }
    pose proof (far_enough _ _ _ _ Ed Hc) as Hf. rewrite Nat2N.id in Hf.
    assert (El : S (length (map (match_one cf) (y :: r))) = length (x :: y :: r)).
    { rewrite map_length. reflexivity. }
    destruct (is_random cf).
    - destruct (block_random s (match_one cf x) (map (match_one cf) (y :: r)) cur c Hc) as [H|(H1 & H2 & H3)];
        rewrite El in *.
      + left. intros k. destruct (H k). cbn [paid steps out]. split; [|assumption]. cbn [map] in *. lia.
      + right. rewrite <- Es. split; auto. split; auto. intros k. destruct (H3 k).
        cbn [paid steps out]. split; [|assumption]. cbn [map] in *. lia.
    - destruct (block_forward s (match_one cf x) (map (match_one cf) (y :: r)) cur c) as [H|(H1 & H3)];
        rewrite ?El in *; [exact Hf| |].
      + left. intros k. destruct (H k). cbn [paid steps out]. split; [|assumption]. cbn [map] in *. lia.
      + right. rewrite <- Es. split; auto. split; auto. intros k. destruct (H3 k).
        cbn [paid steps out]. split; [|assumption]. cbn [map] in *. lia.
  Qed.

  Lemma linear_seq l F : Forall steady l -> determined_all cf F l = true ->
    exists A D, forall names base f rd,
      linear (view base rd) A D (opening_all cf l) F (forallb skippable l)
        (c_seq_match cf (view base rd) (c_m cf names base f rd) l).
  Proof.
    intros Hl. induction Hl as [|x r Hx Hr IH]; intros Hd.
    - exists 0, 0. intros names base f rd. now apply linear_none.
    - cbn [determined_all] in Hd. apply andb_prop in Hd as [Hd Hds].
      destruct (Hx _ Hd) as (A1 & D1 & H1). destruct (IH Hds) as (A2 & D2 & H2). clear IH.
      destruct r as [|y r].
      + exists A1, (S D1). intros names base f rd.
        cbn [forallb]. rewrite andb_true_r.
        eapply linear_opening; [eapply linear_follow; [exact (H1 names base f rd)|]|].
        * intros j E. unfold behind. cbn [opening_all forallb]. rewrite (sees_ext _ _ F); auto.
        * intros j E. cbn [opening_all]. rewrite sees_or, E. reflexivity.
      + destruct (bool_dec (forallb trivial (x :: y :: r)) true) as [T|T]; [|apply not_true_is_false in T].
        * exists 0, (S (S (2 * length (x :: y :: r)))). intros names base f rd.
          replace (forallb skippable (x :: y :: r)) with false.
          2:{ apply andb_prop in T as [T _]. cbn [forallb]. now rewrite (trivial_skippable x T). }
          eapply linear_opening.
          { eapply linear_ext.
            - eapply block_linear; [|apply block_called; apply (block_seq (view base rd) x y r T)]. cbn. lia.
            - intros cur c k. cbn [c_seq_match]. change (trivial x && (trivial y && forallb trivial r)) with (forallb trivial (x :: y :: r)).
              cbn [c_seq_match] in *. rewrite T. reflexivity. }
          intros j E. cbn [opening_all]. rewrite sees_or, E. reflexivity.
        * exists (A1 * S D2 + A2), (S (D1 * S D2 + D2)). intros names base f rd.
          eapply linear_ext.
          { refine (linear_called (view base rd) _ _ _ _ _ _ _).
            exact (linear_then (view base rd) _ _ _ _ _ _ _ _ _ _ _ (H1 names base f rd) (H2 names base f rd)). }
          intros cur c k. cbn [c_seq_match]. change (trivial x && (trivial y && forallb trivial r)) with (forallb trivial (x :: y :: r)).
          rewrite T. reflexivity.
  Qed.

  Lemma existsb_trivial l a : forallb trivial l = true ->
    existsb (fun y => match_one cf y a) l = opening cf (Alt l) a.
  Proof.
    cbn [opening]. induction l as [|x r IH]; cbn; auto. intros T. apply andb_prop in T as [T1 T2].
    rewrite IH by assumption. now rewrite trivial_opening.
  Qed.

  Lemma linear_alt l F : Forall steady l -> determined_any cf F l = true ->
    exists A D, forall names base f rd,
      linear (view base rd) A D (opening cf (Alt l)) F (skippable (Alt l))
        (c_alt_match cf (view base rd) (c_m cf names base f rd) l).
  Proof.
    intros Hl. induction Hl as [|x r Hx Hr IH]; intros Hd.
    - exists 0, 0. intros names base f rd. now apply linear_none.
    - destruct r as [|y r].
      + assert (Hd' : determined cf x F = true).
        { cbn [determined_any forallb] in Hd. apply orb_prop in Hd as [Hd|Hd].
          - rewrite andb_true_r in Hd. now apply trivial_determined.
          - repeat (apply andb_prop in Hd as [Hd _]). exact Hd. }
        destruct (Hx _ Hd') as (A1 & D1 & H1). exists A1, D1. intros names base f rd.
        cbn [skippable existsb]. rewrite orb_false_r.
        eapply linear_opening; [exact (H1 names base f rd)|]. intros j E. cbn [opening existsb].
        rewrite sees_or, E. reflexivity.
      + destruct (bool_dec (forallb trivial (x :: y :: r)) true) as [T|T]; [|apply not_true_is_false in T].
        * exists 0, 2. intros names base f rd.
          replace (skippable (Alt (x :: y :: r))) with false by (symmetry; now apply trivial_skippable).
          eapply linear_ext.
          { eapply linear_opening; [eapply block_linear; [apply le_n|apply block_called; apply block_trivial]|].
            intros j. instantiate (1 := fun a => existsb (fun y => match_one cf y a) (x :: y :: r)).
            intros E. rewrite <- E. apply sees_ext. intros a. symmetry. now apply existsb_trivial. }
          intros cur c k. cbn [c_alt_match]. change (trivial x && (trivial y && forallb trivial r)) with (forallb trivial (x :: y :: r)).
          rewrite T. reflexivity.
        * change (forallb trivial (x :: y :: r)
            || (determined cf x F && determined_any cf F (y :: r)
                && disjoint (opening cf x) (opening cf (Alt (y :: r)))
                && negb (skippable x && skippable (Alt (y :: r)))
                && (negb (skippable x) || disjoint (opening cf (Alt (y :: r))) F)
                && (negb (skippable (Alt (y :: r))) || disjoint (opening cf x) F)) = true) in Hd.
          rewrite T, orb_false_l in Hd.
          apply andb_prop in Hd as [Hd Q5]. apply andb_prop in Hd as [Hd Q4]. apply andb_prop in Hd as [Hd Q3].
          apply andb_prop in Hd as [Hd Q2]. apply andb_prop in Hd as [Q0 Q1].
          destruct (Hx _ Q0) as (A1 & D1 & H1). destruct (IH Q1) as (A2 & D2 & H2).
          exists (A1 + A2), (S (D1 + D2)). intros names base f rd.
          eapply linear_ext.
          { refine (linear_called (view base rd) _ _ _ _ _ _ _).
            refine (linear_or (view base rd) _ _ _ _ _ _ _ _ _ _ _ (H1 names base f rd) (H2 names base f rd) _ _ _ _).
            - intros j. now apply disjoint_sees.
            - now apply negb_true_iff in Q3.
            - intros E j. apply disjoint_sees. rewrite E in Q4. exact Q4.
            - intros E j. apply disjoint_sees. rewrite E in Q5. exact Q5. }
          intros cur c k. cbn [c_alt_match]. change (trivial x && (trivial y && forallb trivial r)) with (forallb trivial (x :: y :: r)).
          rewrite T. reflexivity.
  Qed.

  Theorem all_steady n : steady n.
  Proof.
    assert (Hc : forall n, checks n = true -> forall F, exists A D, forall names base f rd,
      linear (view base rd) A D (opening cf n) F (skippable n) (c_m cf names base f rd n)).
    { intros x Hx F. destruct (checks_here x Hx) as [D H]. exists 0, (S D). intros names base f rd.
      rewrite (checks_skippable x Hx). apply linear_here. intros cur c k _. apply H. }
    assert (Ht : forall n, trivial n = true ->
      (forall names base f rd cur c k, c_m cf names base (S f) rd n cur c k
        = called (c_match_trivial (view base rd) (match_one cf n) cur c k)) ->
      forall F, exists A D, forall names base f rd,
      linear (view base rd) A D (opening cf n) F (skippable n) (c_m cf names base f rd n)).
    { intros x Hx E F. exists 0, 2. intros names base [|f] rd; [now apply linear_none|].
      rewrite (trivial_skippable x Hx).
      eapply linear_ext; [|exact (E names base f rd)].
      eapply linear_opening; [eapply block_linear; [apply le_n|apply block_called; apply block_trivial]|].
      intros j Ej. rewrite <- Ej. apply sees_ext. intros a. now apply trivial_opening. }
    induction n using node_ind'; intros F Hd; try (now apply Hc); try (now apply Ht); try discriminate.
    - cbn [determined] in Hd. destruct (is_assertion n) eqn:Ea.
      + apply Hc. cbn [checks]. now rewrite Ea.
      + apply Ht; [exact Hd|]. intros. cbn [c_m]. now rewrite Ea.
    - destruct (linear_seq l F H Hd) as (A & D & Hl). exists A, D. intros names base [|f] rd; [now apply linear_none|].
      eapply linear_opening; [exact (Hl names base f rd)|]. intros j E. rewrite <- E. apply sees_ext.
      intros a. apply opening_Seq.
    - destruct (linear_alt l F H Hd) as (A & D & Hl). exists A, D. intros names base [|f] rd; [now apply linear_none|].
      exact (Hl names base f rd).
    - destruct (IHn F Hd) as (A & D & Hl). exists A, (S D). intros names base [|f] rd; [now apply linear_none|].
      apply (linear_called (view base rd) A D (opening cf n) F (skippable n) (fun cur c k => c_or_else
                (c_m cf names base f rd n cur c (fun next c' =>
                   match store names base rd id nm cur next c' with
                   | Some c'' => k next c''
                   | None => leaf IllFormed
                   end))
                (fun c' => match clear_cell (N.to_nat id) c' with
                           | Some c'' => c_non_match cur c''
                           | None => leaf IllFormed
                           end))).
      apply (linear_cap (view base rd) A D (opening cf n) F (skippable n) (c_m cf names base f rd n)
        (fun cur next c' => store names base rd id nm cur next c') (clear_cell (N.to_nat id))).
      apply Hl.
    - cbn [determined] in Hd. apply andb_prop in Hd as [Hd Hm]. apply andb_prop in Hd as [Hd Hs].
      apply negb_true_iff in Hs. destruct (IHn _ Hd) as (A & D & Hl).
      destruct (linear_rep n A D (opening cf n) F (fun T a => eq_sym (trivial_opening n a T)) md lo hi) as (A' & D' & H').
      + intros ->. exact Hm.
      + intros Hne. destruct md; [exact Hm|exact Hm|contradiction].
      + exists A', D'. intros names base [|f] rd; [now apply linear_none|].
        cbn [skippable]. rewrite Hs, orb_false_r. apply (H' (view base rd) (c_m cf names base f rd n)).
        specialize (Hl names base f rd). rewrite Hs in Hl. exact Hl.
  Qed.
End Nodes.

(** ** Calls *)

Lemma attempt_linear cf n : determined cf n (fun _ => false) = true ->
  exists C, forall s cur c k, cur <= length s -> (forall j c', steps (k j c') = 0) ->
    steps (c_node_match cf (group_names n) s 0 n cur c k) <= C * S (length s - cur).
Proof.
  intros H. destruct (all_steady cf n _ H) as (A & D & Hl). exists (A + D). intros s cur c k Hc Hk.
  destruct (proj1 (Hl (group_names n) s (size n) 0) 0 cur c k Hc) as (p & P1 & P2 & P3).
  { intros j c' _ _. rewrite Hk. apply le_n. }
  change (view s 0) with s in *. unfold c_node_match.
  assert (B : bd A (p - cur) D 0 <= (A + D) * S (length s - cur)).
  { unfold bd. pose proof (Nat.mul_le_mono_l (p - cur) (length s - cur) A). nia. }
  destruct P3 as [P3|(P3 & _ & c' & P5)]; [lia|]. rewrite Hk in P5. lia.
Qed.

Lemma search_rounds cf n s M : (forall cur c, cur <= length s ->
    steps (c_node_match cf (group_names n) s 0 n cur c c_success) <= M (length s - cur)) ->
  (forall d, M d <= M (S d)) ->
  forall fuel cur c, cur <= length s -> steps (c_search_loop fuel cf n s cur c) <= fuel * S (M (length s - cur)).
Proof.
  intros H HM. induction fuel as [|f IH]; intros cur c Hc; cbn [c_search_loop]; [cbn; lia|].
  specialize (H cur c Hc).
  destruct (out _) as [c' e []| | |]; try (cbn [with_out round steps]; lia).
  cbn [Costs.after round steps]. destruct (Nat.eqb_spec cur (length s)).
  - cbn [c_non_match leaf steps]. lia.
  - specialize (IH (S cur) c' ltac:(lia)). specialize (HM (length s - S cur)).
    replace (S (length s - S cur)) with (length s - cur) in HM by lia.
    assert (f * S (M (length s - S cur)) <= f * S (M (length s - cur))) by (apply Nat.mul_le_mono_l; lia). lia.
Qed.

Theorem calls_linear cf n : determined cf n (fun _ => false) = true ->
  exists C, forall s cur c, cur <= length s ->
    steps (c_match_method cf n s cur c) <= C * S (length s - cur)
    /\ steps (c_match_prefix_method cf n s cur c) <= C * S (length s - cur)
    /\ steps (c_search_method cf n s cur c) <= C * S (length s - cur) ^ 2.
Proof.
  intros H. destruct (attempt_linear cf n H) as [C HC]. exists (S C). intros s cur c Hc.
  assert (W : forall x (f : costed -> outcome), steps (match out x with Res c' e b => with_out x (f x) | _ => x end) = steps x).
  { intros x f. now destruct (out x). }
  split; [|split].
  - unfold c_match_method. pose proof (HC s cur c (c_equals (length s)) Hc (fun _ _ => eq_refl)).
    destruct (out _); cbn [with_out steps]; lia.
  - unfold c_match_prefix_method. pose proof (HC s cur c c_success Hc (fun _ _ => eq_refl)).
    destruct (out _); cbn [with_out steps]; lia.
  - unfold c_search_method.
    pose proof (search_rounds cf n s (fun d => C * S d) (fun cur c Hc => HC s cur c c_success Hc (fun _ _ => eq_refl))
      ltac:(intros; apply Nat.mul_le_mono_l; lia) (S (length s - cur)) cur c Hc) as Hs.
    eapply Nat.le_trans; [exact Hs|]. cbn [Nat.pow]. nia.
Qed.

Theorem ranges_linear r ct : usable r ct ->
  determined (config_of (flags r) ct) (ast r) (fun _ => false) = true ->
  exists C, forall s,
    total (c_tokenize r ct s) <= C * S (length s) ^ 2
    /\ total (c_find_all r ct s) <= C * S (length s) ^ 2.
Proof.
  intros Hu H. destruct (calls_linear _ _ H) as [C HC]. exists (C + 3). intros s.
  destruct (range_bound r ct s (C * S (length s)) Hu) as [H1 H2].
  { intros cur c Hc. eapply Nat.le_trans; [exact (proj1 (proj2 (HC s cur c Hc)))|]. apply Nat.mul_le_mono_l. lia. }
  set (L := S (length s)) in *.
  assert (B : L * S (S (C * L)) + 1 <= (C + 3) * L ^ 2).
  { cbn [Nat.pow]. assert (1 <= L) by (unfold L; lia). nia. }
  split; lia.
Qed.

Theorem search_attained : exists r,
  determined (config_of (flags r) RandomAccessIt) (ast r) (fun _ => false) = true
  /\ forall n, exists s, length s = n
       /\ S n ^ 2 <= 2 * steps (cost_of c_search_method r RandomAccessIt s).
Proof.
  exists (mk_regex (starred 1) []). split; [vm_compute; reflexivity|]. intros n. exists (letters n).
  split; [apply letters_length|].
  eapply Nat.le_trans; [apply (ways_power 2)|]. apply (Nat.mul_le_mono_l _ _ 2).
  unfold cost_of, c_search_method. cbn [ast flags].
  apply (search_steps 1) with (r := n); rewrite ?letters_length; lia.
Qed.

Theorem condition_needed : exists r,
  determined (config_of (flags r) RandomAccessIt) (ast r) (fun _ => false) = false
  /\ (exists p, parse p = P_ok (ast r))
  /\ forall C, exists s, C * S (length s) < steps (cost_of c_match_method r RandomAccessIt s).
Proof.
  exists (mk_regex (starred 2) []). split; [vm_compute; reflexivity|].
  split; [exact (proj2 (proj2 (starred_shape 2)))|]. intros C. exists (letters (2 * C)).
  rewrite letters_length.
  pose proof (ways_power 2 (2 * C)) as H1. pose proof (match_steps 2 (2 * C)) as H2.
  assert (H3 : S (2 * C) ^ 2 <= 2 * steps (cost_of c_match_method (mk_regex (starred 2) []) RandomAccessIt (letters (2 * C)))).
  { eapply Nat.le_trans; [exact H1|]. now apply (Nat.mul_le_mono_l _ _ 2). }
  cbn [Nat.pow] in H3. nia.
Qed.
