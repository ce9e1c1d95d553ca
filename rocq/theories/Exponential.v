(** How many steps a call makes at most, whatever the expression is. *)
From Verif Require Import Costs Basics Depth Effort.

Lemma pow_above X n : 2 <= X -> S n <= X ^ n.
Proof.
  intros H. induction n as [|n IH]; [cbn; lia|]. rewrite Nat.pow_succ_r'.
  assert (2 * X ^ n <= X * X ^ n) by (apply Nat.mul_le_mono_r; lia). lia.
Qed.

(** A verdict, then one of two ways on. *)
Lemma steps_verdict o f g A M : steps o <= A ->
  (forall e c, out o = Res c e true -> steps (f e c) <= M) -> (forall c, steps (g c) <= M) ->
  steps (c_on_result o f g) <= A + M.
Proof.
  intros H Hf Hg. unfold c_on_result. destruct (out o) as [c e []| | |] eqn:E; try lia; cbn.
  - specialize (Hf e c eq_refl). lia.
  - specialize (Hg c). lia.
Qed.

(** [1 + F + F ^ 2 + ... + F ^ d]. *)
Fixpoint geo (F d : nat) : nat := match d with 0 => 1 | S d' => 1 + F * geo F d' end.

Lemma geo_pos F d : 1 <= geo F d.
Proof. destruct d; cbn; lia. Qed.

Lemma geo_above F d : 1 <= F -> S d <= geo F d.
Proof. intros H. induction d as [|d IH]; cbn; [lia|nia]. Qed.

Section Spending.
  (** The length of the text. *)
  Variable L : nat.

  (** From [cur] on the continuation makes at most [N * X ^ (characters left)]
      steps. *)
  Definition pays (z : bool) (X N cur : nat) (k : ccont) : Prop :=
    forall j c, cur <= j -> j <= L -> (z = false -> cur < j) -> steps (k j c) <= N * X ^ (L - j).

  Definition spends (z : bool) (X T F : nat) (mx : cmatcher) : Prop :=
    forall N cur c k, cur <= L -> pays z X N cur k ->
      steps (mx cur c k) <= (T + F * N) * X ^ (L - cur).

  (** At most [t] steps and one way on. *)
  Definition goes_once (z : bool) (t : nat) (mx : cmatcher) : Prop :=
    forall B cur c k, cur <= L ->
      (forall j c, cur <= j -> j <= L -> (z = false -> cur < j) -> steps (k j c) <= B) ->
      steps (mx cur c k) <= t + B.

  Section Base.
    Variable X : nat.
    Hypothesis HX : 2 <= X.

    Lemma weight_pos n : 1 <= X ^ n.
    Proof using HX. pose proof (pow_above X n HX). lia. Qed.

    Lemma weight_mono n m : n <= m -> X ^ n <= X ^ m.
    Proof using HX. intros H. apply Nat.pow_le_mono_r; lia. Qed.

    (** The next character weighs at most half. *)
    Lemma weight_next cur j : cur < j -> j <= L -> 2 * X ^ (L - j) <= X ^ (L - cur).
    Proof using HX.
      intros H1 H2. apply Nat.le_trans with (X ^ S (L - j)).
      - rewrite Nat.pow_succ_r'. apply Nat.mul_le_mono_r. exact HX.
      - apply weight_mono. lia.
    Qed.

    Lemma pays_most z N cur k : pays z X N cur k ->
      forall j c, cur <= j -> j <= L -> (z = false -> cur < j) -> steps (k j c) <= N * X ^ (L - cur).
    Proof using HX.
      intros H j c J1 J2 J3. eapply Nat.le_trans; [now apply H|].
      apply Nat.mul_le_mono_l, weight_mono. lia.
    Qed.

    Lemma spends_mono z z' T T' F F' mx : spends z X T F mx -> T <= T' -> F <= F' ->
      (z' = false -> z = false) -> spends z' X T' F' mx.
    Proof using HX.
      intros H HT HF Hz N cur c k H1 Hk. eapply Nat.le_trans.
      - apply (H N); [exact H1|]. intros j c' J1 J2 J3. apply Hk; auto.
      - apply Nat.mul_le_mono_r. assert (F * N <= F' * N) by (apply Nat.mul_le_mono_r; lia). lia.
    Qed.

    Lemma once_spends z t mx : goes_once z t mx -> spends z X t 1 mx.
    Proof using HX.
      intros H N cur c k H1 Hk. pose proof (pays_most _ _ _ _ Hk) as Hm.
      specialize (H _ cur c k H1 Hm). pose proof (weight_pos (L - cur)). nia.
    Qed.

    Lemma spends_called z T F mx : spends z X T F mx ->
      spends z X (S T) F (fun cur c k => called (mx cur c k)).
    Proof using HX.
      intros H N cur c k H1 Hk. specialize (H N cur c k H1 Hk). cbn [called steps].
      pose proof (weight_pos (L - cur)). nia.
    Qed.

    (** Run for a verdict. *)
    Lemma spends_run z T F mx cur c : spends z X T F mx -> cur <= L ->
      steps (mx cur c c_success) <= T * X ^ (L - cur).
    Proof using HX.
      intros H H1. specialize (H 0 cur c c_success H1). rewrite Nat.mul_0_r, Nat.add_0_r in H.
      apply H. intros j c' _ _ _. cbn. lia.
    Qed.

    Lemma spends_then z1 T1 F1 mx z2 T2 F2 my : spends z1 X T1 F1 mx -> spends z2 X T2 F2 my ->
      spends (z1 && z2) X (T1 + F1 * T2) (F1 * F2) (fun cur c k => mx cur c (fun j c' => my j c' k)).
    Proof using HX.
      intros H1 H2 N cur c k Hc Hk.
      replace (T1 + F1 * T2 + F1 * F2 * N) with (T1 + F1 * (T2 + F2 * N)) by lia.
      apply H1; [exact Hc|]. intros j c' J1 J2 J3. apply H2; [exact J2|].
      intros i c0 I1 I2 I3. apply Hk; [lia|lia|]. intros E.
      apply andb_false_iff in E as [E|E]; [specialize (J3 E); lia|specialize (I3 E); lia].
    Qed.

    (** Loops with a bound. *)
    Section Bounded.
      Variables (z w : bool) (T F : nat) (mx : cmatcher).
      Hypothesis Hmx : spends z X T F mx.
      Hypothesis HF : 1 <= F.

      Lemma spends_unrolled : forall n,
        spends (z || Nat.eqb n 0) X ((T + 1) * geo F n) (geo F n) (c_unrolled_backtracking mx n).
      Proof.
        induction n as [|n IH]; intros N cur c k H1 Hk; cbn [c_unrolled_backtracking].
        - specialize (Hk cur c (le_n _) H1). rewrite orb_true_r in Hk. specialize (Hk ltac:(discriminate)).
          cbn [geo]. pose proof (weight_pos (L - cur)). nia.
        - rewrite orb_false_r in Hk. destruct n as [|n'].
          + specialize (Hmx N cur c k H1 Hk). eapply Nat.le_trans; [exact Hmx|].
            apply Nat.mul_le_mono_r. cbn [geo]. nia.
          + cbn [Nat.eqb] in IH. rewrite orb_false_r in IH. set (n := S n') in *. cbn [called steps].
            pose proof (spends_then _ _ _ _ _ _ _ _ Hmx IH N cur c k H1) as H.
            assert (Hk' : pays (z && z) X N cur k) by (rewrite andb_diag; exact Hk).
            specialize (H Hk'). cbv beta in H. cbn [geo]. pose proof (weight_pos (L - cur)).
            eapply Nat.le_trans; [apply le_n_S, H|]. nia.
      Qed.

      Lemma spends_non_unrolled : forall n,
        spends z X ((T + 1) * geo F n) (geo F n) (c_non_unrolled_backtracking mx n).
      Proof.
        induction n as [|n IH]; intros N cur c k H1 Hk; cbn [c_non_unrolled_backtracking]; [cbn; lia|].
        cbn [called steps]. destruct (Nat.eqb_spec (S n) 1).
        - specialize (Hmx N cur c k H1 Hk). assert (n = 0) by lia. subst n. cbn [geo].
          pose proof (weight_pos (L - cur)). nia.
        - pose proof (spends_then _ _ _ _ _ _ _ _ Hmx IH N cur c k H1) as H.
          assert (Hk' : pays (z && z) X N cur k) by (rewrite andb_diag; exact Hk).
          specialize (H Hk'). cbv beta in H. cbn [geo]. pose proof (weight_pos (L - cur)).
          eapply Nat.le_trans; [apply le_n_S, H|]. nia.
      Qed.

      Lemma pays_continue z' N cur k : pays z' X N cur k ->
        pays z' X N cur (c_continue_unless_infinite_loop w cur k).
      Proof.
        intros H j c J1 J2 J3. unfold c_continue_unless_infinite_loop.
        destruct (_ && _)%bool; [cbn; lia|now apply H].
      Qed.

      Lemma spends_greedy_fin : forall fuel n,
        spends true X ((T + 1) * geo F (N.to_nat n)) (geo F (N.to_nat n)) (c_greedy_generic fuel mx w (Fin n)).
      Proof.
        induction fuel as [|f IH]; intros n N cur c k H1 Hk; cbn [c_greedy_generic]; [cbn; lia|].
        cbn [called steps bound_is_zero bound_decrement].
        assert (Hc : forall c, steps (k cur c) <= N * X ^ (L - cur)).
        { intros c'. apply Hk; [lia|lia|discriminate]. }
        pose proof (weight_pos (L - cur)).
        destruct (N.eqb_spec n 0) as [->|Hn]; [specialize (Hc c); cbn [N.to_nat geo]; nia|].
        replace (N.to_nat n) with (S (N.to_nat (n - 1))) by lia. cbn [geo].
        set (g := geo F (N.to_nat (n - 1))) in *.
        assert (G : steps (mx cur c (c_continue_unless_infinite_loop w cur
            (fun next c' => c_greedy_generic f mx w (Fin (n - 1)) next c' k)))
          <= (T + F * ((T + 1) * g + g * N)) * X ^ (L - cur)).
        { apply Hmx; [exact H1|]. apply pays_continue. intros j c' J1 J2 J3. apply IH; [exact J2|].
          intros i c0 I1 I2 _. apply Hk; [lia|lia|discriminate]. }
        pose proof (steps_or_else _ (fun c' => k cur c') _ _ G Hc). nia.
      Qed.

      Lemma spends_lazy_fin : forall fuel n,
        spends true X ((T + 1) * geo F (N.to_nat n)) (geo F (N.to_nat n)) (c_lazy_generic fuel mx w (Fin n)).
      Proof.
        induction fuel as [|f IH]; intros n N cur c k H1 Hk; cbn [c_lazy_generic]; [cbn; lia|].
        cbn [called steps bound_is_zero bound_decrement].
        assert (Hc : forall c, steps (k cur c) <= N * X ^ (L - cur)).
        { intros c'. apply Hk; [lia|lia|discriminate]. }
        pose proof (weight_pos (L - cur)).
        destruct (N.eqb_spec n 0) as [->|Hn].
        { pose proof (steps_or_else (k cur c) (fun c' => c_non_match cur c') _ 0 (Hc c) (fun _ => le_n 0)).
          cbn [N.to_nat geo]. nia. }
        replace (N.to_nat n) with (S (N.to_nat (n - 1))) by lia. cbn [geo].
        set (g := geo F (N.to_nat (n - 1))) in *.
        assert (G : forall c, steps (mx cur c (c_continue_unless_infinite_loop w cur
            (fun next c' => c_lazy_generic f mx w (Fin (n - 1)) next c' k)))
          <= (T + F * ((T + 1) * g + g * N)) * X ^ (L - cur)).
        { intros c0. apply Hmx; [exact H1|]. apply pays_continue. intros j c' J1 J2 J3. apply IH; [exact J2|].
          intros i c1 I1 I2 _. apply Hk; [lia|lia|discriminate]. }
        pose proof (steps_or_else (k cur c) _ _ _ (Hc c) G). nia.
      Qed.

      (** Where a verdict ends. *)
      Variables (A a : nat).
      Hypothesis Hends : adds L z A a mx.

      Lemma verdict_end cur c e c' : cur <= L -> out (mx cur c c_success) = Res c' e true ->
        cur <= e /\ e <= L /\ (z = false -> cur < e).
      Proof.
        intros H1 E. destruct (adds_run L z A a mx cur c Hends H1) as [_ H]. now apply (H c' e).
      Qed.

      Lemma spends_possessive_fin : forall fuel b,
        spends true X (fuel * (T + 1)) 1 (c_possessive_generic fuel mx w b).
      Proof.
        intros fuel b N cur c k H1 Hk. revert b cur c H1 Hk.
        induction fuel as [|f IH]; intros b cur c H1 Hk; cbn [c_possessive_generic]; [cbn; lia|].
        assert (Hc : forall c, steps (k cur c) <= N * X ^ (L - cur)).
        { intros c'. apply Hk; [lia|lia|discriminate]. }
        pose proof (weight_pos (L - cur)).
        destruct (bound_is_zero b); [specialize (Hc c); nia|].
        eapply Nat.le_trans; [apply (steps_verdict _ _ _ ((T + 1) * X ^ (L - cur))
          ((f * (T + 1) + 1 * N) * X ^ (L - cur)))|nia].
        - cbn [round steps]. pose proof (spends_run _ _ _ _ cur c Hmx H1). nia.
        - cbn [round out]. intros e c' E. apply verdict_end in E as (E1 & E2 & _); [|exact H1].
          destruct (_ && _)%bool; [specialize (Hc c'); nia|].
          eapply Nat.le_trans; [apply IH; [exact E2|]|].
          + intros j c0 J1 J2 _. apply Hk; [lia|lia|discriminate].
          + apply Nat.mul_le_mono_l, weight_mono. lia.
        - intros c'. specialize (Hc c'). nia.
      Qed.

      Hypothesis Hw : w = true \/ z = false.

      Lemma spends_possessive_inf : forall fuel b,
        spends true X (2 * (T + 1)) 2 (c_possessive_generic fuel mx w b).
      Proof.
        intros fuel b N cur c k H1 Hk. revert b cur c H1 Hk.
        induction fuel as [|f IH]; intros b cur c H1 Hk; cbn [c_possessive_generic]; [cbn; lia|].
        assert (Hc : forall c, steps (k cur c) <= N * X ^ (L - cur)).
        { intros c'. apply Hk; [lia|lia|discriminate]. }
        pose proof (weight_pos (L - cur)).
        destruct (bound_is_zero b); [specialize (Hc c); nia|].
        eapply Nat.le_trans; [apply (steps_verdict _ _ _ ((T + 1) * X ^ (L - cur))
          ((T + 1 + N) * X ^ (L - cur)))|nia].
        - cbn [round steps]. pose proof (spends_run _ _ _ _ cur c Hmx H1). nia.
        - cbn [round out]. intros e c' E. apply verdict_end in E as (E1 & E2 & E3); [|exact H1].
          destruct (Nat.eqb_spec cur e) as [<-|Hne].
          + rewrite andb_true_r. destruct Hw as [->|Hz]; [specialize (Hc c'); nia|].
            specialize (E3 Hz). lia.
          + rewrite andb_false_r. eapply Nat.le_trans; [apply IH; [exact E2|]|].
            * intros j c0 J1 J2 _. apply Hk; [lia|lia|discriminate].
            * pose proof (weight_next cur e ltac:(lia) E2).
              replace (2 * (T + 1) + 2 * N) with ((T + 1 + N) * 2) by lia.
              rewrite <- Nat.mul_assoc. now apply Nat.mul_le_mono_l.
        - intros c'. specialize (Hc c'). nia.
      Qed.
    End Bounded.
  End Base.

  (** Loops without a bound: the body in a base that is smaller by [2 * F]. *)
  Section Unbounded.
    Variables (z w : bool) (X1 T F : nat) (mx : cmatcher).
    Hypothesis HX1 : 2 <= X1.
    Hypothesis HF : 1 <= F.
    Hypothesis Hmx : spends z X1 T F mx.
    Hypothesis Hw : w = true \/ z = false.
    Let X := X1 * (2 * F).

    Lemma unbounded_base : 2 <= X.
    Proof. unfold X. nia. Qed.

    Lemma spends_round M cur c k : cur <= L ->
      (forall j c, cur < j -> j <= L -> steps (k j c) <= M * X ^ (L - j)) ->
      2 * steps (mx cur c (c_continue_unless_infinite_loop w cur k)) <= (2 * T + M) * X ^ (L - cur).
    Proof.
      intros H1 Hk. set (n := L - cur).
      assert (P : pays z X1 (M * (2 * F) ^ (n - 1)) cur (c_continue_unless_infinite_loop w cur k)).
      { intros j c' J1 J2 J3. unfold c_continue_unless_infinite_loop.
        destruct (Nat.eqb_spec cur j) as [<-|Hne].
        - rewrite andb_true_r. destruct Hw as [->|Hz]; [cbn; lia|]. specialize (J3 Hz). lia.
        - rewrite andb_false_r. eapply Nat.le_trans; [apply Hk; lia|].
          unfold X. rewrite Nat.pow_mul_l.
          assert ((2 * F) ^ (L - j) <= (2 * F) ^ (n - 1)) by (apply Nat.pow_le_mono_r; unfold n; lia).
          rewrite <- Nat.mul_assoc, (Nat.mul_comm (X1 ^ _)). apply Nat.mul_le_mono_l.
          now apply Nat.mul_le_mono_r. }
      assert (E : X1 ^ n <= X ^ n) by (apply Nat.pow_le_mono_l; unfold X; nia).
      destruct (Nat.eq_dec n 0) as [En|En].
      - (* nothing left *)
        assert (P0 : pays z X1 0 cur (c_continue_unless_infinite_loop w cur k)).
        { intros j c' J1 J2 J3. unfold c_continue_unless_infinite_loop.
          assert (j = cur) by (unfold n in En; lia). subst j. rewrite Nat.eqb_refl, andb_true_r.
          destruct Hw as [->|Hz]; [cbn; lia|]. specialize (J3 Hz). lia. }
        specialize (Hmx _ cur c _ H1 P0). fold n in Hmx. nia.
      - specialize (Hmx _ cur c _ H1 P). fold n in Hmx.
        assert (E2 : 2 * (F * (2 * F) ^ (n - 1) * X1 ^ n) = X ^ n).
        { unfold X. rewrite (Nat.pow_mul_l X1 (2 * F)).
          assert (P2 : (2 * F) ^ n = 2 * F * (2 * F) ^ (n - 1)).
          { rewrite <- Nat.pow_succ_r'. f_equal. lia. }
          rewrite P2. ring. }
        replace ((T + F * (M * (2 * F) ^ (n - 1))) * X1 ^ n)
          with (T * X1 ^ n + M * (F * (2 * F) ^ (n - 1) * X1 ^ n)) in Hmx by ring.
        assert (T * X1 ^ n <= T * X ^ n) by now apply Nat.mul_le_mono_l.
        rewrite Nat.mul_add_distr_r. rewrite <- E2 at 2. nia.
    Qed.

    Lemma spends_greedy_inf : forall fuel,
      spends true X (2 * (T + 1)) 2 (c_greedy_generic fuel mx w Inf).
    Proof.
      intros fuel N. induction fuel as [|f IH]; intros cur c k H1 Hk; cbn [c_greedy_generic]; [cbn; lia|].
      cbn [called steps bound_is_zero bound_decrement].
      assert (Hc : forall c, steps (k cur c) <= N * X ^ (L - cur)).
      { intros c'. apply Hk; [lia|lia|discriminate]. }
      pose proof (weight_pos X unbounded_base (L - cur)) as W.
      pose proof (spends_round (2 * (T + 1) + 2 * N) cur c
        (fun next c' => c_greedy_generic f mx w Inf next c' k) H1) as R.
      assert (R' : 2 * steps (mx cur c (c_continue_unless_infinite_loop w cur
          (fun next c' => c_greedy_generic f mx w Inf next c' k)))
        <= (2 * T + (2 * (T + 1) + 2 * N)) * X ^ (L - cur)).
      { apply R. intros j c' J1 J2. apply IH; [exact J2|].
        intros i c0 I1 I2 _. apply Hk; [lia|lia|discriminate]. }
      set (o := mx cur c _) in *.
      pose proof (steps_or_else o (fun c' => k cur c') _ _ (le_n _) Hc) as S1.
      eapply Nat.le_trans; [apply le_n_S, S1|]. clear - R' W. nia.
    Qed.

    Lemma spends_lazy_inf : forall fuel,
      spends true X (2 * (T + 1)) 2 (c_lazy_generic fuel mx w Inf).
    Proof.
      intros fuel N. induction fuel as [|f IH]; intros cur c k H1 Hk; cbn [c_lazy_generic]; [cbn; lia|].
      cbn [called steps bound_is_zero bound_decrement].
      assert (Hc : forall c, steps (k cur c) <= N * X ^ (L - cur)).
      { intros c'. apply Hk; [lia|lia|discriminate]. }
      pose proof (weight_pos X unbounded_base (L - cur)) as W.
      assert (R' : forall c, steps (mx cur c (c_continue_unless_infinite_loop w cur
          (fun next c' => c_lazy_generic f mx w Inf next c' k)))
        <= (T + (T + 1 + N)) * X ^ (L - cur)).
      { intros c0. pose proof (spends_round (2 * (T + 1) + 2 * N) cur c0
          (fun next c' => c_lazy_generic f mx w Inf next c' k) H1) as R.
        assert (2 * steps (mx cur c0 (c_continue_unless_infinite_loop w cur
            (fun next c' => c_lazy_generic f mx w Inf next c' k)))
          <= (2 * T + (2 * (T + 1) + 2 * N)) * X ^ (L - cur)); [|clear - H; nia].
        apply R. intros j c' J1 J2. apply IH; [exact J2|].
        intros i c1 I1 I2 _. apply Hk; [lia|lia|discriminate]. }
      pose proof (steps_or_else (k cur c) _ _ _ (Hc c) R') as S1. cbv beta in S1.
      eapply Nat.le_trans; [apply le_n_S, S1|]. clear - W. nia.
    Qed.
  End Unbounded.

  (** Single characters. *)
  Section Text.
    Variable s : list ascii.
    Hypothesis Hs : length s = L.

    Lemma steps_deref_in i f N : (forall a, i < L -> steps (f a) <= N) -> steps (c_deref s i f) <= N.
    Proof.
      intros H. unfold c_deref. destruct (nth_error s i) eqn:E; [|cbn; lia].
      apply H. rewrite <- Hs. apply nth_error_Some. congruence.
    Qed.

    Lemma once_trivially p : goes_once false 0 (c_match_trivial s p).
    Proof.
      intros B cur c k H1 Hk. unfold c_match_trivial.
      destruct (Nat.eqb _ _); [cbn; lia|]. apply steps_deref_in. intros a Ha.
      destruct (p a); [|cbn; lia]. apply Hk; lia.
    Qed.

    Lemma once_block_random ps : ps <> [] -> goes_once false (length ps) (c_trivial_block_random s ps).
    Proof.
      intros Hp B cur c k H1 Hk. unfold c_trivial_block_random. cbn [paid steps].
      pose proof (tests_at_le s ps cur).
      destruct (all_at s ps cur) as [[]|] eqn:E; try (cbn; lia).
      apply (all_at_length L s Hs) in E; [|exact H1]. destruct ps as [|p r]; [easy|].
      apply Nat.add_le_mono; [assumption|]. cbn [length] in *. apply Hk; lia.
    Qed.

    Lemma once_block_forward ps : goes_once false (length ps) (c_sequence_block_forward s ps).
    Proof.
      intros B. induction ps as [|p r IH]; intros cur c k H1 Hk; [cbn; lia|].
      cbn [c_sequence_block_forward].
      destruct r; cbn [round steps length]; rewrite Nat.add_succ_l;
        apply le_n_S, steps_deref_in; intros a Ha; (destruct (p a); [|cbn; lia]).
      - apply Hk; lia.
      - apply IH; [lia|]. intros j c' J1 J2 J3. apply Hk; lia.
    Qed.

    Lemma once_repetition_random p : forall todo offset B cur c k,
      cur + offset <= L -> 0 < offset + todo ->
      (forall j c, cur <= j -> j <= L -> cur < j -> steps (k j c) <= B) ->
      steps (c_repetition_loop_random s p todo offset cur c k) <= todo + B.
    Proof.
      induction todo as [|t IH]; intros offset B cur c k H1 H2 Hk; cbn [c_repetition_loop_random].
      - apply Hk; lia.
      - cbn [round steps]. apply le_n_S. apply steps_deref_in. intros a Ha.
        destruct (p a); cbn [negb]; [|cbn; lia]. apply IH; auto; lia.
    Qed.

    Lemma once_repetition_forward p : forall n, 0 < n ->
      goes_once false n (c_repetition_block_forward s p n).
    Proof.
      intros n Hn B.
      assert (G : forall n cur c k, cur <= L ->
        (forall j c, cur <= j -> j <= L -> (0 < n -> cur < j) -> steps (k j c) <= B) ->
        steps (c_repetition_block_forward s p n cur c k) <= n + B).
      { clear n Hn. induction n as [|n IH]; intros cur c k H1 Hk; cbn [c_repetition_block_forward].
        - apply Hk; lia.
        - cbn [round steps]. apply le_n_S. apply steps_deref_in. intros a Ha.
          destruct (p a); [|cbn; lia]. apply IH; [lia|].
          intros j c' J1 J2 J3. apply Hk; lia. }
      intros cur c k H1 Hk. apply G; auto.
    Qed.

    Lemma steps_scan p B k : forall fuel b cur c, cur <= L ->
      (forall j c, cur <= j -> j <= L -> steps (k j c) <= B) ->
      steps (c_possessive_trivial fuel s p b cur c k) <= (L - cur) + B.
    Proof.
      induction fuel as [|f IH]; intros b cur c H1 Hk; cbn [c_possessive_trivial]; [cbn; lia|].
      assert (Hc : steps (k cur c) <= L - cur + B) by (specialize (Hk cur c); lia).
      destruct (bound_is_zero b); [exact Hc|]. destruct (Nat.eqb _ _); [exact Hc|].
      apply steps_deref_in. intros a Ha. destruct (p a); [|exact Hc]. cbn [round steps].
      assert (steps (c_possessive_trivial f s p (bound_decrement b) (S cur) c k) <= (L - S cur) + B); [|lia].
      apply IH; [lia|]. intros j c' J1 J2. apply Hk; lia.
    Qed.

    Lemma steps_backref cf B k : forall t cur c, cur <= L ->
      (forall j c, cur <= j -> j <= L -> steps (k j c) <= B) ->
      steps (c_backref_loop cf s t cur c k) <= S (L - cur) + B.
    Proof.
      induction t as [|a r IH]; intros cur c H1 Hk; cbn [c_backref_loop].
      - specialize (Hk cur c). lia.
      - cbn [round steps]. apply le_n_S.
        destruct (Nat.eq_dec cur L) as [->|Hne].
        + unfold c_deref. assert (E : nth_error s L = None) by (apply nth_error_None; lia).
          rewrite E. cbn. lia.
        + apply Nat.le_trans with (S (L - S cur) + B); [|change (S (L - S cur) + B <= L - cur + B); lia].
          apply steps_deref_in. intros a' Ha. destruct (backref_char_eq _ _ _); [|cbn; lia].
          apply IH; [lia|]. intros j c' J1 J2. apply Hk; lia.
    Qed.

    Variable X : nat.
    Hypothesis HX : 2 <= X.

    Lemma spends_scan p fuel b : spends true X 1 1 (c_possessive_trivial fuel s p b).
    Proof.
      intros N cur c k H1 Hk.
      pose proof (steps_scan p (N * X ^ (L - cur)) k fuel b cur c H1) as H.
      assert (steps (c_possessive_trivial fuel s p b cur c k) <= L - cur + N * X ^ (L - cur)).
      { apply H. intros j c' J1 J2. eapply pays_most; eauto. discriminate. }
      pose proof (pow_above X (L - cur) HX). nia.
    Qed.

    Lemma spends_backref cf t : spends true X 1 1 (c_backref_loop cf s t).
    Proof.
      intros N cur c k H1 Hk.
      pose proof (steps_backref cf (N * X ^ (L - cur)) k t cur c H1) as H.
      assert (steps (c_backref_loop cf s t cur c k) <= S (L - cur) + N * X ^ (L - cur)).
      { apply H. intros j c' J1 J2. eapply pays_most; eauto. discriminate. }
      pose proof (pow_above X (L - cur) HX). nia.
    Qed.

    Lemma spends_back N k initial : initial <= L ->
      pays true X N initial k -> forall d c, initial + d <= L ->
      steps (c_step_back initial d c k) + (N + 1) * X ^ (L - (initial + d)) <= 2 * (N + 1) * X ^ (L - initial).
    Proof.
      intros H1 Hk. induction d as [|d IH]; intros c Hd; cbn [c_step_back].
      - rewrite Nat.add_0_r in *.
        assert (S1 : steps (round (k initial c)) <= (N + 1) * X ^ (L - initial)).
        { cbn [round steps]. pose proof (Hk initial c (le_n _) H1 ltac:(discriminate)).
          pose proof (weight_pos X HX (L - initial)). nia. }
        eapply Nat.le_trans; [apply Nat.add_le_mono_r, (steps_or_else _ (fun c' => c_non_match initial c') _ 0 S1 (fun _ => le_n 0))|].
        clear. nia.
      - assert (S1 : steps (round (k (initial + S d) c)) <= (N + 1) * X ^ (L - (initial + S d))).
        { cbn [round steps]. pose proof (Hk (initial + S d) c ltac:(clear; lia) Hd ltac:(discriminate)).
          pose proof (weight_pos X HX (L - (initial + S d))). nia. }
        pose proof (weight_next X HX (initial + d) (initial + S d) ltac:(clear; lia) Hd) as W.
        assert (IH' : forall c', steps (c_step_back initial d c' k)
          <= 2 * (N + 1) * X ^ (L - initial) - (N + 1) * X ^ (L - (initial + d))).
        { intros c'. specialize (IH c' ltac:(lia)). lia. }
        specialize (IH c ltac:(lia)).
        pose proof (steps_or_else _ (fun c' => c_step_back initial d c' k) _ _ S1 IH').
        assert ((N + 1) * (2 * X ^ (L - (initial + S d))) <= (N + 1) * X ^ (L - (initial + d)))
          by now apply Nat.mul_le_mono_l.
        lia.
    Qed.

    Lemma spends_greedy_trivial p fuel b : spends true X 3 2
      (fun cur c k => c_possessive_trivial fuel s p b cur c
         (fun next c' => c_step_back cur (next - cur) c' k)).
    Proof.
      intros N cur c k H1 Hk.
      assert (H : steps (c_possessive_trivial fuel s p b cur c
         (fun next c' => c_step_back cur (next - cur) c' k)) <= L - cur + 2 * (N + 1) * X ^ (L - cur)).
      { apply steps_scan; [exact H1|]. intros j c' J1 J2.
        pose proof (spends_back N k cur H1 Hk (j - cur) c' ltac:(lia)). lia. }
      pose proof (pow_above X (L - cur) HX). nia.
    Qed.

    Lemma spends_lazy_trivial p : forall fuel b, spends true X 2 2 (c_lazy_trivial fuel s p b).
    Proof.
      intros fuel b N cur c k H1 Hk. revert b cur c H1 Hk.
      induction fuel as [|f IH]; intros b cur c H1 Hk; cbn [c_lazy_trivial]; [cbn; lia|].
      pose proof (weight_pos X HX (L - cur)) as W.
      assert (S1 : steps (round (k cur c)) <= (N + 1) * X ^ (L - cur)).
      { cbn [round steps]. pose proof (Hk cur c (le_n _) H1 ltac:(discriminate)). nia. }
      eapply Nat.le_trans; [apply (steps_or_else _ _ _ ((N + 1) * X ^ (L - cur)) S1)|nia]. intros c'.
      destruct (bound_is_zero b); [cbn; lia|]. destruct (Nat.eqb _ _); [cbn; lia|].
      apply steps_deref_in. intros a Ha. destruct (p a); [|cbn; lia].
      eapply Nat.le_trans; [apply IH; [lia|]|].
      - intros j c0 J1 J2 _. apply Hk; [lia|lia|discriminate].
      - pose proof (weight_next X HX cur (S cur) ltac:(lia) Ha). nia.
    Qed.
  End Text.
End Spending.

(** Repetitions. *)
Section Repetition.
  Variables (L : nat) (cf : config) (s : list ascii) (x : node) (mx : cmatcher).
  Variables (T F A a : nat).
  Hypothesis Hs : length s = L.
  Hypothesis HT1 : 1 <= T.
  Hypothesis HF : 1 <= F.
  Hypothesis Hends : adds L (zlm x) A a mx.

  Section Fixed.
    Variable X : nat.
    Hypothesis HX : 2 <= X.
    Hypothesis Hmx : spends L (zlm x) X T F mx.

    Lemma spends_fixed_backtracking n : (1 < n)%N ->
      spends L (zlm x) X ((T + 1) * geo F (N.to_nat n)) (geo F (N.to_nat n))
        (c_fixed_backtracking cf s x mx n).
    Proof.
      intros Hn N cur c k H1 Hk. unfold c_fixed_backtracking.
      pose proof (geo_above F (N.to_nat n) HF) as Hg.
      assert (W : forall g, goes_once L false (N.to_nat n) g -> trivial x = true ->
        distance_rounds cf n (length s) cur + steps (g cur c k)
          <= ((T + 1) * geo F (N.to_nat n) + geo F (N.to_nat n) * N) * X ^ (L - cur)).
      { intros g G Ht. rewrite (zlm_trivial x Ht) in Hk.
        assert (G' : goes_once L false (2 * N.to_nat n)
          (fun cur c k => paid (distance_rounds cf n (length s) cur) (g cur c k))).
        { intros B cur' c' k' H1' Hk'. cbn [paid steps]. specialize (G B cur' c' k' H1' Hk').
          pose proof (distance_rounds_le cf n (length s) cur'). lia. }
        apply (spends_mono L X HX false false (2 * N.to_nat n) ((T + 1) * geo F (N.to_nat n)) 1
          (geo F (N.to_nat n)) _ (once_spends L X HX _ _ _ G') ltac:(nia) ltac:(lia) ltac:(auto)
          N cur c k H1 Hk). }
      destruct (trivial x) eqn:Tr.
      - cbn [paid steps]. destruct (distance_less_than _ _ _ _).
        { apply (W (fun cur c _ => c_non_match cur c)); auto.
          intros B cur' c' k' _ _. cbn. lia. }
        destruct (is_random cf); [destruct (unroll cf)|].
        + apply (W (c_trivial_block_random s (repeat (match_one cf x) (N.to_nat n)))); auto.
          intros B cur' c' k' H1' Hk'.
          eapply Nat.le_trans; [apply (once_block_random L s Hs)|]; eauto; [|rewrite repeat_length; lia].
          intros E. apply (f_equal (@length _)) in E. rewrite repeat_length in E. cbn in E. lia.
        + apply (W (fun cur c k => c_repetition_loop_random s (match_one cf x) (N.to_nat n) 0 cur c k)); auto.
          intros B cur' c' k' H1' Hk'. apply (once_repetition_random L s Hs); try lia.
          intros j c0 J1 J2 J3. apply Hk'; auto.
        + apply (W (fun cur c k => c_repetition_block_forward s (match_one cf x) (N.to_nat n) cur c k)); auto.
          apply (once_repetition_forward L s Hs). lia.
      - destruct (unroll cf).
        + apply (spends_unrolled L X HX (zlm x) T F mx Hmx HF); auto.
          destruct (Nat.eqb_spec (N.to_nat n) 0); [lia|]. now rewrite orb_false_r.
        + apply (spends_non_unrolled L X HX (zlm x) T F mx Hmx HF); auto.
    Qed.

    Lemma spends_fixed mode n :
      spends L (is_zero n || zlm x) X ((T + 1) * (geo F (N.to_nat n) + 1)) (geo F (N.to_nat n) + 1)
        (c_fixed_match cf s mode n x mx).
    Proof.
      intros N cur c k H1 Hk. unfold c_fixed_match, is_zero in *.
      pose proof (weight_pos X HX (L - cur)) as W. pose proof (geo_above F (N.to_nat n) HF) as Hg.
      set (g := geo F (N.to_nat n)) in *.
      destruct (N.eqb_spec n 0).
      { cbn [called steps]. pose proof (Hk cur c (le_n _) H1 ltac:(discriminate)). nia. }
      cbn [orb] in Hk.
      assert (V : forall mz T1, T1 <= (T + 1) * g -> spends L (zlm x) X T1 g mz ->
        (exists A a, adds L (zlm x) A a mz) ->
        S (steps (c_on_result (mz cur c c_success) (fun e c' => k e c') (fun c' => c_non_match cur c')))
          <= ((T + 1) * (g + 1) + (g + 1) * N) * X ^ (L - cur)).
      { intros mz T1 HT Hz (A1 & a1 & He).
        pose proof (spends_run L X HX _ _ _ _ cur c Hz H1) as R.
        assert (steps (c_on_result (mz cur c c_success) (fun e c' => k e c') (fun c' => c_non_match cur c'))
          <= T1 * X ^ (L - cur) + N * X ^ (L - cur)).
        { apply steps_verdict; [exact R| |cbn; lia]. intros e c' E.
          destruct (verdict_end L (zlm x) mz A1 a1 He cur c e c' H1 E) as (E1 & E2 & E3).
          eapply pays_most; eauto. }
        assert (T1 * X ^ (L - cur) <= (T + 1) * g * X ^ (L - cur)) by now apply Nat.mul_le_mono_r.
        nia. }
      destruct (N.eqb_spec n 1) as [E|].
      - assert (G : steps (mx cur c k) <= ((T + 1) * (g + 1) + (g + 1) * N) * X ^ (L - cur)).
        { eapply Nat.le_trans; [apply Hmx; eauto|]. apply Nat.mul_le_mono_r.
          assert (Hg1 : g = 1 + F * 1) by (unfold g; rewrite E; reflexivity). rewrite Hg1. nia. }
        destruct mode; auto. destruct (trivial x) eqn:Tr; [exact G|].
        cbn [called steps]. apply (V mx T); [clear - Hg; nia| |eauto].
        apply (spends_mono L X HX (zlm x) (zlm x) T T F g mx); auto.
        assert (Hg1 : g = 1 + F * 1) by (unfold g; rewrite E; reflexivity). rewrite Hg1. clear. lia.
      - cbn [called steps]. assert (Hb : (1 < n)%N) by lia.
        pose proof (spends_fixed_backtracking n Hb) as B. fold g in B.
        destruct mode.
        1,2: specialize (B N cur c k H1 Hk); clear - B W; nia.
        apply (V _ ((T + 1) * g)); [lia|exact B|].
        eexists _, _. apply (adds_fixed_backtracking L cf s Hs); eauto.
    Qed.
  End Fixed.

  Variable X1 : nat.
  Hypothesis HX1 : 2 <= X1.
  Hypothesis Hmx : spends L (zlm x) X1 T F mx.
  Hypothesis Hmx' : spends L (zlm x) (X1 * (2 * F)) T F mx.
  Let X := X1 * (2 * F).

  Lemma rep_base : 2 <= X.
  Proof. unfold X. nia. Qed.

  Definition loop_factor (b : quantifier) : nat :=
    match b with Fin d => geo F (N.to_nat d) + 3 | Inf => 3 end.

  Lemma spends_between mode b w : (b = Inf -> w = true \/ zlm x = false) ->
    spends L true X ((T + 1) * loop_factor b) (loop_factor b) (c_between_bounds cf s mode b w x mx).
  Proof.
    intros Hw N cur c k H1 Hk. unfold c_between_bounds.
    pose proof rep_base as HX.
    assert (W : forall T' F' g, spends L true X T' F' g -> T' <= (T + 1) * loop_factor b ->
      F' <= loop_factor b ->
      steps (g cur c k) <= ((T + 1) * loop_factor b + loop_factor b * N) * X ^ (L - cur)).
    { intros T' F' g Hg HT HF'.
      apply (spends_mono L X HX true true T' _ F' _ g); auto. }
    set (fuel := loop_fuel b (length s) cur).
    assert (B3 : 3 <= loop_factor b) by (unfold loop_factor; destruct b; lia).
    destruct mode.
    3: { destruct (trivial x).
         - apply (W 1 1 (c_possessive_trivial fuel s (match_one cf x) b));
             [now apply spends_scan|nia|lia].
         - destruct b as [d|].
           + apply (W (S (N.to_nat d) * (T + 1)) 1 (c_possessive_generic fuel mx w (Fin d))).
             * replace fuel with (S (N.to_nat d)) by (unfold fuel, loop_fuel; lia).
               now apply (spends_possessive_fin L X HX (zlm x) w T F mx Hmx' HF A a).
             * unfold loop_factor. pose proof (geo_above F (N.to_nat d) HF). nia.
             * lia.
           + apply (W (2 * (T + 1)) 2 (c_possessive_generic fuel mx w Inf)).
             * now apply (spends_possessive_inf L X HX (zlm x) w T F mx Hmx' HF A a Hends (Hw eq_refl)).
             * cbn [loop_factor]. lia.
             * cbn [loop_factor]. lia. }
    all: assert (G : steps (c_greedy_generic fuel mx w b cur c k)
        <= ((T + 1) * loop_factor b + loop_factor b * N) * X ^ (L - cur))
      by (destruct b as [d|];
          [ apply (W ((T + 1) * geo F (N.to_nat d)) (geo F (N.to_nat d)) (c_greedy_generic fuel mx w (Fin d)));
            [now apply (spends_greedy_fin L X HX (zlm x) w T F mx Hmx' HF)
            |unfold loop_factor; nia|unfold loop_factor; lia]
          | apply (W (2 * (T + 1)) 2 (c_greedy_generic fuel mx w Inf));
            [now apply (spends_greedy_inf L (zlm x) w X1 T F mx HX1 HF Hmx (Hw eq_refl))
            |cbn [loop_factor]; lia|cbn [loop_factor]; lia] ]).
    all: assert (Lz : steps (c_lazy_generic fuel mx w b cur c k)
        <= ((T + 1) * loop_factor b + loop_factor b * N) * X ^ (L - cur))
      by (destruct b as [d|];
          [ apply (W ((T + 1) * geo F (N.to_nat d)) (geo F (N.to_nat d)) (c_lazy_generic fuel mx w (Fin d)));
            [now apply (spends_lazy_fin L X HX (zlm x) w T F mx Hmx' HF)
            |unfold loop_factor; nia|unfold loop_factor; lia]
          | apply (W (2 * (T + 1)) 2 (c_lazy_generic fuel mx w Inf));
            [now apply (spends_lazy_inf L (zlm x) w X1 T F mx HX1 HF Hmx (Hw eq_refl))
            |cbn [loop_factor]; lia|cbn [loop_factor]; lia] ]).
    all: assert (Gt : steps (c_possessive_trivial fuel s (match_one cf x) b cur c
              (fun next c' => c_step_back cur (next - cur) c' k))
        <= ((T + 1) * loop_factor b + loop_factor b * N) * X ^ (L - cur))
      by (apply (W 3 2 (fun cur c k => c_possessive_trivial fuel s (match_one cf x) b cur c
              (fun next c' => c_step_back cur (next - cur) c' k)));
          [now apply spends_greedy_trivial|nia|lia]).
    all: assert (Lt : steps (c_lazy_trivial fuel s (match_one cf x) b cur c k)
        <= ((T + 1) * loop_factor b + loop_factor b * N) * X ^ (L - cur))
      by (apply (W 2 2 (c_lazy_trivial fuel s (match_one cf x) b));
          [now apply spends_lazy_trivial|nia|lia]).
    all: destruct (xorb _ _); [destruct (_ && _)%bool|destruct (trivial x)]; assumption.
  Qed.

  Definition rep_factor (lo : N) (hi : quantifier) : nat :=
    let g := geo F (N.to_nat lo) + 1 in
    1 + g + g * loop_factor (bound_subtract hi lo).

  Lemma spends_rep mode lo hi :
    spends L (is_zero lo || zlm x) X ((T + 1) * rep_factor lo hi) (rep_factor lo hi)
      (c_rep_match cf s mode lo hi x mx).
  Proof.
    intros N cur c k H1 Hk. unfold c_rep_match, rep_factor. pose proof rep_base as HX.
    pose proof (spends_fixed X HX Hmx' mode lo) as HFx.
    set (g := geo F (N.to_nat lo) + 1) in *. assert (1 <= g) by (unfold g; lia).
    set (gb := loop_factor (bound_subtract hi lo)).
    assert (3 <= gb) by (unfold gb, loop_factor; destruct (bound_subtract hi lo); lia).
    pose proof (weight_pos X HX (L - cur)) as W.
    destruct (match hi with Fin h => N.eqb lo h | Inf => false end).
    { eapply Nat.le_trans; [apply (HFx N); auto|]. apply Nat.mul_le_mono_r. nia. }
    assert (HB : spends L true X ((T + 1) * gb) gb
      (c_between_bounds cf s mode (bound_subtract hi lo) (is_infinity hi && zlm x) x mx)).
    { apply spends_between. destruct hi; cbn; [discriminate|]. intros _. destruct (zlm x); auto. }
    cbn [called steps]. destruct (is_zero lo) eqn:Z.
    - specialize (HB N cur c k H1 Hk).
      eapply Nat.le_trans; [apply le_n_S, HB|].
      apply Nat.le_trans with ((1 + (T + 1) * gb + gb * N) * X ^ (L - cur)); [nia|].
      apply Nat.mul_le_mono_r. nia.
    - cbn [orb] in *.
      pose proof (spends_then L X HX _ _ _ _ _ _ _ _ HFx HB N cur c k H1) as P.
      rewrite andb_true_r in P. specialize (P Hk). cbv beta in P.
      eapply Nat.le_trans; [apply le_n_S, P|].
      apply Nat.le_trans with ((1 + ((T + 1) * g + g * ((T + 1) * gb)) + g * gb * N) * X ^ (L - cur)); [nia|].
      apply Nat.mul_le_mono_r. nia.
  Qed.
End Repetition.

(** At most exponential in the length of the text. *)
Definition big (B L T : nat) : Prop := T <= B ^ S L.

Lemma big_mono B B' L T : big B L T -> B <= B' -> big B' L T.
Proof. unfold big. intros H HB. eapply Nat.le_trans; [exact H|]. now apply Nat.pow_le_mono_l. Qed.

Lemma big_const B L : 1 <= B -> big B L B.
Proof.
  intros H. unfold big. rewrite Nat.pow_succ_r'. rewrite <- (Nat.mul_1_r B) at 1.
  apply Nat.mul_le_mono_l. pose proof (Nat.pow_nonzero B L). lia.
Qed.

Lemma big_add B1 B2 L T1 T2 : big B1 L T1 -> big B2 L T2 -> big (B1 + B2) L (T1 + T2).
Proof.
  unfold big. intros H1 H2. apply Nat.le_trans with (B1 ^ S L + B2 ^ S L); [lia|]. clear.
  induction L as [|L IH]; [cbn; lia|]. rewrite !(Nat.pow_succ_r' _ (S L)). nia.
Qed.

Lemma big_mul B1 B2 L T1 T2 : big B1 L T1 -> big B2 L T2 -> big (B1 * B2) L (T1 * T2).
Proof. unfold big. intros H1 H2. rewrite Nat.pow_mul_l. now apply Nat.mul_le_mono. Qed.

Section Tree.
  Variable cf : config.

  (** The steps of a tree, whatever the text is. *)
  Definition explodes (n : node) : Prop :=
    exists X0 F B, 2 <= X0 /\ 1 <= F /\ 1 <= B /\ forall names base rd f, exists T,
      big B (length base) T /\ forall Q, 1 <= Q ->
        spends (length base) (zlm n) (X0 * Q) T F (c_m cf names base f rd n).

  Lemma base_above X0 Q : 2 <= X0 -> 1 <= Q -> 2 <= X0 * Q.
  Proof. nia. Qed.

  Lemma explodes_once n t : 1 <= t -> (forall names base rd f,
      goes_once (length base) (zlm n) t (c_m cf names base (S f) rd n)) -> explodes n.
  Proof.
    intros Ht H. exists 2, 1, t. repeat split; auto. intros names base rd f. exists t.
    split; [now apply big_const|]. intros Q HQ. destruct f as [|f].
    - intros N cur c k _ _. cbn. lia.
    - apply once_spends; [lia|apply H].
  Qed.

  Ltac here := intros N cur c k H1 Hk; cbn [c_m called steps]; apply le_n_S; pose proof (Hk cur c (le_n _) H1) as Hc;
    try specialize (Hc ltac:(discriminate)); unfold c_assert_that;
    repeat first [ apply steps_deref; intros
                 | match goal with |- context [if ?b then _ else _] => destruct b end
                 | lia | progress cbn ].

  Lemma explodes_seq l : Forall explodes l -> exists X0 F B, 2 <= X0 /\ 1 <= F /\ 1 <= B /\
    forall names base rd f, exists T, big B (length base) T /\ forall Q, 1 <= Q ->
      spends (length base) (forallb zlm l) (X0 * Q) T F
        (c_seq_match cf (view base rd) (c_m cf names base f rd) l).
  Proof.
    induction 1 as [|x l (X1 & F1 & B1 & P1 & P2 & P3 & H1) Hl (X2 & F2 & B2 & R1 & R2 & R3 & H2)].
    - exists 2, 1, 1. repeat split; auto. intros names base rd f. exists 1. split; [now apply big_const|].
      intros Q HQ N cur c k _ _. cbn. lia.
    - exists (X1 * X2), (F1 * F2), (1 + 2 * length (x :: l) + (B1 + F1 * B2)).
      split; [nia|]. split; [nia|]. split; [lia|]. intros names base rd f.
      destruct (H1 names base rd f) as (T1 & G1 & K1). destruct (H2 names base rd f) as (T2 & G2 & K2).
      exists (1 + 2 * length (x :: l) + (T1 + F1 * T2)). split.
      { apply big_add; [apply big_const; lia|]. apply big_add; [exact G1|].
        apply big_mul; [now apply big_const|exact G2]. }
      intros Q HQ. specialize (K1 (X2 * Q) ltac:(nia)). specialize (K2 (X1 * Q) ltac:(nia)).
      replace (X1 * (X2 * Q)) with (X1 * X2 * Q) in K1 by lia.
      replace (X2 * (X1 * Q)) with (X1 * X2 * Q) in K2 by lia.
      set (X := X1 * X2 * Q) in *. assert (HX : 2 <= X) by (unfold X; rewrite <- Nat.mul_assoc; nia).
      intros N cur c k Hc Hk. pose proof (weight_pos X HX (length base - cur)) as W.
      cbn [c_seq_match]. destruct l as [|y r].
      + cbn [forallb] in Hk. rewrite andb_true_r in Hk.
        apply (spends_mono (length base) X HX (zlm x) (zlm x) T1 _ F1 (F1 * F2) _ K1); auto; [lia|nia].
      + set (l := y :: r) in *. cbn [called steps]. destruct (forallb trivial (x :: l)) eqn:Tr.
        * assert (Hz : forallb zlm (x :: l) = false).
          { cbn in Tr. apply andb_true_iff in Tr as [Tr _]. cbn. now rewrite zlm_trivial. }
          rewrite Hz in Hk.
          set (d := N.of_nat (length (x :: l))).
          assert (G : forall g, goes_once (length base) false (length (x :: l)) g ->
            S (distance_rounds cf d (length (view base rd)) cur + steps (g cur c k))
              <= (1 + 2 * length (x :: l) + (T1 + F1 * T2) + F1 * F2 * N) * X ^ (length base - cur)).
          { intros g Hg. pose proof (distance_rounds_le cf d (length (view base rd)) cur) as Hd.
            unfold d in Hd at 2. rewrite Nat2N.id in Hd. pose proof (once_spends _ X HX _ _ _ Hg N cur c k Hc Hk) as S1.
            assert (N <= F1 * F2 * N) by (rewrite <- (Nat.mul_1_l N) at 1; apply Nat.mul_le_mono_r; nia).
            apply Nat.le_trans with ((1 + 2 * length (x :: l) + N) * X ^ (length base - cur)); [nia|].
            apply Nat.mul_le_mono_r. lia. }
          cbn [paid steps]. fold d.
          destruct (distance_less_than _ _ _ _);
            [apply (G (fun cur c _ => c_non_match cur c)); intros B0 cur' c' k' _ _; cbn; lia|].
          destruct (is_random cf).
          -- apply (G (c_trivial_block_random _ _)). rewrite <- (map_length (match_one cf) (x :: l)).
             apply once_block_random; [apply view_length|discriminate].
          -- apply (G (c_sequence_block_forward _ _)). rewrite <- (map_length (match_one cf) (x :: l)).
             apply once_block_forward, view_length.
        * pose proof (spends_then _ X HX _ _ _ _ _ _ _ _ K1 K2 N cur c k Hc Hk) as P.
          cbv beta in P. nia.
  Qed.

  Lemma explodes_alt l : Forall explodes l -> exists X0 F B, 2 <= X0 /\ 1 <= F /\ 1 <= B /\
    forall names base rd f, exists T, big B (length base) T /\ forall Q, 1 <= Q ->
      spends (length base) (existsb zlm l) (X0 * Q) T F
        (c_alt_match cf (view base rd) (c_m cf names base f rd) l).
  Proof.
    induction 1 as [|x l (X1 & F1 & B1 & P1 & P2 & P3 & H1) Hl (X2 & F2 & B2 & R1 & R2 & R3 & H2)].
    - exists 2, 1, 1. repeat split; auto. intros names base rd f. exists 1. split; [now apply big_const|].
      intros Q HQ N cur c k _ _. cbn. lia.
    - exists (X1 * X2), (F1 + F2), (1 + (B1 + B2)).
      split; [nia|]. split; [lia|]. split; [lia|]. intros names base rd f.
      destruct (H1 names base rd f) as (T1 & G1 & K1). destruct (H2 names base rd f) as (T2 & G2 & K2).
      exists (1 + (T1 + T2)). split.
      { apply big_add; [now apply big_const|]. now apply big_add. }
      intros Q HQ. specialize (K1 (X2 * Q) ltac:(nia)). specialize (K2 (X1 * Q) ltac:(nia)).
      replace (X1 * (X2 * Q)) with (X1 * X2 * Q) in K1 by lia.
      replace (X2 * (X1 * Q)) with (X1 * X2 * Q) in K2 by lia.
      set (X := X1 * X2 * Q) in *. assert (HX : 2 <= X) by (unfold X; rewrite <- Nat.mul_assoc; nia).
      intros N cur c k Hc Hk. pose proof (weight_pos X HX (length base - cur)) as W.
      assert (S1 : steps (c_m cf names base f rd x cur c k) <= (T1 + F1 * N) * X ^ (length base - cur)).
      { apply K1; [exact Hc|]. intros j c' J1 J2 J3. apply Hk; auto. cbn. intros E.
        apply orb_false_iff in E as [E _]. auto. }
      cbn [c_alt_match]. destruct l as [|y r].
      + eapply Nat.le_trans; [exact S1|]. apply Nat.mul_le_mono_r. nia.
      + set (l := y :: r) in *. cbn [called steps]. destruct (forallb trivial (x :: l)) eqn:Tr.
        * pose proof (once_spends _ X HX _ _ _ (once_trivially _ _ (view_length base rd)
            (fun a => existsb (fun y => match_one cf y a) (x :: l))) N cur c k Hc) as S2.
          assert (S3 : pays (length base) false X N cur k) by (intros j c' J1 J2 J3; apply Hk; auto).
          specialize (S2 S3). apply Nat.le_trans with ((1 + N) * X ^ (length base - cur)); [nia|].
          apply Nat.mul_le_mono_r. nia.
        * assert (S2 : forall c, steps (c_alt_match cf (view base rd) (c_m cf names base f rd) l cur c k)
            <= (T2 + F2 * N) * X ^ (length base - cur)).
          { intros c0. apply K2; [exact Hc|]. intros j c' J1 J2 J3. apply Hk; auto. cbn. intros E.
            apply orb_false_iff in E as [_ E]. auto. }
          pose proof (steps_or_else _ (fun c' => c_alt_match cf (view base rd) (c_m cf names base f rd) l cur c' k)
            _ _ S1 S2). nia.
  Qed.

  Lemma backref_spends base rd i X : 2 <= X ->
    spends (length base) true X 2 1 (c_backref_match cf base rd i).
  Proof.
    intros HX N cur c k Hc Hk. unfold c_backref_match.
    destruct (nth_error c i) as [v|]; [|cbn; lia].
    destruct (match v with Some p => p | None => (0, 0) end) as [b e].
    cbn [paid steps]. pose proof (pow_above X (length base - cur) HX).
    pose proof (distance_rounds_left cf (N.of_nat (e - b)) (length (view base rd)) cur) as Hd.
    rewrite view_length in *.
    destruct (distance_less_than _ _ _ _); [cbn [c_non_match leaf steps]; nia|].
    destruct (_ || _)%bool; [cbn [leaf steps]; nia|].
    match goal with |- _ + steps (c_backref_loop _ _ ?t _ _ _) <= _ =>
      pose proof (spends_backref (length base) (view base rd) (view_length base rd) X HX cf t
        N cur c k Hc Hk) end. nia.
  Qed.

  Theorem explodes_node n : explodes n.
  Proof.
    assert (G : forall b n, size n <= b -> explodes n); [|now apply (G (size n))]. clear n.
    induction b as [|b IH]; intros n Hn; [pose proof (size_pos n); lia|].
    assert (HL : forall l, list_sum (map size l) <= b -> Forall explodes l).
    { intros l Hl. apply Forall_forall. intros x Hx. apply IH.
      pose proof (size_in_sum l x Hx). lia. }
    destruct n as [ | | | | | | |ch|r1 r2|l|x|l|l|id nm x|md lo hi x|id|nm|d x].
    all: try solve [ apply (explodes_once _ 1); [lia|]; intros names base rd f;
      first [ solve [here]
            | intros N cur c k H1 Hk; cbn [c_m called steps]; apply le_n_S;
              apply (once_trivially _ _ (view_length base rd)); auto ] ].
    - (* WordB *)
      apply (explodes_once _ 1); [lia|]. intros names base rd f N cur c k H1 Hk. cbn [c_m].
      pose proof (Hk cur c (le_n _) H1 ltac:(discriminate)) as Hc.
      destruct (negb _); [cbn; lia|]. cbn [called steps]. apply le_n_S. unfold c_assert_that.
      repeat first [ apply steps_deref; intros
                   | match goal with |- context [if ?b then _ else _] => destruct b end
                   | lia | progress cbn ].
    - (* Neg *)
      destruct (is_assertion x) eqn:As.
      + destruct (IH x) as (X0 & F & B & P1 & P2 & P3 & H); [cbn in Hn; lia|].
        exists X0, 1, (1 + B). split; [exact P1|]. split; [lia|]. split; [lia|]. intros names base rd f.
        destruct f as [|f].
        { exists 1. split; [apply (big_mono 1); [now apply big_const|lia]|].
          intros Q HQ N cur c k _ _. cbn. lia. }
        destruct (H names base rd f) as (T & A & K). exists (1 + T). split.
        { apply big_add; [now apply big_const|exact A]. }
        intros Q HQ N cur c k Hc Hk. cbn [c_m called steps]. rewrite As.
        pose proof (base_above X0 Q P1 HQ) as HX. pose proof (weight_pos _ HX (length base - cur)) as W.
        assert (Hz : zlm (Neg x) = true) by (cbn; now rewrite is_assertion_not_trivial).
        rewrite Hz in Hk.
        pose proof (spends_run _ _ HX _ _ _ _ cur c (K Q HQ) Hc) as R.
        pose proof (steps_verdict _ (fun _ c' => c_non_match cur c') (fun c' => k cur c') _
          (N * (X0 * Q) ^ (length base - cur)) R) as V.
        assert (V' := V (fun _ _ _ => Nat.le_0_l _) (fun c' => Hk cur c' (le_n _) Hc ltac:(discriminate))).
        clear - V' W. nia.
      + apply (explodes_once _ 1); [lia|]. intros names base rd f N cur c k H1 Hk.
        cbn [c_m called steps]. rewrite As. apply le_n_S.
        apply (once_trivially _ _ (view_length base rd)); auto.
    - (* Seq *)
      rewrite size_Seq in Hn. destruct (explodes_seq l (HL l ltac:(lia))) as (X0 & F & B & P1 & P2 & P3 & H).
      exists X0, F, B. repeat split; auto. intros names base rd f. destruct f as [|f].
      { exists B. split; [now apply big_const|]. intros Q HQ N cur c k _ _. cbn. lia. }
      destruct (H names base rd f) as (T & A & K). exists T. split; [exact A|].
      intros Q HQ N cur c k. cbn [c_m]. now apply K.
    - (* Alt *)
      rewrite size_Alt in Hn. destruct (explodes_alt l (HL l ltac:(lia))) as (X0 & F & B & P1 & P2 & P3 & H).
      exists X0, F, B. repeat split; auto. intros names base rd f. destruct f as [|f].
      { exists B. split; [now apply big_const|]. intros Q HQ N cur c k _ _. cbn. lia. }
      destruct (H names base rd f) as (T & A & K). exists T. split; [exact A|].
      intros Q HQ N cur c k. cbn [c_m]. now apply K.
    - (* Cap *)
      destruct (IH x) as (X0 & F & B & P1 & P2 & P3 & H); [cbn in Hn; lia|].
      exists X0, F, (1 + B). split; [exact P1|]. split; [exact P2|]. split; [lia|].
      intros names base rd f. destruct f as [|f].
      { exists 1. split; [apply (big_mono 1); [now apply big_const|lia]|].
        intros Q HQ N cur c k _ _. cbn. lia. }
      destruct (H names base rd f) as (T & A & K). exists (1 + T).
      split; [apply big_add; [now apply big_const|exact A]|].
      intros Q HQ N cur c k Hc Hk. cbn [c_m called steps].
      pose proof (weight_pos _ (base_above X0 Q P1 HQ) (length base - cur)) as W.
      eapply Nat.le_trans; [apply le_n_S, (steps_or_else _ _ ((T + F * N) * (X0 * Q) ^ (length base - cur)) 0)|nia].
      + apply (K Q HQ); [exact Hc|]. intros j c' J1 J2 J3.
        destruct (store _ _ _ _ _ _ _); [apply Hk; auto|cbn; lia].
      + intros c'. destruct (clear_cell _ _); cbn; lia.
    - (* Rep *)
      destruct (IH x) as (X0 & F & B & P1 & P2 & P3 & H); [cbn in Hn; lia|].
      set (g := rep_factor F lo hi). assert (Hg : 1 <= g) by (unfold g, rep_factor; lia).
      exists (X0 * (2 * F)), g, ((B + 2) * g). split; [nia|]. split; [exact Hg|]. split; [nia|].
      intros names base rd f. destruct f as [|f].
      { exists ((B + 2) * g). split; [apply big_const; nia|]. intros Q HQ N cur c k _ _. cbn. lia. }
      destruct (H names base rd f) as (T & A & K). exists ((T + 2) * g). split.
      { apply big_mul; [|now apply big_const]. apply big_add; [exact A|apply big_const; lia]. }
      intros Q HQ N cur c k Hc Hk. cbn [c_m].
      replace (X0 * (2 * F) * Q) with (X0 * Q * (2 * F)) in * by lia.
      destruct (costs_node cf x) as (A0 & a0 & _ & D).
      assert (HX : 2 <= X0 * Q) by now apply base_above.
      assert (K2 : spends (length base) (zlm x) (X0 * Q * (2 * F)) T F (c_m cf names base f rd x)).
      { rewrite <- Nat.mul_assoc. apply K. nia. }
      assert (M : forall Y, 2 <= Y -> spends (length base) (zlm x) Y T F (c_m cf names base f rd x) ->
        spends (length base) (zlm x) Y (T + 1) F (c_m cf names base f rd x)).
      { intros Y HY H0. apply (spends_mono (length base) Y HY (zlm x) (zlm x) T (T + 1) F F _ H0); auto; lia. }
      assert (HX2 : 2 <= X0 * Q * (2 * F)) by (clear - HX P2; nia).
      replace (T + 2) with (T + 1 + 1) by lia.
      exact (spends_rep (length base) cf (view base rd) x (c_m cf names base f rd x) (T + 1) F A0 a0
        (view_length base rd) (Nat.le_add_l 1 T) P2 (D names base rd f) (X0 * Q) HX (M _ HX (K Q HQ))
        (M _ HX2 K2) md lo hi N cur c k Hc Hk).
    - (* Backref *)
      exists 2, 1, 3. repeat split; auto. intros names base rd f. exists 3.
      split; [apply big_const; lia|]. intros Q HQ. destruct f as [|f]; [intros N cur c k _ _; cbn; lia|].
      intros N cur c k Hc Hk. cbn [c_m]. apply (spends_called _ _ (base_above 2 Q (le_n _) HQ)
        true 2 1 (c_backref_match cf base rd (N.to_nat id))); auto. apply backref_spends. lia.
    - (* NBackref *)
      exists 2, 1, 3. repeat split; auto. intros names base rd f. exists 3.
      split; [apply big_const; lia|]. intros Q HQ. destruct f as [|f]; [intros N cur c k _ _; cbn; lia|].
      intros N cur c k Hc Hk. cbn [c_m]. destruct (unique_position _ _) as [i|]; [|cbn; lia].
      apply (spends_called _ _ (base_above 2 Q (le_n _) HQ) true 2 1 (c_backref_match cf base rd i)); auto.
      apply backref_spends. lia.
    - (* Look *)
      destruct (IH x) as (X1 & F1 & B1 & P1 & P2 & P3 & H1); [cbn in Hn; lia|].
      destruct (IH (invert x)) as (X2 & F2 & B2 & R1 & R2 & R3 & H2);
        [rewrite size_invert; cbn in Hn; lia|].
      exists X1, 1, (1 + (B1 + B2 * X2)). split; [exact P1|]. split; [lia|]. split; [lia|].
      intros names base rd f. destruct f as [|f].
      { exists 1. split; [apply (big_mono 1); [now apply big_const|lia]|].
        intros Q HQ N cur c k _ _. cbn. lia. }
      destruct (H1 names base rd f) as (T1 & A1 & K1). destruct (H2 names base (S rd) f) as (T2 & A2 & K2).
      set (L := length base) in *.
      exists (1 + (T1 + T2 * X2 ^ L)). split.
      { apply big_add; [now apply big_const|]. apply big_add; [exact A1|].
        apply big_mul; [exact A2|]. unfold big. apply Nat.pow_le_mono_r; lia. }
      intros Q HQ N cur c k Hc Hk. pose proof (base_above X1 Q P1 HQ) as HX.
      pose proof (weight_pos _ HX (L - cur)) as W. set (P := (X1 * Q) ^ (L - cur)) in *.
      assert (Hk0 : forall c, steps (k cur c) <= N * P).
      { intros c'. apply Hk; [lia|exact Hc|discriminate]. }
      assert (V : forall T o f g, steps o <= T * P -> T <= T1 + T2 * X2 ^ L ->
        (forall e c, steps (f e c) <= N * P) -> (forall c, steps (g c) <= N * P) ->
        S (steps (c_on_result o f g)) <= (1 + (T1 + T2 * X2 ^ L) + 1 * N) * P).
      { intros T o f0 g0 Ho HT Hf Hg. pose proof (steps_on_result o f0 g0 _ _ Ho Hf Hg) as S1.
        assert (T * P <= (T1 + T2 * X2 ^ L) * P) by now apply Nat.mul_le_mono_r. lia. }
      assert (Hsmall : forall y, steps y <= N * P -> S (steps y) <= (1 + (T1 + T2 * X2 ^ L) + 1 * N) * P).
      { intros y Hy. apply Nat.le_trans with ((1 + N) * P); [lia|]. apply Nat.mul_le_mono_r. lia. }
      cbn [c_m]. unfold c_assert_that. destruct d.
      + cbn [called steps]. destruct (trivial x).
        * apply Hsmall. destruct (Nat.eqb _ _); [cbn; lia|]. apply steps_deref. intros a.
          destruct (match_one _ _ _); [apply Hk0|cbn; lia].
        * apply (V T1); [|lia|intros; apply Hk0|intros; cbn; lia].
          apply (spends_run _ _ HX _ _ _ _ cur c (K1 Q HQ) Hc).
      + destruct (negb _); [cbn; lia|]. cbn [called steps]. destruct (trivial x).
        * apply Hsmall. destruct (Nat.eqb _ _); [cbn; lia|]. apply steps_deref. intros a.
          destruct (match_one _ _ _); [apply Hk0|cbn; lia].
        * apply (V (T2 * X2 ^ L)); [|lia|intros; apply Hk0|intros; cbn; lia].
          rewrite view_length.
          specialize (K2 1 (le_n _)). rewrite Nat.mul_1_r in K2.
          pose proof (spends_run _ _ R1 _ _ _ _ (length base - cur) c K2 ltac:(unfold L; lia)) as R.
          eapply Nat.le_trans; [exact R|].
          apply Nat.le_trans with (T2 * X2 ^ L); [|nia].
          apply Nat.mul_le_mono_l. apply Nat.pow_le_mono_r; unfold L; lia.
  Qed.
End Tree.
