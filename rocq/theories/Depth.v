(** How deep calls nest: a bound that is linear in the length of the text. *)
From Verif Require Import Costs Basics.

(** The calls nest at most [M] deep and the end of a success satisfies [Q]. *)
Definition bounded (M : nat) (Q : nat -> Prop) (x : costed) : Prop :=
  depth x <= M /\ forall c e, out x = Res c e true -> Q e.

Lemma bounded_mono M M' Q x : bounded M Q x -> M <= M' -> bounded M' Q x.
Proof. intros [H1 H2] H. split; [lia|exact H2]. Qed.

Lemma bounded_non_match M Q cur c : bounded M Q (c_non_match cur c).
Proof. split; cbn; [lia|discriminate]. Qed.

Lemma bounded_leaf M Q o : match o with Res _ _ true => False | _ => True end ->
  bounded M Q (leaf o).
Proof. intros H. split; cbn; [lia|]. intros c e E. now rewrite E in H. Qed.

Lemma bounded_called M Q x : bounded M Q x -> bounded (S M) Q (called x).
Proof. intros [H1 H2]. split; cbn; [lia|exact H2]. Qed.

Lemma bounded_round M Q x : bounded M Q x -> bounded M Q (round x).
Proof. intros [H1 H2]. split; cbn; [lia|exact H2]. Qed.

Lemma bounded_paid d M Q x : bounded M Q x -> bounded M Q (paid d x).
Proof. intros [H1 H2]. split; cbn; [lia|exact H2]. Qed.

Lemma bounded_or_else M Q o f :
  bounded M Q o -> (forall c, bounded M Q (f c)) -> bounded M Q (c_or_else o f).
Proof.
  intros H Hf. unfold c_or_else. destruct (out o) as [c e []| | |] eqn:E; auto.
  destruct H as [H1 H2], (Hf c) as [F1 F2]. split; cbn; [lia|exact F2].
Qed.

Lemma bounded_on_result M Q Q' o f g :
  bounded M Q' o -> (forall e c, Q' e -> bounded M Q (f e c)) ->
  (forall c, bounded M Q (g c)) -> bounded M Q (c_on_result o f g).
Proof.
  intros [H1 H2] Hf Hg. unfold c_on_result.
  destruct (out o) as [c e []| | |] eqn:E; try (split; [exact H1|congruence]).
  - destruct (Hf e c (H2 c e eq_refl)) as [F1 F2]. split; cbn; [lia|exact F2].
  - destruct (Hg c) as [F1 F2]. split; cbn; [lia|exact F2].
Qed.

Lemma bounded_deref M Q s i f :
  (forall a, i < length s -> bounded M Q (f a)) -> bounded M Q (c_deref s i f).
Proof.
  intros H. unfold c_deref. destruct (nth_error s i) eqn:E.
  - apply H. apply nth_error_Some. congruence.
  - now apply bounded_leaf.
Qed.

Section Depth.
  (** The length of the text. *)
  Variable L : nat.

  (** After [cur] the continuation nests at most [K + a * (characters left)] deep,
      where the first character is not paid for. *)
  Definition within (z : bool) (a K : nat) (Q : nat -> Prop) (cur : nat) (k : ccont) : Prop :=
    forall j c, cur <= j -> j <= L -> (z = false -> cur < j) ->
      bounded (K + a * (L - Nat.max j (S cur))) Q (k j c).

  (** The matcher adds at most [A]. *)
  Definition adds (z : bool) (A a : nat) (mx : cmatcher) : Prop :=
    forall K Q cur c k, cur <= L -> a * L <= K -> within z a K Q cur k ->
      bounded (K + a * (L - S cur) + A) Q (mx cur c k).

  (** Without paying for characters. *)
  Definition adds_only (z : bool) (A : nat) (mx : cmatcher) : Prop :=
    forall M Q cur c k, cur <= L ->
      (forall j c, cur <= j -> j <= L -> (z = false -> cur < j) -> bounded M Q (k j c)) ->
      bounded (M + A) Q (mx cur c k).

  Lemma adds_weaken z z' A A' a a' mx :
    adds z A a mx -> A <= A' -> a <= a' -> (z' = false -> z = false) -> adds z' A' a' mx.
  Proof.
    intros H HA Ha Hz K Q cur c k H1 H2 Hk.
    set (K1 := K + (a' - a) * (L - S cur)).
    apply bounded_mono with (K1 + a * (L - S cur) + A).
    - apply H; auto.
      + unfold K1. assert (a * L <= a' * L) by (apply Nat.mul_le_mono_r; lia). lia.
      + intros j c' J1 J2 J3. eapply bounded_mono; [apply Hk; auto|].
        unfold K1. replace a' with (a' - a + a) at 1 by lia. rewrite Nat.mul_add_distr_r.
        assert ((a' - a) * (L - Nat.max j (S cur)) <= (a' - a) * (L - S cur))
          by (apply Nat.mul_le_mono_l; lia). lia.
    - unfold K1. replace a' with (a' - a + a) at 2 by lia. rewrite Nat.mul_add_distr_r. lia.
  Qed.

  Lemma adds_only_adds z A mx : adds_only z A mx -> adds z A 0 mx.
  Proof.
    intros H K Q cur c k H1 H2 Hk. cbn. rewrite Nat.add_0_r. apply H; auto.
    intros j c' J1 J2 J3. specialize (Hk j c' J1 J2 J3). cbn in Hk.
    now rewrite Nat.add_0_r in Hk.
  Qed.

  (** One matcher after the other. *)
  Lemma adds_after zy A a my z K Q cur k j c :
    adds zy A a my -> a * L <= K -> within z a K Q cur k -> cur <= j -> j <= L ->
    (z = false -> zy = true -> cur < j) ->
    bounded (K + A + a * (L - Nat.max j (S cur))) Q (my j c k).
  Proof.
    intros H HK Hk H1 H2 Hz.
    set (K1 := if Nat.ltb cur j && Nat.ltb j L then K + a else K).
    apply bounded_mono with (K1 + a * (L - S j) + A).
    - apply H; auto.
      + unfold K1. destruct (_ && _)%bool; lia.
      + intros i c' I1 I2 I3. eapply bounded_mono.
        * apply Hk; try lia. intros E. destruct zy; [specialize (Hz E eq_refl); lia|].
          specialize (I3 eq_refl). lia.
        * unfold K1. destruct (Nat.ltb_spec cur j); cbn [andb].
          -- rewrite (Nat.max_l i (S cur)) by lia.
             destruct (Nat.ltb_spec j L).
             ++ assert (a * (L - i) <= a * (S (L - Nat.max i (S j))))
                  by (apply Nat.mul_le_mono_l; lia). lia.
             ++ assert (i = L) by lia. subst i. replace (L - L) with 0 by lia. lia.
          -- assert (j = cur) by lia. subst. lia.
    - unfold K1. destruct (Nat.ltb_spec cur j); cbn [andb].
      + rewrite (Nat.max_l j (S cur)) by lia. destruct (Nat.ltb_spec j L).
        * replace (L - j) with (S (L - S j)) by lia. lia.
        * replace (L - S j) with 0 by lia. lia.
      + assert (j = cur) by lia. subst. rewrite Nat.max_r by lia. lia.
  Qed.

  (** Run for a verdict. *)
  Lemma adds_run z A a mx cur c : adds z A a mx -> cur <= L ->
    bounded (2 * a * L + A) (fun e => cur <= e /\ e <= L /\ (z = false -> cur < e))
      (mx cur c c_success).
  Proof.
    intros H H1. eapply bounded_mono.
    - apply (H (a * L)); auto. intros j c' J1 J2 J3. split; cbn; [lia|].
      intros c0 e0 E. inversion E; subst. auto.
    - assert (a * (L - S cur) <= a * L) by (apply Nat.mul_le_mono_l; lia). lia.
  Qed.

  Section Text.
    Variable s : list ascii.
    Hypothesis Hs : length s = L.

    Lemma adds_trivial p : adds_only false 0 (c_match_trivial s p).
    Proof.
      intros M Q cur c k H1 Hk. rewrite Nat.add_0_r. unfold c_match_trivial.
      destruct (Nat.eqb_spec cur (length s)); [apply bounded_non_match|].
      apply bounded_deref. intros a Ha.
      destruct (p a); [|apply bounded_non_match]. apply Hk; lia.
    Qed.

    Lemma all_at_length ps : forall cur, all_at s ps cur = Some true -> cur <= L ->
      cur + length ps <= L.
    Proof.
      induction ps as [|p r IH]; cbn; intros cur H Hc; [lia|].
      destruct (nth_error s cur) eqn:E; [|discriminate].
      assert (cur < length s) by (apply nth_error_Some; congruence).
      destruct (p a); [|discriminate]. apply IH in H; lia.
    Qed.

    Lemma adds_block_random ps : ps <> [] -> adds_only false 0 (c_trivial_block_random s ps).
    Proof.
      intros Hp M Q cur c k H1 Hk. rewrite Nat.add_0_r. unfold c_trivial_block_random.
      apply bounded_paid.
      destruct (all_at s ps cur) as [[]|] eqn:E.
      - apply all_at_length in E; auto.
        destruct ps as [|p r]; [easy|]. cbn [length] in *. apply Hk; lia.
      - apply bounded_non_match.
      - now apply bounded_leaf.
    Qed.

    Lemma adds_block_forward ps : adds_only false 0 (c_sequence_block_forward s ps).
    Proof.
      intros M Q. induction ps as [|p r IH]; intros cur c k H1 Hk;
        [now apply bounded_leaf|].
      assert (IH' : cur < length s -> bounded (M + 0) Q (c_sequence_block_forward s r (S cur) c k)).
      { intros Ha. apply IH; [lia|]. intros j c' J1 J2 J3. apply Hk; lia. }
      rewrite Nat.add_0_r in *. cbn [c_sequence_block_forward].
      destruct r; apply bounded_round, bounded_deref; intros a Ha;
        (destruct (p a); [|apply bounded_non_match]).
      - apply Hk; lia.
      - apply IH'; lia.
    Qed.

    Lemma adds_repetition_random p : forall todo offset M Q cur c k,
      cur + offset <= L -> 0 < offset + todo ->
      (forall j c, cur <= j -> j <= L -> cur < j -> bounded M Q (k j c)) ->
      bounded M Q (c_repetition_loop_random s p todo offset cur c k).
    Proof.
      induction todo as [|t IH]; intros offset M Q cur c k H1 H2 Hk;
        cbn [c_repetition_loop_random].
      - apply Hk; lia.
      - apply bounded_round, bounded_deref. intros a Ha.
        destruct (p a); cbn [negb]; [|apply bounded_non_match]. apply IH; auto; lia.
    Qed.

    Lemma adds_repetition_forward p : forall n, 0 < n ->
      adds_only false 0 (c_repetition_block_forward s p n).
    Proof.
      intros n Hn M Q.
      assert (G : forall n cur c k, cur <= L -> 
        (forall j c, cur <= j -> j <= L -> (0 < n -> cur < j) -> bounded M Q (k j c)) ->
        bounded M Q (c_repetition_block_forward s p n cur c k)).
      { clear n Hn. induction n as [|n IH]; intros cur c k H1 Hk;
          cbn [c_repetition_block_forward].
        - apply Hk; lia.
        - apply bounded_round, bounded_deref. intros a Ha.
          destruct (p a); [|apply bounded_non_match]. apply IH; [lia|].
          intros j c' J1 J2 J3. apply Hk; lia. }
      intros cur c k H1 Hk. rewrite Nat.add_0_r. apply G; auto.
    Qed.

    Lemma adds_possessive_trivial p : forall fuel b,
      adds_only true 0 (c_possessive_trivial fuel s p b).
    Proof.
      intros fuel b M Q. revert b. induction fuel as [|f IH]; intros b cur c k H1 Hk;
        cbn [c_possessive_trivial]; [now apply bounded_leaf|].
      assert (IH' : cur < length s -> forall b c,
        bounded (M + 0) Q (c_possessive_trivial f s p b (S cur) c k)).
      { intros Ha b' c'. apply IH; [lia|]. intros j c0 J1 J2 J3. apply Hk; [lia|lia|discriminate]. }
      rewrite Nat.add_0_r in *.
      destruct (bound_is_zero b); [apply Hk; [lia|lia|discriminate]|].
      destruct (Nat.eqb_spec cur (length s)); [apply Hk; [lia|lia|discriminate]|].
      apply bounded_deref. intros a Ha.
      destruct (p a); [|apply Hk; [lia|lia|discriminate]].
      apply bounded_round, IH'. lia.
    Qed.

    Lemma adds_step_back M Q k initial : forall d c, initial + d <= L ->
      (forall j c, initial <= j -> j <= L -> bounded M Q (k j c)) ->
      bounded M Q (c_step_back initial d c k).
    Proof.
      induction d as [|d IH]; intros c H1 Hk; cbn [c_step_back];
        (apply bounded_or_else; [apply bounded_round, Hk; lia|]); intros c'.
      - apply bounded_non_match.
      - apply IH; auto. lia.
    Qed.

    Lemma adds_lazy_trivial p : forall fuel b, adds_only true 0 (c_lazy_trivial fuel s p b).
    Proof.
      intros fuel b M Q. revert b. induction fuel as [|f IH]; intros b cur c k H1 Hk;
        cbn [c_lazy_trivial]; [now apply bounded_leaf|].
      assert (IH' : cur < length s -> forall b c,
        bounded (M + 0) Q (c_lazy_trivial f s p b (S cur) c k)).
      { intros Ha b' c'. apply IH; [lia|]. intros j c0 J1 J2 J3. apply Hk; [lia|lia|discriminate]. }
      rewrite Nat.add_0_r in *.
      apply bounded_or_else; [apply bounded_round, Hk; [lia|lia|discriminate]|]. intros c'.
      destruct (bound_is_zero b); [apply bounded_non_match|].
      destruct (Nat.eqb_spec cur (length s)); [apply bounded_non_match|].
      apply bounded_deref. intros a Ha.
      destruct (p a); [|apply bounded_non_match]. apply IH'. lia.
    Qed.

    Lemma adds_backref_loop cf t : adds_only true 0 (c_backref_loop cf s t).
    Proof.
      intros M Q. induction t as [|a r IH]; intros cur c k H1 Hk; cbn [c_backref_loop].
      - rewrite Nat.add_0_r. apply Hk; [lia|lia|discriminate].
      - apply bounded_round, bounded_deref. intros a' Ha.
        destruct (backref_char_eq cf a a'); [|apply bounded_non_match].
        apply IH; [lia|]. intros j c' J1 J2 J3. apply Hk; [lia|lia|discriminate].
    Qed.
  End Text.

  Lemma adds_unrolled z A a mx : adds z A a mx ->
    forall n, adds (z || Nat.eqb n 0) (n * (A + 1)) a (c_unrolled_backtracking mx n).
  Proof.
    intros Hmx. induction n as [|n IH]; intros K Q cur c k H1 H2 Hk.
    - cbn. eapply bounded_mono; [apply Hk; auto|].
      + rewrite orb_true_r. discriminate.
      + rewrite Nat.max_r by lia. lia.
    - rewrite orb_false_r in Hk. cbn [c_unrolled_backtracking]. destruct n as [|n'].
      + eapply bounded_mono; [apply Hmx; eauto|lia].
      + cbn [Nat.eqb] in IH. rewrite orb_false_r in IH. set (n := S n') in *.
        eapply bounded_mono.
        * apply bounded_called. apply (Hmx (K + n * (A + 1))); [auto|apply Nat.le_trans with K; [auto|apply Nat.le_add_r]|].
          intros j c' J1 J2 J3. eapply adds_after; eauto.
        * lia.
  Qed.

  Lemma adds_non_unrolled z A a mx : adds z A a mx ->
    forall n, adds z (n * (A + 1)) a (c_non_unrolled_backtracking mx n).
  Proof.
    intros Hmx. induction n as [|n IH]; intros K Q cur c k H1 H2 Hk;
      cbn [c_non_unrolled_backtracking]; [now apply bounded_leaf|].
    destruct (Nat.eqb_spec (S n) 1).
    - eapply bounded_mono; [apply bounded_called, Hmx; eauto|lia].
    - eapply bounded_mono.
      + apply bounded_called. apply (Hmx (K + n * (A + 1))); [auto|apply Nat.le_trans with K; [auto|apply Nat.le_add_r]|].
        intros j c' J1 J2 J3. eapply adds_after; eauto.
      + lia.
  Qed.

  Lemma within_here z a K Q cur k c : within z a K Q cur k -> z = true -> cur <= L ->
    bounded (K + a * (L - S cur)) Q (k cur c).
  Proof.
    intros H Hz H1. eapply bounded_mono; [apply H; auto|].
    - congruence.
    - rewrite Nat.max_r by lia. lia.
  Qed.

  (** Loops with a finite bound. *)
  Lemma adds_greedy_fin z A a mx w : adds z A a mx ->
    forall fuel n, adds true (N.to_nat n * (A + 1) + 1) a (c_greedy_generic fuel mx w (Fin n)).
  Proof.
    intros Hmx. induction fuel as [|f IH]; intros n K Q cur c k H1 H2 Hk;
      cbn [c_greedy_generic]; [now apply bounded_leaf|].
    assert (Hc : forall M c, K + a * (L - S cur) <= M -> bounded M Q (k cur c)).
    { intros M c' HM. eapply bounded_mono; [apply within_here with true|]; eauto. }
    rewrite Nat.add_assoc, Nat.add_1_r. apply bounded_called.
    cbn [bound_is_zero bound_decrement]. destruct (N.eqb_spec n 0); [apply Hc; lia|].
    apply bounded_or_else; [|intros; apply Hc; lia].
    eapply bounded_mono.
    - apply (Hmx (K + (N.to_nat (n - 1) * (A + 1) + 1))); [auto|apply Nat.le_trans with K; [auto|apply Nat.le_add_r]|].
      intros j c' J1 J2 J3. unfold c_continue_unless_infinite_loop.
      destruct (_ && _)%bool; [apply bounded_non_match|].
      eapply adds_after; eauto. discriminate.
    - replace (N.to_nat n) with (S (N.to_nat (n - 1))) by lia. lia.
  Qed.

  Lemma adds_lazy_fin z A a mx w : adds z A a mx ->
    forall fuel n, adds true (N.to_nat n * (A + 1) + 1) a (c_lazy_generic fuel mx w (Fin n)).
  Proof.
    intros Hmx. induction fuel as [|f IH]; intros n K Q cur c k H1 H2 Hk;
      cbn [c_lazy_generic]; [now apply bounded_leaf|].
    assert (Hc : forall M c, K + a * (L - S cur) <= M -> bounded M Q (k cur c)).
    { intros M c' HM. eapply bounded_mono; [apply within_here with true|]; eauto. }
    rewrite Nat.add_assoc, Nat.add_1_r. apply bounded_called.
    apply bounded_or_else; [apply Hc; lia|]. intros c0.
    cbn [bound_is_zero bound_decrement]. destruct (N.eqb_spec n 0); [apply bounded_non_match|].
    eapply bounded_mono.
    - apply (Hmx (K + (N.to_nat (n - 1) * (A + 1) + 1))); [auto|apply Nat.le_trans with K; [auto|apply Nat.le_add_r]|].
      intros j c' J1 J2 J3. unfold c_continue_unless_infinite_loop.
      destruct (_ && _)%bool; [apply bounded_non_match|].
      eapply adds_after; eauto. discriminate.
    - replace (N.to_nat n) with (S (N.to_nat (n - 1))) by lia. lia.
  Qed.

  (** Loops without a bound pay for one round with each character. *)
  Section Unbounded.
    Variables (z w : bool) (A a : nat) (mx : cmatcher).
    Hypothesis Hmx : adds z A a mx.
    Hypothesis Ha : A + 1 <= a.
    Hypothesis Hw : w = true \/ z = false.

    Lemma adds_round K Q cur c k : cur <= L -> a * L <= K ->
      (forall j c, cur < j -> j <= L -> bounded (K + a * (L - j) + A + 1) Q (k j c)) ->
      bounded (K + a * (L - cur) + A) Q (mx cur c (c_continue_unless_infinite_loop w cur k)).
    Proof.
      intros H1 H2 Hk. destruct (Nat.eq_dec cur L) as [->|H3].
      - eapply bounded_mono; [apply (Hmx K); auto|].
        + intros j c' J1 J2 J3. unfold c_continue_unless_infinite_loop.
          destruct Hw as [->| ->]; [|specialize (J3 eq_refl); lia].
          replace j with L by lia. rewrite Nat.eqb_refl. apply bounded_non_match.
        + replace (L - S L) with (L - L) by lia. lia.
      - eapply bounded_mono; [apply (Hmx (K + A + 1)); auto; [lia|]|].
        + intros j c' J1 J2 J3. unfold c_continue_unless_infinite_loop.
          destruct (Nat.eqb_spec cur j) as [->|H4].
          * destruct Hw as [->| ->]; [|specialize (J3 eq_refl); lia]. apply bounded_non_match.
          * rewrite andb_false_r. eapply bounded_mono; [apply Hk; lia|].
            rewrite Nat.max_l by lia. lia.
        + replace (L - cur) with (S (L - S cur)) by lia. lia.
    Qed.

    Lemma adds_greedy_inf : forall fuel K Q cur c k, cur <= L -> a * L <= K ->
      (forall j c, cur <= j -> j <= L -> bounded (K + a * (L - j)) Q (k j c)) ->
      bounded (K + a * (L - cur) + A + 1) Q (c_greedy_generic fuel mx w Inf cur c k).
    Proof.
      induction fuel as [|f IH]; intros K Q cur c k H1 H2 Hk;
        cbn [c_greedy_generic]; [now apply bounded_leaf|].
      rewrite Nat.add_1_r. apply bounded_called. cbn [bound_is_zero bound_decrement].
      apply bounded_or_else.
      - apply adds_round; auto. intros j c' J1 J2. apply IH; auto.
        intros i c0 I1 I2. apply Hk; lia.
      - intros c'. eapply bounded_mono; [apply Hk; lia|lia].
    Qed.

    Lemma adds_lazy_inf : forall fuel K Q cur c k, cur <= L -> a * L <= K ->
      (forall j c, cur <= j -> j <= L -> bounded (K + a * (L - j)) Q (k j c)) ->
      bounded (K + a * (L - cur) + A + 1) Q (c_lazy_generic fuel mx w Inf cur c k).
    Proof.
      induction fuel as [|f IH]; intros K Q cur c k H1 H2 Hk;
        cbn [c_lazy_generic]; [now apply bounded_leaf|].
      rewrite Nat.add_1_r. apply bounded_called. cbn [bound_is_zero bound_decrement].
      apply bounded_or_else.
      - eapply bounded_mono; [apply Hk; lia|lia].
      - intros c0. apply adds_round; auto. intros j c' J1 J2. apply IH; auto.
        intros i c1 I1 I2. apply Hk; lia.
    Qed.
  End Unbounded.

  Lemma adds_unbounded A a (g : cmatcher) :
    (forall K Q cur c k, cur <= L -> a * L <= K ->
      (forall j c, cur <= j -> j <= L -> bounded (K + a * (L - j)) Q (k j c)) ->
      bounded (K + a * (L - cur) + A + 1) Q (g cur c k)) ->
    adds true (a + A + 1) a g.
  Proof.
    intros H K Q cur c k H1 H2 Hk. eapply bounded_mono; [apply (H K); auto|].
    - intros j c' J1 J2. eapply bounded_mono; [apply Hk; auto; discriminate|].
      assert (a * (L - Nat.max j (S cur)) <= a * (L - j)) by (apply Nat.mul_le_mono_l; lia).
      lia.
    - assert (a * (L - cur) <= a * S (L - S cur)) by (apply Nat.mul_le_mono_l; lia). lia.
  Qed.

  Lemma within_most z a K Q cur k M : within z a K Q cur k ->
    K + a * (L - S cur) <= M ->
    forall j c, cur <= j -> j <= L -> (z = false -> cur < j) -> bounded M Q (k j c).
  Proof.
    intros Hk HM j c J1 J2 J3. eapply bounded_mono; [apply Hk; auto|].
    assert (a * (L - Nat.max j (S cur)) <= a * (L - S cur)) by (apply Nat.mul_le_mono_l; lia).
    lia.
  Qed.

  Lemma adds_possessive_generic z A a mx w : adds z A a mx ->
    forall fuel b, adds true A (2 * a) (c_possessive_generic fuel mx w b).
  Proof.
    intros Hmx fuel b K Q cur c k H1 H2 Hk.
    assert (G : forall fuel M b cur c, cur <= L -> 2 * a * L + A <= M ->
      (forall j c, cur <= j -> j <= L -> bounded M Q (k j c)) ->
      bounded M Q (c_possessive_generic fuel mx w b cur c k)).
    { clear cur c Hk H1 fuel b. induction fuel as [|f IH]; intros M b cur c H1 HM Hk;
        cbn [c_possessive_generic]; [now apply bounded_leaf|].
      destruct (bound_is_zero b); [apply Hk; lia|].
      eapply bounded_on_result.
      - apply bounded_round. eapply bounded_mono; [apply adds_run; eauto|exact HM].
      - intros e c' (E1 & E2 & _). destruct (_ && _)%bool; [apply Hk; lia|].
        apply IH; auto. intros j c0 J1 J2. apply Hk; lia.
      - intros c'. apply Hk; lia. }
    apply G; auto.
    - lia.
    - intros j c' J1 J2. eapply within_most; eauto; [lia|discriminate].
  Qed.

  (** A run for a verdict before going on. *)
  Lemma adds_verdict z A a mx f g : adds z A a mx ->
    forall K Q cur c, cur <= L -> 2 * a * L <= K ->
    (forall e c, cur <= e -> e <= L -> (z = false -> cur < e) ->
       bounded (K + 2 * a * (L - S cur) + A) Q (f e c)) ->
    (forall c, bounded (K + 2 * a * (L - S cur) + A) Q (g c)) ->
    bounded (K + 2 * a * (L - S cur) + A) Q (c_on_result (mx cur c c_success) f g).
  Proof.
    intros Hmx K Q cur c H1 H2 Hf Hg. eapply bounded_on_result.
    - eapply bounded_mono; [apply adds_run; eauto|lia].
    - intros e c' (E1 & E2 & E3). auto.
    - auto.
  Qed.

  Section Nodes.
    Variable cf : config.
    Variable s : list ascii.
    Hypothesis Hs : length s = L.

    Lemma adds_seq mm A a l :
      Forall (fun x => adds (zlm x) A a (mm x)) l ->
      adds (forallb zlm l) (length l * (A + 1)) a (c_seq_match cf s mm l).
    Proof.
      induction l as [|x r IH]; intros HF K Q cur c k H1 H2 Hk; [now apply bounded_leaf|].
      inversion HF as [|? ? Hx Hr]; subst. cbn [c_seq_match]. destruct r as [|y r'].
      - eapply bounded_mono; [apply Hx; eauto|cbn; lia].
        intros j c' J1 J2 J3. apply Hk; auto. cbn. now rewrite andb_true_r.
      - remember (y :: r') as r eqn:Er.
        assert (Hnn : length (x :: r) * (A + 1) = S (length r * (A + 1) + A)) by (cbn; lia).
        rewrite Hnn. rewrite Nat.add_succ_r. apply bounded_called.
        destruct (forallb trivial (x :: r)) eqn:T.
        + assert (Hz : forallb zlm (x :: r) = false).
          { cbn in T. apply andb_true_iff in T as [T _]. cbn. now rewrite zlm_trivial. }
          rewrite Hz in Hk.
          apply bounded_mono with (K + a * (L - S cur)); [|lia].
          apply bounded_paid.
          destruct (distance_less_than _ _ _ _); [apply bounded_non_match|].
          rewrite <- (Nat.add_0_r (_ + _)).
          destruct (is_random cf).
          * apply (adds_block_random s Hs); [cbn; discriminate|auto|].
            eapply within_most; eauto.
          * apply (adds_block_forward s Hs); auto. eapply within_most; eauto.
        + eapply bounded_mono.
          * apply (Hx (K + length r * (A + 1))); try lia.
            intros j c' J1 J2 J3. eapply adds_after; eauto.
            cbn. intros E1 E2. rewrite E2, andb_true_r in E1. auto.
          * lia.
    Qed.

    Lemma adds_alt mm A a l :
      Forall (fun x => adds (zlm x) A a (mm x)) l ->
      adds (existsb zlm l) (length l + A) a (c_alt_match cf s mm l).
    Proof.
      induction l as [|x r IH]; intros HF K Q cur c k H1 H2 Hk; [now apply bounded_leaf|].
      inversion HF as [|? ? Hx Hr]; subst. cbn [c_alt_match].
      assert (Hx' : bounded (K + a * (L - S cur) + A) Q (mm x cur c k)).
      { apply Hx; auto. intros j c' J1 J2 J3. apply Hk; auto. cbn.
        intros E. apply orb_false_iff in E as [E _]. auto. }
      destruct r as [|y r']; [eapply bounded_mono; [exact Hx'|cbn; lia]|].
      remember (y :: r') as r eqn:Er. cbn [length].
      replace (S (length r) + A) with (S (length r + A)) by lia.
      rewrite Nat.add_succ_r. apply bounded_called.
      destruct (forallb trivial (x :: r)) eqn:T.
      - apply bounded_mono with (K + a * (L - S cur) + 0); [|lia].
        apply (adds_trivial s Hs); auto. intros j c' J1 J2 J3.
        eapply within_most; eauto.
      - apply bounded_or_else; [eapply bounded_mono; [exact Hx'|lia]|].
        intros c'. apply IH; auto. intros j c0 J1 J2 J3. apply Hk; auto.
        cbn. intros E. apply orb_false_iff in E as [_ E]. auto.
    Qed.

    Lemma adds_fixed_backtracking x mx n A a : (1 < n)%N -> adds (zlm x) A a mx ->
      adds (zlm x) (N.to_nat n * (A + 1)) a (c_fixed_backtracking cf s x mx n).
    Proof.
      intros Hn Hmx K Q cur c k H1 H2 Hk. unfold c_fixed_backtracking.
      destruct (trivial x) eqn:T.
      - apply bounded_mono with (K + a * (L - S cur)); [|lia].
        apply bounded_paid.
        destruct (distance_less_than _ _ _ _); [apply bounded_non_match|].
        pose proof (within_most _ _ _ _ _ _ _ Hk (le_n _)) as Hm.
        rewrite (zlm_trivial x T) in Hm.
        destruct (is_random cf); [destruct (unroll cf)|].
        + rewrite <- (Nat.add_0_r (_ + _)). apply (adds_block_random s Hs); auto.
          intros E. apply (f_equal (@length _)) in E. rewrite repeat_length in E. cbn in E. lia.
        + apply adds_repetition_random; auto; try lia.
        + rewrite <- (Nat.add_0_r (_ + _)). apply (adds_repetition_forward s Hs); auto. lia.
      - destruct (unroll cf).
        + apply (adds_unrolled (zlm x) A a mx Hmx); auto.
          destruct (Nat.eqb_spec (N.to_nat n) 0); [lia|]. now rewrite orb_false_r.
        + apply (adds_non_unrolled (zlm x) A a mx Hmx); auto.
    Qed.

    Lemma adds_fixed x mx mode n A a : adds (zlm x) A a mx ->
      adds (is_zero n || zlm x) (N.to_nat n * (A + 1) + 1) (2 * a) (c_fixed_match cf s mode n x mx).
    Proof.
      intros Hmx K Q cur c k H1 H2 Hk. unfold c_fixed_match.
      unfold is_zero in *. destruct (N.eqb_spec n 0).
      { rewrite Nat.add_assoc, Nat.add_1_r. apply bounded_called.
        eapply bounded_mono; [eapply within_here; eauto|lia]. }
      cbn [orb] in Hk.
      assert (Hmx2 : adds (zlm x) A (2 * a) mx) by (apply (adds_weaken (zlm x) (zlm x) A A a (2 * a) mx); auto; lia).
      destruct (N.eqb_spec n 1).
      - subst n. assert (bounded (K + 2 * a * (L - S cur) + (N.to_nat 1 * (A + 1) + 1)) Q (mx cur c k))
          by (eapply bounded_mono; [apply (Hmx2 K); auto|cbn; lia]).
        destruct mode; auto. destruct (trivial x); auto.
        apply bounded_mono with (S (K + 2 * a * (L - S cur) + A)); [|cbn; lia].
        apply bounded_called. eapply adds_verdict; eauto.
        + intros e c' E1 E2 E3. eapply within_most; eauto. lia.
        + intros. apply bounded_non_match.
      - rewrite Nat.add_assoc, Nat.add_1_r. apply bounded_called.
        assert (Hb : (1 < n)%N) by lia.
        destruct mode; try (apply adds_fixed_backtracking; auto; lia).
        eapply adds_verdict; eauto.
        + apply adds_fixed_backtracking; auto.
        + intros e c' E1 E2 E3. eapply within_most; eauto. lia.
        + intros. apply bounded_non_match.
    Qed.

    (** Whether the loop calls itself and has no bound. *)
    Definition nests (mode : match_mode) (hi : quantifier) (x : node) : bool :=
      match hi, mode with
      | Inf, Possessive => false
      | Inf, _ => negb (trivial x && is_bidirectional cf)
      | _, _ => false
      end.

    (** What [between_bounds] adds and asks for each character. *)
    Definition loop_adds (hi : quantifier) (A a : nat) : nat :=
      match hi with Fin h => N.to_nat h * (A + 1) + 1 | Inf => 2 * (a + A + 1) end.
    Definition loop_pays (mode : match_mode) (hi : quantifier) (x : node) (A a : nat) : nat :=
      if nests mode hi x then 2 * (a + A + 1) else 2 * a.

    Lemma adds_between mode b w x mx A a :
      adds (zlm x) A a mx -> (b = Inf -> w = true \/ zlm x = false) ->
      adds true (loop_adds b A a) (loop_pays mode b x A a) (c_between_bounds cf s mode b w x mx).
    Proof.
      intros Hmx Hw.
      assert (P : forall X C e, adds_only true 0 X -> adds true C e X).
      { intros X C e H. eapply adds_weaken; [apply adds_only_adds, H|lia|lia|auto]. }
      assert (Q1 : forall fuel k M Q cur c, cur <= L ->
        (forall j c, cur <= j -> j <= L -> bounded M Q (k j c)) ->
        bounded M Q (c_possessive_trivial fuel s (match_one cf x) b cur c
            (fun next c' => c_step_back cur (next - cur) c' k))).
      { intros fuel k M Q cur c H1 Hk. rewrite <- (Nat.add_0_r M).
        apply (adds_possessive_trivial s Hs); auto.
        intros j c' J1 J2 _. apply (adds_step_back s); auto. lia. }
      assert (Hla : A + 1 <= loop_adds b A a \/ exists n, b = Fin n /\ loop_adds b A a = N.to_nat n * (A + 1) + 1).
      { destruct b; [right; eauto|left; cbn; lia]. }
      assert (G : nests mode b x = nests Greedy b x -> mode <> Possessive -> forall g : bool,
        adds true (loop_adds b A a) (loop_pays mode b x A a) (fun cur c k =>
         if xorb g (ungreedy cf) then
          if trivial x && is_bidirectional cf then
            c_possessive_trivial (loop_fuel b (length s) cur) s (match_one cf x) b cur c
              (fun next c' => c_step_back cur (next - cur) c' k)
          else c_greedy_generic (loop_fuel b (length s) cur) mx w b cur c k
        else if trivial x then c_lazy_trivial (loop_fuel b (length s) cur) s (match_one cf x) b cur c k
        else c_lazy_generic (loop_fuel b (length s) cur) mx w b cur c k)).
      { intros Hm Hp g K Q cur c k H1 H2 Hk.
        destruct (xorb g (ungreedy cf)) eqn:X1;
          [destruct (trivial x && is_bidirectional cf)%bool eqn:X2|destruct (trivial x) eqn:X2].
        - apply bounded_mono with (K + loop_pays mode b x A a * (L - S cur)); [|lia].
          apply Q1; auto. intros j c' J1 J2. eapply within_most; eauto. discriminate.
        - destruct b as [n|].
          + apply (adds_weaken true true (N.to_nat n * (A + 1) + 1) (loop_adds (Fin n) A a) a
              (loop_pays mode (Fin n) x A a) (fun cur c k => c_greedy_generic (loop_fuel (Fin n) (length s) cur) mx w (Fin n) cur c k)); auto.
            * intros K0 Q0 cur0 c0 k0. apply adds_greedy_fin with (z := zlm x); auto.
            * unfold loop_pays. destruct (nests _ _ _); lia.
          + set (e := a + A + 1).
            assert (Hn : loop_pays mode Inf x A a = 2 * e).
            { unfold loop_pays. rewrite Hm. cbn [nests]. now rewrite X2. }
            rewrite Hn in *.
            apply (adds_weaken true true (e + A + 1) (loop_adds Inf A a) e (2 * e)
              (fun cur c k => c_greedy_generic (loop_fuel Inf (length s) cur) mx w Inf cur c k)); auto.
            * apply adds_unbounded. intros K0 Q0 cur0 c0 k0 ? ? ?.
              eapply adds_greedy_inf; eauto; [|unfold e; lia].
              apply (adds_weaken (zlm x) (zlm x) A A a e mx); auto; unfold e; lia.
            * cbn. unfold e. lia.
            * lia.
        - apply (P (fun cur c k => c_lazy_trivial (loop_fuel b (length s) cur) s (match_one cf x) b cur c k)); auto.
          intros M0 Q0 cur0 c0 k0. apply adds_lazy_trivial; auto.
        - destruct b as [n|].
          + apply (adds_weaken true true (N.to_nat n * (A + 1) + 1) (loop_adds (Fin n) A a) a
              (loop_pays mode (Fin n) x A a) (fun cur c k => c_lazy_generic (loop_fuel (Fin n) (length s) cur) mx w (Fin n) cur c k)); auto.
            * intros K0 Q0 cur0 c0 k0. apply adds_lazy_fin with (z := zlm x); auto.
            * unfold loop_pays. destruct (nests _ _ _); lia.
          + set (e := a + A + 1).
            assert (Hn : loop_pays mode Inf x A a = 2 * e).
            { unfold loop_pays. rewrite Hm. cbn [nests]. now rewrite X2. }
            rewrite Hn in *.
            apply (adds_weaken true true (e + A + 1) (loop_adds Inf A a) e (2 * e)
              (fun cur c k => c_lazy_generic (loop_fuel Inf (length s) cur) mx w Inf cur c k)); auto.
            * apply adds_unbounded. intros K0 Q0 cur0 c0 k0 ? ? ?.
              eapply adds_lazy_inf; eauto; [|unfold e; lia].
              apply (adds_weaken (zlm x) (zlm x) A A a e mx); auto; unfold e; lia.
            * cbn. unfold e. lia.
            * lia. }
      unfold c_between_bounds. destruct mode.
      - apply G; [reflexivity|discriminate].
      - apply G; [destruct b; reflexivity|discriminate].
      - destruct (trivial x) eqn:T.
        + apply P. intros M0 Q0 cur0 c0 k0. apply adds_possessive_trivial; auto.
        + destruct b as [n|].
          * intros K0 Q0 cur0 c0 k0 H1 H2 Hk. unfold loop_pays, nests in *. cbn [loop_adds].
            destruct (N.eqb_spec n 0).
            -- subst. cbn. eapply bounded_mono; [eapply within_here; eauto|].
               cbn. lia.
            -- eapply bounded_mono; [eapply adds_possessive_generic; eauto|].
               assert (A <= N.to_nat n * (A + 1)) by (destruct (N.to_nat n) eqn:E; lia). lia.
          * intros K0 Q0 cur0 c0 k0 H1 H2 Hk. unfold loop_pays, nests in *. cbn [loop_adds].
            eapply bounded_mono; [eapply adds_possessive_generic; eauto|lia].
    Qed.

    Lemma nests_subtract mode hi lo x : nests mode (bound_subtract hi lo) x = nests mode hi x.
    Proof. now destruct hi. Qed.

    (** What a repetition adds. *)
    Definition rep_adds (lo : N) (hi : quantifier) (A a : nat) : nat :=
      (N.to_nat lo * (A + 1) + 1) + loop_adds (bound_subtract hi lo) A a + 1.

    Lemma adds_rep mode lo hi x mx A a : adds (zlm x) A a mx ->
      adds (is_zero lo || zlm x) (rep_adds lo hi A a) (loop_pays mode hi x A a)
        (c_rep_match cf s mode lo hi x mx).
    Proof.
      intros Hmx.
      assert (Hp : 2 * a <= loop_pays mode hi x A a).
      { unfold loop_pays. destruct (nests _ _ _); lia. }
      assert (HF : adds (is_zero lo || zlm x) (N.to_nat lo * (A + 1) + 1)
                (loop_pays mode hi x A a) (c_fixed_match cf s mode lo x mx)).
      { eapply adds_weaken; [apply adds_fixed; eauto|lia|exact Hp|auto]. }
      assert (HB : adds true (loop_adds (bound_subtract hi lo) A a) (loop_pays mode hi x A a)
                (c_between_bounds cf s mode (bound_subtract hi lo) (is_infinity hi && zlm x) x mx)).
      { assert (E : loop_pays mode (bound_subtract hi lo) x A a = loop_pays mode hi x A a)
          by (unfold loop_pays; now rewrite nests_subtract).
        rewrite <- E. apply adds_between; auto.
        destruct hi; cbn; [discriminate|]. intros _. destruct (zlm x); auto. }
      intros K Q cur c k H1 H2 Hk. unfold c_rep_match.
      destruct (match hi with Fin h => N.eqb lo h | Inf => false end).
      { eapply bounded_mono; [apply (HF K); auto|unfold rep_adds; lia]. }
      unfold rep_adds. rewrite Nat.add_assoc, Nat.add_1_r. apply bounded_called.
      destruct (is_zero lo) eqn:Z.
      - eapply bounded_mono; [apply (HB K); auto|lia].
      - cbn [orb] in *.
        eapply bounded_mono.
        + apply (HF (K + loop_adds (bound_subtract hi lo) A a)); auto; [lia|].
          intros j c' J1 J2 J3. eapply adds_after; eauto.
        + lia.
    Qed.

    Lemma adds_backref base rd i : view base rd = s -> adds_only true 0 (c_backref_match cf base rd i).
    Proof.
      intros Hv M Q cur c k H1 Hk. rewrite Nat.add_0_r. unfold c_backref_match.
      destruct (nth_error c i) as [v|]; [|now apply bounded_leaf].
      destruct (match v with Some p => p | None => (0, 0) end) as [b e].
      apply bounded_paid.
      destruct (distance_less_than _ _ _ _); [apply bounded_non_match|].
      destruct (_ || _)%bool; [now apply bounded_leaf|].
      rewrite Hv. rewrite <- (Nat.add_0_r M). apply (adds_backref_loop s Hs); auto.
    Qed.
  End Nodes.
End Depth.

(** No unbounded backtracking repetition of more than a single character. *)
Fixpoint flat (n : node) : bool :=
  match n with
  | Neg x | Cap _ _ x | Look _ x => flat x
  | Seq l | Alt l => forallb flat l
  | Rep mode lo hi x =>
      match hi, mode with
      | Inf, Greedy | Inf, Lazy => trivial x
      | _, _ => flat x
      end
  | _ => true
  end.

Lemma flat_trivial n : trivial n = true -> flat n = true.
Proof.
  induction n using node_ind'; cbn [trivial flat]; auto; try discriminate.
  - destruct l as [|x [|]]; try discriminate. intros T. inversion H; subst. cbn.
    rewrite H2 by assumption. reflexivity.
  - destruct l as [|x r]; [discriminate|]. intros T. apply andb_true_iff in T as [T1 T2].
    inversion H as [|? ? Hx Hr]; subst. cbn. rewrite Hx by assumption. cbn.
    apply forallb_forall. intros y Hy. rewrite Forall_forall in Hr.
    rewrite forallb_forall in T2. auto.
  - intros T. destruct hi as [h|]; [destruct md|];
      destruct lo as [|[]]; try discriminate; destruct h as [|[]]; try discriminate; auto.
Qed.

Lemma flat_invert n : flat (invert n) = flat n.
Proof.
  induction n using node_ind'; try reflexivity; try (cbn; assumption).
  - rewrite invert_Seq. cbn [flat]. rewrite forallb_rev, forallb_map.
    now apply forallb_ext_Forall.
  - cbn [invert flat]. rewrite forallb_map. now apply forallb_ext_Forall.
  - cbn [invert flat]. rewrite trivial_invert. destruct hi, md; auto.
Qed.

Section Tree.
  Variable cf : config.

  (** What a tree adds and asks for each character, whatever the text is. *)
  Definition deep (n : node) (A a : nat) : Prop :=
    forall names base rd f, adds (length base) (zlm n) A a (c_m cf names base f rd n).

  Lemma deep_weaken n A A' a a' : deep n A a -> A <= A' -> a <= a' -> deep n A' a'.
  Proof. intros H H1 H2 names base rd f. eapply adds_weaken; eauto. Qed.

  (** [deep] with the price for [flat]. *)
  Definition costs (n : node) : Prop :=
    exists A a, (is_bidirectional cf = true -> flat n = true -> a = 0) /\ deep n A a.

  Lemma costs_list l : Forall costs l ->
    exists A a, (is_bidirectional cf = true -> forallb flat l = true -> a = 0)
      /\ Forall (fun x => deep x A a) l.
  Proof.
    induction 1 as [|x l (A1 & a1 & F1 & D1) Hl (A2 & a2 & F2 & D2)].
    - exists 0, 0. auto.
    - exists (Nat.max A1 A2), (Nat.max a1 a2). split.
      + cbn. intros B F. apply andb_true_iff in F as [Fx Fl].
        rewrite F1, F2; auto.
      + constructor; [apply (deep_weaken x A1 _ a1 _ D1); lia|].
        eapply Forall_impl; [|exact D2]. intros y Hy. apply (deep_weaken y A2 _ a2 _ Hy); lia.
  Qed.

  (** One call, then only loops. *)
  Lemma deep_called n A : (forall names base rd f, exists g, adds_only (length base) (zlm n) A g
      /\ forall cur c k, c_m cf names base (S f) rd n cur c k = called (g cur c k)
           \/ c_m cf names base (S f) rd n cur c k = leaf IllFormed) -> deep n (S A) 0.
  Proof.
    intros H names base rd [|f]; apply adds_only_adds; intros M Q cur c k H1 Hk.
    - now apply bounded_leaf.
    - destruct (H names base rd f) as (g & Hg & E). destruct (E cur c k) as [-> | ->].
      + rewrite Nat.add_succ_r. apply bounded_called. now apply Hg.
      + now apply bounded_leaf.
  Qed.

  Ltac here := intros M Q cur c k H1 Hk; rewrite Nat.add_0_r; unfold c_assert_that;
    repeat first [ apply bounded_non_match
                 | apply bounded_deref; intros
                 | now apply bounded_leaf
                 | apply Hk; [lia|lia|discriminate]
                 | match goal with |- context [if ?b then _ else _] => destruct b end ].

  Ltac one_call := apply (deep_called _ 0); intros names base rd f; eexists; split;
    [|intros cur c k; left; reflexivity].

  Theorem costs_node n : costs n.
  Proof.
    assert (G : forall b n, size n <= b -> costs n); [|now apply (G (size n))]. clear n.
    induction b as [|b IH]; intros n Hn; [pose proof (size_pos n); lia|].
    assert (HL : forall l, list_sum (map size l) <= b -> Forall costs l).
    { intros l Hl. apply Forall_forall. intros x Hx. apply IH.
      pose proof (size_in_sum l x Hx). lia. }
    (* the cases in which nothing is paid for characters *)
    assert (P : forall A, deep n A 0 -> costs n) by (intros A HA; exists A, 0; auto).
    destruct n as [ | | | | | | |ch|r1 r2|l|x|l|l|id nm x|md lo hi x|id|nm|d x].
    all: try solve [apply (P 1); one_call; cbn [zlm];
      first [ apply adds_trivial, view_length | here ]].
    - (* WordB *)
      apply (P 1). apply (deep_called _ 0). intros names base rd f.
      exists (fun cur c k =>
        let s := view base rd in
        let ahead (b : bool) :=
              if Nat.eqb cur (length s) then c_assert_that (xorb b false) cur c k
              else c_deref s cur (fun a =>
                     c_assert_that (xorb b (match_one cf n_word a)) cur c k) in
              (if Nat.eqb cur 0 then ahead false
               else c_deref s (cur - 1) (fun a => ahead (match_one cf n_word a)))).
      split; [cbv zeta; cbn [zlm]; here|].
      intros cur c k. cbn [c_m]. destruct (negb _); [now right|now left].
    - (* Neg *)
      destruct (is_assertion x) eqn:As.
      + destruct (IH x) as (A & a & F & D); [cbn in Hn; lia|].
        exists (S A), (2 * a). split; [cbn [flat]; intros; rewrite F; auto|].
        intros names base rd [|f] K Q cur c k H1 H2 Hk; [now apply bounded_leaf|].
        cbn [c_m]. rewrite As, Nat.add_succ_r. apply bounded_called.
        assert (Hz : zlm (Neg x) = true) by (cbn; now rewrite is_assertion_not_trivial).
        apply (adds_verdict (length base) (zlm x) A a _ _ _ (D names base rd f)); auto.
        * intros. apply bounded_non_match.
        * intros c'. eapply bounded_mono; [eapply within_here; eauto|lia].
      + apply (P 1). apply (deep_called _ 0). intros names base rd f. eexists. split.
        2: { intros cur c k. left. cbn [c_m]. rewrite As. reflexivity. }
        intros M Q cur c k H1 Hk. apply (adds_trivial _ _ (view_length base rd)); auto.
    - (* Seq *)
      rewrite size_Seq in Hn. destruct (costs_list l (HL l ltac:(lia))) as (A & a & F & D).
      exists (length l * (A + 1)), a. split; [exact F|].
      intros names base rd [|f]; [intros K Q cur c k ? ? ?; now apply bounded_leaf|].
      intros K Q cur c k. cbn [c_m zlm]. apply (adds_seq _ cf _ (view_length base rd)).
      eapply Forall_impl; [|exact D]. intros y Hy. apply Hy.
    - (* Alt *)
      rewrite size_Alt in Hn. destruct (costs_list l (HL l ltac:(lia))) as (A & a & F & D).
      exists (length l + A), a. split; [exact F|].
      intros names base rd [|f]; [intros K Q cur c k ? ? ?; now apply bounded_leaf|].
      intros K Q cur c k. cbn [c_m zlm]. apply (adds_alt _ cf _ (view_length base rd)).
      eapply Forall_impl; [|exact D]. intros y Hy. apply Hy.
    - (* Cap *)
      destruct (IH x) as (A & a & F & D); [cbn in Hn; lia|].
      exists (S A), a. split; [exact F|].
      intros names base rd [|f] K Q cur c k H1 H2 Hk; [now apply bounded_leaf|].
      cbn [c_m zlm] in *. rewrite Nat.add_succ_r. apply bounded_called.
      apply bounded_or_else.
      + apply D; auto. intros j c' J1 J2 J3.
        destruct (store _ _ _ _ _ _ _); [now apply Hk|now apply bounded_leaf].
      + intros c'. destruct (clear_cell _ _); [apply bounded_non_match|now apply bounded_leaf].
    - (* Rep *)
      destruct (IH x) as (A & a & F & D); [cbn in Hn; lia|].
      exists (rep_adds lo hi A a), (loop_pays cf md hi x A a). split.
      + intros B Hf. unfold loop_pays.
        assert (Hx : flat x = true /\ nests cf md hi x = false).
        { cbn [flat] in Hf. unfold nests. destruct hi as [h|], md; auto;
            (split; [now apply flat_trivial|]); now rewrite Hf, B. }
        destruct Hx as [Hx ->]. now rewrite F.
      + intros names base rd [|f]; [intros K Q cur c k ? ? ?; now apply bounded_leaf|].
        intros K Q cur c k. cbn [c_m zlm]. apply (adds_rep _ cf _ (view_length base rd)).
        apply D.
    - (* Backref *)
      apply (P 1). one_call. eapply adds_backref; [apply view_length|reflexivity].
    - (* NBackref *)
      apply (P 1). apply (deep_called _ 0). intros names base rd f.
      exists (c_backref_match cf base rd
        (match unique_position (Some nm) names with Some i => i | None => 0 end)).
      split; [eapply adds_backref; [apply view_length|reflexivity]|].
      intros cur c k. cbn [c_m]. destruct (unique_position _ _); [now left|now right].
    - (* Look *)
      assert (HD : exists A a, (is_bidirectional cf = true -> flat x = true -> a = 0)
                /\ deep x A a /\ deep (invert x) A a).
      { destruct (IH x) as (A1 & a1 & F1 & D1); [cbn in Hn; lia|].
        destruct (IH (invert x)) as (A2 & a2 & F2 & D2);
          [rewrite size_invert; cbn in Hn; lia|].
        exists (Nat.max A1 A2), (Nat.max a1 a2). split; [|split].
        - intros B F. rewrite F1, F2; auto. now rewrite flat_invert.
        - apply (deep_weaken x A1 _ a1 _ D1); lia.
        - apply (deep_weaken _ A2 _ a2 _ D2); lia. }
      destruct HD as (A & a & F & D1 & D2).
      exists (S A), (2 * a). split; [cbn [flat]; intros; rewrite F; auto|].
      intros names base rd [|f] K Q cur c k H1 H2 Hk; [now apply bounded_leaf|].
      assert (Hh : forall c, bounded (K + 2 * a * (length base - S cur) + A) Q (k cur c)).
      { intros c'. eapply bounded_mono; [eapply within_here; eauto|lia]. }
      cbn [c_m]. rewrite Nat.add_succ_r. unfold c_assert_that. destruct d.
      + apply bounded_called. destruct (trivial x).
        * destruct (Nat.eqb _ _); [apply bounded_non_match|]. apply bounded_deref. intros a' _.
          destruct (match_one _ _ _); [apply Hh|apply bounded_non_match].
        * apply (adds_verdict (length base) (zlm x) A a _ _ _ (D1 names base rd f)); auto.
          intros; apply bounded_non_match.
      + destruct (negb _); [now apply bounded_leaf|].
        apply bounded_called. destruct (trivial x).
        * destruct (Nat.eqb _ _); [apply bounded_non_match|]. apply bounded_deref. intros a' _.
          destruct (match_one _ _ _); [apply Hh|apply bounded_non_match].
        * eapply bounded_on_result.
          -- eapply bounded_mono; [apply (adds_run (length base) _ A a _ _ _ (D2 names base (S rd) f))|].
             ++ rewrite view_length. lia.
             ++ lia.
          -- intros; apply Hh.
          -- intros; apply bounded_non_match.
  Qed.
End Tree.
