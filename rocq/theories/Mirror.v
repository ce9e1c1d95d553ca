(** Reading a text backwards: the language of an inverted tree on the reversed
    text. *)
From Verif Require Import Matcher Basics Spec Paths.

Lemma reversible_invert n : reversible (invert n) = reversible n.
Proof.
  induction n using node_ind'; cbn [invert reversible]; auto.
  - rewrite reverse_pack_rev, forallb_rev, forallb_map. now apply forallb_ext_Forall.
  - rewrite forallb_map. now apply forallb_ext_Forall.
  - rewrite IHn. destruct md; auto. exact (is_class_invert (Rep Possessive lo hi n)).
Qed.

Lemma well_formed_invert n : well_formed (invert n) = well_formed n.
Proof.
  induction n using node_ind'; cbn [invert well_formed]; auto.
  - rewrite forallb_map. apply forallb_ext_Forall. eapply Forall_impl; [|exact H].
    intros y Hy. cbn. now rewrite is_class_invert, Hy.
  - now rewrite is_class_invert, zero_width_invert, IHn.
  - rewrite reverse_pack_rev. destruct l as [|y r]; [reflexivity|].
    destruct (rev (map invert (y :: r))) eqn:E.
    { apply (f_equal (@length _)) in E. rewrite rev_length in E. discriminate. }
    rewrite <- E, forallb_rev, forallb_map. now apply forallb_ext_Forall.
  - destruct l as [|y r]; [reflexivity|].
    change (map invert (y :: r)) with (invert y :: map invert r).
    cbn [forallb]. inversion H; subst. rewrite H2, forallb_map. f_equal.
    now apply forallb_ext_Forall.
  - now rewrite IHn.
Qed.

Section Mirror.
  Variable cf : config.
  Variable s : list ascii.
  Local Notation L := (length s).
  Local Notation s' := (rev s).

  Lemma nth_error_rev (t : list ascii) i : i < length t ->
    nth_error (rev t) (length t - S i) = nth_error t i.
  Proof.
    intros H. destruct (nth_error t i) eqn:E.
    - rewrite (nth_error_nth' (rev t) a) by (rewrite rev_length; lia).
      f_equal. rewrite rev_nth by lia.
      replace (length t - S (length t - S i)) with i by lia. now apply nth_error_nth.
    - apply nth_error_None in E. lia.
  Qed.

  Lemma char_at_mirror p i : i < L -> char_at s' p (L - S i) = char_at s p i.
  Proof. intros H. unfold char_at. now rewrite nth_error_rev. Qed.

  Lemma char_before_mirror p i : i <= L -> char_before s p i = char_at s' p (L - i).
  Proof.
    intros H. destruct i as [|i]; cbn [char_before].
    - unfold char_at. rewrite Nat.sub_0_r.
      replace (nth_error s' L) with (@None ascii); [reflexivity|].
      symmetry. apply nth_error_None. rewrite rev_length. lia.
    - now rewrite char_at_mirror by lia.
  Qed.

  Lemma char_at_out p i : L <= i -> char_at s p i = false.
  Proof.
    intros H. unfold char_at. destruct (nth_error s i) eqn:E; [|reflexivity].
    assert (i < L) by (apply nth_error_Some; congruence). lia.
  Qed.

  Lemma char_before_mirror' p i : i <= L -> char_before s' p (L - i) = char_at s p i.
  Proof.
    intros H. destruct (Nat.eq_dec i L) as [->|Hn].
    - rewrite Nat.sub_diag. cbn. symmetry. now apply char_at_out.
    - replace (L - i) with (S (L - S i)) by lia. cbn. apply char_at_mirror. lia.
  Qed.

  Lemma chain_app rs1 rs2 i j :
    chain (rs1 ++ rs2) i j <-> exists k, chain rs1 i k /\ chain rs2 k j.
  Proof.
    revert i. induction rs1 as [|r rs1 IH]; intros i; cbn.
    - split; [intros H; eauto|]. now intros (k & -> & H).
    - split.
      + intros (k & Hk & H). apply IH in H as (k' & H1 & H2). eauto.
      + intros (k' & (k & Hk & H1) & H2). exists k. split; auto. apply IH. eauto.
  Qed.

  Lemma iterate_snoc (r : nat -> nat -> Prop) n i j :
    iterate r (S n) i j <-> exists k, iterate r n i k /\ r k j.
  Proof.
    replace (S n) with (n + 1) by lia. rewrite iterate_app. cbn.
    split; intros (k & H1 & H2); exists k; split; auto.
    - destruct H2 as (k' & H2 & <-). assumption.
    - eauto.
  Qed.

  Lemma iterate_mirror (r r' : nat -> nat -> Prop) :
    (forall i j, i <= L -> r i j -> i <= j <= L) ->
    (forall i j, i <= L -> r' i j -> i <= j <= L) ->
    (forall i j, i <= j -> j <= L -> (r i j <-> r' (L - j) (L - i))) ->
    forall n i j, i <= j -> j <= L -> (iterate r n i j <-> iterate r' n (L - j) (L - i)).
  Proof.
    intros Hb Hb' Hm. induction n as [|n IH]; intros i j Hij Hj.
    - cbn. lia.
    - rewrite iterate_snoc. cbn [iterate]. split.
      + intros (k & H1 & H2). pose proof (iterate_bounds s r n i k Hb ltac:(lia) H1).
        assert (k <= j <= L) by (apply Hb; auto; lia).
        exists (L - k). split; [apply Hm; auto; lia|]. apply IH; auto; lia.
      + intros (k & H1 & H2).
        assert (L - j <= k <= L) by (apply Hb'; auto; lia).
        pose proof (iterate_bounds s r' n k (L - i) Hb' ltac:(lia) H2).
        exists (L - k). split.
        * apply IH; try lia. now replace (L - (L - k)) with k by lia.
        * apply Hm; try lia. now replace (L - (L - k)) with k by lia.
  Qed.

  Lemma matches_bounds' n i j : i <= L -> matches cf s' n i j -> i <= j <= L.
  Proof.
    intros Hi H. rewrite <- (rev_length s) in *. now apply (matches_bounds cf s' n).
  Qed.

  Theorem mirror n : reversible n = true -> well_formed n = true ->
    forall i j, i <= j -> j <= L ->
    (matches cf s n i j <-> matches cf s' (invert n) (L - j) (L - i)).
  Proof.
    assert (Hcl : forall n, is_class n = true -> forall i j, i <= j -> j <= L ->
      (matches cf s n i j <-> matches cf s' (invert n) (L - j) (L - i))).
    { clear n. intros n Hc i j Hij Hj. rewrite (matches_class cf s n) by assumption.
      rewrite (matches_class cf s' (invert n)) by now rewrite is_class_invert.
      assert (Hacc : forall i, char_at s' (accepts cf (invert n)) i = char_at s' (accepts cf n) i).
      { intros i0. unfold char_at. destruct (nth_error s' i0); auto. apply accepts_invert. }
      rewrite Hacc. split.
      - intros [-> H]. split; [lia|]. now rewrite char_at_mirror by lia.
      - intros [E H]. assert (j = S i) by lia. subst. split; auto.
        now rewrite char_at_mirror in H by lia. }
    induction n using node_ind'; intros Hr Hw i j Hij Hj; try discriminate;
      try (apply Hcl; auto; fail).
    - cbn. lia.
    - (* WordB *) cbn [invert matches]. unfold at_word_boundary.
      assert (E : i = j <-> L - j = L - i) by lia. rewrite E. clear E.
      split; intros [E H]; (split; [exact E|]); assert (i = j) by lia; subst;
        [rewrite char_before_mirror', <- char_before_mirror
        |rewrite char_before_mirror', <- char_before_mirror in H];
        try assumption; now rewrite xorb_comm.
    - (* Neg *) cbn in Hr, Hw. apply andb_true_iff in Hw as [Hz Hw].
      destruct (is_class n) eqn:Hc; [apply Hcl; auto|]. cbn in Hz.
      cbn [invert matches]. rewrite Hc, is_class_invert, Hc.
      assert (E : i = j -> (exists k, matches cf s n i k)
                   <-> (exists k, matches cf s' (invert n) (L - j) k)).
      { intros <-. split; intros (k & Hk).
        - assert (i = k) by (eapply zero_width_matches; eauto). subst k.
          exists (L - i). apply IHn; auto.
        - assert (L - i = k).
          { eapply (zero_width_matches cf s'); [|exact Hk]. now rewrite zero_width_invert. }
          subst k. exists i. apply IHn; auto. }
      split; intros [E1 H]; split; try lia; rewrite E in * by lia; assumption.
    - (* Seq *) rewrite invert_Seq, !matches_Seq, map_rev. cbn in Hr.
      assert (Hw' : forallb well_formed l = true) by (cbn in Hw; destruct l; [discriminate|assumption]).
      clear Hw. revert i Hij. induction l as [|x r IH]; intros i Hij; cbn; [lia|].
      cbn in Hr, Hw'. apply andb_true_iff in Hr as [Hr1 Hr2].
      apply andb_true_iff in Hw' as [Hw1 Hw2]. inversion H as [|? ? Hx Hrr]; subst.
      rewrite chain_app. cbn [chain].
      assert (Hb : forall l i j, i <= L -> chain (map (matches cf s) l) i j -> i <= j <= L).
      { intros l i0 j0 Hi0 Hm. apply matches_Seq in Hm. eapply matches_bounds; eauto. }
      assert (Hb' : forall l i j, i <= L -> chain (map (matches cf s') l) i j -> i <= j <= L).
      { intros l i0 j0 Hi0 Hm. apply matches_Seq in Hm. eapply matches_bounds'; eauto. }
      split.
      + intros (k & Hk & Hm). pose proof (matches_bounds cf s x i k ltac:(lia) Hk).
        pose proof (Hb r k j ltac:(lia) Hm).
        exists (L - k). split; [apply IH; auto; lia|].
        exists (L - i). split; [|reflexivity]. apply Hx; auto; lia.
      + intros (k & Hm & (k' & Hk & Ek)). subst k'.
        rewrite <- map_rev in Hm. pose proof Hm as Hm2. apply Hb' in Hm2; [|lia].
        pose proof Hk as Hk2. apply matches_bounds' in Hk2; [|lia].
        exists (L - k). split.
        * apply Hx; auto; try lia. now replace (L - (L - k)) with k by lia.
        * apply IH; auto; try lia. rewrite <- map_rev.
          now replace (L - (L - k)) with k by lia.
    - (* Alt *) cbn [invert]. rewrite !matches_Alt. cbn in Hr.
      assert (Hw' : forallb well_formed l = true) by (cbn in Hw; destruct l; [discriminate|assumption]).
      rewrite forallb_forall in Hr, Hw'. rewrite Forall_forall in H. split.
      + intros (x & Hx & Hm). exists (invert x). split; [now apply in_map|]. apply H; auto.
      + intros (y & Hy & Hm). apply in_map_iff in Hy as (x & <- & Hx).
        exists x. split; auto. apply H; auto.
    - (* Cap *) cbn in *. auto.
    - (* Rep *) destruct (is_class (Rep md lo hi n)) eqn:Hc; [now apply Hcl|].
      cbn [invert matches].
      assert (Hrn : reversible n = true)
        by (cbn [reversible] in Hr; destruct md; auto; congruence).
      clear Hc.
      assert (Hcase : (well_formed n = true) \/ hi = Fin 0).
      { cbn in Hw. destruct hi as [h|]; auto. apply andb_true_iff in Hw as [_ Hw].
        apply orb_true_iff in Hw as [Hw|Hw]; auto. apply N.eqb_eq in Hw. subst. auto. }
      destruct Hcase as [Hwn| ->].
      + split; intros (c & Ha & Hc); exists c; split; auto;
          eapply (iterate_mirror (matches cf s n) (matches cf s' (invert n))); eauto;
          intros; first [eapply matches_bounds; eassumption|eapply matches_bounds'; eassumption].
      + split; intros (c & Ha & Hc); exists c; split; auto;
          assert (c = 0) by (unfold allowed in Ha; lia); subst c; cbn in *; lia.
    - (* Look *) cbn in Hr, Hw. cbn [invert matches].
      assert (E : i = j <-> L - j = L - i) by lia.
      destruct d; cbn [matches]; rewrite E; clear E.
      + split; intros (E & Hk); (split; [exact E|]); assert (i = j) by lia; subst j.
        * destruct Hk as (k & Hk). apply matches_class in Hk as [-> Hk]; auto.
          pose proof (char_at_lt _ _ _ Hk).
          exists (L - S i). split; [lia|]. apply matches_class; auto. split; [lia|].
          now rewrite char_at_mirror.
        * destruct Hk as (k & _ & Hk). apply matches_class in Hk as [Ek Hk]; auto.
          exists (S i). apply matches_class; auto. split; auto.
          assert (k = L - S i) by lia. subst k. rewrite char_at_mirror in Hk; auto. lia.
      + split; intros (E & Hk); (split; [exact E|]); assert (i = j) by lia; subst j.
        * destruct Hk as (k & _ & Hk). apply matches_class in Hk as [-> Hk]; auto.
          exists (L - k). apply matches_class; auto. split; [lia|].
          rewrite char_at_mirror; auto; lia.
        * destruct Hk as (k & Hk). apply matches_class in Hk as [-> Hk]; auto.
          pose proof (char_at_lt _ _ _ Hk) as Hlt. rewrite rev_length in Hlt.
          exists (i - 1). split; [lia|]. apply matches_class; auto. split; [lia|].
          rewrite <- char_at_mirror by lia. now replace (L - S (i - 1)) with (L - i) by lia.
  Qed.
End Mirror.

Lemma reversible_possessive_free n : reversible n = true -> possessive_free n = true.
Proof.
  induction n using node_ind'; intros Hr; try reflexivity; cbn in Hr |- *; auto.
  - apply forallb_forall. intros x Hx. rewrite forallb_forall in Hr.
    rewrite Forall_forall in H. apply H; auto.
  - apply forallb_forall. intros x Hx. rewrite forallb_forall in Hr.
    rewrite Forall_forall in H. apply H; auto.
  - destruct md; auto.
  - now apply class_possessive_free.
Qed.

(** The key fact about lookbehind: running the inverted tree over the reversed
    prefix from its beginning finds something iff some substring ending here is
    matched.  [pre] is the whole text here; the positions are those of the
    reversed text. *)
Lemma lookbehind_paths cf s n i :
  reversible n = true -> well_formed n = true -> i <= length s ->
  paths cf (rev s) (invert n) (length s - i) <> []
  <-> exists k, k <= i /\ matches cf s n k i.
Proof.
  intros Hr Hw Hi. rewrite <- paths_nonempty.
  assert (Hwi : well_formed (invert n) = true) by now rewrite well_formed_invert.
  assert (Hpi : possessive_free (invert n) = true).
  { apply reversible_possessive_free. now rewrite reversible_invert. }
  split.
  - intros (j & Hj). apply (in_paths cf (rev s)) in Hj; auto; [|rewrite rev_length; lia].
    pose proof Hj as Hj2. apply matches_bounds' in Hj2; [|lia].
    exists (length s - j). split; [lia|]. apply mirror; auto; try lia.
    now replace (length s - (length s - j)) with j by lia.
  - intros (k & Hk & Hm). exists (length s - k). apply in_paths; auto.
    + rewrite rev_length. lia.
    + apply mirror in Hm; auto.
Qed.

