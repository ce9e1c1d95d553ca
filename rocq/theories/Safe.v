(** Safety of the matcher: for every tree that compiles, a call of [match]
    returns, reads only inside the text and keeps the captures well-formed. *)
From Verif Require Import Matcher Basics.

(** The tree contains [^]. *)
Fixpoint has_begin_line (n : node) : bool :=
  match n with
  | BeginLine => true
  | CSet l | Seq l | Alt l => existsb has_begin_line l
  | Neg x | Cap _ _ x | Rep _ _ _ x | Look _ x => has_begin_line x
  | _ => false
  end.

Lemma has_begin_line_invert n : has_begin_line (invert n) = has_begin_line n.
Proof.
  induction n using node_ind'; try reflexivity; try (cbn; assumption).
  - cbn [invert has_begin_line]. rewrite existsb_map. now apply existsb_ext_Forall.
  - rewrite invert_Seq. cbn [has_begin_line]. rewrite existsb_rev, existsb_map.
    now apply existsb_ext_Forall.
  - cbn [invert has_begin_line]. rewrite existsb_map. now apply existsb_ext_Forall.
Qed.

Section Safe.
  Variable cf : config.
  Variable names : list group_name.
  Variable base : list ascii.
  Local Notation L := (length base).

  Definition good_cell (v : cell) : Prop :=
    match v with Some (b, e) => b <= e /\ e <= L | None => True end.
  Definition good (c : caps) : Prop :=
    length c = length names /\ Forall good_cell c.

  (** A returned result with good captures; an end that is at least [lo]; the
      end of a success satisfies [Q]. *)
  Definition ok (Q : nat -> Prop) (lo : nat) (o : outcome) : Prop :=
    match o with
    | Res c e b => good c /\ lo <= e /\ e <= L /\ (b = true -> Q e)
    | _ => False
    end.

  Definition safe_cont (z : bool) (Q : nat -> Prop) (lo cur : nat) (k : cont) : Prop :=
    forall j c, cur <= j -> j <= L -> (z = false -> cur < j) -> good c -> ok Q lo (k j c).

  Definition safe_matcher (z : bool) (mx : matcher) : Prop :=
    forall Q lo cur c k, lo <= cur -> cur <= L -> good c ->
      safe_cont z Q lo cur k -> ok Q lo (mx cur c k).

  Lemma ok_non_match Q lo cur c : good c -> lo <= cur -> cur <= L -> ok Q lo (non_match cur c).
  Proof. cbn. intuition; discriminate. Qed.

  Lemma ok_or_else Q lo o f :
    ok Q lo o -> (forall c, good c -> ok Q lo (f c)) -> ok Q lo (or_else o f).
  Proof.
    destruct o as [c e b| | |]; cbn; try easy. destruct b; cbn; intuition.
  Qed.

  Lemma ok_on_result Q Q' lo lo' o f g :
    ok Q' lo' o ->
    (forall e c, good c -> lo' <= e -> e <= L -> Q' e -> ok Q lo (f e c)) ->
    (forall c, good c -> ok Q lo (g c)) -> ok Q lo (on_result o f g).
  Proof.
    destruct o as [c e b| | |]; cbn; try easy. destruct b; cbn; intuition.
  Qed.

  Lemma safe_cont_weaken z z' Q lo cur cur' k :
    safe_cont z Q lo cur k -> cur <= cur' -> (z = false -> z' = true -> cur < cur') ->
    safe_cont z' Q lo cur' k.
  Proof.
    intros H Hc Hz j c H1 H2 H3 H4. apply H; auto; try lia.
    intros ->. destruct z'; [specialize (Hz eq_refl eq_refl); lia|].
    specialize (H3 eq_refl). lia.
  Qed.

  Ltac weaken := eapply safe_cont_weaken; eauto; try lia; try discriminate.

  Lemma ok_success lo cur c : good c -> lo <= cur -> cur <= L -> forall Q : nat -> Prop, Q cur ->
    ok Q lo (success cur c).
  Proof. cbn. intuition. Qed.

  Lemma safe_matcher_weaken z z' mx :
    safe_matcher z mx -> (z' = false -> z = false) -> safe_matcher z' mx.
  Proof.
    intros H Hz Q lo cur c k H1 H2 H3 H4. apply H; auto.
    intros j c' ? ? Hp ?. apply H4; auto.
  Qed.

  (** A matcher run with the trivial continuation. *)
  Lemma safe_run z mx cur c lo :
    safe_matcher z mx -> lo <= cur -> cur <= L -> good c ->
    ok (fun e => cur <= e /\ (z = false -> cur < e)) lo (mx cur c success).
  Proof.
    intros H H1 H2 H3. apply H; auto.
    intros j c' ? ? ? ?. apply ok_success; auto. lia.
  Qed.

  Section Text.
    Variable s : list ascii.
    Hypothesis Hs : length s = L.

    Lemma safe_trivial p : safe_matcher false (match_trivial s p).
    Proof.
      intros Q lo cur c k H1 H2 H3 Hk. unfold match_trivial.
      destruct (Nat.eqb_spec cur (length s)); [now apply ok_non_match|].
      destruct (deref_in s cur (fun a => if p a then k (S cur) c else non_match cur c))
        as (a & Ha & ->); [lia|].
      destruct (p a); [|now apply ok_non_match]. apply Hk; auto; lia.
    Qed.

    Lemma distance_loop_spec n l cur : cur <= l ->
      distance_loop n l cur = Nat.ltb (l - cur) n.
    Proof.
      revert cur. induction n; intros cur H; cbn [distance_loop].
      - destruct (Nat.ltb_spec (l - cur) 0); [lia|reflexivity].
      - destruct (Nat.eqb_spec cur l).
        + symmetry. apply Nat.ltb_lt. lia.
        + rewrite IHn by lia.
          destruct (Nat.ltb_spec (l - S cur) n), (Nat.ltb_spec (l - cur) (S n)); auto; lia.
    Qed.

    Lemma distance_spec n cur : cur <= L ->
      distance_less_than cf n (length s) cur = Nat.ltb (L - cur) (N.to_nat n).
    Proof.
      intros H. unfold distance_less_than. rewrite Hs. destruct (is_random cf).
      - destruct (N.ltb_spec (N.of_nat (L - cur)) n), (Nat.ltb_spec (L - cur) (N.to_nat n));
          auto; lia.
      - now apply distance_loop_spec.
    Qed.

    Lemma all_at_some ps cur : cur + length ps <= L -> exists b, all_at s ps cur = Some b.
    Proof.
      revert cur. induction ps as [|p r IH]; cbn; intros cur H; [eauto|].
      destruct (nth_error s cur) eqn:E; [|apply nth_error_None in E; lia].
      destruct (p a); [|eauto]. apply IH. lia.
    Qed.

    Lemma safe_block_random Q lo ps cur c k z :
      lo <= cur -> cur + length ps <= L -> good c ->
      (z = false -> ps <> []) ->
      safe_cont z Q lo cur k -> ok Q lo (trivial_block_random s ps cur c k).
    Proof.
      intros H1 H2 H3 Hz Hk. unfold trivial_block_random.
      destruct (all_at_some ps cur H2) as [b ->]. destruct b.
      - apply Hk; auto; try lia. intros E. specialize (Hz E). destruct ps; [easy|cbn; lia].
      - apply ok_non_match; auto; lia.
    Qed.

    Lemma safe_block_forward Q lo ps : forall cur c k,
      ps <> [] -> lo <= cur -> cur + length ps <= L -> good c ->
      safe_cont false Q lo cur k -> ok Q lo (sequence_block_forward s ps cur c k).
    Proof.
      induction ps as [|p r IH]; intros cur c k Hne H1 H2 H3 Hk; [easy|].
      cbn [length] in H2. destruct r as [|p' r'].
      - cbn [sequence_block_forward].
        destruct (deref_in s cur (fun a => if p a then k (S cur) c else non_match cur c))
          as (a & Ha & ->); [lia|].
        destruct (p a); [apply Hk; auto; lia|apply ok_non_match; auto; lia].
      - cbn [sequence_block_forward]. cbn [sequence_block_forward] in IH.
        match goal with |- ok _ _ (deref _ _ ?f) =>
          destruct (deref_in s cur f) as (a & Ha & ->); [lia|] end.
        destruct (p a); [|apply ok_non_match; auto; lia].
        apply IH; auto; try easy; try lia.
        weaken.
    Qed.

    Lemma safe_repetition_random Q lo p : forall todo offset cur c k,
      lo <= cur -> cur + offset + todo <= L -> good c ->
      0 < offset + todo ->
      safe_cont false Q lo cur k ->
      ok Q lo (repetition_loop_random s p todo offset cur c k).
    Proof.
      induction todo as [|t IH]; intros offset cur c k H1 H2 H3 H4 Hk;
        cbn [repetition_loop_random].
      - apply Hk; auto; lia.
      - match goal with |- ok _ _ (deref _ _ ?f) =>
          destruct (deref_in s (cur + offset) f) as (a & Ha & ->); [lia|] end.
        destruct (p a); cbn [negb]; [|apply ok_non_match; auto; lia].
        apply IH; auto; lia.
    Qed.

    Lemma safe_repetition_forward Q lo p z : forall n cur c k,
      lo <= cur -> cur + n <= L -> good c ->
      (z = false -> 0 < n) ->
      safe_cont z Q lo cur k ->
      ok Q lo (repetition_block_forward s p n cur c k).
    Proof.
      intros n. revert z. induction n as [|n IH]; intros z cur c k H1 H2 H3 H4 Hk;
        cbn [repetition_block_forward].
      - apply Hk; auto; try lia. intros E. apply H4 in E. lia.
      - match goal with |- ok _ _ (deref _ _ ?f) =>
          destruct (deref_in s cur f) as (a & Ha & ->); [lia|] end.
        destruct (p a); [|apply ok_non_match; auto; lia].
        apply (IH true); auto; try lia; try discriminate.
        weaken.
    Qed.

    Lemma safe_seq mm l :
      l <> [] ->
      Forall (fun x => safe_matcher (zlm x) (mm x)) l ->
      safe_matcher (forallb zlm l) (seq_match cf s mm l).
    Proof.
      induction l as [|x r IH]; intros Hne HF; [easy|]. inversion HF as [|? ? Hx Hr]; subst.
      intros Q lo cur c k H1 H2 H3 Hk. cbn [seq_match].
      destruct r as [|y r'].
      - apply Hx; auto. eapply safe_cont_weaken; eauto; try lia.
        cbn. intros E1 E2. rewrite E2 in E1. discriminate.
      - remember (y :: r') as r eqn:Er.
        destruct (forallb trivial (x :: r)) eqn:T.
        + rewrite distance_spec by assumption.
          destruct (Nat.ltb_spec (L - cur) (N.to_nat (N.of_nat (length (x :: r)))));
            [apply ok_non_match; auto; lia|].
          rewrite Nat2N.id in *. cbn [length] in *.
          assert (Hz : forallb zlm (x :: r) = false).
          { cbn in T. apply andb_true_iff in T as [T _]. cbn. now rewrite zlm_trivial. }
          rewrite Hz in Hk.
          destruct (is_random cf).
          * eapply safe_block_random; eauto; rewrite ?map_length; cbn; try lia. easy.
          * eapply safe_block_forward; eauto; rewrite ?map_length; cbn; try lia. easy.
        + apply Hx; auto. intros j c' Hj1 Hj2 Hj3 Hc'.
          apply IH; auto; [subst; easy|lia|].
          weaken.
          cbn. intros E1 E2. rewrite E2 in E1. rewrite andb_true_r in E1. auto.
    Qed.

    Lemma safe_alt mm l :
      l <> [] ->
      Forall (fun x => safe_matcher (zlm x) (mm x)) l ->
      safe_matcher (existsb zlm l) (alt_match cf s mm l).
    Proof.
      induction l as [|x r IH]; intros Hne HF; [easy|]. inversion HF as [|? ? Hx Hr]; subst.
      intros Q lo cur c k H1 H2 H3 Hk. cbn [alt_match].
      destruct r as [|y r'].
      - apply Hx; auto. eapply safe_cont_weaken; eauto; try lia.
        cbn. intros E1 E2. rewrite E2 in E1. discriminate.
      - remember (y :: r') as r eqn:Er.
        destruct (forallb trivial (x :: r)) eqn:T.
        + apply safe_trivial; auto. weaken.
        + apply ok_or_else.
          * apply Hx; auto. weaken.
            cbn. intros E1 E2. rewrite E2 in E1. discriminate.
          * intros c' Hc'. apply IH; auto; [subst; easy|].
            weaken.
            cbn. intros E1 E2. rewrite E2 in E1. rewrite orb_true_r in E1. discriminate.
    Qed.

    (** Loops *)

    Definition enough (fuel : nat) (b : quantifier) (cur : nat) : Prop :=
      match b with Fin n => N.to_nat n < fuel | Inf => L - cur < fuel end.

    Lemma enough_loop_fuel b cur : enough (loop_fuel b (length s) cur) b cur.
    Proof. unfold enough, loop_fuel. destruct b; lia. Qed.

    Lemma bound_is_zero_spec b : bound_is_zero b = true <-> b = Fin 0.
    Proof.
      destruct b as [n|]; cbn; [|split; discriminate].
      rewrite N.eqb_eq. split; congruence.
    Qed.

    Lemma enough_step f b cur next :
      enough (S f) b cur -> bound_is_zero b = false -> cur <= next -> next <= L ->
      (b = Inf -> cur < next) -> enough f (bound_decrement b) next.
    Proof.
      unfold enough, bound_decrement, bound_is_zero. destruct b as [n|].
      - intros H1 H2 _ _ _. apply N.eqb_neq in H2. lia.
      - intros H1 _ H2 H3 H4. specialize (H4 eq_refl). lia.
    Qed.

    Lemma bound_decrement_inf b : bound_decrement b = Inf <-> b = Inf.
    Proof. destruct b; cbn; split; congruence. Qed.

    Lemma safe_possessive_trivial Q lo p : forall fuel b cur c k,
      enough fuel b cur -> lo <= cur -> cur <= L -> good c ->
      safe_cont true Q lo cur k -> ok Q lo (possessive_trivial fuel s p b cur c k).
    Proof.
      induction fuel as [|f IH]; intros b cur c k He H1 H2 H3 Hk.
      - unfold enough in He. destruct b; lia.
      - cbn [possessive_trivial].
        destruct (bound_is_zero b) eqn:Hb; [apply Hk; auto; discriminate|].
        destruct (Nat.eqb_spec cur (length s)); [apply Hk; auto; discriminate|].
        match goal with |- ok _ _ (deref _ _ ?f) =>
          destruct (deref_in s cur f) as (a & Ha & ->); [lia|] end.
        destruct (p a); [|apply Hk; auto; discriminate].
        apply IH; auto; try lia.
        + eapply enough_step; eauto; lia.
        + weaken.
    Qed.

    Lemma safe_step_back Q lo : forall d initial c k,
      lo <= initial -> initial + d <= L -> good c ->
      safe_cont true Q lo initial k -> ok Q lo (step_back initial d c k).
    Proof.
      induction d as [|d IH]; intros initial c k H1 H2 H3 Hk; cbn [step_back].
      - apply ok_or_else; [apply Hk; auto; try lia; discriminate|].
        intros. apply ok_non_match; auto; lia.
      - apply ok_or_else; [apply Hk; auto; try lia; discriminate|].
        intros. apply IH; auto. lia.
    Qed.

    Lemma safe_lazy_trivial Q lo p : forall fuel b cur c k,
      enough fuel b cur -> lo <= cur -> cur <= L -> good c ->
      safe_cont true Q lo cur k -> ok Q lo (lazy_trivial fuel s p b cur c k).
    Proof.
      induction fuel as [|f IH]; intros b cur c k He H1 H2 H3 Hk.
      - unfold enough in He. destruct b; lia.
      - cbn [lazy_trivial]. apply ok_or_else; [apply Hk; auto; discriminate|].
        intros c' Hc'.
        destruct (bound_is_zero b) eqn:Hb; [apply ok_non_match; auto|].
        destruct (Nat.eqb_spec cur (length s)); [apply ok_non_match; auto|].
        match goal with |- ok _ _ (deref _ _ ?f) =>
          destruct (deref_in s cur f) as (a & Ha & ->); [lia|] end.
        destruct (p a); [|apply ok_non_match; auto].
        apply IH; auto; try lia.
        + eapply enough_step; eauto; lia.
        + weaken.
    Qed.

    Lemma safe_unrolled z mx : safe_matcher z mx ->
      forall n Q lo cur c k, lo <= cur -> cur <= L -> good c ->
      safe_cont (z || Nat.eqb n 0) Q lo cur k ->
      ok Q lo (unrolled_backtracking mx n cur c k).
    Proof.
      intros Hmx. induction n as [|n IH]; intros Q lo cur c k H1 H2 H3 Hk.
      - cbn. apply Hk; auto. now rewrite orb_true_r.
      - cbn [unrolled_backtracking]. rewrite orb_false_r in Hk. destruct n as [|n'].
        + apply Hmx; auto.
        + apply Hmx; auto. intros j c' ? ? ? ?. apply IH; auto; [lia|].
          cbn [Nat.eqb] in *. rewrite orb_false_r. weaken.
    Qed.

    Lemma safe_non_unrolled z mx : safe_matcher z mx ->
      forall n Q lo cur c k, 0 < n -> lo <= cur -> cur <= L -> good c ->
      safe_cont z Q lo cur k ->
      ok Q lo (non_unrolled_backtracking mx n cur c k).
    Proof.
      intros Hmx. induction n as [|n IH]; intros Q lo cur c k H0 H1 H2 H3 Hk; [lia|].
      cbn [non_unrolled_backtracking].
      destruct (Nat.eqb_spec (S n) 1).
      - apply Hmx; auto.
      - apply Hmx; auto. intros j c' ? ? ? ?. apply IH; auto; try lia.
        weaken.
    Qed.

    Lemma safe_possessive_generic z mx w : safe_matcher z mx ->
      forall fuel Q lo b cur c k,
      enough fuel b cur -> (b = Inf -> w = true \/ z = false) ->
      lo <= cur -> cur <= L -> good c ->
      safe_cont true Q lo cur k -> ok Q lo (possessive_generic fuel mx w b cur c k).
    Proof.
      intros Hmx. induction fuel as [|f IH]; intros Q lo b cur c k He Hw H1 H2 H3 Hk.
      - unfold enough in He. destruct b; lia.
      - cbn [possessive_generic].
        destruct (bound_is_zero b) eqn:Hb; [apply Hk; auto; discriminate|].
        eapply ok_on_result.
        + eapply (safe_run z mx cur c lo); eauto.
        + intros e c' Hc' Hlo He' [HQ1 HQ2].
          destruct w eqn:Ew; cbn [andb].
          * destruct (Nat.eqb_spec cur e); [apply Hk; auto; discriminate|].
            apply IH; auto; try lia.
            -- eapply enough_step; eauto; lia.
            -- weaken.
          * apply IH; auto; try lia.
            -- eapply enough_step; eauto. intros E. destruct (Hw E); [easy|auto].
            -- intros E. apply -> bound_decrement_inf in E. auto.
            -- weaken.
        + intros c' Hc'. apply Hk; auto; discriminate.
    Qed.

    Lemma safe_greedy_generic z mx w : safe_matcher z mx ->
      forall fuel Q lo b cur c k,
      enough fuel b cur -> (b = Inf -> w = true \/ z = false) ->
      lo <= cur -> cur <= L -> good c ->
      safe_cont true Q lo cur k -> ok Q lo (greedy_generic fuel mx w b cur c k).
    Proof.
      intros Hmx. induction fuel as [|f IH]; intros Q lo b cur c k He Hw H1 H2 H3 Hk.
      - unfold enough in He. destruct b; lia.
      - cbn [greedy_generic].
        destruct (bound_is_zero b) eqn:Hb; [apply Hk; auto; discriminate|].
        apply ok_or_else.
        + apply Hmx; auto. intros j c' Hj1 Hj2 Hj3 Hc'.
          unfold continue_unless_infinite_loop.
          destruct w eqn:Ew; cbn [andb].
          * destruct (Nat.eqb_spec cur j); [apply ok_non_match; auto|].
            apply IH; auto; try lia.
            -- eapply enough_step; eauto; lia.
            -- weaken.
          * apply IH; auto; try lia.
            -- eapply enough_step; eauto. intros E. destruct (Hw E); [easy|auto].
            -- intros E. apply -> bound_decrement_inf in E. auto.
            -- weaken.
        + intros c' Hc'. apply Hk; auto; discriminate.
    Qed.

    Lemma safe_lazy_generic z mx w : safe_matcher z mx ->
      forall fuel Q lo b cur c k,
      enough fuel b cur -> (b = Inf -> w = true \/ z = false) ->
      lo <= cur -> cur <= L -> good c ->
      safe_cont true Q lo cur k -> ok Q lo (lazy_generic fuel mx w b cur c k).
    Proof.
      intros Hmx. induction fuel as [|f IH]; intros Q lo b cur c k He Hw H1 H2 H3 Hk.
      - unfold enough in He. destruct b; lia.
      - cbn [lazy_generic].
        apply ok_or_else; [apply Hk; auto; discriminate|]. intros c0 Hc0.
        destruct (bound_is_zero b) eqn:Hb; [apply ok_non_match; auto|].
        apply Hmx; auto. intros j c' Hj1 Hj2 Hj3 Hc'.
        unfold continue_unless_infinite_loop.
        destruct w eqn:Ew; cbn [andb].
        * destruct (Nat.eqb_spec cur j); [apply ok_non_match; auto|].
          apply IH; auto; try lia.
          -- eapply enough_step; eauto; lia.
          -- weaken.
        * apply IH; auto; try lia.
          -- eapply enough_step; eauto. intros E. destruct (Hw E); [easy|auto].
          -- intros E. apply -> bound_decrement_inf in E. auto.
          -- weaken.
    Qed.

    Lemma safe_between x mx mode b w :
      safe_matcher (zlm x) mx -> (b = Inf -> w = true \/ zlm x = false) ->
      safe_matcher true (between_bounds cf s mode b w x mx).
    Proof.
      intros Hmx Hw Q lo cur c k H1 H2 H3 Hk. unfold between_bounds.
      pose proof (enough_loop_fuel b cur) as He.
      assert (Hg : ok Q lo
        (if xorb (match mode with Greedy => true | _ => false end) (ungreedy cf) then
          if trivial x && is_bidirectional cf then
            possessive_trivial (loop_fuel b (length s) cur) s (match_one cf x) b cur c
              (fun next c' => step_back cur (next - cur) c' k)
          else greedy_generic (loop_fuel b (length s) cur) mx w b cur c k
        else if trivial x
        then lazy_trivial (loop_fuel b (length s) cur) s (match_one cf x) b cur c k
        else lazy_generic (loop_fuel b (length s) cur) mx w b cur c k)).
      { destruct (xorb _ _).
        - destruct (trivial x && is_bidirectional cf)%bool.
          + apply safe_possessive_trivial; auto. intros j c' ? ? ? ?.
            apply safe_step_back; auto. lia.
          + eapply safe_greedy_generic; eauto.
        - destruct (trivial x).
          + apply safe_lazy_trivial; auto.
          + eapply safe_lazy_generic; eauto. }
      destruct mode; auto. destruct (trivial x).
      - apply safe_possessive_trivial; auto.
      - eapply safe_possessive_generic; eauto.
    Qed.

    Lemma safe_fixed_backtracking x mx n : (1 < n)%N ->
      safe_matcher (zlm x) mx ->
      safe_matcher (zlm x) (fixed_backtracking cf s x mx n).
    Proof.
      intros Hn Hmx Q lo cur c k H1 H2 H3 Hk. unfold fixed_backtracking.
      destruct (trivial x) eqn:T.
      - rewrite distance_spec by assumption.
        destruct (Nat.ltb_spec (L - cur) (N.to_nat n)); [apply ok_non_match; auto|].
        destruct (is_random cf).
        + destruct (unroll cf).
          * eapply safe_block_random; eauto; rewrite ?repeat_length; try lia.
            intros _ E. apply (f_equal (@length _)) in E. rewrite repeat_length in E.
            cbn in E. lia.
          * apply safe_repetition_random; auto; try lia.
            now rewrite (zlm_trivial x T) in Hk.
        + eapply safe_repetition_forward; eauto; lia.
      - destruct (unroll cf).
        + eapply safe_unrolled; eauto.
          destruct (Nat.eqb_spec (N.to_nat n) 0); [lia|]. now rewrite orb_false_r.
        + eapply safe_non_unrolled; eauto. lia.
    Qed.

    Lemma safe_fixed x mx mode n :
      (n <> 0%N -> safe_matcher (zlm x) mx) ->
      safe_matcher (is_zero n || zlm x) (fixed_match cf s mode n x mx).
    Proof.
      intros Hmx Q lo cur c k H1 H2 H3 Hk. unfold fixed_match.
      unfold is_zero in *. destruct (N.eqb_spec n 0).
      { apply Hk; auto; discriminate. }
      specialize (Hmx n0). cbn [orb] in Hk.
      destruct (N.eqb_spec n 1).
      - assert (ok Q lo (mx cur c k)) by now apply Hmx.
        destruct mode; auto. destruct (trivial x); auto.
        eapply ok_on_result.
        + eapply (safe_run (zlm x) mx cur c lo); eauto.
        + intros e0 c0 ? ? ? [? ?]. apply Hk; auto.
        + intros. apply ok_non_match; auto.
      - assert (Hfb : safe_matcher (zlm x) (fixed_backtracking cf s x mx n)).
        { apply safe_fixed_backtracking; auto. lia. }
        destruct mode; try (now apply Hfb).
        eapply ok_on_result.
        + eapply (safe_run (zlm x) _ cur c lo); eauto.
        + intros e0 c0 ? ? ? [? ?]. apply Hk; auto.
        + intros. apply ok_non_match; auto.
    Qed.

    Lemma safe_rep mode lo0 hi x mx :
      (hi <> Fin 0 -> safe_matcher (zlm x) mx) ->
      match hi with Fin h => N.leb lo0 h = true | Inf => True end ->
      safe_matcher (is_zero lo0 || zlm x) (rep_match cf s mode lo0 hi x mx).
    Proof.
      intros Hmx Hb. unfold rep_match.
      assert (Hbb : hi <> Fin 0 -> safe_matcher true
        (between_bounds cf s mode (bound_subtract hi lo0) (is_infinity hi && zlm x) x mx)).
      { intros Hh. apply safe_between; auto. destruct hi; cbn; [discriminate|].
        intros _. destruct (zlm x); auto. }
      destruct hi as [h|].
      - apply N.leb_le in Hb. destruct (N.eqb_spec lo0 h).
        + subst. apply safe_fixed. intros Hh. apply Hmx. congruence.
        + assert (Hh : Fin h <> Fin 0).
          { intros E. inversion E. subst. lia. }
          unfold is_zero. destruct (N.eqb_spec lo0 0).
          * subst. cbn [orb]. eapply safe_matcher_weaken; [apply Hbb; auto|]. easy.
          * cbn [orb]. intros Q lo cur c k H1 H2 H3 Hk.
            pose proof (safe_fixed x mx mode lo0 (fun _ => Hmx Hh)) as Hf.
            unfold is_zero in Hf. destruct (N.eqb_spec lo0 0); [easy|]. cbn [orb] in Hf.
            apply Hf; auto. intros j c' ? ? ? ?. apply Hbb; auto; try lia.
            weaken.
      - specialize (Hbb ltac:(discriminate)). specialize (Hmx ltac:(discriminate)).
        unfold is_zero. destruct (N.eqb_spec lo0 0).
        + subst. eapply safe_matcher_weaken; [apply Hbb; auto|]. easy.
        + cbn [orb]. intros Q lo cur c k H1 H2 H3 Hk.
          pose proof (safe_fixed x mx mode lo0 (fun _ => Hmx)) as Hf.
          unfold is_zero in Hf. destruct (N.eqb_spec lo0 0); [easy|]. cbn [orb] in Hf.
          apply Hf; auto. intros j c' ? ? ? ?. apply Hbb; auto; try lia.
          weaken.
    Qed.

    Lemma safe_backref_loop Q lo t : forall cur c k,
      lo <= cur -> cur + length t <= L -> good c ->
      safe_cont true Q lo cur k -> ok Q lo (backref_loop cf s t cur c k).
    Proof.
      induction t as [|a r IH]; cbn [backref_loop length]; intros cur c k H1 H2 H3 Hk.
      - apply Hk; auto; try lia.
      - match goal with |- ok _ _ (deref _ _ ?f) =>
          destruct (deref_in s cur f) as (a' & Ha & ->); [lia|] end.
        destruct (backref_char_eq cf a a'); [|apply ok_non_match; auto; lia].
        apply IH; auto; try lia. weaken.
    Qed.
  End Text.

  (** Captures *)

  Lemma good_set_cell i b e c c' :
    good c -> b <= e -> e <= L -> set_cell i (Some (b, e)) c = Some c' -> good c'.
  Proof.
    intros [H1 H2] Hb He E. split.
    - apply set_cell_length in E. congruence.
    - apply Forall_forall. intros v Hv. apply In_nth_error in Hv as [j Hj].
      rewrite (set_cell_nth _ _ _ _ _ E) in Hj. destruct (Nat.eqb j i).
      + inversion Hj. cbn. auto.
      + apply nth_error_In in Hj. rewrite Forall_forall in H2. auto.
  Qed.

  Lemma good_clear_cell i c c' : good c -> clear_cell i c = Some c' -> good c'.
  Proof.
    intros Hg E. pose proof Hg as [H1 H2]. unfold clear_cell in E.
    destruct (nth_error c i) as [v|] eqn:Ev; [|discriminate].
    assert (good_cell v).
    { apply nth_error_In in Ev. rewrite Forall_forall in H2. auto. }
    split.
    - apply set_cell_length in E. congruence.
    - apply Forall_forall. intros w Hw. apply In_nth_error in Hw as [j Hj].
      rewrite (set_cell_nth _ _ _ _ _ E) in Hj. destruct (Nat.eqb j i).
      + inversion Hj. destruct v as [[b e]|]; cbn in *; auto. lia.
      + apply nth_error_In in Hj. rewrite Forall_forall in H2. auto.
  Qed.

  Lemma safe_backref rd i cur c k Q lo :
    i < length names -> lo <= cur -> cur <= L -> good c ->
    safe_cont true Q lo cur k -> ok Q lo (backref_match cf base rd i cur c k).
  Proof.
    intros Hi H1 H2 H3 Hk. unfold backref_match.
    destruct (nth_error c i) as [v|] eqn:Ev.
    2:{ apply nth_error_None in Ev. destruct H3. lia. }
    assert (Hv : good_cell v).
    { destruct H3 as [_ H3]. rewrite Forall_forall in H3. apply H3.
      eapply nth_error_In; eauto. }
    assert (Hbe : exists b e, match v with Some p => p | None => (0, 0) end = (b, e)
                              /\ b <= e /\ e <= L).
    { destruct v as [[b e]|]; cbn in *; [eauto|]. exists 0, 0. split; [reflexivity|lia]. }
    destruct Hbe as (b & e & -> & Hb & He).
    rewrite distance_spec by (auto; apply view_length). rewrite Nat2N.id.
    destruct (Nat.ltb_spec (L - cur) (e - b)); [apply ok_non_match; auto|].
    destruct (Nat.ltb_spec e b); [lia|]. unfold len.
    destruct (Nat.ltb_spec L e); [lia|]. cbn [orb].
    apply safe_backref_loop; auto; [apply view_length|].
    assert (length (firstn (e - b) (skipn b base)) = e - b).
    { rewrite firstn_length, skipn_length. lia. }
    destruct rd; rewrite ?rev_length; lia.
  Qed.

  Lemma positions_of_range nm l : forall i j,
    In j (positions_of nm l i) -> i <= j < i + length l.
  Proof.
    induction l as [|x r IH]; cbn; intros i j H; [easy|].
    apply in_app_or in H as [H|H].
    - destruct (name_eqb nm x); [|easy]. destruct H as [<-|[]]. lia.
    - apply IH in H. lia.
  Qed.

  Lemma unique_position_lt nm l i : unique_position nm l = Some i -> i < length l.
  Proof.
    unfold unique_position. intros H.
    destruct (positions_of nm l 0) as [|j [|? ?]] eqn:E; try discriminate.
    inversion H; subst. assert (In i (positions_of nm l 0)) by (rewrite E; cbn; auto).
    apply positions_of_range in H0. lia.
  Qed.

  Definition lines_ok (n : node) : Prop :=
    is_bidirectional cf = true \/ multiline cf = false \/ has_begin_line n = false.

  Lemma lines_ok_list l (Hl : is_bidirectional cf = true \/ multiline cf = false
                                \/ existsb has_begin_line l = false) :
    Forall lines_ok l.
  Proof.
    apply Forall_forall. intros x Hx. destruct Hl as [H|[H|H]]; unfold lines_ok; auto.
    right. right. destruct (has_begin_line x) eqn:E; [|reflexivity].
    rewrite <- H. symmetry. apply existsb_exists. eauto.
  Qed.

  (** The main invariant. *)
  Theorem safe_m : forall f rd n,
    compiles cf names f rd n = true -> lines_ok n ->
    safe_matcher (zlm n) (m cf names base f rd n).
  Proof.
    induction f as [|f IH]; intros rd n Hc Hl; [discriminate|].
    pose proof (view_length base rd) as Hs.
    intros Q lo cur c k H1 H2 H3 Hk. cbn [m].
    set (s := view base rd) in *.
    destruct n; cbn [compiles zlm] in *.
    - (* Empty *) apply Hk; auto; discriminate.
    - (* BeginLine *)
      destruct (Nat.eqb_spec cur 0); [apply Hk; auto; discriminate|].
      destruct (multiline cf) eqn:ML; [|apply ok_non_match; auto].
      destruct Hl as [Hl|[Hl|Hl]]; try discriminate; [|congruence]. rewrite Hl.
      match goal with |- ok _ _ (deref _ _ ?g) =>
        destruct (deref_in s (cur - 1) g) as (a & Ha & ->); [lia|] end.
      unfold assert_that. destruct (match_one _ _ _); [apply Hk; auto; discriminate|].
      apply ok_non_match; auto.
    - (* BeginInput *) unfold assert_that. destruct (Nat.eqb cur 0).
      + apply Hk; auto; discriminate.
      + apply ok_non_match; auto.
    - (* EndLine *)
      destruct (Nat.eqb_spec cur (length s)); [apply Hk; auto; discriminate|].
      destruct (multiline cf) eqn:ML; [|apply ok_non_match; auto].
      match goal with |- ok _ _ (deref _ _ ?g) =>
        destruct (deref_in s cur g) as (a & Ha & ->); [lia|] end.
      unfold assert_that. destruct (match_one _ _ _); [apply Hk; auto; discriminate|].
      apply ok_non_match; auto.
    - (* EndInput *) unfold assert_that. destruct (Nat.eqb cur (length s)).
      + apply Hk; auto; discriminate.
      + apply ok_non_match; auto.
    - (* WordB *) rewrite Hc. cbn [negb].
      assert (Hah : forall b, ok Q lo (if Nat.eqb cur (length s)
          then assert_that (xorb b false) cur c k
          else deref s cur (fun a => assert_that (xorb b (match_one cf n_word a)) cur c k))).
      { intros b. destruct (Nat.eqb_spec cur (length s)).
        - unfold assert_that. destruct (xorb b false);
            [apply Hk; auto; discriminate|apply ok_non_match; auto].
        - match goal with |- ok _ _ (deref _ _ ?g) =>
            destruct (deref_in s cur g) as (a & Ha & ->); [lia|] end.
          unfold assert_that. destruct (xorb _ _); [apply Hk; auto; discriminate|].
          apply ok_non_match; auto. }
      destruct (Nat.eqb_spec cur 0); [apply Hah|].
      match goal with |- ok _ _ (deref _ _ ?g) =>
        destruct (deref_in s (cur - 1) g) as (a & Ha & ->); [lia|] end.
      apply Hah.
    - (* Wild *) now apply safe_trivial.
    - (* Lit *) now apply safe_trivial.
    - (* Range *) now apply safe_trivial.
    - (* CSet *) now apply safe_trivial.
    - (* Neg *)
      apply andb_true_iff in Hc as [Hc1 Hc2].
      destruct (is_assertion n) eqn:A.
      + eapply ok_on_result.
        * eapply (safe_run _ _ cur c lo); eauto.
        * intros. apply ok_non_match; auto.
        * intros c' Hc'. apply Hk; auto.
          rewrite (is_assertion_not_trivial n A). discriminate.
      + rewrite orb_false_r in Hc1. rewrite Hc1 in Hk. now apply safe_trivial.
    - (* Seq *)
      destruct l as [|x r] eqn:El; [discriminate|]. rewrite <- El in *.
      apply safe_seq; auto; [subst; easy|].
      pose proof (lines_ok_list l Hl) as Hll. apply forallb_forall' in Hc.
      rewrite Forall_forall in *. intros y Hy. apply IH; auto.
    - (* Alt *)
      destruct l as [|x r] eqn:El; [discriminate|]. rewrite <- El in *.
      apply safe_alt; auto; [subst; easy|].
      pose proof (lines_ok_list l Hl) as Hll. apply forallb_forall' in Hc.
      rewrite Forall_forall in *. intros y Hy. apply IH; auto.
    - (* Cap *)
      apply andb_true_iff in Hc as [Hc Hcx]. apply andb_true_iff in Hc as [Hnm Hrd].
      apply Nat.leb_le in Hrd.
      destruct (nth_error names (N.to_nat id)) as [nm'|] eqn:En; [|discriminate].
      assert (Hid : N.to_nat id < length names).
      { apply nth_error_Some. congruence. }
      apply ok_or_else.
      + apply (IH rd n Hcx Hl); auto. intros j c' Hj1 Hj2 Hj3 Hc'.
        unfold store. rewrite En, Hnm.
        destruct rd as [|[|rd]]; [| |lia].
        * destruct (set_cell_some (N.to_nat id) (Some (cur, j)) c') as [c'' Ec''].
          { destruct Hc'. lia. }
          rewrite Ec''. apply Hk; auto. eapply good_set_cell; [eauto| | |eauto]; lia.
        * destruct (set_cell_some (N.to_nat id) (Some (len base - j, len base - cur)) c')
            as [c'' Ec''].
          { destruct Hc'. lia. }
          rewrite Ec''. apply Hk; auto.
          unfold len in *. eapply good_set_cell; [eauto| | |eauto]; lia.
      + intros c' Hc'. destruct (clear_cell_some (N.to_nat id) c') as [c'' Ec''].
        { destruct Hc'. lia. }
        rewrite Ec''. apply ok_non_match; auto. eapply good_clear_cell; eauto.
    - (* Rep *)
      apply andb_true_iff in Hc as [Hc _].
      apply safe_rep; auto.
      + intros Hh. apply IH; auto. destruct hi as [h|]; auto.
        apply andb_true_iff in Hc as [_ Hc]. apply orb_true_iff in Hc as [Hc|Hc]; auto.
        apply N.eqb_eq in Hc. subst. easy.
      + destruct hi; auto. now apply andb_true_iff in Hc as [Hc _].
    - (* Backref *)
      apply andb_true_iff in Hc as [_ Hc]. apply Nat.ltb_lt in Hc.
      now apply safe_backref.
    - (* NBackref *)
      apply andb_true_iff in Hc as [_ Hc].
      destruct (unique_position (Some name) names) as [i|] eqn:Eu; [|discriminate].
      apply safe_backref; auto. eapply unique_position_lt; eauto.
    - (* Look *) destruct d.
      + destruct (trivial n) eqn:T.
        * destruct (Nat.eqb_spec cur (length s)); [apply ok_non_match; auto|].
          match goal with |- ok _ _ (deref _ _ ?g) =>
            destruct (deref_in s cur g) as (a & Ha & ->); [lia|] end.
          unfold assert_that. destruct (match_one _ _ _); [apply Hk; auto; discriminate|].
          apply ok_non_match; auto.
        * eapply ok_on_result.
          -- eapply (safe_run _ _ cur c lo); eauto.
          -- intros. apply Hk; auto; discriminate.
          -- intros. apply ok_non_match; auto.
      + apply andb_true_iff in Hc as [Hbi Hc]. rewrite Hbi. cbn [negb].
        destruct (trivial n) eqn:T.
        * destruct (Nat.eqb_spec cur 0); [apply ok_non_match; auto|].
          match goal with |- ok _ _ (deref _ _ ?g) =>
            destruct (deref_in s (cur - 1) g) as (a & Ha & ->); [lia|] end.
          unfold assert_that. destruct (match_one _ _ _); [apply Hk; auto; discriminate|].
          apply ok_non_match; auto.
        * eapply ok_on_result.
          -- eapply (safe_run _ _ (length s - cur) c 0); eauto; try lia.
             apply IH; eauto. unfold lines_ok. now rewrite has_begin_line_invert.
          -- intros. apply Hk; auto; discriminate.
          -- intros. apply ok_non_match; auto.
  Qed.
End Safe.
