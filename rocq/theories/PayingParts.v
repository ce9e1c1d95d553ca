(** Repetitions, concatenations and alternations pay for every end (Paying.v). *)
From Verif Require Import Costs Matcher Basics Safe Impl Spec Paths Mirror Adequacy Calls Lift Matching Api
  Results Walk Exact Relate Tracks Tracking Explore Explored Follows Costing Paying.

Lemma c_m_trivial cf names base : forall f rd x cur c k,
  trivial x = true -> size x <= f ->
  c_m cf names base f rd x cur c k
  = called (c_match_trivial (view base rd) (match_one cf x) cur c k).
Proof.
  induction f as [|f IH]; intros rd x cur c k T Hf; [pose proof (size_pos x); lia|].
  destruct x; try discriminate; cbn [c_m]; try reflexivity.
  - cbn [trivial] in T. destruct (is_assertion x) eqn:A; [|reflexivity].
    apply is_assertion_not_trivial in A. congruence.
  - rewrite size_Seq in Hf. rewrite trivial_Seq in T.
    destruct l as [|y [|z r]]; try discriminate. cbn in Hf. cbn [c_seq_match match_one].
    apply IH; auto. lia.
  - rewrite size_Alt in Hf. rewrite trivial_Alt in T.
    destruct l as [|y r]; try discriminate. destruct r as [|z r].
    + cbn in Hf, T. rewrite andb_true_r in T. cbn [c_alt_match match_one].
      rewrite IH by (auto; lia). unfold c_match_trivial, c_deref. cbn [existsb].
      destruct (Nat.eqb _ _); auto. destruct (nth_error _ _); auto. now rewrite orb_false_r.
    + cbn [c_alt_match]. rewrite T. reflexivity.
  - cbn [size] in Hf. rewrite trivial_Rep in T.
    apply andb_true_iff in T as [T T3]. apply andb_true_iff in T as [T1 T2].
    destruct hi as [h|]; [|discriminate].
    apply N.eqb_eq in T1, T2. subst. cbn [match_one].
    unfold c_rep_match. cbn [N.eqb Pos.eqb]. unfold c_fixed_match. cbn [N.eqb Pos.eqb].
    rewrite T3. destruct mode; apply IH; auto; lia.
Qed.

Section Classes.
  Variable cf : config.
  Variable names : list group_name.
  Variable base : list ascii.
  Variable left : bool.
  Local Notation L := (length base).
  Local Notation gd := (good names base).
  Local Notation pos := (pos base).
  Local Notation s := (side base left).
  Local Notation follow := (follow base).
  Local Notation sem := (sem names base).
  Local Notation finder := (finder names base).
  Local Notation polite := (polite names base).
  Local Notation beyond := (beyond base).
  Local Notation pays := (pays names base left).
  Local Notation nearly := (nearly names base left).
  Local Notation weight := (weight base left).
  Local Notation reads := (reads base left).
  Local Notation read_by := (read_by base left).

  Lemma idle_next b cur : cur < L -> idle b (pos left cur) (pos left (S cur)) = false.
  Proof.
    intros H. destruct b; [reflexivity|]. cbn. rewrite (pos_eqb base left) by lia. apply Nat.eqb_neq. lia.
  Qed.

  Lemma weight_follow_one i g F k : weight (followed_by (one i g) F) k = weight (F i g) k.
  Proof.
    cbn [followed_by one]. rewrite weight_otherwise. cbn [followed_by].
    destruct (follow left (F i g) (outs k)) as [c e [|]| | |]; cbn [Paying.weight]; lia.
  Qed.

  Lemma out_or_else_self o h : out (c_or_else o h)
    = match out o with Res c _ false => out (h c) | _ => out o end.
  Proof. unfold c_or_else. destruct (out o) as [c e [|]| | |] eqn:E; auto. Qed.

  Lemma steps_step_back : forall d cur c k,
    steps (c_step_back cur (S d) c k)
    = steps (c_step_back (S cur) d c k)
      + match out (c_step_back (S cur) d c k) with
        | Res c' _ false => S (steps (k cur c'))
        | _ => 0
        end.
  Proof.
    induction d as [|d IH]; intros cur c k.
    - cbn [c_step_back]. rewrite !steps_or_else, out_or_else_self. cbn [round out steps].
      replace (cur + 1) with (S cur + 0) by lia.
      destruct (out (k (S cur + 0) c)) as [c' e [|]| | |] eqn:E; try lia.
      rewrite steps_or_else. cbn [round steps out c_non_match leaf non_match]. unfold non_match.
      replace (cur + 0) with cur by lia. destruct (out (k cur c')) as [c2 e2 [|]| | |]; lia.
    - change (c_step_back cur (S (S d)) c k)
        with (c_or_else (round (k (cur + S (S d)) c)) (fun c' => c_step_back cur (S d) c' k)).
      change (c_step_back (S cur) (S d) c k)
        with (c_or_else (round (k (S cur + S d) c)) (fun c' => c_step_back (S cur) d c' k)).
      replace (cur + S (S d)) with (S cur + S d) by lia.
      rewrite !steps_or_else, out_or_else_self. cbn [round out steps].
      destruct (out (k (S cur + S d) c)) as [c' e [|]| | |] eqn:E; try lia.
      rewrite IH. lia.
  Qed.

  (** A greedy loop over a class: its longest run, then back one by one. *)
  Lemma pays_steps f p : read_by f p -> forall fm fu b cur d c k,
    Impl.run s fm p b cur = Some d -> enough base fu b cur -> cur <= L -> gd c -> polite cur (outs k) ->
    weight (trying_more f fu b (pos left cur) c) k <= steps (c_step_back cur d c k).
  Proof.
    intros Hf. induction fm as [|fm IH]; intros fu b cur d c k Hr He Hc Hg Hk; [discriminate|].
    destruct fu as [|fu]; [now apply enough_pos in He|].
    cbn [Impl.run] in Hr. cbn [trying_more]. change (bound_is_zero b) with (none_left b) in Hr.
    assert (Hlast : forall d', Some 0 = Some d' -> S (steps (k cur c)) <= steps (c_step_back cur d' c k)).
    { intros d' E. injection E as <-. cbn [c_step_back]. rewrite steps_or_else, Nat.add_0_r.
      cbn [round steps]. lia. }
    destruct (none_left b) eqn:Z.
    { rewrite weight_one by assumption. now apply Hlast. }
    rewrite weight_otherwise, Hf, reads_spec by assumption.
    assert (Hend : forall d', Some 0 = Some d' ->
       weight (Stop c) k + match follow left (Stop c) (outs k) with
                           | Res g' _ false => weight (one (pos left cur) g') k | _ => 0 end
       <= steps (c_step_back cur d' c k)).
    { intros d' E. cbn [Paying.weight Explored.follow Nat.add]. rewrite weight_one by assumption. now apply Hlast. }
    destruct (nth_error s cur) as [a|] eqn:En; [|now apply Hend].
    destruct (p a); [|now apply Hend].
    assert (Hlt : cur < L) by (rewrite <- (side_length base left); apply nth_error_Some; congruence).
    destruct (Impl.run s fm p (bound_decrement b) (S cur)) as [d'|] eqn:Er; [|discriminate].
    cbn in Hr. injection Hr as <-. rewrite steps_step_back.
    rewrite weight_follow_one, (idle_next b cur Hlt).
    assert (He' : enough base fu (one_less b) (S cur))
      by (apply (enough_step base s (side_length base left) fu b cur); auto; lia).
    assert (Hk' : polite (S cur) (outs k)) by (eapply polite_from; [exact Hk|lia]).
    specialize (IH fu (one_less b) (S cur) d' c k Er He' ltac:(lia) Hg Hk').
    assert (HO : norm (out (c_step_back (S cur) d' c k))
       = norm (follow left (trying_more f fu (one_less b) (pos left (S cur)) c) (outs k))).
    { rewrite (same_step_back k (outs k) (same_outs k)). eapply sem_steps; eauto. }
    cbn [followed_by one]. rewrite (idle_next b cur Hlt), follow_otherwise.
    destruct (follow left (trying_more f fu (one_less b) (pos left (S cur)) c) (outs k)) as [g' e' [|]| | |] eqn:EF;
      cbn [or_else followed_by Explored.follow]; try lia.
    destruct (norm_false (Res g' e' false) (out (c_step_back (S cur) d' c k)) g' e') as [e2 E2]; auto.
    rewrite E2, weight_one by assumption. lia.
  Qed.

  Lemma pays_lazy_trivial f p : read_by f p -> forall fm fu b cur c k,
    enough base fm b cur -> enough base fu b cur -> cur <= L -> gd c -> polite cur (outs k) ->
    weight (trying_fewer f fu b (pos left cur) c) k <= steps (c_lazy_trivial fm s p b cur c k).
  Proof.
    intros Hf. induction fm as [|fm IH]; intros fu b cur c k E1 E2 Hc Hg Hk; [now apply enough_pos in E1|].
    destruct fu as [|fu]; [now apply enough_pos in E2|].
    cbn [c_lazy_trivial trying_fewer]. change (bound_is_zero b) with (none_left b).
    rewrite steps_or_else. cbn [round out steps].
    destruct (none_left b) eqn:Z.
    { rewrite weight_one by assumption. lia. }
    cbn [Paying.weight]. rewrite pos_pos by assumption.
    destruct (out (k cur c)) as [c0 e0 [|]| | |] eqn:Eo; try lia.
    assert (Hg0 : gd c0) by exact (Hk cur c c0 e0 (le_n _) Hc Hg Eo).
    rewrite Hf, reads_spec by assumption. unfold c_deref.
    destruct (nth_error s cur) as [a|] eqn:En; [|cbn [followed_by Paying.weight]; lia].
    assert (Hlt : cur < L) by (rewrite <- (side_length base left); apply nth_error_Some; congruence).
    destruct (Nat.eqb_spec cur (length s)) as [Ex|_]; [rewrite side_length in Ex; lia|].
    destruct (p a); [|cbn [followed_by Paying.weight]; lia].
    rewrite weight_follow_one, (idle_next b cur Hlt).
    change (bound_decrement b) with (one_less b).
    assert (Hk' : polite (S cur) (outs k)) by (eapply polite_from; [exact Hk|lia]).
    assert (weight (trying_fewer f fu (one_less b) (pos left (S cur)) c0) k
      <= steps (c_lazy_trivial fm s p (one_less b) (S cur) c0 k)); [|lia].
    apply IH; auto; try lia; apply (enough_step base s (side_length base left) _ b cur); auto; lia.
  Qed.

  Lemma possessive_trivial_steps p : forall fm b cur c k, cur <= L ->
    match Impl.run s fm p b cur with Some d => steps (k (cur + d) c) | None => 0 end
    <= steps (c_possessive_trivial fm s p b cur c k).
  Proof.
    induction fm as [|fm IH]; intros b cur c k Hc; cbn [Impl.run c_possessive_trivial]; [lia|].
    destruct (bound_is_zero b); [rewrite Nat.add_0_r; lia|].
    unfold c_deref. destruct (nth_error s cur) as [a|] eqn:En.
    - assert (Hlt : cur < L) by (rewrite <- (side_length base left); apply nth_error_Some; congruence).
      destruct (Nat.eqb_spec cur (length s)) as [Ex|_]; [rewrite side_length in Ex; lia|].
      destruct (p a); [|rewrite Nat.add_0_r; lia].
      cbn [round steps]. specialize (IH (bound_decrement b) (S cur) c k ltac:(lia)).
      destruct (Impl.run s fm p (bound_decrement b) (S cur)) as [d|]; cbn [option_map]; [|lia].
      replace (cur + S d) with (S cur + d) by lia. lia.
    - apply nth_error_None in En. rewrite side_length in *.
      destruct (Nat.eqb_spec cur L); [|lia]. rewrite Nat.add_0_r. lia.
  Qed.

  Lemma nearly_possessive_trivial f p : read_by f p -> forall fm fu b cur c k,
    enough base fm b cur -> enough base fu b cur -> cur <= L -> gd c -> polite cur (outs k) ->
    weight (committing f fu b (pos left cur) c) k <= S (steps (c_possessive_trivial fm s p b cur c k)).
  Proof.
    intros Hf. induction fm as [|fm IH]; intros fu b cur c k E1 E2 Hc Hg Hk; [now apply enough_pos in E1|].
    destruct fu as [|fu]; [now apply enough_pos in E2|].
    cbn [c_possessive_trivial committing]. change (bound_is_zero b) with (none_left b).
    destruct (none_left b) eqn:Z; [rewrite weight_one; auto|].
    rewrite Hf, reads_spec by assumption. unfold c_deref.
    destruct (nth_error s cur) as [a|] eqn:En.
    - assert (Hlt : cur < L) by (rewrite <- (side_length base left); apply nth_error_Some; congruence).
      destruct (Nat.eqb_spec cur (length s)) as [Ex|_]; [rewrite side_length in Ex; lia|].
      destruct (p a); [|rewrite weight_one; auto].
      cbn [one]. rewrite (idle_next b cur Hlt). cbn [round steps]. apply le_S.
      change (bound_decrement b) with (one_less b).
      apply IH; auto; try lia; [..|eapply polite_from; [exact Hk|lia]];
        apply (enough_step base s (side_length base left) _ b cur); auto; lia.
    - rewrite weight_one by assumption. apply nth_error_None in En. rewrite side_length in *.
      destruct (Nat.eqb_spec cur L); lia.
  Qed.

  Section Repetition.
    Variable x : node.
    Variable mx' : cmatcher.
    Variable mx : matcher.
    Variable f : nat -> caps -> search.
    Hypothesis Hsame : same_matcher mx' mx.
    Hypothesis Hsem : sem left mx f.
    Hypothesis Hfind : finder left (may_be_empty x) f.
    Hypothesis Hclass : trivial x = true -> read_by f (match_one cf x).
    Hypothesis Hpay : pays mx' f.
    Local Notation looping := (looping cf base f).
    Local Notation starting := (starting f).

    Lemma nearly_between md b w : guarded (may_be_empty x) w b ->
      nearly (c_between_bounds cf s md b w x mx') (looping md b).
    Proof.
      intros Hw cur c k Hc Hg Hk. unfold c_between_bounds.
      pose proof (enough_loop_fuel base s (side_length base left) b cur) as He.
      set (fm := loop_fuel b (length s) cur) in *. clearbody fm.
      pose proof (enough_any base b cur) as Hu.
      assert (Hmore : weight (trying_more f (any_fuel base b) b (pos left cur) c) k
          <= steps (if trivial x && is_bidirectional cf then
                 c_possessive_trivial fm s (match_one cf x) b cur c
                   (fun next c' => c_step_back cur (next - cur) c' k)
               else c_greedy_generic fm mx' w b cur c k)).
      { destruct (trivial x && is_bidirectional cf) eqn:T.
        - apply andb_true_iff in T as [T _].
          eapply Nat.le_trans; [|apply possessive_trivial_steps; assumption].
          destruct (Impl.run s fm (match_one cf x) b cur) as [d|] eqn:Er.
          + replace (cur + d - cur) with d by lia. eapply pays_steps; eauto.
          + exfalso. exact (run_some base s (side_length base left) (match_one cf x) fm b cur Hc He Er).
        - eapply pays_more; eauto. }
      assert (Hfewer : weight (trying_fewer f (any_fuel base b) b (pos left cur) c) k
          <= steps (if trivial x then c_lazy_trivial fm s (match_one cf x) b cur c k
               else c_lazy_generic fm mx' w b cur c k)).
      { destruct (trivial x) eqn:T in |- *.
        - eapply pays_lazy_trivial; eauto.
        - eapply pays_fewer; eauto. }
      destruct md; cbn [xorb Explored.looping].
      - destruct (ungreedy cf); cbn [negb]; apply le_S; assumption.
      - destruct (ungreedy cf); cbn [negb]; apply le_S; assumption.
      - destruct (trivial x) eqn:T in |- *.
        + eapply nearly_possessive_trivial; eauto.
        + eapply nearly_committing; eauto.
    Qed.

    Lemma nearly_fixed_backtracking n : (1 < n)%N ->
      nearly (c_fixed_backtracking cf s x mx' n) (chain (repeat f (N.to_nat n))).
    Proof.
      intros Hn cur c k Hc Hg Hk. unfold c_fixed_backtracking. destruct (trivial x) eqn:T.
      - cbn [paid steps]. rewrite (distance_spec cf base s (side_length base left)) by assumption.
        eapply Nat.le_trans.
        { apply (weight_block names base left (repeat f (N.to_nat n)) (repeat (match_one cf x) (N.to_nat n))); auto.
          clear -Hclass T. induction (N.to_nat n); constructor; auto. }
        rewrite repeat_length. destruct (Nat.ltb (L - cur) (N.to_nat n)); [lia|].
        destruct (is_random cf); [destruct (unroll cf)|].
        + pose proof (paid_block_random base left (repeat (match_one cf x) (N.to_nat n)) cur c k) as H.
          rewrite repeat_length in H. destruct (all_at _ _ _) as [[|]|]; lia.
        + pose proof (paid_loop_random base left (match_one cf x) (N.to_nat n) 0 cur c k) as H.
          rewrite Nat.add_0_r in H. destruct (all_at _ _ _) as [[|]|]; lia.
        + pose proof (paid_repetition_forward base left (match_one cf x) (N.to_nat n) cur c k) as H.
          destruct (all_at _ _ _) as [[|]|]; lia.
      - apply le_S. destruct (N.to_nat n) as [|n'] eqn:E; [lia|]. destruct (unroll cf).
        + eapply pays_unrolled; eauto.
        + eapply pays_non_unrolled; eauto.
    Qed.

    Lemma pays_first g' mx1' mx1 F : same_matcher mx1' mx1 -> sem left mx1 F ->
      forall cur c k, cur <= L -> gd c -> polite cur (outs k) ->
      weight (first_only (F (pos left cur) c)) k
      <= S (steps (c_on_result (mx1' cur c c_success) (fun e c' => k e c') g')).
    Proof.
      intros Hs Hm cur c k Hc Hg Hk. rewrite steps_on_result.
      rewrite (Hs c_success success same_success cur c).
      pose proof (Hm cur c success Hc Hg (polite_success names base cur)) as H. rewrite follow_success in H.
      destruct (F (pos left cur) c) as [g0|i g0 more]; [cbn; lia|].
      apply (proj1 (norm_res _ _ _)) in H. rewrite H.
      eapply Nat.le_trans; [apply weight_first|]. lia.
    Qed.

    Lemma weight_first_le t k : weight (first_only t) k <= weight t k.
    Proof. eapply Nat.le_trans; [apply weight_first|]. destruct t; cbn [Paying.weight]; lia. Qed.

    Lemma pays_fixed md n : pays (c_fixed_match cf s md n x mx') (starting md n).
    Proof.
      intros cur c k Hc Hg Hk. unfold c_fixed_match.
      destruct (N.eqb_spec n 0) as [->|Hn0].
      { cbn [called steps]. assert (E : starting md 0 (pos left cur) c = one (pos left cur) c) by now destruct md.
        rewrite E, weight_one by assumption. lia. }
      destruct (N.eqb_spec n 1) as [->|Hn1].
      - assert (H1 : weight (chain (repeat f 1) (pos left cur) c) k <= steps (mx' cur c k))
          by (eapply pays_once; eauto).
        destruct md; try exact H1. cbn [Explored.starting]. change (N.to_nat 1) with 1.
        destruct (trivial x) eqn:T.
        + eapply Nat.le_trans; [apply weight_first_le|exact H1].
        + cbn [called steps].
          apply (pays_first _ mx' mx (chain (repeat f 1))); auto.
          exact (sem_unrolled names base left mx f (may_be_empty x) Hsem Hfind 1).
      - cbn [called steps].
        assert (Hb : nearly (c_fixed_backtracking cf s x mx' n) (chain (repeat f (N.to_nat n))))
          by (apply nearly_fixed_backtracking; lia).
        destruct md; try (now apply Hb).
        apply (pays_first _ _ (fixed_backtracking cf s x mx n) (chain (repeat f (N.to_nat n)))); auto.
        * now apply same_fixed_backtracking.
        * eapply sem_fixed_backtracking; eauto. lia.
    Qed.
  End Repetition.

  Lemma pays_rep x mx' mx f md lo hi :
    (hi = Fin 0 \/ (same_matcher mx' mx /\ sem left mx f /\ pays mx' f)) -> finder left (may_be_empty x) f ->
    (trivial x = true -> read_by f (match_one cf x)) ->
    match hi with Fin h => (lo <= h)%N | Inf => True end ->
    pays (c_rep_match cf s md lo hi x mx')
      (fun i g => followed_by (starting f md lo i g) (looping cf base f md (remaining hi lo))).
  Proof.
    intros Hsem Hfind Hclass Hlo cur c k Hc Hg Hk. unfold c_rep_match.
    assert (Hloop0 : forall f' i g, looping cf base f' md (Fin 0) i g = one i g).
    { intros. unfold looping. destruct md; [destruct (ungreedy cf)|destruct (ungreedy cf)|]; reflexivity. }
    assert (Hfst : forall n, sound names base (beyond left true (pos left cur)) (starting f md n (pos left cur) c)).
    { intros n. apply (finder_starting names base left x f Hfind); auto using pos_le. }
    destruct (match hi with Fin h => N.eqb lo h | Inf => false end) eqn:Hfix.
    - destruct hi as [h|]; [|discriminate]. apply N.eqb_eq in Hfix. subst h.
      cbn [remaining]. rewrite N.sub_diag.
      apply Nat.le_trans with (weight (starting f md lo (pos left cur) c) k).
      + apply (weight_then names base left true true _ _ _ _ cur); auto.
        * intros i g Hi Hg'. rewrite Hloop0. now apply finder_one.
        * intros j g Hj _ _ Hg'. rewrite Hloop0, weight_one by assumption. split; [|lia].
          symmetry. now apply follow_one.
      + destruct Hsem as [E|(Hs & Hm & Hp)].
        * injection E as ->. unfold c_fixed_match. cbn [N.eqb called steps].
          assert (E : starting f md 0 (pos left cur) c = one (pos left cur) c) by now destruct md.
          rewrite E, weight_one by assumption. lia.
        * eapply pays_fixed; eauto.
    - destruct Hsem as [->|(Hs & Hm & Hp)].
      { apply N.eqb_neq in Hfix. lia. }
      cbn [called steps].
      set (w := is_infinity hi && zlm x).
      assert (Hw : guarded (may_be_empty x) w (bound_subtract hi lo)).
      { unfold w. rewrite <- may_be_empty_zlm. split; destruct hi; cbn; intros; try discriminate; auto. }
      change (bound_subtract hi lo) with (remaining hi lo) in *.
      assert (Hb : nearly (c_between_bounds cf s md (remaining hi lo) w x mx') (looping cf base f md (remaining hi lo)))
        by (eapply nearly_between; eauto).
      assert (Hb' : sem left (between_bounds cf s md (remaining hi lo) w x mx) (looping cf base f md (remaining hi lo)))
        by (eapply sem_between; eauto).
      assert (Hfl : finder left true (looping cf base f md (remaining hi lo)))
        by (apply (finder_looping cf names base left x f Hfind)).
      unfold is_zero. destruct (N.eqb_spec lo 0) as [->|Hn0].
      + assert (E : starting f md 0 (pos left cur) c = one (pos left cur) c) by now destruct md.
        rewrite E, weight_follow_one. now apply Hb.
      + apply le_S.
        refine (pays_then names base left true true (c_fixed_match cf s md lo x mx') (starting f md lo)
                 (c_between_bounds cf s md (remaining hi lo) w x mx') (between_bounds cf s md (remaining hi lo) w x mx)
                 _ _ _ _ Hb' Hb Hfl cur c k Hc Hg Hk).
        * eapply pays_fixed; eauto.
        * apply (finder_starting names base left x f Hfind).
        * now apply same_between.
  Qed.

  (** ** Concatenation and alternation of nodes *)

  Definition node_pays (mm' : node -> cmatcher) (mm : node -> matcher) (x : node) (f : nat -> caps -> search) : Prop :=
    node_ok cf names base left mm x f /\ pays (mm' x) f.

  Lemma pays_seq mm' mm l fs : (forall x, same_matcher (mm' x) (mm x)) -> l <> [] -> Forall2 (node_pays mm' mm) l fs ->
    pays (c_seq_match cf s mm' l) (chain fs).
  Proof.
    intros HS Hne H. induction H as [|x f l fs ((Hx & Ff & Cf) & Px) H IH]; [easy|]. clear Hne.
    destruct l as [|y l].
    - inversion H; subst. intros cur c k Hc Hg Hk. cbn [c_seq_match].
      refine (pays_once names base left (mm' x) f true Ff Px cur c k Hc Hg Hk).
    - intros cur c k Hc Hg Hk.
      change (c_seq_match cf s mm' (x :: y :: l) cur c k)
        with (called
              (if forallb trivial (x :: y :: l) then
                 paid (distance_rounds cf (N.of_nat (length (x :: y :: l))) (length s) cur)
                   (if distance_less_than cf (N.of_nat (length (x :: y :: l))) (length s) cur
                    then c_non_match cur c
                    else if is_random cf
                    then c_trivial_block_random s (map (match_one cf) (x :: y :: l)) cur c k
                    else c_sequence_block_forward s (map (match_one cf) (x :: y :: l)) cur c k)
               else mm' x cur c (fun next c' => c_seq_match cf s mm' (y :: l) next c' k))).
      cbn [called steps].
      destruct (forallb trivial (x :: y :: l)) eqn:T.
      + assert (HF : Forall2 read_by (f :: fs) (map (match_one cf) (x :: y :: l))).
        { apply (reads_all cf names base left mm); auto. constructor; [now split|].
          clear -H. induction H as [|? ? ? ? [? _] ? ?]; constructor; auto. }
        set (ps := map (match_one cf) (x :: y :: l)) in *.
        assert (Hlen : length (x :: y :: l) = length ps) by (unfold ps; now rewrite map_length).
        eapply Nat.le_trans; [apply (weight_block names base left (f :: fs) ps); auto|].
        cbn [paid steps]. rewrite (distance_spec cf base s (side_length base left)) by assumption. rewrite Hlen, Nat2N.id.
        destruct (Nat.ltb (L - cur) (length ps)); [lia|]. destruct (is_random cf).
        * pose proof (paid_block_random base left ps cur c k) as Hp. destruct (all_at _ _ _) as [[|]|]; lia.
        * pose proof (paid_block_forward base left ps cur c k ltac:(unfold ps; discriminate)) as Hp.
          destruct (all_at _ _ _) as [[|]|]; lia.
      + apply le_S.
        assert (HF : finder left true (chain fs)).
        { apply finder_chain. clear -H. induction H as [|? ? ? ? ((_ & F & _) & _)]; constructor; auto. }
        refine (pays_then names base left true true (mm' x) f (c_seq_match cf s mm' (y :: l)) (seq_match cf s mm (y :: l))
                 (chain fs) Px Ff _ _ _ HF cur c k Hc Hg Hk).
        * now apply same_seq.
        * apply sem_seq; [discriminate|]. clear -H. induction H as [|? ? ? ? [? _] ? ?]; constructor; auto.
        * apply pays_nearly, IH. discriminate.
  Qed.

  Section Alternatives.
    Variable F : node -> nat -> caps -> search.

    Definition alt_pays (mm' : node -> cmatcher) (mm : node -> matcher) (x y : node) : Prop :=
      alt_ok cf names base left F mm x y /\ pays (mm' x) (F y).

    Lemma pays_alt mm' mm l l' : (forall x, same_matcher (mm' x) (mm x)) -> l <> [] -> Forall2 (alt_pays mm' mm) l l' ->
      pays (c_alt_match cf s mm' l) (any cf base left F l').
    Proof.
      intros HS Hne H. induction H as [|x y l l' Hxy H IH]; [easy|]. clear Hne.
      assert (H' : Forall2 (alt_ok cf names base left F mm) (x :: l) (y :: l')).
      { constructor; [apply Hxy|]. clear -H. induction H as [|? ? ? ? [? _] ? ?]; constructor; auto. }
      destruct (alt_class cf names base left F mm (x :: l) (y :: l') H') as [Ec Ea].
      destruct Hxy as (((Hx & Ff & Cf) & E1 & E2) & Px).
      intros cur c k Hc Hg Hk. destruct l as [|x' l].
      - inversion H; subst. cbn [c_alt_match any].
        destruct (is_class (Alt [y])) eqn:Cy.
        + cbn [is_class forallb] in Cy. rewrite andb_true_r in Cy.
          specialize (Px cur c k Hc Hg Hk). rewrite Cf in Px by (rewrite trivial_is_class; congruence).
          rewrite (reads_ext base left (accepts cf (Alt [y])) (match_one cf x)); [exact Px|].
          intros a. rewrite match_one_accepts, E2. cbn. apply orb_false_r.
        + rewrite weight_otherwise. cbn [any is_class]. specialize (Px cur c k Hc Hg Hk).
          destruct (follow left (F y (pos left cur) c) (outs k)) as [c1 e1 [|]| | |]; cbn [Paying.weight]; lia.
      - assert (Et : forallb trivial (x :: x' :: l) = is_class (Alt (x :: x' :: l))).
        { rewrite <- trivial_is_class, trivial_Alt. reflexivity. }
        change (c_alt_match cf s mm' (x :: x' :: l) cur c k)
          with (called
              (if forallb trivial (x :: x' :: l)
               then c_match_trivial s (fun a => existsb (fun y => match_one cf y a) (x :: x' :: l)) cur c k
               else c_or_else (mm' x cur c k) (fun c' => c_alt_match cf s mm' (x' :: l) cur c' k))).
        cbn [any called steps]. rewrite Et, Ec. destruct (is_class (Alt (y :: l'))) eqn:Cy.
        + rewrite (reads_ext base left (accepts cf (Alt (y :: l')))
                     (fun a => existsb (fun y => match_one cf y a) (x :: x' :: l))).
          * now apply weight_reads.
          * intros a. rewrite <- Ea. symmetry. apply existsb_match.
        + apply le_S. rewrite weight_otherwise, steps_or_else. apply Nat.add_le_mono; [now apply Px|].
          pose proof (sem_out names base left (mm' x) (mm x) (F y) k cur c (HS x) Hx Hc Hg Hk) as HO.
          destruct (follow left (F y (pos left cur) c) (outs k)) as [g' e' [|]| | |] eqn:EF; try lia.
          destruct (norm_false (Res g' e' false) (out (mm' x cur c k)) g' e') as [e2 E2']; auto.
          rewrite E2'. apply IH; auto; [discriminate|].
          refine (follow_polite names base left true cur _ (outs k) g' e' Hc _ Hk EF). apply Ff; auto using pos_le.
    Qed.
  End Alternatives.
End Classes.
