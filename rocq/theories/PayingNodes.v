(** Every tree that compiles pays for every end (Paying.v). *)
From Verif Require Import Costs Matcher Basics Safe Impl Spec Paths Mirror Adequacy Calls Lift Matching Api
  Results Walk Exact Relate Tracks Tracking Explore Explored Follows Costing Paying PayingParts.

(** It calls the continuation once, or not at all. *)
Definition shot (mx' : cmatcher) (cur : nat) (c : caps) : Prop :=
  (exists j, forall k, out (mx' cur c k) = out (k j c) /\ S (steps (k j c)) <= steps (mx' cur c k))
  \/ (exists o, forall k, out (mx' cur c k) = o).

Section Nodes.
  Variable cf : config.
  Variable names : list group_name.
  Variable base : list ascii.
  Local Notation L := (length base).
  Local Notation gd := (good names base).
  Local Notation E := (explore cf names base).
  Local Notation pos := (pos base).
  Local Notation X := (seen_as cf names base).
  Local Notation pays := (pays names base).
  Local Notation polite := (polite names base).
  Local Notation weight := (weight base).

  Lemma pays_shot left mx' mx F cur c b p : same_matcher mx' mx -> sem names base left mx F ->
    cur <= L -> gd c -> F (pos left cur) c = test b p c -> shot mx' cur c ->
    forall k, weight left (F (pos left cur) c) k <= steps (mx' cur c k).
  Proof.
    intros Hs Hm Hc Hg EF Hshot k. rewrite EF. destruct b; [|cbn; lia].
    pose proof (Hm cur c success Hc Hg (polite_success names base cur)) as H1.
    rewrite EF in H1. cbn [test] in H1. rewrite follow_success in H1. cbn [one] in H1.
    apply (proj1 (norm_res _ _ _)) in H1.
    rewrite <- (Hs c_success success same_success cur c) in H1.
    destruct Hshot as [(j & Hj)|(o & Ho)].
    - destruct (Hj c_success) as [E1 _]. rewrite E1 in H1. cbn in H1. unfold success in H1. injection H1 as ->.
      destruct (Hj k) as [_ Hk]. cbn [test one Paying.weight].
      destruct (out (k (pos left p) c)) as [c' e [|]| | |]; cbn [Paying.weight]; lia.
    - exfalso. set (k0 := fun (_ : nat) (c : caps) => leaf (Res c 0 false)).
      assert (P0 : polite cur (outs k0)).
      { intros j c1 c2 e _ _ Hg1. unfold outs, k0. cbn. congruence. }
      pose proof (sem_out names base left mx' mx F k0 cur c Hs Hm Hc Hg P0) as H2.
      rewrite EF in H2. rewrite Ho in H2. rewrite Ho in H1. subst o. cbn in H2. discriminate.
  Qed.

  Lemma shot_called mx' cur c : shot (fun cur c k => called (mx' cur c k)) cur c <->
    (exists j, forall k, out (mx' cur c k) = out (k j c) /\ steps (k j c) <= steps (mx' cur c k))
    \/ (exists o, forall k, out (mx' cur c k) = o).
  Proof.
    unfold shot. cbn [called out steps]. split; (intros [(j & H)|H]; [left; exists j|right; exact H]);
      intros k; destruct (H k); split; auto; lia.
  Qed.

  Lemma backref_loop_shot s : forall t cur c,
    (exists j, forall k, out (c_backref_loop cf s t cur c k) = out (k j c)
       /\ steps (k j c) <= steps (c_backref_loop cf s t cur c k))
    \/ (exists o, forall k, out (c_backref_loop cf s t cur c k) = o).
  Proof.
    induction t as [|a t IH]; intros cur c; cbn [c_backref_loop].
    - left. exists cur. intros k. split; [reflexivity|lia].
    - unfold c_deref. cbn [round out steps]. destruct (nth_error s cur) as [b|]; [|right; eexists; reflexivity].
      destruct (backref_char_eq cf a b); [|right; eexists; reflexivity].
      destruct (IH (S cur) c) as [(j & H)|(o & H)]; [left; exists j|right; exists o; exact H].
      intros k. destruct (H k). split; auto; lia.
  Qed.

  Lemma backref_shot rd i cur c : shot (fun cur c k => called (c_backref_match cf base rd i cur c k)) cur c.
  Proof.
    apply shot_called. unfold c_backref_match.
    destruct (nth_error c i) as [v|]; [|right; eexists; reflexivity].
    destruct (match v with Some p => p | None => (0, 0) end) as [b e]. cbn [paid out steps].
    destruct (distance_less_than _ _ _ _); [right; eexists; reflexivity|].
    destruct (_ || _); [right; eexists; reflexivity|].
    destruct (backref_loop_shot (view base rd)
      (match rd with 0 => firstn (e - b) (skipn b base) | _ => rev (firstn (e - b) (skipn b base)) end) cur c)
      as [(j & H)|(o & H)]; [left; exists j|right; exists o; exact H].
    intros k. destruct (H k). split; auto; lia.
  Qed.

  Lemma read_text_test d t i g : exists b p, read_text cf base d t i g = test b p g.
  Proof. unfold read_text. destruct (Nat.odd d); do 2 eexists; reflexivity. Qed.

  (** Assertions. *)
  Lemma atom_shot f rd n cur c : is_class n = false ->
    match n with BeginLine | BeginInput | EndLine | EndInput | WordB | Empty => true | _ => false end = true ->
    shot (c_m cf names base (S f) rd n) cur c.
  Proof.
    intros _ Hn. set (s := view base rd).
    assert (Hyes : forall k, out (k cur c) = out (k cur c) /\ S (steps (k cur c)) <= S (steps (k cur c : costed)))
      by (intros; split; [reflexivity|lia]).
    unfold shot. destruct n; try discriminate; cbn [c_m]; fold s; unfold c_assert_that, c_deref;
      repeat match goal with
      | |- context [match ?b with true => _ | false => _ end] => destruct b
      | |- context [match nth_error ?a ?b with Some _ => _ | None => _ end] => destruct (nth_error a b)
      end;
      first [ right; eexists; reflexivity | left; exists cur; exact Hyes ].
  Qed.

  (** Groups. *)
  Lemma weight_captured left z cur t k id range : cur <= L ->
    sound names base (beyond base left z (pos left cur)) t ->
    let K := fun j g => k j (update id (fun _ => Some (range (pos left j))) g) in
    polite cur (outs K) ->
    weight left (captured id range t) k = weight left t K.
  Proof.
    intros Hc Ht K HK. induction t as [g|i g more IH]; cbn [captured Paying.weight]; [reflexivity|].
    cbn [sound] in Ht. destruct Ht as (H1 & H2 & H3).
    destruct (beyond_pos base left z cur i Hc H1) as (B1 & B2 & B3).
    assert (EK : K (pos left i) g = k (pos left i) (update id (fun _ => Some (range i)) g))
      by (unfold K; now rewrite pos_pos by assumption).
    rewrite EK. f_equal.
    destruct (out (k (pos left i) (update id (fun _ => Some (range i)) g))) as [g' e [|]| | |] eqn:Eo; auto.
    apply IH, H3. refine (HK (pos left i) g g' e B1 B2 H2 _). unfold outs. now rewrite EK.
  Qed.

  Lemma weight_cong left z cur t k1 k2 : cur <= L -> sound names base (beyond base left z (pos left cur)) t ->
    polite cur (outs k1) -> (forall j g, j <= L -> gd g -> k1 j g = k2 j g) ->
    weight left t k1 = weight left t k2.
  Proof.
    intros Hc Ht Hk H. induction t as [g|i g more IH]; cbn [Paying.weight]; [reflexivity|].
    cbn [sound] in Ht. destruct Ht as (H1 & H2 & H3).
    destruct (beyond_pos base left z cur i Hc H1) as (B1 & B2 & B3).
    rewrite <- (H (pos left i) g) by assumption. f_equal.
    destruct (out (k1 (pos left i) g)) as [g' e [|]| | |] eqn:Eo; auto.
    apply IH, H3. exact (Hk (pos left i) g g' e B1 B2 H2 Eo).
  Qed.

  Theorem all_pay : forall f rd v n, size n <= f ->
    compiles cf names f rd n = true -> lines_ok cf n ->
    pays (Nat.odd rd) (c_m cf names base f rd n) (X rd v n).
  Proof.
    induction f as [|f IH]; intros rd v n Hsz Hcm Hl; [discriminate|].
    pose proof (view_length base rd) as Hs.
    destruct (is_class n) eqn:Hcl.
    { assert (T : trivial n = true) by now rewrite trivial_is_class.
      intros cur c k Hc Hg Hk. rewrite c_m_trivial by assumption. rewrite <- side_view.
      rewrite (X_class cf names base rd v n T). cbn [called steps]. now apply weight_reads. }
    pose proof (follows cf names base (S f) rd v n Hsz Hcm Hl) as Hsem.
    pose proof (same_m cf names base (S f) rd n) as Hsame.
    assert (Hatom : forall (q : nat -> bool), invert n = n -> (forall i g, E rd v n i g = test (q i) i g) ->
              match n with BeginLine | BeginInput | EndLine | EndInput | WordB | Empty => true | _ => false end = true ->
              pays (Nat.odd rd) (c_m cf names base (S f) rd n) (X rd v n)).
    { intros q Hi Hq Hn cur c k Hc Hg Hk.
      eapply (pays_shot (Nat.odd rd) _ _ (X rd v n) cur c (q (pos (Nat.odd rd) cur)) (pos (Nat.odd rd) cur)); eauto.
      - unfold seen_as. replace (if v then invert n else n) with n by (destruct v; auto). apply Hq.
      - now apply atom_shot. }
    set (s := view base rd) in *.
    destruct n; try discriminate Hcl;
      try (eapply (Hatom); [reflexivity| |reflexivity]; intros; cbn [explore is_class]; reflexivity).
    - (* Empty *)
      refine (Hatom (fun _ => true) eq_refl _ eq_refl). intros. reflexivity.
    - (* Neg *) cbn [compiles] in Hcm. apply andb_true_iff in Hcm as [Hta Hcm]. cbn [size] in Hsz.
      cbn [is_class] in Hcl.
      destruct (is_assertion n) eqn:A; [|rewrite orb_false_r, trivial_is_class in Hta; congruence].
      intros cur c k Hc Hg Hk. cbn [c_m]. rewrite A.
      assert (EX : X rd v (Neg n) (pos (Nat.odd rd) cur) c
                = match X rd v n (pos (Nat.odd rd) cur) c with
                  | Stop g' => one (pos (Nat.odd rd) cur) g'
                  | Found _ g' _ => Stop g'
                  end).
      { unfold seen_as. destruct v; cbn [invert explore is_class]; rewrite ?is_class_invert, Hcl; reflexivity. }
      rewrite EX. cbn [called steps]. rewrite steps_on_result.
      rewrite (same_m cf names base f rd n c_success success same_success cur c).
      pose proof (follows cf names base f rd v n ltac:(lia) Hcm Hl cur c success Hc Hg (polite_success _ _ _)) as Hx.
      rewrite follow_success in Hx.
      destruct (X rd v n (pos (Nat.odd rd) cur) c) as [g'|j g' more].
      + destruct (m cf names base f rd n cur c success) as [c0 e0 [|]| | |]; cbn [norm] in Hx; try discriminate.
        injection Hx as ->. rewrite weight_one by assumption. lia.
      + cbn [Paying.weight]. lia.
    - (* Seq *) cbn [compiles] in Hcm.
      destruct l as [|x0 r0] eqn:El; [discriminate|]. rewrite <- El in *.
      assert (Hne : l <> []) by (subst; discriminate). clear El.
      intros cur c k Hc Hg Hk. rewrite (X_Seq cf names base rd v l Hcl).
      cbn [c_m]. fold s. unfold s. rewrite <- side_view.
      apply (pays_seq cf names base (Nat.odd rd) (c_m cf names base f rd) (m cf names base f rd)); auto.
      { intros x. apply same_m. }
      pose proof (lines_ok_list cf l Hl) as Hll.
      assert (Hz : forall x, In x l -> size x <= f) by (intros x Hx; pose proof (size_in_sum l x Hx); rewrite size_Seq in Hsz; lia).
      clear -IH Hcm Hll Hz.
      induction l as [|x r IHl]; constructor.
      + cbn in Hcm. apply andb_true_iff in Hcm as [Hcm _]. inversion Hll; subst.
        assert (Hzx : size x <= f) by (apply Hz; cbn; auto).
        split; [split; [|split; [apply X_weak|apply X_class]]|].
        * now apply follows.
        * now apply IH.
      + cbn in Hcm. apply andb_true_iff in Hcm as [_ Hcm]. inversion Hll; subst. apply IHl; auto.
        intros y Hy. apply Hz. cbn. auto.
    - (* Alt *) cbn [compiles] in Hcm.
      destruct l as [|x0 r0] eqn:El; [discriminate|]. rewrite <- El in *.
      assert (Hne : l <> []) by (subst; discriminate). clear El.
      intros cur c k Hc Hg Hk. rewrite (X_Alt cf names base rd v l Hcl).
      cbn [c_m]. fold s. unfold s. rewrite <- side_view.
      apply (pays_alt cf names base (Nat.odd rd) (E rd v) (c_m cf names base f rd) (m cf names base f rd)); auto.
      { intros x. apply same_m. }
      pose proof (lines_ok_list cf l Hl) as Hll.
      assert (Hz : forall x, In x l -> size x <= f) by (intros x Hx; pose proof (size_in_sum l x Hx); rewrite size_Alt in Hsz; lia).
      clear -IH Hcm Hll Hz.
      induction l as [|x r IHl]; constructor.
      + cbn in Hcm. apply andb_true_iff in Hcm as [Hcm _]. inversion Hll; subst.
        assert (Hzx : size x <= f) by (apply Hz; cbn; auto).
        split; [split; [split; [|split; [apply (X_weak cf names base rd v)|apply (X_class cf names base rd v)]]|]|].
        * now apply (follows cf names base f rd v).
        * destruct v; rewrite ?is_class_invert; split; auto. intros a. now rewrite accepts_invert.
        * now apply (IH rd v).
      + cbn in Hcm. apply andb_true_iff in Hcm as [_ Hcm]. inversion Hll; subst. apply IHl; auto.
        intros y Hy. apply Hz. cbn. auto.
    - (* Cap *) cbn [compiles] in Hcm. cbn [size] in Hsz.
      apply andb_true_iff in Hcm as [Hcm Hcn]. apply andb_true_iff in Hcm as [Hnm Hrd].
      apply Nat.leb_le in Hrd.
      assert (Hx : pays (Nat.odd rd) (c_m cf names base f rd n) (X rd v n)) by (apply IH; auto; lia).
      intros cur c k Hc Hg Hk. cbn [c_m].
      set (range := fun j => if Nat.odd rd then (j, pos (Nat.odd rd) cur) else (pos (Nat.odd rd) cur, j)).
      assert (EX : X rd v (Cap id name n) (pos (Nat.odd rd) cur) c
                = captured (N.to_nat id) range (X rd v n (pos (Nat.odd rd) cur) c))
        by (unfold seen_as, range; destruct v; reflexivity).
      set (K := fun j g => k j (update (N.to_nat id) (fun _ => Some (range (pos (Nat.odd rd) j))) g)).
      assert (HK : polite cur (outs K)).
      { intros j g g' e Hlj Hj Hg' He. refine (Hk j _ g' e Hlj Hj _ He).
        apply good_update; auto. intros _ _. unfold range. apply good_cell_range; auto using pos_le.
        unfold beyond, Exact.pos. destruct (Nat.odd rd); repeat split; try lia; discriminate. }
      set (k1 := fun next c' => match store names base rd id name cur next c' with
                                | Some c'' => k next c'' | None => leaf IllFormed end).
      assert (Hk1 : forall j g, j <= L -> gd g -> k1 j g = K j g).
      { intros j g Hj [Hlg _]. unfold k1, K. rewrite (store_update names base rd id name cur j g Hrd Hnm Hlg).
        f_equal. f_equal. unfold range. unfold Exact.pos. destruct (Nat.odd rd); reflexivity. }
      assert (HP : polite cur (outs k1)).
      { intros j g g' e Hlj Hj Hg'. unfold outs. rewrite Hk1 by assumption. now apply HK. }
      rewrite EX, (weight_captured (Nat.odd rd) true cur); auto; [|apply X_weak; auto using pos_le].
      fold K. rewrite <- (weight_cong (Nat.odd rd) true cur _ k1 K); auto; [|apply X_weak; auto using pos_le].
      cbn [called steps]. rewrite steps_or_else. specialize (Hx cur c k1 Hc Hg HP). eapply Nat.le_trans; [exact Hx|].
      fold k1. lia.
    - (* Rep *) cbn [compiles] in Hcm. cbn [size] in Hsz.
      apply andb_true_iff in Hcm as [Hcm _].
      intros cur c k Hc Hg Hk. rewrite (X_Rep cf names base rd v mode lo hi n Hcl).
      cbn [c_m]. fold s. unfold s. rewrite <- side_view.
      apply (pays_rep cf names base (Nat.odd rd) n (c_m cf names base f rd n) (m cf names base f rd n)); auto.
      + assert (Hyes : compiles cf names f rd n = true -> same_matcher (c_m cf names base f rd n) (m cf names base f rd n)
                  /\ sem names base (Nat.odd rd) (m cf names base f rd n) (X rd v n)
                  /\ pays (Nat.odd rd) (c_m cf names base f rd n) (X rd v n)).
        { intros Hy. split; [apply same_m|]. split; [apply follows; auto; lia|apply IH; auto; lia]. }
        destruct hi as [h|].
        * apply andb_true_iff in Hcm as [_ Hcm].
          destruct (N.eqb_spec h 0) as [->|Hh]; [auto|]. cbn [orb] in Hcm. right. now apply Hyes.
        * right. now apply Hyes.
      + apply X_finder.
      + apply X_class.
      + destruct hi; auto. apply andb_true_iff in Hcm as [Hcm _]. now apply N.leb_le.
    - (* Backref *)
      intros cur c k Hc Hg Hk.
      assert (Et : exists b p, X rd v (Backref id) (pos (Nat.odd rd) cur) c = test b p c).
      { destruct (read_text_test rd (text_in base c (N.to_nat id)) (pos (Nat.odd rd) cur) c) as (b & p & Eb).
        exists b, p. rewrite <- Eb. unfold seen_as. destruct v; reflexivity. }
      destruct Et as (b & p & Et). eapply (pays_shot (Nat.odd rd) _ _ (X rd v (Backref id)) cur c b p); eauto.
      cbn [c_m]. apply backref_shot.
    - (* NBackref *) cbn [compiles] in Hcm. apply andb_true_iff in Hcm as [_ Hcm].
      intros cur c k Hc Hg Hk.
      assert (Et : exists b p, X rd v (NBackref name) (pos (Nat.odd rd) cur) c = test b p c).
      { destruct (read_text_test rd (text_in base c (place name names)) (pos (Nat.odd rd) cur) c) as (b & p & Eb).
        exists b, p. rewrite <- Eb. unfold seen_as. destruct v; reflexivity. }
      destruct Et as (b & p & Et). eapply (pays_shot (Nat.odd rd) _ _ (X rd v (NBackref name)) cur c b p); eauto.
      cbn [c_m]. destruct (unique_position (Some name) names) as [j|]; [|discriminate]. apply backref_shot.
    - (* Look *) destruct d; cbn [compiles] in Hcm; cbn [size] in Hsz.
      + intros cur c k Hc Hg Hk.
        assert (EX : X rd v (Look Ahead n) (pos (Nat.odd rd) cur) c
                  = match X rd false n (pos (Nat.odd rd) cur) c with
                    | Stop g' => Stop g'
                    | Found _ g' _ => one (pos (Nat.odd rd) cur) g'
                    end) by (unfold seen_as; destruct v; reflexivity).
        rewrite EX. clear EX. cbn [c_m]. fold s. cbn [called steps].
        destruct (trivial n) eqn:T.
        * rewrite (X_class cf names base rd false n T), reads_spec, side_view by assumption. fold s.
          unfold c_deref. pose proof (nth_error_at base s Hs cur Hc) as Hne.
          destruct (nth_error s cur) as [a|].
          -- destruct (Nat.eqb_spec cur (length s)); [lia|]. unfold c_assert_that.
             destruct (match_one cf n a); [|cbn; lia]. cbn [one]. rewrite weight_one by assumption. lia.
          -- cbn [Paying.weight]. lia.
        * rewrite steps_on_result.
          rewrite (same_m cf names base f rd n c_success success same_success cur c).
          pose proof (follows cf names base f rd false n ltac:(lia) Hcm Hl cur c success Hc Hg (polite_success _ _ _)) as Hx.
          rewrite follow_success in Hx.
          destruct (X rd false n (pos (Nat.odd rd) cur) c) as [g'|j g' more]; [cbn [Paying.weight]; lia|].
          apply (proj1 (norm_res _ _ _)) in Hx. rewrite Hx, weight_one by assumption. lia.
      + apply andb_true_iff in Hcm as [Hbi Hcm]. intros cur c k Hc Hg Hk.
        assert (Eo : Nat.odd (S rd) = negb (Nat.odd rd)) by (rewrite Nat.odd_succ, <- Nat.negb_odd; reflexivity).
        assert (Ep : pos (Nat.odd rd) cur = pos (Nat.odd (S rd)) (L - cur)).
        { rewrite Eo. destruct (Nat.odd rd); cbn; lia. }
        assert (EX : X rd v (Look Behind n) (pos (Nat.odd rd) cur) c
                  = match X (S rd) true (invert n) (pos (Nat.odd (S rd)) (L - cur)) c with
                    | Stop g' => Stop g'
                    | Found _ g' _ => one (pos (Nat.odd rd) cur) g'
                    end).
        { rewrite <- Ep. unfold seen_as. rewrite invert_invert. destruct v; reflexivity. }
        rewrite EX. clear EX. cbn [c_m]. fold s. rewrite Hbi. cbn [negb called steps].
        destruct (trivial n) eqn:T.
        * assert (Ti : trivial (invert n) = true) by now rewrite trivial_invert.
          rewrite (X_class cf names base (S rd) true _ Ti), reads_spec, side_view by lia.
          rewrite view_S. fold s.
          destruct cur as [|cur].
          -- rewrite Nat.sub_0_r. replace (nth_error (rev s) L) with (@None ascii); [cbn [Paying.weight]; lia|].
             symmetry. apply nth_error_None. rewrite rev_length. lia.
          -- cbn [Nat.eqb]. replace (S cur - 1) with cur by lia.
             replace (nth_error (rev s) (L - S cur)) with (nth_error s cur)
               by (rewrite <- Hs; symmetry; apply nth_error_rev; lia).
             unfold c_deref. pose proof (nth_error_at base s Hs cur ltac:(lia)) as Hne.
             destruct (nth_error s cur) as [a|]; [|lia]. rewrite match_one_invert. unfold c_assert_that.
             destruct (match_one cf n a); [|cbn; lia]. cbn [one]. rewrite weight_one by assumption. lia.
        * assert (Hlc : L - cur <= L) by lia.
          assert (Hli : lines_ok cf (invert n)) by (unfold lines_ok in *; rewrite has_begin_line_invert; exact Hl).
          rewrite steps_on_result, Hs.
          rewrite (same_m cf names base f (S rd) (invert n) c_success success same_success (L - cur) c).
          pose proof (follows cf names base f (S rd) true (invert n) ltac:(rewrite size_invert; lia) Hcm Hli (L - cur) c success Hlc Hg
                        (polite_success _ _ _)) as Hx.
          rewrite follow_success in Hx.
          destruct (X (S rd) true (invert n) (pos (Nat.odd (S rd)) (L - cur)) c) as [g'|j g' more]; [cbn [Paying.weight]; lia|].
          apply (proj1 (norm_res _ _ _)) in Hx. rewrite Hx, weight_one by assumption. lia.
  Qed.
End Nodes.
