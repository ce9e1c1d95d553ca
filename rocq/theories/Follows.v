(** Every tree that compiles follows [explore] (Explore.v); lifted to the calls
    in Searches.v. *)
From Verif Require Import Matcher Basics Safe Impl Spec Paths Mirror Adequacy Calls Lift Matching Api
  Results Walk Exact Relate Tracks Tracking Explore Explored.

(** ** Reading the text of a group *)

Section Text.
  Variable cf : config.

  Lemma occurs_app s a : forall t i, occurs cf s (t ++ [a]) i
    = occurs cf s t i && char_at s (accepts cf (Lit a)) (i + length t).
  Proof.
    induction t as [|b t IH]; intros i; cbn [app occurs length].
    - now rewrite Nat.add_0_r, andb_true_r.
    - rewrite IH, <- andb_assoc. now replace (S i + length t) with (i + S (length t)) by lia.
  Qed.

  Lemma occurs_bound s : forall t i, t <> [] -> occurs cf s t i = true -> i + length t <= length s.
  Proof.
    induction t as [|a t IH]; intros i Hn H; [easy|]. cbn in H. apply andb_true_iff in H as [H1 H2].
    unfold char_at in H1. destruct (nth_error s i) eqn:E; [|discriminate].
    assert (i < length s) by (apply nth_error_Some; congruence).
    destruct t as [|b t]; [cbn; lia|]. apply IH in H2; [|discriminate]. cbn in *. lia.
  Qed.

  Lemma occurs_fits s t i : i <= length s -> occurs cf s t i = true -> i + length t <= length s.
  Proof.
    destruct t as [|a t]; [cbn; lia|]. intros _ H. apply occurs_bound; [discriminate|exact H].
  Qed.

  Lemma occurs_mirror s : forall t cur, cur <= length s -> occurs cf (rev s) (rev t) cur
    = Nat.leb (length t) (length s - cur) && occurs cf s t (length s - cur - length t).
  Proof.
    induction t as [|a t IH]; intros cur Hc; [reflexivity|].
    cbn [rev]. rewrite occurs_app, rev_length, IH by assumption. cbn [length occurs].
    destruct (Nat.leb_spec (length t) (length s - cur)) as [H|H].
    - destruct (Nat.leb_spec (S (length t)) (length s - cur)) as [H'|H'].
      + cbn [andb]. rewrite andb_comm. f_equal; [|f_equal; lia].
        replace (cur + length t) with (length s - S (length s - cur - S (length t))) by lia.
        apply (char_at_mirror s). lia.
      + cbn [andb]. rewrite andb_comm. apply andb_false_intro1. unfold char_at.
        replace (nth_error (rev s) (cur + length t)) with (@None ascii); [reflexivity|].
        symmetry. apply nth_error_None. rewrite rev_length. lia.
    - destruct (Nat.leb_spec (S (length t)) (length s - cur)); [lia|]. reflexivity.
  Qed.

  Lemma occurs_repeats s : forall t i, occurs cf s t i = true <-> repeats cf s i t.
  Proof.
    induction t as [|a t IH]; intros i.
    - split; [constructor|reflexivity].
    - rewrite (repeats_cons cf s i a t). cbn [occurs]. rewrite andb_true_iff, IH. reflexivity.
  Qed.
End Text.

Lemma place_of nm names i : unique_position (Some nm) names = Some i -> place nm names = i.
Proof.
  intros H. pose proof (unique_position_nth _ _ _ H) as Hn.
  refine (unique_position_eq _ _ _ (place nm names) H _).
  clear H. revert i Hn. induction names as [|y r IH]; intros [|i] Hn; try discriminate; cbn in *.
  - injection Hn as ->. now rewrite (proj2 (same_text_eq nm nm) eq_refl).
  - destruct y as [x|]; [|eauto]. destruct (same_text nm x) eqn:E; [|cbn; eauto].
    apply same_text_eq in E. now subst.
Qed.

Section Nodes.
  Variable cf : config.
  Variable names : list group_name.
  Variable base : list ascii.
  Local Notation L := (length base).
  Local Notation gd := (good names base).
  Local Notation E := (explore cf names base).
  Local Notation pos := (pos base).

  (** ** The clauses of [explore] *)

  Lemma E_class d b n : is_class n = true -> forall i g,
    E d b n i g = reads base (Nat.odd d) (accepts cf n) i g.
  Proof. intros H i g. destruct n; try discriminate H; cbn [explore]; rewrite H; reflexivity. Qed.

  Lemma E_Seq d b l : is_class (Seq l) = false -> forall i g,
    E d b (Seq l) i g = chain (map (E d b) (if b then rev l else l)) i g.
  Proof.
    intros H i g. cbn [explore]. rewrite H. destruct b.
    - match goal with |- ?F l one i g = _ =>
        assert (G : forall l' acc, F l' (chain acc) = chain (map (E d true) (rev l') ++ acc)) end.
      { induction l' as [|x r IH]; intros acc; [reflexivity|].
        cbn [rev]. rewrite map_app, <- app_assoc. cbn [map app].
        rewrite <- IH. reflexivity. }
      specialize (G l []). rewrite app_nil_r in G. rewrite <- G. reflexivity.
    - match goal with |- ?F l i g = _ =>
        assert (G : forall l', F l' = chain (map (E d false) l')) end.
      { induction l' as [|x r IH]; [reflexivity|].
        change (chain (map (E d false) (x :: r))) with (fun i g => followed_by (E d false x i g) (chain (map (E d false) r))).
        rewrite <- IH. reflexivity. }
      now rewrite G.
  Qed.

  Lemma E_Alt d b l : is_class (Alt l) = false -> forall i g,
    E d b (Alt l) i g = any cf base (Nat.odd d) (E d b) l i g.
  Proof.
    intros H i g. cbn [explore]. rewrite H.
    match goal with |- ?F l g = _ =>
      assert (G : forall l', F l' = any cf base (Nat.odd d) (E d b) l' i) end.
    { induction l' as [|x r IH]; [reflexivity|].
      change (any cf base (Nat.odd d) (E d b) (x :: r) i)
        with (fun g => if is_class (Alt (x :: r)) then reads base (Nat.odd d) (accepts cf (Alt (x :: r))) i g
                       else otherwise (E d b x i g) (any cf base (Nat.odd d) (E d b) r i)).
      rewrite <- IH. reflexivity. }
    now rewrite G.
  Qed.

  Lemma E_Rep d b md lo hi x : is_class (Rep md lo hi x) = false -> forall i g,
    E d b (Rep md lo hi x) i g
    = followed_by (starting (E d b x) md lo i g) (looping cf base (E d b x) md (remaining hi lo)).
  Proof.
    intros H i g. cbn [explore]. rewrite H, exactly_chain. unfold starting, looping.
    destruct md; [destruct (ungreedy cf)|destruct (ungreedy cf)|]; reflexivity.
  Qed.

  (** ** Every search is sound *)

  Lemma finder_parts left (F : node -> nat -> caps -> search) l :
    (forall x, In x l -> finder names base left (may_be_empty x) (F x)) ->
    finder names base left (forallb may_be_empty l) (chain (map F l)).
  Proof.
    induction l as [|x r IH]; intros H i g Hi Hg; cbn [map chain forallb].
    - now apply finder_one.
    - apply finder_followed; auto.
      + apply H; cbn; auto.
      + apply IH. intros y Hy. apply H. cbn. auto.
  Qed.

  Lemma finder_alts left (F : node -> nat -> caps -> search) l :
    (forall x, In x l -> finder names base left (may_be_empty x) (F x)) ->
    finder names base left (existsb may_be_empty l) (any cf base left F l).
  Proof.
    induction l as [|x r IH]; intros H i g Hi Hg; cbn [any existsb].
    - exact Hg.
    - assert (Hor : forall z z' j, beyond base left z i j -> beyond base left (z || z') i j).
      { intros z z' j (H1 & H2 & H3). split; [auto|]. split; [auto|]. intros Hz.
        apply orb_false_iff in Hz. now apply H3. }
      destruct (is_class (Alt (x :: r))).
      + eapply sound_mono; [|apply finder_reads; auto]. intros j (H1 & H2 & H3).
        split; [auto|]. split; auto.
      + apply sound_otherwise.
        * eapply sound_mono; [|apply H; cbn; auto]. auto.
        * intros g' Hg'. eapply sound_mono; [|apply IH; auto; intros y Hy; apply H; cbn; auto].
          intros j Hj. rewrite orb_comm. auto.
  Qed.

  Lemma good_cell_range left i j : i <= L -> beyond base left true i j ->
    good_cell base (Some (if left then (j, i) else (i, j))).
  Proof. intros Hi (H1 & H2 & _). destruct left; cbn; auto. Qed.

  Lemma text_in_length g id : length (text_in base g id) <= L.
  Proof.
    unfold text_in. destruct (nth id g None) as [[b e]|]; [|cbn; lia].
    rewrite firstn_length, skipn_length. lia.
  Qed.

  Lemma finder_text d t : finder names base (Nat.odd d) true (fun i g => read_text cf base d (t g) i g).
  Proof.
    intros i g Hi Hg. unfold read_text. destruct (Nat.odd d).
    - apply sound_test; auto. intros H. split; [lia|]. split; [lia|discriminate].
    - apply sound_test; auto. intros H. apply occurs_fits in H; [|assumption].
      assert (length (if Nat.eqb d 0 then t g else rev (t g)) = length (t g))
        by (destruct (Nat.eqb d 0); rewrite ?rev_length; reflexivity).
      split; [lia|]. split; [lia|discriminate].
  Qed.

  Lemma explore_finder n : forall dp bk, finder names base (Nat.odd dp) (may_be_empty n) (E dp bk n).
  Proof.
    induction n using node_ind'; intros dp bk i g Hi Hg;
      match goal with |- context [may_be_empty ?n] => destruct (is_class n) eqn:Hc end;
      try discriminate Hc;
      try (rewrite E_class by exact Hc; rewrite class_not_empty by exact Hc; now apply finder_reads);
      try (cbn [explore]; apply sound_test; auto; intros _; now apply beyond_self).
    - now apply finder_one.
    - (* Neg *) cbn [explore]. rewrite Hc. cbn [may_be_empty]. cbn [is_class] in Hc. rewrite Hc. cbn [negb].
      pose proof (IHn dp bk i g Hi Hg) as Hn. destruct (E dp bk n i g); cbn [sound] in Hn.
      + now apply finder_one.
      + apply Hn.
    - (* Seq *) rewrite E_Seq by exact Hc. cbn [may_be_empty].
      replace (forallb may_be_empty l) with (forallb may_be_empty (if bk then rev l else l))
        by (destruct bk; [apply forallb_rev|reflexivity]).
      apply finder_parts; auto. intros x Hx. rewrite Forall_forall in H. apply H.
      destruct bk; [now apply in_rev|assumption].
    - (* Alt *) rewrite E_Alt by exact Hc. cbn [may_be_empty].
      apply finder_alts; auto. intros x Hx. rewrite Forall_forall in H. now apply H.
    - (* Cap *) cbn [explore]. cbn [is_class may_be_empty]. apply sound_captured; [now apply IHn|].
      intros j Hj. apply (beyond_weaken base) in Hj.
      now apply good_cell_range.
    - (* Rep *) rewrite E_Rep by exact Hc. cbn [may_be_empty].
      assert (Hf : finder names base (Nat.odd dp) (may_be_empty n) (E dp bk n)) by (intros ? ?; apply IHn).
      rewrite <- (andb_true_r (_ || _)). apply finder_followed; auto.
      + assert (Hs : sound names base (beyond base (Nat.odd dp) (N.eqb lo 0 || may_be_empty n) i)
                  (chain (repeat (E dp bk n) (N.to_nat lo)) i g)).
        { rewrite <- exactly_chain.
          replace (N.eqb lo 0) with (Nat.eqb (N.to_nat lo) 0)
            by (destruct (N.eqb_spec lo 0), (Nat.eqb_spec (N.to_nat lo) 0); lia).
          now apply finder_exactly. }
        unfold starting. destruct md; auto. now apply sound_first.
      + eapply finder_looping; eauto.
    - (* Backref *) cbn [explore is_class]. now apply (finder_text dp (fun g => text_in base g (N.to_nat id))).
    - (* NBackref *) cbn [explore is_class]. now apply (finder_text dp (fun g => text_in base g (place nm names))).
    - (* Look *) cbn [explore is_class may_be_empty].
      set (behind := xorb bk _). clearbody behind.
      assert (Hs : exists z lf, sound names base (beyond base lf z i)
                (if behind then E (S dp) true n i g else E dp false n i g)).
      { destruct behind; do 2 eexists; now apply IHn. }
      destruct Hs as (z & lf & Hs).
      destruct (if behind then E (S dp) true n i g else E dp false n i g); cbn [sound] in Hs; [exact Hs|].
      apply sound_one; [now apply beyond_self|apply Hs].
  Qed.

  (** ** Groups *)

  Lemma set_cell_update i v : forall c, i < length c -> set_cell i v c = Some (update i (fun _ => v) c).
  Proof.
    induction i as [|i IH]; intros [|x c] H; cbn in *; try lia; [reflexivity|].
    rewrite IH by lia. reflexivity.
  Qed.

  Lemma clear_cell_update i c : i < length c ->
    clear_cell i c = Some (update i (option_map (fun v => (fst v, fst v))) c).
  Proof.
    intros H. unfold clear_cell. destruct (nth_error c i) as [v|] eqn:Ev; [|apply nth_error_None in Ev; lia].
    rewrite set_cell_update by assumption. f_equal.
    revert i H Ev. induction c as [|x c IH]; intros [|i] H Ev; cbn in *; try lia.
    - injection Ev as ->. now destruct v as [[b e]|].
    - f_equal. apply IH; auto. lia.
  Qed.

  Lemma store_update rd id nm b e c : rd <= 1 ->
    match nth_error names (N.to_nat id) with Some nm' => name_eqb nm nm' | None => false end = true ->
    length c = length names ->
    store names base rd id nm b e c
    = Some (update (N.to_nat id) (fun _ => Some (if Nat.odd rd then (L - e, L - b) else (b, e))) c).
  Proof.
    intros Hr Hn Hl. unfold store. destruct (nth_error names (N.to_nat id)) eqn:En; [|discriminate].
    rewrite Hn. assert (N.to_nat id < length c) by (rewrite Hl; apply nth_error_Some; congruence).
    destruct rd as [|[|rd]]; [| |lia]; now apply set_cell_update.
  Qed.

  Lemma follow_captured left z cur t k id range : cur <= L -> sound names base (beyond base left z (pos left cur)) t ->
    let K := fun j g => k j (update id (fun _ => Some (range (pos left j))) g) in
    polite names base cur K ->
    follow base left (captured id range t) k
    = or_else (follow base left t K)
        (fun g => Res (update id (option_map (fun v => (fst v, fst v))) g) 0 false).
  Proof.
    intros Hc Ht K HK. induction t as [g|i g more IH]; cbn [captured follow]; [reflexivity|].
    cbn [sound] in Ht. destruct Ht as (H1 & H2 & H3).
    destruct (beyond_pos base left z cur i Hc H1) as (B1 & B2 & B3).
    rewrite or_else_assoc. unfold K at 1. rewrite pos_pos by assumption.
    apply or_else_cong. intros g' e He. apply IH, H3.
    refine (HK (pos left i) g g' e B1 B2 H2 _). unfold K. now rewrite pos_pos by assumption.
  Qed.

  (** ** Nodes *)

  Definition seen_as (rd : nat) (v : bool) (t : node) : nat -> caps -> search :=
    E rd v (if v then invert t else t).
  Local Notation X := seen_as.

  Lemma X_finder rd v t : finder names base (Nat.odd rd) (may_be_empty t) (X rd v t).
  Proof.
    unfold seen_as. destruct v; [rewrite <- (may_be_empty_invert t)|]; apply explore_finder.
  Qed.

  Lemma X_weak rd v t : finder names base (Nat.odd rd) true (X rd v t).
  Proof. eapply finder_weaken, X_finder. Qed.

  Lemma X_class rd v t : trivial t = true -> read_by base (Nat.odd rd) (X rd v t) (match_one cf t).
  Proof.
    intros T i g. rewrite trivial_is_class in T. unfold seen_as.
    rewrite E_class by (destruct v; rewrite ?is_class_invert; assumption).
    apply reads_ext. intros a. rewrite match_one_accepts. destruct v; [apply accepts_invert|reflexivity].
  Qed.

  Lemma X_Seq rd v l : is_class (Seq l) = false -> forall i g,
    X rd v (Seq l) i g = chain (map (X rd v) l) i g.
  Proof.
    intros H i g. unfold seen_as. destruct v.
    - assert (Hc : is_class (Seq (rev (map invert l))) = false)
        by (rewrite <- invert_Seq, is_class_invert; exact H).
      rewrite invert_Seq, E_Seq, rev_involutive, map_map by exact Hc. reflexivity.
    - now rewrite E_Seq by exact H.
  Qed.

  Lemma X_Alt rd v l : is_class (Alt l) = false -> forall i g,
    X rd v (Alt l) i g = any cf base (Nat.odd rd) (E rd v) (map (fun x => if v then invert x else x) l) i g.
  Proof.
    intros H i g. unfold seen_as. destruct v; cbn [invert].
    - rewrite E_Alt; [reflexivity|].
      change (is_class (invert (Alt l)) = false). now rewrite is_class_invert.
    - rewrite E_Alt, map_id by exact H. reflexivity.
  Qed.

  Lemma X_Rep rd v md lo hi x : is_class (Rep md lo hi x) = false -> forall i g,
    X rd v (Rep md lo hi x) i g
    = followed_by (starting (X rd v x) md lo i g) (looping cf base (X rd v x) md (remaining hi lo)).
  Proof.
    intros H i g. unfold seen_as. destruct v; cbn [invert].
    - apply E_Rep. change (is_class (invert (Rep md lo hi x)) = false). now rewrite is_class_invert.
    - now apply E_Rep.
  Qed.

  Lemma sem_test left mx (p q : nat -> bool) :
    (forall cur c k, cur <= L -> norm (mx cur c k) = norm (assert_that (p cur) cur c k)) ->
    (forall cur, cur <= L -> p cur = q (pos left cur)) ->
    sem names base left mx (fun i g => test (q i) i g).
  Proof.
    intros H1 H2 cur c k Hc Hg Hk. rewrite H1, H2 by assumption. symmetry. now apply follow_test.
  Qed.

  Lemma backref_sem rd i : i < length names ->
    sem names base (Nat.odd rd) (backref_match cf base rd i)
      (fun j g => read_text cf base rd (text_in base g i) j g).
  Proof.
    intros Hi cur c k Hc Hg Hk. assert (Hlen : i < length c) by (destruct Hg as [-> _]; exact Hi).
    destruct (nth_error c i) as [val|] eqn:En; [|apply nth_error_None in En; lia].
    assert (Hval : valid_range base val).
    { destruct Hg as [_ Hg]. rewrite Forall_forall in Hg. apply (Hg val). eapply nth_error_In; eauto. }
    assert (Et : text_in base c i = cell_content base val).
    { unfold text_in. rewrite (nth_error_nth c i None En). destruct val as [[b e]|]; reflexivity. }
    pose proof (backref_match_spec cf base rd i cur c k val Hc En Hval) as Hb. cbn zeta in Hb.
    set (t := cell_content base val) in *. rewrite Et. clearbody t.
    set (t' := match rd with 0 => t | _ => rev t end) in *.
    assert (Hl : length t' = length t) by (unfold t'; destruct rd; rewrite ?rev_length; reflexivity).
    assert (Eq : read_text cf base rd t (pos (Nat.odd rd) cur) c
                 = test (occurs cf (view base rd) t' cur) (pos (Nat.odd rd) (cur + length t')) c).
    { unfold read_text, Exact.pos. rewrite <- side_view. rewrite Hl. destruct (Nat.odd rd) eqn:Eo; cbn [side].
      - assert (t' = rev t) by (unfold t'; destruct rd; [discriminate|reflexivity]). subst t'.
        rewrite H, occurs_mirror by assumption. f_equal. lia.
      - assert (t' = if Nat.eqb rd 0 then t else rev t) by (unfold t'; destruct rd; reflexivity).
        now rewrite <- H. }
    rewrite Eq. destruct Hb as [H1 H2]. destruct (occurs cf (view base rd) t' cur) eqn:Eo.
    - pose proof Eo as Eo'. apply occurs_fits in Eo'; [|rewrite view_length; exact Hc]. rewrite view_length in Eo'.
      rewrite H1 by (now apply occurs_repeats). cbn [test]. symmetry. now apply follow_one.
    - destruct H2 as [e ->]; [|reflexivity]. intros Hr. apply occurs_repeats in Hr. congruence.
  Qed.

  Theorem follows : forall f rd v n, size n <= f ->
    compiles cf names f rd n = true -> lines_ok cf n ->
    sem names base (Nat.odd rd) (m cf names base f rd n) (X rd v n).
  Proof.
    induction f as [|f IH]; intros rd v n Hsz Hcm Hl; [discriminate|].
    pose proof (view_length base rd) as Hs.
    destruct (is_class n) eqn:Hcl.
    { assert (T : trivial n = true) by now rewrite trivial_is_class.
      intros cur c k Hc Hg Hk. rewrite m_trivial by assumption. rewrite <- side_view.
      apply (sem_read names base (Nat.odd rd)); auto. now apply X_class. }
    assert (Hatom : forall (q : nat -> bool), invert n = n -> (forall i g, E rd v n i g = test (q i) i g) ->
              forall i g, i <= L -> gd g -> test (q i) i g = X rd v n i g).
    { intros q Hi Hq i g _ _. unfold seen_as. replace (if v then invert n else n) with n by (destruct v; auto).
      symmetry. apply Hq. }
    set (s := view base rd) in *.
    destruct n; try discriminate Hcl.
    - (* Empty *) intros cur c k Hc Hg Hk. cbn [m]. unfold seen_as. destruct v; symmetry; now apply follow_one.
    - (* BeginLine *)
      eapply sem_ext; [apply (Hatom (fun i => if Nat.odd rd then at_line_end cf base i else at_line_start cf base i) eq_refl); intros; cbn [explore is_class]; reflexivity|].
      apply (sem_test _ _ (at_line_start cf s)).
      + intros cur c k Hc. cbn [m]. fold s. unfold at_line_start.
        destruct (Nat.eqb_spec cur 0) as [->|Hn]; cbn [orb]; [reflexivity|].
        destruct (multiline cf) eqn:ML; cbn [andb]; [|reflexivity].
        destruct Hl as [Hl|[Hl|Hl]]; try discriminate; [|congruence]. rewrite Hl.
        destruct cur as [|cur]; [easy|]. cbn [char_before].
        replace (S cur - 1) with cur by lia. unfold deref, char_at.
        pose proof (nth_error_at base s Hs cur ltac:(lia)) as Hne.
        destruct (nth_error s cur); [|lia]. now rewrite linebreak_newline.
      + intros cur Hc. unfold s. rewrite <- side_view. destruct (Nat.odd rd); cbn [Exact.pos side]; [|reflexivity].
        now rewrite at_line_end_mirror.
    - (* BeginInput *)
      eapply sem_ext; [apply (Hatom (fun i => Nat.eqb i (if Nat.odd rd then L else 0)) eq_refl); intros; cbn [explore is_class]; reflexivity|].
      apply (sem_test _ _ (fun cur => Nat.eqb cur 0)); [intros; reflexivity|].
      intros cur Hc. destruct (Nat.odd rd); cbn [Exact.pos]; [|reflexivity].
      destruct (Nat.eqb_spec cur 0), (Nat.eqb_spec (L - cur) L); auto; lia.
    - (* EndLine *)
      eapply sem_ext; [apply (Hatom (fun i => if Nat.odd rd then at_line_start cf base i else at_line_end cf base i) eq_refl); intros; cbn [explore is_class]; reflexivity|].
      apply (sem_test _ _ (at_line_end cf s)).
      + intros cur c k Hc. cbn [m]. fold s. unfold at_line_end.
        destruct (Nat.eqb_spec cur (length s)) as [->|Hn]; cbn [orb]; [reflexivity|].
        destruct (multiline cf) eqn:ML; cbn [andb]; [|reflexivity].
        unfold deref, char_at.
        pose proof (nth_error_at base s Hs cur ltac:(lia)) as Hne.
        destruct (nth_error s cur); [|lia]. now rewrite linebreak_newline.
      + intros cur Hc. unfold s. rewrite <- side_view. destruct (Nat.odd rd); cbn [Exact.pos side]; [|reflexivity].
        now rewrite at_line_start_mirror.
    - (* EndInput *)
      eapply sem_ext; [apply (Hatom (fun i => Nat.eqb i (if Nat.odd rd then 0 else L)) eq_refl); intros; cbn [explore is_class]; reflexivity|].
      apply (sem_test _ _ (fun cur => Nat.eqb cur L)).
      + intros cur c k Hc. cbn [m]. fold s. now rewrite Hs.
      + intros cur Hc. destruct (Nat.odd rd); cbn [Exact.pos]; [|reflexivity].
        destruct (Nat.eqb_spec cur L), (Nat.eqb_spec (L - cur) 0); auto; lia.
    - (* WordB *)
      eapply sem_ext; [apply (Hatom (at_word_boundary base) eq_refl); intros; cbn [explore is_class]; reflexivity|].
      apply (sem_test _ _ (at_word_boundary s)).
      + intros cur c k Hc. cbn [compiles] in Hcm. cbn [m]. fold s. rewrite Hcm. cbn [negb].
        unfold at_word_boundary.
        assert (Hahead : forall b, b = char_before s is_word_char cur ->
          norm (if Nat.eqb cur (length s) then assert_that (xorb b false) cur c k
                else deref s cur (fun a => assert_that (xorb b (match_one cf n_word a)) cur c k))
          = norm (assert_that (xorb (char_before s is_word_char cur) (char_at s is_word_char cur)) cur c k)).
        { intros b Eb. rewrite <- Eb. unfold char_at, deref.
          pose proof (nth_error_at base s Hs cur ltac:(lia)) as Hne.
          destruct (nth_error s cur) as [a|].
          - destruct (Nat.eqb_spec cur (length s)); [lia|]. now rewrite word_word_char.
          - destruct (Nat.eqb_spec cur (length s)); [|lia]. reflexivity. }
        destruct cur as [|cur].
        * cbn [Nat.eqb]. now apply Hahead.
        * cbn [Nat.eqb]. replace (S cur - 1) with cur by lia.
          pose proof (nth_error_at base s Hs cur ltac:(lia)) as Hne.
          unfold deref at 1. destruct (nth_error s cur) as [a|] eqn:En; [|lia].
          rewrite word_word_char. apply Hahead. cbn [char_before]. unfold char_at. now rewrite En.
      + intros cur Hc. unfold s. rewrite <- side_view. destruct (Nat.odd rd); cbn [Exact.pos side]; [|reflexivity].
        now rewrite at_word_boundary_mirror.
    - (* Neg *) cbn [compiles] in Hcm. apply andb_true_iff in Hcm as [Hta Hcm]. cbn [size] in Hsz.
      cbn [is_class] in Hcl.
      destruct (is_assertion n) eqn:A; [|rewrite orb_false_r, trivial_is_class in Hta; congruence].
      intros cur c k Hc Hg Hk. cbn [m]. rewrite A.
      assert (EX : X rd v (Neg n) (pos (Nat.odd rd) cur) c
                = match X rd v n (pos (Nat.odd rd) cur) c with
                  | Stop g' => one (pos (Nat.odd rd) cur) g'
                  | Found _ g' _ => Stop g'
                  end).
      { unfold seen_as. destruct v; cbn [invert explore is_class]; rewrite ?is_class_invert, Hcl; reflexivity. }
      rewrite EX. pose proof (IH rd v n ltac:(lia) Hcm Hl cur c success Hc Hg (polite_success _ _ _)) as Hx.
      rewrite follow_success in Hx.
      destruct (X rd v n (pos (Nat.odd rd) cur) c) as [g'|j g' more].
      + destruct (m cf names base f rd n cur c success) as [c0 e0 [|]| | |]; cbn [norm] in Hx; try discriminate.
        injection Hx as ->. cbn [on_result]. symmetry. now apply follow_one.
      + apply (proj1 (norm_res _ _ _)) in Hx. rewrite Hx. reflexivity.
    - (* Seq *) cbn [compiles] in Hcm.
      destruct l as [|x0 r0] eqn:El; [discriminate|]. rewrite <- El in *.
      assert (Hne : l <> []) by (subst; discriminate). clear El.
      eapply sem_ext; [intros i g _ _; symmetry; exact (X_Seq rd v l Hcl i g)|].
      unfold m. fold (m cf names base). fold s. unfold s. rewrite <- side_view.
      apply sem_seq; [assumption|].
      pose proof (lines_ok_list cf l Hl) as Hll.
      assert (Hz : forall x, In x l -> size x <= f) by (intros x Hx; pose proof (size_in_sum l x Hx); rewrite size_Seq in Hsz; lia).
      clear -IH Hcm Hll Hz.
      induction l as [|x r IHl]; constructor.
      + cbn in Hcm. apply andb_true_iff in Hcm as [Hcm _]. inversion Hll; subst.
        split; [|split; [apply X_weak|apply X_class]].
        apply IH; auto. apply Hz. cbn. auto.
      + cbn in Hcm. apply andb_true_iff in Hcm as [_ Hcm]. inversion Hll; subst. apply IHl; auto.
        intros y Hy. apply Hz. cbn. auto.
    - (* Alt *) cbn [compiles] in Hcm.
      destruct l as [|x0 r0] eqn:El; [discriminate|]. rewrite <- El in *.
      assert (Hne : l <> []) by (subst; discriminate). clear El.
      eapply sem_ext; [intros i g _ _; symmetry; exact (X_Alt rd v l Hcl i g)|].
      unfold m. fold (m cf names base). fold s. unfold s. rewrite <- side_view.
      apply sem_alt; [assumption|].
      pose proof (lines_ok_list cf l Hl) as Hll.
      assert (Hz : forall x, In x l -> size x <= f) by (intros x Hx; pose proof (size_in_sum l x Hx); rewrite size_Alt in Hsz; lia).
      clear -IH Hcm Hll Hz.
      induction l as [|x r IHl]; constructor.
      + cbn in Hcm. apply andb_true_iff in Hcm as [Hcm _]. inversion Hll; subst.
        split; [split; [|split; [apply (X_weak rd v)|apply (X_class rd v)]]|].
        * apply (IH rd v); auto. apply Hz. cbn. auto.
        * destruct v; rewrite ?is_class_invert; split; auto. intros a. now rewrite accepts_invert.
      + cbn in Hcm. apply andb_true_iff in Hcm as [_ Hcm]. inversion Hll; subst. apply IHl; auto.
        intros y Hy. apply Hz. cbn. auto.
    - (* Cap *) cbn [compiles] in Hcm. cbn [size] in Hsz.
      apply andb_true_iff in Hcm as [Hcm Hcn]. apply andb_true_iff in Hcm as [Hnm Hrd].
      apply Nat.leb_le in Hrd.
      assert (Hx : sem names base (Nat.odd rd) (m cf names base f rd n) (X rd v n)) by (apply IH; auto; lia).
      assert (Hid : N.to_nat id < length names).
      { destruct (nth_error names (N.to_nat id)) eqn:En; [|discriminate].
        apply nth_error_Some. congruence. }
      intros cur c k Hc Hg Hk. cbn [m].
      set (range := fun j => if Nat.odd rd then (j, pos (Nat.odd rd) cur) else (pos (Nat.odd rd) cur, j)).
      assert (EX : X rd v (Cap id name n) (pos (Nat.odd rd) cur) c
                = captured (N.to_nat id) range (X rd v n (pos (Nat.odd rd) cur) c))
        by (unfold seen_as, range; destruct v; reflexivity).
      set (K := fun j g => k j (update (N.to_nat id) (fun _ => Some (range (pos (Nat.odd rd) j))) g)).
      assert (HK : polite names base cur K).
      { intros j g g' e Hlj Hj Hg' He. refine (Hk j _ g' e Hlj Hj _ He).
        apply good_update; auto. intros _ _. unfold range. apply good_cell_range; auto using pos_le.
        unfold beyond, Exact.pos. destruct (Nat.odd rd); repeat split; try lia; discriminate. }
      set (k1 := fun next c' => match store names base rd id name cur next c' with
                                | Some c'' => k next c'' | None => IllFormed end).
      assert (Hk1 : forall j g, j <= L -> gd g -> k1 j g = K j g).
      { intros j g Hj [Hlg _]. unfold k1, K. rewrite (store_update rd id name cur j g Hrd Hnm Hlg).
        f_equal. f_equal. unfold range. unfold Exact.pos. destruct (Nat.odd rd); reflexivity. }
      assert (HP : polite names base cur k1).
      { intros j g g' e Hlj Hj Hg'. rewrite Hk1 by assumption. now apply HK. }
      rewrite EX, (follow_captured (Nat.odd rd) true cur); auto; [|apply X_weak; auto using pos_le].
      apply norm_or_else.
      + rewrite (Hx cur c k1 Hc Hg HP).
        apply (follow_cong names base (Nat.odd rd) true cur); auto; [apply X_weak; auto using pos_le|].
        intros j g Hj Hg'. rewrite Hk1; auto. now apply pos_le, Hj.
      + intros c' e He.
        assert (Hg' : gd c') by exact (sem_polite names base _ true _ _ k1 cur c c' e Hx (X_weak rd v n) Hc Hg HP He).
        rewrite clear_cell_update by (destruct Hg' as [-> _]; exact Hid). reflexivity.
    - (* Rep *) cbn [compiles] in Hcm. cbn [size] in Hsz.
      apply andb_true_iff in Hcm as [Hcm _].
      eapply sem_ext; [intros i g _ _; symmetry; exact (X_Rep rd v mode lo hi n Hcl i g)|].
      unfold m. fold (m cf names base). fold s. unfold s. rewrite <- side_view.
      apply sem_rep.
      + destruct hi as [h|].
        * apply andb_true_iff in Hcm as [_ Hcm].
          destruct (N.eqb_spec h 0) as [->|Hh]; [auto|]. cbn [orb] in Hcm. right. apply IH; auto; lia.
        * right. apply IH; auto; lia.
      + apply X_finder.
      + apply X_class.
      + destruct hi; auto. apply andb_true_iff in Hcm as [Hcm _]. now apply N.leb_le.
    - (* Backref *) cbn [compiles] in Hcm. apply andb_true_iff in Hcm as [_ Hcm]. apply Nat.ltb_lt in Hcm.
      eapply sem_ext; [|exact (backref_sem rd _ Hcm)]. intros i g _ _. unfold seen_as. destruct v; reflexivity.
    - (* NBackref *) cbn [compiles] in Hcm. apply andb_true_iff in Hcm as [_ Hcm].
      destruct (unique_position (Some name) names) as [j|] eqn:Eu; [|discriminate].
      assert (Hj : j < length names).
      { apply unique_position_nth in Eu. apply nth_error_Some. congruence. }
      intros cur c k Hc Hg Hk. cbn [m]. rewrite Eu.
      rewrite (backref_sem rd j Hj cur c k Hc Hg Hk). unfold seen_as.
      rewrite <- (place_of _ _ _ Eu). destruct v; reflexivity.
    - (* Look *) destruct d; cbn [compiles] in Hcm; cbn [size] in Hsz.
      + intros cur c k Hc Hg Hk.
        assert (EX : X rd v (Look Ahead n) (pos (Nat.odd rd) cur) c
                  = match X rd false n (pos (Nat.odd rd) cur) c with
                    | Stop g' => Stop g'
                    | Found _ g' _ => one (pos (Nat.odd rd) cur) g'
                    end) by (unfold seen_as; destruct v; reflexivity).
        rewrite EX. clear EX. cbn [m]. fold s.
        destruct (trivial n) eqn:T.
        * rewrite (X_class rd false n T), reads_spec, side_view by assumption. fold s.
          unfold deref. pose proof (nth_error_at base s Hs cur Hc) as Hne.
          destruct (nth_error s cur) as [a|].
          -- destruct (Nat.eqb_spec cur (length s)); [lia|].
             destruct (match_one cf n a); [|reflexivity]. symmetry. now apply follow_one.
          -- destruct (Nat.eqb_spec cur (length s)); [reflexivity|lia].
        * pose proof (IH rd false n ltac:(lia) Hcm Hl cur c success Hc Hg (polite_success _ _ _)) as Hx.
          rewrite follow_success in Hx.
          destruct (X rd false n (pos (Nat.odd rd) cur) c) as [g'|j g' more].
          -- destruct (m cf names base f rd n cur c success) as [c0 e0 [|]| | |]; cbn [norm] in Hx; try discriminate.
             injection Hx as ->. reflexivity.
          -- apply (proj1 (norm_res _ _ _)) in Hx. rewrite Hx. cbn [on_result]. symmetry. now apply follow_one.
      + apply andb_true_iff in Hcm as [Hbi Hcm]. intros cur c k Hc Hg Hk.
        assert (Eo : Nat.odd (S rd) = negb (Nat.odd rd)) by (rewrite Nat.odd_succ, <- Nat.negb_odd; reflexivity).
        assert (Ep : pos (Nat.odd rd) cur = pos (Nat.odd (S rd)) (L - cur)).
        { rewrite Eo. destruct (Nat.odd rd); cbn; lia. }
        assert (EX : X rd v (Look Behind n) (pos (Nat.odd rd) cur) c
                  = match X (S rd) true (invert n) (pos (Nat.odd (S rd)) (L - cur)) c with
                    | Stop g' => Stop g'
                    | Found _ g' _ => one (pos (Nat.odd rd) cur) g'
                    end).
        { rewrite <- Ep. unfold seen_as. rewrite invert_invert. destruct v; reflexivity. }
        rewrite EX. clear EX. cbn [m]. fold s. rewrite Hbi. cbn [negb].
        destruct (trivial n) eqn:T.
        * assert (Ti : trivial (invert n) = true) by now rewrite trivial_invert.
          rewrite (X_class (S rd) true _ Ti), reads_spec, side_view by lia.
          rewrite view_S. fold s.
          destruct cur as [|cur].
          -- rewrite Nat.sub_0_r. replace (nth_error (rev s) L) with (@None ascii); [reflexivity|].
             symmetry. apply nth_error_None. rewrite rev_length. lia.
          -- cbn [Nat.eqb]. replace (S cur - 1) with cur by lia.
             replace (nth_error (rev s) (L - S cur)) with (nth_error s cur)
               by (rewrite <- Hs; symmetry; apply nth_error_rev; lia).
             unfold deref. pose proof (nth_error_at base s Hs cur ltac:(lia)) as Hne.
             destruct (nth_error s cur) as [a|]; [|lia]. rewrite match_one_invert.
             destruct (match_one cf n a); [|reflexivity]. symmetry. now apply follow_one.
        * assert (Hlc : L - cur <= L) by lia.
          assert (Hli : lines_ok cf (invert n)) by (unfold lines_ok in *; rewrite has_begin_line_invert; exact Hl).
          pose proof (IH (S rd) true (invert n) ltac:(rewrite size_invert; lia) Hcm Hli (L - cur) c success Hlc Hg
                        (polite_success _ _ _)) as Hx.
          rewrite follow_success in Hx. rewrite Hs.
          destruct (X (S rd) true (invert n) (pos (Nat.odd (S rd)) (L - cur)) c) as [g'|j g' more].
          -- destruct (m cf names base f (S rd) (invert n) (L - cur) c success) as [c0 e0 [|]| | |]; cbn [norm] in Hx;
               try discriminate.
             injection Hx as ->. reflexivity.
          -- apply (proj1 (norm_res _ _ _)) in Hx. rewrite Hx. cbn [on_result]. symmetry. now apply follow_one.
  Qed.
End Nodes.
