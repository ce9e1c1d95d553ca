(** Every end that a search tries is paid for with a step. *)
From Verif Require Import Costs Matcher Basics Safe Impl Spec Paths Mirror Adequacy Calls Lift Matching Api
  Results Walk Exact Relate Tracks Tracking Explore Explored Follows Costing.

(** The outcomes of a continuation. *)
Definition outs (k : ccont) : cont := fun j c => out (k j c).

Lemma same_outs k : same_cont k (outs k).
Proof. now intros j c. Qed.

Section Weights.
  Variable names : list group_name.
  Variable base : list ascii.
  Local Notation L := (length base).
  Local Notation gd := (good names base).
  Local Notation pos := (pos base).
  Local Notation follow := (follow base).
  Local Notation polite := (polite names base).
  Local Notation finder := (finder names base).
  Local Notation sound := (sound names base).
  Local Notation beyond := (beyond base).

  (** One step for every end that is tried, and the steps of what comes after. *)
  Fixpoint weight (left : bool) (t : search) (k : ccont) : nat :=
    match t with
    | Stop _ => 0
    | Found i g more =>
        S (steps (k (pos left i) g))
        + match out (k (pos left i) g) with
          | Res g' _ false => weight left (more g') k
          | _ => 0
          end
    end.

  Lemma weight_one left i g k : i <= L -> weight left (one (pos left i) g) k = S (steps (k i g)).
  Proof.
    intros H. cbn [weight one]. rewrite pos_pos by assumption.
    destruct (out (k i g)) as [c e [|]| | |]; cbn [weight]; lia.
  Qed.

  Lemma weight_test left b i g k : i <= L ->
    weight left (test b (pos left i) g) k <= S (steps (if b then k i g else c_non_match i g)).
  Proof. intros H. destruct b; [cbn [test]; now rewrite weight_one|cbn; lia]. Qed.

  Lemma weight_otherwise left t h k :
    weight left (otherwise t h) k
    = weight left t k + match follow left t (outs k) with
                        | Res g' _ false => weight left (h g') k
                        | _ => 0
                        end.
  Proof.
    induction t as [g|i g more IH]; cbn [otherwise weight Explored.follow]; [reflexivity|].
    unfold outs at 1. destruct (out (k (pos left i) g)) as [c e [|]| | |]; cbn [or_else]; try lia.
    rewrite IH. lia.
  Qed.

  Lemma norm_false o1 o2 c e : norm o1 = norm o2 -> o1 = Res c e false -> exists e', o2 = Res c e' false.
  Proof.
    intros H ->. cbn in H. destruct o2 as [c' e' [|]| | |]; cbn in H; try discriminate.
    injection H as <-. eauto.
  Qed.

  Lemma weight_then left z1 z2 t f k kk cur : cur <= L -> sound (beyond left z1 (pos left cur)) t ->
    finder left z2 f -> polite cur (outs k) ->
    (forall j g, j <= L -> cur <= j -> beyond left z1 (pos left cur) (pos left j) -> gd g ->
       norm (out (kk j g)) = norm (follow left (f (pos left j) g) (outs k))
       /\ weight left (f (pos left j) g) k <= S (steps (kk j g))) ->
    weight left (followed_by t f) k <= weight left t kk.
  Proof.
    intros Hc Ht Hf Hk H. induction t as [g|i g more IH]; cbn [followed_by weight]; [lia|].
    cbn [Explored.sound] in Ht. destruct Ht as (H1 & H2 & H3).
    destruct (beyond_pos base left z1 cur i Hc H1) as (B1 & B2 & B3).
    destruct (H (pos left i) g B2 B1 ltac:(now rewrite pos_pos) H2) as [Ho Hw].
    rewrite pos_pos in Ho, Hw by assumption.
    rewrite weight_otherwise. apply Nat.add_le_mono; [exact Hw|].
    destruct (follow left (f i g) (outs k)) as [c e [|]| | |] eqn:E; try lia.
    destruct (norm_false (Res c e false) (out (kk (pos left i) g)) c e) as [e' E'];
      [symmetry; exact Ho|reflexivity|].
    rewrite E'. apply IH, H3.
    refine (follow_polite names base left z2 (pos left i) _ (outs k) c e B2 _ _ E).
    - rewrite pos_pos by assumption. now apply Hf.
    - eapply polite_from; eauto.
  Qed.

  Lemma weight_first left t k : weight left (first_only t) k
    <= match t with Stop _ => 0 | Found i g _ => S (steps (k (pos left i) g)) end.
  Proof.
    destruct t as [g|i g more]; cbn [first_only weight one]; [lia|].
    destruct (out (k (pos left i) g)) as [c e [|]| | |]; cbn [weight]; lia.
  Qed.

  Definition pays (left : bool) (mx : cmatcher) (f : nat -> caps -> search) : Prop :=
    forall cur c k, cur <= L -> gd c -> polite cur (outs k) ->
    weight left (f (pos left cur) c) k <= steps (mx cur c k).

  (** What a loop pays without the step of its caller. *)
  Definition nearly (left : bool) (mx : cmatcher) (f : nat -> caps -> search) : Prop :=
    forall cur c k, cur <= L -> gd c -> polite cur (outs k) ->
    weight left (f (pos left cur) c) k <= S (steps (mx cur c k)).
  Lemma pays_nearly left mx f : pays left mx f -> nearly left mx f.
  Proof. intros H cur c k Hc Hg Hk. specialize (H cur c k Hc Hg Hk). lia. Qed.

  Lemma steps_or_else o h : steps (c_or_else o h)
    = steps o + match out o with Res c _ false => steps (h c) | _ => 0 end.
  Proof. unfold c_or_else. destruct (out o) as [c e [|]| | |]; cbn [after steps]; lia. Qed.

  Lemma steps_on_result o h1 h2 : steps (c_on_result o h1 h2)
    = steps o + match out o with
                | Res c e true => steps (h1 e c)
                | Res c _ false => steps (h2 c)
                | _ => 0
                end.
  Proof. unfold c_on_result. destruct (out o) as [c e [|]| | |]; cbn [after steps]; lia. Qed.

  Lemma sem_out left mx' mx f k cur c : same_matcher mx' mx -> sem names base left mx f ->
    cur <= L -> gd c -> polite cur (outs k) ->
    norm (out (mx' cur c k)) = norm (follow left (f (pos left cur) c) (outs k)).
  Proof. intros Hs Hm Hc Hg Hk. rewrite (Hs k (outs k) (same_outs k)). now apply Hm. Qed.

  (** Then [mx2]. *)
  Lemma pays_then left z1 z2 mx1 f1 mx2' mx2 f2 : pays left mx1 f1 -> finder left z1 f1 ->
    same_matcher mx2' mx2 -> sem names base left mx2 f2 -> nearly left mx2' f2 -> finder left z2 f2 ->
    pays left (fun cur c k => mx1 cur c (fun j c' => mx2' j c' k)) (fun i g => followed_by (f1 i g) f2).
  Proof.
    intros P1 F1 S2 M2 P2 F2 cur c k Hc Hg Hk.
    assert (HK : polite cur (outs (fun j c' => mx2' j c' k))).
    { intros j c0 c' e Hl Hj Hg0 E. unfold outs in E.
      pose proof (sem_out left mx2' mx2 f2 k j c0 S2 M2 Hj Hg0 (polite_from _ _ _ _ _ Hk Hl)) as H.
      destruct (norm_false _ _ _ _ H E) as [e' E'].
      eapply (polite_follow names base left z2 f2); eauto. }
    eapply Nat.le_trans; [|apply P1; auto].
    apply (weight_then left z1 z2 _ _ _ _ cur); auto.
    - apply F1; auto using pos_le.
    - intros j g Hj Hl Hb Hg'. split.
      + apply (sem_out left mx2' mx2); auto. eapply polite_from; eauto.
      + apply P2; auto. eapply polite_from; eauto.
  Qed.
End Weights.

Section Blocks.
  Variable cf : config.
  Variable names : list group_name.
  Variable base : list ascii.
  Variable left : bool.
  Local Notation L := (length base).
  Local Notation gd := (good names base).
  Local Notation pos := (pos base).
  Local Notation s := (side base left).
  Local Notation follow := (follow base).
  Local Notation sem := (sem names base).
  Local Notation finder := (finder names base).
  Local Notation polite := (polite names base).
  Local Notation beyond := (beyond base).
  Local Notation pays := (pays names base left).
  Local Notation nearly := (nearly names base left).
  Local Notation weight := (weight base left).
  Local Notation reads := (reads base left).
  Local Notation read_by := (read_by base left).

  (** A class, with the step of its call. *)
  Lemma weight_reads p cur c k : cur <= L ->
    weight (reads p (pos left cur) c) k <= S (steps (c_match_trivial s p cur c k)).
  Proof.
    intros Hc. rewrite reads_spec by assumption. unfold c_match_trivial, c_deref.
    destruct (nth_error s cur) as [a|] eqn:E; [|cbn; lia].
    assert (Hlt : cur < length s) by (apply nth_error_Some; congruence).
    destruct (Nat.eqb_spec cur (length s)); [lia|]. rewrite side_length in Hlt.
    destruct (p a); [|cbn; lia]. rewrite weight_one; lia.
  Qed.

  (** A block of single characters finds at most one end. *)
  Lemma weight_block fs ps : Forall2 read_by fs ps -> forall cur c k, cur <= L -> gd c -> polite cur (outs k) ->
    weight (chain fs (pos left cur) c) k
    <= (if Nat.ltb (L - cur) (length ps) then 0
        else match all_at s ps cur with Some true => S (steps (k (cur + length ps) c)) | _ => 0 end).
  Proof.
    induction 1 as [|f p fs r Hf Hr IH]; intros cur c k Hc Hg Hk; cbn [chain].
    - cbn [length all_at]. destruct (Nat.ltb_spec (L - cur) 0); [lia|]. rewrite weight_one, Nat.add_0_r by assumption. lia.
    - rewrite Hf, reads_spec by assumption. cbn [length all_at].
      destruct (nth_error s cur) as [a|] eqn:E; [|cbn; lia].
      assert (Hlt : cur < length s) by (apply nth_error_Some; congruence). rewrite side_length in Hlt.
      destruct (p a); [|cbn; lia].
      cbn [followed_by one]. rewrite weight_otherwise.
      assert (Hk' : polite (S cur) (outs k)) by (eapply polite_from; [exact Hk|lia]).
      specialize (IH (S cur) c k ltac:(lia) Hg Hk').
      replace (cur + S (length r)) with (S cur + length r) by lia.
      replace (Nat.ltb (L - cur) (S (length r))) with (Nat.ltb (L - S cur) (length r)).
      2:{ destruct (Nat.ltb_spec (L - cur) (S (length r))), (Nat.ltb_spec (L - S cur) (length r)); lia. }
      destruct (follow left _ _) as [g' e' [|]| | |]; cbn [Paying.weight]; lia.
  Qed.

  Lemma paid_block_random ps cur c k :
    match all_at s ps cur with Some true => steps (k (cur + length ps) c) | _ => 0 end
    <= steps (c_trivial_block_random s ps cur c k).
  Proof. unfold c_trivial_block_random. cbn [paid steps]. destruct (all_at s ps cur) as [[|]|]; lia. Qed.

  Lemma paid_block_forward ps : forall cur c k, ps <> [] ->
    match all_at s ps cur with Some true => steps (k (cur + length ps) c) | _ => 0 end
    <= steps (c_sequence_block_forward s ps cur c k).
  Proof.
    induction ps as [|p r IH]; intros cur c k Hn; [easy|]. cbn [all_at c_sequence_block_forward length].
    destruct (nth_error s cur) as [a|] eqn:E; [|lia].
    destruct (p a) eqn:Ep; [|lia].
    destruct r as [|q r].
    - cbn [all_at round steps]. unfold c_deref. rewrite E, Ep. cbn [length]. replace (cur + 1) with (S cur) by lia. lia.
    - cbn [round steps]. unfold c_deref. rewrite E, Ep. specialize (IH (S cur) c k ltac:(discriminate)).
      replace (cur + S (length (q :: r))) with (S cur + length (q :: r)) by lia. lia.
  Qed.

  Lemma paid_loop_random p : forall todo off cur c k,
    match all_at s (repeat p todo) (cur + off) with Some true => steps (k (cur + off + todo) c) | _ => 0 end
    <= steps (c_repetition_loop_random s p todo off cur c k).
  Proof.
    induction todo as [|t IH]; intros off cur c k; cbn [repeat all_at c_repetition_loop_random].
    - rewrite Nat.add_0_r. lia.
    - unfold c_deref. cbn [round steps]. destruct (nth_error s (cur + off)) as [a|]; [|lia].
      destruct (p a); cbn [negb]; [|lia]. specialize (IH (S off) cur c k).
      replace (cur + S off) with (S (cur + off)) in IH by lia.
      replace (S (cur + off) + t) with (cur + off + S t) in IH by lia. lia.
  Qed.

  Lemma paid_repetition_forward p : forall n cur c k,
    match all_at s (repeat p n) cur with Some true => steps (k (cur + n) c) | _ => 0 end
    <= steps (c_repetition_block_forward s p n cur c k).
  Proof.
    induction n as [|n IH]; intros cur c k; cbn [repeat all_at c_repetition_block_forward].
    - rewrite Nat.add_0_r. lia.
    - unfold c_deref. cbn [round steps]. destruct (nth_error s cur) as [a|]; [|lia].
      destruct (p a); [|lia]. specialize (IH (S cur) c k).
      replace (S cur + n) with (cur + S n) in IH by lia. lia.
  Qed.

  (** ** Loops *)

  Section Loops.
    Variable mx' : cmatcher.
    Variable mx : matcher.
    Variable f : nat -> caps -> search.
    Variable z : bool.
    Hypothesis Hsame : same_matcher mx' mx.
    Hypothesis Hsem : sem left mx f.
    Hypothesis Hfind : finder left z f.
    Variable w : bool.

    Lemma nearly_committing : forall fm fu b cur c k, guarded z w b -> cur <= L -> gd c -> polite cur (outs k) ->
      enough base fm b cur -> enough base fu b cur ->
      weight (committing f fu b (pos left cur) c) k <= S (steps (c_possessive_generic fm mx' w b cur c k)).
    Proof.
      induction fm as [|fm IH]; intros fu b cur c k Hw Hc Hg Hk E1 E2; [now apply enough_pos in E1|].
      destruct fu as [|fu]; [now apply enough_pos in E2|].
      cbn [c_possessive_generic committing]. change (bound_is_zero b) with (none_left b).
      destruct (none_left b) eqn:Z; [rewrite weight_one; auto|].
      rewrite steps_on_result. cbn [round out steps].
      pose proof (Hsem cur c success Hc Hg (polite_success names base cur)) as H. rewrite follow_success in H.
      rewrite (Hsame c_success success same_success cur c).
      pose proof (Hfind (pos left cur) c (pos_le base left cur Hc) Hg) as Ht.
      destruct (f (pos left cur) c) as [g'|j g' more]; cbn [sound] in Ht.
      - destruct (mx cur c success) as [c0 e0 [|]| | |]; cbn in H; try discriminate.
        injection H as ->. rewrite weight_one by assumption. lia.
      - destruct Ht as (Hj & Hg' & _). apply (proj1 (norm_res _ _ _)) in H. rewrite H.
        rewrite (guard_spec base left z w b cur j Hw Hc Hj). destruct (idle b (pos left cur) j) eqn:I.
        + rewrite weight_one by assumption. lia.
        + assert (Hl : j <= L) by apply Hj. rewrite <- (pos_pos base left j Hl) at 1.
          change (bound_decrement b) with (one_less b).
          specialize (IH fu (one_less b) (pos left j) g' k).
          assert (weight (committing f fu (one_less b) (pos left (pos left j)) g') k
            <= S (steps (c_possessive_generic fm mx' w (one_less b) (pos left j) g' k))); [|lia].
          apply IH; auto using guarded_less, pos_le;
            [eapply polite_from; [eassumption|eapply beyond_pos; eauto] | | ]; eapply enough_next; eauto.
    Qed.

    Lemma polite_outs lo k k1 : same_cont k k1 -> polite lo k1 -> polite lo (outs k).
    Proof. intros Hs H j c c' e. unfold outs. rewrite Hs. apply H. Qed.

    Lemma pays_more : pays mx' f -> forall fm fu b cur c k, guarded z w b -> cur <= L -> gd c -> polite cur (outs k) ->
      enough base fm b cur -> enough base fu b cur ->
      weight (trying_more f fu b (pos left cur) c) k <= steps (c_greedy_generic fm mx' w b cur c k).
    Proof.
      intros Hpay. induction fm as [|fm IH]; intros fu b cur c k Hw Hc Hg Hk E1 E2; [now apply enough_pos in E1|].
      destruct fu as [|fu]; [now apply enough_pos in E2|].
      cbn [c_greedy_generic trying_more]. change (bound_is_zero b) with (none_left b).
      destruct (none_left b) eqn:Z; [rewrite weight_one; auto|].
      cbn [called steps]. rewrite steps_or_else, weight_otherwise.
      set (K := c_continue_unless_infinite_loop w cur _).
      set (K1 := continue_unless_infinite_loop w cur
        (fun next c' => greedy_generic fm mx w (bound_decrement b) next c' (outs k))).
      assert (SK : same_cont K K1)
        by (apply same_continue; intros j' c'; apply same_greedy_generic; auto using same_outs).
      assert (HK1 : polite cur K1)
        by (apply polite_continue, (polite_greedy names base left mx f z Hsem Hfind w _ cur Hk)).
      assert (HK : polite cur (outs K)) by (eapply polite_outs; eauto).
      assert (Hin : forall j, beyond left z (pos left cur) (pos left j) -> j <= L -> idle b (pos left cur) (pos left j) = false ->
                guarded z w (one_less b) /\ polite j (outs k) /\ enough base fm (one_less b) j
                /\ enough base fu (one_less b) j).
      { intros j Hj Hl I. split; [now apply guarded_less|]. split.
        - eapply polite_from; [exact Hk|]. destruct (beyond_pos base left z cur (pos left j) Hc Hj) as (B & _).
          now rewrite pos_pos in B.
        - assert (Ej : j = pos left (pos left j)) by now rewrite pos_pos.
          rewrite Ej. split; eapply enough_next; eauto. }
      assert (HKs : forall j g, j <= L -> beyond left z (pos left cur) (pos left j) -> gd g ->
         norm (out (K j g)) = norm (follow left
           (if idle b (pos left cur) (pos left j) then Stop g else trying_more f fu (one_less b) (pos left j) g) (outs k))
         /\ weight (if idle b (pos left cur) (pos left j) then Stop g else trying_more f fu (one_less b) (pos left j) g) k
            <= S (steps (K j g))).
      { intros j g Hl Hj Hg'.
        assert (EG : w && Nat.eqb cur j = idle b (pos left cur) (pos left j)).
        { rewrite <- (pos_pos base left j Hl) at 1. now apply (guard_spec base left z w b cur). }
        rewrite SK. unfold K, K1, c_continue_unless_infinite_loop, continue_unless_infinite_loop. rewrite EG.
        destruct (idle b (pos left cur) (pos left j)) eqn:I; [split; [reflexivity|cbn; lia]|].
        destruct (Hin j Hj Hl I) as (I1 & I2 & I3 & I4). change (bound_decrement b) with (one_less b). split.
        - eapply sem_more; eauto.
        - apply le_S. apply IH; auto. }
      assert (HF : finder left true (fun j g => if idle b (pos left cur) j then Stop g else trying_more f fu (one_less b) j g)).
      { intros j g Hj Hg'. destruct (idle b (pos left cur) j); [exact Hg'|].
        now apply (finder_more names base left z f Hfind). }
      assert (HW : weight (followed_by (f (pos left cur) c) (fun j g =>
                 if idle b (pos left cur) j then Stop g else trying_more f fu (one_less b) j g)) k
               <= steps (mx' cur c K)).
      { eapply Nat.le_trans; [|apply Hpay; auto].
        apply (weight_then names base left z true _ _ _ _ cur); auto using pos_le. }
      assert (HO : norm (out (mx' cur c K)) = norm (follow left (followed_by (f (pos left cur) c) (fun j g =>
                 if idle b (pos left cur) j then Stop g else trying_more f fu (one_less b) j g)) (outs k))).
      { rewrite (sem_out names base left mx' mx f K cur c Hsame Hsem Hc Hg HK).
        rewrite (follow_then names base left z true _ _ _ cur); auto using pos_le.
        apply (follow_cong names base left z cur); auto using pos_le.
        intros i g Hi Hg'. assert (Hl : i <= L) by apply Hi.
        unfold outs at 1. apply (HKs (pos left i) g); auto using pos_le. now rewrite pos_pos. }
      destruct (follow left (followed_by _ _) (outs k)) as [g' e' [|]| | |] eqn:EF; try lia.
      destruct (norm_false (Res g' e' false) (out (mx' cur c K)) g' e') as [e2 E2']; auto.
      rewrite E2', weight_one by assumption. lia.
    Qed.

    Lemma pays_fewer : pays mx' f -> forall fm fu b cur c k, guarded z w b -> cur <= L -> gd c -> polite cur (outs k) ->
      enough base fm b cur -> enough base fu b cur ->
      weight (trying_fewer f fu b (pos left cur) c) k <= steps (c_lazy_generic fm mx' w b cur c k).
    Proof.
      intros Hpay. induction fm as [|fm IH]; intros fu b cur c k Hw Hc Hg Hk E1 E2; [now apply enough_pos in E1|].
      destruct fu as [|fu]; [now apply enough_pos in E2|].
      cbn [c_lazy_generic trying_fewer]. change (bound_is_zero b) with (none_left b).
      destruct (none_left b) eqn:Z.
      { rewrite weight_one by assumption. cbn [called steps]. rewrite steps_or_else. lia. }
      cbn [called steps]. rewrite steps_or_else. cbn [Paying.weight]. rewrite pos_pos by assumption.
      destruct (out (k cur c)) as [c0 e0 [|]| | |] eqn:Eo; try lia.
      assert (Hg0 : gd c0) by exact (Hk cur c c0 e0 (le_n _) Hc Hg Eo).
      enough (weight (followed_by (f (pos left cur) c0) (fun j g' =>
                if idle b (pos left cur) j then Stop g' else trying_fewer f fu (one_less b) j g')) k
              <= steps (mx' cur c0 (c_continue_unless_infinite_loop w cur
                   (fun next c'' => c_lazy_generic fm mx' w (bound_decrement b) next c'' k)))) by lia.
      set (K := c_continue_unless_infinite_loop w cur _).
      set (K1 := continue_unless_infinite_loop w cur
        (fun next c' => lazy_generic fm mx w (bound_decrement b) next c' (outs k))).
      assert (SK : same_cont K K1)
        by (apply same_continue; intros j' c'; apply same_lazy_generic; auto using same_outs).
      assert (HK1 : polite cur K1)
        by (apply polite_continue, (polite_lazy names base left mx f z Hsem Hfind w _ cur Hk)).
      assert (HK : polite cur (outs K)) by (eapply polite_outs; eauto).
      eapply Nat.le_trans; [|apply Hpay; auto].
      apply (weight_then names base left z true _ _ _ _ cur); auto using pos_le.
      - intros j g Hj Hg'. destruct (idle b (pos left cur) j); [exact Hg'|].
        now apply (finder_fewer names base left z f Hfind).
      - intros j g Hl _ Hj Hg'.
        assert (EG : w && Nat.eqb cur j = idle b (pos left cur) (pos left j)).
        { rewrite <- (pos_pos base left j Hl) at 1. now apply (guard_spec base left z w b cur). }
        rewrite SK. unfold K, K1, c_continue_unless_infinite_loop, continue_unless_infinite_loop. rewrite EG.
        destruct (idle b (pos left cur) (pos left j)) eqn:I; [split; [reflexivity|cbn; lia]|].
        change (bound_decrement b) with (one_less b).
        assert (I2 : polite j (outs k)).
        { eapply polite_from; [exact Hk|]. destruct (beyond_pos base left z cur (pos left j) Hc Hj) as (B & _).
          now rewrite pos_pos in B. }
        assert (I3 : enough base fm (one_less b) j /\ enough base fu (one_less b) j).
        { assert (Ej : j = pos left (pos left j)) by now rewrite pos_pos.
          rewrite Ej. split; eapply enough_next; eauto. }
        destruct I3 as [I3 I4]. pose proof (guarded_less _ _ _ Hw) as I1. split.
        + eapply sem_fewer; eauto.
        + apply le_S. apply IH; auto.
    Qed.

    (** ** Counted repetitions *)

    Lemma weight_chain_one t k : forall cur, cur <= L -> sound names base (beyond left z (pos left cur)) t -> polite cur (outs k) ->
      weight (followed_by t one) k <= weight t k.
    Proof.
      intros cur Hc Ht Hk. apply (weight_then names base left z true _ _ _ _ cur); auto; [apply finder_one|].
      intros j g Hj _ _ Hg. rewrite weight_one by assumption. split; [|lia]. symmetry. now apply follow_one.
    Qed.

    Lemma finder_times' n : finder left true (chain (repeat f n)).
    Proof.
      apply finder_chain, Forall_forall. intros y Hy. apply repeat_spec in Hy. subst y.
      eapply finder_weaken; eauto.
    Qed.

    Lemma pays_once : pays mx' f -> pays mx' (chain (repeat f 1)).
    Proof.
      intros Hpay cur c k Hc Hg Hk. cbn [repeat chain].
      eapply Nat.le_trans; [|apply Hpay; auto].
      eapply weight_chain_one; eauto. apply Hfind; auto using pos_le.
    Qed.

    Lemma pays_unrolled n : pays mx' f -> pays (c_unrolled_backtracking mx' (S n)) (chain (repeat f (S n))).
    Proof.
      intros Hpay. induction n as [|n IH]; [now apply pays_once|].
      intros cur c k Hc Hg Hk.
      change (c_unrolled_backtracking mx' (S (S n)) cur c k)
        with (called (mx' cur c (fun next c' => c_unrolled_backtracking mx' (S n) next c' k))).
      cbn [called steps]. apply le_S.
      refine (pays_then names base left z true mx' f (c_unrolled_backtracking mx' (S n)) (unrolled_backtracking mx (S n))
        (chain (repeat f (S n))) Hpay Hfind _ _ _ _ cur c k Hc Hg Hk).
      - now apply same_unrolled.
      - eapply sem_unrolled; eauto.
      - now apply pays_nearly.
      - apply finder_times'.
    Qed.

    Lemma pays_non_unrolled n : pays mx' f -> pays (c_non_unrolled_backtracking mx' (S n)) (chain (repeat f (S n))).
    Proof.
      intros Hpay. induction n as [|n IH].
      - intros cur c k Hc Hg Hk. change (c_non_unrolled_backtracking mx' 1 cur c k) with (called (mx' cur c k)).
        cbn [called steps]. apply le_S. now apply pays_once.
      - intros cur c k Hc Hg Hk.
        change (c_non_unrolled_backtracking mx' (S (S n)) cur c k)
          with (called (mx' cur c (fun next c' => c_non_unrolled_backtracking mx' (S n) next c' k))).
        cbn [called steps]. apply le_S.
        refine (pays_then names base left z true mx' f (c_non_unrolled_backtracking mx' (S n)) (non_unrolled_backtracking mx (S n))
          (chain (repeat f (S n))) Hpay Hfind _ _ _ _ cur c k Hc Hg Hk).
        + now apply same_non_unrolled.
        + eapply sem_non_unrolled; eauto.
        + now apply pays_nearly.
        + apply finder_times'.
    Qed.
  End Loops.
End Blocks.
