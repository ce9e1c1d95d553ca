(** The implementation strategies (random access, forward, unrolled, loop,
    backtracking by stepping back) compute the same results. *)
From Verif Require Import Matcher Basics Safe.

(** A trivially matchable node is matched by its [match_one]. *)
Lemma m_trivial cf names base : forall f rd x cur c k,
  trivial x = true -> size x <= f ->
  m cf names base f rd x cur c k
  = match_trivial (view base rd) (match_one cf x) cur c k.
Proof.
  induction f as [|f IH]; intros rd x cur c k T Hf; [pose proof (size_pos x); lia|].
  destruct x; try discriminate; cbn [m]; try reflexivity.
  - cbn [trivial] in T. destruct (is_assertion x) eqn:A; [|reflexivity].
    apply is_assertion_not_trivial in A. congruence.
  - rewrite size_Seq in Hf. rewrite trivial_Seq in T.
    destruct l as [|y [|z r]]; try discriminate. cbn in Hf. cbn [seq_match match_one].
    apply IH; auto. lia.
  - rewrite size_Alt in Hf. rewrite trivial_Alt in T.
    destruct l as [|y r]; try discriminate. destruct r as [|z r].
    + cbn in Hf, T. rewrite andb_true_r in T. cbn [alt_match match_one].
      rewrite IH by (auto; lia). unfold match_trivial, deref. cbn [existsb].
      destruct (Nat.eqb _ _); auto. destruct (nth_error _ _); auto. now rewrite orb_false_r.
    + rewrite alt_match_cons by discriminate. rewrite T. reflexivity.
  - cbn [size] in Hf. rewrite trivial_Rep in T.
    apply andb_true_iff in T as [T T3]. apply andb_true_iff in T as [T1 T2].
    destruct hi as [h|]; [|discriminate].
    apply N.eqb_eq in T1, T2. subst. cbn [match_one].
    unfold rep_match. cbn [N.eqb Pos.eqb]. unfold fixed_match. cbn [N.eqb Pos.eqb].
    rewrite T3. destruct mode; apply IH; auto; lia.
Qed.

(** What a forward iterator can run: no [\b], no lookbehind, no multiline [^]. *)
Fixpoint forward_ok (ml : bool) (n : node) : bool :=
  match n with
  | WordB => false
  | BeginLine => negb ml
  | Look Behind _ => false
  | CSet l | Seq l | Alt l => forallb (forward_ok ml) l
  | Neg x | Cap _ _ x | Look Ahead x => forward_ok ml x
  | Rep _ lo hi x =>
      (N.eqb lo 0 && match hi with Fin h => N.eqb h 0 | Inf => false end) || forward_ok ml x
  | _ => true
  end.

Lemma same_match_one cf1 cf2 n a :
  icase cf1 = icase cf2 -> dotall cf1 = dotall cf2 ->
  match_one cf1 n a = match_one cf2 n a.
Proof.
  intros Hi Hd. assert (Hl : forall x, literal_match_one cf1 x a = literal_match_one cf2 x a).
  { intros x. unfold literal_match_one. now rewrite Hi. }
  induction n using node_ind'; cbn [match_one]; auto.
  - now rewrite Hd, !Hl.
  - unfold range_match_one. now rewrite Hl, Hi.
  - now apply existsb_ext_Forall.
  - now rewrite IHn.
  - destruct l as [|x [|y r]]; auto. now inversion H.
  - now apply existsb_ext_Forall.
Qed.

Section Impl.
  Variables cf1 cf2 : config.
  Variable names : list group_name.
  Variable base : list ascii.
  Variables strict lax : bool.
  Local Notation L := (length base).
  Hypothesis Hicase : icase cf1 = icase cf2.
  Hypothesis Hdotall : dotall cf1 = dotall cf2.
  Hypothesis Hmultiline : multiline cf1 = multiline cf2.
  Hypothesis Hungreedy : ungreedy cf1 = ungreedy cf2.
  Hypothesis Hstrict : strict = true -> cat cf1 = cat cf2.
  Hypothesis Hlax : lax = true -> is_bidirectional cf1 = false.

  (** Equal captures and verdicts; equal ends when matched (or always, in the
      strict version).  In the lax version the first may be undefined behaviour
      whatever the second is. *)
  Definition rel (o1 o2 : outcome) : Prop :=
    match o1, o2 with
    | Res c1 e1 b1, Res c2 e2 b2 =>
        c1 = c2 /\ b1 = b2 /\ (strict = true \/ b1 = true -> e1 = e2)
        /\ (b1 = true -> e1 <= L)
    | Undef, Undef | IllFormed, IllFormed | Diverge, Diverge => True
    | Undef, _ => lax = true
    | _, _ => False
    end.
  Definition rel_cont (k1 k2 : cont) : Prop :=
    forall j c, j <= L -> rel (k1 j c) (k2 j c).
  Definition rel_matcher (m1 m2 : matcher) : Prop :=
    forall cur c k1 k2, cur <= L -> rel_cont k1 k2 -> rel (m1 cur c k1) (m2 cur c k2).

  Lemma rel_non_match cur c : rel (non_match cur c) (non_match cur c).
  Proof. cbn. repeat split; auto; discriminate. Qed.
  Lemma rel_non_match' cur cur' c : strict = false -> rel (non_match cur c) (non_match cur' c).
  Proof. cbn. intuition congruence. Qed.

  Lemma rel_undef o : lax = true -> rel Undef o.
  Proof. now destruct o. Qed.

  Lemma rel_success : rel_cont success success.
  Proof. intros j c Hj. cbn. auto. Qed.

  Lemma rel_or_else o1 o2 f1 f2 :
    rel o1 o2 -> (forall c, rel (f1 c) (f2 c)) -> rel (or_else o1 f1) (or_else o2 f2).
  Proof.
    destruct o1 as [c1 e1 b1| | |], o2 as [c2 e2 b2| | |]; cbn; try easy.
    - intros (-> & -> & He & Hl) Hf. destruct b2; cbn; auto.
    - intros Hx Hf. now apply rel_undef.
  Qed.

  Lemma rel_on_result o1 o2 f1 f2 g1 g2 :
    rel o1 o2 -> (forall e c, e <= L -> rel (f1 e c) (f2 e c)) ->
    (forall c, rel (g1 c) (g2 c)) -> rel (on_result o1 f1 g1) (on_result o2 f2 g2).
  Proof.
    destruct o1 as [c1 e1 b1| | |], o2 as [c2 e2 b2| | |]; cbn; try easy.
    - intros (-> & -> & He & Hl) Hf Hgg. destruct b2; cbn; auto.
      rewrite He by auto. apply Hf. rewrite <- He by auto. auto.
    - intros Hx Hf Hgg. now apply rel_undef.
  Qed.

  Lemma one_same x a : match_one cf1 x a = match_one cf2 x a.
  Proof. now apply same_match_one. Qed.

  Section Text.
    Variable s : list ascii.
    Hypothesis Hs : length s = L.

    Lemma rel_deref i f1 f2 :
      (i < L -> forall a, nth_error s i = Some a -> rel (f1 a) (f2 a)) ->
      rel (deref s i f1) (deref s i f2).
    Proof.
      intros H. unfold deref. destruct (nth_error s i) as [a|] eqn:E; [|exact I].
      apply H; auto. rewrite <- Hs. apply nth_error_Some. congruence.
    Qed.

    Lemma rel_trivial p q : (forall a, p a = q a) ->
      rel_matcher (match_trivial s p) (match_trivial s q).
    Proof.
      intros Hp cur c k1 k2 Hc Hk. unfold match_trivial.
      destruct (Nat.eqb_spec cur (length s)); [apply rel_non_match|].
      apply rel_deref. intros Hi a _. rewrite Hp. destruct (q a); [apply Hk; lia|].
      apply rel_non_match.
    Qed.

    Lemma rel_distance n cur : cur <= L ->
      distance_less_than cf1 n (length s) cur = distance_less_than cf2 n (length s) cur.
    Proof. intros H. now rewrite !(distance_spec _ base s Hs). Qed.

    Lemma all_at_ext ps qs cur :
      Forall2 (fun p q : ascii -> bool => forall a, p a = q a) ps qs ->
      all_at s ps cur = all_at s qs cur.
    Proof.
      intros H. revert cur. induction H as [|p q ps qs Hp _ IH]; intros cur; cbn; auto.
      destruct (nth_error s cur); auto. rewrite Hp. destruct (q a); auto.
    Qed.

    Lemma Forall2_len {A B} (P : A -> B -> Prop) l1 l2 :
      Forall2 P l1 l2 -> length l1 = length l2.
    Proof. induction 1; cbn; congruence. Qed.

    Lemma rel_block_random ps qs cur c k1 k2 :
      Forall2 (fun p q : ascii -> bool => forall a, p a = q a) ps qs ->
      cur + length ps <= L -> rel_cont k1 k2 ->
      rel (trivial_block_random s ps cur c k1) (trivial_block_random s qs cur c k2).
    Proof.
      intros H Hl Hk. unfold trivial_block_random. rewrite (all_at_ext ps qs cur H).
      rewrite (Forall2_len _ _ _ H) in *.
      destruct (all_at s qs cur) as [[|]|]; try exact I; [now apply Hk|apply rel_non_match].
    Qed.

    (** Blocks of tests, forward and random access. *)
    Lemma rel_block_forward : forall ps qs cur c k1 k2,
      Forall2 (fun p q : ascii -> bool => forall a, p a = q a) ps qs ->
      cur + length ps <= L -> rel_cont k1 k2 ->
      rel (sequence_block_forward s ps cur c k1) (sequence_block_forward s qs cur c k2).
    Proof.
      intros ps qs cur c k1 k2 H. revert cur.
      induction H as [|p q ps qs Hp Hps IH]; intros cur Hl Hk; [exact I|].
      cbn [sequence_block_forward length] in *. destruct Hps.
      - apply rel_deref. intros _ a _. rewrite Hp. destruct (q a); [apply Hk; lia|].
        apply rel_non_match.
      - apply rel_deref. intros _ a _. rewrite Hp. destruct (q a); [|apply rel_non_match].
        apply IH; auto. lia.
    Qed.

    (** Random access against forward: the outcome of the forward block is that
        of the random access block except for the end of a failure. *)
    Lemma forward_as_random ps : forall cur c k,
      ps <> [] -> cur + length ps <= L ->
      sequence_block_forward s ps cur c k
      = match all_at s ps cur with
        | Some true => k (cur + length ps) c
        | Some false =>
            match sequence_block_forward s ps cur c k with
            | Res _ e _ => Res c e false
            | o => o
            end
        | None => Undef
        end
      /\ (all_at s ps cur = Some false ->
          exists e, sequence_block_forward s ps cur c k = Res c e false).
    Proof.
      induction ps as [|p r IH]; intros cur c k Hne Hl; [easy|].
      cbn [length] in Hl. destruct r as [|p' r'].
      - cbn. unfold deref. destruct (nth_error s cur) as [a|] eqn:E.
        + destruct (p a); cbn.
          * replace (cur + 1) with (S cur) by lia. split; [reflexivity|discriminate].
          * split; [reflexivity|]. intros _. unfold non_match. eauto.
        + split; [reflexivity|discriminate].
      - remember (p' :: r') as r eqn:Er.
        assert (Hu : sequence_block_forward s (p :: r) cur c k
                     = deref s cur (fun a => if p a then sequence_block_forward s r (S cur) c k
                                             else non_match cur c))
          by (subst r; reflexivity).
        rewrite Hu. cbn [all_at length]. unfold deref.
        destruct (nth_error s cur) as [a|] eqn:E; [|split; [reflexivity|discriminate]].
        destruct (p a); [|split; [reflexivity|unfold non_match; eauto]].
        destruct (IH (S cur) c k) as [IH1 IH2]; [subst; easy|lia|].
        replace (cur + S (length r)) with (S cur + length r) by lia. split; auto.
    Qed.

    Lemma rel_random_forward ps qs cur c k1 k2 : strict = false ->
      Forall2 (fun p q : ascii -> bool => forall a, p a = q a) ps qs -> ps <> [] ->
      cur + length ps <= L -> rel_cont k1 k2 ->
      rel (trivial_block_random s ps cur c k1) (sequence_block_forward s qs cur c k2)
      /\ rel (sequence_block_forward s ps cur c k1) (trivial_block_random s qs cur c k2).
    Proof.
      intros Hst H Hne Hl Hk.
      assert (Hl' : length ps = length qs) by (eapply Forall2_len; eauto).
      assert (Hne' : qs <> []) by (destruct H; easy).
      pose proof (all_at_ext ps qs cur H) as Ha.
      destruct (forward_as_random qs cur c k2 Hne' ltac:(lia)) as [F1 F2].
      destruct (forward_as_random ps cur c k1 Hne Hl) as [G1 G2].
      unfold trivial_block_random. rewrite Ha in *. rewrite Hl' in *.
      destruct (all_at s qs cur) as [[|]|].
      - rewrite F1, G1. split; apply Hk; lia.
      - destruct (F2 eq_refl) as [e ->]. destruct (G2 eq_refl) as [e' ->].
        split; now apply rel_non_match'.
      - rewrite F1, G1. split; exact I.
    Qed.

    (** The same for repetitions. *)
    Lemma loop_as_random p : forall todo offset cur c k,
      repetition_loop_random s p todo offset cur c k
      = match all_at s (repeat p todo) (cur + offset) with
        | Some true => k (cur + offset + todo) c
        | Some false => non_match cur c
        | None => Undef
        end.
    Proof.
      induction todo as [|t IH]; intros offset cur c k; cbn [repetition_loop_random repeat all_at].
      - now rewrite Nat.add_0_r.
      - unfold deref. destruct (nth_error s (cur + offset)) as [a|]; [|reflexivity].
        destruct (p a); cbn [negb]; [|reflexivity]. rewrite IH.
        replace (cur + S offset) with (S (cur + offset)) by lia.
        replace (S (cur + offset) + t) with (cur + offset + S t) by lia. reflexivity.
    Qed.

    Lemma repetition_loop_block p n cur c k :
      repetition_loop_random s p n 0 cur c k = trivial_block_random s (repeat p n) cur c k.
    Proof.
      rewrite loop_as_random. unfold trivial_block_random. rewrite repeat_length.
      now rewrite Nat.add_0_r.
    Qed.

    Lemma forward_repetition p : forall n cur c k,
      match all_at s (repeat p n) cur with
      | Some true => repetition_block_forward s p n cur c k = k (cur + n) c
      | Some false => exists e, repetition_block_forward s p n cur c k = Res c e false
      | None => repetition_block_forward s p n cur c k = Undef
      end.
    Proof.
      induction n as [|n IH]; intros cur c k; cbn [repeat all_at repetition_block_forward].
      - now rewrite Nat.add_0_r.
      - unfold deref. destruct (nth_error s cur) as [a|]; [|reflexivity].
        destruct (p a); [|unfold non_match; eauto].
        replace (cur + S n) with (S cur + n) by lia. apply IH.
    Qed.

    Lemma rel_repetition_forward p q : (forall a, p a = q a) -> forall n cur c k1 k2,
      cur + n <= L -> rel_cont k1 k2 ->
      rel (repetition_block_forward s p n cur c k1) (repetition_block_forward s q n cur c k2).
    Proof.
      intros Hp. induction n as [|n IH]; intros cur c k1 k2 Hl Hk;
        cbn [repetition_block_forward]; [apply Hk; lia|].
      apply rel_deref. intros _ a _. rewrite Hp.
      destruct (q a); [apply IH; auto; lia|apply rel_non_match].
    Qed.

    Lemma rel_random_repetition p q n cur c k1 k2 : strict = false ->
      (forall a, p a = q a) -> cur + n <= L -> rel_cont k1 k2 ->
      rel (trivial_block_random s (repeat p n) cur c k1) (repetition_block_forward s q n cur c k2)
      /\ rel (repetition_block_forward s p n cur c k1)
             (trivial_block_random s (repeat q n) cur c k2).
    Proof.
      intros Hst Hp Hl Hk.
      assert (Ha : all_at s (repeat p n) cur = all_at s (repeat q n) cur).
      { apply all_at_ext. clear -Hp. induction n; cbn; auto. }
      pose proof (forward_repetition q n cur c k2) as F.
      pose proof (forward_repetition p n cur c k1) as G.
      unfold trivial_block_random. rewrite Ha in *. rewrite !repeat_length.
      destruct (all_at s (repeat q n) cur) as [[|]|].
      - rewrite F, G. split; apply Hk; lia.
      - destruct F as [e ->]. destruct G as [e' ->].
        split; now apply rel_non_match'.
      - rewrite F, G. split; exact I.
    Qed.

    (** Loops *)

    Lemma rel_possessive_trivial p q : (forall a, p a = q a) -> forall fuel b,
      rel_matcher (possessive_trivial fuel s p b) (possessive_trivial fuel s q b).
    Proof.
      intros Hp. induction fuel as [|f IH]; intros bd cur c k1 k2 Hc Hk; [exact I|].
      cbn [possessive_trivial].
      destruct (bound_is_zero bd); [auto|].
      destruct (Nat.eqb_spec cur (length s)); [auto|].
      apply rel_deref. intros Hi a _. rewrite Hp. destruct (q a); auto. apply IH; auto.
    Qed.

    Lemma rel_lazy_trivial p q : (forall a, p a = q a) -> forall fuel b,
      rel_matcher (lazy_trivial fuel s p b) (lazy_trivial fuel s q b).
    Proof.
      intros Hp. induction fuel as [|f IH]; intros bd cur c k1 k2 Hc Hk; [exact I|].
      cbn [lazy_trivial].
      apply rel_or_else; [auto|]. intros c'.
      destruct (bound_is_zero bd); [apply rel_non_match|].
      destruct (Nat.eqb_spec cur (length s)); [apply rel_non_match|].
      apply rel_deref. intros Hi a _. rewrite Hp. destruct (q a); [|apply rel_non_match].
      apply IH; auto.
    Qed.

    Lemma rel_step_back : forall d initial c k1 k2, initial + d <= L -> rel_cont k1 k2 ->
      rel (step_back initial d c k1) (step_back initial d c k2).
    Proof.
      induction d; intros initial c k1 k2 Hl Hk; cbn [step_back];
        apply rel_or_else; auto using rel_non_match. intros. apply IHd; auto. lia.
    Qed.

    Lemma rel_possessive_next p q : (forall a, p a = q a) -> forall fuel b cur c k1 k2,
      cur <= L ->
      (forall j c, cur <= j -> j <= L -> rel (k1 j c) (k2 j c)) ->
      rel (possessive_trivial fuel s p b cur c k1) (possessive_trivial fuel s q b cur c k2).
    Proof.
      intros Hp. induction fuel as [|f IH]; intros bd cur c k1 k2 Hc Hk; [exact I|].
      cbn [possessive_trivial].
      destruct (bound_is_zero bd); [apply Hk; lia|].
      destruct (Nat.eqb_spec cur (length s)); [apply Hk; lia|].
      apply rel_deref. intros Hi a _. rewrite Hp. destruct (q a); [|apply Hk; lia].
      apply IH; auto. intros. apply Hk; lia.
    Qed.

    (** Stepping back from the longest run of a trivial node gives back one
        character at a time, exactly like the generic greedy loop. *)
    Lemma or_else_assoc o f h :
      or_else (or_else o f) h = or_else o (fun c => or_else (f c) h).
    Proof. destruct o as [c e [|]| | |]; reflexivity. Qed.

    Lemma step_back_or_else initial : forall d c k,
      step_back initial (S d) c k
      = or_else (k (initial + S d) c) (fun c' => step_back initial d c' k).
    Proof. reflexivity. Qed.

    Lemma step_back_split : forall d cur c k,
      step_back cur (S d) c k
      = or_else (step_back (S cur) d c k)
          (fun c' => or_else (k cur c') (fun c'' => non_match cur c'')).
    Proof.
      induction d as [|d IH]; intros cur c k.
      - cbn [step_back]. replace (cur + 1) with (S cur) by lia.
        replace (S cur + 0) with (S cur) by lia. replace (cur + 0) with cur by lia.
        destruct (k (S cur) c) as [c' e [|]| | |]; reflexivity.
      - rewrite step_back_or_else. cbn [step_back]. rewrite or_else_assoc.
        replace (cur + S (S d)) with (S cur + S d) by lia.
        destruct (k (S cur + S d) c) as [c' e [|]| | |]; cbn [or_else]; try reflexivity.
        apply IH.
    Qed.

    (** The longest run of a trivial node. *)
    Fixpoint run (fuel : nat) (p : ascii -> bool) (b : quantifier) (cur : nat) : option nat :=
      match fuel with
      | 0 => None
      | S f =>
          if bound_is_zero b then Some 0
          else match nth_error s cur with
               | Some a => if p a then option_map S (run f p (bound_decrement b) (S cur))
                           else Some 0
               | None => Some 0
               end
      end.

    Lemma possessive_run p : forall fuel b cur c k, cur <= L ->
      possessive_trivial fuel s p b cur c k
      = match run fuel p b cur with Some d => k (cur + d) c | None => Diverge end.
    Proof.
      induction fuel as [|f IH]; intros b cur c k Hc; [reflexivity|].
      cbn [possessive_trivial run].
      destruct (bound_is_zero b); [now rewrite Nat.add_0_r|].
      destruct (Nat.eqb_spec cur (length s)).
      - replace (nth_error s cur) with (@None ascii)
          by (symmetry; apply nth_error_None; lia).
        now rewrite Nat.add_0_r.
      - unfold deref. destruct (nth_error s cur) as [a|] eqn:E.
        + destruct (p a); [|now rewrite Nat.add_0_r]. rewrite IH by lia.
          destruct (run f p (bound_decrement b) (S cur)); [|reflexivity]. cbn.
          now rewrite Nat.add_succ_r.
        + apply nth_error_None in E. lia.
    Qed.

    Lemma run_bound p : forall fuel b cur d, cur <= L ->
      run fuel p b cur = Some d -> cur + d <= L.
    Proof.
      induction fuel as [|f IH]; intros b cur d Hc; [discriminate|]. cbn [run].
      destruct (bound_is_zero b). { intros E; inversion E; lia. }
      destruct (nth_error s cur) as [a|] eqn:En; [|intros E; inversion E; lia].
      assert (cur < length s) by (apply nth_error_Some; congruence).
      destruct (p a); [|intros E; inversion E; lia].
      destruct (run f p (bound_decrement b) (S cur)) as [d'|] eqn:E; [|discriminate].
      apply IH in E; [|lia]. cbn. intros E'; inversion E'. lia.
    Qed.

    (** Generic greedy loop over a trivial node, by its longest run; only the
        end of a failure differs from stepping back. *)
    Lemma greedy_run mx p : (forall cur c k, mx cur c k = match_trivial s p cur c k) ->
      strict = false ->
      forall fuel b cur c k1 k2, cur <= L -> rel_cont k1 k2 ->
      match run fuel p b cur with
      | Some d => rel (greedy_generic fuel mx false b cur c k1) (step_back cur d c k2)
                  /\ rel (step_back cur d c k1) (greedy_generic fuel mx false b cur c k2)
      | None => True
      end.
    Proof.
      intros Hmx Hst. induction fuel as [|f IH]; intros b cur c k1 k2 Hc Hk; [exact I|].
      cbn [run greedy_generic].
      assert (Hend : forall c', rel (k1 cur c') (step_back cur 0 c' k2)
                             /\ rel (step_back cur 0 c' k1) (k2 cur c')).
      { intros c'. cbn [step_back]. rewrite Nat.add_0_r. specialize (Hk cur c' Hc).
        destruct (k1 cur c') as [c1 e1 [|]| | |], (k2 cur c') as [c2 e2 [|]| | |];
          cbn in *; try easy; intuition congruence. }
      destruct (bound_is_zero b); [apply Hend|].
      rewrite !Hmx. unfold match_trivial.
      destruct (nth_error s cur) as [a|] eqn:E.
      2:{ destruct (Nat.eqb_spec cur (length s)); [apply Hend|].
          apply nth_error_None in E. lia. }
      assert (Hlt : cur < length s) by (apply nth_error_Some; congruence).
      destruct (Nat.eqb_spec cur (length s)); [lia|].
      unfold deref. rewrite E. destruct (p a); [|apply Hend].
      specialize (IH (bound_decrement b) (S cur) c k1 k2 ltac:(lia) Hk).
      destruct (run f p (bound_decrement b) (S cur)) as [d|] eqn:Er; [|exact I].
      cbn [option_map]. unfold continue_unless_infinite_loop. cbn [andb].
      rewrite !step_back_split. destruct IH as [IH1 IH2].
      split; (apply rel_or_else; [assumption|]; intros c'; destruct (Hend c') as [E1 E2];
              cbn [step_back] in E1, E2; rewrite Nat.add_0_r in E1, E2; assumption).
    Qed.

    Lemma run_some p : forall fuel b cur, cur <= L -> enough base fuel b cur ->
      run fuel p b cur <> None.
    Proof.
      induction fuel as [|f IH]; intros b cur Hc He.
      - unfold enough in He. destruct b; lia.
      - cbn [run]. destruct (bound_is_zero b) eqn:Hb; [discriminate|].
        destruct (nth_error s cur) as [a|] eqn:En; [|discriminate].
        assert (cur < length s) by (apply nth_error_Some; congruence).
        destruct (p a); [|discriminate].
        specialize (IH (bound_decrement b) (S cur) ltac:(lia)).
        destruct (run f p (bound_decrement b) (S cur)); [discriminate|].
        exfalso. apply IH; [|reflexivity].
        eapply enough_step; eauto; lia.
    Qed.

    Lemma rel_unrolled mx1 mx2 : rel_matcher mx1 mx2 -> forall n,
      rel_matcher (unrolled_backtracking mx1 n) (unrolled_backtracking mx2 n).
    Proof.
      intros Hm. induction n as [|n IH]; intros cur c k1 k2 Hc Hk;
        cbn [unrolled_backtracking]; [auto|].
      destruct n; [auto|]. apply Hm; auto. intros j c' Hj. now apply IH.
    Qed.

    Lemma rel_non_unrolled mx1 mx2 : rel_matcher mx1 mx2 -> forall n,
      rel_matcher (non_unrolled_backtracking mx1 n) (non_unrolled_backtracking mx2 n).
    Proof.
      intros Hm. induction n as [|n IH]; intros cur c k1 k2 Hc Hk;
        cbn [non_unrolled_backtracking]; [exact I|].
      destruct (Nat.eqb (S n) 1); [auto|]. apply Hm; auto. intros j c' Hj. now apply IH.
    Qed.

    Lemma rel_unrolled_non mx1 mx2 : rel_matcher mx1 mx2 -> forall n,
      rel_matcher (unrolled_backtracking mx1 (S n)) (non_unrolled_backtracking mx2 (S n))
      /\ rel_matcher (non_unrolled_backtracking mx1 (S n)) (unrolled_backtracking mx2 (S n)).
    Proof.
      intros Hm. induction n as [|n IH].
      - split; intros cur c k1 k2 Hc Hk; cbn; auto.
      - destruct IH as [I1 I2].
        split; intros cur c k1 k2 Hc Hk.
        + change (non_unrolled_backtracking mx2 (S (S n)) cur c k2)
            with (mx2 cur c (fun next c' => non_unrolled_backtracking mx2 (S n) next c' k2)).
          change (unrolled_backtracking mx1 (S (S n)) cur c k1)
            with (mx1 cur c (fun next c' => unrolled_backtracking mx1 (S n) next c' k1)).
          apply Hm; auto. intros j c' Hj. now apply I1.
        + change (non_unrolled_backtracking mx1 (S (S n)) cur c k1)
            with (mx1 cur c (fun next c' => non_unrolled_backtracking mx1 (S n) next c' k1)).
          change (unrolled_backtracking mx2 (S (S n)) cur c k2)
            with (mx2 cur c (fun next c' => unrolled_backtracking mx2 (S n) next c' k2)).
          apply Hm; auto. intros j c' Hj. now apply I2.
    Qed.

    Lemma rel_continue w cur k1 k2 : rel_cont k1 k2 ->
      rel_cont (continue_unless_infinite_loop w cur k1)
               (continue_unless_infinite_loop w cur k2).
    Proof.
      intros Hk j c Hj. unfold continue_unless_infinite_loop.
      destruct (w && Nat.eqb cur j)%bool; auto using rel_non_match.
    Qed.

    Lemma rel_possessive_generic mx1 mx2 w : rel_matcher mx1 mx2 -> forall fuel b,
      rel_matcher (possessive_generic fuel mx1 w b) (possessive_generic fuel mx2 w b).
    Proof.
      intros Hm. induction fuel as [|f IH]; intros bd cur c k1 k2 Hc Hk; [exact I|].
      cbn [possessive_generic]. destruct (bound_is_zero bd); [auto|].
      apply rel_on_result; auto.
      - apply Hm; auto. apply rel_success.
      - intros e c' He. destruct (w && Nat.eqb cur e)%bool; auto. now apply IH.
    Qed.

    Lemma rel_greedy_generic mx1 mx2 w : rel_matcher mx1 mx2 -> forall fuel b,
      rel_matcher (greedy_generic fuel mx1 w b) (greedy_generic fuel mx2 w b).
    Proof.
      intros Hm. induction fuel as [|f IH]; intros bd cur c k1 k2 Hc Hk; [exact I|].
      cbn [greedy_generic]. destruct (bound_is_zero bd); [auto|].
      apply rel_or_else; auto. apply Hm; auto. apply rel_continue. intros j c' Hj. now apply IH.
    Qed.

    Lemma rel_lazy_generic mx1 mx2 w : rel_matcher mx1 mx2 -> forall fuel b,
      rel_matcher (lazy_generic fuel mx1 w b) (lazy_generic fuel mx2 w b).
    Proof.
      intros Hm. induction fuel as [|f IH]; intros bd cur c k1 k2 Hc Hk; [exact I|].
      cbn [lazy_generic]. apply rel_or_else; auto. intros c0.
      destruct (bound_is_zero bd); [apply rel_non_match|].
      apply Hm; auto. apply rel_continue. intros j c' Hj. now apply IH.
    Qed.

    Lemma strict_bidirectional : is_bidirectional cf1 <> is_bidirectional cf2 -> strict = false.
    Proof.
      intros H. destruct strict; [|reflexivity].
      unfold is_bidirectional in H. rewrite Hstrict in H; easy.
    Qed.
    Lemma strict_random : is_random cf1 <> is_random cf2 -> strict = false.
    Proof.
      intros H. destruct strict; [|reflexivity].
      unfold is_random in H. rewrite Hstrict in H; easy.
    Qed.

    Lemma rel_between x mx1 mx2 md b w :
      rel_matcher mx1 mx2 ->
      (trivial x = true -> w = false
         /\ (forall cur c k, mx1 cur c k = match_trivial s (match_one cf1 x) cur c k)
         /\ (forall cur c k, mx2 cur c k = match_trivial s (match_one cf2 x) cur c k)) ->
      rel_matcher (between_bounds cf1 s md b w x mx1) (between_bounds cf2 s md b w x mx2).
    Proof.
      intros Hm HT cur c k1 k2 Hc Hk. unfold between_bounds. rewrite Hungreedy.
      pose proof (enough_loop_fuel base s Hs b cur) as He.
      pose proof (one_same x) as Hx.
      set (fuel := loop_fuel b (length s) cur) in *. clearbody fuel.
      assert (Hgreedy : rel
        (if trivial x && is_bidirectional cf1
         then possessive_trivial fuel s (match_one cf1 x) b cur c
                (fun next c' => step_back cur (next - cur) c' k1)
         else greedy_generic fuel mx1 w b cur c k1)
        (if trivial x && is_bidirectional cf2
         then possessive_trivial fuel s (match_one cf2 x) b cur c
                (fun next c' => step_back cur (next - cur) c' k2)
         else greedy_generic fuel mx2 w b cur c k2)).
      { destruct (trivial x); cbn [andb]; [|now apply rel_greedy_generic].
        destruct (HT eq_refl) as (-> & Hm1 & Hm2).
        pose proof (run_some (match_one cf1 x) fuel b cur Hc He) as Hr1.
        pose proof (run_some (match_one cf2 x) fuel b cur Hc He) as Hr2.
        destruct (is_bidirectional cf1) eqn:B1, (is_bidirectional cf2) eqn:B2.
        - apply rel_possessive_next; auto. intros j c' Hj1 Hj2.
          apply rel_step_back; auto. lia.
        - assert (Hst : strict = false) by (apply strict_bidirectional; congruence).
          pose proof (greedy_run mx2 _ Hm2 Hst fuel b cur c k1 k2 Hc Hk) as G.
          rewrite possessive_run by assumption.
          replace (run fuel (match_one cf1 x) b cur) with (run fuel (match_one cf2 x) b cur) in *.
          2:{ clear -Hx. revert b cur. induction fuel as [|f IH]; intros b cur; [reflexivity|].
              cbn. destruct (bound_is_zero b); auto. destruct (nth_error s cur); auto.
              rewrite Hx. destruct (match_one cf2 x a); auto. now rewrite IH. }
          destruct (run fuel (match_one cf2 x) b cur) as [d|]; [|easy].
          replace (cur + d - cur) with d by lia. apply G.
        - assert (Hst : strict = false) by (apply strict_bidirectional; congruence).
          pose proof (greedy_run mx1 _ Hm1 Hst fuel b cur c k1 k2 Hc Hk) as G.
          rewrite (possessive_run (match_one cf2 x)) by assumption.
          replace (run fuel (match_one cf2 x) b cur) with (run fuel (match_one cf1 x) b cur) in *.
          2:{ clear -Hx. revert b cur. induction fuel as [|f IH]; intros b cur; [reflexivity|].
              cbn. destruct (bound_is_zero b); auto. destruct (nth_error s cur); auto.
              rewrite Hx. destruct (match_one cf2 x a); auto. now rewrite IH. }
          destruct (run fuel (match_one cf1 x) b cur) as [d|]; [|easy].
          replace (cur + d - cur) with d by lia. apply G.
        - now apply rel_greedy_generic. }
      assert (Hgen : forall dir : bool, rel
        (if dir then
          if trivial x && is_bidirectional cf1 then
            possessive_trivial fuel s (match_one cf1 x) b cur c
              (fun next c' => step_back cur (next - cur) c' k1)
          else greedy_generic fuel mx1 w b cur c k1
        else if trivial x
        then lazy_trivial fuel s (match_one cf1 x) b cur c k1
        else lazy_generic fuel mx1 w b cur c k1)
        (if dir then
          if trivial x && is_bidirectional cf2 then
            possessive_trivial fuel s (match_one cf2 x) b cur c
              (fun next c' => step_back cur (next - cur) c' k2)
          else greedy_generic fuel mx2 w b cur c k2
        else if trivial x
        then lazy_trivial fuel s (match_one cf2 x) b cur c k2
        else lazy_generic fuel mx2 w b cur c k2)).
      { intros [|]; [assumption|]. destruct (trivial x).
        - now apply rel_lazy_trivial.
        - now apply rel_lazy_generic. }
      destruct md; try apply Hgen. destruct (trivial x).
      - now apply rel_possessive_trivial.
      - now apply rel_possessive_generic.
    Qed.

    Lemma rel_fixed_backtracking x mx1 mx2 n : (1 < n)%N ->
      rel_matcher mx1 mx2 ->
      rel_matcher (fixed_backtracking cf1 s x mx1 n) (fixed_backtracking cf2 s x mx2 n).
    Proof.
      intros Hn Hm cur c k1 k2 Hc Hk. unfold fixed_backtracking.
      pose proof (one_same x) as Hx.
      destruct (trivial x).
      - rewrite rel_distance by assumption. rewrite (distance_spec cf2 base s Hs) by assumption.
        destruct (Nat.ltb_spec (length base - cur) (N.to_nat n)); [apply rel_non_match|].
        assert (Hr : Forall2 (fun p q : ascii -> bool => forall a, p a = q a)
                  (repeat (match_one cf1 x) (N.to_nat n)) (repeat (match_one cf2 x) (N.to_nat n))).
        { generalize (N.to_nat n). clear -Hx. intros t. induction t; cbn; auto. }
        assert (Hrr : rel (trivial_block_random s (repeat (match_one cf1 x) (N.to_nat n)) cur c k1)
                          (trivial_block_random s (repeat (match_one cf2 x) (N.to_nat n)) cur c k2)).
        { apply rel_block_random; auto. rewrite repeat_length. lia. }
        rewrite !repetition_loop_block.
        destruct (is_random cf1) eqn:R1, (is_random cf2) eqn:R2.
        + destruct (unroll cf1), (unroll cf2); auto.
        + assert (Hst : strict = false) by (apply strict_random; congruence).
          destruct (rel_random_repetition (match_one cf1 x) (match_one cf2 x)
                      (N.to_nat n) cur c k1 k2 Hst Hx ltac:(lia) Hk) as [A B].
          destruct (unroll cf1); auto.
        + assert (Hst : strict = false) by (apply strict_random; congruence).
          destruct (rel_random_repetition (match_one cf1 x) (match_one cf2 x)
                      (N.to_nat n) cur c k1 k2 Hst Hx ltac:(lia) Hk) as [A B].
          destruct (unroll cf2); auto.
        + apply rel_repetition_forward; auto. lia.
      - destruct (N.to_nat n) as [|n'] eqn:En; [lia|].
        destruct (rel_unrolled_non mx1 mx2 Hm n') as [A B].
        destruct (unroll cf1), (unroll cf2); auto.
        + now apply rel_unrolled.
        + now apply rel_non_unrolled.
    Qed.

    Lemma rel_fixed x mx1 mx2 md n :
      rel_matcher mx1 mx2 ->
      rel_matcher (fixed_match cf1 s md n x mx1) (fixed_match cf2 s md n x mx2).
    Proof.
      intros Hm cur c k1 k2 Hc Hk. unfold fixed_match.
      destruct (N.eqb_spec n 0); [auto|]. destruct (N.eqb_spec n 1).
      - destruct md; auto. destruct (trivial x); auto.
        apply rel_on_result; auto using rel_non_match. apply Hm; auto. apply rel_success.
      - assert (Hf : rel_matcher (fixed_backtracking cf1 s x mx1 n)
                                 (fixed_backtracking cf2 s x mx2 n)).
        { apply rel_fixed_backtracking; auto. lia. }
        destruct md; auto.
        apply rel_on_result; auto using rel_non_match. apply Hf; auto. apply rel_success.
    Qed.

    Lemma rel_rep x mx1 mx2 md lo hi :
      rel_matcher mx1 mx2 ->
      (trivial x = true ->
         (forall cur c k, mx1 cur c k = match_trivial s (match_one cf1 x) cur c k)
         /\ (forall cur c k, mx2 cur c k = match_trivial s (match_one cf2 x) cur c k)) ->
      rel_matcher (rep_match cf1 s md lo hi x mx1) (rep_match cf2 s md lo hi x mx2).
    Proof.
      intros Hm HT cur c k1 k2 Hc Hk. unfold rep_match.
      assert (Hb : forall b, rel_matcher
        (between_bounds cf1 s md b (is_infinity hi && zlm x) x mx1)
        (between_bounds cf2 s md b (is_infinity hi && zlm x) x mx2)).
      { intros b. apply rel_between; auto. intros T. split; [|auto].
        now rewrite (zlm_trivial x T), andb_false_r. }
      destruct (match hi with Fin h => N.eqb lo h | Inf => false end).
      - now apply rel_fixed.
      - destruct (is_zero lo).
        + now apply Hb.
        + apply rel_fixed; auto. intros j c' Hj. now apply Hb.
    Qed.

    Lemma rel_seq mm1 mm2 l :
      Forall (fun x => rel_matcher (mm1 x) (mm2 x)) l ->
      rel_matcher (seq_match cf1 s mm1 l) (seq_match cf2 s mm2 l).
    Proof.
      induction l as [|x r IH]; intros HF cur c k1 k2 Hc Hk; [exact I|].
      inversion HF as [|? ? Hx Hr]; subst.
      destruct r as [|y r'].
      - cbn. now apply Hx.
      - remember (y :: r') as r eqn:Er. rewrite !seq_match_cons by (subst r; discriminate).
        destruct (forallb trivial (x :: r)).
        + rewrite rel_distance by assumption.
          rewrite (distance_spec cf2 base s Hs) by assumption.
          destruct (Nat.ltb_spec (length base - cur) (N.to_nat (N.of_nat (length (x :: r)))));
            [apply rel_non_match|]. rewrite Nat2N.id in *.
          assert (HP : Forall2 (fun p q : ascii -> bool => forall a, p a = q a)
                         (map (match_one cf1) (x :: r)) (map (match_one cf2) (x :: r))).
          { generalize (x :: r). intros l. induction l; cbn; auto using one_same. }
          assert (Hl : cur + length (map (match_one cf1) (x :: r)) <= L).
          { rewrite map_length. lia. }
          destruct (is_random cf1) eqn:R1, (is_random cf2) eqn:R2.
          * now apply rel_block_random.
          * apply rel_random_forward; auto; [|easy]. apply strict_random; congruence.
          * apply rel_random_forward; auto; [|easy]. apply strict_random; congruence.
          * now apply rel_block_forward.
        + apply Hx; auto. intros j c' Hj. apply IH; auto.
    Qed.

    Lemma rel_alt mm1 mm2 l :
      Forall (fun x => rel_matcher (mm1 x) (mm2 x)) l ->
      rel_matcher (alt_match cf1 s mm1 l) (alt_match cf2 s mm2 l).
    Proof.
      induction l as [|x r IH]; intros HF cur c k1 k2 Hc Hk; [exact I|].
      inversion HF as [|? ? Hx Hr]; subst.
      destruct r as [|y r'].
      - cbn. now apply Hx.
      - remember (y :: r') as r eqn:Er. rewrite !alt_match_cons by (subst r; discriminate).
        destruct (forallb trivial (x :: r)).
        + apply rel_trivial; auto. intros a. apply existsb_ext_Forall, Forall_forall.
          intros z _. apply one_same.
        + apply rel_or_else; auto. intros c'. now apply IH.
    Qed.

    Lemma rel_backref_loop t :
      rel_matcher (backref_loop cf1 s t) (backref_loop cf2 s t).
    Proof.
      induction t as [|x t IH]; intros cur c k1 k2 Hc Hk; cbn [backref_loop]; [auto|].
      apply rel_deref. intros Hi a _. unfold backref_char_eq. rewrite Hicase.
      destruct (_ || _)%bool; [apply IH; auto|apply rel_non_match].
    Qed.
  End Text.

  Lemma rel_backref rd i :
    rel_matcher (backref_match cf1 base rd i) (backref_match cf2 base rd i).
  Proof.
    intros cur c k1 k2 Hc Hk. unfold backref_match. destruct (nth_error c i) as [v|]; [|exact I].
    destruct (match v with Some p => p | None => (0, 0) end) as [b e].
    rewrite rel_distance by (auto; apply view_length).
    destruct (distance_less_than _ _ _ _); [apply rel_non_match|].
    destruct (_ || _)%bool; [exact I|].
    apply rel_backref_loop; auto. apply view_length.
  Qed.

  Definition runs_on_both (n : node) : Prop :=
    is_bidirectional cf1 = is_bidirectional cf2
    \/ forward_ok (multiline cf1 && negb lax) n = true.

  Lemma runs_list l :
    is_bidirectional cf1 = is_bidirectional cf2
    \/ forallb (forward_ok (multiline cf1 && negb lax)) l = true ->
    Forall runs_on_both l.
  Proof.
    intros [H|H]; apply Forall_forall; intros x Hx; [left; auto|right].
    rewrite forallb_forall in H. auto.
  Qed.

  Theorem m_rel : forall f rd n, size n <= f -> runs_on_both n ->
    rel_matcher (m cf1 names base f rd n) (m cf2 names base f rd n).
  Proof.
    induction f as [|f IH]; intros rd n Hf Hr cur c k1 k2 Hc Hk;
      [pose proof (size_pos n); lia|].
    pose proof (view_length base rd) as Hs.
    cbn [m]. set (s := view base rd) in *.
    destruct n.
    - auto.
    - destruct (Nat.eqb_spec cur 0); auto. rewrite Hmultiline.
      destruct (multiline cf2) eqn:ML; [|apply rel_non_match].
      destruct (bool_dec lax true) as [El|El].
      { rewrite (Hlax El). now apply rel_undef. }
      apply not_true_is_false in El.
      assert (E : is_bidirectional cf1 = is_bidirectional cf2).
      { destruct Hr as [Hr|Hr]; auto. cbn in Hr. rewrite Hmultiline, El in Hr. discriminate. }
      rewrite E. destruct (is_bidirectional cf2); [|exact I].
      apply rel_deref; auto. intros _ a _. rewrite one_same. unfold assert_that.
      destruct (match_one _ _ _); auto using rel_non_match.
    - unfold assert_that. destruct (Nat.eqb cur 0); auto using rel_non_match.
    - destruct (Nat.eqb_spec cur (length s)); auto. rewrite Hmultiline.
      destruct (multiline cf2) eqn:ML; [|apply rel_non_match].
      apply rel_deref; auto. intros _ a _. rewrite one_same. unfold assert_that.
      destruct (match_one _ _ _); auto using rel_non_match.
    - unfold assert_that. destruct (Nat.eqb cur _); auto using rel_non_match.
    - destruct Hr as [Hr|Hr]; [|discriminate]. rewrite Hr.
      destruct (is_bidirectional cf2); cbn [negb]; [|exact I].
      assert (Hah : forall bb, rel
        (if Nat.eqb cur (length s) then assert_that (xorb bb false) cur c k1
         else deref s cur (fun a => assert_that (xorb bb (match_one cf1 n_word a)) cur c k1))
        (if Nat.eqb cur (length s) then assert_that (xorb bb false) cur c k2
         else deref s cur (fun a => assert_that (xorb bb (match_one cf2 n_word a)) cur c k2))).
      { intros bb. unfold assert_that. destruct (Nat.eqb _ _).
        - destruct (xorb _ _); auto using rel_non_match.
        - apply rel_deref; auto. intros _ a _. rewrite one_same.
          destruct (xorb _ _); auto using rel_non_match. }
      destruct (Nat.eqb cur 0); auto.
      apply rel_deref; auto. intros _ a _. rewrite one_same. auto.
    - apply rel_trivial; auto. intros. apply one_same.
    - apply rel_trivial; auto. intros. apply one_same.
    - apply rel_trivial; auto. intros. apply one_same.
    - apply rel_trivial; auto. intros. apply one_same.
    - cbn [size] in Hf. destruct (is_assertion n).
      + apply rel_on_result; auto using rel_non_match.
        apply IH; auto; try lia. apply rel_success.
      + apply rel_trivial; auto. intros. apply one_same.
    - rewrite size_Seq in Hf. apply rel_seq; auto. apply runs_list in Hr.
      rewrite Forall_forall in *. intros x Hx. apply IH; auto.
      apply size_in_sum in Hx. lia.
    - rewrite size_Alt in Hf. apply rel_alt; auto. apply runs_list in Hr.
      rewrite Forall_forall in *. intros x Hx. apply IH; auto.
      apply size_in_sum in Hx. lia.
    - cbn [size] in Hf. apply rel_or_else.
      + apply IH; auto; try lia. intros j c' Hj.
        destruct (store _ _ _ _ _ _ _ _); [auto|exact I].
      + intros c'. destruct (clear_cell _ _); [apply rel_non_match|exact I].
    - cbn [size] in Hf.
      assert (Hz : (lo = 0%N /\ hi = Fin 0) \/ runs_on_both n).
      { destruct Hr as [Hr|Hr]; [right; left; exact Hr|]. cbn [forward_ok] in Hr.
        apply orb_true_iff in Hr as [Hr|Hr]; [left|right; right; exact Hr].
        apply andb_true_iff in Hr as [H1 H2]. destruct hi as [h|]; [|discriminate].
        apply N.eqb_eq in H1, H2. now subst. }
      destruct Hz as [[-> ->]|Hz]; [exact (Hk cur c Hc)|]. clear Hr. rename Hz into Hr.
      apply rel_rep; auto.
      + apply IH; auto. lia.
      + intros T. split; intros; apply m_trivial; auto; lia.
    - now apply rel_backref.
    - destruct (unique_position _ _); [now apply rel_backref|exact I].
    - cbn [size] in Hf. destruct d.
      + destruct (trivial n).
        * destruct (Nat.eqb _ _); [apply rel_non_match|].
          apply rel_deref; auto. intros _ a _. rewrite one_same. unfold assert_that.
          destruct (match_one _ _ _); auto using rel_non_match.
        * apply rel_on_result; auto using rel_non_match.
          apply IH; auto; try lia. apply rel_success.
      + destruct Hr as [Hr|Hr]; [|discriminate]. rewrite Hr.
        destruct (is_bidirectional cf2) eqn:B2; cbn [negb]; [|exact I].
        destruct (trivial n).
        * destruct (Nat.eqb _ _); [apply rel_non_match|].
          apply rel_deref; auto. intros _ a _. rewrite one_same. unfold assert_that.
          destruct (match_one _ _ _); auto using rel_non_match.
        * apply rel_on_result; auto using rel_non_match.
          apply IH; [rewrite size_invert; lia|left; congruence|lia|apply rel_success].
  Qed.
End Impl.
