(** Congruence of the matcher: exact equality of outcomes when the text is
    replaced character by character, the greediness of the tree is exchanged
    together with the [ungreedy] flag, and the fuel changes. *)
From Verif Require Import Matcher Basics.

(** Applies [g] to every repetition mode of a tree. *)
Fixpoint map_mode (g : match_mode -> match_mode) (n : node) : node :=
  match n with
  | CSet l => CSet (map (map_mode g) l)
  | Seq l => Seq (map (map_mode g) l)
  | Alt l => Alt (map (map_mode g) l)
  | Neg x => Neg (map_mode g x)
  | Cap i nm x => Cap i nm (map_mode g x)
  | Rep md lo hi x => Rep (g md) lo hi (map_mode g x)
  | Look d x => Look d (map_mode g x)
  | _ => n
  end.

Lemma map_mode_id n : map_mode (fun x => x) n = n.
Proof.
  induction n using node_ind'; cbn; try reflexivity; try (f_equal; assumption);
    f_equal; rewrite <- (map_id l) at 2; now apply map_ext_Forall.
Qed.

Section MapMode.
  Variable g : match_mode -> match_mode.
  Hypothesis Hg : forall md, g md = Possessive <-> md = Possessive.

  Lemma size_map_mode n : size (map_mode g n) = size n.
  Proof.
    induction n using node_ind'; cbn [map_mode]; try reflexivity;
      try (cbn [size]; now rewrite IHn).
    - rewrite !size_CSet, map_map. now rewrite (map_ext_Forall _ size).
    - rewrite !size_Seq, map_map. now rewrite (map_ext_Forall _ size).
    - rewrite !size_Alt, map_map. now rewrite (map_ext_Forall _ size).
  Qed.

  Lemma trivial_map_mode n : trivial (map_mode g n) = trivial n.
  Proof.
    induction n using node_ind'; cbn [map_mode]; try reflexivity.
    - cbn [trivial]. assumption.
    - rewrite !trivial_Seq. destruct l as [|a [|b r]]; cbn; try reflexivity.
      now inversion H.
    - rewrite !trivial_Alt. destruct l as [|a r]; [reflexivity|].
      change (map (map_mode g) (a :: r)) with (map_mode g a :: map (map_mode g) r).
      cbn [forallb]. inversion H; subst. rewrite H2, forallb_map. f_equal.
      now apply forallb_ext_Forall.
    - rewrite !trivial_Rep. now rewrite IHn.
  Qed.

  Lemma zlm_map_mode n : zlm (map_mode g n) = zlm n.
  Proof.
    induction n using node_ind'; cbn [map_mode zlm]; try reflexivity; auto.
    - now rewrite trivial_map_mode.
    - rewrite forallb_map. now apply forallb_ext_Forall.
    - rewrite existsb_map. now apply existsb_ext_Forall.
    - now rewrite IHn.
  Qed.

  Lemma is_assertion_map_mode n : is_assertion (map_mode g n) = is_assertion n.
  Proof.
    induction n using node_ind'; cbn [map_mode]; try reflexivity; auto.
    - destruct l as [|a [|b r]]; cbn; try reflexivity. now inversion H.
    - destruct l as [|a [|b r]]; cbn; try reflexivity. now inversion H.
    - rewrite !is_assertion_Rep, IHn. do 3 f_equal.
      pose proof (Hg md) as [A B]. destruct (g md), md; try reflexivity; exfalso;
        try (specialize (A eq_refl); discriminate); specialize (B eq_refl); discriminate.
  Qed.

  Lemma invert_map_mode n : invert (map_mode g n) = map_mode g (invert n).
  Proof.
    induction n using node_ind'; cbn [map_mode]; try reflexivity;
      try (cbn [invert map_mode]; now rewrite ?IHn).
    - cbn [invert map_mode]. f_equal. rewrite !map_map. now apply map_ext_Forall.
    - rewrite !invert_Seq. cbn [map_mode]. f_equal. rewrite map_rev. f_equal.
      rewrite !map_map. now apply map_ext_Forall.
    - cbn [invert map_mode]. f_equal. rewrite !map_map. now apply map_ext_Forall.
  Qed.

  Lemma match_one_map_mode cf n a : match_one cf (map_mode g n) a = match_one cf n a.
  Proof.
    induction n using node_ind'; cbn [map_mode match_one]; try reflexivity; auto.
    - rewrite existsb_map. now apply existsb_ext_Forall.
    - now rewrite IHn.
    - destruct l as [|x [|y r]]; cbn; try reflexivity. now inversion H.
    - rewrite existsb_map. now apply existsb_ext_Forall.
  Qed.

  Lemma names_map_mode n : capture_name_spec (map_mode g n) = capture_name_spec n.
  Proof.
    induction n using node_ind'; cbn; try reflexivity; auto; try (now f_equal);
      induction H; cbn; congruence.
  Qed.
End MapMode.

Section Cong.
  Variables cf1 cf2 : config.
  Variable names : list group_name.
  Variables base1 base2 : list ascii.
  Variable R : ascii -> ascii -> Prop.
  Variable g : match_mode -> match_mode.
  Hypothesis Hg : forall md, g md = Possessive <-> md = Possessive.
  Hypothesis Hmode : forall md, md <> Possessive ->
    xorb (match md with Greedy => true | _ => false end) (ungreedy cf1)
    = xorb (match g md with Greedy => true | _ => false end) (ungreedy cf2).
  Hypothesis Hcat : cat cf1 = cat cf2.
  Hypothesis Hunroll : unroll cf1 = unroll cf2.
  Hypothesis Hmultiline : multiline cf1 = multiline cf2.
  (** The nodes for which the two texts have to be compared, closed under going down
      the tree.  Line tests, word tests and references ask for more. *)
  Variable ok : node -> Prop.
  Hypothesis ok_in : forall l x, ok (Seq l) \/ ok (Alt l) -> In x l -> ok x.
  Hypothesis ok_neg : forall x, ok (Neg x) -> ok x.
  Hypothesis ok_cap : forall id nm x, ok (Cap id nm x) -> ok x.
  Hypothesis ok_rep : forall md lo hi x, ok (Rep md lo hi x) -> ok x.
  Hypothesis ok_look : forall d x, ok (Look d x) -> ok x.
  Hypothesis ok_invert : forall x, ok x -> ok (invert x).
  Hypothesis Hone : forall n a b, ok n -> R a b -> match_one cf1 n a = match_one cf2 n b.
  Hypothesis Hline : forall a b, (ok BeginLine \/ ok EndLine) -> multiline cf2 = true ->
    R a b -> match_one cf1 n_linebreak a = match_one cf2 n_linebreak b.
  Hypothesis Hword : forall a b, ok WordB -> R a b ->
    match_one cf1 n_word a = match_one cf2 n_word b.
  Definition some_reference : Prop := (exists i, ok (Backref i)) \/ (exists nm, ok (NBackref nm)).
  Hypothesis Hback : forall a a' b b', some_reference -> R a a' -> R b b' ->
    backref_char_eq cf1 a b = backref_char_eq cf2 a' b'.
  Hypothesis Hbase : Forall2 R base1 base2.

  Definition same_cont (k1 k2 : cont) : Prop := forall j c, k1 j c = k2 j c.
  Definition same_matcher (m1 m2 : matcher) : Prop :=
    forall cur c k1 k2, same_cont k1 k2 -> m1 cur c k1 = m2 cur c k2.
  Definition same_test (p q : ascii -> bool) : Prop := forall a b, R a b -> p a = q b.

  Lemma same_random : is_random cf1 = is_random cf2.
  Proof. unfold is_random. now rewrite Hcat. Qed.
  Lemma same_bidirectional : is_bidirectional cf1 = is_bidirectional cf2.
  Proof. unfold is_bidirectional. now rewrite Hcat. Qed.

  Lemma same_or_else o1 o2 f1 f2 :
    o1 = o2 -> (forall c, f1 c = f2 c) -> or_else o1 f1 = or_else o2 f2.
  Proof. intros -> H. destruct o2 as [c e [|]| | |]; cbn; auto. Qed.

  Lemma same_on_result o1 o2 f1 f2 g1 g2 :
    o1 = o2 -> (forall e c, f1 e c = f2 e c) -> (forall c, g1 c = g2 c) ->
    on_result o1 f1 g1 = on_result o2 f2 g2.
  Proof. intros -> H. destruct o2 as [c e [|]| | |]; cbn; auto. Qed.

  Lemma Forall2_nth {A B} (P : A -> B -> Prop) l1 l2 i :
    Forall2 P l1 l2 ->
    match nth_error l1 i, nth_error l2 i with
    | Some a, Some b => P a b
    | None, None => True
    | _, _ => False
    end.
  Proof.
    intros H. revert i. induction H; intros [|i]; cbn; auto. apply IHForall2.
  Qed.

  Lemma Forall2_length {A B} (P : A -> B -> Prop) l1 l2 :
    Forall2 P l1 l2 -> length l1 = length l2.
  Proof. induction 1; cbn; congruence. Qed.

  Lemma Forall2_rev' {A B} (P : A -> B -> Prop) l1 l2 :
    Forall2 P l1 l2 -> Forall2 P (rev l1) (rev l2).
  Proof. induction 1; cbn; auto. apply Forall2_app; auto. Qed.

  Lemma Forall2_firstn {A B} (P : A -> B -> Prop) l1 l2 n :
    Forall2 P l1 l2 -> Forall2 P (firstn n l1) (firstn n l2).
  Proof. intros H. revert n. induction H; intros [|n]; cbn; auto. Qed.

  Lemma Forall2_skipn {A B} (P : A -> B -> Prop) l1 l2 n :
    Forall2 P l1 l2 -> Forall2 P (skipn n l1) (skipn n l2).
  Proof. intros H. revert n. induction H; intros [|n]; cbn; auto. Qed.

  Lemma same_view rd : Forall2 R (view base1 rd) (view base2 rd).
  Proof. unfold view. destruct (Nat.even rd); auto using Forall2_rev'. Qed.

  Section Text.
    Variables s1 s2 : list ascii.
    Hypothesis Hs : Forall2 R s1 s2.

    Lemma same_length : length s1 = length s2.
    Proof. eapply Forall2_length; eauto. Qed.

    Lemma same_deref i f1 f2 :
      (forall a b, R a b -> f1 a = f2 b) -> deref s1 i f1 = deref s2 i f2.
    Proof.
      intros H. unfold deref. pose proof (Forall2_nth R s1 s2 i Hs) as Hn.
      destruct (nth_error s1 i), (nth_error s2 i); try easy. auto.
    Qed.

    Lemma same_trivial p q : same_test p q ->
      same_matcher (match_trivial s1 p) (match_trivial s2 q).
    Proof.
      intros Hp cur c k1 k2 Hk. unfold match_trivial. rewrite same_length.
      destruct (Nat.eqb cur (length s2)); [reflexivity|].
      apply same_deref. intros a b Hab. rewrite (Hp a b Hab).
      destruct (q b); auto.
    Qed.

    Lemma same_distance n cur :
      distance_less_than cf1 n (length s1) cur = distance_less_than cf2 n (length s2) cur.
    Proof. unfold distance_less_than. now rewrite same_random, same_length. Qed.

    Lemma same_all_at ps qs cur : Forall2 same_test ps qs ->
      all_at s1 ps cur = all_at s2 qs cur.
    Proof.
      intros H. revert cur. induction H as [|p q ps qs Hp _ IH]; intros cur; cbn; auto.
      pose proof (Forall2_nth R s1 s2 cur Hs) as Hn.
      destruct (nth_error s1 cur), (nth_error s2 cur); try easy.
      rewrite (Hp _ _ Hn). destruct (q _); auto.
    Qed.

    Lemma same_block_random ps qs : Forall2 same_test ps qs ->
      same_matcher (trivial_block_random s1 ps) (trivial_block_random s2 qs).
    Proof.
      intros H cur c k1 k2 Hk. unfold trivial_block_random.
      rewrite (same_all_at ps qs cur H), (Forall2_length _ _ _ H).
      destruct (all_at s2 qs cur) as [[|]|]; auto.
    Qed.

    Lemma same_block_forward ps qs : Forall2 same_test ps qs ->
      same_matcher (sequence_block_forward s1 ps) (sequence_block_forward s2 qs).
    Proof.
      intros H. induction H as [|p q ps qs Hp Hps IH]; intros cur c k1 k2 Hk; [reflexivity|].
      cbn [sequence_block_forward]. destruct Hps.
      - apply same_deref. intros a b Hab. rewrite (Hp a b Hab). destruct (q b); auto.
      - apply same_deref. intros a b Hab. rewrite (Hp a b Hab). destruct (q b); auto.
    Qed.

    Lemma same_repetition_random p q : same_test p q -> forall todo offset,
      same_matcher (repetition_loop_random s1 p todo offset)
                   (repetition_loop_random s2 q todo offset).
    Proof.
      intros Hp. induction todo as [|t IH]; intros offset cur c k1 k2 Hk;
        cbn [repetition_loop_random]; auto.
      apply same_deref. intros a b Hab. rewrite (Hp a b Hab).
      destruct (q b); cbn [negb]; auto. now apply IH.
    Qed.

    Lemma same_repetition_forward p q : same_test p q -> forall n,
      same_matcher (repetition_block_forward s1 p n) (repetition_block_forward s2 q n).
    Proof.
      intros Hp. induction n as [|t IH]; intros cur c k1 k2 Hk;
        cbn [repetition_block_forward]; auto.
      apply same_deref. intros a b Hab. rewrite (Hp a b Hab).
      destruct (q b); auto.
    Qed.

    Lemma same_possessive_trivial p q : same_test p q -> forall fuel b,
      same_matcher (possessive_trivial fuel s1 p b) (possessive_trivial fuel s2 q b).
    Proof.
      intros Hp. induction fuel as [|f IH]; intros bd cur c k1 k2 Hk; [reflexivity|].
      cbn [possessive_trivial]. rewrite same_length.
      destruct (bound_is_zero bd); auto. destruct (Nat.eqb _ _); auto.
      apply same_deref. intros a b Hab. rewrite (Hp a b Hab). destruct (q b); auto.
      now apply IH.
    Qed.

    Lemma same_lazy_trivial p q : same_test p q -> forall fuel b,
      same_matcher (lazy_trivial fuel s1 p b) (lazy_trivial fuel s2 q b).
    Proof.
      intros Hp. induction fuel as [|f IH]; intros bd cur c k1 k2 Hk; [reflexivity|].
      cbn [lazy_trivial]. rewrite same_length.
      apply same_or_else; auto. intros c'.
      destruct (bound_is_zero bd); auto. destruct (Nat.eqb _ _); auto.
      apply same_deref. intros a b Hab. rewrite (Hp a b Hab). destruct (q b); auto.
      now apply IH.
    Qed.

    Lemma same_step_back : forall d initial c k1 k2, same_cont k1 k2 ->
      step_back initial d c k1 = step_back initial d c k2.
    Proof.
      induction d; intros initial c k1 k2 Hk; cbn [step_back];
        apply same_or_else; auto.
    Qed.

    Lemma same_unrolled mx1 mx2 : same_matcher mx1 mx2 -> forall n,
      same_matcher (unrolled_backtracking mx1 n) (unrolled_backtracking mx2 n).
    Proof.
      intros Hm. induction n as [|n IH]; intros cur c k1 k2 Hk;
        cbn [unrolled_backtracking]; auto.
      destruct n; auto. apply Hm. intros j c'. now apply IH.
    Qed.

    Lemma same_non_unrolled mx1 mx2 : same_matcher mx1 mx2 -> forall n,
      same_matcher (non_unrolled_backtracking mx1 n) (non_unrolled_backtracking mx2 n).
    Proof.
      intros Hm. induction n as [|n IH]; intros cur c k1 k2 Hk;
        cbn [non_unrolled_backtracking]; auto.
      destruct (Nat.eqb (S n) 1); auto. apply Hm. intros j c'. now apply IH.
    Qed.

    Lemma same_success : same_cont success success.
    Proof. now intros j c. Qed.

    Lemma same_continue w cur k1 k2 : same_cont k1 k2 ->
      same_cont (continue_unless_infinite_loop w cur k1)
                (continue_unless_infinite_loop w cur k2).
    Proof.
      intros Hk j c. unfold continue_unless_infinite_loop.
      destruct (w && Nat.eqb cur j)%bool; auto.
    Qed.

    Lemma same_possessive_generic mx1 mx2 w : same_matcher mx1 mx2 -> forall fuel b,
      same_matcher (possessive_generic fuel mx1 w b) (possessive_generic fuel mx2 w b).
    Proof.
      intros Hm. induction fuel as [|f IH]; intros bd cur c k1 k2 Hk; [reflexivity|].
      cbn [possessive_generic]. destruct (bound_is_zero bd); auto.
      apply same_on_result; auto.
      - apply Hm, same_success.
      - intros e c'. destruct (w && Nat.eqb cur e)%bool; auto. now apply IH.
    Qed.

    Lemma same_greedy_generic mx1 mx2 w : same_matcher mx1 mx2 -> forall fuel b,
      same_matcher (greedy_generic fuel mx1 w b) (greedy_generic fuel mx2 w b).
    Proof.
      intros Hm. induction fuel as [|f IH]; intros bd cur c k1 k2 Hk; [reflexivity|].
      cbn [greedy_generic]. destruct (bound_is_zero bd); auto.
      apply same_or_else; auto. apply Hm. apply same_continue. intros j c'. now apply IH.
    Qed.

    Lemma same_lazy_generic mx1 mx2 w : same_matcher mx1 mx2 -> forall fuel b,
      same_matcher (lazy_generic fuel mx1 w b) (lazy_generic fuel mx2 w b).
    Proof.
      intros Hm. induction fuel as [|f IH]; intros bd cur c k1 k2 Hk; [reflexivity|].
      cbn [lazy_generic]. apply same_or_else; auto. intros c0.
      destruct (bound_is_zero bd); auto.
      apply Hm. apply same_continue. intros j c'. now apply IH.
    Qed.

    Lemma same_one x : ok x -> same_test (match_one cf1 x) (match_one cf2 (map_mode g x)).
    Proof. intros Hok a b Hab. rewrite match_one_map_mode. now apply Hone. Qed.

    Lemma same_between x mx1 mx2 md b w :
      ok x -> same_matcher mx1 mx2 ->
      same_matcher (between_bounds cf1 s1 md b w x mx1)
                   (between_bounds cf2 s2 (g md) b w (map_mode g x) mx2).
    Proof.
      intros Hok Hm cur c k1 k2 Hk. unfold between_bounds.
      rewrite same_length, trivial_map_mode, same_bidirectional.
      pose proof (same_one x Hok) as Hx.
      assert (Hgen : forall dir,
        (if dir : bool then
          if trivial x && is_bidirectional cf2 then
            possessive_trivial (loop_fuel b (length s2) cur) s1 (match_one cf1 x) b cur c
              (fun next c' => step_back cur (next - cur) c' k1)
          else greedy_generic (loop_fuel b (length s2) cur) mx1 w b cur c k1
        else if trivial x
        then lazy_trivial (loop_fuel b (length s2) cur) s1 (match_one cf1 x) b cur c k1
        else lazy_generic (loop_fuel b (length s2) cur) mx1 w b cur c k1) =
        (if dir then
          if trivial x && is_bidirectional cf2 then
            possessive_trivial (loop_fuel b (length s2) cur) s2
              (match_one cf2 (map_mode g x)) b cur c
              (fun next c' => step_back cur (next - cur) c' k2)
          else greedy_generic (loop_fuel b (length s2) cur) mx2 w b cur c k2
        else if trivial x
        then lazy_trivial (loop_fuel b (length s2) cur) s2
               (match_one cf2 (map_mode g x)) b cur c k2
        else lazy_generic (loop_fuel b (length s2) cur) mx2 w b cur c k2)).
      { intros [|].
        - destruct (trivial x && is_bidirectional cf2)%bool.
          + apply same_possessive_trivial; auto. intros j c'. now apply same_step_back.
          + now apply same_greedy_generic.
        - destruct (trivial x).
          + now apply same_lazy_trivial.
          + now apply same_lazy_generic. }
      destruct md.
      - rewrite (Hmode Greedy) by discriminate.
        destruct (g Greedy) eqn:E; try apply Hgen. apply -> Hg in E. discriminate.
      - rewrite (Hmode Lazy) by discriminate.
        destruct (g Lazy) eqn:E; try apply Hgen. apply -> Hg in E. discriminate.
      - rewrite (proj2 (Hg Possessive) eq_refl). destruct (trivial x).
        + now apply same_possessive_trivial.
        + now apply same_possessive_generic.
    Qed.

    Lemma same_repeat {A B} (P : A -> B -> Prop) x y n :
      P x y -> Forall2 P (repeat x n) (repeat y n).
    Proof. intros H. induction n; cbn; auto. Qed.

    Lemma same_fixed_backtracking x mx1 mx2 n :
      ok x -> same_matcher mx1 mx2 ->
      same_matcher (fixed_backtracking cf1 s1 x mx1 n)
                   (fixed_backtracking cf2 s2 (map_mode g x) mx2 n).
    Proof.
      intros Hok Hm cur c k1 k2 Hk. unfold fixed_backtracking.
      rewrite trivial_map_mode, same_distance, same_random, Hunroll.
      pose proof (same_one x Hok) as Hx.
      destruct (trivial x).
      - destruct (distance_less_than _ _ _ _); auto. destruct (is_random cf2).
        + destruct (unroll cf2).
          * apply same_block_random; auto. now apply same_repeat.
          * now apply same_repetition_random.
        + now apply same_repetition_forward.
      - destruct (unroll cf2).
        + now apply same_unrolled.
        + now apply same_non_unrolled.
    Qed.

    Lemma same_fixed x mx1 mx2 md n :
      ok x -> same_matcher mx1 mx2 ->
      same_matcher (fixed_match cf1 s1 md n x mx1)
                   (fixed_match cf2 s2 (g md) n (map_mode g x) mx2).
    Proof.
      intros Hok Hm cur c k1 k2 Hk. unfold fixed_match.
      destruct (N.eqb n 0); auto.
      pose proof (same_fixed_backtracking x mx1 mx2 n Hok Hm) as Hf.
      destruct md.
      - destruct (g Greedy) eqn:E; [| |apply -> Hg in E; discriminate];
          destruct (N.eqb n 1); auto.
      - destruct (g Lazy) eqn:E; [| |apply -> Hg in E; discriminate];
          destruct (N.eqb n 1); auto.
      - rewrite (proj2 (Hg Possessive) eq_refl). rewrite trivial_map_mode.
        destruct (N.eqb n 1).
        + destruct (trivial x); auto. apply same_on_result; auto. apply Hm, same_success.
        + apply same_on_result; auto. apply Hf, same_success.
    Qed.

    Lemma same_rep x mx1 mx2 md lo hi :
      ok x -> same_matcher mx1 mx2 ->
      same_matcher (rep_match cf1 s1 md lo hi x mx1)
                   (rep_match cf2 s2 (g md) lo hi (map_mode g x) mx2).
    Proof.
      intros Hok Hm cur c k1 k2 Hk. unfold rep_match. rewrite zlm_map_mode.
      destruct (match hi with Fin h => N.eqb lo h | Inf => false end).
      - now apply same_fixed.
      - destruct (is_zero lo).
        + now apply same_between.
        + apply same_fixed; auto. intros j c'. now apply same_between.
    Qed.

    Lemma same_seq mm1 mm2 l :
      Forall ok l ->
      Forall (fun x => same_matcher (mm1 x) (mm2 (map_mode g x))) l ->
      same_matcher (seq_match cf1 s1 mm1 l) (seq_match cf2 s2 mm2 (map (map_mode g) l)).
    Proof.
      induction l as [|x r IH]; intros HO HF cur c k1 k2 Hk; [reflexivity|].
      inversion HF as [|? ? Hx Hr]; subst. pose proof (Forall_inv_tail HO) as HOr.
      destruct r as [|y r'].
      - cbn. now apply Hx.
      - remember (y :: r') as r eqn:Er.
        change (map (map_mode g) (x :: r)) with (map_mode g x :: map (map_mode g) r).
        set (r2 := map (map_mode g) r) in *.
        rewrite !seq_match_cons by (subst r; discriminate).
        assert (HT : forallb trivial (map_mode g x :: r2) = forallb trivial (x :: r)).
        { cbn. subst r2. rewrite trivial_map_mode, forallb_map. f_equal.
          apply forallb_ext_Forall, Forall_forall. intros. apply trivial_map_mode. }
        assert (HP : Forall2 same_test (map (match_one cf1) (x :: r))
                       (map (match_one cf2) (map_mode g x :: r2))).
        { change (map_mode g x :: r2) with (map (map_mode g) (x :: r)).
          revert HO. generalize (x :: r). intros l HO.
          induction HO; cbn; auto using same_one. }
        rewrite HT. destruct (forallb trivial (x :: r)).
        + rewrite same_distance, same_random.
          replace (length (map_mode g x :: r2)) with (length (x :: r))
            by (cbn; subst r2; now rewrite map_length).
          destruct (distance_less_than _ _ _ _); auto. destruct (is_random cf2).
          * now apply same_block_random.
          * now apply same_block_forward.
        + apply Hx. intros j c'. apply IH; auto.
    Qed.

    Lemma same_alt mm1 mm2 l :
      Forall ok l ->
      Forall (fun x => same_matcher (mm1 x) (mm2 (map_mode g x))) l ->
      same_matcher (alt_match cf1 s1 mm1 l) (alt_match cf2 s2 mm2 (map (map_mode g) l)).
    Proof.
      induction l as [|x r IH]; intros HO HF cur c k1 k2 Hk; [reflexivity|].
      inversion HF as [|? ? Hx Hr]; subst. pose proof (Forall_inv_tail HO) as HOr.
      destruct r as [|y r'].
      - cbn. now apply Hx.
      - remember (y :: r') as r eqn:Er.
        change (map (map_mode g) (x :: r)) with (map_mode g x :: map (map_mode g) r).
        set (r2 := map (map_mode g) r) in *.
        rewrite !alt_match_cons by (subst r; discriminate).
        assert (HT : forallb trivial (map_mode g x :: r2) = forallb trivial (x :: r)).
        { cbn. subst r2. rewrite trivial_map_mode, forallb_map. f_equal.
          apply forallb_ext_Forall, Forall_forall. intros. apply trivial_map_mode. }
        rewrite HT. destruct (forallb trivial (x :: r)).
        + apply same_trivial; auto. intros a b Hab.
          change (map_mode g x :: r2) with (map (map_mode g) (x :: r)).
          rewrite existsb_map. apply existsb_ext_Forall, Forall_forall. intros y0 Hy0.
          rewrite Forall_forall in HO. apply same_one; auto.
        + apply same_or_else; auto. intros c'. apply IH; auto.
    Qed.

    Lemma same_backref_loop t1 t2 : some_reference -> Forall2 R t1 t2 ->
      same_matcher (backref_loop cf1 s1 t1) (backref_loop cf2 s2 t2).
    Proof.
      intros Href H. induction H as [|x y t1 t2 Hxy Ht IH]; intros cur c k1 k2 Hk;
        cbn [backref_loop]; auto.
      apply same_deref. intros a b Hab. rewrite (Hback _ _ _ _ Href Hxy Hab).
      destruct (backref_char_eq cf2 y b); auto.
    Qed.
  End Text.

  Lemma same_backref rd i : some_reference ->
    same_matcher (backref_match cf1 base1 rd i) (backref_match cf2 base2 rd i).
  Proof.
    intros Href cur c k1 k2 Hk. unfold backref_match. destruct (nth_error c i) as [v|]; auto.
    destruct (match v with Some p => p | None => (0, 0) end) as [b e].
    rewrite (same_distance _ _ (same_view rd)). unfold len.
    rewrite (Forall2_length _ _ _ Hbase).
    destruct (distance_less_than _ _ _ _); auto. destruct (_ || _)%bool; auto.
    assert (Forall2 R (firstn (e - b) (skipn b base1)) (firstn (e - b) (skipn b base2))).
    { now apply Forall2_firstn, Forall2_skipn. }
    apply same_backref_loop; auto; [apply same_view|].
    destruct rd; auto using Forall2_rev'.
  Qed.

  Theorem m_cong : forall f1 f2 rd n,
    size n <= f1 -> size n <= f2 -> ok n ->
    same_matcher (m cf1 names base1 f1 rd n) (m cf2 names base2 f2 rd (map_mode g n)).
  Proof.
    induction f1 as [|f1 IH]; intros [|f2] rd n H1 H2 Hok cur c k1 k2 Hk;
      try (pose proof (size_pos n); lia).
    assert (Hlen : length (view base1 rd) = length (view base2 rd)).
    { eapply Forall2_length, same_view. }
    assert (Hlist : forall l, Forall ok l -> S (list_sum (map size l)) <= S f1 ->
      S (list_sum (map size l)) <= S f2 ->
      Forall (fun x => same_matcher (m cf1 names base1 f1 rd x)
                         (m cf2 names base2 f2 rd (map_mode g x))) l).
    { intros l Hl Hl1 Hl2. apply Forall_forall. intros x Hx. rewrite Forall_forall in Hl.
      pose proof (Hl _ Hx). apply size_in_sum in Hx. apply IH; auto; lia. }
    assert (Hins : forall l, ok (Seq l) \/ ok (Alt l) -> Forall ok l).
    { intros l Hl. apply Forall_forall. intros x Hx. eapply ok_in; eauto. }
    destruct n; cbn [m map_mode].
    - auto.
    - rewrite Hmultiline, same_bidirectional.
      destruct (Nat.eqb cur 0); auto. destruct (multiline cf2) eqn:Eml; auto.
      destruct (is_bidirectional cf2); auto.
      apply same_deref; [apply same_view|]. intros a b Hab. unfold assert_that.
      rewrite (Hline a b) by auto. destruct (match_one _ _ _); auto.
    - unfold assert_that. destruct (Nat.eqb cur 0); auto.
    - rewrite Hmultiline, Hlen.
      destruct (Nat.eqb cur (length (view base2 rd))); auto. destruct (multiline cf2) eqn:Eml; auto.
      apply same_deref; [apply same_view|]. intros a b Hab. unfold assert_that.
      rewrite (Hline a b) by auto. destruct (match_one _ _ _); auto.
    - rewrite Hlen. unfold assert_that. destruct (Nat.eqb cur _); auto.
    - rewrite same_bidirectional. destruct (is_bidirectional cf2); cbn [negb]; auto.
      rewrite Hlen.
      assert (Hah : forall bb,
        (if Nat.eqb cur (length (view base2 rd)) then assert_that (xorb bb false) cur c k1
         else deref (view base1 rd) cur
                (fun a => assert_that (xorb bb (match_one cf1 n_word a)) cur c k1))
        = (if Nat.eqb cur (length (view base2 rd)) then assert_that (xorb bb false) cur c k2
           else deref (view base2 rd) cur
                (fun a => assert_that (xorb bb (match_one cf2 n_word a)) cur c k2))).
      { intros bb. unfold assert_that. destruct (Nat.eqb _ _).
        - destruct (xorb _ _); auto.
        - apply same_deref; [apply same_view|]. intros a b Hab.
          rewrite (Hword a b) by auto. destruct (xorb _ _); auto. }
      destruct (Nat.eqb cur 0); auto.
      apply same_deref; [apply same_view|]. intros a b Hab.
      rewrite (Hword a b) by auto. auto.
    - apply same_trivial; auto using same_view. apply (same_one Wild Hok).
    - apply same_trivial; auto using same_view. apply (same_one (Lit c0) Hok).
    - apply same_trivial; auto using same_view. apply (same_one (Range a b) Hok).
    - apply same_trivial; auto using same_view. apply (same_one (CSet l) Hok).
    - rewrite is_assertion_map_mode by assumption. cbn [size] in *.
      destruct (is_assertion n).
      + apply same_on_result; auto. apply IH; try lia; [eauto|]. apply same_success.
      + apply same_trivial; auto using same_view. apply (same_one (Neg n) Hok).
    - rewrite size_Seq in *. apply same_seq; auto 6 using same_view.
    - rewrite size_Alt in *. apply same_alt; auto 6 using same_view.
    - cbn [size] in *. apply same_or_else; auto. apply IH; try lia; [eauto|]. intros j c'.
      unfold store, len. rewrite (Forall2_length _ _ _ Hbase).
      destruct (match nth_error names (N.to_nat id) with Some _ => _ | None => _ end); auto.
    - cbn [size] in *. apply same_rep; eauto using same_view. apply IH; eauto; lia.
    - apply same_backref; auto. left. eauto.
    - destruct (unique_position _ _); auto. apply same_backref; auto. right. eauto.
    - cbn [size] in *. rewrite same_bidirectional, trivial_map_mode, Hlen.
      destruct d.
      + destruct (trivial n).
        * destruct (Nat.eqb _ _); auto. apply same_deref; [apply same_view|].
          intros a b Hab. unfold assert_that. rewrite (same_one n (ok_look _ _ Hok) a b Hab).
          destruct (match_one _ _ _); auto.
        * apply same_on_result; auto. apply IH; try lia; [eauto|]. apply same_success.
      + destruct (is_bidirectional cf2); cbn [negb]; auto. destruct (trivial n).
        * destruct (Nat.eqb _ _); auto. apply same_deref; [apply same_view|].
          intros a b Hab. unfold assert_that. rewrite (same_one n (ok_look _ _ Hok) a b Hab).
          destruct (match_one _ _ _); auto.
        * apply same_on_result; auto. rewrite invert_map_mode.
          apply IH; rewrite ?size_invert; try lia; [eauto|]. apply same_success.
  Qed.
End Cong.

(** Pointwise equal continuations and enough fuel. *)
Lemma m_ext cf names base f1 f2 rd n cur c k1 k2 :
  size n <= f1 -> size n <= f2 -> (forall j c, k1 j c = k2 j c) ->
  m cf names base f1 rd n cur c k1 = m cf names base f2 rd n cur c k2.
Proof.
  intros H1 H2 Hk. rewrite <- (map_mode_id n) at 2.
  eapply (m_cong cf cf names base base eq (fun x => x)) with (ok := fun _ => True);
    auto; try tauto.
  - intros. now subst.
  - intros. now subst.
  - intros. now subst.
  - intros. now subst.
  - induction base; auto.
Qed.

(** The compile-time conditions do not depend on the fuel. *)
Lemma compiles_fuel cf names : forall f1 f2 rd n,
  size n <= f1 -> size n <= f2 -> compiles cf names f1 rd n = compiles cf names f2 rd n.
Proof.
  induction f1 as [|f1 IH]; intros [|f2] rd n H1 H2;
    try (pose proof (size_pos n); lia).
  destruct n; cbn [compiles]; try reflexivity;
    try (cbn [size] in *; rewrite (IH f2) by lia; reflexivity).
  - rewrite size_CSet in *. apply forallb_ext_Forall, Forall_forall. intros x Hx.
    apply size_in_sum in Hx. f_equal. apply IH; lia.
  - rewrite size_Seq in *. destruct l as [|y r] eqn:E; [reflexivity|]. rewrite <- E in *.
    apply forallb_ext_Forall, Forall_forall. intros x Hx.
    apply size_in_sum in Hx. apply IH; lia.
  - rewrite size_Alt in *. destruct l as [|y r] eqn:E; [reflexivity|]. rewrite <- E in *.
    apply forallb_ext_Forall, Forall_forall. intros x Hx.
    apply size_in_sum in Hx. apply IH; lia.
  - cbn [size] in *. destruct d.
    + apply IH; lia.
    + f_equal. destruct (trivial n); apply IH; rewrite ?size_invert; lia.
Qed.

(** They only depend on the iterator category, and not on the modes. *)
Lemma compiles_map_mode cf1 cf2 names g :
  (forall md, g md = Possessive <-> md = Possessive) ->
  is_bidirectional cf1 = is_bidirectional cf2 ->
  forall f rd n, compiles cf1 names f rd (map_mode g n) = compiles cf2 names f rd n.
Proof.
  intros Hg Hb. induction f as [|f IH]; intros rd n; [reflexivity|].
  destruct n; cbn [compiles map_mode]; try reflexivity; try (now rewrite ?Hb, ?IH).
  - rewrite forallb_map. apply forallb_ext_Forall, Forall_forall. intros x _.
    now rewrite trivial_map_mode, IH.
  - now rewrite trivial_map_mode, is_assertion_map_mode, IH by assumption.
  - destruct l as [|y r]; [reflexivity|]. cbn. rewrite IH. f_equal. rewrite forallb_map.
    apply forallb_ext_Forall, Forall_forall. intros x _. apply IH.
  - destruct l as [|y r]; [reflexivity|]. cbn. rewrite IH. f_equal. rewrite forallb_map.
    apply forallb_ext_Forall, Forall_forall. intros x _. apply IH.
  - now rewrite trivial_map_mode, IH.
  - destruct d; [apply IH|]. rewrite Hb, trivial_map_mode, IH, invert_map_mode, IH.
    reflexivity.
Qed.
