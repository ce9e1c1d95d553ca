(** Flags as rewritings of the tree. *)
From Verif Require Import Matcher Api Basics Safe Cong Impl Spec Paths Adequacy Calls Lift Exact.

(** The characters whose other case lies between [a] and [b]. *)
Definition partners (a b : ascii) : list node :=
  map (fun c => Lit (other_case c)) (filter (between a b) all_bytes).

(** The tree without flags that means the same as [n] under the flags of [cf]:
    letters in both cases, the wildcard as a set, anchors as anchors of the input
    or as tests of the neighbouring character, modes exchanged. *)
Fixpoint spelled (cf : config) (n : node) : node :=
  match n with
  | Wild => if dotall cf then Neg (CSet []) else Neg n_linebreak
  | BeginLine => if multiline cf then Neg (Look Behind (Neg n_linebreak)) else BeginInput
  | EndLine => if multiline cf then Neg (Look Ahead (Neg n_linebreak)) else EndInput
  | Lit c => if icase cf then CSet [Lit (other_case c); Lit c] else Lit c
  | Range a b => if icase cf then CSet [Range a b; CSet (partners a b)] else Range a b
  | CSet l => CSet (map (spelled cf) l)
  | Neg x => Neg (spelled cf x)
  | Seq l => Seq (map (spelled cf) l)
  | Alt l => Alt (map (spelled cf) l)
  | Cap id nm x => Cap id nm (spelled cf x)
  | Rep md lo hi x => Rep (if ungreedy cf then swap_mode md else md) lo hi (spelled cf x)
  | Look d x => Look d (spelled cf x)
  | _ => n
  end.

(** No line anchor anywhere; no line anchor inside a lookbehind (nor, as the
    compiler demands, in a set or below a negation that is no assertion). *)
Fixpoint no_lines (n : node) : bool :=
  match n with
  | BeginLine | EndLine => false
  | Seq l | Alt l | CSet l => forallb no_lines l
  | Neg x | Cap _ _ x | Rep _ _ _ x | Look _ x => no_lines x
  | _ => true
  end.
Fixpoint lines_outside (n : node) : bool :=
  match n with
  | Seq l | Alt l => forallb lines_outside l
  | Cap _ _ x | Rep _ _ _ x | Look Ahead x => lines_outside x
  | Neg x => (is_assertion x && lines_outside x) || no_lines x
  | CSet l => forallb no_lines l
  | Look Behind x => no_lines x
  | _ => true
  end.

Lemma no_lines_outside n : no_lines n = true -> lines_outside n = true.
Proof.
  induction n using node_ind'; cbn; auto;
    try (rewrite !forallb_forall; rewrite Forall_forall in *; auto; fail).
  - intros E. rewrite E. apply orb_true_r.
  - destruct d; auto.
Qed.

Lemma forallb_rev' {A} (p : A -> bool) l : forallb p (rev l) = forallb p l.
Proof.
  induction l as [|x l IH]; auto. cbn. rewrite forallb_app, IH. cbn. rewrite andb_true_r. apply andb_comm.
Qed.

Lemma no_lines_invert n : no_lines (invert n) = no_lines n.
Proof.
  induction n using node_ind'; cbn; auto;
    rewrite ?reverse_pack_rev, ?forallb_rev', ?forallb_map; apply forallb_ext_Forall; auto.
Qed.

Section Spelled.
  Variable cf : config.
  Definition bare : config := mk_config false false false false (unroll cf) (cat cf).
  Local Notation tr := (spelled cf).

  Lemma partners_accepts a b x : existsb (fun y => accepts bare y x) (partners a b) = between a b (other_case x).
  Proof.
    unfold partners. apply eq_true_iff_eq. rewrite existsb_exists. split.
    - intros (y & Hy & E). apply in_map_iff in Hy as (c & <- & Hc). apply filter_In in Hc as [_ Hc].
      cbn in E. unfold either_case in E. cbn in E. rewrite orb_false_r in E.
      apply Ascii.eqb_eq in E. subst x. now rewrite other_other.
    - intros H. exists (Lit x). split.
      + apply in_map_iff. exists (other_case x). rewrite other_other. split; auto.
        apply filter_In. split; auto using all_bytes_in.
      + cbn. unfold either_case. cbn. now rewrite Ascii.eqb_refl.
  Qed.

  (** Whether [^] and [$] are left alone. *)
  Definition calm (n : node) : Prop := multiline cf = false \/ no_lines n = true.
  Definition fit (n : node) : Prop :=
    multiline cf = false \/ (is_bidirectional cf = true /\ lines_outside n = true).

  Lemma calm_all l : (multiline cf = false \/ forallb no_lines l = true) -> Forall calm l.
  Proof.
    intros H. apply Forall_forall. intros x Hx. destruct H as [H|H]; [now left|].
    right. rewrite forallb_forall in H. auto.
  Qed.

  Lemma spelled_accepts n a : calm n -> accepts bare (tr n) a = accepts cf n a.
  Proof.
    induction n using node_ind'; intros C; cbn [spelled]; try reflexivity.
    - destruct C as [C|C]; [|discriminate]. now rewrite C.
    - destruct C as [C|C]; [|discriminate]. now rewrite C.
    - cbn [accepts]. destruct (dotall cf); [reflexivity|]. rewrite <- match_one_accepts.
      cbn [match_one]. change (negb (match_one bare n_linebreak a) = false || negb (is_newline a))%bool.
      now rewrite linebreak_newline.
    - cbn [accepts]. unfold either_case. destruct (icase cf); cbn [accepts existsb].
      + unfold either_case. cbn. rewrite !orb_false_r, orb_comm. f_equal.
        destruct (Ascii.eqb_spec (other_case c) a), (Ascii.eqb_spec c (other_case a)); auto;
          subst; rewrite ?other_other in *; congruence.
      + unfold either_case. reflexivity.
    - cbn [accepts]. unfold either_case. destruct (icase cf); cbn [accepts existsb].
      + rewrite partners_accepts. unfold either_case. cbn. now rewrite !orb_false_r.
      + unfold either_case. reflexivity.
    - cbn [accepts]. rewrite existsb_map. apply existsb_ext_Forall.
      pose proof (calm_all l C) as D. rewrite Forall_forall in *. auto.
    - cbn [accepts]. now rewrite IHn.
    - pose proof (calm_all l C) as D. destruct l as [|x [|y l]]; auto. cbn.
      inversion H; inversion D; auto.
    - cbn [accepts]. rewrite existsb_map. apply existsb_ext_Forall.
      pose proof (calm_all l C) as D. rewrite Forall_forall in *. auto.
    - now apply IHn.
  Qed.

  Lemma fit_trivial n : trivial n = true -> fit n -> calm n.
  Proof.
    intros T [F|[_ F]]; [now left|]. right.
    induction n using node_ind'; cbn in *; try discriminate; auto.
    - apply orb_true_iff in F as [F|F]; auto. apply andb_true_iff in F as [_ F]. auto.
    - destruct l as [|x [|y l]]; try discriminate. cbn in *. rewrite andb_true_r in *. inversion H; auto.
    - change (trivial (Alt l) = true) in T. rewrite trivial_Alt in T.
      destruct l as [|x l]; [reflexivity|]. rewrite forallb_forall in *.
      rewrite Forall_forall in H. auto.
    - destruct lo as [|[ | |]]; try discriminate. destruct hi as [[|[ | |]]|]; try discriminate. auto.
  Qed.

  Lemma spelled_one n a : trivial n = true -> fit n -> match_one cf n a = match_one bare (tr n) a.
  Proof. intros T F. rewrite !match_one_accepts, spelled_accepts; auto using fit_trivial. Qed.

  Lemma spelled_trivial n : trivial (tr n) = trivial n.
  Proof.
    induction n using node_ind'; cbn [spelled]; try reflexivity; auto.
    - now destruct (multiline cf).
    - now destruct (multiline cf).
    - now destruct (dotall cf).
    - now destruct (icase cf).
    - now destruct (icase cf).
    - destruct l as [|x [|y l]]; try reflexivity. cbn. now inversion H.
    - rewrite !trivial_Alt. destruct l as [|x l]; [reflexivity|].
      change (map tr (x :: l)) with (tr x :: map tr l). rewrite <- (map_cons tr). rewrite forallb_map.
      now apply forallb_ext_Forall.
    - rewrite !trivial_Rep. now rewrite IHn.
  Qed.

  Lemma spelled_zlm n : zlm (tr n) = zlm n.
  Proof.
    induction n using node_ind'; cbn [spelled]; try reflexivity; auto.
    - now destruct (multiline cf).
    - now destruct (multiline cf).
    - now destruct (dotall cf).
    - now destruct (icase cf).
    - now destruct (icase cf).
    - cbn. now rewrite spelled_trivial.
    - cbn. rewrite forallb_map. now apply forallb_ext_Forall.
    - cbn. rewrite existsb_map. now apply existsb_ext_Forall.
    - cbn. now rewrite IHn.
  Qed.

  Lemma spelled_assertion n : is_assertion (tr n) = is_assertion n.
  Proof.
    induction n using node_ind'; cbn [spelled]; try reflexivity; auto.
    - now destruct (multiline cf).
    - now destruct (multiline cf).
    - now destruct (dotall cf).
    - now destruct (icase cf).
    - now destruct (icase cf).
    - destruct l as [|x [|y l]]; try reflexivity. cbn. now inversion H.
    - destruct l as [|x [|y l]]; try reflexivity. cbn. now inversion H.
    - rewrite !is_assertion_Rep, IHn. now destruct (ungreedy cf), md.
  Qed.

  Lemma names_partners a b : flat_map capture_name_spec (partners a b) = [].
  Proof. unfold partners. generalize (filter (between a b) all_bytes). intros l. induction l; auto. Qed.

  Lemma range_names a b l : capture_name_spec (CSet [Range a b; CSet l]) = flat_map capture_name_spec l.
  Proof. cbn. now rewrite app_nil_r. Qed.

  Lemma names_map l : Forall (fun x => capture_name_spec (tr x) = capture_name_spec x) l ->
    flat_map capture_name_spec (map tr l) = flat_map capture_name_spec l.
  Proof. induction 1; cbn [map flat_map]; congruence. Qed.

  Lemma spelled_names n : capture_name_spec (tr n) = capture_name_spec n.
  Proof.
    induction n using node_ind'; cbn [spelled]; try reflexivity;
      try (cbn [capture_name_spec]; auto using names_map; fail).
    - now destruct (multiline cf).
    - now destruct (multiline cf).
    - now destruct (dotall cf).
    - now destruct (icase cf).
    - destruct (icase cf); [|reflexivity]. rewrite range_names. apply names_partners.
    - cbn [capture_name_spec]. now rewrite IHn.
  Qed.

  Lemma spelled_invert n : calm n -> invert (tr n) = tr (invert n).
  Proof.
    assert (L : forall l, Forall (fun x => calm x -> invert (tr x) = tr (invert x)) l -> Forall calm l ->
      map invert (map tr l) = map tr (map invert l)).
    { intros l H C. rewrite !map_map. apply map_ext_Forall. rewrite Forall_forall in *. auto. }
    induction n using node_ind'; intros C; cbn [spelled]; try reflexivity;
      try (cbn [invert spelled]; now rewrite ?IHn).
    - destruct C as [C|C]; [|discriminate]. cbn. now rewrite C.
    - destruct C as [C|C]; [|discriminate]. cbn. now rewrite C.
    - cbn. now destruct (dotall cf).
    - cbn. now destruct (icase cf).
    - cbn [invert spelled]. destruct (icase cf); [|reflexivity]. cbn [invert map].
      do 4 f_equal. unfold partners. rewrite map_map. reflexivity.
    - cbn [invert spelled]. f_equal. apply L; auto using calm_all.
    - rewrite !invert_Seq. cbn [spelled]. f_equal. rewrite map_rev. f_equal. apply L; auto using calm_all.
    - cbn [invert spelled]. f_equal. apply L; auto using calm_all.
  Qed.

  Section Text.
    Variable s : list ascii.

    Lemma refl_text : Forall2 eq s s.
    Proof. induction s; auto. Qed.
    Local Hint Resolve refl_text : core.

    Definition agreeing (x : node) : Prop :=
      trivial x = true -> same_test eq (match_one cf x) (match_one bare (tr x)).

    Lemma spelled_between x mx1 mx2 md b w : agreeing x -> same_matcher mx1 mx2 ->
      same_matcher (between_bounds cf s md b w x mx1)
        (between_bounds bare s (if ungreedy cf then swap_mode md else md) b w (tr x) mx2).
    Proof.
      intros Hx Hm cur c k1 k2 Hk. unfold between_bounds.
      rewrite spelled_trivial. change (is_bidirectional bare) with (is_bidirectional cf).
      assert (Hgen : forall dir : bool,
        (if dir then
          if trivial x && is_bidirectional cf then
            possessive_trivial (loop_fuel b (length s) cur) s (match_one cf x) b cur c
              (fun next c' => step_back cur (next - cur) c' k1)
          else greedy_generic (loop_fuel b (length s) cur) mx1 w b cur c k1
        else if trivial x
        then lazy_trivial (loop_fuel b (length s) cur) s (match_one cf x) b cur c k1
        else lazy_generic (loop_fuel b (length s) cur) mx1 w b cur c k1) =
        (if dir then
          if trivial x && is_bidirectional cf then
            possessive_trivial (loop_fuel b (length s) cur) s
              (match_one bare (tr x)) b cur c
              (fun next c' => step_back cur (next - cur) c' k2)
          else greedy_generic (loop_fuel b (length s) cur) mx2 w b cur c k2
        else if trivial x
        then lazy_trivial (loop_fuel b (length s) cur) s
               (match_one bare (tr x)) b cur c k2
        else lazy_generic (loop_fuel b (length s) cur) mx2 w b cur c k2)).
      { intros [|].
        - destruct (trivial x) eqn:T; [destruct (is_bidirectional cf)|]; cbn [andb].
          + apply (same_possessive_trivial eq); auto. intros j c'. now apply same_step_back.
          + now apply same_greedy_generic.
          + now apply same_greedy_generic.
        - destruct (trivial x) eqn:T.
          + apply (same_lazy_trivial eq); auto.
          + now apply same_lazy_generic. }
      destruct md; cbn [bare ungreedy] in *.
      - destruct (ungreedy cf); cbn [swap_mode xorb]; [apply (Hgen false)|apply (Hgen true)].
      - destruct (ungreedy cf); cbn [swap_mode xorb]; [apply (Hgen true)|apply (Hgen false)].
      - replace (if ungreedy cf then swap_mode Possessive else Possessive) with Possessive
          by now destruct (ungreedy cf).
        destruct (trivial x) eqn:T.
        + apply (same_possessive_trivial eq); auto.
        + now apply same_possessive_generic.
    Qed.

    Lemma spelled_fixed_backtracking x mx1 mx2 n : agreeing x -> same_matcher mx1 mx2 ->
      same_matcher (fixed_backtracking cf s x mx1 n) (fixed_backtracking bare s (tr x) mx2 n).
    Proof.
      intros Hx Hm cur c k1 k2 Hk. unfold fixed_backtracking.
      rewrite spelled_trivial. change (is_random bare) with (is_random cf).
      change (unroll bare) with (unroll cf).
      change (distance_less_than bare) with (distance_less_than cf).
      destruct (trivial x) eqn:T.
      - destruct (distance_less_than _ _ _ _); auto. destruct (is_random cf).
        + destruct (unroll cf).
          * apply (same_block_random eq); auto. apply same_repeat; auto.
          * apply (same_repetition_random eq); auto.
        + apply (same_repetition_forward eq); auto.
      - destruct (unroll cf).
        + now apply same_unrolled.
        + now apply same_non_unrolled.
    Qed.

    Lemma spelled_fixed x mx1 mx2 md n : agreeing x -> same_matcher mx1 mx2 ->
      same_matcher (fixed_match cf s md n x mx1)
        (fixed_match bare s (if ungreedy cf then swap_mode md else md) n (tr x) mx2).
    Proof.
      intros Hx Hm cur c k1 k2 Hk. unfold fixed_match.
      destruct (N.eqb n 0); auto.
      pose proof (spelled_fixed_backtracking x mx1 mx2 n Hx Hm) as Hf.
      destruct md.
      - destruct (ungreedy cf); cbn [swap_mode]; destruct (N.eqb n 1); auto.
      - destruct (ungreedy cf); cbn [swap_mode]; destruct (N.eqb n 1); auto.
      - replace (if ungreedy cf then swap_mode Possessive else Possessive) with Possessive
          by now destruct (ungreedy cf).
        rewrite spelled_trivial. destruct (N.eqb n 1).
        + destruct (trivial x); auto. apply same_on_result; auto. apply Hm, same_success.
        + apply same_on_result; auto. apply Hf, same_success.
    Qed.

    Lemma spelled_rep x mx1 mx2 md lo hi : agreeing x -> same_matcher mx1 mx2 ->
      same_matcher (rep_match cf s md lo hi x mx1)
        (rep_match bare s (if ungreedy cf then swap_mode md else md) lo hi (tr x) mx2).
    Proof.
      intros Hx Hm cur c k1 k2 Hk. unfold rep_match. rewrite spelled_zlm.
      destruct (match hi with Fin h => N.eqb lo h | Inf => false end).
      - now apply spelled_fixed.
      - destruct (is_zero lo).
        + now apply spelled_between.
        + apply spelled_fixed; auto. intros j c'. now apply spelled_between.
    Qed.

    Lemma spelled_letters l : Forall agreeing l -> forallb trivial l = true ->
      Forall2 (same_test eq) (map (match_one cf) l) (map (match_one bare) (map tr l)).
    Proof.
      induction 1 as [|x l Hx _ IH]; intros T; [constructor|]. cbn [forallb] in T.
      apply andb_true_iff in T as [T1 T2]. cbn [map]. auto.
    Qed.

    Lemma spelled_seq mm1 mm2 l : Forall agreeing l ->
      Forall (fun x => same_matcher (mm1 x) (mm2 (tr x))) l ->
      same_matcher (seq_match cf s mm1 l) (seq_match bare s mm2 (map tr l)).
    Proof.
      induction l as [|x r IH]; intros HL HF cur c k1 k2 Hk; [reflexivity|].
      inversion HF as [|? ? Hx Hr]; subst. inversion HL as [|? ? Lx Lr]; subst.
      destruct r as [|y r'].
      - cbn. now apply Hx.
      - remember (y :: r') as r eqn:Er.
        change (map tr (x :: r)) with (tr x :: map tr r).
        rewrite !seq_match_cons by (subst r; discriminate).
        change (tr x :: map tr r) with (map tr (x :: r)).
        assert (HT : forallb trivial (map tr (x :: r)) = forallb trivial (x :: r)).
        { rewrite forallb_map. apply forallb_ext_Forall, Forall_forall. intros. apply spelled_trivial. }
        rewrite HT, map_length. destruct (forallb trivial (x :: r)) eqn:T.
        + change (is_random bare) with (is_random cf).
          change (distance_less_than bare) with (distance_less_than cf).
          destruct (distance_less_than _ _ _ _); auto. destruct (is_random cf).
          * apply (same_block_random eq); auto using spelled_letters.
          * apply (same_block_forward eq); auto using spelled_letters.
        + apply Hx. intros j c'. apply IH; auto.
    Qed.

    Lemma spelled_alt mm1 mm2 l : Forall agreeing l ->
      Forall (fun x => same_matcher (mm1 x) (mm2 (tr x))) l ->
      same_matcher (alt_match cf s mm1 l) (alt_match bare s mm2 (map tr l)).
    Proof.
      induction l as [|x r IH]; intros HL HF cur c k1 k2 Hk; [reflexivity|].
      inversion HF as [|? ? Hx Hr]; subst. inversion HL as [|? ? Lx Lr]; subst.
      destruct r as [|y r'].
      - cbn. now apply Hx.
      - remember (y :: r') as r eqn:Er.
        change (map tr (x :: r)) with (tr x :: map tr r).
        rewrite !alt_match_cons by (subst r; discriminate).
        change (tr x :: map tr r) with (map tr (x :: r)).
        assert (HT : forallb trivial (map tr (x :: r)) = forallb trivial (x :: r)).
        { rewrite forallb_map. apply forallb_ext_Forall, Forall_forall. intros. apply spelled_trivial. }
        rewrite HT. destruct (forallb trivial (x :: r)) eqn:T.
        + apply (same_trivial eq); auto. intros a b <-. rewrite existsb_map.
          apply existsb_ext_Forall. rewrite forallb_forall in T. rewrite Forall_forall in *.
          intros z Hz. apply HL; auto.
        + apply same_or_else; auto. intros c'. apply IH; auto.
    Qed.
  End Text.

  Lemma fit_all l : (multiline cf = false \/ (is_bidirectional cf = true /\ forallb lines_outside l = true)) ->
    Forall fit l.
  Proof.
    intros H. apply Forall_forall. intros x Hx. destruct H as [H|[B H]]; [now left|].
    right. split; auto. rewrite forallb_forall in H. auto.
  Qed.

  Lemma fit_agreeing n : fit n -> agreeing n.
  Proof. intros F T a b <-. now apply spelled_one. Qed.

  Lemma fit_letter n : (multiline cf = false \/ no_lines n = true) -> same_test eq (match_one cf n) (match_one bare (tr n)).
  Proof. intros F a b <-. rewrite !match_one_accepts. symmetry. now apply spelled_accepts. Qed.

  Variable names : list group_name.
  Variable base : list ascii.

  Definition plain (n : node) : Prop := icase cf = true -> backref_free n = true.

  Lemma plain_all l : (icase cf = true -> forallb backref_free l = true) -> Forall plain l.
  Proof.
    intros H. apply Forall_forall. intros x Hx I. specialize (H I). rewrite forallb_forall in H. auto.
  Qed.

  Theorem spelled_m : forall f1 f2 rd n, size n <= f1 -> size (tr n) <= f2 -> fit n -> plain n ->
    same_matcher (m cf names base f1 rd n) (m bare names base f2 rd (tr n)).
  Proof.
    induction f1 as [|f1 IH]; intros f2' rd n H1 H2 F P cur c k1 k2 Hk;
      [pose proof (size_pos n); lia|].
    destruct f2' as [|f2]; [pose proof (size_pos (tr n)); lia|].
    pose proof (refl_text (view base rd)) as Hv.
    assert (Hlist : forall l, S (list_sum (map size l)) <= S f1 ->
      S (list_sum (map size (map tr l))) <= S f2 -> Forall fit l -> Forall plain l ->
      Forall (fun x => same_matcher (m cf names base f1 rd x) (m bare names base f2 rd (tr x))) l).
    { intros l Hl1 Hl2 FF FP. rewrite Forall_forall in *. intros x Hx.
      pose proof (size_in_sum _ _ Hx). pose proof (size_in_sum _ _ (in_map tr _ _ Hx)).
      apply IH; auto; lia. }
    destruct n; cbn [spelled] in *.
    - cbn [m]. auto.
    - destruct F as [F|[F _]].
      + cbn [m]. rewrite F. cbn [m]. unfold assert_that. destruct (Nat.eqb cur 0); auto.
      + destruct (multiline cf) eqn:M.
        * destruct f2 as [|f2]; [cbn [size] in H2; lia|].
          cbn [m is_assertion]. change (is_bidirectional bare) with (is_bidirectional cf).
          rewrite F, M. cbn [negb]. change (trivial (Neg n_linebreak)) with true. cbn iota.
          destruct (Nat.eqb cur 0); [apply Hk|]. unfold deref.
          destruct (nth_error _ _) as [a|]; [|reflexivity]. unfold assert_that.
          change (match_one bare (Neg n_linebreak) a) with (negb (match_one bare n_linebreak a)).
          rewrite !linebreak_newline. destruct (is_newline a); cbn; auto.
        * cbn [m]. rewrite M. unfold assert_that. destruct (Nat.eqb cur 0); auto.
    - cbn [m]. unfold assert_that. destruct (Nat.eqb cur 0); auto.
    - destruct (multiline cf) eqn:M.
      + destruct f2 as [|f2]; [cbn [size] in H2; lia|].
        cbn [m is_assertion]. rewrite M. change (trivial (Neg n_linebreak)) with true. cbn iota.
        destruct (Nat.eqb cur (length (view base rd))); [apply Hk|]. unfold deref.
        destruct (nth_error _ _) as [a|]; [|reflexivity]. unfold assert_that.
        change (match_one bare (Neg n_linebreak) a) with (negb (match_one bare n_linebreak a)).
        rewrite !linebreak_newline. destruct (is_newline a); cbn; auto.
      + cbn [m]. rewrite M. unfold assert_that. destruct (Nat.eqb cur _); auto.
    - cbn [m]. unfold assert_that. destruct (Nat.eqb cur _); auto.
    - cbn [m]. change (is_bidirectional bare) with (is_bidirectional cf).
      destruct (is_bidirectional cf); cbn [negb]; auto.
      assert (W : forall a, match_one bare n_word a = match_one cf n_word a).
      { intros a. now rewrite !word_word_char. }
      assert (Hah : forall bb,
        (if Nat.eqb cur (length (view base rd)) then assert_that (xorb bb false) cur c k1
         else deref (view base rd) cur
                (fun a => assert_that (xorb bb (match_one cf n_word a)) cur c k1))
        = (if Nat.eqb cur (length (view base rd)) then assert_that (xorb bb false) cur c k2
           else deref (view base rd) cur
                (fun a => assert_that (xorb bb (match_one bare n_word a)) cur c k2))).
      { intros bb. unfold assert_that, deref. destruct (Nat.eqb _ _).
        - destruct (xorb _ _); auto.
        - destruct (nth_error _ _); auto. rewrite W. destruct (xorb _ _); auto. }
      destruct (Nat.eqb cur 0); auto. unfold deref at 1 3.
      destruct (nth_error _ (cur - 1)); auto. rewrite W. apply Hah.
    - replace (m bare names base (S f2) rd (if dotall cf then Neg (CSet []) else Neg n_linebreak))
        with (match_trivial (view base rd) (match_one bare (tr Wild)))
        by (cbn [spelled]; now destruct (dotall cf)).
      cbn [m]. apply (same_trivial eq); auto. now apply fit_letter; right.
    - replace (m bare names base (S f2) rd (if icase cf then CSet [Lit (other_case c0); Lit c0] else Lit c0))
        with (match_trivial (view base rd) (match_one bare (tr (Lit c0))))
        by (cbn [spelled]; now destruct (icase cf)).
      cbn [m]. apply (same_trivial eq); auto. now apply fit_letter; right.
    - replace (m bare names base (S f2) rd (if icase cf then CSet [Range a b; CSet (partners a b)] else Range a b))
        with (match_trivial (view base rd) (match_one bare (tr (Range a b))))
        by (cbn [spelled]; now destruct (icase cf)).
      cbn [m]. apply (same_trivial eq); auto. now apply fit_letter; right.
    - cbn [m]. apply (same_trivial eq); auto. apply (fit_letter (CSet l)).
      destruct F as [F|[_ F]]; auto.
    - cbn [m]. rewrite spelled_assertion. destruct (is_assertion n) eqn:A.
      + apply same_on_result; auto. cbn [size] in *. apply IH; auto using same_success; try lia.
        destruct F as [F|[B F]]; [now left|right]. split; auto. cbn in F. rewrite A in F. cbn in F.
        apply orb_true_iff in F as [F|F]; auto using no_lines_outside.
      + apply (same_trivial eq); auto. apply (fit_letter (Neg n)).
        destruct F as [F|[_ F]]; auto. cbn in F. rewrite A in F. now right.
    - cbn [m]. rewrite size_Seq in *.
      apply spelled_seq; auto using fit_all, plain_all.
      eapply Forall_impl; [|apply fit_all, F]. intros x. apply fit_agreeing.
    - cbn [m]. rewrite size_Alt in *.
      apply spelled_alt; auto using fit_all, plain_all.
      eapply Forall_impl; [|apply fit_all, F]. intros x. apply fit_agreeing.
    - cbn [m size] in *. apply same_or_else; auto. apply IH; auto; try lia. intros j c'.
      destruct (store _ _ _ _ _ _ _ _); auto.
    - cbn [m size] in *. apply spelled_rep; auto; [|apply IH; auto; lia].
      now apply fit_agreeing.
    - cbn [m]. destruct (icase cf) eqn:I; [discriminate (P I)|].
      apply (same_backref cf bare base base eq) with (ok := fun _ => True); auto using refl_text;
        [|left; now exists 0%N].
      intros a a' b b' _ <- <-. unfold backref_char_eq. now rewrite I.
    - cbn [m]. destruct (icase cf) eqn:I; [discriminate (P I)|].
      destruct (unique_position _ _); auto.
      apply (same_backref cf bare base base eq) with (ok := fun _ => True); auto using refl_text;
        [|left; now exists 0%N].
      intros a a' b b' _ <- <-. unfold backref_char_eq. now rewrite I.
    - cbn [m size] in *. change (is_bidirectional bare) with (is_bidirectional cf).
      rewrite spelled_trivial. destruct d.
      + pose proof (fit_agreeing n F) as Hn. destruct (trivial n) eqn:T.
        * destruct (Nat.eqb _ _); auto. unfold deref. destruct (nth_error _ _) as [a|]; auto.
          unfold assert_that. rewrite (Hn T a a eq_refl). destruct (match_one _ _ _); auto.
        * apply same_on_result; auto. apply IH; auto using same_success; lia.
      + assert (C : calm n) by (destruct F as [F|[_ F]]; [now left|now right]).
        destruct (is_bidirectional cf) eqn:B; cbn [negb]; auto. destruct (trivial n) eqn:T.
        * destruct (Nat.eqb _ _); auto. unfold deref. destruct (nth_error _ _) as [a|]; auto.
          unfold assert_that. rewrite (fit_letter n C a a eq_refl). destruct (match_one _ _ _); auto.
        * apply same_on_result; auto. rewrite spelled_invert by auto.
          apply IH; rewrite <- ?spelled_invert, ?size_invert by auto; auto using same_success; try lia.
          -- destruct C as [C|C]; [now left|right]. split; auto. apply no_lines_outside.
             now rewrite no_lines_invert.
          -- intros I. rewrite backref_free_invert. auto.
  Qed.

  Lemma compiles_CSet f rd l : (forall x, In x l -> exists c, x = Lit c) -> 2 <= f ->
    compiles bare names f rd (CSet l) = true.
  Proof.
    intros H L. destruct f as [|[|f]]; try lia. cbn [compiles]. apply forallb_forall. intros x Hx.
    apply H in Hx as [c ->]. reflexivity.
  Qed.

  Lemma compiles_range f rd a b l : compiles bare names (S f) rd (CSet [Range a b; CSet l])
    = compiles bare names f rd (Range a b) && (compiles bare names f rd (CSet l) && true).
  Proof. reflexivity. Qed.

  Lemma size_range a b l : size (CSet [Range a b; CSet l]) = S (1 + (size (CSet l) + 0)).
  Proof. reflexivity. Qed.

  Lemma compiles_partners a b : forall f rd, 2 <= f ->
    compiles bare names f rd (CSet (partners a b)) = true.
  Proof.
    intros f rd H. apply compiles_CSet; auto. unfold partners. intros x Hx.
    apply in_map_iff in Hx as (y & <- & _). eauto.
  Qed.

  Lemma compiles_Neg f rd x :
    compiles bare names (S f) rd (Neg x) = (trivial x || is_assertion x) && compiles bare names f rd x.
  Proof. reflexivity. Qed.
  Lemma compiles_Ahead f rd x : compiles bare names (S f) rd (Look Ahead x) = compiles bare names f rd x.
  Proof. reflexivity. Qed.
  Lemma compiles_Behind f rd x : trivial x = true ->
    compiles bare names (S f) rd (Look Behind x) = is_bidirectional cf && compiles bare names f rd x.
  Proof. intros T. cbn [compiles]. now rewrite T. Qed.
  Lemma compiles_linebreak f rd : 2 <= f -> compiles bare names f rd n_linebreak = true.
  Proof. apply compiles_CSet. intros x [<-|[<-|[]]]; eauto. Qed.

  Lemma spelled_compiles : forall f1 f2 rd n, size n <= f1 -> size (tr n) <= f2 -> fit n ->
    compiles bare names f2 rd (tr n) = compiles cf names f1 rd n.
  Proof.
    induction f1 as [|f1 IH]; intros f2' rd n H1 H2 F;
      [pose proof (size_pos n); lia|].
    destruct f2' as [|f2]; [pose proof (size_pos (tr n)); lia|].
    assert (Hlist : forall l, S (list_sum (map size l)) <= S f1 ->
      S (list_sum (map size (map tr l))) <= S f2 -> Forall fit l ->
      Forall (fun x => compiles bare names f2 rd (tr x) = compiles cf names f1 rd x) l).
    { intros l Hl1 Hl2 FF. rewrite Forall_forall in *. intros x Hx.
      pose proof (size_in_sum _ _ Hx). pose proof (size_in_sum _ _ (in_map tr _ _ Hx)).
      apply IH; auto; lia. }
    destruct n; cbn [spelled] in *; try reflexivity.
    - destruct F as [F|[F _]]; [rewrite F; reflexivity|]. destruct (multiline cf) eqn:M; [|reflexivity].
      change (6 <= S f2) in H2. destruct f2 as [|[|f2]]; try lia.
      rewrite compiles_Neg, compiles_Behind, compiles_Neg, compiles_linebreak, F by (auto; lia). reflexivity.
    - destruct (multiline cf) eqn:M; [|reflexivity].
      change (6 <= S f2) in H2. destruct f2 as [|[|f2]]; try lia.
      rewrite compiles_Neg, compiles_Ahead, compiles_Neg, compiles_linebreak by (auto; lia). reflexivity.
    - destruct (dotall cf); rewrite compiles_Neg.
      + change (2 <= S f2) in H2. destruct f2; [lia|]. reflexivity.
      + change (4 <= S f2) in H2. rewrite compiles_linebreak by lia. reflexivity.
    - destruct (icase cf); [|reflexivity]. apply compiles_CSet.
      + intros x [<-|[<-|[]]]; eauto.
      + change (3 <= S f2) in H2. lia.
    - destruct (icase cf); [|reflexivity]. rewrite size_range in H2. pose proof (size_pos (CSet (partners a b))).
      rewrite compiles_range, compiles_partners by lia. destruct f2 as [|f2]; [lia|]. apply andb_true_r.
    - cbn [compiles]. rewrite size_CSet in *. rewrite forallb_map.
      apply forallb_ext_Forall.
      assert (FF : Forall fit l).
      { apply fit_all. destruct F as [F|[B F]]; auto. right. split; auto. cbn in F.
        rewrite forallb_forall in *. intros x Hx. apply no_lines_outside; auto. }
      specialize (Hlist l H1 H2 FF). rewrite Forall_forall in *. intros x Hx.
      now rewrite spelled_trivial, Hlist.
    - cbn [compiles size] in *. rewrite spelled_trivial, spelled_assertion. f_equal. apply IH; try lia.
      destruct F as [F|[B F]]; [now left|right]. split; auto. cbn in F.
      apply orb_true_iff in F as [F|F]; auto using no_lines_outside.
      now apply andb_true_iff in F.
    - cbn [compiles]. rewrite size_Seq in *. specialize (Hlist l H1 H2 (fit_all _ F)).
      destruct l as [|y l]; [reflexivity|]. rewrite forallb_map. now apply forallb_ext_Forall.
    - cbn [compiles]. rewrite size_Alt in *. specialize (Hlist l H1 H2 (fit_all _ F)).
      destruct l as [|y l]; [reflexivity|]. rewrite forallb_map. now apply forallb_ext_Forall.
    - cbn [compiles size] in *. f_equal. apply IH; auto; lia.
    - cbn [compiles size] in *. rewrite spelled_trivial, (IH f2) by (auto; lia). reflexivity.
    - cbn [compiles size] in *. change (is_bidirectional bare) with (is_bidirectional cf).
      rewrite spelled_trivial. destruct d; [apply IH; auto; lia|].
      assert (C : calm n) by (destruct F as [F|[_ F]]; [now left|now right]).
      assert (FI : fit (invert n) /\ fit n).
      { destruct F as [F|[B F]]; [split; now left|]. split; right; split; auto using no_lines_outside.
        apply no_lines_outside. now rewrite no_lines_invert. }
      f_equal. rewrite spelled_invert by auto.
      destruct (trivial n); apply IH; rewrite <- ?spelled_invert, ?size_invert by auto; try lia; apply FI.
  Qed.
End Spelled.

(** The calls. *)
Theorem flags_spelled n fl ct s :
  let cf := config_of fl ct in
  (In F_icase fl -> backref_free n = true) ->
  (In F_multiline fl -> ct <> ForwardIt /\ lines_outside n = true) ->
  same_calls (mk_regex n fl) (mk_regex (spelled cf n) []) ct s s.
Proof.
  intros cf HI HM.
  assert (F : fit cf n).
  { unfold fit. destruct (multiline cf) eqn:M; [right|now left].
    apply flag_test_In in M. destruct (HM M) as [A B]. split; auto. now destruct ct. }
  assert (P : plain cf n).
  { intros I. apply HI, flag_test_In, I. }
  assert (Hn : group_names (spelled cf n) = group_names n).
  { unfold group_names. now rewrite spelled_names. }
  assert (A : same_calls (mk_regex n fl) (mk_regex (spelled cf n) (if unroll cf then [F_unroll] else [])) ct s s).
  { assert (Hb : config_of (if unroll cf then [F_unroll] else []) ct = bare cf).
    { unfold bare, cf. cbn. now destruct (flag_test fl F_unroll). }
    apply exact_calls; cbn [ast flags]; auto; rewrite ?Hb.
    - unfold initial_captures. now rewrite Hn.
    - unfold compilable. rewrite Hn. symmetry. now apply spelled_compiles.
    - intros k cur c Hc Hk. rewrite Hn. unfold node_match. apply spelled_m; auto. intros j c'. reflexivity. }
  destruct (unroll cf); [|exact A].
  pose proof (unroll_irrelevant (mk_regex (spelled cf n) []) ct s) as U.
  unfold add_flags in U. cbn [ast flags app] in U.
  destruct A as (A1 & A2 & A3 & A4 & A5 & A6 & A7), U as (U1 & U2 & U3 & U4 & U5 & U6 & U7).
  repeat split; intros; congruence.
Qed.
