(** A search is a prefix match behind a lazy gap, and what a greedy gap does instead
    (C85). *)
From Verif Require Import Matcher Api Xpr Parser Basics Safe Cong Impl Spec Paths Walk Calls Lift Matching Equiv Classes
  Regroup Pairs Normal Syntax Steps Typing Shape Reading Accepted Print Literal Expressions Composed Anchored
  Actual Contained Compose Held.
From Verif Require Boolean Surrounded.
From Coq Require Import Lia.

(** "[^]", any character, and any number of them. *)
Definition any_char : node := Neg (CSet []).
Definition gap (md : match_mode) : node := Rep md 0 Inf any_char.

(** ** The lazy gap *)

(** How a search and a prefix match behind a gap correspond: the same verdict (or the
    same failure to compile or undefined behaviour), the same groups from 1 on, and on
    success the same end; the whole match begins at 0. *)
Definition gapped (x y : call match_res) : Prop :=
  match x, y with
  | Returned a, Returned b =>
      matched a = matched b /\ tl (groups a) = tl (groups b)
      /\ (matched a = true -> exists i e, group0 (groups a) = Some (i, e) /\ group0 (groups b) = Some (0, e))
  | UndefinedBehaviour, UndefinedBehaviour => True
  | DoesNotCompile, DoesNotCompile => True
  | DoesNotReturn, DoesNotReturn => True
  | _, _ => False
  end.

Definition lazily (cf : config) : match_mode := if ungreedy cf then Greedy else Lazy.

Section Lazily.
  Variable cf : config.
  Variable s : list ascii.
  Let L := length s.

  Lemma any_trivial : trivial any_char = true.
  Proof. reflexivity. Qed.

  Definition same_outcome (o1 o2 : outcome) : Prop :=
    match o1, o2 with
    | Res c1 e1 true, Res c2 e2 true => e1 = e2 /\ exists i, c2 = set_group0 i e1 c1
    | Res c1 _ false, Res c2 _ false => c1 = c2
    | Undef, Undef | IllFormed, IllFormed | Diverge, Diverge => True
    | _, _ => False
    end.

  Lemma lazy_search n fu : size n <= fu -> forall f g cur c, cur <= L -> f > L - cur -> g > L - cur ->
    same_outcome
      (lazy_trivial f s (match_one cf any_char) Inf cur c (fun next c' => m cf (group_names n) s fu 0 n next c' success))
      (search_loop g cf n s cur c).
  Proof.
    intros Hu. induction f as [|f IH]; intros g cur c Hc Hf Hg; [lia|]. destruct g as [|g]; [lia|].
    cbn [lazy_trivial search_loop]. unfold node_match at 1.
    assert (E : m cf (group_names n) s fu 0 n cur c success = m cf (group_names n) s (size n) 0 n cur c success)
      by (apply m_ext; auto).
    rewrite E. destruct (m cf (group_names n) s (size n) 0 n cur c success) as [c1 e1 [|]| | |]; cbn [or_else]; try exact I.
    - split; [reflexivity|]. now exists cur.
    - cbn [bound_is_zero]. fold L. destruct (Nat.eqb_spec cur L) as [El|El]; [reflexivity|].
      unfold deref. destruct (nth_error s cur) as [a|] eqn:Ea.
      + replace (match_one cf any_char a) with true by reflexivity. cbn [bound_decrement].
        apply IH; lia.
      + apply nth_error_None in Ea. fold L in Ea. lia.
  Qed.

  Lemma gap_match names n cur c k :
    node_match cf names s 0 (Seq [gap (lazily cf); n]) cur c k
    = lazy_trivial (loop_fuel Inf L cur) s (match_one cf any_char) Inf cur c
        (fun next c' => m cf names s (size (Seq [gap (lazily cf); n]) - 1) 0 n next c' k).
  Proof.
    unfold node_match. replace (size (Seq [gap (lazily cf); n])) with (S (S (S (S (size n))))) by (rewrite size_Seq; cbn; lia).
    rewrite m_seq, seq_match_cons by discriminate. unfold gap. cbn [forallb trivial andb].
    change (S (S (S (S (size n)))) - 1) with (S (S (S (size n)))).
    set (f := S (S (size n))).
    change (m cf names s (S f) 0 (Rep (lazily cf) 0 Inf any_char))
      with (rep_match cf (view s 0) (lazily cf) 0 Inf any_char (m cf names s f 0 any_char)).
    unfold rep_match. cbn [is_zero N.eqb]. unfold between_bounds, lazily.
    cbn [bound_subtract view]. fold L.
    destruct (ungreedy cf); reflexivity.
  Qed.
End Lazily.

Lemma names_gap md n : group_names (Seq [gap md; n]) = group_names n.
Proof. unfold group_names. cbn. now rewrite app_nil_r. Qed.

Lemma compilable_gap cf md n : compilable cf (Seq [gap md; n]) = compilable cf n.
Proof.
  unfold compilable. rewrite names_gap.
  replace (size (Seq [gap md; n])) with (S (S (S (S (size n))))) by (rewrite size_Seq; cbn; lia).
  rewrite compiles_seq by discriminate. cbn [forallb]. rewrite (compiles_fuel cf (group_names n) _ (size n) 0 n) by lia.
  replace (compiles cf (group_names n) (S (S (S (size n)))) 0 (gap md)) with true by reflexivity.
  cbn [andb]. apply andb_true_r.
Qed.

Theorem search_is_gapped_prefix n fl ct s :
  gapped (regex_search (mk_regex n fl) ct s)
    (regex_match_prefix (mk_regex (Seq [gap (lazily (config_of fl ct)); n]) fl) ct s).
Proof.
  unfold regex_search, regex_match_prefix, invoke. cbn [ast flags]. rewrite compilable_gap.
  destruct (compilable _ n); [|exact I].
  rewrite (initial_names _ _ (names_gap (lazily (config_of fl ct)) n)).
  set (cf := config_of fl ct) in *. set (c0 := initial_captures n).
  assert (HL : forall c e b, node_match cf (group_names (Seq [gap (lazily cf); n])) s 0 (Seq [gap (lazily cf); n]) 0 c0 success
                = Res c e b -> c <> []).
  { intros c e b E ->. apply run_length in E; [discriminate E| |now left].
    unfold c0. rewrite <- (initial_names _ _ (names_gap (lazily cf) n)). apply initial_length. }
  unfold match_prefix_method, search_method. rewrite gap_match, names_gap in *. rewrite Nat.sub_0_r.
  assert (Hs : size n <= size (Seq [gap (lazily cf); n]) - 1) by (rewrite size_Seq; cbn; lia).
  assert (Hf : loop_fuel Inf (length s) 0 > length s - 0) by (cbn; lia).
  pose proof (lazy_search cf s n _ Hs _ (S (length s)) 0 c0 (Nat.le_0_l _) Hf ltac:(lia)) as H.
  destruct (lazy_trivial _ _ _ _ _ _ _) as [c1 e1 [|]| | |], (search_loop _ _ _ _ _ _) as [c2 e2 [|]| | |]; try easy;
    cbn in H |- *.
  - destruct H as (<- & i & ->). rewrite !set_group0_tail. split; [reflexivity|]. split; [reflexivity|].
    intros _. exists i, e1. specialize (HL _ _ _ eq_refl). destruct c1; [congruence|]. now split.
  - subst c2. rewrite set_group0_tail. repeat split; discriminate.
Qed.

(** ** Gaps in terms of [walk] *)

Section Walks.
  Variable cf : config.
  Variable s : list ascii.
  Let L := length s.
  Let W := walk cf s false false.

  Lemma walk_any i : W any_char i = if Nat.ltb i L then [S i] else [].
  Proof.
    change (W any_char i) with (if char_at s (accepts cf any_char) i then [S i] else []).
    unfold char_at. destruct (Nat.ltb_spec i L) as [H|H].
    - apply nth_error_Some in H. destruct (nth_error s i); [reflexivity|congruence].
    - apply nth_error_None in H. now rewrite H.
  Qed.

  Lemma more_any fu : forall i, i <= L -> fu > L - i ->
    more_first (W any_char) fu Inf i = rev (seq i (S (L - i))).
  Proof.
    induction fu as [|fu IH]; intros i Hi Hf; [lia|]. cbn [more_first]. rewrite walk_any.
    destruct (Nat.ltb_spec i L) as [H|H].
    - cbn [flat_map]. rewrite app_nil_r. destruct (Nat.eqb_spec i (S i)); [lia|].
      rewrite IH by lia. replace (L - i) with (S (L - S i)) by lia. reflexivity.
    - replace (L - i) with 0 by lia. reflexivity.
  Qed.

  Lemma fewer_any fu : forall i, i <= L -> fu > L - i ->
    fewer_first (W any_char) fu Inf i = seq i (S (L - i)).
  Proof.
    induction fu as [|fu IH]; intros i Hi Hf; [lia|]. cbn [fewer_first]. rewrite walk_any.
    destruct (Nat.ltb_spec i L) as [H|H].
    - cbn [flat_map]. rewrite app_nil_r. destruct (Nat.eqb_spec i (S i)); [lia|].
      rewrite IH by lia. replace (L - i) with (S (L - S i)) by lia. reflexivity.
    - replace (L - i) with 0 by lia. reflexivity.
  Qed.

  Definition early (md : match_mode) : bool :=
    match md with Greedy => ungreedy cf | _ => negb (ungreedy cf) end.

  Lemma walk_gap md i : md <> Possessive -> i <= L ->
    W (gap md) i = if early md then seq i (S (L - i)) else rev (seq i (S (L - i))).
  Proof.
    intros Hm Hi. unfold W, gap. cbn [walk]. fold (W any_char).
    change (times (W any_char) (N.to_nat 0) i) with [i]. cbn [flat_map remaining any_fuel]. rewrite !app_nil_r.
    fold L. rewrite more_any, fewer_any by lia. destruct md; [| |congruence]; cbn; now destruct (ungreedy cf).
  Qed.
End Walks.

Lemma hd_flat_map {A B} (f : A -> list B) l :
  match hd_error (flat_map f l) with
  | Some y => exists l1 x l2, l = l1 ++ x :: l2 /\ hd_error (f x) = Some y /\ Forall (fun z => f z = []) l1
  | None => Forall (fun z => f z = []) l
  end.
Proof.
  induction l as [|a l IH]; cbn; [constructor|]. destruct (f a) as [|y r] eqn:E; cbn.
  - destruct (hd_error (flat_map f l)) as [y|]; [|now constructor].
    destruct IH as (l1 & x & l2 & -> & Hy & F). exists (a :: l1), x, l2. split; [reflexivity|].
    split; [exact Hy|now constructor].
  - exists [], a, l. split; [reflexivity|]. rewrite E. now split.
Qed.

Lemma rev_seq_cut n : forall l1 x l2, rev (seq 0 (S n)) = l1 ++ x :: l2 ->
  x <= n /\ forall y, x < y <= n -> In y l1.
Proof.
  induction n as [|n IH]; intros l1 x l2 E.
  - destruct l1 as [|a l1]; injection E as E1 E2; [subst; split; [lia|intros; lia]|].
    destruct l1; discriminate E2.
  - rewrite seq_S, rev_unit in E. cbn [Nat.add] in E. destruct l1 as [|a l1]; injection E as E1 E2.
    + subst x. split; [lia|intros; lia].
    + apply IH in E2 as [H1 H2]. split; [lia|]. intros y Hy. destruct (Nat.eq_dec y (S n)) as [->|N]; [now left|].
      right. apply H2. lia.
Qed.

Lemma lines_parts cf l : Forall (lines_ok cf) l -> lines_ok cf (Seq l).
Proof.
  intros H. destruct (is_bidirectional cf) eqn:B; [now left|]. destruct (multiline cf) eqn:M; [|right; now left].
  right. right. cbn [has_begin_line]. induction H as [|x l Hx _ IH]; [reflexivity|].
  cbn [existsb]. rewrite IH. destruct Hx as [Hx|[Hx|Hx]]; [congruence|congruence|]. now rewrite Hx.
Qed.

Section Trees.
  Variable n : node.
  Variable fl : list regex_flag.
  Variable ct : category.
  Let cf := config_of fl ct.
  Let r x := mk_regex x fl.
  Hypothesis U : usable (r n) ct.
  Hypothesis B : backref_free n = true.

  Lemma gap_lines md : lines_ok cf (gap md).
  Proof. right. right. reflexivity. Qed.

  Lemma gap_usable md : usable (r (Seq [gap md; n])) ct.
  Proof.
    split; cbn [ast flags r]; [rewrite compilable_gap; exact (proj1 U)|].
    apply lines_parts. repeat apply Forall_cons; [apply gap_lines|apply U|constructor].
  Qed.

  Lemma walk_pair s x y i : walk cf s false false (Seq [x; y]) i
    = flat_map (walk cf s false false y) (walk cf s false false x i).
  Proof.
    change (walk cf s false false (Seq [x; y]) i)
      with (flat_map (fun j => flat_map (fun k => [k]) (walk cf s false false y j)) (walk cf s false false x i)).
    apply flat_map_ext. intros j. apply Boolean.flat_map_same.
  Qed.

  (** A greedy gap makes a prefix match find the last place. *)
  Theorem last_place md s : md = (if ungreedy cf then Lazy else Greedy) ->
    exists res, regex_match_prefix (r (Seq [gap md; n])) ct s = Returned res
      /\ (matched res = true -> exists i e, i <= length s /\ group0 (groups res) = Some (0, e)
            /\ actual cf s n i = Some e /\ forall i', i < i' <= length s -> actual cf s n i' = None)
      /\ (matched res = false -> forall i, i <= length s -> actual cf s n i = None).
  Proof.
    intros Hm. assert (Bg : backref_free (ast (r (Seq [gap md; n]))) = true) by (cbn; now rewrite B).
    destruct (match_prefix_exact _ ct s (gap_usable md) Bg) as (res & E & H). exists res. split; [exact E|].
    cbn [ast flags r] in H. fold cf in H. unfold actual in *. rewrite walk_pair in H.
    assert (Hp : md <> Possessive) by (subst md; destruct (ungreedy cf); discriminate).
    rewrite (walk_gap cf s md 0 Hp) in H by lia.
    replace (early cf md) with false in H by (subst md; unfold early; now destruct (ungreedy cf)).
    rewrite Nat.sub_0_r in H.
    pose proof (hd_flat_map (walk cf s false false n) (rev (seq 0 (S (length s))))) as F.
    destruct (hd_error (flat_map _ _)) as [e|].
    - destruct H as [M G]. destruct F as (l1 & i & l2 & C & He & F). apply rev_seq_cut in C as [Ci Cl].
      split; [|congruence]. intros _. exists i, e. split; [exact Ci|]. split; [exact G|]. split; [exact He|].
      intros i' Hi. rewrite Forall_forall in F. now rewrite (F i') by now apply Cl.
    - split; [congruence|]. intros _ i Hi. rewrite Forall_forall in F. rewrite F; [reflexivity|].
      apply -> in_rev. apply in_seq. lia.
  Qed.

  (** Everything behind a place is a gap of any mode. *)
  Lemma commit_any s fu : forall i, i <= length s -> fu > length s - i ->
    commit (walk cf s false false any_char) fu Inf i = length s.
  Proof.
    induction fu as [|fu IH]; intros i Hi Hf; [lia|]. cbn [commit]. rewrite walk_any.
    destruct (Nat.ltb_spec i (length s)) as [H|H]; [|lia].
    destruct (Nat.eqb_spec i (S i)); [lia|]. apply IH; lia.
  Qed.

  Lemma gap_to_end md s i : i <= length s -> In (length s) (walk cf s false false (gap md) i).
  Proof.
    intros Hi. destruct md.
    - rewrite walk_gap by (easy || lia). destruct (early _ _); [|apply -> in_rev]; apply in_seq; lia.
    - rewrite walk_gap by (easy || lia). destruct (early _ _); [|apply -> in_rev]; apply in_seq; lia.
    - unfold gap. cbn [walk]. cbn [times N.to_nat firstn map remaining any_fuel]. left.
      apply commit_any; lia.
  Qed.

  Definition surrounded m1 m2 : node := Seq [gap m1; n; gap m2].

  Lemma surrounded_usable m1 m2 : usable (r (surrounded m1 m2)) ct.
  Proof.
    split; cbn [ast flags r]; fold cf.
    - unfold surrounded, compilable. replace (group_names (Seq [gap m1; n; gap m2])) with (group_names n)
        by (unfold group_names; cbn; now rewrite app_nil_r).
      replace (size (Seq [gap m1; n; gap m2])) with (S (6 + size n)) by (rewrite size_Seq; cbn; lia).
      rewrite compiles_seq by discriminate. cbn [forallb]. rewrite (compiles_fuel cf (group_names n) _ (size n) 0 n) by lia.
      replace (compiles cf (group_names n) (6 + size n) 0 (gap m1)) with true by reflexivity.
      replace (compiles cf (group_names n) (6 + size n) 0 (gap m2)) with true by reflexivity.
      cbn [andb]. destruct U as [C _]. cbn [ast flags r] in C. unfold compilable in C. fold cf in C. now rewrite C.
    - apply lines_parts. repeat apply Forall_cons; [apply gap_lines|apply U|apply gap_lines|constructor].
  Qed.

  Theorem contains m1 m2 s : m1 <> Possessive ->
    exists a b, regex_search (r n) ct s = Returned a
      /\ regex_match (r (surrounded m1 m2)) ct s = Returned b /\ matched a = matched b.
  Proof.
    intros Hm.
    assert (Bg : backref_free (ast (r (surrounded m1 m2))) = true) by (cbn; now rewrite B).
    destruct (search_exact _ ct s U B) as (a & Ea & A1 & A2).
    destruct (match_exact _ ct s (surrounded_usable m1 m2) Bg) as (b & Eb & Hb).
    exists a, b. split; [exact Ea|]. split; [exact Eb|].
    cbn [ast flags r] in *. fold cf in A1, A2, Hb.
    assert (Q : In (length s) (walk cf s false false (surrounded m1 m2) 0)
                <-> exists i, i <= length s /\ walk cf s false false n i <> []).
    { change (walk cf s false false (surrounded m1 m2) 0)
        with (flat_map (walk cf s false false (Seq [n; gap m2])) (walk cf s false false (gap m1) 0)).
      rewrite walk_gap by (easy || lia). rewrite Nat.sub_0_r. rewrite in_flat_map. split.
      - intros (i & Hi & Hw). exists i. split.
        + destruct (early cf m1); [|apply in_rev in Hi]; apply in_seq in Hi; lia.
        + rewrite walk_pair in Hw. intros N. now rewrite N in Hw.
      - intros (i & Hi & Hw). exists i. split.
        + destruct (early cf m1); [|apply -> in_rev]; apply in_seq; lia.
        + rewrite walk_pair. apply in_flat_map. destruct (walk cf s false false n i) as [|e l] eqn:Ew; [congruence|].
          exists e. split; [now left|]. apply gap_to_end. apply (walk_le cf s false false n i e Hi). rewrite Ew. now left. }
    unfold actual in A1, A2. destruct (matched a), (matched b); try reflexivity.
    - destruct (A1 eq_refl) as (i & e & Hi & _ & Hw & _). symmetry. apply Hb, Q. exists i. split; [exact Hi|].
      intros N. now rewrite N in Hw.
    - destruct (proj1 Q (proj1 Hb eq_refl)) as (i & Hi & Hw). specialize (A2 eq_refl i Hi).
      now destruct (walk cf s false false n i).
  Qed.
End Trees.

(** ** Patterns *)

Definition gap_text (md : match_mode) : text := str "[^]*" ++ mode_text md.

Lemma gap_item md : item Anything (gap_text md) (gap md).
Proof.
  unfold gap_text, gap. change (str "[^]*" ++ mode_text md) with (str "[^]" ++ str "*" ++ mode_text md).
  eapply i_unit; [|apply q_rep, bounds_star].
  exact (u_not_set [] [] (set_end true [])).
Qed.

Lemma gap_bodies p b m1 m2 : body p b ->
  body (gap_text m1 ++ grouped p) (x_concat [gap m1; b])
  /\ body (gap_text m1 ++ grouped p ++ gap_text m2) (x_concat [gap m1; b; gap m2]).
Proof.
  intros H. rewrite !concat_fold. cbn [fold_left].
  assert (G : item Anything (grouped p) b) by apply piece_item, wrap_piece, H.
  split.
  - eapply branch_body, b_items; [apply gap_item|]. rewrite <- (app_nil_r (grouped p)).
    eapply m_item; [exact G|exact I|]. constructor.
  - eapply branch_body, b_items; [apply gap_item|]. eapply m_item; [exact G|exact I|].
    rewrite <- (app_nil_r (gap_text m2)). eapply m_item; [apply gap_item|exact I|]. constructor.
Qed.

Lemma gap_patterns p n m1 m2 : parse p = P_ok n ->
  exists n1 n2,
    parse (gap_text m1 ++ grouped p) = P_ok n1 /\ parse (gap_text m1 ++ grouped p ++ gap_text m2) = P_ok n2
    /\ regrouped false (Seq [gap m1; n]) n1 /\ regrouped false (surrounded n m1 m2) n2.
Proof.
  intros H. pose proof H as P. apply accepted_pattern in P as (b & Hb & E).
  assert (F : b <> Seq []).
  { intros ->. assert (Q : printable n = true) by (apply parse_image; eauto). subst n. discriminate Q. }
  destruct (gap_bodies p b m1 m2 Hb) as [B1 B2]. apply pattern_parses in B1, B2.
  exists (index_captures (x_concat [gap m1; b])), (index_captures (x_concat [gap m1; b; gap m2])).
  split; [exact B1|]. split; [exact B2|]. split.
  - replace (Seq [gap m1; n]) with (index_captures (Seq [gap m1; b])).
    + apply packed_indexed; [repeat constructor; unfold gap; congruence|discriminate|reflexivity].
    + subst n. reflexivity.
  - replace (surrounded n m1 m2) with (index_captures (Seq [gap m1; b; gap m2])).
    + apply packed_indexed; [repeat constructor; unfold gap; congruence|discriminate|reflexivity].
    + subst n. reflexivity.
Qed.

Lemma gapped_agree x y z : gapped x y -> agree y z -> gapped x z.
Proof.
  destruct x as [a| | |], y as [b| | |], z as [c| | |]; cbn; try tauto.
  intros (H1 & H2 & H3) (H4 & H5 & H6). split; [congruence|]. split; [congruence|].
  intros M. destruct (H3 M) as (i & e & G1 & G2). exists i, e. split; [exact G1|]. rewrite <- H6; congruence.
Qed.

Theorem search_behind_gap p n fl ct : parse p = P_ok n ->
  exists a, parse (gap_text (lazily (config_of fl ct)) ++ grouped p) = P_ok a
    /\ forall s, gapped (regex_search (mk_regex n fl) ct s) (regex_match_prefix (mk_regex a fl) ct s).
Proof.
  intros H. destruct (gap_patterns p n (lazily (config_of fl ct)) Greedy H) as (a & _ & Pa & _ & R & _).
  exists a. split; [exact Pa|]. intros s.
  destruct (regrouped_agree _ _ fl ct s R) as (_ & E & _).
  eapply gapped_agree; [apply search_is_gapped_prefix|exact E].
Qed.

Theorem last_place_pattern p n fl ct : parse p = P_ok n ->
  usable (mk_regex n fl) ct -> backref_free n = true ->
  let cf := config_of fl ct in
  exists a, parse (gap_text (if ungreedy cf then Lazy else Greedy) ++ grouped p) = P_ok a
    /\ forall s, exists res, regex_match_prefix (mk_regex a fl) ct s = Returned res
      /\ (matched res = true -> exists i e, i <= length s /\ group0 (groups res) = Some (0, e)
            /\ actual cf s n i = Some e /\ forall i', i < i' <= length s -> actual cf s n i' = None)
      /\ (matched res = false -> forall i, i <= length s -> actual cf s n i = None).
Proof.
  intros H U B cf. destruct (gap_patterns p n (if ungreedy cf then Lazy else Greedy) Greedy H) as (a & _ & Pa & _ & R & _).
  exists a. split; [exact Pa|]. intros s.
  destruct (regrouped_agree _ _ fl ct s R) as (_ & E & _).
  destruct (last_place n fl ct U B _ s eq_refl) as (res & Er & H1 & H2).
  fold cf in Er. rewrite Er in E. destruct (regex_match_prefix (mk_regex a fl) ct s) as [x| | |]; cbn in E; try easy.
  destruct E as (E1 & E2 & E3). exists x. split; [reflexivity|]. rewrite <- E1. split; [|exact H2].
  intros M. destruct (H1 M) as (i & e & Hi & G & Hr). exists i, e. split; [exact Hi|]. split; [|exact Hr].
  rewrite <- E3; congruence.
Qed.

Theorem containing_pattern p n fl ct m1 m2 : parse p = P_ok n ->
  usable (mk_regex n fl) ct -> backref_free n = true -> m1 <> Possessive ->
  exists a, parse (gap_text m1 ++ grouped p ++ gap_text m2) = P_ok a
    /\ forall s, exists x y, regex_search (mk_regex n fl) ct s = Returned x
      /\ regex_match (mk_regex a fl) ct s = Returned y /\ matched x = matched y.
Proof.
  intros H U B Hm. destruct (gap_patterns p n m1 m2 H) as (_ & a & _ & Pa & _ & R).
  exists a. split; [exact Pa|]. intros s.
  destruct (regrouped_agree _ _ fl ct s R) as (E & _).
  destruct (contains n fl ct U B m1 m2 s Hm) as (x & y & Ex & Ey & M). rewrite Ey in E.
  destruct (regex_match (mk_regex a fl) ct s) as [z| | |]; cbn in E; try easy. destruct E as (E1 & _).
  exists x, z. split; [exact Ex|]. split; [reflexivity|]. congruence.
Qed.
