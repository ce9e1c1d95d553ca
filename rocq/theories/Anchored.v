(** Whole and prefix matches as searches for an anchored pattern. *)
From Verif Require Import Matcher Api Xpr Parser Basics Safe Cong Impl Spec Paths Calls Lift Matching Equiv Classes
  Regroup Pairs Normal Syntax Steps Typing Shape Reading Accepted Print Literal Expressions Composed.

Definition at_both (n : node) : node := Seq [BeginInput; n; EndInput].
Definition at_start (n : node) : node := Seq [BeginInput; n].
Definition at_end (n : node) : node := Seq [n; EndInput].

Section Anchored.
  Variable cf : config.
  Variable s : list ascii.
  Variable names : list group_name.

  Lemma equals_success j c : assert_that (Nat.eqb j (length s)) j c success = equals (length s) j c.
  Proof. unfold assert_that, equals. now destruct (Nat.eqb j (length s)). Qed.

  Lemma m_begin f rd cur c k : m cf names s (S f) rd BeginInput cur c k = assert_that (Nat.eqb cur 0) cur c k.
  Proof. reflexivity. Qed.
  Lemma m_end f rd cur c k :
    m cf names s (S f) rd EndInput cur c k = assert_that (Nat.eqb cur (length (view s rd))) cur c k.
  Proof. reflexivity. Qed.
  Lemma m_seq f rd l cur c k :
    m cf names s (S f) rd (Seq l) cur c k = seq_match cf (view s rd) (m cf names s f rd) l cur c k.
  Proof. reflexivity. Qed.
  Lemma seq_one (v : list ascii) mm x cur c k : seq_match cf v mm [x] cur c k = mm x cur c k.
  Proof. reflexivity. Qed.

  Lemma at_end_match n cur c :
    node_match cf names s 0 (at_end n) cur c success = node_match cf names s 0 n cur c (equals (length s)).
  Proof.
    unfold node_match, at_end. replace (size (Seq [n; EndInput])) with (S (S (size n))) by (rewrite size_Seq; cbn; lia).
    rewrite m_seq, seq_match_cons by discriminate. replace (forallb trivial [n; EndInput]) with false
      by (cbn; now rewrite andb_false_r).
    apply m_ext; [lia|lia|]. intros j c'. rewrite seq_one, m_end. apply equals_success.
  Qed.

  Lemma at_start_match n cur c k :
    node_match cf names s 0 (at_start n) cur c k
    = if Nat.eqb cur 0 then node_match cf names s 0 n cur c k else non_match cur c.
  Proof.
    unfold node_match, at_start. replace (size (Seq [BeginInput; n])) with (S (S (size n))) by (rewrite size_Seq; cbn; lia).
    rewrite m_seq, seq_match_cons by discriminate. cbn [forallb trivial andb].
    rewrite m_begin. unfold assert_that.
    destruct (Nat.eqb cur 0); [|reflexivity]. rewrite seq_one. apply m_ext; auto; lia.
  Qed.

  Lemma at_both_match n cur c :
    node_match cf names s 0 (at_both n) cur c success
    = if Nat.eqb cur 0 then node_match cf names s 0 n cur c (equals (length s)) else non_match cur c.
  Proof.
    unfold node_match, at_both. replace (size (Seq [BeginInput; n; EndInput])) with (S (S (S (size n))))
      by (rewrite size_Seq; cbn; lia).
    rewrite m_seq, seq_match_cons by discriminate. cbn [forallb trivial andb].
    rewrite m_begin. unfold assert_that.
    destruct (Nat.eqb cur 0); [|reflexivity].
    rewrite seq_match_cons by discriminate. replace (forallb trivial [n; EndInput]) with false
      by (cbn; now rewrite andb_false_r).
    apply m_ext; [lia|lia|]. intros j c'. rewrite seq_one, m_end. apply equals_success.
  Qed.

  (** A search for an anchored tree fails after the first position. *)
  Lemma search_fails n : (forall cur c, cur <> 0 -> node_match cf (group_names n) s 0 n cur c success = non_match cur c) ->
    forall f cur c, cur <> 0 -> cur + f = S (length s) -> 0 < f -> search_loop f cf n s cur c = non_match (length s) c.
  Proof.
    intros H. induction f as [|f IH]; intros cur c Hc Hl Hf; [lia|]. cbn [search_loop].
    rewrite H by auto. cbn [non_match]. destruct (Nat.eqb_spec cur (length s)) as [->|].
    - reflexivity.
    - apply IH; lia.
  Qed.

  Lemma search_first n : (forall cur c, cur <> 0 -> node_match cf (group_names n) s 0 n cur c success = non_match cur c) ->
    forall c, search_method cf n s 0 c =
      match node_match cf (group_names n) s 0 n 0 c success with
      | Res c' e true => Res (set_group0 0 e c') e true
      | Res c' _ false => non_match (length s) c'
      | o => o
      end.
  Proof.
    intros H c. unfold search_method. rewrite Nat.sub_0_r. cbn [search_loop].
    destruct (node_match cf (group_names n) s 0 n 0 c success) as [c' e [|]| | |]; try reflexivity.
    destruct (Nat.eqb_spec 0 (length s)) as [E|E]; [now rewrite <- E|].
    apply search_fails; auto; lia.
  Qed.
End Anchored.

Lemma names_both n : group_names (at_both n) = group_names n.
Proof. unfold group_names. cbn. now rewrite app_nil_r. Qed.
Lemma names_start n : group_names (at_start n) = group_names n.
Proof. unfold group_names. cbn. now rewrite app_nil_r. Qed.
Lemma names_end n : group_names (at_end n) = group_names n.
Proof. unfold group_names. cbn. now rewrite app_nil_r. Qed.

Lemma compiles_seq cf names f rd l : l <> [] ->
  compiles cf names (S f) rd (Seq l) = forallb (compiles cf names f rd) l.
Proof. now destruct l. Qed.

Lemma compilable_both cf n : compilable cf (at_both n) = compilable cf n.
Proof.
  unfold compilable. rewrite names_both. unfold at_both.
  replace (size (Seq [BeginInput; n; EndInput])) with (S (S (S (size n)))) by (rewrite size_Seq; cbn; lia).
  rewrite compiles_seq by discriminate. cbn [forallb]. rewrite (compiles_fuel cf (group_names n) _ (size n) 0 n) by lia.
  cbn [compiles andb]. apply andb_true_r.
Qed.
Lemma compilable_start cf n : compilable cf (at_start n) = compilable cf n.
Proof.
  unfold compilable. rewrite names_start. unfold at_start.
  replace (size (Seq [BeginInput; n])) with (S (S (size n))) by (rewrite size_Seq; cbn; lia).
  rewrite compiles_seq by discriminate. cbn [forallb]. rewrite (compiles_fuel cf (group_names n) _ (size n) 0 n) by lia.
  cbn [compiles andb]. apply andb_true_r.
Qed.
Lemma compilable_end cf n : compilable cf (at_end n) = compilable cf n.
Proof.
  unfold compilable. rewrite names_end. unfold at_end.
  replace (size (Seq [n; EndInput])) with (S (S (size n))) by (rewrite size_Seq; cbn; lia).
  rewrite compiles_seq by discriminate. cbn [forallb]. rewrite (compiles_fuel cf (group_names n) _ (size n) 0 n) by lia.
  cbn [compiles andb]. apply andb_true_r.
Qed.

Lemma initial_names n n' : group_names n = group_names n' -> initial_captures n = initial_captures n'.
Proof. unfold initial_captures. now intros ->. Qed.

Lemma set_group0_tail b e c : tl (set_group0 b e c) = tl c.
Proof. now destruct c. Qed.

(** The three calls for the trees. *)
Theorem match_is_anchored_search n fl ct s :
  agree (regex_match (mk_regex n fl) ct s) (regex_search (mk_regex (at_both n) fl) ct s).
Proof.
  unfold regex_match, regex_search, invoke. cbn [ast flags]. rewrite compilable_both.
  destruct (compilable _ n); [|exact I].
  rewrite (initial_names _ _ (names_both n)).
  rewrite search_first by (intros cur c H; rewrite at_both_match; destruct (Nat.eqb_spec cur 0); congruence).
  rewrite at_both_match, names_both. cbn [Nat.eqb]. unfold match_method.
  destruct (node_match _ _ _ _ _ _ _ _) as [c e [|]| | |]; cbn; auto.
  rewrite set_group0_tail. repeat split; discriminate.
Qed.

Theorem prefix_is_anchored_search n fl ct s :
  agree (regex_match_prefix (mk_regex n fl) ct s) (regex_search (mk_regex (at_start n) fl) ct s).
Proof.
  unfold regex_match_prefix, regex_search, invoke. cbn [ast flags]. rewrite compilable_start.
  destruct (compilable _ n); [|exact I].
  rewrite (initial_names _ _ (names_start n)).
  rewrite search_first by (intros cur c H; rewrite at_start_match; destruct (Nat.eqb_spec cur 0); congruence).
  rewrite at_start_match, names_start. cbn [Nat.eqb]. unfold match_prefix_method.
  destruct (node_match _ _ _ _ _ _ _ _) as [c e [|]| | |]; cbn; auto.
  rewrite set_group0_tail. repeat split; discriminate.
Qed.

Theorem match_is_anchored_prefix n fl ct s :
  regex_match (mk_regex n fl) ct s = regex_match_prefix (mk_regex (at_end n) fl) ct s.
Proof.
  unfold regex_match_prefix, regex_match, invoke. cbn [ast flags]. rewrite compilable_end.
  destruct (compilable _ n); [|reflexivity].
  rewrite (initial_names _ _ (names_end n)). unfold match_prefix_method, match_method.
  now rewrite at_end_match, names_end.
Qed.

(** The patterns. *)
Lemma anchored_body p b : body p b ->
  body (str "\A" ++ grouped p ++ str "\Z") (x_concat [BeginInput; b; EndInput])
  /\ body (str "\A" ++ grouped p) (x_concat [BeginInput; b])
  /\ body (grouped p ++ str "\Z") (x_concat [b; EndInput]).
Proof.
  intros H. rewrite !concat_fold. cbn [fold_left].
  assert (A : item Anything (str "\A") BeginInput) by (apply i_anchor; cbn; auto 10).
  assert (Z : item Anything (str "\Z") EndInput) by (apply i_anchor; cbn; auto 10).
  assert (G : item Anything (grouped p) b) by apply piece_item, wrap_piece, H.
  repeat split.
  - eapply branch_body, b_items; [exact A|]. eapply m_item; [exact G|exact I|].
    rewrite <- (app_nil_r (str "\Z")). eapply m_item; [exact Z|exact I|]. constructor.
  - eapply branch_body, b_items; [exact A|]. rewrite <- (app_nil_r (grouped p)).
    eapply m_item; [exact G|exact I|]. constructor.
  - eapply branch_body, b_items; [exact G|]. rewrite <- (app_nil_r (str "\Z")).
    eapply m_item; [exact Z|exact I|]. constructor.
Qed.

Lemma agree_search a b c : agree a b -> b = c -> agree a c.
Proof. now intros H <-. Qed.

Lemma packed_indexed b l : Forall (fun n => n <> Seq []) l -> l <> [] -> packed l = b -> 
  regrouped false (index_captures b) (index_captures (x_concat l)).
Proof. intros F H <-. apply regrouped_index. now apply packed_regrouped. Qed.

Theorem anchored_patterns p n fl ct s : parse p = P_ok n ->
  let r x := mk_regex x fl in
  exists n1 n2 n3,
    parse (str "\A(?:" ++ p ++ str ")\Z") = P_ok n1
    /\ parse (str "\A(?:" ++ p ++ str ")") = P_ok n2
    /\ parse (str "(?:" ++ p ++ str ")\Z") = P_ok n3
    /\ agree (regex_match (r n) ct s) (regex_search (r n1) ct s)
    /\ agree (regex_match_prefix (r n) ct s) (regex_search (r n2) ct s)
    /\ agree (regex_match (r n) ct s) (regex_match_prefix (r n3) ct s).
Proof.
  intros H r. pose proof H as P. apply accepted_pattern in P as (b & Hb & E).
  assert (F : b <> Seq []).
  { intros ->. assert (Q : printable n = true) by (apply parse_image; eauto). subst n. discriminate Q. }
  destruct (anchored_body p b Hb) as (B1 & B2 & B3).
  apply pattern_parses in B1, B2, B3.
  exists (index_captures (x_concat [BeginInput; b; EndInput])), (index_captures (x_concat [BeginInput; b])),
    (index_captures (x_concat [b; EndInput])).
  split; [rewrite <- B1; f_equal; unfold grouped; cbn; now rewrite <- app_assoc|].
  split; [exact B2|].
  split; [rewrite <- B3; f_equal; unfold grouped; cbn; now rewrite <- app_assoc|].
  assert (R1 : regrouped false (at_both n) (index_captures (x_concat [BeginInput; b; EndInput]))).
  { replace (at_both n) with (index_captures (at_both b)).
    - apply packed_indexed; [repeat constructor; congruence|discriminate|reflexivity].
    - subst n. unfold index_captures, at_both. cbn. reflexivity. }
  assert (R2 : regrouped false (at_start n) (index_captures (x_concat [BeginInput; b]))).
  { replace (at_start n) with (index_captures (at_start b)).
    - apply packed_indexed; [repeat constructor; congruence|discriminate|reflexivity].
    - subst n. reflexivity. }
  assert (R3 : regrouped false (at_end n) (index_captures (x_concat [b; EndInput]))).
  { replace (at_end n) with (index_captures (at_end b)).
    - apply packed_indexed; [repeat constructor; congruence|discriminate|reflexivity].
    - subst n. reflexivity. }
  split; [|split].
  - eapply agree_search; [apply match_is_anchored_search|]. apply (regrouped_agree _ _ fl ct s R1).
  - eapply agree_search; [apply prefix_is_anchored_search|]. apply (regrouped_agree _ _ fl ct s R2).
  - unfold r at 1. rewrite match_is_anchored_prefix. apply (regrouped_agree _ _ fl ct s R3).
Qed.
