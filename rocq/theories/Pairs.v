(** From two trees with the same outcomes to the public interface. *)
From Verif Require Import Matcher Api Basics Safe Cong Impl Spec Paths Adequacy Calls Lift Runs Relate
  Equiv Regroup.

Section Pair.
  Variables r1 r2 : regex.
  Variables ct1 ct2 : category.
  Variable s : list ascii.
  Local Notation cf1 := (config_of (flags r1) ct1).
  Local Notation cf2 := (config_of (flags r2) ct2).
  Local Notation n1 := (ast r1).
  Local Notation n2 := (ast r2).
  Local Notation names := (group_names n1).
  Hypothesis Hcomp : compilable cf1 n1 = compilable cf2 n2.
  Hypothesis Hnames : group_names n1 = group_names n2.
  Hypothesis Hrun : forall k cur c, k = success \/ k = equals (length s) ->
    cur <= length s -> length c = length names ->
    same_out names s (node_match cf1 names s 0 n1 cur c k) (node_match cf2 names s 0 n2 cur c k).

  Lemma pair_initial : initial_captures n1 = initial_captures n2.
  Proof using Hnames. unfold initial_captures. now rewrite Hnames. Qed.

  Lemma pair_initial_length : length (initial_captures n1) = length names.
  Proof. apply map_length. Qed.

  Lemma pair_block k cur c : k = success \/ k = equals (length s) ->
    cur <= length s -> length c = length names ->
    agree_out
      (match node_match cf1 (group_names n1) s 0 n1 cur c k with
       | Res c' e b => Res (set_group0 cur e c') e b | o => o end)
      (match node_match cf2 (group_names n2) s 0 n2 cur c k with
       | Res c' e b => Res (set_group0 cur e c') e b | o => o end).
  Proof.
    intros Hk Hc Hl. rewrite <- Hnames. pose proof (Hrun k cur c Hk Hc Hl) as H.
    destruct (node_match cf1 _ _ _ _ _ _ _) as [c1 e1 b1| | |],
             (node_match cf2 _ _ _ _ _ _ _) as [c2 e2 b2| | |]; cbn in H |- *; try easy.
    destruct H as (-> & _ & -> & He). repeat split.
    - now destruct c2.
    - now rewrite (proj1 (He H)).
    - now apply He.
  Qed.

  Lemma pair_search : forall fuel cur c, cur <= length s -> length c = length names ->
    search_loop fuel cf1 n1 s cur c = search_loop fuel cf2 n2 s cur c.
  Proof.
    induction fuel as [|fuel IH]; intros cur c Hc Hl; [reflexivity|]. cbn [search_loop].
    rewrite <- Hnames. pose proof (Hrun success cur c (or_introl eq_refl) Hc Hl) as H.
    destruct (node_match cf1 _ _ _ _ _ _ _) as [c1 e1 b1| | |],
             (node_match cf2 _ _ _ _ _ _ _) as [c2 e2 b2| | |]; cbn in H; try easy.
    destruct H as (-> & Hl' & -> & He). destruct b2; [now rewrite (proj1 (He eq_refl))|].
    destruct (Nat.eqb_spec cur (length s)); auto. apply IH; auto. lia.
  Qed.

  Theorem pair_calls :
    agree (regex_match r1 ct1 s) (regex_match r2 ct2 s)
    /\ agree (regex_match_prefix r1 ct1 s) (regex_match_prefix r2 ct2 s)
    /\ regex_search r1 ct1 s = regex_search r2 ct2 s.
  Proof.
    unfold regex_match, regex_match_prefix, regex_search, invoke. rewrite <- Hcomp, <- pair_initial.
    destruct (compilable cf1 n1); [|cbn; auto]. split; [|split].
    - apply agree_to_call. apply pair_block; [now right|lia|apply pair_initial_length].
    - apply agree_to_call. apply pair_block; [now left|lia|apply pair_initial_length].
    - unfold search_method. now rewrite pair_search by (lia || apply pair_initial_length).
  Qed.

  Lemma pair_next g : gen_inside s g ->
    match next match_prefix_method cf1 n1 s g, next match_prefix_method cf2 n2 s g with
    | Returned (a, g1), Returned (b, g2) =>
        agree (Returned a) (Returned b) /\ active g1 = active g2
        /\ (active g1 = true -> current g1 = current g2)
    | UndefinedBehaviour, UndefinedBehaviour
    | DoesNotCompile, DoesNotCompile
    | DoesNotReturn, DoesNotReturn => True
    | _, _ => False
    end.
  Proof.
    intros Hg. unfold next. rewrite <- pair_initial. destruct (active g) eqn:A.
    - pose proof (pair_block success (current g) (initial_captures n1) (or_introl eq_refl) (Hg A)
                    pair_initial_length) as H.
      unfold match_prefix_method.
      destruct (node_match cf1 _ _ _ _ _ _ _) as [c1 e1 b1| | |],
               (node_match cf2 _ _ _ _ _ _ _) as [c2 e2 b2| | |]; cbn in H |- *; try easy.
      destruct H as (-> & Ht & He). split; [|split].
      + repeat split; auto. intros Hb. now apply He.
      + destruct b2; [|reflexivity]. destruct He as [-> _]; reflexivity.
      + intros Ha. apply andb_true_iff in Ha as [-> _]. now apply He.
    - repeat split; auto.
  Qed.

  Lemma pair_generate : forall k g1 g2, active g1 = active g2 ->
    (active g1 = true -> current g1 = current g2) -> gen_inside s g1 ->
    agree_lists (generate match_prefix_method cf1 n1 s k g1)
      (generate match_prefix_method cf2 n2 s k g2).
  Proof.
    induction k as [|k IH]; intros g1 g2 Ha Hcur Hin; [constructor|]. cbn [generate].
    destruct (active g1) eqn:A.
    - assert (g1 = g2) as <-.
      { destruct g1, g2; cbn in *. rewrite Hcur, <- Ha, A by auto. reflexivity. }
      pose proof (pair_next g1 Hin) as H.
      destruct (next match_prefix_method cf1 n1 s g1) as [[a h1]| | |] eqn:E1,
               (next match_prefix_method cf2 n2 s g1) as [[b h2]| | |] eqn:E2;
        cbn in H |- *; try easy.
      destruct H as (H1 & H2 & H3).
      specialize (IH h1 h2 H2 H3 (next_inside _ _ _ _ _ _ _ gm_prefix Hin E1)).
      destruct (generate match_prefix_method cf1 n1 s k h1),
               (generate match_prefix_method cf2 n2 s k h2); cbn in IH |- *; try easy.
      constructor; auto.
    - rewrite !inactive_next by auto.
      assert (IH' := IH g1 g2). rewrite A in IH'.
      specialize (IH' Ha Hcur Hin).
      destruct (generate match_prefix_method cf1 n1 s k g1),
               (generate match_prefix_method cf2 n2 s k g2); cbn [agree_lists] in IH' |- *; try easy.
      constructor; [|exact IH']. rewrite pair_initial. apply agree_refl.
  Qed.

  Lemma pair_searcher : forall k g, gen_inside s g ->
    generate search_method cf1 n1 s k g = generate search_method cf2 n2 s k g.
  Proof.
    induction k as [|k IH]; intros g Hg; [reflexivity|]. cbn [generate].
    assert (E : next search_method cf1 n1 s g = next search_method cf2 n2 s g).
    { unfold next. rewrite <- pair_initial. destruct (active g) eqn:A; auto. unfold search_method.
      rewrite pair_search by (apply pair_initial_length || now apply Hg). reflexivity. }
    rewrite <- E. destruct (next search_method cf1 n1 s g) as [[a h]| | |] eqn:E1; auto.
    rewrite IH; auto. eapply next_inside; eauto. constructor.
  Qed.

  Theorem pair_generators k :
    agree_lists (tokenizer r1 ct1 s k) (tokenizer r2 ct2 s k)
    /\ searcher r1 ct1 s k = searcher r2 ct2 s k.
  Proof.
    unfold tokenizer, searcher, generator_results. rewrite <- Hcomp.
    destruct (compilable cf1 n1); [|cbn; auto]. split.
    - apply pair_generate; auto. apply inside_new.
    - apply pair_searcher. apply inside_new.
  Qed.
End Pair.

(** All calls on two regexes with the same flags agree: the verdict, the groups
    after a success, the groups from 1 on after a failure. *)
Definition indistinguishable (x y : node) (fl : list regex_flag) (ct : category) (s : list ascii) : Prop :=
  let r1 := mk_regex x fl in
  let r2 := mk_regex y fl in
  agree (regex_match r1 ct s) (regex_match r2 ct s)
  /\ agree (regex_match_prefix r1 ct s) (regex_match_prefix r2 ct s)
  /\ regex_search r1 ct s = regex_search r2 ct s
  /\ (forall k, agree_lists (tokenizer r1 ct s k) (tokenizer r2 ct s k))
  /\ (forall k, searcher r1 ct s k = searcher r2 ct s k).

Lemma regrouped_calls Q bk al x y fl ct s :
  let names := group_names x in
  let cf := config_of fl ct in
  closed names s Q Q ->
  (forall F1 F2, Q F1 F2 -> Q F2 F1) ->
  (forall F1 F2 F3, Q F1 F2 -> Q F2 F3 -> Q F1 F3) ->
  (bk = true -> forall rd i, pair_matcher s Q (backref_match cf s rd i) (backref_match cf s rd i)) ->
  (forall F1 F2 e, Q F1 F2 -> Q F1 (fun c => or_else (F2 c) (fun c' => Res c' e false))) ->
  (al = true -> forall F1 F2, Q F1 F2 -> Q F1 (fun c => or_else (F2 c) F2)) ->
  (forall F1 F2, Q F1 F2 -> pointwise names s F1 F2) ->
  pair_cont s Q success success -> pair_cont s Q (equals (length s)) (equals (length s)) ->
  regrouped al x y -> bk || backref_free x = true ->
  indistinguishable x y fl ct s.
Proof.
  intros names cf CQ Qs Qt Hbk Hu Hd Hp Hsucc Heq Hr Hf.
  destruct (regrouped_both cf names s Q CQ Qs Qt bk Hbk Hu al Hd x y Hr Hf) as [[_ E] _].
  assert (Hn : group_names x = group_names y).
  { unfold group_names. f_equal. eapply regrouped_names; eauto. }
  set (F := size x + size y).
  destruct (E 0 F ltac:(unfold F; lia) ltac:(unfold F; lia)) as [Ec Em].
  assert (Hc : compilable cf x = compilable cf y).
  { unfold compilable. rewrite <- Hn. fold names.
    rewrite (compiles_fuel cf names (size x) F), (compiles_fuel cf names (size y) F) by (unfold F; lia).
    exact Ec. }
  assert (Hrun : forall k cur c, k = success \/ k = equals (length s) ->
    cur <= length s -> length c = length names ->
    same_out names s (node_match cf names s 0 x cur c k) (node_match cf names s 0 y cur c k)).
  { intros k cur c Hk Hcur Hl. unfold node_match.
    rewrite (m_fuel cf names s (size x) F), (m_fuel cf names s (size y) F) by (unfold F; lia).
    apply (Hp _ _ (Em cur k k Hcur ltac:(destruct Hk as [-> | ->]; assumption)) c Hl). }
  destruct (pair_calls (mk_regex x fl) (mk_regex y fl) ct ct s Hc Hn Hrun) as (A & B & C).
  repeat split; auto; intros k;
    now apply (pair_generators (mk_regex x fl) (mk_regex y fl) ct ct s Hc Hn Hrun k).
Qed.

Lemma pointwise_unit names base F1 F2 e : pointwise names base F1 F2 ->
  pointwise names base F1 (fun c => or_else (F2 c) (fun c' => Res c' e false)).
Proof.
  intros H c Hc. specialize (H c Hc).
  destruct (F1 c) as [c1 e1 [|]| | |], (F2 c) as [c2 e2 [|]| | |]; cbn in *; try easy.
Qed.

Lemma exact_unit names base F1 F2 e : exact names base F1 F2 ->
  exact names base F1 (fun c => or_else (F2 c) (fun c' => Res c' e false)).
Proof.
  intros [(ops & e' & He & H)|[(ops & H)|(o & Ho & H)]].
  - left. exists ops, e'. split; auto. intros c Hc. destruct (H c Hc) as [-> ->]. auto.
  - right. left. exists ops. intros c Hc. destruct (H c Hc) as [A [e2 ->]]. split; auto.
    exists e. reflexivity.
  - right. right. exists o. split; auto. intros c Hc. destruct (H c Hc) as [-> ->].
    destruct o; easy.
Qed.

Lemma cont_success names base Q : closed names base Q Q -> pair_cont base Q success success.
Proof. intros CQ j Hj. now apply (c_succ _ _ _ _ CQ). Qed.

Lemma cont_equals names base Q : closed names base Q Q ->
  pair_cont base Q (equals (length base)) (equals (length base)).
Proof.
  intros CQ j Hj. unfold equals. destruct (Nat.eqb j (length base));
    [now apply (c_succ _ _ _ _ CQ)|apply (c_fail _ _ _ _ CQ)].
Qed.

(** Concatenations, and alternations in last position: for all trees. *)
Theorem regrouped_agree x y fl ct s : regrouped false x y -> indistinguishable x y fl ct s.
Proof.
  intros H. eapply (regrouped_calls (pointwise (group_names x) s) true false).
  - apply pointwise_closed.
  - apply pointwise_sym.
  - apply pointwise_trans.
  - intros _. apply pointwise_backref.
  - intros. now apply pointwise_unit.
  - discriminate.
  - auto.
  - apply (cont_success (group_names x)), pointwise_closed.
  - apply (cont_equals (group_names x)), pointwise_closed.
  - exact H.
  - reflexivity.
Qed.

(** Every regrouping: for trees without backreferences. *)
Theorem regrouped_agree_free x y fl ct s : backref_free x = true -> regrouped true x y ->
  indistinguishable x y fl ct s.
Proof.
  intros Hf H. eapply (regrouped_calls (exact (group_names x) s) false true).
  - apply exact_closed.
  - apply exact_sym.
  - apply exact_trans.
  - discriminate.
  - intros. now apply exact_unit.
  - intros _. apply exact_dup.
  - apply exact_pointwise.
  - apply (cont_success (group_names x)), exact_closed.
  - apply (cont_equals (group_names x)), exact_closed.
  - exact H.
  - exact Hf.
Qed.
