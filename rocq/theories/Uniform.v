(** Calls of backreference-free regexes do not depend on the captures: C03, C07,
    C45 without the other conditions of [regular]. *)
From Verif Require Import Matcher Api Basics Safe Cong Impl Spec Paths Adequacy Calls Lift Matching
  Relate Runs.

Section Uniform.
  Variable cf : config.
  Variable n : node.
  Variable s : list ascii.
  Hypothesis Hruns : runs cf n.
  Hypothesis Hfree : backref_free n = true.
  Local Notation names := (group_names n).

  Lemma exact_success : pair_cont s (exact names s) success success.
  Proof. apply (r_success names s _ _ (exact_closed names s)). Qed.

  Lemma exact_equals t : pair_cont s (exact names s) (equals t) (equals t).
  Proof.
    intros j Hj. unfold equals. destruct (Nat.eqb j t).
    - now apply (c_succ _ _ _ _ (exact_closed names s)).
    - apply (c_fail _ _ _ _ (exact_closed names s)).
  Qed.

  (** One run: the verdict, the end of a success and the operations on the
      captures do not depend on the captures. *)
  Definition uniform_run (F : run) : Prop :=
    exists ops e b, forall c, length c = length names ->
      exists e', F c = Res (act ops c) e' b /\ (b = true -> e' = e).

  Lemma node_uniform cur k : cur <= length s -> k = success \/ k = equals (length s) ->
    uniform_run (fun c => node_match cf names s 0 n cur c k).
  Proof.
    intros Hc Hk.
    assert (E : exact names s (fun c => node_match cf names s 0 n cur c k)
                  (fun c => node_match cf names s 0 n cur c k)).
    { apply exact_self; auto. destruct Hk as [->| ->]; [apply exact_success|apply exact_equals]. }
    destruct E as [(ops & e & He & H)|[(ops & H)|(o & Ho & H)]].
    - exists ops, e, true. intros c Hl. exists e. split; auto. now apply H.
    - exists ops, 0, false. intros c Hl. destruct (H c Hl) as [[e' E] _]. exists e'. split; auto. discriminate.
    - exfalso. destruct (H (initial_captures n) (initial_length n)) as [E _].
      assert (K : ok names s (fun _ => True) cur
                    (node_match cf names s 0 n cur (initial_captures n) k)).
      { apply (node_safe cf n s Hruns); auto using good_initial. intros j c' ? ? ?.
        destruct Hk as [->| ->]; cbn; repeat split; auto; apply H2. }
      rewrite E in K. destruct o; cbn in *; easy.
  Qed.

  Lemma method_uniform mt : mt = match_method \/ mt = match_prefix_method ->
    forall cur c1 c2, cur <= length s -> length c1 = length names -> length c2 = length names ->
    verdict (mt cf n s cur c1) = verdict (mt cf n s cur c2)
    /\ verdict (mt cf n s cur c1) <> None.
  Proof.
    intros [->| ->] cur c1 c2 Hc H1 H2; [unfold match_method|unfold match_prefix_method];
      [destruct (node_uniform cur (equals (length s)) Hc (or_intror eq_refl)) as (ops & e & b & H)
      |destruct (node_uniform cur success Hc (or_introl eq_refl)) as (ops & e & b & H)];
      destruct (H c1 H1) as (e1 & -> & E1), (H c2 H2) as (e2 & -> & E2);
      (split; [|discriminate]); cbn; destruct b; auto; now rewrite E1, E2 by auto.
  Qed.

  Definition prefix_from (i : nat) : option (option nat) :=
    verdict (match_prefix_method cf n s i (initial_captures n)).

  Lemma run_from cur c : cur <= length s -> length c = length names ->
    exists c' e b, node_match cf names s 0 n cur c success = Res c' e b /\ length c' = length names
      /\ prefix_from cur = Some (if b then Some e else None).
  Proof.
    intros Hc Hl. unfold prefix_from, match_prefix_method.
    destruct (node_uniform cur success Hc (or_introl eq_refl)) as (ops & e & b & H).
    destruct (H c Hl) as (e1 & E1 & B1), (H _ (initial_length n)) as (e2 & E2 & B2).
    exists (act ops c), e1, b. split; [exact E1|]. split; [now rewrite act_length|].
    rewrite E2. cbn. destruct b; auto. now rewrite B1, B2 by auto.
  Qed.

  (** [i] is the first offset from [lo] at which the regex matches, up to [e]. *)
  Definition first_offset (lo i e : nat) : Prop :=
    lo <= i <= length s /\ prefix_from i = Some (Some e)
    /\ forall i', lo <= i' < i -> prefix_from i' = Some None.

  Lemma search_loop_first : forall fuel cur c,
    length s - cur < fuel -> cur <= length s -> length c = length names ->
    exists c' e b, search_loop fuel cf n s cur c = Res c' e b
      /\ (b = true -> exists i, first_offset cur i e /\ group0 c' = Some (i, e))
      /\ (b = false -> forall i, cur <= i <= length s -> prefix_from i = Some None).
  Proof.
    induction fuel as [|fuel IH]; intros cur c Hf Hc Hl; [lia|]. cbn [search_loop].
    destruct (run_from cur c Hc Hl) as (c' & e & b & -> & Hl' & Hp). destruct b.
    - do 3 eexists. split; [reflexivity|]. split; [|discriminate]. intros _. exists cur.
      split; [|now apply (group0_set_length n)]. repeat split; auto. intros. lia.
    - destruct (Nat.eqb_spec cur (length s)).
      + do 3 eexists. split; [reflexivity|]. split; [discriminate|]. intros _ i Hi.
        assert (i = cur) by lia. now subst.
      + destruct (IH (S cur) c' ltac:(lia) ltac:(lia) Hl') as (c'' & e' & b & -> & I1 & I2).
        do 3 eexists. split; [reflexivity|]. split.
        * intros Hb. destruct (I1 Hb) as (i & ((? & ?) & ? & I3) & ?). exists i. split; auto.
          repeat split; auto; try lia. intros i' Hi'.
          destruct (Nat.eq_dec i' cur) as [->|]; auto. apply I3. lia.
        * intros Hb i Hi. destruct (Nat.eq_dec i cur) as [->|]; auto. apply I2; auto. lia.
  Qed.

  Lemma search_uniform cur c1 c2 : cur <= length s ->
    length c1 = length names -> length c2 = length names ->
    verdict (search_method cf n s cur c1) = verdict (search_method cf n s cur c2)
    /\ verdict (search_method cf n s cur c1) <> None.
  Proof.
    intros Hc H1 H2. unfold search_method.
    destruct (search_loop_first (S (length s - cur)) cur c1) as (c1' & e1 & b1 & -> & A1 & B1); auto.
    destruct (search_loop_first (S (length s - cur)) cur c2) as (c2' & e2 & b2 & -> & A2 & B2); auto.
    cbn. split; [|discriminate]. destruct b1, b2; auto.
    - destruct (A1 eq_refl) as (i & ((? & ?) & E1 & F1) & _), (A2 eq_refl) as (j & ((? & ?) & E2 & F2) & _).
      destruct (Nat.lt_trichotomy i j) as [Hlt|[->|Hlt]].
      + rewrite F2 in E1 by lia. discriminate.
      + rewrite E1 in E2. inversion E2. reflexivity.
      + rewrite F1 in E2 by lia. discriminate.
    - destruct (A1 eq_refl) as (i & ((? & ?) & E1 & F1) & _). rewrite B2 in E1 by (auto; lia). discriminate.
    - destruct (A2 eq_refl) as (i & ((? & ?) & E1 & F1) & _). rewrite B1 in E1 by (auto; lia). discriminate.
  Qed.

  Theorem free_captures_irrelevant mt :
    mt = match_method \/ mt = match_prefix_method \/ mt = search_method ->
    forall cur c1 c2, cur <= length s -> length c1 = length names -> length c2 = length names ->
    verdict (mt cf n s cur c1) = verdict (mt cf n s cur c2)
    /\ verdict (mt cf n s cur c1) <> None.
  Proof.
    intros Hm cur c1 c2 Hc H1 H2. destruct Hm as [Hm|[Hm| ->]].
    - apply method_uniform; auto.
    - apply method_uniform; auto.
    - apply search_uniform; auto.
  Qed.

  (** ** The three calls *)

  Lemma implied A k1 k2 c cur : cur <= length s -> length c = length names ->
    (forall j, j <= length s -> implies names s A (k1 j) (k2 j)) ->
    succeeds A (node_match cf names s 0 n cur c k1) ->
    succeeds_or_stuck (node_match cf names s 0 n cur c k2).
  Proof.
    intros Hc Hl Hk.
    pose proof (implies_self cf names s A (size n) 0 n Hfree cur k1 k2 Hc Hk) as (_ & _ & H).
    exact (H c Hl).
  Qed.

  Lemma match_then_prefix cur c : cur <= length s -> length c = length names ->
    succeeds (fun _ => True) (node_match cf names s 0 n cur c (equals (length s))) ->
    succeeds_or_stuck (node_match cf names s 0 n cur c success).
  Proof.
    intros Hc Hl. apply implied; auto. intros j Hj. split; [now apply exact_equals|].
    split; [now apply exact_success|]. intros c' _ _. exact I.
  Qed.

  Lemma prefix_then_match cur c : cur <= length s -> length c = length names ->
    succeeds (fun e => e = length s) (node_match cf names s 0 n cur c success) ->
    succeeds_or_stuck (node_match cf names s 0 n cur c (equals (length s))).
  Proof.
    intros Hc Hl. apply implied; auto. intros j Hj. split; [now apply exact_success|].
    split; [now apply exact_equals|]. intros c' _ H. cbn in H. subst. unfold equals.
    now rewrite Nat.eqb_refl.
  Qed.
End Uniform.

Theorem free_search_first r ct s : usable r ct -> backref_free (ast r) = true ->
  let from := prefix_from (config_of (flags r) ct) (ast r) s in
  exists res, regex_search r ct s = Returned res
    /\ (matched res = true -> exists i e,
          i <= length s /\ from i = Some (Some e)
          /\ (forall i', i' < i -> from i' = Some None)
          /\ group0 (groups res) = Some (i, e))
    /\ (matched res = false -> forall i, i <= length s -> from i = Some None).
Proof.
  intros Hu Hf from. unfold regex_search, invoke. rewrite (proj1 Hu). unfold search_method.
  destruct (search_loop_first _ _ s Hu Hf (S (length s - 0)) 0 (initial_captures (ast r)))
    as (c & e & b & -> & A & B); auto using initial_length; try lia.
  eexists. split; [reflexivity|]. cbn. split.
  - intros Hb. destruct (A Hb) as (i & ((_ & ?) & ? & H) & ?). exists i, e. repeat split; auto.
    intros. apply H. lia.
  - intros Hb i Hi. apply B; auto. lia.
Qed.

Theorem free_calls_agree r ct s : usable r ct -> backref_free (ast r) = true ->
  exists a b c,
    regex_match r ct s = Returned a
    /\ regex_match_prefix r ct s = Returned b
    /\ regex_search r ct s = Returned c
    /\ (matched a = true -> group0 (groups a) = Some (0, length s)
          /\ matched b = true /\ matched c = true
          /\ exists e, group0 (groups b) = Some (0, e) /\ group0 (groups c) = Some (0, e))
    /\ (matched b = true -> group0 (groups b) = Some (0, length s) -> matched a = true).
Proof.
  intros Hu Hf. pose proof (proj1 Hu) as Hc. unfold regex_match, regex_match_prefix, regex_search.
  set (cf := config_of (flags r) ct) in *. set (n := ast r) in *.
  assert (H1 := match_method_ok cf n s Hu 0 _ (Nat.le_0_l _) (good_initial _ _)).
  assert (H2 := match_prefix_method_ok cf n s Hu 0 _ (Nat.le_0_l _) (good_initial _ _)).
  assert (T1 := match_then_prefix cf n s Hf 0 _ (Nat.le_0_l _) (initial_length n)).
  assert (T2 := prefix_then_match cf n s Hf 0 _ (Nat.le_0_l _) (initial_length n)).
  assert (H3 : forall c' e, node_match cf (group_names n) s 0 n 0 (initial_captures n) success = Res c' e true ->
           search_method cf n s 0 (initial_captures n) = Res (set_group0 0 e c') e true).
  { intros c' e E. unfold search_method. cbn [search_loop]. now rewrite E. }
  assert (H4 : exists c e b, search_method cf n s 0 (initial_captures n) = Res c e b).
  { destruct (search_loop_first cf n s Hu Hf (S (length s - 0)) 0 (initial_captures n))
      as (c & e & b & E & _); auto using initial_length; try lia. now exists c, e, b. }
  unfold invoke. fold cf n. rewrite Hc. destruct H4 as (c3 & e3 & b3 & H4).
  unfold match_method, match_prefix_method in *.
  destruct (node_match _ _ _ _ _ _ _ (equals _)) as [c1 e1 b1| | |]; try contradiction.
  destruct (node_match _ _ _ _ _ _ _ success) as [c2 e2 b2| | |]; try contradiction.
  cbn in H1, H2. destruct H1 as (_ & _ & _ & G1 & E1), H2 as (_ & _ & _ & G2).
  rewrite H4. do 3 eexists. do 3 (split; [reflexivity|]). cbn. split.
  - intros ->. cbn in T1. specialize (T1 I). destruct b2; [|contradiction].
    specialize (H3 _ _ eq_refl). rewrite H4 in H3. inversion H3; subst.
    rewrite G1, E1 by auto. repeat split. exists e2. split; exact G2.
  - intros -> He. rewrite G2 in He. inversion He; subst. cbn in T2. specialize (T2 eq_refl).
    destruct b1; [reflexivity|contradiction].
Qed.

(** ** Atomic groups and lookaheads around any tree *)

Theorem atomic_own cf names s x cur c k c' j :
  (node_match cf names s 0 x cur c success = Res c' j true ->
     node_match cf names s 0 (atomic x) cur c k = k j c')
  /\ (node_match cf names s 0 x cur c success = Res c' j false ->
     node_match cf names s 0 (atomic x) cur c k = Res c' cur false).
Proof.
  unfold node_match. cbn [size atomic m]. unfold rep_match. cbn [N.eqb Pos.eqb].
  unfold fixed_match. cbn [N.eqb Pos.eqb]. destruct (trivial x) eqn:T.
  - rewrite !m_trivial by auto. unfold match_trivial, deref, view, non_match, success. cbn [Nat.even].
    destruct (Nat.eqb cur (length s)); [split; congruence|].
    destruct (nth_error s cur) as [a|]; [|split; discriminate].
    destruct (match_one cf x a); split; congruence.
  - split; intros ->; reflexivity.
Qed.

Theorem lookahead_own cf names s x cur c k c' j :
  (node_match cf names s 0 x cur c success = Res c' j true ->
     node_match cf names s 0 (Look Ahead x) cur c k = k cur c'
     /\ node_match cf names s 0 (Neg (Look Ahead x)) cur c k = Res c' cur false)
  /\ (node_match cf names s 0 x cur c success = Res c' j false ->
     node_match cf names s 0 (Look Ahead x) cur c k = Res c' cur false
     /\ node_match cf names s 0 (Neg (Look Ahead x)) cur c k = k cur c').
Proof.
  unfold node_match. cbn [size m is_assertion]. destruct (trivial x) eqn:T.
  - rewrite m_trivial by auto. unfold match_trivial, deref, view, assert_that, non_match, success.
    cbn [Nat.even]. destruct (Nat.eqb cur (length s)); [split; [discriminate|]; intros [= <- <-]; now split|].
    destruct (nth_error s cur) as [a|]; [|split; discriminate].
    destruct (match_one cf x a); split; try discriminate; intros [= <- <-]; now split.
  - split; intros ->; now split.
Qed.
