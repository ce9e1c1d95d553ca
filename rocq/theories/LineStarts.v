(** Forward ranges with [^] under [multiline] (C56): every call is undefined
    behaviour or agrees with the same call on any other range. *)
From Verif Require Import Matcher Basics Safe Impl Spec Calls Lift Matching Api Views Scan Parsed Forward.

(** [R] unless the first call is undefined behaviour. *)
Definition undefined_or {A} (R : call A -> call A -> Prop) (o1 o2 : call A) : Prop :=
  o1 = UndefinedBehaviour \/ R o1 o2.

Lemma forward_ok_compiled fl n : compilable (config_of fl ForwardIt) n = true -> forward_ok false n = true.
Proof.
  intros H. change false with (multiline (config_of [] ForwardIt)).
  eapply (Lift.forward_compiles (config_of [] ForwardIt)); [reflexivity| |left; reflexivity].
  eapply compiles_any_category; [|exact H]. reflexivity.
Qed.

Section Undefined.
  Variable r : regex.
  Variable ct : category.
  Variable s : list ascii.
  Local Notation cf1 := (config_of (flags r) ForwardIt).
  Local Notation cf2 := (config_of (flags r) ct).
  Hypothesis Hc1 : compilable cf1 (ast r) = true.

  Lemma other_compiles : compilable cf2 (ast r) = true.
  Proof. eapply compiles_any_category; [|exact Hc1]. reflexivity. Qed.

  Lemma lax_rel cur c k : cur <= length s -> rel_cont s false true k k ->
    rel s false true (node_match cf1 (group_names (ast r)) s 0 (ast r) cur c k)
      (node_match cf2 (group_names (ast r)) s 0 (ast r) cur c k).
  Proof.
    intros Hc Hk. apply m_rel; auto; try discriminate.
    right. rewrite andb_false_r. eapply forward_ok_compiled; eauto.
  Qed.

  Definition block cf cur c k : outcome :=
    match node_match cf (group_names (ast r)) s 0 (ast r) cur c k with
    | Res c' e b => Res (set_group0 cur e c') e b | o => o end.

  Lemma lax_block cur c k : cur <= length s -> rel_cont s false true k k ->
    block cf1 cur c k = Undef \/ agree_out (block cf1 cur c k) (block cf2 cur c k).
  Proof.
    intros Hc Hk. unfold block. pose proof (lax_rel cur c k Hc Hk) as H.
    destruct (node_match cf1 _ _ _ _ _ _ _) as [c1 e1 b1| | |],
             (node_match cf2 _ _ _ _ _ _ _) as [c2 e2 b2| | |]; cbn in H |- *; try easy; auto.
    right. destruct H as (-> & -> & He & _). split; [reflexivity|]. split; [now destruct c2|].
    intros Hb. rewrite He by auto. now split.
  Qed.

  Lemma lax_search : forall fuel cur c, cur <= length s ->
    search_loop fuel cf1 (ast r) s cur c = Undef
    \/ search_loop fuel cf1 (ast r) s cur c = search_loop fuel cf2 (ast r) s cur c.
  Proof.
    induction fuel as [|fuel IH]; intros cur c Hc; [now right|]. cbn [search_loop].
    pose proof (lax_rel cur c success Hc (rel_success s false true)) as H.
    destruct (node_match cf1 _ _ _ _ _ _ _) as [c1 e1 b1| | |],
             (node_match cf2 _ _ _ _ _ _ _) as [c2 e2 b2| | |]; cbn in H; try easy; auto.
    destruct H as (-> & -> & He & _). destruct b2; [right; now rewrite He by auto|].
    destruct (Nat.eqb_spec cur (length s)); auto. apply IH. lia.
  Qed.

  Lemma lax_search_method cur c : cur <= length s ->
    search_method cf1 (ast r) s cur c = Undef
    \/ search_method cf1 (ast r) s cur c = search_method cf2 (ast r) s cur c.
  Proof. intros H. unfold search_method. now apply lax_search. Qed.

  Lemma lax_to_call o1 o2 : o1 = Undef \/ agree_out o1 o2 ->
    undefined_or Lift.agree (to_call o1 (fun c _ b => mk_res c b)) (to_call o2 (fun c _ b => mk_res c b)).
  Proof. intros [->|H]; [now left|right]. now apply agree_to_call. Qed.

  Lemma lax_calls :
    undefined_or Lift.agree (regex_match r ForwardIt s) (regex_match r ct s)
    /\ undefined_or Lift.agree (regex_match_prefix r ForwardIt s) (regex_match_prefix r ct s)
    /\ undefined_or eq (regex_search r ForwardIt s) (regex_search r ct s).
  Proof.
    unfold regex_match, regex_match_prefix, regex_search, invoke.
    rewrite Hc1, other_compiles. split; [|split].
    - apply lax_to_call. apply lax_block; [lia|apply rel_equals].
    - apply lax_to_call. apply lax_block; [lia|apply rel_success].
    - destruct (lax_search_method 0 (initial_captures (ast r)) ltac:(lia)) as [->| ->]; [now left|now right].
  Qed.

  Lemma lax_next g : gen_inside s g ->
    next match_prefix_method cf1 (ast r) s g = UndefinedBehaviour \/
    match next match_prefix_method cf1 (ast r) s g, next match_prefix_method cf2 (ast r) s g with
    | Returned (a, g1), Returned (b, g2) =>
        Lift.agree (Returned a) (Returned b) /\ active g1 = active g2
        /\ (active g1 = true -> current g1 = current g2)
    | UndefinedBehaviour, UndefinedBehaviour
    | DoesNotCompile, DoesNotCompile
    | DoesNotReturn, DoesNotReturn => True
    | _, _ => False
    end.
  Proof.
    intros Hg. unfold next. destruct (active g) eqn:A.
    - pose proof (lax_block (current g) (initial_captures (ast r)) success (Hg A)
                    (rel_success s false true)) as H. unfold block in H.
      unfold match_prefix_method.
      destruct (node_match cf1 _ _ _ _ _ _ _) as [c1 e1 b1| | |],
               (node_match cf2 _ _ _ _ _ _ _) as [c2 e2 b2| | |];
        cbn in H |- *; destruct H as [H|H]; try easy; auto.
      right. destruct H as (-> & Ht & He). split; [|split].
      + repeat split; auto. intros Hb. now apply He.
      + destruct b2; [|reflexivity]. destruct He as [-> _]; reflexivity.
      + intros Ha. apply andb_true_iff in Ha as [-> _]. now apply He.
    - right. repeat split; auto.
  Qed.

  Lemma lax_generate : forall k g1 g2, active g1 = active g2 ->
    (active g1 = true -> current g1 = current g2) -> gen_inside s g1 ->
    undefined_or agree_lists (generate match_prefix_method cf1 (ast r) s k g1)
      (generate match_prefix_method cf2 (ast r) s k g2).
  Proof.
    induction k as [|k IH]; intros g1 g2 Ha Hcur Hin; [right; constructor|]. cbn [generate].
    destruct (active g1) eqn:A.
    - assert (g1 = g2) as <-.
      { destruct g1, g2; cbn in *. rewrite Hcur, <- Ha, A by auto. reflexivity. }
      destruct (lax_next g1 Hin) as [H|H]; [rewrite H; now left|].
      destruct (next match_prefix_method cf1 (ast r) s g1) as [[a h1]| | |] eqn:E1,
               (next match_prefix_method cf2 (ast r) s g1) as [[b h2]| | |] eqn:E2;
        cbn in H |- *; try easy; try (now left); try (now right).
      destruct H as (H1 & H2 & H3).
      destruct (IH h1 h2 H2 H3 (next_inside _ _ _ _ _ _ _ gm_prefix Hin E1)) as [->|I]; [now left|].
      destruct (generate match_prefix_method cf1 (ast r) s k h1),
               (generate match_prefix_method cf2 (ast r) s k h2); cbn in I |- *; try easy;
        try (now left); try (now right).
      right. constructor; auto.
    - rewrite !inactive_next by congruence.
      assert (IH' := IH g1 g2). rewrite A in IH'.
      destruct (IH' Ha Hcur Hin) as [->|I]; [now left|].
      destruct (generate match_prefix_method cf1 (ast r) s k g1),
               (generate match_prefix_method cf2 (ast r) s k g2); cbn in I |- *; try easy;
        try (now left); try (now right).
      right. constructor; cbn; auto.
  Qed.

  Lemma lax_searcher : forall k g, gen_inside s g ->
    undefined_or eq (generate search_method cf1 (ast r) s k g) (generate search_method cf2 (ast r) s k g).
  Proof.
    induction k as [|k IH]; intros g Hg; [now right|]. cbn [generate].
    assert (E : next search_method cf1 (ast r) s g = UndefinedBehaviour
                \/ next search_method cf1 (ast r) s g = next search_method cf2 (ast r) s g).
    { unfold next. destruct (active g) eqn:A; auto.
      destruct (lax_search_method (current g) (initial_captures (ast r)) (Hg A)) as [->| ->]; auto. }
    destruct E as [E|E]; [rewrite E; now left|]. rewrite <- E.
    destruct (next search_method cf1 (ast r) s g) as [[a h]| | |] eqn:E1; try (now right).
    assert (Hh : gen_inside s h) by (eapply next_inside; eauto; constructor).
    destruct (IH h Hh) as [->| ->]; [now left|now right].
  Qed.

  Lemma lax_generators k :
    undefined_or agree_lists (tokenizer r ForwardIt s k) (tokenizer r ct s k)
    /\ undefined_or eq (searcher r ForwardIt s k) (searcher r ct s k).
  Proof.
    unfold tokenizer, searcher, generator_results. rewrite Hc1, other_compiles. split.
    - apply lax_generate; auto. apply inside_new.
    - apply lax_searcher. apply inside_new.
  Qed.
End Undefined.

Theorem forward_or_undefined r ct s k : usable r BidirectionalIt -> needs_back (ast r) = false ->
  undefined_or Lift.agree (regex_match r ForwardIt s) (regex_match r ct s)
  /\ undefined_or Lift.agree (regex_match_prefix r ForwardIt s) (regex_match_prefix r ct s)
  /\ undefined_or eq (regex_search r ForwardIt s) (regex_search r ct s)
  /\ undefined_or agree_lists (tokenizer r ForwardIt s k) (tokenizer r ct s k)
  /\ undefined_or eq (searcher r ForwardIt s k) (searcher r ct s k).
Proof.
  intros [Hc _] Hn.
  assert (H : compilable (config_of (flags r) ForwardIt) (ast r) = true)
    by (rewrite forward_compilable, Hc, Hn; reflexivity).
  destruct (lax_calls r ct s H) as (A & B & C). destruct (lax_generators r ct s H k) as [D E].
  repeat split; assumption.
Qed.
