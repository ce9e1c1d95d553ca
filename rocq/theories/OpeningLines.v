(** Expressions that test for the beginning of a line first, under [multiline], on
    forward ranges (C56): nothing behind the first character is ever found. *)
From Verif Require Import Matcher Basics Api.
From Coq Require Import Lia.

(** ** Specification *)

(** Loops that try an iteration first. *)
Definition eager (fl : list regex_flag) (md : match_mode) : bool :=
  match md with
  | Possessive => true
  | Greedy => negb (flag_test fl F_ungreedy)
  | Lazy => flag_test fl F_ungreedy
  end.

(** Every attempt begins with a [^]. *)
Fixpoint opens (fl : list regex_flag) (n : node) : bool :=
  match n with
  | BeginLine => true
  | Seq (x :: _) | Alt (x :: _) => opens fl x
  | Cap _ _ x | Look Ahead x | Neg (Look Ahead x) => opens fl x
  | Rep md lo hi x =>
      opens fl x && (negb (N.eqb lo 0) || (match hi with Fin h => negb (N.eqb h 0) | Inf => true end && eager fl md))
  | _ => false
  end.

(** ** Proofs *)

Lemma opens_not_trivial fl : forall n, opens fl n = true -> trivial n = false.
Proof.
  fix IH 1. intros n H. destruct n; cbn [opens trivial] in *; try discriminate; try reflexivity.
  - destruct n; try discriminate. reflexivity.
  - destruct l as [|x r]; [discriminate|]. destruct r; [now apply IH|reflexivity].
  - destruct l as [|x r]; [discriminate|]. now rewrite (IH x H).
  - apply andb_prop in H as [H _]. destruct lo as [|[p|p|]]; auto. destruct hi as [[|[p|p|]]|]; auto.
Qed.

Section Opening.
  Variable fl : list regex_flag.
  Local Notation cf := (config_of fl ForwardIt).
  Hypothesis Hml : flag_test fl F_multiline = true.
  Variable names : list group_name.
  Variable base : list ascii.

  Definition refuses (mx : matcher) : Prop := forall cur c k, 0 < cur -> mx cur c k = Undef.

  Lemma refuses_fixed s md lo x mx : trivial x = false -> refuses mx -> (lo <> 0)%N ->
    refuses (fixed_match cf s md lo x mx).
  Proof.
    intros Ht Hx Hlo cur c k Hc. unfold fixed_match.
    destruct (N.eqb_spec lo 0); [contradiction|].
    assert (B : forall k', lo <> 1%N -> fixed_backtracking cf s x mx lo cur c k' = Undef).
    { intros k' H1. unfold fixed_backtracking. rewrite Ht.
      assert (E : exists n, N.to_nat lo = S (S n)) by (exists (N.to_nat lo - 2); lia).
      destruct E as [n' ->]. destruct (unroll cf).
      - cbn [unrolled_backtracking]. now apply Hx.
      - cbn [non_unrolled_backtracking Nat.eqb]. now apply Hx. }
    destruct (N.eqb_spec lo 1).
    - destruct md; try (now apply Hx). rewrite Ht, Hx by auto. reflexivity.
    - destruct md; try (now apply B). rewrite B by auto. reflexivity.
  Qed.

  Lemma refuses_between s md b w x mx : trivial x = false -> refuses mx ->
    bound_is_zero b = false -> eager fl md = true ->
    refuses (between_bounds cf s md b w x mx).
  Proof.
    intros Ht Hx Hb He cur c k Hc. unfold between_bounds. rewrite Ht.
    assert (F : exists f, loop_fuel b (length s) cur = S f) by (destruct b; cbn; eauto).
    destruct F as [f ->]. cbn [possessive_generic greedy_generic lazy_generic andb]. rewrite Hb.
    cbn [ungreedy config_of].
    destruct md; cbn [eager xorb] in *.
    - apply negb_true_iff in He. rewrite He. rewrite Hx by auto. reflexivity.
    - rewrite He. rewrite Hx by auto. reflexivity.
    - rewrite Hx by auto. reflexivity.
  Qed.

  Lemma opens_refuses : forall f rd n, size n <= f -> opens fl n = true -> refuses (m cf names base f rd n).
  Proof.
    induction f as [|f IH]; intros rd n Hs Ho cur c k Hc; [pose proof (size_pos n); lia|].
    destruct n; cbn [opens] in Ho; try discriminate Ho; cbn [m].
    - destruct (Nat.eqb_spec cur 0); [lia|]. cbn [multiline config_of]. now rewrite Hml.
    - destruct n; try discriminate. destruct d; [|discriminate]. cbn [is_assertion].
      rewrite (IH rd (Look Ahead n)); auto. cbn [size] in *. lia.
    - destruct l as [|x r]; [discriminate|]. rewrite size_Seq in Hs. unfold list_sum in Hs. cbn in Hs.
      cbn [seq_match]. destruct r; [apply IH; auto; lia|].
      cbn [forallb]. rewrite (opens_not_trivial _ _ Ho). cbn [andb]. apply IH; auto; lia.
    - destruct l as [|x r]; [discriminate|]. rewrite size_Alt in Hs. unfold list_sum in Hs. cbn in Hs.
      cbn [alt_match]. destruct r; [apply IH; auto; lia|].
      cbn [forallb]. rewrite (opens_not_trivial _ _ Ho). cbn [andb]. rewrite IH by (auto; lia). reflexivity.
    - cbn [size] in Hs. rewrite IH by (auto; lia). reflexivity.
    - cbn [size] in Hs. apply andb_prop in Ho as [Ho Hl]. unfold rep_match.
      pose proof (opens_not_trivial _ _ Ho) as Ht.
      assert (Hx : refuses (m cf names base f rd n)) by (intros ? ? ? ?; apply IH; auto; lia).
      destruct (N.eqb_spec lo 0) as [->|Hlo].
      + cbn [negb orb] in Hl. apply andb_prop in Hl as [Hh He]. change (is_zero 0) with true.
        assert (E : match hi with Fin h => N.eqb 0 h | Inf => false end = false).
        { destruct hi as [h|]; [|reflexivity]. destruct h; [discriminate Hh|reflexivity]. }
        rewrite E. apply refuses_between; auto. destruct hi as [h|]; [|reflexivity]. cbn.
        rewrite N.sub_0_r. now apply negb_true_iff.
      + unfold is_zero. destruct (N.eqb_spec lo 0); [contradiction|].
        destruct (match hi with Fin h => N.eqb lo h | Inf => false end); now apply refuses_fixed.
    - destruct d; [|discriminate]. cbn [size] in Hs. rewrite (opens_not_trivial _ _ Ho).
      rewrite IH by (auto; lia). reflexivity.
  Qed.
End Opening.

Section Calls.
  Variable r : regex.
  Local Notation cf := (config_of (flags r) ForwardIt).
  Hypothesis Hml : flag_test (flags r) F_multiline = true.
  Hypothesis Ho : opens (flags r) (ast r) = true.

  Lemma refused s cur c k : 0 < cur ->
    node_match cf (group_names (ast r)) s 0 (ast r) cur c k = Undef.
  Proof. intros H. unfold node_match. now apply opens_refuses. Qed.

  Variable s : list ascii.

  Lemma opening_search a : regex_search r ForwardIt s = Returned a -> s <> [] ->
    matched a = true /\ regex_match_prefix r ForwardIt s = Returned a.
  Proof.
    unfold regex_search, regex_match_prefix, invoke. destruct (compilable cf (ast r)); [|discriminate].
    unfold search_method, match_prefix_method. cbn [search_loop]. intros H Hs.
    destruct (node_match cf _ s 0 (ast r) 0 _ success) as [c e b| | |]; try discriminate H.
    destruct b; [injection H as <-; auto|]. destruct s as [|x t]; [easy|].
    cbn [length Nat.sub Nat.eqb search_loop] in H. rewrite refused in H by lia. discriminate H.
  Qed.

  Lemma opening_find_all k : find_all r ForwardIt s = Returned k -> s <> [] ->
    exists a, k = [a] /\ matched a = true /\ regex_match_prefix r ForwardIt s = Returned a
      /\ cell_is_empty (group0 (groups a)) = true.
  Proof.
    unfold find_all, range_of, regex_match_prefix, invoke. destruct (compilable cf (ast r)); [|discriminate].
    unfold match_prefix_method. intros H Hs. cbn [range_elements] in H. unfold next at 1 in H.
    cbn [new_generator active current] in H. unfold search_method at 1 in H. cbn [search_loop] in H.
    destruct (node_match cf _ s 0 (ast r) 0 _ success) as [c e b| | |]; try discriminate H.
    destruct b.
    - cbn [to_call matched andb] in H. exists (mk_res (set_group0 0 e c) true).
      destruct (cell_is_empty (group0 (set_group0 0 e c))) eqn:E.
      + cbn in H. injection H as <-. auto.
      + exfalso. unfold next in H. cbn [negb active current] in H. unfold search_method in H. cbn [search_loop] in H.
        destruct e as [|e].
        * destruct c; cbn in E; discriminate E.
        * rewrite refused in H by lia. discriminate H.
    - exfalso. destruct s as [|x t]; [easy|].
      cbn [length Nat.sub Nat.eqb search_loop] in H. rewrite refused in H by lia. discriminate H.
  Qed.

  Lemma opening_tokenize k : tokenize r ForwardIt s = Returned k ->
    k = [] \/ exists a, k = [a] /\ regex_match_prefix r ForwardIt s = Returned a
      /\ cell_is_empty (group0 (groups a)) = true.
  Proof.
    unfold tokenize, range_of, regex_match_prefix, invoke. destruct (compilable cf (ast r)); [|discriminate].
    intros H. cbn [range_elements] in H. unfold next at 1 in H.
    cbn [new_generator active current] in H. unfold match_prefix_method at 1 in H. unfold match_prefix_method at 1.
    destruct (node_match cf _ s 0 (ast r) 0 _ success) as [c e b| | |]; try discriminate H.
    destruct b; [|left; now injection H as <-]. right.
    cbn [to_call matched andb] in H. exists (mk_res (set_group0 0 e c) true).
    destruct (cell_is_empty (group0 (set_group0 0 e c))) eqn:E.
    - cbn in H. injection H as <-. auto.
    - exfalso. unfold next in H. cbn [negb active current] in H. unfold match_prefix_method in H.
      destruct e as [|e]; [destruct c; cbn in E; discriminate E|].
      rewrite refused in H by lia. discriminate H.
  Qed.
End Calls.

Theorem opening_calls r s : flag_test (flags r) F_multiline = true -> opens (flags r) (ast r) = true ->
  s <> [] ->
  (forall a, regex_search r ForwardIt s = Returned a ->
     matched a = true /\ regex_match_prefix r ForwardIt s = Returned a)
  /\ (forall k, find_all r ForwardIt s = Returned k -> exists a, k = [a]
     /\ matched a = true /\ regex_match_prefix r ForwardIt s = Returned a
     /\ cell_is_empty (group0 (groups a)) = true)
  /\ (forall k, tokenize r ForwardIt s = Returned k -> k = [] \/ exists a, k = [a]
     /\ regex_match_prefix r ForwardIt s = Returned a /\ cell_is_empty (group0 (groups a)) = true).
Proof.
  intros Hm Ho Hs. split; [|split].
  - intros a E. now apply opening_search.
  - intros k E. now apply opening_find_all.
  - intros k E. now apply (opening_tokenize r Hm Ho s).
Qed.
