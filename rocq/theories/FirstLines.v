(** [^] where nothing has been taken yet, under [multiline], on forward ranges (C56):
    there it means the same as [\A], and the calls are defined. *)
From Verif Require Import Matcher Basics Safe Cong Impl Spec Calls Lift Matching Api LineStarts OpeningLines.
From Coq Require Import Lia.

(** ** Specification *)

(** Every [^] is replaced by [\A]. *)
Fixpoint to_input (n : node) : node :=
  match n with
  | BeginLine => BeginInput
  | CSet l => CSet (map to_input l)
  | Seq l => Seq (map to_input l)
  | Alt l => Alt (map to_input l)
  | Neg x => Neg (to_input x)
  | Cap i nm x => Cap i nm (to_input x)
  | Rep md lo hi x => Rep md lo hi (to_input x)
  | Look d x => Look d (to_input x)
  | _ => n
  end.

(** Takes nothing, whatever it meets: an anchor, a lookaround, the negation or a group of one. *)
Fixpoint still (n : node) : bool :=
  match n with
  | BeginLine | BeginInput | EndLine | EndInput | WordB | Look _ _ => true
  | Neg x => is_assertion x
  | Cap _ _ x => still x
  | _ => false
  end.

(** [^] stands only where nothing has been taken yet. *)
Fixpoint initial_lines (n : node) : bool :=
  match n with
  | BeginLine => true
  | Seq l =>
      (fix go l :=
         match l with
         | [] => true
         | x :: l => initial_lines x && (if still x then go l else negb (existsb has_begin_line l))
         end) l
  | Alt l => forallb initial_lines l
  | Cap _ _ x | Look Ahead x | Neg x => initial_lines x
  | Rep _ lo hi x =>
      negb (has_begin_line x)
      || initial_lines x && match hi with Fin h => N.leb h 1 && N.leb lo h | Inf => false end
  | CSet l => negb (existsb has_begin_line l)
  | Look Behind x => negb (has_begin_line x)
  | _ => true
  end.

(** ** Proofs *)

Lemma to_input_same n : has_begin_line n = false -> to_input n = n.
Proof.
  assert (L : forall l, Forall (fun n => has_begin_line n = false -> to_input n = n) l ->
    existsb has_begin_line l = false -> map to_input l = l).
  { induction 1 as [|x l Hx Hl IH]; cbn; intros E; [reflexivity|].
    apply orb_false_iff in E as [E1 E2]. now rewrite Hx, IH. }
  induction n using node_ind'; cbn [has_begin_line to_input]; intros E; try reflexivity; try discriminate;
    try (now rewrite IHn); now rewrite L.
Qed.

Lemma size_to_input n : size (to_input n) = size n.
Proof.
  induction n using node_ind'; cbn [to_input]; try reflexivity; try (cbn [size]; now rewrite IHn).
  - rewrite !size_CSet, map_map. now rewrite (map_ext_Forall _ size).
  - rewrite !size_Seq, map_map. now rewrite (map_ext_Forall _ size).
  - rewrite !size_Alt, map_map. now rewrite (map_ext_Forall _ size).
Qed.

Lemma trivial_to_input n : trivial (to_input n) = trivial n.
Proof.
  induction n using node_ind'; cbn [to_input]; try reflexivity.
  - cbn [trivial]. assumption.
  - rewrite !trivial_Seq. destruct l as [|a [|b r]]; cbn; try reflexivity. now inversion H.
  - rewrite !trivial_Alt. destruct l as [|a r]; [reflexivity|].
    change (map to_input (a :: r)) with (to_input a :: map to_input r).
    cbn [forallb]. inversion H; subst. rewrite H2, forallb_map. f_equal. now apply forallb_ext_Forall.
  - rewrite !trivial_Rep. now rewrite IHn.
Qed.

Lemma zlm_to_input n : zlm (to_input n) = zlm n.
Proof.
  induction n using node_ind'; cbn [to_input zlm]; try reflexivity; auto.
  - now rewrite trivial_to_input.
  - rewrite forallb_map. now apply forallb_ext_Forall.
  - rewrite existsb_map. now apply existsb_ext_Forall.
  - now rewrite IHn.
Qed.

Lemma is_assertion_to_input n : is_assertion (to_input n) = is_assertion n.
Proof.
  induction n using node_ind'; cbn [to_input]; try reflexivity; auto.
  - destruct l as [|a [|b r]]; cbn; try reflexivity. now inversion H.
  - destruct l as [|a [|b r]]; cbn; try reflexivity. now inversion H.
  - now rewrite !is_assertion_Rep, IHn.
Qed.

Lemma match_one_to_input cf n a : match_one cf (to_input n) a = match_one cf n a.
Proof.
  induction n using node_ind'; cbn [to_input match_one]; try reflexivity; auto.
  - rewrite existsb_map. now apply existsb_ext_Forall.
  - now rewrite IHn.
  - destruct l as [|x [|y r]]; cbn; try reflexivity. now inversion H.
  - rewrite existsb_map. now apply existsb_ext_Forall.
Qed.

Lemma names_to_input n : capture_name_spec (to_input n) = capture_name_spec n.
Proof.
  induction n using node_ind'; cbn; try reflexivity; auto; try (now f_equal); induction H; cbn; congruence.
Qed.

Lemma still_to_input n : still (to_input n) = still n.
Proof. induction n using node_ind'; cbn [to_input still]; try reflexivity; try assumption. apply is_assertion_to_input. Qed.

Lemma still_not_trivial n : still n = true -> trivial n = false.
Proof. induction n using node_ind'; cbn [still]; intros Z; try discriminate Z; try reflexivity. now apply is_assertion_not_trivial. Qed.

Lemma initial_Seq x l : initial_lines (Seq (x :: l))
  = initial_lines x && (if still x then initial_lines (Seq l) else negb (existsb has_begin_line l)).
Proof. reflexivity. Qed.

(** Nodes that take a single character have no [^]. *)
Lemma single_no_line n : trivial n = true -> initial_lines n = true -> has_begin_line n = false.
Proof.
  induction n using node_ind'; cbn [initial_lines has_begin_line]; intros T F; try reflexivity; try discriminate T;
    try (now apply negb_true_iff).
  - now apply IHn.
  - rewrite trivial_Seq in T. destruct l as [|a [|b r]]; try discriminate T. inversion H; subst.
    apply andb_prop in F as [F _]. cbn. now rewrite H2.
  - rewrite trivial_Alt in T.
    assert (T' : forallb trivial l = true) by (destruct l; [discriminate T|exact T]). clear T. rename T' into T.
    induction H as [|x l Hx Hl IH]; [reflexivity|]. cbn [forallb existsb] in *.
    apply andb_prop in T as [T1 T2], F as [F1 F2]. rewrite Hx, IH; auto.
  - rewrite trivial_Rep in T. apply orb_prop in F as [F|F]; [now apply negb_true_iff|].
    apply andb_prop in F as [F _]. apply IHn; auto.
    destruct (trivial n); [reflexivity|]. rewrite ?andb_false_r in T. exact T.
Qed.

Section First.
  Variable cf : config.
  Variable names : list group_name.
  Variable base : list ascii.

  Definition alike (m1 m2 : matcher) : Prop := forall c k, m1 0 c k = m2 0 c k.

  Lemma alike_rep s md lo h x m1 m2 : alike m1 m2 -> trivial x = false -> (h <= 1)%N -> (lo <= h)%N ->
    alike (rep_match cf s md lo (Fin h) x m1) (rep_match cf s md lo (Fin h) (to_input x) m2).
  Proof.
    intros A T H1 H2 c k. unfold rep_match, fixed_match, between_bounds. rewrite trivial_to_input, T.
    assert (D : (lo = 0 /\ h = 0 \/ lo = 0 /\ h = 1 \/ lo = 1 /\ h = 1)%N) by lia.
    destruct D as [[-> ->]|[[-> ->]|[-> ->]]]; cbn [N.eqb Pos.eqb is_zero bound_subtract N.sub loop_fuel N.to_nat].
    - reflexivity.
    - cbn [is_infinity andb]. change (Pos.to_nat 1) with 1.
      cbn [possessive_generic greedy_generic lazy_generic bound_is_zero N.eqb bound_decrement N.sub Pos.sub_mask].
      cbn. destruct md; destruct (ungreedy cf); cbn; try (rewrite A; reflexivity);
        destruct (k 0 c) as [c' e [|]| | |]; cbn; auto.
    - destruct md; rewrite A; reflexivity.
  Qed.

  (** What takes nothing goes on where it began. *)
  Lemma still_stays : forall f rd n, still n = true -> forall c k1 k2,
    (forall c, k1 0 c = k2 0 c) -> m cf names base f rd n 0 c k1 = m cf names base f rd n 0 c k2.
  Proof.
    induction f as [|f IH]; intros rd n Hn c k1 k2 Hk; [reflexivity|].
    destruct n; try discriminate Hn; cbn [m].
    1-5: unfold deref, assert_that; cbn [Nat.eqb]; repeat (rewrite Hk); try reflexivity;
      try (destruct (nth_error _ _)); repeat (rewrite Hk); reflexivity.
    - cbn [still] in Hn. rewrite Hn. destruct (m _ _ _ _ _ _ _ _ _) as [? ? []| | |]; cbn; now rewrite ?Hk.
    - cbn [still] in Hn. f_equal. apply IH; [exact Hn|]. intros c'.
      destruct (store _ _ _ _ _ _ _); [apply Hk|reflexivity].
    - destruct d; unfold deref, assert_that.
      + destruct (trivial n); [destruct (nth_error _ _); now rewrite ?Hk|].
        destruct (m _ _ _ _ _ _ _ _ _) as [? ? []| | |]; cbn; now rewrite ?Hk.
      + destruct (negb _); [reflexivity|]. destruct (trivial n); [reflexivity|].
        destruct (m _ _ _ _ _ _ _ _ _) as [? ? []| | |]; cbn; now rewrite ?Hk.
  Qed.

  Lemma first_alike : forall f rd n, size n <= f -> initial_lines n = true ->
    alike (m cf names base f rd n) (m cf names base f rd (to_input n)).
  Proof.
    induction f as [|f IH]; intros rd n Hs Hf; [pose proof (size_pos n); lia|].
    destruct (has_begin_line n) eqn:B; [|rewrite to_input_same by exact B; intros c k; reflexivity].
    intros c k. destruct n; cbn [initial_lines has_begin_line] in *; try discriminate B; cbn [m to_input].
    - reflexivity.
    - rewrite B in Hf. discriminate Hf.
    - rewrite is_assertion_to_input. cbn [size] in Hs. destruct (is_assertion n).
      + rewrite (IH rd n) by (auto; lia). reflexivity.
      + unfold match_trivial. destruct (Nat.eqb 0 _); [reflexivity|]. unfold deref.
        destruct (nth_error _ _) as [a|]; [|reflexivity]. cbn [match_one]. now rewrite match_one_to_input.
    - change (initial_lines (Seq l) = true) in Hf. rewrite size_Seq in Hs. clear B.
      revert Hs Hf c k. induction l as [|x l IHl]; intros Hs Hf c k; [reflexivity|].
      rewrite initial_Seq in Hf. apply andb_prop in Hf as [F1 F2].
      unfold list_sum in Hs. cbn in Hs.
      assert (X : alike (m cf names base f rd x) (m cf names base f rd (to_input x))) by (apply IH; auto; lia).
      cbn [map seq_match]. destruct l as [|y l']; [apply X|]. cbn [map].
      destruct (still x) eqn:Z.
      + cbn [forallb]. rewrite trivial_to_input, (still_not_trivial x Z). cbn [andb].
        rewrite X. apply still_stays; [now rewrite still_to_input|].
        intros c'. apply IHl; [unfold list_sum; cbn in *; lia|exact F2].
      + apply negb_true_iff in F2.
        pose proof (to_input_same (Seq (y :: l')) F2) as E. cbn [to_input map] in E. injection E as E1 E2.
        rewrite E1, E2. destruct (trivial x) eqn:T.
        * rewrite (to_input_same x) by (now apply single_no_line). reflexivity.
        * cbn [forallb]. rewrite trivial_to_input, T. cbn [andb]. apply X.
    - rewrite size_Alt in Hs.
      assert (A : forall l, S (list_sum (map size l)) <= S f -> forallb initial_lines l = true ->
        alike (alt_match cf (view base rd) (m cf names base f rd) l)
              (alt_match cf (view base rd) (m cf names base f rd) (map to_input l))).
      { clear - IH. induction l as [|x l IHl]; intros Hs Hf; [intros c k; reflexivity|].
        cbn [forallb] in Hf. apply andb_prop in Hf as [F1 F2].
        unfold list_sum in Hs. cbn in Hs. intros c k. cbn [map].
        assert (X : alike (m cf names base f rd x) (m cf names base f rd (to_input x))) by (apply IH; auto; lia).
        destruct l as [|y l']; [apply X|].
        rewrite !alt_match_cons by discriminate.
        assert (T : forallb trivial (to_input x :: map to_input (y :: l')) = forallb trivial (x :: y :: l')).
        { change (to_input x :: map to_input (y :: l')) with (map to_input (x :: y :: l')).
          rewrite forallb_map. apply forallb_ext_Forall, Forall_forall. intros z _. apply trivial_to_input. }
        rewrite T. destruct (forallb trivial (x :: y :: l')).
        - change (to_input x :: map to_input (y :: l')) with (map to_input (x :: y :: l')).
          unfold match_trivial. destruct (Nat.eqb 0 _); [reflexivity|]. unfold deref.
          destruct (nth_error _ _) as [a|]; [|reflexivity]. rewrite existsb_map.
          rewrite (existsb_ext_Forall _ (fun z => match_one cf (to_input z) a)); [reflexivity|].
          apply Forall_forall. intros z _. now rewrite match_one_to_input.
        - rewrite X. apply same_or_else; [reflexivity|]. intros c'. apply IHl; auto.
          unfold list_sum. cbn in *. lia. }
      apply A; auto.
    - cbn [size] in Hs. rewrite (IH rd n) by (auto; lia). reflexivity.
    - cbn [size] in Hs. rewrite B in Hf. cbn [negb orb] in Hf. apply andb_prop in Hf as [F1 F2].
      destruct hi as [h|]; [|discriminate F2]. apply andb_prop in F2 as [F2 F3].
      apply N.leb_le in F2, F3. apply alike_rep; auto; [apply IH; auto; lia|].
      destruct (trivial n) eqn:T; [|reflexivity]. rewrite (single_no_line n T F1) in B. discriminate B.
    - cbn [size] in Hs. destruct d; [|rewrite B in Hf; discriminate Hf].
      destruct (trivial n) eqn:T; [rewrite (single_no_line n T Hf) in B; discriminate B|].
      rewrite trivial_to_input, T. rewrite (IH rd n) by (auto; lia). reflexivity.
  Qed.
End First.

Lemma invert_to_input n : invert (to_input n) = to_input (invert n).
Proof.
  induction n using node_ind'; cbn [to_input]; try reflexivity; try (cbn [invert to_input]; now rewrite ?IHn).
  - cbn [invert to_input]. f_equal. rewrite !map_map. now apply map_ext_Forall.
  - rewrite !invert_Seq. cbn [to_input]. f_equal. rewrite map_rev. f_equal.
    rewrite !map_map. now apply map_ext_Forall.
  - cbn [invert to_input]. f_equal. rewrite !map_map. now apply map_ext_Forall.
Qed.

Lemma compiles_to_input cf names : forall f rd n, compiles cf names f rd (to_input n) = compiles cf names f rd n.
Proof.
  induction f as [|f IH]; intros rd n; [reflexivity|].
  assert (A : forall l, forallb (compiles cf names f rd) (map to_input l) = forallb (compiles cf names f rd) l).
  { intros l. rewrite forallb_map. apply forallb_ext_Forall, Forall_forall. intros; apply IH. }
  destruct n; cbn [to_input compiles]; try reflexivity.
  - rewrite forallb_map. apply forallb_ext_Forall, Forall_forall. intros. now rewrite trivial_to_input, IH.
  - now rewrite trivial_to_input, is_assertion_to_input, IH.
  - destruct l; [reflexivity|]. apply (A (n :: l)).
  - destruct l; [reflexivity|]. apply (A (n :: l)).
  - now rewrite IH.
  - rewrite trivial_to_input. destruct hi; now rewrite IH.
  - rewrite trivial_to_input, invert_to_input, !IH. reflexivity.
Qed.

Section Calls.
  Variables (n : node) (fl : list regex_flag).
  Local Notation cf := (config_of fl ForwardIt).
  Local Notation r := (mk_regex n fl).
  Local Notation q := (mk_regex (to_input n) fl).
  Hypothesis Hf : initial_lines n = true.
  Hypothesis Hq : usable q ForwardIt.

  Lemma to_input_names : group_names (to_input n) = group_names n.
  Proof. unfold group_names. now rewrite names_to_input. Qed.

  Lemma to_input_initial : initial_captures (to_input n) = initial_captures n.
  Proof. unfold initial_captures. now rewrite to_input_names. Qed.

  Lemma first_run s c k : node_match cf (group_names n) s 0 n 0 c k
    = node_match cf (group_names (to_input n)) s 0 (to_input n) 0 c k.
  Proof. unfold node_match. rewrite to_input_names, size_to_input. now apply first_alike. Qed.

  Lemma first_compiles : compilable cf n = true.
  Proof.
    destruct Hq as [H _]. cbn [ast flags] in H. unfold compilable in *.
    now rewrite size_to_input, compiles_to_input, to_input_names in H.
  Qed.

  Lemma first_match s : regex_match r ForwardIt s = regex_match q ForwardIt s.
  Proof.
    unfold regex_match, invoke. cbn [ast flags]. rewrite first_compiles, (proj1 Hq : compilable cf (to_input n) = true).
    unfold match_method. now rewrite first_run, to_input_initial.
  Qed.

  Lemma first_prefix s : regex_match_prefix r ForwardIt s = regex_match_prefix q ForwardIt s.
  Proof.
    unfold regex_match_prefix, invoke. cbn [ast flags].
    rewrite first_compiles, (proj1 Hq : compilable cf (to_input n) = true).
    unfold match_prefix_method. now rewrite first_run, to_input_initial.
  Qed.

  Variable s : list ascii.

  (** What the run at the beginning gives. *)
  Lemma first_result : exists c e b,
    node_match cf (group_names n) s 0 n 0 (initial_captures n) success = Res c e b
    /\ group0 (set_group0 0 e c) = Some (0, e)
    /\ regex_match_prefix r ForwardIt s = Returned (mk_res (set_group0 0 e c) b).
  Proof.
    pose proof (match_prefix_method_ok cf (to_input n) s Hq 0 (initial_captures (to_input n)) ltac:(lia)
      (good_initial _ _)) as H. unfold match_prefix_method in H.
    unfold regex_match_prefix, invoke. cbn [ast flags]. rewrite first_compiles.
    unfold match_prefix_method. rewrite first_run. rewrite to_input_initial in H.
    destruct (node_match cf (group_names (to_input n)) s 0 (to_input n) 0 (initial_captures n) success)
      as [c e b| | |]; cbn in H; try contradiction.
    exists c, e, b. repeat split; apply H.
  Qed.

  Lemma first_agree ct :
    Lift.agree (regex_match r ForwardIt s) (regex_match r ct s)
    /\ Lift.agree (regex_match_prefix r ForwardIt s) (regex_match_prefix r ct s).
  Proof.
    destruct (lax_calls r ct s first_compiles) as (A & B & _).
    destruct first_result as (c & e & b & _ & _ & P).
    pose proof (match_method_ok cf (to_input n) s Hq 0 (initial_captures (to_input n)) ltac:(lia)
      (good_initial _ _)) as H.
    split.
    - destruct A as [A|A]; [|exact A]. rewrite first_match in A. unfold regex_match, invoke in A.
      cbn [ast flags] in A. rewrite (proj1 Hq : compilable cf (to_input n) = true) in A.
      destruct (match_method _ _ _ _ _); try discriminate A; contradiction.
    - destruct B as [B|B]; [|exact B]. rewrite P in B. discriminate B.
  Qed.

  Hypothesis Hml : flag_test fl F_multiline = true.
  Hypothesis Ho : opens fl n = true.

  Lemma later s' cur c k : 0 < cur -> node_match cf (group_names n) s' 0 n cur c k = Undef.
  Proof. exact (refused r Hml Ho s' cur c k). Qed.

  Lemma first_searches : exists a e, regex_match_prefix r ForwardIt s = Returned a
    /\ group0 (groups a) = Some (0, e)
    /\ (matched a = true -> regex_search r ForwardIt s = Returned a)
    /\ (matched a = false -> s <> [] ->
         regex_search r ForwardIt s = UndefinedBehaviour /\ find_all r ForwardIt s = UndefinedBehaviour)
    /\ (matched a = true -> e <> 0 ->
         find_all r ForwardIt s = UndefinedBehaviour /\ tokenize r ForwardIt s = UndefinedBehaviour)
    /\ (matched a = true -> e = 0 ->
         find_all r ForwardIt s = Returned [a] /\ tokenize r ForwardIt s = Returned [a])
    /\ (matched a = false -> tokenize r ForwardIt s = Returned []).
  Proof.
    destruct first_result as (c & e & b & E & G & P). exists (mk_res (set_group0 0 e c) b), e.
    split; [exact P|]. split; [exact G|]. cbn [matched].
    unfold regex_search, invoke, find_all, tokenize, range_of. cbn [ast flags]. rewrite first_compiles.
    assert (NS : next search_method cf n s new_generator
      = to_call (if b then Res (set_group0 0 e c) e true
                 else if Nat.eqb 0 (length s) then non_match 0 c else search_loop (length s) cf n s 1 c)
          (fun c e b => (mk_res c b, mk_gen e (b && negb (cell_is_empty (group0 c)))))).
    { unfold next. cbn [new_generator active current]. unfold search_method.
      rewrite Nat.sub_0_r. cbn [search_loop]. rewrite E. destruct b; reflexivity. }
    assert (NP : next match_prefix_method cf n s new_generator
      = to_call (Res (set_group0 0 e c) e b)
          (fun c e b => (mk_res c b, mk_gen e (b && negb (cell_is_empty (group0 c)))))).
    { unfold next. cbn [new_generator active current]. unfold match_prefix_method. now rewrite E. }
    assert (L : s <> [] -> b = false -> search_loop (length s) cf n s 1 c = Undef /\ Nat.eqb 0 (length s) = false).
    { intros Hs _. destruct s as [|x t]; [easy|]. cbn [length search_loop Nat.eqb]. now rewrite later by lia. }
    assert (N2 : forall mt, mt = search_method \/ mt = match_prefix_method -> e <> 0 ->
      next mt cf n s (mk_gen e true) = UndefinedBehaviour).
    { intros mt [-> | ->] He; unfold next; cbn [active current].
      - unfold search_method. cbn [search_loop]. now rewrite later by lia.
      - unfold match_prefix_method. now rewrite later by lia. }
    unfold search_method at 1 2. rewrite Nat.sub_0_r. cbn [search_loop]. rewrite E.
    cbn [range_elements]. rewrite NS, NP.
    split; [|split; [|split; [|split]]].
    - intros ->. reflexivity.
    - intros Hb Hs. destruct (L Hs Hb) as [L1 L2]. rewrite Hb, L1, L2. split; reflexivity.
    - intros -> He. cbn [to_call matched andb]. rewrite G. cbn [cell_is_empty].
      destruct (Nat.eqb_spec 0 e); [lia|]. cbn [negb].
      split; (rewrite N2 by auto); reflexivity.
    - intros -> ->. cbn [to_call matched andb]. rewrite G. split; reflexivity.
    - intros ->. reflexivity.
  Qed.
End Calls.

Theorem first_calls n fl s ct :
  let r := mk_regex n fl in let q := mk_regex (to_input n) fl in
  initial_lines n = true -> usable q ForwardIt ->
  regex_match r ForwardIt s = regex_match q ForwardIt s
  /\ regex_match_prefix r ForwardIt s = regex_match_prefix q ForwardIt s
  /\ Lift.agree (regex_match r ForwardIt s) (regex_match r ct s)
  /\ Lift.agree (regex_match_prefix r ForwardIt s) (regex_match_prefix r ct s)
  /\ (flag_test fl F_multiline = true -> opens fl n = true ->
      exists a e, regex_match_prefix r ForwardIt s = Returned a
      /\ group0 (groups a) = Some (0, e)
      /\ (matched a = true -> regex_search r ForwardIt s = Returned a)
      /\ (matched a = false -> s <> [] ->
           regex_search r ForwardIt s = UndefinedBehaviour /\ find_all r ForwardIt s = UndefinedBehaviour)
      /\ (matched a = true -> e <> 0 ->
           find_all r ForwardIt s = UndefinedBehaviour /\ tokenize r ForwardIt s = UndefinedBehaviour)
      /\ (matched a = true -> e = 0 ->
           find_all r ForwardIt s = Returned [a] /\ tokenize r ForwardIt s = Returned [a])
      /\ (matched a = false -> tokenize r ForwardIt s = Returned [])).
Proof.
  intros r q Hf Hq. split; [now apply first_match|]. split; [now apply first_prefix|].
  destruct (first_agree n fl Hf Hq s ct) as [A B]. split; [exact A|]. split; [exact B|].
  intros Hm Ho. now apply first_searches.
Qed.
