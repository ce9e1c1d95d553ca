(** Bounds for the methods, and texts on which they are reached. *)
From Coq Require Import String.
From Verif Require Import Costs Costing Depth Effort Exponential Basics Examples.
Local Open Scope nat_scope.
Local Open Scope list_scope.

(** The three methods with counters. *)
Definition is_method (mt : cmethod) : Prop :=
  mt = c_match_method \/ mt = c_match_prefix_method \/ mt = c_search_method.

Lemma method_depth cf n : exists A a,
  (is_bidirectional cf = true -> flat n = true -> a = 0) /\
  forall mt s cur c, is_method mt -> cur <= List.length s ->
    depth (mt cf n s cur c) <= A + a * List.length s.
Proof.
  destruct (costs_node cf n) as (A & a & F & D).
  exists A, (2 * a). split; [intros B H; rewrite F; auto|].
  intros mt s cur c M H.
  assert (R : forall k cur c, cur <= List.length s -> (forall j c, depth (k j c) = 0) ->
    depth (c_node_match cf (group_names n) s 0 n cur c k) <= A + 2 * a * List.length s).
  { clear cur c H. intros k cur c H Hk.
    destruct (D (group_names n) s 0 (size n) (a * List.length s) (fun _ => True) cur c k H (le_n _)) as [H1 _].
    - intros j c' _ _ _. split; [rewrite Hk; lia|auto].
    - unfold c_node_match.
      assert (a * (List.length s - S cur) <= a * List.length s) by (apply Nat.mul_le_mono_l; lia).
      lia. }
  destruct M as [->|[->| ->]].
  - unfold c_match_method. cbv zeta.
    specialize (R (c_equals (List.length s)) cur c H (fun _ _ => eq_refl)).
    destruct (out _); cbn [with_out depth]; exact R.
  - unfold c_match_prefix_method. cbv zeta.
    specialize (R c_success cur c H (fun _ _ => eq_refl)).
    destruct (out _); cbn [with_out depth]; exact R.
  - unfold c_search_method. generalize (S (List.length s - cur)) as f. intros f. revert cur c H.
    induction f as [|f IH]; intros cur c H; cbn [c_search_loop]; [cbn; lia|].
    specialize (R c_success cur c H (fun _ _ => eq_refl)).
    destruct (out _) as [c' e []| | |]; cbn [with_out depth round after]; try exact R.
    apply Nat.max_lub; [exact R|].
    destruct (Nat.eqb_spec cur (List.length s)); [cbn; lia|]. apply IH. lia.
Qed.

Lemma method_steps cf n : tame n = true -> exists C,
  forall s cur c, cur <= List.length s ->
    steps (c_match_method cf n s cur c) <= C * S (List.length s) ^ degree n
    /\ steps (c_match_prefix_method cf n s cur c) <= C * S (List.length s) ^ degree n
    /\ steps (c_search_method cf n s cur c) <= C * S (List.length s) ^ S (degree n).
Proof.
  intros Ht. destruct (effort_node cf n Ht) as (C & H).
  exists (C + 1). intros s cur c Hc.
  destruct (H (group_names n) s 0 (size n)) as (T & F & A & _ & _ & _ & K).
  assert (R : forall k cur c, (forall j c, steps (k j c) = 0) ->
    steps (c_node_match cf (group_names n) s 0 n cur c k) <= C * S (List.length s) ^ degree n).
  { intros k cur' c' Hk. unfold c_node_match.
    specialize (K 0 cur' c' k). rewrite Nat.mul_0_r, Nat.add_0_r in K.
    eapply Nat.le_trans; [apply K|exact A]. intros j c0. rewrite Hk. lia. }
  assert (Hm : C * S (List.length s) ^ degree n <= (C + 1) * S (List.length s) ^ degree n)
    by (apply Nat.mul_le_mono_r; lia).
  split; [|split].
  - unfold c_match_method. cbv zeta.
    specialize (R (c_equals (List.length s)) cur c (fun _ _ => eq_refl)).
    destruct (out _); cbn [with_out steps]; lia.
  - unfold c_match_prefix_method. cbv zeta.
    specialize (R c_success cur c (fun _ _ => eq_refl)).
    destruct (out _); cbn [with_out steps]; lia.
  - unfold c_search_method.
    set (B := C * S (List.length s) ^ degree n) in *.
    assert (G : forall f cur c, steps (c_search_loop f cf n s cur c) <= f * S B).
    { induction f as [|f IH]; intros cur' c'; cbn [c_search_loop]; [cbn; lia|].
      specialize (R c_success cur' c' (fun _ _ => eq_refl)).
      destruct (out _) as [c0 e []| | |]; cbn [with_out steps round after]; try nia.
      assert (steps (if Nat.eqb cur' (List.length s) then c_non_match cur' c0
        else c_search_loop f cf n s (S cur') c0) <= f * S B); [|lia].
      destruct (Nat.eqb _ _); [cbn; lia|apply IH]. }
    eapply Nat.le_trans; [apply G|].
    apply Nat.le_trans with (S (List.length s) * S B); [apply Nat.mul_le_mono_r; lia|].
    rewrite Nat.pow_succ_r'. pose proof (Effort.pow_pos (S (List.length s)) (degree n)) as P.
    unfold B. nia.
Qed.

(** The same without any condition on the expression. *)
Lemma method_exponential cf n : exists B, 2 <= B /\ forall mt s cur c, is_method mt -> cur <= List.length s ->
  steps (mt cf n s cur c) <= B ^ S (List.length s).
Proof.
  destruct (explodes_node cf n) as (X & F & B & P1 & P2 & P3 & H).
  exists (2 * (B * X + 1)). split; [nia|]. intros mt s cur c M Hc.
  destruct (H (group_names n) s 0 (size n)) as (T & A & K). specialize (K 1 (le_n _)).
  rewrite Nat.mul_1_r in K. set (L := List.length s) in *.
  set (R0 := B ^ S L * X ^ L).
  assert (R : forall k cur c, cur <= L -> (forall j c, steps (k j c) = 0) ->
    steps (c_node_match cf (group_names n) s 0 n cur c k) <= R0).
  { intros k cur' c' H' Hk. unfold c_node_match.
    assert (K' := K 0 cur' c' k H'). rewrite Nat.mul_0_r, Nat.add_0_r in K'.
    eapply Nat.le_trans; [apply K'|].
    - intros j c0 _ _ _. rewrite Hk. lia.
    - unfold R0. apply Nat.mul_le_mono; [exact A|]. apply Nat.pow_le_mono_r; lia. }
  assert (B0 : S R0 <= (B * X + 1) ^ S L).
  { apply Nat.le_trans with ((B * X) ^ S L + 1 ^ S L).
    - rewrite Nat.pow_1_l. unfold R0. rewrite Nat.pow_mul_l, (Nat.pow_succ_r' X).
      assert (B ^ S L * X ^ L <= B ^ S L * (X * X ^ L)) by (apply Nat.mul_le_mono_l; nia). lia.
    - exact (big_add (B * X) 1 L _ _ (le_n _) (le_n _)). }
  assert (B1 : S L * S R0 <= (2 * (B * X + 1)) ^ S L).
  { rewrite (Nat.pow_mul_l 2). apply Nat.mul_le_mono; [|exact B0].
    pose proof (pow_above 2 (S L) (le_n _)). lia. }
  assert (B2 : R0 <= (2 * (B * X + 1)) ^ S L) by nia.
  destruct M as [->|[->| ->]].
  - unfold c_match_method. cbv zeta.
    specialize (R (c_equals L) cur c Hc (fun _ _ => eq_refl)). fold L.
    destruct (out _); cbn [with_out steps]; lia.
  - unfold c_match_prefix_method. cbv zeta.
    specialize (R c_success cur c Hc (fun _ _ => eq_refl)).
    destruct (out _); cbn [with_out steps]; lia.
  - unfold c_search_method.
    assert (G : forall f cur c, cur <= L -> steps (c_search_loop f cf n s cur c) <= f * S R0).
    { induction f as [|f IH]; intros cur' c' H'; cbn [c_search_loop]; [cbn; lia|].
      specialize (R c_success cur' c' H' (fun _ _ => eq_refl)).
      destruct (out _) as [c0 e []| | |]; cbn [with_out steps round after]; try nia.
      assert (steps (if Nat.eqb cur' (List.length s) then c_non_match cur' c0
        else c_search_loop f cf n s (S cur') c0) <= f * S R0); [|lia].
      destruct (Nat.eqb_spec cur' (List.length s)); [cbn; lia|apply IH]. unfold L in *. lia. }
    eapply Nat.le_trans; [apply (G _ _ _ Hc)|]. eapply Nat.le_trans; [|exact B1].
    apply Nat.mul_le_mono_r. unfold L. lia.
Qed.

(** A text of one letter. *)
Definition letters (n : nat) : list ascii := repeat "a"%char n.

Lemma letters_length n : List.length (letters n) = n.
Proof. apply repeat_length. Qed.

Lemma letters_nth n i : i < n -> nth_error (letters n) i = Some "a"%char.
Proof.
  unfold letters. revert i. induction n as [|n IH]; intros [|i] H; cbn; auto; try lia.
  apply IH. lia.
Qed.

(** [(a)*] nests a call for each letter. *)
Section Nesting.
  Variable n : nat.
  Let cf := config_of [] RandomAccessIt.
  Let x := Cap 1 None (Lit "a").

  Lemma depth_or_else o f : depth o <= depth (c_or_else o f).
  Proof. unfold c_or_else. destruct (out o) as [c e []| | |]; cbn; lia. Qed.

  Lemma nesting_body (names : list group_name) f0 i c (K : ccont) : i < n -> List.length c = 2 ->
    nth_error names 1 = Some None ->
    exists c', List.length c' = 2 /\
      depth (K (S i) c') <= depth (c_m cf names (letters n) (S (S f0)) 0 x i c K).
  Proof.
    intros Hi Hc Hn. destruct c as [|c0 [|c1 []]]; try discriminate.
    exists [c0; Some (i, S i)]. split; [reflexivity|].
    cbn [c_m x called depth]. apply le_S. eapply Nat.le_trans; [|apply depth_or_else].
    cbn [called depth]. apply le_S. unfold c_match_trivial.
    change (view (letters n) 0) with (letters n). rewrite letters_length.
    destruct (Nat.eqb_spec i n); [lia|]. unfold c_deref. rewrite letters_nth by lia.
    change (match_one cf (Lit "a") "a") with true. cbv iota.
    unfold store. change (N.to_nat 1) with 1. rewrite Hn. apply Nat.le_refl.
  Qed.

  Lemma nesting_loop (names : list group_name) k f0 : forall r f i c, i + r = n -> r < f -> List.length c = 2 ->
    nth_error names 1 = Some None ->
    r <= depth (c_greedy_generic f (c_m cf names (letters n) (S (S f0)) 0 x) false Inf i c k).
  Proof.
    induction r as [|r IH]; intros f i c Hi Hf Hc Hn; [lia|].
    destruct f as [|f]; [lia|]. cbn [c_greedy_generic called depth bound_is_zero].
    apply le_n_S. eapply Nat.le_trans; [|apply depth_or_else].
    match goal with |- _ <= depth (_ i c ?K) =>
      destruct (nesting_body names f0 i c K) as (c' & Hc' & H); [lia|exact Hc|exact Hn|] end.
    eapply Nat.le_trans; [|exact H].
    unfold c_continue_unless_infinite_loop. cbn [andb].
    apply IH; auto; lia.
  Qed.

  Lemma nesting : n <= depth (cost_of c_match_method (rx "(a)*" []) RandomAccessIt (letters n)).
  Proof.
    change (rx "(a)*" []) with (mk_regex (Rep Greedy 0 Inf x) []).
    unfold cost_of, c_match_method. cbn [ast flags]. cbv zeta.
    set (y := c_node_match _ _ _ _ _ _ _ _).
    assert (H : n <= depth y).
    { unfold y, c_node_match. cbn [size x c_m].
      unfold c_rep_match. cbn [called depth is_zero N.eqb bound_subtract is_infinity zlm x andb].
      apply le_S. unfold c_between_bounds. cbn [xorb ungreedy config_of trivial x andb].
      apply (nesting_loop _ _ 0) with (r := n); auto.
      change (view (letters n) 0) with (letters n). rewrite letters_length. cbn. lia. }
    destruct (out y); cbn [with_out depth]; exact H.
  Qed.
End Nesting.

(** A star under a star, followed by a letter that is not there, tries every
    way to cut the letters. *)
Section Explosion.
  Variable n : nat.
  Variable names : list group_name.
  Let cf := config_of [] RandomAccessIt.
  Let x := Rep Greedy 0 Inf (Lit "a").
  Let s := letters n.

  (** Everything fails. *)
  Definition fails (c : caps) (y : costed) : Prop := exists j, out y = Res c j false.

  Lemma run_trivial (k : ccont) c : forall r f i, i + r = n -> r < f ->
    let y := c_possessive_trivial f s (match_one cf (Lit "a")) Inf i c k in
    out y = out (k n c) /\ steps (k n c) <= steps y.
  Proof.
    induction r as [|r IH]; intros f i Hi Hf; (destruct f as [|f]; [lia|]);
      cbn [c_possessive_trivial bound_is_zero bound_decrement]; unfold s; rewrite letters_length;
      fold s.
    - replace i with n by lia. rewrite Nat.eqb_refl. auto.
    - destruct (Nat.eqb_spec i n); [lia|]. unfold c_deref.
      assert (E : nth_error s i = Some "a"%char) by (apply letters_nth; lia). rewrite E.
      change (match_one cf (Lit "a") "a") with true. cbv iota. cbn [round out steps].
      destruct (IH f (S i)) as [H1 H2]; [lia|lia|]. split; [exact H1|lia].
  Qed.

  Lemma run_back (k : ccont) i r c : i + r = n ->
    out (k i c) = Res c i false ->
    (forall j, i < j -> j <= n -> fails c (k j c) /\ 2 ^ (n - j) <= steps (k j c)) ->
    forall d, d <= r ->
      fails c (c_step_back i d c k) /\ 2 ^ r <= steps (c_step_back i d c k) + 2 ^ (r - d).
  Proof.
    intros Hi H0 Hk. induction d as [|d IH]; intros Hd; cbn [c_step_back]; unfold c_or_else at 1 2;
      cbn [round out].
    - rewrite Nat.add_0_r, H0. cbn [after out steps round]. split; [eexists; reflexivity|].
      rewrite Nat.sub_0_r. lia.
    - destruct (Hk (i + S d)) as [(j & E) H1]; [lia|lia|]. rewrite E.
      destruct (IH ltac:(lia)) as [F2 H2]. cbn [after out steps round]. split; [exact F2|].
      replace (n - (i + S d)) with (r - S d) in H1 by lia.
      replace (r - d) with (S (r - S d)) in H2 by lia. rewrite Nat.pow_succ_r' in H2. lia.
  Qed.

  Variable f0 : nat.
  Let mx := c_m cf names s (S f0) 0 x.

  Lemma explosion_loop (k : ccont) c : (forall i, i <= n -> fails c (k i c)) ->
    forall r f i, i + r = n -> r < f ->
    let y := c_greedy_generic f mx true Inf i c k in
    fails c y /\ 2 ^ r <= steps y.
  Proof.
    intros Hk. induction r as [r IH] using lt_wf_ind. intros f i Hi Hf.
    destruct f as [|f]; [lia|]. cbv zeta. cbn [c_greedy_generic bound_is_zero bound_decrement].
    set (k' := c_continue_unless_infinite_loop true i
      (fun next c' => c_greedy_generic f mx true Inf next c' k)).
    assert (B : fails c (mx i c k') /\ 2 ^ r <= S (steps (mx i c k'))).
    { unfold mx. cbn [c_m x]. unfold c_rep_match. cbn [is_zero N.eqb bound_subtract is_infinity zlm andb].
      unfold c_between_bounds.
      cbn [xorb ungreedy cf config_of existsb trivial is_bidirectional cat andb].
      change (view s 0) with s.
      destruct (run_trivial (fun next c' => c_step_back i (next - i) c' k') c r
        (loop_fuel Inf (List.length s) i) i Hi) as [H1 H2].
      { unfold s. rewrite letters_length. cbn. lia. }
      destruct (run_back k' i r c Hi) with (d := r) as [F3 H3]; [| |lia|].
      - unfold k', c_continue_unless_infinite_loop. rewrite Nat.eqb_refl. reflexivity.
      - intros j J1 J2. unfold k', c_continue_unless_infinite_loop.
        destruct (Nat.eqb_spec i j); [lia|]. cbn [andb]. apply IH; lia.
      - replace (n - i) with r in * by lia. rewrite Nat.sub_diag in H3. cbn [Nat.pow] in H3.
        cbn [called out steps]. split.
        + destruct F3 as (j & E). exists j. cbn [called out]. rewrite <- E. exact H1.
        + change (flag_test [] F_ungreedy) with false. cbv iota. lia. }
    destruct B as [(j & E) B]. unfold c_or_else. rewrite E.
    destruct (Hk i) as (j' & E'); [lia|]. cbn [called after out steps]. split.
    - exists j'. exact E'.
    - lia.
  Qed.
End Explosion.

Lemma explosion n :
  2 ^ n <= steps (cost_of c_match_method (rx "(?:a*)*b" []) RandomAccessIt (letters n)).
Proof.
  change (rx "(?:a*)*b" [])
    with (mk_regex (Seq [Rep Greedy 0 Inf (Rep Greedy 0 Inf (Lit "a")); Lit "b"]) []).
  unfold cost_of, c_match_method. cbn [ast flags]. cbv zeta.
  set (y := c_node_match _ _ _ _ _ _ _ _).
  assert (H : 2 ^ n <= steps y).
  { unfold y, c_node_match. cbn [size map list_sum fold_right Nat.add c_m c_seq_match forallb trivial andb called steps].
    apply le_S. unfold c_rep_match. cbn [called steps is_zero N.eqb bound_subtract is_infinity zlm andb orb].
    apply le_S. unfold c_between_bounds. cbn [xorb ungreedy config_of existsb trivial andb].
    set (k := fun (next : nat) (c' : caps) => called _).
    destruct (explosion_loop n (group_names Empty) 1 k
      (initial_captures (Seq [Rep Greedy 0 Inf (Rep Greedy 0 Inf (Lit "a")); Lit "b"])))
      with (r := n) (f := loop_fuel Inf (List.length (view (letters n) 0)) 0) (i := 0) as [_ H];
      [|reflexivity| |exact H].
    - intros i Hi. unfold k, fails. cbn [called out]. unfold c_match_trivial.
      change (view (letters n) 0) with (letters n). rewrite letters_length.
      destruct (Nat.eqb_spec i n); [eexists; reflexivity|]. unfold c_deref.
      rewrite letters_nth by lia. eexists. reflexivity.
    - change (view (letters n) 0) with (letters n). rewrite letters_length. cbn. lia. }
  destruct (out y); cbn [with_out steps]; exact H.
Qed.
