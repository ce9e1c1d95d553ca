(** What is matched does not depend on the text on the left. *)
From Verif Require Import Matcher Api Basics Safe Cong Spec Calls Lift Matching.

(** No node that looks to the left of the current position. *)
Fixpoint looks_ahead (n : node) : bool :=
  match n with
  | BeginLine | BeginInput | WordB | Look Behind _ => false
  | Seq l | Alt l => forallb looks_ahead l
  | Neg x | Cap _ _ x | Rep _ _ _ x | Look Ahead x => looks_ahead x
  | _ => true
  end.

Section Shift.
  Variable cf : config.
  Variable names : list group_name.
  Variables pre s : list ascii.
  Local Notation off := (length pre).
  Local Notation t := (pre ++ s).

  Definition moved_cell (v : cell) : cell := option_map (fun p => (off + fst p, off + snd p)) v.
  Definition moved (c : caps) : caps := map moved_cell c.
  Definition moved_out (o : outcome) : outcome :=
    match o with Res c e b => Res (moved c) (off + e) b | o => o end.
  Definition moved_cont (k1 k2 : cont) : Prop := forall j c, k1 (off + j) (moved c) = moved_out (k2 j c).
  Definition moved_matcher (m1 m2 : matcher) : Prop := forall cur c k1 k2, moved_cont k1 k2 ->
    m1 (off + cur) (moved c) k1 = moved_out (m2 cur c k2).

  Lemma moved_success : moved_cont success success.
  Proof. intros j c. reflexivity. Qed.

  Lemma moved_length : length t = off + length s.
  Proof. apply app_length. Qed.

  Lemma moved_eqb a b : Nat.eqb (off + a) (off + b) = Nat.eqb a b.
  Proof. destruct (Nat.eqb_spec (off + a) (off + b)), (Nat.eqb_spec a b); auto; lia. Qed.

  Lemma moved_nth i : nth_error t (off + i) = nth_error s i.
  Proof. rewrite nth_error_app2 by lia. f_equal. lia. Qed.

  Lemma moved_deref i f1 f2 : (forall a, f1 a = moved_out (f2 a)) -> deref t (off + i) f1 = moved_out (deref s i f2).
  Proof. intros H. unfold deref. rewrite moved_nth. now destruct (nth_error s i). Qed.

  Lemma moved_non_match j c : non_match (off + j) (moved c) = moved_out (non_match j c).
  Proof. reflexivity. Qed.

  Lemma moved_or_else o1 o2 f1 f2 : o1 = moved_out o2 -> (forall c, f1 (moved c) = moved_out (f2 c)) ->
    or_else o1 f1 = moved_out (or_else o2 f2).
  Proof. intros -> H. destruct o2 as [c e [|]| | |]; cbn; auto. Qed.

  Lemma moved_on_result o1 o2 f1 f2 g1 g2 : o1 = moved_out o2 ->
    (forall e c, f1 (off + e) (moved c) = moved_out (f2 e c)) -> (forall c, g1 (moved c) = moved_out (g2 c)) ->
    on_result o1 f1 g1 = moved_out (on_result o2 f2 g2).
  Proof. intros -> H1 H2. destruct o2 as [c e [|]| | |]; cbn; auto. Qed.

  Lemma moved_trivial p : moved_matcher (match_trivial t p) (match_trivial s p).
  Proof.
    intros cur c k1 k2 Hk. unfold match_trivial. rewrite moved_length, moved_eqb.
    destruct (Nat.eqb cur (length s)); auto. apply moved_deref. intros a.
    rewrite plus_n_Sm. destruct (p a); auto.
  Qed.

  Lemma moved_loop n : forall cur, distance_loop n (length t) (off + cur) = distance_loop n (length s) cur.
  Proof.
    induction n as [|n IH]; intros cur; cbn; auto. rewrite moved_length, moved_eqb, plus_n_Sm, <- moved_length.
    destruct (Nat.eqb _ _); auto.
  Qed.

  Lemma moved_distance n cur : distance_less_than cf n (length t) (off + cur) = distance_less_than cf n (length s) cur.
  Proof.
    unfold distance_less_than. rewrite moved_loop, moved_length.
    replace (off + length s - (off + cur)) with (length s - cur) by lia. reflexivity.
  Qed.

  Lemma moved_all_at ps : forall cur, all_at t ps (off + cur) = all_at s ps cur.
  Proof.
    induction ps as [|p ps IH]; intros cur; cbn; auto. rewrite moved_nth.
    destruct (nth_error s cur) as [a|]; auto. destruct (p a); auto. now rewrite plus_n_Sm.
  Qed.

  Lemma moved_block_random ps : moved_matcher (trivial_block_random t ps) (trivial_block_random s ps).
  Proof.
    intros cur c k1 k2 Hk. unfold trivial_block_random. rewrite moved_all_at.
    destruct (all_at s ps cur) as [[|]|]; auto. rewrite <- Nat.add_assoc. auto.
  Qed.

  Lemma moved_block_forward ps : moved_matcher (sequence_block_forward t ps) (sequence_block_forward s ps).
  Proof.
    induction ps as [|p ps IH]; intros cur c k1 k2 Hk; [reflexivity|]. cbn [sequence_block_forward].
    destruct ps as [|q ps]; apply moved_deref; intros a; rewrite plus_n_Sm; destruct (p a); auto.
  Qed.

  Lemma moved_repetition_random p : forall todo offset,
    moved_matcher (repetition_loop_random t p todo offset) (repetition_loop_random s p todo offset).
  Proof.
    induction todo as [|x IH]; intros offset cur c k1 k2 Hk; cbn [repetition_loop_random]; rewrite <- Nat.add_assoc; auto.
    apply moved_deref. intros a. destruct (p a); cbn [negb]; auto. now apply IH.
  Qed.

  Lemma moved_repetition_forward p : forall n,
    moved_matcher (repetition_block_forward t p n) (repetition_block_forward s p n).
  Proof.
    induction n as [|n IH]; intros cur c k1 k2 Hk; cbn [repetition_block_forward]; auto.
    apply moved_deref. intros a. rewrite plus_n_Sm. destruct (p a); auto.
  Qed.

  Lemma moved_possessive_trivial p : forall fuel b,
    moved_matcher (possessive_trivial fuel t p b) (possessive_trivial fuel s p b).
  Proof.
    induction fuel as [|f IH]; intros bd cur c k1 k2 Hk; [reflexivity|].
    cbn [possessive_trivial]. rewrite moved_length, moved_eqb.
    destruct (bound_is_zero bd); auto. destruct (Nat.eqb _ _); auto.
    apply moved_deref. intros a. rewrite plus_n_Sm. destruct (p a); auto. now apply IH.
  Qed.

  Lemma moved_lazy_trivial p : forall fuel b,
    moved_matcher (lazy_trivial fuel t p b) (lazy_trivial fuel s p b).
  Proof.
    induction fuel as [|f IH]; intros bd cur c k1 k2 Hk; [reflexivity|].
    cbn [lazy_trivial]. rewrite moved_length, moved_eqb. apply moved_or_else; auto. intros c'.
    destruct (bound_is_zero bd); auto. destruct (Nat.eqb _ _); auto.
    apply moved_deref. intros a. rewrite plus_n_Sm. destruct (p a); auto. now apply IH.
  Qed.

  Lemma moved_step_back : forall x initial c k1 k2, moved_cont k1 k2 ->
    step_back (off + initial) x (moved c) k1 = moved_out (step_back initial x c k2).
  Proof.
    induction x; intros initial c k1 k2 Hk; cbn [step_back]; rewrite <- Nat.add_assoc;
      apply moved_or_else; auto.
  Qed.

  Lemma moved_unrolled mx1 mx2 : moved_matcher mx1 mx2 -> forall n,
    moved_matcher (unrolled_backtracking mx1 n) (unrolled_backtracking mx2 n).
  Proof.
    intros Hm. induction n as [|n IH]; intros cur c k1 k2 Hk; cbn [unrolled_backtracking]; auto.
    destruct n; auto. apply Hm. intros j c'. now apply IH.
  Qed.

  Lemma moved_non_unrolled mx1 mx2 : moved_matcher mx1 mx2 -> forall n,
    moved_matcher (non_unrolled_backtracking mx1 n) (non_unrolled_backtracking mx2 n).
  Proof.
    intros Hm. induction n as [|n IH]; intros cur c k1 k2 Hk; cbn [non_unrolled_backtracking]; auto.
    destruct (Nat.eqb (S n) 1); auto. apply Hm. intros j c'. now apply IH.
  Qed.

  Lemma moved_continue w cur k1 k2 : moved_cont k1 k2 ->
    moved_cont (continue_unless_infinite_loop w (off + cur) k1) (continue_unless_infinite_loop w cur k2).
  Proof.
    intros Hk j c. unfold continue_unless_infinite_loop. rewrite moved_eqb.
    destruct (w && Nat.eqb cur j)%bool; auto.
  Qed.

  Lemma moved_possessive_generic mx1 mx2 w : moved_matcher mx1 mx2 -> forall fuel b,
    moved_matcher (possessive_generic fuel mx1 w b) (possessive_generic fuel mx2 w b).
  Proof.
    intros Hm. induction fuel as [|f IH]; intros bd cur c k1 k2 Hk; [reflexivity|].
    cbn [possessive_generic]. destruct (bound_is_zero bd); auto.
    apply moved_on_result; auto.
    - apply Hm, moved_success.
    - intros e c'. rewrite moved_eqb. destruct (w && Nat.eqb cur e)%bool; auto. now apply IH.
  Qed.

  Lemma moved_greedy_generic mx1 mx2 w : moved_matcher mx1 mx2 -> forall fuel b,
    moved_matcher (greedy_generic fuel mx1 w b) (greedy_generic fuel mx2 w b).
  Proof.
    intros Hm. induction fuel as [|f IH]; intros bd cur c k1 k2 Hk; [reflexivity|].
    cbn [greedy_generic]. destruct (bound_is_zero bd); auto.
    apply moved_or_else; auto. apply Hm. apply moved_continue. intros j c'. now apply IH.
  Qed.

  Lemma moved_lazy_generic mx1 mx2 w : moved_matcher mx1 mx2 -> forall fuel b,
    moved_matcher (lazy_generic fuel mx1 w b) (lazy_generic fuel mx2 w b).
  Proof.
    intros Hm. induction fuel as [|f IH]; intros bd cur c k1 k2 Hk; [reflexivity|].
    cbn [lazy_generic]. apply moved_or_else; auto. intros c0.
    destruct (bound_is_zero bd); auto.
    apply Hm. apply moved_continue. intros j c'. now apply IH.
  Qed.

  Lemma moved_fuel b cur : loop_fuel b (length t) (off + cur) = loop_fuel b (length s) cur.
  Proof. unfold loop_fuel. rewrite moved_length. destruct b; auto. f_equal. lia. Qed.

  Lemma moved_between x mx1 mx2 md b w : moved_matcher mx1 mx2 ->
    moved_matcher (between_bounds cf t md b w x mx1) (between_bounds cf s md b w x mx2).
  Proof.
    intros Hm cur c k1 k2 Hk. unfold between_bounds. rewrite moved_fuel.
    assert (B : moved_cont (fun next c' => step_back (off + cur) (next - (off + cur)) c' k1)
                           (fun next c' => step_back cur (next - cur) c' k2)).
    { intros j c'. replace (off + j - (off + cur)) with (j - cur) by lia. now apply moved_step_back. }
    destruct md; try (destruct (xorb _ _)); try destruct (trivial x && is_bidirectional cf)%bool;
      try destruct (trivial x);
      auto using moved_possessive_trivial, moved_greedy_generic, moved_lazy_trivial, moved_lazy_generic, moved_possessive_generic.
    all: try (now apply moved_possessive_trivial); try (now apply moved_greedy_generic);
      try (now apply moved_lazy_trivial); try (now apply moved_lazy_generic); try (now apply moved_possessive_generic).
  Qed.

  Lemma moved_fixed_backtracking x mx1 mx2 n : moved_matcher mx1 mx2 ->
    moved_matcher (fixed_backtracking cf t x mx1 n) (fixed_backtracking cf s x mx2 n).
  Proof.
    intros Hm cur c k1 k2 Hk. unfold fixed_backtracking. rewrite moved_distance.
    destruct (trivial x).
    - destruct (distance_less_than _ _ _ _); auto. destruct (is_random cf).
      + destruct (unroll cf).
        * now apply moved_block_random.
        * now apply moved_repetition_random.
      + now apply moved_repetition_forward.
    - destruct (unroll cf).
      + now apply moved_unrolled.
      + now apply moved_non_unrolled.
  Qed.

  Lemma moved_fixed x mx1 mx2 md n : moved_matcher mx1 mx2 ->
    moved_matcher (fixed_match cf t md n x mx1) (fixed_match cf s md n x mx2).
  Proof.
    intros Hm cur c k1 k2 Hk. unfold fixed_match. destruct (N.eqb n 0); auto.
    pose proof (moved_fixed_backtracking x mx1 mx2 n Hm) as Hf.
    destruct md; destruct (N.eqb n 1); auto.
    - destruct (trivial x); auto. apply moved_on_result; auto. apply Hm, moved_success.
    - apply moved_on_result; auto. apply Hf, moved_success.
  Qed.

  Lemma moved_rep x mx1 mx2 md lo hi : moved_matcher mx1 mx2 ->
    moved_matcher (rep_match cf t md lo hi x mx1) (rep_match cf s md lo hi x mx2).
  Proof.
    intros Hm cur c k1 k2 Hk. unfold rep_match.
    destruct (match hi with Fin h => N.eqb lo h | Inf => false end).
    - now apply moved_fixed.
    - destruct (is_zero lo).
      + now apply moved_between.
      + apply moved_fixed; auto. intros j c'. now apply moved_between.
  Qed.

  Lemma moved_seq mm1 mm2 l : Forall (fun x => moved_matcher (mm1 x) (mm2 x)) l ->
    moved_matcher (seq_match cf t mm1 l) (seq_match cf s mm2 l).
  Proof.
    induction l as [|x r IH]; intros HF cur c k1 k2 Hk; [reflexivity|].
    inversion HF as [|? ? Hx Hr]; subst. destruct r as [|y r'].
    - cbn. now apply Hx.
    - remember (y :: r') as r eqn:Er. rewrite !seq_match_cons by (subst r; discriminate).
      destruct (forallb trivial (x :: r)).
      + rewrite moved_distance. destruct (distance_less_than _ _ _ _); auto. destruct (is_random cf).
        * now apply moved_block_random.
        * now apply moved_block_forward.
      + apply Hx. intros j c'. apply IH; auto.
  Qed.

  Lemma moved_alt mm1 mm2 l : Forall (fun x => moved_matcher (mm1 x) (mm2 x)) l ->
    moved_matcher (alt_match cf t mm1 l) (alt_match cf s mm2 l).
  Proof.
    induction l as [|x r IH]; intros HF cur c k1 k2 Hk; [reflexivity|].
    inversion HF as [|? ? Hx Hr]; subst. destruct r as [|y r'].
    - cbn. now apply Hx.
    - remember (y :: r') as r eqn:Er. rewrite !alt_match_cons by (subst r; discriminate).
      destruct (forallb trivial (x :: r)).
      + now apply moved_trivial.
      + apply moved_or_else; auto. intros c'. apply IH; auto.
  Qed.

  Lemma moved_set_cell v : forall i c, set_cell i (moved_cell v) (moved c) = option_map moved (set_cell i v c).
  Proof.
    intros i c. revert i. induction c as [|x c IH]; intros [|i]; cbn; auto.
    change (map moved_cell c) with (moved c). rewrite IH. now destruct (set_cell i v c).
  Qed.

  Lemma moved_nth_cell i c : nth_error (moved c) i = option_map moved_cell (nth_error c i).
  Proof. apply nth_error_map. Qed.

  Lemma moved_clear i c : clear_cell i (moved c) = option_map moved (clear_cell i c).
  Proof.
    unfold clear_cell. rewrite moved_nth_cell. destruct (nth_error c i) as [v|]; cbn; auto.
    rewrite <- moved_set_cell. f_equal. now destruct v as [[b e]|].
  Qed.

  Lemma moved_store id nm b e c : store names t 0 id nm (off + b) (off + e) (moved c)
    = option_map moved (store names s 0 id nm b e c).
  Proof.
    unfold store. destruct (nth_error names (N.to_nat id)) as [nm'|]; auto.
    destruct (name_eqb nm nm'); auto. apply (moved_set_cell (Some (b, e))).
  Qed.

  Lemma moved_backref_loop tx : moved_matcher (backref_loop cf t tx) (backref_loop cf s tx).
  Proof.
    induction tx as [|x tx IH]; intros cur c k1 k2 Hk; cbn [backref_loop]; auto.
    apply moved_deref. intros a. rewrite plus_n_Sm. destruct (backref_char_eq cf x a); auto.
  Qed.

  Lemma moved_backref i : moved_matcher (backref_match cf t 0 i) (backref_match cf s 0 i).
  Proof.
    intros cur c k1 k2 Hk. unfold backref_match. rewrite moved_nth_cell.
    destruct (nth_error c i) as [v|]; cbn [option_map]; auto. cbn [view Nat.even].
    destruct v as [[b e]|]; cbn [moved_cell option_map fst snd].
    - replace (off + e - (off + b)) with (e - b) by lia. unfold view. cbn [Nat.even]. rewrite moved_distance.
      destruct (distance_less_than _ _ _ _); auto. unfold len. rewrite moved_length.
      replace (Nat.ltb (off + e) (off + b)) with (Nat.ltb e b)
        by (destruct (Nat.ltb_spec e b), (Nat.ltb_spec (off + e) (off + b)); auto; lia).
      replace (Nat.ltb (off + length s) (off + e)) with (Nat.ltb (length s) e)
        by (destruct (Nat.ltb_spec (length s) e), (Nat.ltb_spec (off + length s) (off + e)); auto; lia).
      destruct (_ || _)%bool; auto. rewrite skipn_app.
      replace (skipn (off + b) pre) with (@nil ascii) by (symmetry; apply skipn_all2; lia).
      replace (off + b - off) with b by lia. cbn [app]. now apply moved_backref_loop.
    - unfold view. cbn [Nat.even]. rewrite moved_distance.
      destruct (distance_less_than _ _ _ _); auto. unfold len.
      replace (Nat.ltb (length t) 0) with false by (symmetry; apply Nat.ltb_ge; lia).
      replace (Nat.ltb (length s) 0) with false by (symmetry; apply Nat.ltb_ge; lia).
      cbn [Nat.ltb Nat.leb orb Nat.sub firstn]. apply Hk.
  Qed.

  Theorem moved_m : forall f n, looks_ahead n = true ->
    moved_matcher (m cf names t f 0 n) (m cf names s f 0 n).
  Proof.
    induction f as [|f IH]; intros n Ho cur c k1 k2 Hk; [reflexivity|].
    assert (Hlist : forall l, forallb looks_ahead l = true ->
      Forall (fun x => moved_matcher (m cf names t f 0 x) (m cf names s f 0 x)) l).
    { intros l Hl. rewrite forallb_forall in Hl. apply Forall_forall. auto. }
    destruct n; cbn [m looks_ahead] in *; try discriminate;
      change (view t 0) with t; change (view s 0) with s.
    - auto.
    - rewrite moved_length, moved_eqb. destruct (Nat.eqb cur (length s)); auto.
      destruct (multiline cf); auto. apply moved_deref. intros a. unfold assert_that.
      destruct (match_one _ _ _); auto.
    - unfold assert_that. rewrite moved_length, moved_eqb. destruct (Nat.eqb cur (length s)); auto.
    - now apply moved_trivial.
    - now apply moved_trivial.
    - now apply moved_trivial.
    - now apply moved_trivial.
    - destruct (is_assertion n).
      + apply moved_on_result; auto. apply IH; auto using moved_success.
      + now apply moved_trivial.
    - apply moved_seq; auto.
    - apply moved_alt; auto.
    - apply moved_or_else.
      + apply IH; auto. intros j c'. rewrite moved_store. destruct (store _ _ _ _ _ _ _ _); cbn; auto.
      + intros c'. rewrite moved_clear. destruct (clear_cell _ _); cbn; auto.
    - apply moved_rep; auto.
    - now apply moved_backref.
    - destruct (unique_position _ _); auto. now apply moved_backref.
    - destruct d; [|discriminate]. rewrite moved_length, moved_eqb. destruct (trivial n).
      + destruct (Nat.eqb _ _); auto. apply moved_deref. intros a. unfold assert_that.
        destruct (match_one _ _ _); auto.
      + apply moved_on_result; auto. apply IH; auto using moved_success.
  Qed.
End Shift.

(** A result on the rest of the text, as a result on the whole text: every
    position is [by] further on. *)
Definition later (by_ : nat) (r : match_res) : match_res :=
  mk_res (map (option_map (fun p => (by_ + fst p, by_ + snd p))) (groups r)) (matched r).

Definition later_gen (by_ : nat) (g : generator) : generator := mk_gen (by_ + current g) (active g).

Section Generators.
  Variable cf : config.
  Variable n : node.
  Hypothesis Hn : looks_ahead n = true.

  Lemma moved_node pre s cur c k1 k2 : moved_cont pre k1 k2 ->
    node_match cf (group_names n) (pre ++ s) 0 n (length pre + cur) (moved pre c) k1
    = moved_out pre (node_match cf (group_names n) s 0 n cur c k2).
  Proof. unfold node_match. now apply moved_m. Qed.

  Lemma moved_group0 pre b e c : moved pre (set_group0 b e c)
    = set_group0 (length pre + b) (length pre + e) (moved pre c).
  Proof. now destruct c. Qed.

  Lemma moved_prefix pre s cur c : match_prefix_method cf n (pre ++ s) (length pre + cur) (moved pre c)
    = moved_out pre (match_prefix_method cf n s cur c).
  Proof.
    unfold match_prefix_method. rewrite (moved_node pre s cur c success success) by apply moved_success.
    destruct (node_match _ _ _ _ _ _ _ _) as [c' e b| | |]; cbn; auto. now rewrite moved_group0.
  Qed.

  Lemma moved_search_loop pre s : forall f cur c, search_loop f cf n (pre ++ s) (length pre + cur) (moved pre c)
    = moved_out pre (search_loop f cf n s cur c).
  Proof.
    induction f as [|f IH]; intros cur c; [reflexivity|]. cbn [search_loop].
    rewrite (moved_node pre s cur c success success) by apply moved_success.
    destruct (node_match _ _ _ _ _ _ _ _) as [c' e [|]| | |]; cbn [moved_out]; auto.
    - now rewrite moved_group0.
    - rewrite moved_length, moved_eqb. destruct (Nat.eqb cur (length s)); [reflexivity|].
      rewrite plus_n_Sm. apply IH.
  Qed.

  Lemma moved_search pre s cur c : search_method cf n (pre ++ s) (length pre + cur) (moved pre c)
    = moved_out pre (search_method cf n s cur c).
  Proof.
    unfold search_method. rewrite moved_length. replace (length pre + length s - (length pre + cur)) with (length s - cur) by lia.
    apply moved_search_loop.
  Qed.

  Lemma moved_initial pre : moved pre (initial_captures n) = initial_captures n.
  Proof. unfold moved, initial_captures. now rewrite map_map. Qed.

  Lemma moved_empty pre v : cell_is_empty (moved_cell pre v) = cell_is_empty v.
  Proof. destruct v as [[b e]|]; cbn; auto. apply moved_eqb. Qed.

  Definition moved_next (pre : list ascii) (o : call (match_res * generator)) : call (match_res * generator) :=
    match o with
    | Returned (r, g) => Returned (later (length pre) r, later_gen (length pre) g)
    | o => o
    end.

  Lemma later_next mt pre s g : gen_method mt ->
    next mt cf n (pre ++ s) (later_gen (length pre) g) = moved_next pre (next mt cf n s g).
  Proof.
    intros Hm. unfold next. cbn [later_gen active current]. destruct (active g).
    - assert (E : mt cf n (pre ++ s) (length pre + current g) (initial_captures n)
        = moved_out pre (mt cf n s (current g) (initial_captures n))).
      { rewrite <- (moved_initial pre) at 1. destruct Hm; [apply moved_prefix|apply moved_search]. }
      rewrite E. destruct (mt cf n s (current g) (initial_captures n)) as [c e b| | |]; cbn; auto.
      unfold later, later_gen. cbn. do 3 f_equal.
      replace (group0 (moved pre c)) with (moved_cell pre (group0 c)) by now destruct c.
      now rewrite moved_empty.
    - cbn. do 2 f_equal. unfold later. cbn. fold (moved pre). f_equal.
      symmetry. apply (moved_initial pre).
  Qed.

  Definition later_all (pre : list ascii) (o : call (list match_res)) : call (list match_res) :=
    match o with Returned l => Returned (map (later (length pre)) l) | o => o end.

  Lemma later_generate mt pre s : gen_method mt -> forall k g,
    generate mt cf n (pre ++ s) k (later_gen (length pre) g) = later_all pre (generate mt cf n s k g).
  Proof.
    intros Hm. induction k as [|k IH]; intros g; [reflexivity|]. cbn [generate].
    rewrite later_next by auto. destruct (next mt cf n s g) as [[r g']| | |]; cbn [moved_next]; auto.
    rewrite IH. now destruct (generate mt cf n s k g').
  Qed.

  Lemma later_range mt pre s : gen_method mt -> forall k g,
    range_elements k mt cf n (pre ++ s) (later_gen (length pre) g) = later_all pre (range_elements k mt cf n s g).
  Proof.
    intros Hm. induction k as [|k IH]; intros g; [reflexivity|]. cbn [range_elements].
    rewrite later_next by auto. destruct (next mt cf n s g) as [[r g']| | |]; cbn [moved_next]; auto.
    cbn [later matched]. destruct (matched r); auto.
    rewrite IH. now destruct (range_elements k mt cf n s g').
  Qed.
End Generators.

Lemma range_more mt cf n s : forall f f' g l, f <= f' ->
  range_elements f mt cf n s g = Returned l -> range_elements f' mt cf n s g = Returned l.
Proof.
  induction f as [|f IH]; intros [|f'] g l H E; try discriminate; [lia|]. cbn [range_elements] in *.
  destruct (next mt cf n s g) as [[r g']| | |]; try discriminate. destruct (matched r); auto.
  destruct (range_elements f mt cf n s g') as [l'| | |] eqn:E'; try discriminate.
  now rewrite (IH f' _ l') by (auto; lia).
Qed.

Lemma generate_inactive mt cf n s : forall k g, active g = false ->
  generate mt cf n s k g = Returned (repeat (mk_res (initial_captures n) false) k).
Proof.
  induction k as [|k IH]; intros g A; [reflexivity|]. cbn [generate]. unfold next. rewrite A.
  now rewrite IH.
Qed.

(** The results after the first are those for the rest of the text. *)
Theorem rest_of_results mt r ct s : gen_method mt -> usable r ct -> looks_ahead (ast r) = true ->
  let none := mk_res (initial_captures (ast r)) false in
  exists a, invoke mt r ct s = Returned a
  /\ (matched a = false ->
        range_of mt r ct s = Returned []
        /\ forall k, generator_results mt r ct s (S k) = Returned (a :: repeat none k))
  /\ (matched a = true -> exists b e, group0 (groups a) = Some (b, e) /\ b <= e <= length s
        /\ (b = e -> range_of mt r ct s = Returned [a]
              /\ forall k, generator_results mt r ct s (S k) = Returned (a :: repeat none k))
        /\ (b < e ->
              (exists l, range_of mt r ct (skipn e s) = Returned l
                 /\ range_of mt r ct s = Returned (a :: map (later e) l))
              /\ forall k, exists l, generator_results mt r ct (skipn e s) k = Returned l
                 /\ generator_results mt r ct s (S k) = Returned (a :: map (later e) l))).
Proof.
  intros Hm Hu Hn none. pose proof (proj1 Hu) as Hc.
  set (cf := config_of (flags r) ct) in *. set (n := ast r) in *.
  destruct (next_returns mt cf n s new_generator Hm Hu (inside_new s))
    as (a & g' & E & Hg' & _ & _ & _ & Hact & Hmr).
  exists a.
  assert (Ha : invoke mt r ct s = Returned a).
  { unfold invoke. fold cf n. rewrite Hc. unfold next in E. cbn [new_generator active current] in E.
    destruct (mt cf n s 0 (initial_captures n)); try discriminate. cbn in *. now inversion E. }
  split; [exact Ha|]. unfold range_of, generator_results. fold cf n. rewrite Hc.
  split.
  - intros M. assert (A : active g' = false).
    { destruct (active g') eqn:A; auto. destruct (Hact eq_refl). congruence. }
    split.
    + cbn [range_elements]. now rewrite E, M.
    + intros k. cbn [generate]. rewrite E. now rewrite generate_inactive.
  - intros M. destruct (Hmr M) as (_ & b & Hb & He & G & Z & L). exists b, (current g').
    split; [exact G|]. split; [lia|]. split.
    + intros Eq. assert (A : active g' = false).
      { destruct (active g') eqn:A; auto. specialize (L eq_refl). lia. }
      split.
      * cbn [range_elements]. rewrite E, M. unfold next. rewrite A. reflexivity.
      * intros k. cbn [generate]. rewrite E. now rewrite generate_inactive.
    + intros Lt. assert (A : active g' = true).
      { destruct (active g') eqn:A; auto. specialize (Z eq_refl). lia. }
      set (e := current g') in *. set (pre := firstn e s).
      assert (Lp : length pre = e) by (apply firstn_length_le; lia).
      assert (Es : s = pre ++ skipn e s) by (symmetry; apply firstn_skipn).
      assert (Eg : g' = later_gen (length pre) new_generator).
      { rewrite Lp. unfold later_gen. cbn. rewrite Nat.add_0_r. subst e. destruct g'; cbn in *. now subst. }
      split.
      * destruct (range_returns mt cf n (skipn e s) Hm Hu (S (S (length (skipn e s)))) new_generator
          (inside_new _)) as (l & El & _); [cbn; lia|lia|].
        exists l. split; [exact El|]. 
        change (range_elements (S (S (length s))) mt cf n s new_generator)
          with (match next mt cf n s new_generator with
                | Returned (r0, g0) => if matched r0 then
                    match range_elements (S (length s)) mt cf n s g0 with
                    | Returned l0 => Returned (r0 :: l0) | o => o end else Returned []
                | UndefinedBehaviour => UndefinedBehaviour
                | DoesNotCompile => DoesNotCompile
                | DoesNotReturn => DoesNotReturn
                end).
        rewrite E, M. rewrite Eg.
        replace (range_elements (S (length s)) mt cf n s (later_gen (length pre) new_generator))
          with (later_all pre (range_elements (S (length s)) mt cf n (skipn e s) new_generator))
          by (rewrite <- later_range by auto; now rewrite <- Es).
        rewrite (range_more mt cf n (skipn e s) (S (S (length (skipn e s)))) _ _ l); auto.
        -- cbn. now rewrite Lp.
        -- rewrite skipn_length. lia.
      * intros k. destruct (generate_returns mt cf n (skipn e s) Hm Hu k new_generator (inside_new _)) as (l & El & _).
        exists l. split; [exact El|]. cbn [generate]. rewrite E. rewrite Eg.
        replace (generate mt cf n s k (later_gen (length pre) new_generator))
          with (later_all pre (generate mt cf n (skipn e s) k new_generator))
          by (rewrite <- later_generate by auto; now rewrite <- Es).
        rewrite El. cbn. now rewrite Lp.
Qed.
