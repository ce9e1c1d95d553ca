(** The functions of Costs.v have the outcomes of those of Matcher.v and Api.v. *)
From Verif Require Import Costs Basics.

Definition same_cont (k' : ccont) (k : cont) : Prop := forall j c, out (k' j c) = k j c.
Definition same_matcher (mx' : cmatcher) (mx : matcher) : Prop :=
  forall k' k, same_cont k' k -> forall cur c, out (mx' cur c k') = mx cur c k.

Lemma out_or_else o' o f' f : out o' = o -> (forall c, out (f' c) = f c) ->
  out (c_or_else o' f') = or_else o f.
Proof.
  intros <- H. unfold c_or_else, or_else. destruct (out o') as [c e []| | |] eqn:E; auto.
  cbn. apply H.
Qed.

Lemma out_on_result o' o f' f g' g : out o' = o ->
  (forall e c, out (f' e c) = f e c) -> (forall c, out (g' c) = g c) ->
  out (c_on_result o' f' g') = on_result o f g.
Proof.
  intros <- H1 H2. unfold c_on_result, on_result.
  destruct (out o') as [c e []| | |] eqn:E; cbn; auto.
Qed.

Lemma out_deref s i f' f : (forall a, out (f' a) = f a) -> out (c_deref s i f') = deref s i f.
Proof. intros H. unfold c_deref, deref. now destruct (nth_error s i). Qed.

Lemma same_success : same_cont c_success success.
Proof. now intros j c. Qed.
Lemma same_equals n : same_cont (c_equals n) (equals n).
Proof. now intros j c. Qed.

Local Hint Resolve same_success same_equals : core.

(** Ends the simple cases. *)
Local Ltac easily :=
  repeat first
    [ reflexivity
    | assumption
    | match goal with H : same_cont ?k' _ |- out (?k' _ _) = _ => apply H end
    | match goal with H : same_matcher ?k' _ |- out (?k' _ _ _) = _ => apply H; [intros ? ?|..] end
    | apply out_deref; intros
    | apply out_or_else; [|intros]
    | apply out_on_result; [|intros|intros]
    | match goal with |- context [if ?b then _ else _] => destruct b end
    | progress cbn [out called round paid leaf c_non_match] ].

Lemma same_trivial s p : same_matcher (c_match_trivial s p) (match_trivial s p).
Proof. intros k' k H cur c. unfold c_match_trivial, match_trivial. easily. Qed.

Lemma same_block_random s ps :
  same_matcher (c_trivial_block_random s ps) (trivial_block_random s ps).
Proof.
  intros k' k H cur c. unfold c_trivial_block_random, trivial_block_random. cbn [out paid].
  destruct (all_at s ps cur) as [[]|]; easily.
Qed.

Lemma same_block_forward s ps :
  same_matcher (c_sequence_block_forward s ps) (sequence_block_forward s ps).
Proof.
  intros k' k H. induction ps as [|p r IH]; intros cur c; [easily|].
  cbn [c_sequence_block_forward sequence_block_forward]. destruct r; easily. apply IH.
Qed.

Lemma same_repetition_random s p todo offset :
  same_matcher (c_repetition_loop_random s p todo offset) (repetition_loop_random s p todo offset).
Proof.
  intros k' k H. revert offset. induction todo as [|t IH]; intros offset cur c;
    cbn [c_repetition_loop_random repetition_loop_random]; easily. apply IH.
Qed.

Lemma same_repetition_forward s p n :
  same_matcher (c_repetition_block_forward s p n) (repetition_block_forward s p n).
Proof.
  intros k' k H. induction n as [|n IH]; intros cur c;
    cbn [c_repetition_block_forward repetition_block_forward]; easily. apply IH.
Qed.

Lemma same_possessive_trivial fuel s p b :
  same_matcher (c_possessive_trivial fuel s p b) (possessive_trivial fuel s p b).
Proof.
  intros k' k H. revert b. induction fuel as [|f IH]; intros b cur c;
    cbn [c_possessive_trivial possessive_trivial]; easily. apply IH.
Qed.

Lemma same_step_back k' k : same_cont k' k ->
  forall d initial c, out (c_step_back initial d c k') = step_back initial d c k.
Proof.
  intros H. induction d as [|d IH]; intros initial c; cbn [c_step_back step_back]; easily.
  apply IH.
Qed.

Lemma same_lazy_trivial fuel s p b :
  same_matcher (c_lazy_trivial fuel s p b) (lazy_trivial fuel s p b).
Proof.
  intros k' k H. revert b. induction fuel as [|f IH]; intros b cur c;
    cbn [c_lazy_trivial lazy_trivial]; easily. apply IH.
Qed.

Lemma same_unrolled mx' mx n : same_matcher mx' mx ->
  same_matcher (c_unrolled_backtracking mx' n) (unrolled_backtracking mx n).
Proof.
  intros M k' k H. induction n as [|n IH]; intros cur c;
    cbn [c_unrolled_backtracking unrolled_backtracking]; [easily|].
  destruct n; easily. apply IH.
Qed.

Lemma same_non_unrolled mx' mx n : same_matcher mx' mx ->
  same_matcher (c_non_unrolled_backtracking mx' n) (non_unrolled_backtracking mx n).
Proof.
  intros M k' k H. induction n as [|n IH]; intros cur c;
    cbn [c_non_unrolled_backtracking non_unrolled_backtracking]; [easily|].
  easily. apply IH.
Qed.

Lemma same_continue w cur k' k : same_cont k' k ->
  same_cont (c_continue_unless_infinite_loop w cur k') (continue_unless_infinite_loop w cur k).
Proof.
  intros H j c. unfold c_continue_unless_infinite_loop, continue_unless_infinite_loop. easily.
Qed.

Lemma same_possessive_generic fuel mx' mx w b : same_matcher mx' mx ->
  same_matcher (c_possessive_generic fuel mx' w b) (possessive_generic fuel mx w b).
Proof.
  intros M k' k H. revert b. induction fuel as [|f IH]; intros b cur c;
    cbn [c_possessive_generic possessive_generic]; easily. apply IH.
Qed.

Lemma same_greedy_generic fuel mx' mx w b : same_matcher mx' mx ->
  same_matcher (c_greedy_generic fuel mx' w b) (greedy_generic fuel mx w b).
Proof.
  intros M k' k H. revert b. induction fuel as [|f IH]; intros b cur c;
    cbn [c_greedy_generic greedy_generic]; easily.
  apply same_continue. intros j' c'. apply IH.
Qed.

Lemma same_lazy_generic fuel mx' mx w b : same_matcher mx' mx ->
  same_matcher (c_lazy_generic fuel mx' w b) (lazy_generic fuel mx w b).
Proof.
  intros M k' k H. revert b. induction fuel as [|f IH]; intros b cur c;
    cbn [c_lazy_generic lazy_generic]; easily.
  apply same_continue. intros j' c'. apply IH.
Qed.

Lemma same_backref_loop cf s t : same_matcher (c_backref_loop cf s t) (backref_loop cf s t).
Proof.
  intros k' k H. induction t as [|a r IH]; intros cur c;
    cbn [c_backref_loop backref_loop]; easily. apply IH.
Qed.

Section Same.
  Variable cf : config.
  Variable names : list group_name.
  Variable base : list ascii.

  Lemma same_seq s mm' mm l : (forall x, same_matcher (mm' x) (mm x)) ->
    same_matcher (c_seq_match cf s mm' l) (seq_match cf s mm l).
  Proof.
    intros M k' k H. induction l as [|x r IH]; intros cur c; [reflexivity|].
    cbn [c_seq_match seq_match]. destruct r; [now apply M|].
    destruct (forallb _ _); cbn [out called paid].
    - destruct (distance_less_than _ _ _ _); [reflexivity|].
      destruct (is_random cf); [now apply same_block_random|now apply same_block_forward].
    - apply M. intros j c'. apply IH.
  Qed.

  Lemma same_alt s mm' mm l : (forall x, same_matcher (mm' x) (mm x)) ->
    same_matcher (c_alt_match cf s mm' l) (alt_match cf s mm l).
  Proof.
    intros M k' k H. induction l as [|x r IH]; intros cur c; [reflexivity|].
    cbn [c_alt_match alt_match]. destruct r; [now apply M|].
    destruct (forallb _ _); cbn [out called].
    - now apply same_trivial.
    - apply out_or_else; [now apply M|]. intros c'. apply IH.
  Qed.

  Lemma same_fixed_backtracking s x mx' mx n : same_matcher mx' mx ->
    same_matcher (c_fixed_backtracking cf s x mx' n) (fixed_backtracking cf s x mx n).
  Proof.
    intros M k' k H cur c. unfold c_fixed_backtracking, fixed_backtracking.
    destruct (trivial x).
    - cbn [out paid]. destruct (distance_less_than _ _ _ _); [reflexivity|].
      destruct (is_random cf); [destruct (unroll cf)|].
      + now apply same_block_random.
      + now apply same_repetition_random.
      + now apply same_repetition_forward.
    - destruct (unroll cf); [now apply same_unrolled|now apply same_non_unrolled].
  Qed.

  Lemma same_fixed s mode n x mx' mx : same_matcher mx' mx ->
    same_matcher (c_fixed_match cf s mode n x mx') (fixed_match cf s mode n x mx).
  Proof.
    intros M k' k H cur c. unfold c_fixed_match, fixed_match.
    pose proof (same_fixed_backtracking s x mx' mx n M) as F.
    destruct (N.eqb n 0); [apply H|]. destruct (N.eqb n 1).
    - destruct mode; try now apply M. destruct (trivial x); [now apply M|].
      cbn [out called]. apply out_on_result; [now apply M| |]; intros; [apply H|reflexivity].
    - cbn [out called]. destruct mode; try now apply F.
      apply out_on_result; [now apply F| |]; intros; [apply H|reflexivity].
  Qed.

  Lemma same_between s mode b w x mx' mx : same_matcher mx' mx ->
    same_matcher (c_between_bounds cf s mode b w x mx') (between_bounds cf s mode b w x mx).
  Proof.
    intros M k' k H cur c. unfold c_between_bounds, between_bounds.
    assert (G : forall g : bool, out
       (if xorb g (ungreedy cf) then
          if trivial x && is_bidirectional cf then
            c_possessive_trivial (loop_fuel b (length s) cur) s (match_one cf x) b cur c
              (fun next c' => c_step_back cur (next - cur) c' k')
          else c_greedy_generic (loop_fuel b (length s) cur) mx' w b cur c k'
        else if trivial x then c_lazy_trivial (loop_fuel b (length s) cur) s (match_one cf x) b cur c k'
        else c_lazy_generic (loop_fuel b (length s) cur) mx' w b cur c k') =
       (if xorb g (ungreedy cf) then
          if trivial x && is_bidirectional cf then
            possessive_trivial (loop_fuel b (length s) cur) s (match_one cf x) b cur c
              (fun next c' => step_back cur (next - cur) c' k)
          else greedy_generic (loop_fuel b (length s) cur) mx w b cur c k
        else if trivial x then lazy_trivial (loop_fuel b (length s) cur) s (match_one cf x) b cur c k
        else lazy_generic (loop_fuel b (length s) cur) mx w b cur c k)).
    { intros g. destruct (xorb g _).
      - destruct (_ && _)%bool.
        + apply same_possessive_trivial. intros j c'. now apply same_step_back.
        + now apply same_greedy_generic.
      - destruct (trivial x); [now apply same_lazy_trivial|now apply same_lazy_generic]. }
    destruct mode; try apply G.
    destruct (trivial x); [now apply same_possessive_trivial|now apply same_possessive_generic].
  Qed.

  Lemma same_rep s mode lo hi x mx' mx : same_matcher mx' mx ->
    same_matcher (c_rep_match cf s mode lo hi x mx') (rep_match cf s mode lo hi x mx).
  Proof.
    intros M k' k H cur c. unfold c_rep_match, rep_match.
    destruct (match hi with Fin h => N.eqb lo h | Inf => false end); [now apply same_fixed|].
    cbn [out called]. destruct (is_zero lo); [now apply same_between|].
    apply same_fixed; auto. intros j c'. now apply same_between.
  Qed.

  Lemma same_backref rd i :
    same_matcher (c_backref_match cf base rd i) (backref_match cf base rd i).
  Proof.
    intros k' k H cur c. unfold c_backref_match, backref_match.
    destruct (nth_error c i) as [v|]; [|reflexivity].
    destruct (match v with Some p => p | None => (0, 0) end) as [b e].
    cbn [out paid]. destruct (distance_less_than _ _ _ _); [reflexivity|].
    destruct (_ || _)%bool; [reflexivity|]. now apply same_backref_loop.
  Qed.

  (** The outcome does not depend on the counting. *)
  Theorem same_m f : forall rd n, same_matcher (c_m cf names base f rd n) (m cf names base f rd n).
  Proof.
    induction f as [|f IH]; intros rd n k' k H cur c; [reflexivity|].
    destruct n; cbn [c_m m]; try (now apply same_trivial).
    all: unfold c_assert_that, assert_that.
    1-6: easily.
    - cbn [out called]. destruct (is_assertion n).
      + apply out_on_result; [now apply IH| |]; intros; [reflexivity|apply H].
      + now apply same_trivial.
    - apply same_seq; auto.
    - apply same_alt; auto.
    - cbn [out called]. apply out_or_else.
      + apply IH. intros j c'. destruct (store _ _ _ _ _ _ _); [apply H|reflexivity].
      + intros c'. now destruct (clear_cell _ _).
    - apply same_rep; auto.
    - now apply same_backref.
    - destruct (unique_position _ _); [now apply same_backref|reflexivity].
    - destruct d.
      + cbn [out called]. destruct (trivial n); [easily|].
        apply out_on_result; [now apply IH| |]; intros; [apply H|reflexivity].
      + destruct (negb _); [reflexivity|]. cbn [out called]. destruct (trivial n); [easily|].
        apply out_on_result; [now apply IH| |]; intros; [apply H|reflexivity].
  Qed.
End Same.

Definition same_method (mt' : cmethod) (mt : method) : Prop :=
  forall cf n s cur c, out (mt' cf n s cur c) = mt cf n s cur c.

Lemma same_match : same_method c_match_method match_method.
Proof.
  intros cf n s cur c. unfold c_match_method, match_method, node_match.
  rewrite <- (same_m cf (group_names n) s (size n) 0 n _ _ (same_equals (length s)) cur c).
  unfold c_node_match. cbv zeta. destruct (out (c_m _ _ _ _ _ _ _ _ _)) as [? ? ?| | |] eqn:E; cbn [out with_out]; auto.
Qed.

Lemma same_match_prefix : same_method c_match_prefix_method match_prefix_method.
Proof.
  intros cf n s cur c. unfold c_match_prefix_method, match_prefix_method, node_match.
  rewrite <- (same_m cf (group_names n) s (size n) 0 n _ _ same_success cur c).
  unfold c_node_match. cbv zeta. destruct (out (c_m _ _ _ _ _ _ _ _ _)) as [? ? ?| | |] eqn:E; cbn [out with_out]; auto.
Qed.

Lemma same_search_loop f : forall cf n s cur c,
  out (c_search_loop f cf n s cur c) = search_loop f cf n s cur c.
Proof.
  induction f as [|f IH]; intros cf n s cur c; [reflexivity|].
  cbn [c_search_loop search_loop]. unfold node_match.
  rewrite <- (same_m cf (group_names n) s (size n) 0 n _ _ same_success cur c).
  unfold c_node_match. cbn [round out].
  destruct (out (c_m _ _ _ _ _ _ _ _ _)) as [c' e []| | |] eqn:E; cbn [out with_out after round]; auto.
  destruct (Nat.eqb _ _); [reflexivity|apply IH].
Qed.

Lemma same_search : same_method c_search_method search_method.
Proof. intros cf n s cur c. apply same_search_loop. Qed.
