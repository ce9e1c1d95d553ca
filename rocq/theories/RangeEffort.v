(** Bounds for going through all results of a range. *)
From Verif Require Import RangeCosts Costing Depth Effort Exponential Budget Basics Safe Cong Impl Spec
  Paths Mirror Adequacy Calls Lift Matching.
From Coq Require Import Lia.

Lemma same_next_value mt' mt cf n s g : same_method mt' mt ->
  value (c_next mt' cf n s g) = next mt cf n s g.
Proof. intros H. unfold c_next, next. destruct (active g); [|reflexivity]. cbn. now rewrite H. Qed.

Lemma same_range_value mt' mt cf n s : same_method mt' mt -> forall f g,
  value (c_range_elements f mt' cf n s g) = range_elements f mt cf n s g.
Proof.
  intros H. induction f as [|f IH]; intros g; [reflexivity|]. cbn [c_range_elements range_elements].
  rewrite (same_next_value _ _ cf n s g H). destruct (next mt cf n s g) as [[r g']| | |]; try reflexivity.
  destruct (matched r); [|reflexivity]. cbn. now rewrite IH.
Qed.

Theorem same_ranges r ct s :
  value (c_tokenize r ct s) = tokenize r ct s /\ value (c_find_all r ct s) = find_all r ct s.
Proof.
  unfold c_tokenize, c_find_all, c_range_of, tokenize, find_all, range_of.
  destruct (compilable _ _); [|now split].
  split; apply same_range_value; [apply same_match_prefix|apply same_search].
Qed.

(** The methods of the generators with and without counters. *)
Inductive counted : cmethod -> method -> Prop :=
| counted_prefix : counted c_match_prefix_method match_prefix_method
| counted_search : counted c_search_method search_method.

Lemma counted_same mt' mt : counted mt' mt -> same_method mt' mt.
Proof. intros []; [apply same_match_prefix|apply same_search]. Qed.
Lemma counted_gen mt' mt : counted mt' mt -> gen_method mt.
Proof. intros []; constructor. Qed.
Lemma counted_is mt' mt : counted mt' mt -> is_method mt'.
Proof. intros []; unfold is_method; auto. Qed.

Section Range.
  Variable cf : config.
  Variable n : node.
  Variable s : list ascii.
  Local Notation L := (length s).
  Variable B : nat.   (* steps of one attempt *)
  Hypothesis Hrun : runs cf n.
  Hypothesis HB : forall cur c, cur <= L ->
    steps (c_node_match cf (group_names n) s 0 n cur c c_success) <= B.

  Lemma search_steps : forall f cur c, cur <= L ->
    match out (c_search_loop f cf n s cur c) with
    | Res c' e true => exists b, cur <= b /\ (c' = [] \/ group0 c' = Some (b, e))
                         /\ steps (c_search_loop f cf n s cur c) <= S (b - cur) * S B
    | _ => True
    end.
  Proof.
    induction f as [|f IH]; intros cur c Hc; [exact I|]. cbn [c_search_loop].
    pose proof (HB cur c Hc) as H. cbv zeta. cbn [round out].
    destruct (out (c_node_match cf (group_names n) s 0 n cur c c_success)) as [c' e [|]| | |] eqn:E;
      cbn [with_out out steps round]; try exact I.
    - exists cur. split; [lia|]. split.
      + destruct c' as [|v c']; [now left|right; reflexivity].
      + cbn [steps round]. nia.
    - unfold after. cbn [out steps]. destruct (Nat.eqb_spec cur L); [exact I|].
      specialize (IH (S cur) c' ltac:(lia)).
      destruct (out (c_search_loop f cf n s (S cur) c')) as [c1 e1 [|]| | |]; try exact I.
      destruct IH as (b & Hb & Hg & Hs). exists b. split; [lia|]. split; [exact Hg|].
      cbn [steps round] in *. replace (b - cur) with (S (b - S cur)) by lia. nia.
    - rewrite E. exact I.
    - rewrite E. exact I.
    - rewrite E. exact I.
  Qed.

  Lemma search_total : forall f cur c, cur <= L -> L - cur < f ->
    steps (c_search_loop f cf n s cur c) <= S (L - cur) * S B.
  Proof.
    induction f as [|f IH]; intros cur c Hc Hf; [lia|]. cbn [c_search_loop].
    pose proof (HB cur c Hc) as H. cbv zeta. cbn [round out].
    destruct (out (c_node_match cf (group_names n) s 0 n cur c c_success)) as [c' e [|]| | |] eqn:E;
      cbn [with_out out steps round]; try nia.
    unfold after. cbn [steps round]. destruct (Nat.eqb_spec cur L); [cbn; nia|].
    specialize (IH (S cur) c' ltac:(lia) ltac:(lia)). replace (L - cur) with (S (L - S cur)) by lia. nia.
  Qed.

  (** One call: as many steps as starts are tried. *)
  Lemma method_paid mt' mt cur c : counted mt' mt -> cur <= L -> good (group_names n) s c ->
    exists c' e b, out (mt' cf n s cur c) = Res c' e b /\ cur <= e <= L
      /\ steps (mt' cf n s cur c) <= S (L - cur) * S B
      /\ (b = true -> cell_is_empty (group0 c') = false ->
            cur < e /\ steps (mt' cf n s cur c) <= (e - cur) * S B).
  Proof.
    intros Hm Hc Hg.
    pose proof (gen_method_ok cf n s mt cur c (counted_gen _ _ Hm) Hrun Hc Hg) as Hok.
    rewrite <- (counted_same _ _ Hm) in Hok.
    destruct (out (mt' cf n s cur c)) as [c' e b| | |] eqn:E; try contradiction.
    destruct Hok as (_ & H1 & H2 & H3). exists c', e, b. split; [reflexivity|]. split; [lia|].
    destruct Hm.
    - pose proof (HB cur c Hc) as H.
      assert (Hs : steps (c_match_prefix_method cf n s cur c) <= B).
      { unfold c_match_prefix_method. cbv zeta. destruct (out (c_node_match _ _ _ _ _ _ _ _)); exact H. }
      split; [nia|]. intros -> He. destruct (H3 eq_refl) as (i & Hi & Hie & Hg0).
      rewrite Hg0 in He. cbn in He. apply Nat.eqb_neq in He.
      split; [lia|]. assert (1 <= e - cur) by lia. nia.
    - split; [apply search_total; lia|]. intros -> He. destruct (H3 eq_refl) as (i & Hi & Hie & Hg0).
      rewrite Hg0 in He. cbn in He. apply Nat.eqb_neq in He. split; [lia|].
      pose proof (search_steps (S (L - cur)) cur c Hc) as Hs. unfold c_search_method in *. rewrite E in Hs.
      destruct Hs as (b & Hb & Hg' & Hs). destruct Hg' as [->|Hg']; [discriminate|].
      rewrite Hg0 in Hg'. injection Hg' as <-.
      eapply Nat.le_trans; [exact Hs|]. apply Nat.mul_le_mono_r. lia.
  Qed.

  Lemma range_total mt' mt : counted mt' mt -> forall f g, gen_inside s g ->
    total (c_range_elements f mt' cf n s g)
    <= (if active g then S (L - current g) * S (S B) else 0) + 1.
  Proof.
    intros Hm. induction f as [|f IH]; intros g Hg; [cbn; lia|]. cbn [c_range_elements].
    unfold c_next. destruct (active g) eqn:A; [|cbn; lia].
    destruct (method_paid mt' mt (current g) (initial_captures n) Hm (Hg A) (good_initial n s))
      as (c' & e & b & E & He & Hs & Hp).
    cbv zeta. cbn [value]. rewrite E. cbn [to_call matched deepest total].
    destruct b; cbn [value total].
    - assert (Hg' : gen_inside s (mk_gen e (true && negb (cell_is_empty (group0 c'))))).
      { intros _. cbn. lia. }
      specialize (IH _ Hg'). cbn [active current andb] in *.
      destruct (cell_is_empty (group0 c')); cbn [negb] in *; [nia|].
      destruct (Hp eq_refl eq_refl) as [Hlt Hs'].
      replace (S (L - current g)) with ((e - current g) + S (L - e)) by lia. nia.
    - nia.
  Qed.

  Lemma range_deepest mt' mt D : counted mt' mt ->
    (forall cur c, cur <= L -> depth (mt' cf n s cur c) <= D) -> forall f g, gen_inside s g ->
    deepest (c_range_elements f mt' cf n s g) <= S D.
  Proof.
    intros Hm HD. induction f as [|f IH]; intros g Hg; [cbn; lia|]. cbn [c_range_elements].
    unfold c_next. destruct (active g) eqn:A; [|cbn; lia].
    destruct (method_paid mt' mt (current g) (initial_captures n) Hm (Hg A) (good_initial n s))
      as (c' & e & b & E & He & Hs & Hp).
    specialize (HD (current g) (initial_captures n) (Hg A)).
    cbv zeta. cbn [value]. rewrite E. cbn [to_call matched deepest total].
    destruct b; cbn [deepest]; [|lia].
    assert (Hg' : gen_inside s (mk_gen e (true && negb (cell_is_empty (group0 c'))))).
    { intros _. cbn. lia. }
    specialize (IH _ Hg'). lia.
  Qed.
End Range.

Lemma prefix_attempt cf n s cur c :
  steps (c_match_prefix_method cf n s cur c)
  = steps (c_node_match cf (group_names n) s 0 n cur c c_success).
Proof. unfold c_match_prefix_method. cbv zeta. now destruct (out (c_node_match _ _ _ _ _ _ _ _)). Qed.

(** The ranges of a usable regex. *)
Lemma range_bound r ct s B : usable r ct ->
  (forall cur c, cur <= length s ->
     steps (c_match_prefix_method (config_of (flags r) ct) (ast r) s cur c) <= B) ->
  total (c_tokenize r ct s) <= S (length s) * S (S B) + 1
  /\ total (c_find_all r ct s) <= S (length s) * S (S B) + 1.
Proof.
  intros Hu HB. pose proof (proj1 Hu) as Hc. unfold c_tokenize, c_find_all, c_range_of.
  rewrite Hc. set (cf := config_of (flags r) ct) in *.
  assert (HB' : forall cur c, cur <= length s ->
    steps (c_node_match cf (group_names (ast r)) s 0 (ast r) cur c c_success) <= B).
  { intros cur c H. rewrite <- prefix_attempt. now apply HB. }
  split.
  - pose proof (range_total cf (ast r) s B Hu HB' _ _ counted_prefix (S (S (length s))) _ (inside_new s)) as H.
    cbn [new_generator active current] in H. rewrite Nat.sub_0_r in H. exact H.
  - pose proof (range_total cf (ast r) s B Hu HB' _ _ counted_search (S (S (length s))) _ (inside_new s)) as H.
    cbn [new_generator active current] in H. rewrite Nat.sub_0_r in H. exact H.
Qed.

Theorem range_polynomial r ct : usable r ct -> tame (ast r) = true ->
  exists C, forall s,
    total (c_tokenize r ct s) <= C * S (length s) ^ S (degree (ast r))
    /\ total (c_find_all r ct s) <= C * S (length s) ^ S (degree (ast r)).
Proof.
  intros Hu Ht. destruct (method_steps (config_of (flags r) ct) (ast r) Ht) as (C & H).
  exists (C + 3). intros s. set (P := S (length s) ^ degree (ast r)).
  assert (HP : 1 <= P) by (apply Effort.pow_pos; lia).
  assert (G : S (length s) * S (S (C * P)) + 1 <= (C + 3) * S (length s) ^ S (degree (ast r))).
  { rewrite Nat.pow_succ_r'. fold P. nia. }
  destruct (range_bound r ct s (C * P) Hu) as [H1 H2]; [intros cur c Hc; now apply H|]. lia.
Qed.

Theorem range_exponential r ct : usable r ct ->
  exists B, forall s,
    total (c_tokenize r ct s) <= B ^ S (length s) /\ total (c_find_all r ct s) <= B ^ S (length s).
Proof.
  intros Hu. destruct (method_exponential (config_of (flags r) ct) (ast r)) as (B & H2 & H).
  exists (2 * (3 * B)). intros s. set (L := length s). set (X := B ^ S L).
  assert (HX : 2 <= X).
  { unfold X. cbn [Nat.pow]. pose proof (Effort.pow_pos B L ltac:(lia)) as Hp. nia. }
  assert (G : S L * S (S X) + 1 <= (2 * (3 * B)) ^ S L).
  { rewrite (Nat.pow_mul_l 2), (Nat.pow_mul_l 3). fold X.
    pose proof (pow_above 2 (S L) (le_n _)).
    assert (3 * X <= 3 ^ S L * X).
    { apply Nat.mul_le_mono_r. cbn [Nat.pow]. pose proof (Effort.pow_pos 3 L ltac:(lia)). lia. }
    set (Y := 3 ^ S L * X) in *. set (Z := 2 ^ S L) in *. clearbody X Y Z. nia. }
  destruct (range_bound r ct s X Hu) as [H1 H1'].
  { intros cur c Hc. apply H; [unfold is_method; auto|exact Hc]. }
  fold L in H1, H1'. lia.
Qed.

Theorem range_depth r ct : usable r ct ->
  exists A a, forall s,
    deepest (c_tokenize r ct s) <= A + a * length s /\ deepest (c_find_all r ct s) <= A + a * length s.
Proof.
  intros Hu. destruct (method_depth (config_of (flags r) ct) (ast r)) as (A & a & _ & H).
  destruct (method_exponential (config_of (flags r) ct) (ast r)) as (B & _ & HB).
  exists (S A), a. intros s. pose proof (proj1 Hu) as Hc. unfold c_tokenize, c_find_all, c_range_of.
  rewrite Hc. set (cf := config_of (flags r) ct) in *.
  assert (HB' : forall cur c, cur <= length s ->
    steps (c_node_match cf (group_names (ast r)) s 0 (ast r) cur c c_success) <= B ^ S (length s)).
  { intros cur c Hl. rewrite <- prefix_attempt. apply HB; [unfold is_method; auto|exact Hl]. }
  split; cbn [Nat.add]; (eapply range_deepest; [exact Hu|exact HB'|constructor| |apply inside_new]);
    intros cur c Hl; (apply H; [unfold is_method; auto|exact Hl]).
Qed.

(** Every result takes a step, and so does finding out that there are no more. *)
Lemma elements_counted mt cf n s : forall f g l,
  value (c_range_elements f mt cf n s g) = Returned l -> length l < total (c_range_elements f mt cf n s g).
Proof.
  induction f as [|f IH]; intros g l E; cbn [c_range_elements] in *; [discriminate|].
  assert (H : 1 <= total (c_next mt cf n s g)).
  { unfold c_next. destruct (active g); cbn; lia. }
  destruct (value (c_next mt cf n s g)) as [[r g']| | |]; try discriminate.
  destruct (matched r); cbn [value total] in *.
  - destruct (value (c_range_elements f mt cf n s g')) as [q| | |] eqn:Eq; try discriminate.
    injection E as <-. specialize (IH g' q Eq). cbn [length]. lia.
  - injection E as <-. cbn. lia.
Qed.

Theorem results_counted r ct s l :
  (value (c_tokenize r ct s) = Returned l -> length l < total (c_tokenize r ct s))
  /\ (value (c_find_all r ct s) = Returned l -> length l < total (c_find_all r ct s)).
Proof.
  unfold c_tokenize, c_find_all, c_range_of. destruct (compilable _ _); split; try discriminate; apply elements_counted.
Qed.
