(** Invariants of the captures kept by every run, backreferences included:
    what only depends on the groups that the tree contains. *)
From Verif Require Import Matcher Api Basics Safe Cong Impl Spec Paths Adequacy Calls Groups
  Parser Shape.

Section Keeps.
  Variable cf : config.
  Variable names : list group_name.
  Variable base : list ascii.
  Variable Inv : caps -> Prop.
  Variable Cl : N -> Prop.
  Hypothesis Inv_clear : forall id c c', Cl id -> Inv c ->
    clear_cell (N.to_nat id) c = Some c' -> Inv c'.
  Hypothesis Inv_store : forall r id nm b e c c', Cl id -> Inv c ->
    store names base r id nm b e c = Some c' -> Inv c'.

  Definition post (o : outcome) : Prop := match o with Res c _ _ => Inv c | _ => True end.
  Definition keeps (k : cont) : Prop := forall j c, Inv c -> post (k j c).
  Definition keeps_m (mx : matcher) : Prop := forall cur c k, Inv c -> keeps k -> post (mx cur c k).

  Lemma post_non_match cur c : Inv c -> post (non_match cur c).
  Proof. auto. Qed.

  Lemma post_or_else o f : post o -> (forall c, Inv c -> post (f c)) -> post (or_else o f).
  Proof. destruct o as [c e [|]| | |]; cbn; auto. Qed.

  Lemma post_on_result o f g : post o -> (forall e c, Inv c -> post (f e c)) ->
    (forall c, Inv c -> post (g c)) -> post (on_result o f g).
  Proof. destruct o as [c e [|]| | |]; cbn; auto. Qed.

  Lemma post_deref s i f : (forall a, post (f a)) -> post (deref s i f).
  Proof. unfold deref. destruct (nth_error s i); cbn; auto. Qed.

  Lemma post_assert b cur c k : Inv c -> keeps k -> post (assert_that b cur c k).
  Proof. intros. unfold assert_that. destruct b; [auto|now apply post_non_match]. Qed.

  Lemma keeps_success : keeps success.
  Proof. intros j c H. exact H. Qed.

  Lemma keeps_equals t : keeps (equals t).
  Proof. intros j c H. exact H. Qed.

  Hint Resolve post_non_match keeps_success post_assert : keep.

  Section Text.
    Variable s : list ascii.

    Lemma keeps_trivial p : keeps_m (match_trivial s p).
    Proof.
      intros cur c k Hi Hk. unfold match_trivial. destruct (Nat.eqb cur (length s)); auto with keep.
      apply post_deref. intros a. destruct (p a); auto with keep.
    Qed.

    Lemma keeps_block_random ps : keeps_m (trivial_block_random s ps).
    Proof.
      intros cur c k Hi Hk. unfold trivial_block_random.
      destruct (all_at s ps cur) as [[|]|]; auto with keep. exact I.
    Qed.

    Lemma keeps_block_forward ps : keeps_m (sequence_block_forward s ps).
    Proof.
      induction ps as [|p r IH]; intros cur c k Hi Hk; [exact I|]. cbn [sequence_block_forward].
      destruct r; apply post_deref; intros a; destruct (p a); auto with keep.
    Qed.

    Lemma keeps_loop_random p : forall todo off cur c k, Inv c -> keeps k ->
      post (repetition_loop_random s p todo off cur c k).
    Proof.
      induction todo as [|t IH]; intros off cur c k Hi Hk; cbn [repetition_loop_random]; auto.
      apply post_deref. intros a. destruct (negb (p a)); auto with keep.
    Qed.

    Lemma keeps_forward p : forall n, keeps_m (repetition_block_forward s p n).
    Proof.
      induction n as [|n IH]; intros cur c k Hi Hk; cbn [repetition_block_forward]; auto.
      apply post_deref. intros a. destruct (p a); auto with keep.
    Qed.

    Lemma keeps_possessive_trivial p : forall fuel b, keeps_m (possessive_trivial fuel s p b).
    Proof.
      induction fuel as [|f IH]; intros b cur c k Hi Hk; [exact I|]. cbn [possessive_trivial].
      destruct (bound_is_zero b); auto. destruct (Nat.eqb cur (length s)); auto.
      apply post_deref. intros a. destruct (p a); auto. now apply IH.
    Qed.

    Lemma keeps_step_back : forall d initial c k, Inv c -> keeps k -> post (step_back initial d c k).
    Proof.
      induction d as [|d IH]; intros initial c k Hi Hk; cbn [step_back];
        (apply post_or_else; [auto|]; intros; auto with keep).
    Qed.

    Lemma keeps_lazy_trivial p : forall fuel b, keeps_m (lazy_trivial fuel s p b).
    Proof.
      induction fuel as [|f IH]; intros b cur c k Hi Hk; [exact I|]. cbn [lazy_trivial].
      apply post_or_else; [auto|]. intros c' Hi'.
      destruct (bound_is_zero b); auto with keep. destruct (Nat.eqb cur (length s)); auto with keep.
      apply post_deref. intros a. destruct (p a); auto with keep. now apply IH.
    Qed.

    Lemma keeps_unrolled mx : keeps_m mx -> forall n, keeps_m (unrolled_backtracking mx n).
    Proof.
      intros Hm. induction n as [|n IH]; intros cur c k Hi Hk; cbn [unrolled_backtracking]; auto.
      destruct n; apply Hm; auto. intros j c' Hi'. now apply IH.
    Qed.

    Lemma keeps_non_unrolled mx : keeps_m mx -> forall n, keeps_m (non_unrolled_backtracking mx n).
    Proof.
      intros Hm. induction n as [|n IH]; intros cur c k Hi Hk; [exact I|].
      cbn [non_unrolled_backtracking]. destruct (Nat.eqb (S n) 1); apply Hm; auto.
      intros j c' Hi'. now apply IH.
    Qed.

    Lemma keeps_continue w cur k : keeps k -> keeps (continue_unless_infinite_loop w cur k).
    Proof.
      intros Hk j c Hi. unfold continue_unless_infinite_loop.
      destruct (w && Nat.eqb cur j); auto with keep.
    Qed.

    Lemma keeps_possessive_generic mx w : keeps_m mx -> forall fuel b,
      keeps_m (possessive_generic fuel mx w b).
    Proof.
      intros Hm. induction fuel as [|f IH]; intros b cur c k Hi Hk; [exact I|].
      cbn [possessive_generic]. destruct (bound_is_zero b); auto.
      apply post_on_result; auto with keep. intros e c' Hi'.
      destruct (w && Nat.eqb cur e); auto. now apply IH.
    Qed.

    Lemma keeps_greedy_generic mx w : keeps_m mx -> forall fuel b,
      keeps_m (greedy_generic fuel mx w b).
    Proof.
      intros Hm. induction fuel as [|f IH]; intros b cur c k Hi Hk; [exact I|].
      cbn [greedy_generic]. destruct (bound_is_zero b); auto.
      apply post_or_else; auto. apply Hm; auto. apply keeps_continue.
      intros j c' Hi'. now apply IH.
    Qed.

    Lemma keeps_lazy_generic mx w : keeps_m mx -> forall fuel b,
      keeps_m (lazy_generic fuel mx w b).
    Proof.
      intros Hm. induction fuel as [|f IH]; intros b cur c k Hi Hk; [exact I|].
      cbn [lazy_generic]. apply post_or_else; auto. intros c' Hi'.
      destruct (bound_is_zero b); auto with keep. apply Hm; auto. apply keeps_continue.
      intros j c'' Hi''. now apply IH.
    Qed.

    Lemma keeps_fixed_backtracking x mx n : keeps_m mx -> keeps_m (fixed_backtracking cf s x mx n).
    Proof.
      intros Hm cur c k Hi Hk. unfold fixed_backtracking.
      destruct (trivial x).
      - destruct (distance_less_than _ _ _ _); auto with keep. destruct (is_random cf).
        + destruct (unroll cf); [now apply keeps_block_random|now apply keeps_loop_random].
        + now apply keeps_forward.
      - destruct (unroll cf); [now apply keeps_unrolled|now apply keeps_non_unrolled].
    Qed.

    Lemma keeps_fixed md n x mx : keeps_m mx -> keeps_m (fixed_match cf s md n x mx).
    Proof.
      intros Hm cur c k Hi Hk. unfold fixed_match. destruct (N.eqb n 0); auto.
      destruct (N.eqb n 1).
      - destruct md; auto. destruct (trivial x); auto. apply post_on_result; auto with keep.
      - destruct md; try now apply keeps_fixed_backtracking.
        apply post_on_result; auto with keep. apply keeps_fixed_backtracking; auto with keep.
    Qed.

    Lemma keeps_between md b w x mx : keeps_m mx -> keeps_m (between_bounds cf s md b w x mx).
    Proof.
      intros Hm cur c k Hi Hk. unfold between_bounds.
      assert (Hp : forall fuel, post (possessive_trivial fuel s (match_one cf x) b cur c
                 (fun next c' => step_back cur (next - cur) c' k))).
      { intros. apply keeps_possessive_trivial; auto. intros j c' Hi'. now apply keeps_step_back. }
      destruct md.
      3: { destruct (trivial x);
             [now apply keeps_possessive_trivial|now apply keeps_possessive_generic]. }
      all: destruct (xorb _ _);
        [destruct (trivial x && is_bidirectional cf); [auto|now apply keeps_greedy_generic]
        |destruct (trivial x); [now apply keeps_lazy_trivial|now apply keeps_lazy_generic]].
    Qed.

    Lemma keeps_rep md lo hi x mx : keeps_m mx -> keeps_m (rep_match cf s md lo hi x mx).
    Proof.
      intros Hm cur c k Hi Hk. unfold rep_match.
      destruct (match hi with Fin h => N.eqb lo h | Inf => false end); [now apply keeps_fixed|].
      destruct (is_zero lo); [now apply keeps_between|].
      apply keeps_fixed; auto. intros j c' Hi'. now apply keeps_between.
    Qed.

    Lemma keeps_seq mm l : Forall (fun x => keeps_m (mm x)) l -> keeps_m (seq_match cf s mm l).
    Proof.
      induction 1 as [|x r Hx Hr IH]; intros cur c k Hi Hk; [exact I|].
      destruct r as [|y r']; [now apply Hx|].
      rewrite seq_match_cons by discriminate. remember (y :: r') as r.
      destruct (forallb trivial (x :: r)).
      - destruct (distance_less_than _ _ _ _); auto with keep.
        destruct (is_random cf); [now apply keeps_block_random|now apply keeps_block_forward].
      - apply Hx; auto. intros j c' Hi'. now apply IH.
    Qed.

    Lemma keeps_alt mm l : Forall (fun x => keeps_m (mm x)) l -> keeps_m (alt_match cf s mm l).
    Proof.
      induction 1 as [|x r Hx Hr IH]; intros cur c k Hi Hk; [exact I|].
      destruct r as [|y r']; [now apply Hx|].
      rewrite alt_match_cons by discriminate. remember (y :: r') as r.
      destruct (forallb trivial (x :: r)); [now apply keeps_trivial|].
      apply post_or_else; auto.
    Qed.

    Lemma keeps_backref_loop t : keeps_m (backref_loop cf s t).
    Proof.
      induction t as [|a r IH]; intros cur c k Hi Hk; cbn [backref_loop]; auto.
      apply post_deref. intros b. destruct (backref_char_eq cf a b); auto with keep.
    Qed.
  End Text.

  Lemma keeps_backref rd i : keeps_m (backref_match cf base rd i).
  Proof.
    intros cur c k Hi Hk. unfold backref_match. destruct (nth_error c i) as [v|]; [|exact I].
    destruct (match v with Some p => p | None => (0, 0) end) as [b e].
    destruct (distance_less_than _ _ _ _); auto with keep.
    destruct (Nat.ltb e b || Nat.ltb (len base) e); [exact I|]. now apply keeps_backref_loop.
  Qed.

  Definition groups_among (n : node) : Prop := forall id x, group_in n id x -> Cl id.

  Lemma group_in_invert n : forall id x, group_in (invert n) id x -> exists z, group_in n id z.
  Proof.
    induction n using node_ind'; intros i y Hg; try (cbn [invert] in Hg; inversion Hg; fail).
    - cbn [invert] in Hg. inversion Hg as [| | | | |? ? ? Hx|]; subst.
      destruct (IHn _ _ Hx) as [z Hz]. exists z. now constructor.
    - rewrite invert_Seq in Hg. inversion Hg as [| |? ? ? ? Hin Hx| | | |]; subst.
      apply in_rev, in_map_iff in Hin as (x0 & <- & Hx0). rewrite Forall_forall in H.
      destruct (H _ Hx0 _ _ Hx) as [z Hz]. exists z. econstructor; eauto.
    - cbn [invert] in Hg. inversion Hg as [| | |? ? ? ? Hin Hx| | |]; subst.
      apply in_map_iff in Hin as (x0 & <- & Hx0). rewrite Forall_forall in H.
      destruct (H _ Hx0 _ _ Hx) as [z Hz]. exists z. econstructor; eauto.
    - cbn [invert] in Hg. inversion Hg as [|? ? ? ? ? Hx| | | | |]; subst.
      + exists n. constructor.
      + destruct (IHn _ _ Hx) as [z Hz]. exists z. now constructor.
    - cbn [invert] in Hg. inversion Hg as [| | | |? ? ? ? ? ? Hx| |]; subst.
      destruct (IHn _ _ Hx) as [z Hz]. exists z. now constructor.
    - cbn [invert] in Hg. inversion Hg as [| | | | | |? ? ? ? Hx]; subst.
      exists y. now constructor.
  Qed.

  Theorem keeps_captures : forall f rd n, groups_among n -> keeps_m (m cf names base f rd n).
  Proof.
    induction f as [|f IH]; intros rd n Hg cur c k Hi Hk; [exact I|].
    destruct n; cbn [m].
    - auto.
    - destruct (Nat.eqb cur 0); auto. destruct (multiline cf); auto with keep.
      destruct (is_bidirectional cf); [|exact I]. apply post_deref. auto with keep.
    - auto with keep.
    - destruct (Nat.eqb cur _); auto. destruct (multiline cf); auto with keep.
      apply post_deref. auto with keep.
    - auto with keep.
    - destruct (negb (is_bidirectional cf)); [exact I|].
      assert (Ha : forall b, post (if Nat.eqb cur (length (view base rd))
                 then assert_that (xorb b false) cur c k
                 else deref (view base rd) cur (fun a =>
                        assert_that (xorb b (match_one cf n_word a)) cur c k))).
      { intros b. destruct (Nat.eqb cur _); auto with keep. apply post_deref. auto with keep. }
      destruct (Nat.eqb cur 0); auto. apply post_deref. auto.
    - now apply keeps_trivial.
    - now apply keeps_trivial.
    - now apply keeps_trivial.
    - now apply keeps_trivial.
    - destruct (is_assertion n); [|now apply keeps_trivial].
      apply post_on_result; auto with keep. apply IH; auto with keep.
      intros i y Hy. eapply Hg. constructor. exact Hy.
    - apply keeps_seq; auto. apply Forall_forall. intros x Hx. apply IH.
      intros i y Hy. eapply Hg. econstructor; eauto.
    - apply keeps_alt; auto. apply Forall_forall. intros x Hx. apply IH.
      intros i y Hy. eapply Hg. econstructor; eauto.
    - pose proof (Hg _ _ (gi_here id name n)) as Hid. apply post_or_else.
      + apply IH; auto.
        * intros i y Hy. eapply Hg. constructor. exact Hy.
        * intros j c' Hi'. destruct (store _ _ _ _ _ _ _ _) eqn:E; [|exact I]. eauto.
      + intros c' Hi'. destruct (clear_cell _ _) eqn:E; [|exact I]. cbn. eauto.
    - apply keeps_rep; auto. apply IH. intros i y Hy. eapply Hg. constructor. exact Hy.
    - now apply keeps_backref.
    - destruct (unique_position _ _); [now apply keeps_backref|exact I].
    - destruct d.
      + destruct (trivial n).
        * destruct (Nat.eqb cur _); auto with keep. apply post_deref. auto with keep.
        * apply post_on_result; auto with keep. apply IH; auto with keep.
          intros i y Hy. eapply Hg. constructor. exact Hy.
      + destruct (negb (is_bidirectional cf)); [exact I|]. destruct (trivial n).
        * destruct (Nat.eqb cur 0); auto with keep. apply post_deref. auto with keep.
        * apply post_on_result; auto with keep. apply IH; auto with keep.
          intros i y Hy. destruct (group_in_invert _ _ _ Hy) as [z Hz].
          eapply Hg. constructor. exact Hz.
  Qed.
End Keeps.

(** ** Failed calls *)

(** Group 0 is not written by the tree itself. *)
Definition no_group0 (n : node) : Prop := forall x, ~ group_in n 0 x.

Section Group0.
  Variable cf : config.
  Variable n : node.
  Variable s : list ascii.
  Hypothesis H0 : no_group0 n.

  Lemma run_keeps_group0 v cur c k c' e b : hd_error c = Some v ->
    k = success \/ k = equals (length s) ->
    node_match cf (group_names n) s 0 n cur c k = Res c' e b -> hd_error c' = Some v.
  Proof.
    intros Hc Hk E.
    assert (Hset : forall i w (c c' : caps), i <> 0%N -> set_cell (N.to_nat i) w c = Some c' ->
              hd_error c = Some v -> hd_error c' = Some v).
    { intros i w [|x r] c2 Hi E' H; [discriminate|].
      destruct (N.to_nat i) as [|j] eqn:Ej; [lia|]. cbn in E'.
      destruct (set_cell j w r); [|discriminate]. injection E' as <-. exact H. }
    pose proof (keeps_captures cf (group_names n) s (fun c => hd_error c = Some v)
                  (fun i => i <> 0%N)) as K.
    assert (P : post (fun c => hd_error c = Some v)
                  (node_match cf (group_names n) s 0 n cur c k)).
    { apply K; auto.
      - intros i c1 c2 Hi H E'. unfold clear_cell in E'.
        destruct (nth_error c1 (N.to_nat i)); [|discriminate]. eauto.
      - intros r i nm b' e' c1 c2 Hi H E'. unfold store in E'.
        destruct (nth_error _ _); [|discriminate]. destruct (name_eqb _ _); [|discriminate].
        destruct r as [|[|r]]; try discriminate; eauto.
      - intros i x Hx ->. exact (H0 x Hx).
      - intros j c1 H. destruct Hk as [->| ->]; exact H. }
    rewrite E in P. exact P.
  Qed.

  Lemma failed_search_unset : forall fuel cur c c' e, hd_error c = Some None ->
    search_loop fuel cf n s cur c = Res c' e false -> group0 c' = None.
  Proof.
    induction fuel as [|fuel IH]; intros cur c c' e Hc; cbn [search_loop]; [discriminate|].
    destruct (node_match _ _ _ _ _ _ _ _) as [c1 e1 [|]| | |] eqn:E; try discriminate.
    apply (run_keeps_group0 None) in E; auto.
    destruct (Nat.eqb cur (length s)); [|apply IH; auto].
    intros [= <- <-]. unfold group0. destruct c1; [reflexivity|]. injection E as ->. reflexivity.
  Qed.
End Group0.

Theorem failed_search_exposes_nothing r ct s res : no_group0 (ast r) ->
  regex_search r ct s = Returned res -> matched res = false -> group0 (groups res) = None.
Proof.
  intros H0. unfold regex_search, invoke. destruct (compilable _ _); [|discriminate].
  unfold search_method. destruct (search_loop _ _ _ _ _ _) as [c e [|]| | |] eqn:E;
    cbn; try discriminate; intros [= <-] Hm; cbn in Hm |- *; [discriminate|].
  refine (failed_search_unset _ _ _ H0 _ _ _ _ _ _ E). reflexivity.
Qed.

Lemma group_in_caps_in n id x : group_in n id x -> exists nm, In (id, nm) (caps_in n).
Proof.
  induction 1; cbn [caps_in]; try assumption.
  - exists nm. now left.
  - destruct IHgroup_in as [nm' H']. exists nm'. now right.
  - destruct IHgroup_in as [nm H']. exists nm. apply in_flat_map. eauto.
  - destruct IHgroup_in as [nm H']. exists nm. apply in_flat_map. eauto.
Qed.

Lemma parse_no_group0 p n : parse p = P_ok n -> no_group0 n.
Proof.
  intros E x Hx. apply group_in_caps_in in Hx as [nm Hx].
  apply (parse_ids p n _ _ E) in Hx. lia.
Qed.

Theorem failed_search_of_pattern p n fl ct s res : parse p = P_ok n ->
  regex_search (mk_regex n fl) ct s = Returned res -> matched res = false ->
  group0 (groups res) = None.
Proof. intros E. apply failed_search_exposes_nothing. cbn. eapply parse_no_group0; eauto. Qed.
