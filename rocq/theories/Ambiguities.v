(** Loops over what can be matched in more than one way. *)
From Verif Require Import Costs Matcher Basics Safe Impl Spec Paths Mirror Adequacy Calls Lift Matching Api
  Results Walk Exact Relate Tracks Tracking Explore Explored Follows Searches Costing Paying PayingParts PayingNodes Tries.

(** ** Searches that find the same, whatever the groups hold *)

Fixpoint alike (t t' : search) : Prop :=
  match t, t' with
  | Stop g, Stop g' => g = g'
  | Found i g more, Found i' g' more' => i = i' /\ g = g' /\ forall h, alike (more h) (more' h)
  | _, _ => False
  end.

Lemma alike_refl t : alike t t.
Proof. induction t; cbn; auto. Qed.

Lemma alike_trans t : forall u v, alike t u -> alike u v -> alike t v.
Proof.
  induction t as [g|i g more IH]; intros [g1|i1 g1 m1] [g2|i2 g2 m2] H1 H2; cbn in *; try easy; [congruence|].
  destruct H1 as (-> & -> & H1), H2 as (-> & -> & H2). split; [reflexivity|]. split; [reflexivity|].
  intros h. eapply IH; eauto.
Qed.

Lemma alike_otherwise t t' : alike t t' -> forall h h', (forall g, alike (h g) (h' g)) -> alike (otherwise t h) (otherwise t' h').
Proof.
  revert t'. induction t as [g|i g more IH]; intros [g'|i' g' m'] H h h' Hh; cbn in *; try easy.
  - subst. apply Hh.
  - destruct H as (-> & -> & H). auto.
Qed.

Lemma otherwise_assoc t h k : alike (otherwise (otherwise t h) k) (otherwise t (fun g => otherwise (h g) k)).
Proof. induction t; cbn; auto using alike_refl. Qed.

Lemma followed_otherwise t h f :
  alike (followed_by (otherwise t h) f) (otherwise (followed_by t f) (fun g => followed_by (h g) f)).
Proof.
  induction t as [g|i g more IH]; cbn [followed_by otherwise]; [apply alike_refl|].
  eapply alike_trans; [|apply alike_otherwise; [apply alike_refl|exact (fun g' => alike_refl _)]].
  eapply alike_trans.
  - apply alike_otherwise; [apply alike_refl|]. intros g'. apply IH.
  - clear IH. induction (f i g) as [g'|j g' m IH']; cbn [otherwise]; [apply alike_refl|].
    cbn [alike]. split; [reflexivity|]. split; [reflexivity|]. intros; apply IH'.
Qed.

Lemma followed_assoc t f h :
  alike (followed_by (followed_by t f) h) (followed_by t (fun i g => followed_by (f i g) h)).
Proof.
  induction t as [g|i g more IH]; cbn [followed_by]; [reflexivity|].
  eapply alike_trans; [apply followed_otherwise|]. apply alike_otherwise; [apply alike_refl|]. auto.
Qed.

Lemma followed_alike t f f' : (forall i g, alike (f i g) (f' i g)) -> alike (followed_by t f) (followed_by t f').
Proof.
  intros H. induction t as [g|i g more IH]; cbn [followed_by]; [reflexivity|]. apply alike_otherwise; auto.
Qed.

Lemma followed_one t : alike (followed_by t one) t.
Proof.
  induction t as [g|i g more IH]; cbn; [reflexivity|]. auto.
Qed.

Lemma alike_finds P t : forall t' m, alike t t' -> finds P m t -> finds P m t'.
Proof.
  induction t as [g|i g more IH]; intros [g'|i' g' m'] m H Hf; cbn in *; try easy.
  destruct H as (<- & _ & H). intros h. eapply IH; [apply H|apply Hf].
Qed.

Lemma alike_sym t : forall u, alike t u -> alike u t.
Proof.
  induction t as [g|i g more IH]; intros [g1|i1 g1 m1] H; cbn in *; try easy.
  destruct H as (-> & -> & H). split; [reflexivity|]. split; [reflexivity|]. auto.
Qed.

Lemma chain_snoc fs f : forall i g, alike (followed_by (chain fs i g) f) (chain (fs ++ [f]) i g).
Proof.
  induction fs as [|x fs IH]; intros i g; cbn [chain app].
  - unfold one. cbn [followed_by]. apply alike_trans with (u := f i g).
    + induction (f i g) as [g1|i1 g1 m1 IH]; cbn; auto.
    + apply alike_sym, followed_one.
  - eapply alike_trans; [apply followed_assoc|]. apply followed_alike. exact IH.
Qed.

(** ** Unbounded loops *)

Section Loop.
  Variable cf : config.
  Variable names : list group_name.
  Variable s : list ascii.
  Local Notation E := (explore cf names s 0 false).

  Lemma loop_finds md lo x top d q i g : top <= length s -> md <> Possessive -> 0 < d -> ambiguous cf names s top d x ->
    i + (N.to_nat lo + q) * d <= top -> finds all_ends (2 ^ q) (E (Rep md lo Inf x) i g).
  Proof.
    intros Ht Hm Hd Ha Hq. rewrite E_Rep by reflexivity. cbn [remaining].
    replace (starting (E x) md lo i g) with (exactly (E x) (N.to_nat lo) i g)
      by (rewrite exactly_chain; destruct md; [reflexivity|reflexivity|congruence]).
    rewrite <- (Nat.mul_1_l (2 ^ q)).
    eapply finds_followed; [|apply (exactly_finds s (E x) top d Ht Hd Ha (N.to_nat lo) i g); lia].
    intros j g' Hj. cbn in Hj. apply Nat.leb_le in Hj.
    assert (B : j + q * d <= top) by lia.
    assert (F : length s - j < any_fuel s Inf) by (cbn; lia).
    unfold looping. destruct md; [| |congruence]; destruct (ungreedy cf);
      first [now apply (more_finds s (E x) top d Ht Hd Ha)|now apply (fewer_finds s (E x) top d Ht Hd Ha)].
  Qed.

  Lemma in_order_map l : in_order cf names s l = chain (map E l).
  Proof. induction l as [|x r IH]; [reflexivity|]. cbn [in_order map]. rewrite IH. reflexivity. Qed.

  Lemma parts_find l1 md lo x top d b q i g : top <= length s -> md <> Possessive -> 0 < d -> ambiguous cf names s top d x ->
    finds (fun j => Nat.leb j b) 1 (in_order cf names s l1 i g) ->
    b + (N.to_nat lo + q) * d <= top ->
    finds all_ends (2 ^ q) (in_order cf names s (l1 ++ [Rep md lo Inf x]) i g).
  Proof.
    intros Ht Hm Hd Ha H1 Hq. rewrite in_order_map in *. rewrite map_app.
    eapply alike_finds; [apply chain_snoc|]. rewrite <- (Nat.mul_1_l (2 ^ q)).
    eapply finds_followed; [|exact H1]. intros j g' Hj. apply Nat.leb_le in Hj.
    apply (loop_finds _ _ _ top d); auto. lia.
  Qed.
End Loop.

(** A call that returns, without a match. *)
Definition fails (c : call match_res) : Prop := exists res, c = Returned res /\ matched res = false.

Section Explosion.
  Variable r : regex.
  Variable ct : category.
  Variable s : list ascii.
  Hypothesis Hu : usable r ct.
  Local Notation cf := (config_of (flags r) ct).
  Local Notation names := (all_names (ast r)).
  Local Notation g0 := (no_groups (ast r)).
  Local Notation E := (explore cf names s 0 false).

  Lemma match_fails : fails (regex_match r ct s) -> fst (first_end (Nat.eqb (length s)) (E (ast r) 0 g0)) = None.
  Proof.
    intros (res & H & Hm). destruct (match_explored r ct s Hu) as (res' & H' & Hx).
    rewrite H in H'. injection H' as <-. unfold full_match in Hx.
    destruct (first_end _ _) as [[e|] g]; [|reflexivity]. destruct Hx; congruence.
  Qed.

  Lemma prefix_fails : fails (regex_match_prefix r ct s) -> fst (first_end (fun _ => true) (E (ast r) 0 g0)) = None.
  Proof.
    intros (res & H & Hm). destruct (match_prefix_explored r ct s Hu) as (res' & H' & Hx).
    rewrite H in H'. injection H' as <-. unfold prefix_match in Hx. cbn [first_match] in Hx.
    destruct (first_end _ _) as [[e|] g]; [|reflexivity]. destruct Hx; congruence.
  Qed.

  Lemma search_fails : fails (regex_search r ct s) -> fst (first_end (fun _ => true) (E (ast r) 0 g0)) = None.
  Proof.
    intros (res & H & Hm). destruct (search_explored r ct s Hu) as (res' & H' & Hx).
    rewrite H in H'. injection H' as <-. unfold search_match in Hx. rewrite Nat.sub_0_r in Hx.
    destruct (length s); cbn [first_match] in Hx;
      (destruct (first_end _ _) as [[e|] g]; [|reflexivity]; destruct Hx; congruence).
  Qed.

  Theorem loop_explodes l1 md lo x l2 top d b q :
    ast r = Seq (l1 ++ Rep md lo Inf x :: l2) -> l2 <> [] -> md <> Possessive ->
    top <= length s -> 0 < d -> ambiguous cf names s top d x ->
    finds (fun j => Nat.leb j b) 1 (in_order cf names s l1 0 g0) ->
    b + (N.to_nat lo + q) * d <= top ->
    (fails (regex_match r ct s) -> 2 ^ q <= steps (cost_of c_match_method r ct s))
    /\ (fails (regex_match_prefix r ct s) -> 2 ^ q <= steps (cost_of c_match_prefix_method r ct s))
    /\ (fails (regex_search r ct s) -> 2 ^ q <= steps (cost_of c_search_method r ct s)).
  Proof.
    intros Hn Hl2 Hm Ht Hd Ha H1 Hq.
    assert (Hn' : ast r = Seq ((l1 ++ [Rep md lo Inf x]) ++ l2)) by (rewrite <- app_assoc; exact Hn).
    assert (Hl1 : l1 ++ [Rep md lo Inf x] <> []) by (intros E0; now apply app_eq_nil in E0 as [_ E0]).
    destruct (parts_cost r ct s Hu _ _ Hn' Hl1 Hl2) as (C1 & C2 & C3).
    pose proof (parts_find cf names s l1 md lo x top d b q 0 g0 Ht Hm Hd Ha H1 Hq) as HF.
    set (l := l1 ++ [Rep md lo Inf x]) in *.
    assert (HE : forall p, first_end p (E (ast r) 0 g0)
      = first_rest (fun j g => first_end p (in_order cf names s l2 j g)) (in_order cf names s l 0 g0)).
    { intros p. rewrite !in_order_map, <- first_chain, <- map_app. f_equal.
      transitivity (E (Seq (l ++ l2)) 0 g0); [now rewrite <- Hn'|].
      apply (E_Seq cf names s 0 false (l ++ l2)). destruct l as [|? [|]], l2; try easy; reflexivity. }
    assert (HT : forall p, fst (first_end p (E (ast r) 0 g0)) = None -> 2 ^ q <= tried_at cf names s p l l2 0 g0).
    { intros p H. rewrite HE in H. unfold tried_at. exact (all_tried _ _ _ _ H HF). }
    split; [|split]; intros H.
    - apply match_fails, HT in H. lia.
    - apply prefix_fails, HT in H. lia.
    - apply search_fails, HT in H. destruct (length s); cbn [tried_from] in C3; lia.
  Qed.

  (** The whole expression is the loop. *)
  Theorem whole_explodes md lo x top d q : ast r = Rep md lo Inf x -> md <> Possessive ->
    top <= length s -> 0 < d -> ambiguous cf names s top d x -> (N.to_nat lo + q) * d <= top ->
    fails (regex_match r ct s) -> 2 ^ q <= steps (cost_of c_match_method r ct s).
  Proof.
    intros Hn Hm Ht Hd Ha Hq H. apply match_fails in H.
    eapply Nat.le_trans; [|apply (ends_cost r ct s Hu)].
    pose proof (loop_finds cf names s md lo x top d q 0 g0 Ht Hm Hd Ha Hq) as HF.
    assert (Eq : E (ast r) 0 g0 = E (Rep md lo Inf x) 0 g0) by (now rewrite Hn). rewrite <- Eq in HF. clear Eq.
    apply (all_tried _ all_ends); [|exact HF]. revert H. clear.
    generalize (E (ast r) 0 g0). induction s0 as [g|i g more IH]; cbn [first_end first_rest]; [auto|].
    destruct (Nat.eqb (length s) i); auto.
  Qed.
End Explosion.

(** ** What is ambiguous *)

Section Instances.
  Variable cf : config.
  Variable names : list group_name.
  Variable s : list ascii.
  Variable top : nat.
  Hypothesis Htop : top <= length s.
  Local Notation E := (explore cf names s 0 false).

  (** The first characters of the text belong to the class [x]. *)
  Definition made_of (x : node) : Prop :=
    is_class x = true /\ Forall (fun a => accepts cf x a = true) (firstn top s).

  (** Wherever at least [d] of the first characters are left, one to [d] of them can
      be matched. *)
  Definition advances (d : nat) (x : node) : Prop :=
    forall i g, i + d <= top -> finds (fun j => Nat.ltb i j && Nat.leb j (i + d)) 1 (E x i g).

  Lemma class_reads x i g : made_of x -> i < top -> E x i g = one (S i) g.
  Proof.
    intros [Hc Ha] Hi. rewrite E_class by exact Hc. unfold reads. cbn. unfold char_at.
    destruct (nth_error s i) as [a|] eqn:N; [|apply nth_error_None in N; lia].
    rewrite Forall_forall in Ha. rewrite (Ha a); [reflexivity|].
    apply (nth_error_In _ i). rewrite <- N. clear -Hi. revert i Hi.
    induction top as [|t IH] in s |- *; intros i Hi; [lia|]. destruct s as [|a' r], i; try reflexivity. cbn. apply IH. lia.
  Qed.

  Lemma class_advances x d : made_of x -> 0 < d -> advances d x.
  Proof.
    intros H Hd i g Hi. rewrite class_reads by (auto; lia). apply finds_here.
    apply andb_true_iff. split; [apply Nat.ltb_lt|apply Nat.leb_le]; lia.
  Qed.

  Lemma ambiguous_advances x d : ambiguous cf names s top d x -> advances d x.
  Proof. intros H i g Hi. apply (finds_le _ 2); [lia|]. now apply H. Qed.

  Lemma group_advances id nm x d : advances d x -> advances d (Cap id nm x).
  Proof.
    intros H i g Hi. specialize (H i g Hi). cbn [explore is_class]. cbv zeta.
    set (P := fun j => _) in *. revert H. generalize (E x i g). generalize 1.
    intros m t. revert m. induction t as [g1|j g1 more IH]; intros m H; cbn [captured finds] in *; auto.
  Qed.

  Lemma group_ambiguous id nm x d : ambiguous cf names s top d x -> ambiguous cf names s top d (Cap id nm x).
  Proof.
    intros H i g Hi. specialize (H i g Hi). cbn [explore is_class]. cbv zeta.
    set (P := fun j => _) in *. revert H. generalize (E x i g). generalize 2.
    intros m t. revert m. induction t as [g1|j g1 more IH]; intros m H; cbn [captured finds] in *; auto.
  Qed.

  Lemma advances_le x d d' : advances d x -> d <= d' -> advances d' x.
  Proof.
    intros H Hd i g Hi. eapply finds_imp; [|apply (H i g); lia]. intros j Hj.
    apply andb_true_iff in Hj as [H1 H2]. apply Nat.leb_le in H2. rewrite H1. apply Nat.leb_le. lia.
  Qed.

  Lemma both_advance x y d d' : advances d x -> advances d' y -> advances (d + d') (Seq [x; y]).
  Proof.
    intros Hx Hy i g Hi. rewrite E_Seq by reflexivity. cbn [map chain].
    change 1 with (1 * 1). eapply finds_followed; [|apply Hx; lia].
    intros j g' Hj. apply andb_true_iff in Hj as [H1 H2]. apply Nat.ltb_lt in H1. apply Nat.leb_le in H2.
    eapply alike_finds; [apply alike_sym, followed_one|].
    eapply finds_imp; [|apply Hy; lia]. intros k Hk.
    apply andb_true_iff in Hk as [H3 H4]. apply Nat.ltb_lt in H3. apply Nat.leb_le in H4.
    apply andb_true_iff. split; [apply Nat.ltb_lt|apply Nat.leb_le]; lia.
  Qed.

  (** Two alternatives that both can go on. *)
  Lemma either_ambiguous x y d : is_class (Alt [x; y]) = false -> advances d x -> advances d y ->
    ambiguous cf names s top d (Alt [x; y]).
  Proof.
    intros Hc Hx Hy i g Hi. rewrite E_Alt by exact Hc. cbn [any]. rewrite Hc.
    change 2 with (1 + 1). apply finds_otherwise; [|now apply Hx].
    intros g'. destruct (is_class (Alt [y])) eqn:Cy.
    - specialize (Hy i g' Hi). cbn [is_class forallb] in Cy. rewrite andb_true_r in Cy. rewrite E_class in Hy by exact Cy.
      erewrite reads_ext; [exact Hy|]. intros a. cbn. now rewrite orb_false_r.
    - change 1 with (1 + 0). apply finds_otherwise; [intros; apply finds_0|now apply Hy].
  Qed.

  (** A star or plus of a class of characters. *)
  Section Star.
    Variable x : node.
    Hypothesis Hx : made_of x.
    Local Notation upto lo hi := (fun j => Nat.ltb lo j && Nat.leb j hi).

    Lemma upto_in lo hi j : lo < j -> j <= hi -> Nat.ltb lo j && Nat.leb j hi = true.
    Proof. intros. apply andb_true_iff. split; [apply Nat.ltb_lt|apply Nat.leb_le]; lia. Qed.

    Lemma more_class : forall m fuel i g lo hi, i + m <= top -> m < fuel -> lo < i -> i + m <= hi ->
      finds (upto lo hi) (S m) (trying_more (E x) fuel Inf i g).
    Proof.
      induction m as [|m IH]; intros [|fuel] i g lo hi Hi Hf Hlo Hhi; try lia; cbn [trying_more none_left one_less].
      - change 1 with (0 + 1). apply finds_otherwise; [|apply finds_0]. intros g'. apply finds_here. apply upto_in; lia.
      - replace (S (S m)) with (1 * S m + 1) by lia. apply finds_otherwise.
        + intros g'. apply finds_here. apply upto_in; lia.
        + apply (finds_followed (Nat.eqb (S i))).
          * intros j g' Hj. apply Nat.eqb_eq in Hj. subst j. cbn [idle].
            destruct (Nat.eqb_spec i (S i)); [lia|]. apply IH; lia.
          * rewrite class_reads by (auto; lia). apply finds_here. apply Nat.eqb_refl.
    Qed.

    Lemma fewer_class : forall m fuel i g lo hi, i + m <= top -> m < fuel -> lo < i -> i + m <= hi ->
      finds (upto lo hi) (S m) (trying_fewer (E x) fuel Inf i g).
    Proof.
      induction m as [|m IH]; intros [|fuel] i g lo hi Hi Hf Hlo Hhi; try lia; cbn [trying_fewer none_left one_less].
      - apply finds_here. apply upto_in; lia.
      - cbn [finds]. intros g'. rewrite upto_in by lia. cbn [Nat.pred].
        rewrite <- (Nat.mul_1_l (S m)). apply (finds_followed (Nat.eqb (S i))).
        + intros j g1 Hj. apply Nat.eqb_eq in Hj. subst j. cbn [idle].
          destruct (Nat.eqb_spec i (S i)); [lia|]. apply IH; lia.
        + rewrite class_reads by (auto; lia). apply finds_here. apply Nat.eqb_refl.
    Qed.

    Lemma star_ambiguous md lo : md <> Possessive -> (lo <= 1)%N -> ambiguous cf names s top 2 (Rep md lo Inf x).
    Proof.
      intros Hm Hlo i g Hi. rewrite E_Rep by reflexivity. cbn [remaining].
      assert (F : any_fuel s Inf = S (length s)) by reflexivity.
      assert (HS : forall j g', j = S i -> finds (upto i (i + 2)) 2 (looping cf s (E x) md Inf j g')).
      { intros j g' ->. unfold looping. rewrite F. destruct md; [| |congruence]; destruct (ungreedy cf);
          first [apply more_class; lia|apply fewer_class; lia]. }
      assert (C : lo = 0%N \/ lo = 1%N) by lia. destruct C as [-> | ->].
      - replace (starting (E x) md 0 i g) with (one i g) by (destruct md; reflexivity).
        rewrite <- (Nat.mul_1_l 2). apply (finds_followed (Nat.eqb i)); [|apply finds_here, Nat.eqb_refl].
        intros j g' Hj. apply Nat.eqb_eq in Hj. subst j. unfold looping. rewrite F.
        assert (Hmore : finds (upto i (i + 2)) 2 (trying_more (E x) (S (length s)) Inf i g')).
        { cbn [trying_more none_left one_less]. change 2 with (1 * 2 + 0) at 2. apply finds_otherwise; [intros; apply finds_0|].
          apply (finds_followed (Nat.eqb (S i))).
          - intros j g1 Hj. apply Nat.eqb_eq in Hj. subst j. cbn [idle].
            destruct (Nat.eqb_spec i (S i)); [lia|]. apply more_class; lia.
          - rewrite class_reads by (auto; lia). apply finds_here. apply Nat.eqb_refl. }
        assert (Hfewer : finds (upto i (i + 2)) 2 (trying_fewer (E x) (S (length s)) Inf i g')).
        { cbn [trying_fewer none_left one_less finds]. intros g1. rewrite Nat.ltb_irrefl. cbn [andb].
          change 2 with (1 * 2) at 2. apply (finds_followed (Nat.eqb (S i))).
          - intros j g2 Hj. apply Nat.eqb_eq in Hj. subst j. cbn [idle].
            destruct (Nat.eqb_spec i (S i)); [lia|]. apply fewer_class; lia.
          - rewrite class_reads by (auto; lia). apply finds_here. apply Nat.eqb_refl. }
        destruct md; [| |congruence]; destruct (ungreedy cf); assumption.
      - replace (starting (E x) md 1 i g) with (followed_by (E x i g) one) by (destruct md; [reflexivity|reflexivity|congruence]).
        rewrite class_reads by (auto; lia). unfold one at 1. cbn [followed_by].
        rewrite <- (Nat.mul_1_l 2). apply (finds_followed (Nat.eqb (S i))); [|].
        + intros j g' Hj. apply Nat.eqb_eq in Hj. apply HS. auto.
        + unfold one. cbn [otherwise]. apply finds_here, Nat.eqb_refl.
    Qed.
  End Star.
End Instances.

(** A loop over a star or plus of a class of characters, on a text of such
    characters. *)
Theorem nested_explodes r ct s top md lo md' lo' x y l q : usable r ct -> top <= length s ->
  ast r = Seq (Rep md lo Inf (Rep md' lo' Inf x) :: y :: l) -> md <> Possessive -> md' <> Possessive -> (lo' <= 1)%N ->
  made_of (config_of (flags r) ct) s top x -> (N.to_nat lo + q) * 2 <= top ->
  (fails (regex_match r ct s) -> 2 ^ q <= steps (cost_of c_match_method r ct s))
  /\ (fails (regex_match_prefix r ct s) -> 2 ^ q <= steps (cost_of c_match_prefix_method r ct s))
  /\ (fails (regex_search r ct s) -> 2 ^ q <= steps (cost_of c_search_method r ct s)).
Proof.
  intros Hu Ht Hn Hm Hm' Hlo Hx Hq.
  apply (loop_explodes r ct s Hu [] md lo (Rep md' lo' Inf x) (y :: l) top 2 0 q); auto; [discriminate| |].
  - now apply star_ambiguous.
  - now apply finds_here.
Qed.
