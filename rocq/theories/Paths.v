(** Facts about the specification: classes, bounds, unfolding equations, and
    the agreement of the language with the priority order. *)
From Verif Require Import Matcher Basics Spec.

(** ** Characters *)

Lemma flip_other_alpha a : is_alpha a = true -> other_case a = flip_lowercase_bit a.
Proof. destruct a as [[|] [|] [|] [|] [|] [|] [|] [|]]; vm_compute; congruence. Qed.

Lemma other_not_alpha a : is_alpha a = false -> other_case a = a.
Proof. destruct a as [[|] [|] [|] [|] [|] [|] [|] [|]]; vm_compute; congruence. Qed.

Lemma alpha_flip a : is_alpha (flip_lowercase_bit a) = is_alpha a.
Proof. destruct a as [[|] [|] [|] [|] [|] [|] [|] [|]]; reflexivity. Qed.

Lemma flip_flip a : flip_lowercase_bit (flip_lowercase_bit a) = a.
Proof. destruct a as [b0 b1 b2 b3 b4 b5 b6 b7]. cbn. now rewrite negb_involutive. Qed.

Lemma other_other a : other_case (other_case a) = a.
Proof. destruct a as [[|] [|] [|] [|] [|] [|] [|] [|]]; reflexivity. Qed.

Lemma alpha_flip_range a :
  is_alpha a = (between "a" "z" (flip_lowercase_bit a) || between "A" "Z" (flip_lowercase_bit a))%bool.
Proof. destruct a as [[|] [|] [|] [|] [|] [|] [|] [|]]; reflexivity. Qed.

Lemma intersection_between a b x y i :
  intersection_contains a b x y i = (between a b i && between x y i)%bool.
Proof.
  unfold intersection_contains, between, code.
  destruct (N.ltb_spec (N.min (N_of_ascii b) (N_of_ascii y)) (N.max (N_of_ascii a) (N_of_ascii x)));
  destruct (N.leb_spec (N_of_ascii a) (N_of_ascii i)), (N.leb_spec (N_of_ascii i) (N_of_ascii b)),
    (N.leb_spec (N_of_ascii x) (N_of_ascii i)), (N.leb_spec (N_of_ascii i) (N_of_ascii y));
    cbn; try reflexivity; try lia;
    destruct (N.leb_spec (N.max (N_of_ascii a) (N_of_ascii x)) (N_of_ascii i)),
      (N.leb_spec (N_of_ascii i) (N.min (N_of_ascii b) (N_of_ascii y))); cbn; try reflexivity; lia.
Qed.

Lemma literal_accepts cf c a :
  literal_match_one cf c a = either_case cf (Ascii.eqb c) a.
Proof.
  unfold literal_match_one, either_case.
  destruct (Ascii.eqb_spec c a); [reflexivity|]. cbn [orb].
  destruct (icase cf); cbn [andb]; [|reflexivity].
  destruct (is_alpha c) eqn:A; cbn [andb].
  - rewrite <- (flip_other_alpha c A).
    destruct (Ascii.eqb_spec (other_case c) a), (Ascii.eqb_spec c (other_case a)); try reflexivity.
    + subst. rewrite other_other in *. easy.
    + subst. rewrite other_other in *. easy.
  - destruct (Ascii.eqb_spec c (other_case a)) as [E|E]; [|reflexivity].
    exfalso. apply n. apply other_not_alpha in A. rewrite <- A, E. apply other_other.
Qed.

Lemma range_accepts cf x y a :
  range_match_one cf x y a = either_case cf (between x y) a.
Proof.
  unfold range_match_one. destruct (Ascii.eqb_spec x y).
  - subst. rewrite literal_accepts. unfold either_case.
    assert (H : forall b, Ascii.eqb y b = between y y b).
    { intros b. unfold between. destruct (Ascii.eqb_spec y b).
      - subst. now rewrite N.leb_refl.
      - destruct (N.leb_spec (N_of_ascii y) (N_of_ascii b)),
          (N.leb_spec (N_of_ascii b) (N_of_ascii y)); try reflexivity.
        exfalso. apply n. rewrite <- (ascii_N_embedding y), <- (ascii_N_embedding b).
        f_equal. lia. }
    now rewrite !H.
  - unfold either_case. rewrite !intersection_between.
    change (is_in_ascii_range x y a) with (between x y a).
    rewrite <- andb_orb_distrib_r, <- alpha_flip_range.
    destruct (between x y a) eqn:B; [reflexivity|]. cbn [orb].
    destruct (icase cf); [cbn [andb]|reflexivity].
    destruct (is_alpha a) eqn:A.
    + rewrite andb_true_r. now rewrite flip_other_alpha.
    + rewrite andb_false_r. rewrite other_not_alpha by assumption. now rewrite B.
Qed.

Lemma match_one_accepts cf n a : match_one cf n a = accepts cf n a.
Proof.
  induction n using node_ind'; cbn [match_one accepts]; try reflexivity.
  - rewrite !literal_accepts. unfold either_case, is_newline.
    destruct (dotall cf); cbn [orb]; [reflexivity|]. f_equal.
    assert (Hn : forall x b, (x = "010" \/ x = "013")%char ->
              (Ascii.eqb x b || (icase cf && Ascii.eqb x (other_case b)))%bool = Ascii.eqb b x).
    { intros x b Hx.
      assert (other_case x = x) by (destruct Hx; subst; reflexivity).
      destruct (Ascii.eqb_spec b x) as [E|E].
      - subst. now rewrite Ascii.eqb_refl.
      - destruct (Ascii.eqb_spec x b); [congruence|]. cbn [orb].
        destruct (Ascii.eqb_spec x (other_case b)); [|apply andb_false_r].
        exfalso. apply E. rewrite <- (other_other b), <- e. assumption. }
    now rewrite !Hn by auto.
  - apply literal_accepts.
  - apply range_accepts.
  - now apply existsb_ext_Forall.
  - now rewrite IHn.
  - destruct l as [|x [|y r]]; try reflexivity. now inversion H.
  - now apply existsb_ext_Forall.
  - assumption.
Qed.

Lemma trivial_is_class n : trivial n = is_class n.
Proof.
  induction n using node_ind'; try reflexivity.
  - cbn. assumption.
  - rewrite trivial_Seq. cbn [is_class]. destruct l as [|x [|y r]]; try reflexivity.
    now inversion H.
  - destruct l as [|x r]; [reflexivity|]. cbn [trivial is_class].
    inversion H; subst. f_equal; [assumption|now apply forallb_ext_Forall].
  - rewrite trivial_Rep. cbn [is_class]. destruct hi; [now rewrite IHn|].
    now rewrite andb_false_r.
Qed.

Lemma may_be_empty_zlm n : may_be_empty n = zlm n.
Proof.
  induction n using node_ind'; try reflexivity; cbn.
  - now rewrite trivial_is_class.
  - now apply forallb_ext_Forall.
  - now apply existsb_ext_Forall.
  - assumption.
  - unfold is_zero. now rewrite IHn.
Qed.

Lemma linebreak_newline cf a : match_one cf n_linebreak a = is_newline a.
Proof.
  rewrite match_one_accepts. unfold is_newline, n_linebreak. cbn. unfold either_case.
  destruct (icase cf); cbn;
    destruct a as [[|] [|] [|] [|] [|] [|] [|] [|]]; reflexivity.
Qed.

Lemma word_word_char cf a : match_one cf n_word a = is_word_char a.
Proof.
  rewrite match_one_accepts. unfold n_word. cbn. unfold either_case.
  destruct (icase cf); cbn;
    destruct a as [[|] [|] [|] [|] [|] [|] [|] [|]]; reflexivity.
Qed.

Lemma is_class_not_zero_width n : is_class n = true -> zero_width n = false.
Proof.
  induction n using node_ind'; cbn; try discriminate; try reflexivity.
  - intros ->. reflexivity.
  - destruct l as [|x [|y r]]; try discriminate. inversion H; subst. intros Hx.
    cbn. now rewrite H2.
  - destruct l as [|x r]; try discriminate. inversion H; subst. intros Hx.
    apply andb_true_iff in Hx as [Hx _]. cbn. now rewrite H2.
  - destruct hi; try discriminate. intros Hx. apply andb_true_iff in Hx as [Hx Hn].
    apply andb_true_iff in Hx as [_ Hx]. apply N.eqb_eq in Hx. subst. now rewrite IHn.
Qed.

Lemma is_assertion_zero_width n : is_assertion n = true -> zero_width n = true.
Proof.
  induction n using node_ind'; try discriminate; try reflexivity.
  - cbn. intros Hx. apply is_assertion_not_trivial in Hx.
    rewrite trivial_is_class in Hx. now rewrite Hx.
  - cbn. destruct l as [|x [|y r]]; try discriminate. inversion H; subst. intros Hx.
    cbn. rewrite H2 by assumption. reflexivity.
  - cbn. destruct l as [|x [|y r]]; try discriminate. inversion H; subst. intros Hx.
    cbn. rewrite H2 by assumption. reflexivity.
  - rewrite is_assertion_Rep. intros Hx. apply andb_true_iff in Hx as [_ Hx].
    cbn. rewrite IHn by assumption. destruct hi; [apply orb_true_r|reflexivity].
Qed.

Lemma compiles_well_formed cf names : forall f rd n,
  compiles cf names f rd n = true -> well_formed n = true.
Proof.
  induction f as [|f IH]; intros rd n H; [discriminate|].
  assert (HL : forall l rd', forallb (compiles cf names f rd') l = true ->
                forallb well_formed l = true).
  { intros l rd' Hl. apply forallb_forall. intros x Hx.
    rewrite forallb_forall in Hl. eapply IH, Hl, Hx. }
  destruct n; cbn in *; auto.
  - apply forallb_forall. intros x Hx. rewrite forallb_forall in H.
    apply H in Hx. apply andb_true_iff in Hx as [Hx1 Hx2].
    rewrite <- trivial_is_class, Hx1. cbn. eauto.
  - apply andb_true_iff in H as [H1 H2]. rewrite (IH _ _ H2), andb_true_r.
    rewrite <- trivial_is_class. apply orb_true_iff in H1 as [H1|H1].
    + now rewrite H1.
    + now rewrite is_assertion_zero_width, orb_true_r.
  - destruct l; eauto.
  - destruct l; eauto.
  - apply andb_true_iff in H as [_ H]. eauto.
  - apply andb_true_iff in H as [H _]. destruct hi; [|eauto].
    apply andb_true_iff in H as [H1 H2]. rewrite H1. cbn.
    apply orb_true_iff in H2 as [H2|H2]; [now rewrite H2|].
    rewrite (IH _ _ H2). apply orb_true_r.
  - destruct d; [eauto|]. apply andb_true_iff in H as [_ H].
    destruct (trivial n); [eauto|]. apply IH in H. revert H. clear.
    (* well-formedness of the inverted body *)
    assert (Hc : forall x, is_class (invert x) = is_class x).
    { intros x. now rewrite <- !trivial_is_class, trivial_invert. }
    assert (Hz : forall x, zero_width (invert x) = zero_width x).
    { induction x using node_ind'; cbn [invert zero_width]; auto.
      - now rewrite Hc.
      - rewrite reverse_pack_rev, forallb_rev, forallb_map. now apply forallb_ext_Forall.
      - rewrite forallb_map. now apply forallb_ext_Forall.
      - now rewrite IHx. }
    assert (Hw : forall x, well_formed (invert x) = well_formed x).
    { induction x using node_ind'; cbn [invert well_formed]; auto.
      - rewrite forallb_map. apply forallb_ext_Forall. eapply Forall_impl; [|exact H].
        intros y Hy. cbn. now rewrite Hc, Hy.
      - now rewrite Hc, Hz, IHx.
      - rewrite reverse_pack_rev. destruct l as [|y r]; [reflexivity|].
        destruct (rev (map invert (y :: r))) eqn:E.
        { apply (f_equal (@length _)) in E. rewrite rev_length in E. discriminate. }
        rewrite <- E, forallb_rev, forallb_map. now apply forallb_ext_Forall.
      - destruct l as [|y r]; [reflexivity|].
        change (map invert (y :: r)) with (invert y :: map invert r).
        cbn [forallb]. inversion H; subst. rewrite H2, forallb_map. f_equal.
        now apply forallb_ext_Forall.
      - now rewrite IHx. }
    now rewrite Hw.
Qed.

Lemma is_class_invert n : is_class (invert n) = is_class n.
Proof. now rewrite <- !trivial_is_class, trivial_invert. Qed.
Lemma accepts_invert cf n a : accepts cf (invert n) a = accepts cf n a.
Proof. now rewrite <- !match_one_accepts, match_one_invert. Qed.

Lemma zero_width_invert n : zero_width (invert n) = zero_width n.
Proof.
  induction n using node_ind'; cbn [invert zero_width]; auto.
  - now rewrite is_class_invert.
  - rewrite reverse_pack_rev, forallb_rev, forallb_map. now apply forallb_ext_Forall.
  - rewrite forallb_map. now apply forallb_ext_Forall.
  - now rewrite IHn.
Qed.

Lemma invert_invert n : invert (invert n) = n.
Proof.
  induction n using node_ind'; try reflexivity.
  - cbn [invert]. rewrite map_map. f_equal. rewrite <- (map_id l) at 2. now apply map_ext_Forall.
  - cbn [invert]. now rewrite IHn.
  - rewrite !invert_Seq. rewrite map_rev, rev_involutive, map_map. f_equal.
    rewrite <- (map_id l) at 2. now apply map_ext_Forall.
  - cbn [invert]. rewrite map_map. f_equal. rewrite <- (map_id l) at 2. now apply map_ext_Forall.
  - cbn [invert]. now rewrite IHn.
  - cbn [invert]. now rewrite IHn.
  - cbn [invert]. now destruct d.
Qed.

Lemma class_possessive_free n : is_class n = true -> possessive_free n = true.
Proof.
  induction n using node_ind'; intros Hc; try reflexivity; cbn in Hc |- *; auto; try discriminate.
  - destruct l as [|x [|y r]]; try discriminate. inversion H; subst. cbn.
    now rewrite H2.
  - destruct l as [|x r]; try discriminate. apply andb_true_iff in Hc as [Hx Hr].
    cbn. inversion H; subst. rewrite H2 by assumption. cbn.
    apply forallb_forall. intros y Hy. rewrite forallb_forall in Hr.
    rewrite Forall_forall in H3. auto.
  - destruct md; auto; destruct hi; try discriminate;
      apply IHn; now apply andb_true_iff in Hc.
Qed.

(** ** Sequences and alternations as folds *)

Fixpoint chain (rs : list (nat -> nat -> Prop)) (i j : nat) : Prop :=
  match rs with
  | [] => i = j
  | r :: rs' => exists k, r i k /\ chain rs' k j
  end.

Fixpoint chain_paths (fs : list (nat -> list nat)) (i : nat) : list nat :=
  match fs with
  | [] => [i]
  | f :: r => flat_map (chain_paths r) (f i)
  end.

Section Facts.
  Variable cf : config.
  Variable s : list ascii.
  Local Notation L := (length s).

  Lemma matches_Seq l i j : matches cf s (Seq l) i j <-> chain (map (matches cf s) l) i j.
  Proof.
    cbn [matches]. revert i. induction l as [|x r IH]; intros i; cbn; [reflexivity|].
    split; intros (k & H1 & H2); exists k; split; auto; now apply IH.
  Qed.

  Lemma matches_Alt l i j :
    matches cf s (Alt l) i j <-> exists x, In x l /\ matches cf s x i j.
  Proof.
    cbn [matches]. induction l as [|x r IH]; cbn.
    - split; [easy|]. now intros (x & [] & _).
    - rewrite IH. split.
      + intros [H|(y & H1 & H2)]; eauto.
      + intros (y & [->|H1] & H2); eauto.
  Qed.

  Lemma paths_Seq l i : paths cf s (Seq l) i = chain_paths (map (paths cf s) l) i.
  Proof.
    cbn [paths]. revert i. induction l as [|x r IH]; intros i; cbn; [reflexivity|].
    now apply flat_map_ext.
  Qed.

  Lemma paths_Alt l i : paths cf s (Alt l) i = flat_map (fun x => paths cf s x i) l.
  Proof. reflexivity. Qed.

  (** ** Bounds *)

  Lemma char_at_lt p i : char_at s p i = true -> i < L.
  Proof.
    unfold char_at. destruct (nth_error s i) eqn:E; [|discriminate]. intros _.
    apply nth_error_Some. congruence.
  Qed.

  Definition bounded (f : nat -> list nat) : Prop :=
    forall i j, i <= L -> In j (f i) -> i <= j <= L.

  Lemma times_bounded f n : bounded f -> bounded (times f n).
  Proof.
    intros Hf. induction n as [|n IH]; intros i j Hi; cbn.
    - intros [->|[]]. lia.
    - rewrite in_flat_map. intros (k & Hk & Hj). apply Hf in Hk; auto.
      apply IH in Hj; lia.
  Qed.

  Lemma more_first_bounded f : bounded f -> forall fu b, bounded (more_first f fu b).
  Proof.
    intros Hf. induction fu as [|fu IH]; intros b i j Hi; cbn; [easy|].
    assert (He : In j [i] -> i <= j <= L) by (intros [->|[]]; lia).
    destruct b as [n|].
    - destruct (N.eqb n 0); auto. intros H. apply in_app_or in H as [H|H]; auto.
      apply in_flat_map in H as (k & Hk & Hj). apply Hf in Hk; auto. apply IH in Hj; lia.
    - intros H. apply in_app_or in H as [H|H]; auto.
      apply in_flat_map in H as (k & Hk & Hj). apply Hf in Hk; auto.
      destruct (Nat.eqb i k); [easy|]. apply IH in Hj; lia.
  Qed.

  Lemma fewer_first_bounded f : bounded f -> forall fu b, bounded (fewer_first f fu b).
  Proof.
    intros Hf. induction fu as [|fu IH]; intros b i j Hi; cbn; [easy|].
    assert (He : In j [i] -> i <= j <= L) by (intros [->|[]]; lia).
    destruct b as [n|].
    - destruct (N.eqb n 0); auto. intros [H|H]; [apply He; cbn; auto|].
      apply in_flat_map in H as (k & Hk & Hj). apply Hf in Hk; auto. apply IH in Hj; lia.
    - intros [H|H]; [apply He; cbn; auto|].
      apply in_flat_map in H as (k & Hk & Hj). apply Hf in Hk; auto.
      destruct (Nat.eqb i k); [easy|]. apply IH in Hj; lia.
  Qed.

  Lemma in_firstn {A} n (l : list A) x : In x (firstn n l) -> In x l.
  Proof.
    revert l. induction n; intros [|y l]; cbn; try easy. intros [->|H]; auto.
  Qed.

  Lemma flat_map_bounded f g : bounded f -> bounded g -> bounded (fun i => flat_map g (f i)).
  Proof.
    intros Hf Hg i j Hi H. apply in_flat_map in H as (k & Hk & Hj).
    apply Hf in Hk; auto. apply Hg in Hj; lia.
  Qed.

  Lemma greedy_bounded f b : bounded f -> bounded (greedy_paths s f b).
  Proof. intros Hf i j. unfold greedy_paths. apply more_first_bounded; auto. Qed.
  Lemma lazy_bounded f b : bounded f -> bounded (lazy_paths s f b).
  Proof. intros Hf i j. unfold lazy_paths. apply fewer_first_bounded; auto. Qed.

  Lemma chain_paths_bounded fs : Forall bounded fs -> bounded (chain_paths fs).
  Proof.
    induction 1 as [|f r Hf Hr IH]; intros i j Hi; cbn.
    - intros [->|[]]. lia.
    - now apply flat_map_bounded.
  Qed.

  Theorem paths_bounded n : bounded (paths cf s n).
  Proof.
    assert (H1 : forall i j b, i <= L -> In j (if b : bool then [i] else []) -> i <= j <= L).
    { intros i j [|] Hi; cbn; [|easy]. intros [->|[]]. lia. }
    assert (H2 : forall i j p, i <= L -> In j (if char_at s p i then [S i] else []) -> i <= j <= L).
    { intros i j p Hi. destruct (char_at s p i) eqn:E; [|easy]. apply char_at_lt in E.
      cbn. intros [<-|[]]. lia. }
    induction n using node_ind'; intros i j Hi;
      try (cbn [paths]; solve [eauto | intros []]).
    - cbn. intros [->|[]]. lia.
    - cbn [paths]. destruct (is_class n); [eauto|].
      destruct (paths cf s n i); cbn; [intros [->|[]]; lia|easy].
    - rewrite paths_Seq. apply chain_paths_bounded; auto.
      rewrite Forall_map. exact H.
    - rewrite paths_Alt. rewrite in_flat_map. intros (x & Hx & Hj).
      rewrite Forall_forall in H. now apply (H x Hx).
    - cbn [paths].
      set (g := flat_map (greedy_paths s (paths cf s n) (remaining hi lo)) _).
      set (lz := flat_map (lazy_paths s (paths cf s n) (remaining hi lo)) _).
      assert (Hg : In j g -> i <= j <= L).
      { apply (flat_map_bounded _ _ (times_bounded _ (N.to_nat lo) IHn)
                 (greedy_bounded _ (remaining hi lo) IHn)); auto. }
      assert (Hlz : In j lz -> i <= j <= L).
      { apply (flat_map_bounded _ _ (times_bounded _ (N.to_nat lo) IHn)
                 (lazy_bounded _ (remaining hi lo) IHn)); auto. }
      destruct md; [destruct (ungreedy cf); auto|destruct (ungreedy cf); auto|].
      intros H. apply in_firstn in H. auto.
    - cbn [paths]. destruct d; [|eauto].
      destruct (paths cf s n i); cbn; [easy|intros [->|[]]; lia].
  Qed.

  (** Trees that cannot be empty consume something. *)
  Definition consuming (f : nat -> list nat) : Prop :=
    forall i j, i <= L -> In j (f i) -> i < j.

  Lemma times_consuming f n : bounded f -> consuming f -> 0 < n -> consuming (times f n).
  Proof.
    intros Hb Hf Hn i j Hi. destruct n as [|n]; [lia|]. cbn. rewrite in_flat_map.
    intros (k & Hk & Hj). pose proof (Hf _ _ Hi Hk). pose proof (Hb _ _ Hi Hk).
    apply (times_bounded f n Hb) in Hj; lia.
  Qed.

  Lemma chain_paths_consuming fs : Forall bounded fs -> Exists consuming fs ->
    consuming (chain_paths fs).
  Proof.
    intros Hb He. induction He as [f r Hf|f r Hr IH]; inversion Hb; subst;
      intros i j Hi; cbn; rewrite in_flat_map; intros (k & Hk & Hj).
    - pose proof (Hf _ _ Hi Hk). pose proof (H1 _ _ Hi Hk).
      apply (chain_paths_bounded r H2) in Hj; lia.
    - pose proof (H1 _ _ Hi Hk). apply IH in Hj; auto; lia.
  Qed.

  Theorem paths_consuming n : may_be_empty n = false -> consuming (paths cf s n).
  Proof.
    assert (H2 : forall i j p, In j (if char_at s p i then [S i] else []) -> i < j).
    { intros i j p. destruct (char_at s p i) eqn:E; [|easy]. apply char_at_lt in E.
      cbn. intros [<-|[]]. lia. }
    induction n using node_ind'; intros He; try discriminate; intros i j Hi;
      try (cbn [paths]; solve [eauto | intros []]).
    - cbn [may_be_empty] in He. cbn [paths]. destruct (is_class n); [eauto|discriminate].
    - rewrite paths_Seq. apply chain_paths_consuming; auto.
      + rewrite Forall_map. apply Forall_forall. intros x _. apply paths_bounded.
      + cbn [may_be_empty] in He. clear -H He. induction l as [|x r IH]; [discriminate|].
        cbn in *. inversion H; subst. destruct (may_be_empty x).
        * right. auto.
        * left. auto.
    - rewrite paths_Alt. rewrite in_flat_map. intros (x & Hx & Hj).
      rewrite Forall_forall in H. apply (H x Hx); auto.
      cbn in He. destruct (may_be_empty x) eqn:E; [|reflexivity].
      rewrite <- He. symmetry. apply existsb_exists. eauto.
    - cbn [paths]. now apply IHn.
    - cbn [may_be_empty] in He. apply orb_false_iff in He as [Hlo He].
      apply N.eqb_neq in Hlo. specialize (IHn He).
      pose proof (paths_bounded n) as Hb.
      cbn [paths].
      assert (Hg : forall g, bounded g ->
        In j (flat_map g (times (paths cf s n) (N.to_nat lo) i)) -> i < j).
      { intros g Hgb Hj. apply in_flat_map in Hj as (k & Hk & Hj).
        pose proof (times_consuming _ (N.to_nat lo) Hb IHn ltac:(lia) _ _ Hi Hk).
        pose proof (times_bounded _ (N.to_nat lo) Hb _ _ Hi Hk).
        apply Hgb in Hj; lia. }
      pose proof (greedy_bounded _ (remaining hi lo) Hb).
      pose proof (lazy_bounded _ (remaining hi lo) Hb).
      destruct md; [destruct (ungreedy cf); eauto|destruct (ungreedy cf); eauto|].
      intros Hj. apply in_firstn in Hj. eauto.
  Qed.

  (** ** Loops do not depend on the fuel *)

  Definition fuel_ok (fu : nat) (b : quantifier) (i : nat) : Prop :=
    match b with Fin n => N.to_nat n < fu | Inf => L - i < fu end.

  Lemma flat_map_single {A} (l : list A) : flat_map (fun x => [x]) l = l.
  Proof. induction l; cbn; congruence. Qed.

  Lemma flat_map_ext_in {A B} (f g : A -> list B) l :
    (forall x, In x l -> f x = g x) -> flat_map f l = flat_map g l.
  Proof.
    induction l as [|a l IH]; intros H; cbn; [reflexivity|].
    rewrite (H a) by (cbn; auto). f_equal. apply IH. intros. apply H. cbn. auto.
  Qed.

  Lemma more_first_fuel f : bounded f -> forall fu1 fu2 b i, i <= L ->
    fuel_ok fu1 b i -> fuel_ok fu2 b i -> more_first f fu1 b i = more_first f fu2 b i.
  Proof.
    intros Hf. induction fu1 as [|fu1 IH]; intros [|fu2] b i Hi H1 H2;
      try (unfold fuel_ok in *; destruct b; lia).
    cbn [more_first]. destruct b as [n|].
    - destruct (N.eqb_spec n 0); [reflexivity|]. f_equal. apply flat_map_ext_in.
      intros j Hj. apply Hf in Hj; auto. apply IH; unfold fuel_ok in *; lia.
    - f_equal. apply flat_map_ext_in. intros j Hj. apply Hf in Hj; auto.
      destruct (Nat.eqb_spec i j); [reflexivity|]. apply IH; unfold fuel_ok in *; lia.
  Qed.

  Lemma fewer_first_fuel f : bounded f -> forall fu1 fu2 b i, i <= L ->
    fuel_ok fu1 b i -> fuel_ok fu2 b i -> fewer_first f fu1 b i = fewer_first f fu2 b i.
  Proof.
    intros Hf. induction fu1 as [|fu1 IH]; intros [|fu2] b i Hi H1 H2;
      try (unfold fuel_ok in *; destruct b; lia).
    cbn [fewer_first]. destruct b as [n|].
    - destruct (N.eqb_spec n 0); [reflexivity|]. f_equal. apply flat_map_ext_in.
      intros j Hj. apply Hf in Hj; auto. apply IH; unfold fuel_ok in *; lia.
    - f_equal. apply flat_map_ext_in. intros j Hj. apply Hf in Hj; auto.
      destruct (Nat.eqb_spec i j); [reflexivity|]. apply IH; unfold fuel_ok in *; lia.
  Qed.

  Lemma bound_fuel_ok b i : fuel_ok (bound_fuel s b i) b i.
  Proof. unfold fuel_ok, bound_fuel. destruct b; lia. Qed.

  (** The recursion equations of the loops. *)
  Theorem greedy_paths_unfold f b i : bounded f -> i <= L ->
    greedy_paths s f b i
    = match b with
      | Fin n => if N.eqb n 0 then [i]
                 else flat_map (greedy_paths s f (Fin (n - 1))) (f i) ++ [i]
      | Inf => flat_map (fun j => if Nat.eqb i j then [] else greedy_paths s f Inf j) (f i) ++ [i]
      end.
  Proof.
    intros Hf Hi. unfold greedy_paths at 1.
    destruct (bound_fuel s b i) as [|fu] eqn:E.
    { pose proof (bound_fuel_ok b i) as H. rewrite E in H. unfold fuel_ok in H. destruct b; lia. }
    pose proof (bound_fuel_ok b i) as H. rewrite E in H. cbn [more_first]. destruct b as [n|].
    - destruct (N.eqb_spec n 0); [reflexivity|]. f_equal. apply flat_map_ext_in. intros j Hj.
      apply Hf in Hj; auto. apply more_first_fuel; auto; try lia; [|apply bound_fuel_ok].
      unfold fuel_ok in *. lia.
    - f_equal. apply flat_map_ext_in. intros j Hj. apply Hf in Hj; auto.
      destruct (Nat.eqb_spec i j); [reflexivity|].
      apply more_first_fuel; auto; try lia; [|apply bound_fuel_ok].
      unfold fuel_ok in *. lia.
  Qed.

  Theorem lazy_paths_unfold f b i : bounded f -> i <= L ->
    lazy_paths s f b i
    = match b with
      | Fin n => if N.eqb n 0 then [i]
                 else i :: flat_map (lazy_paths s f (Fin (n - 1))) (f i)
      | Inf => i :: flat_map (fun j => if Nat.eqb i j then [] else lazy_paths s f Inf j) (f i)
      end.
  Proof.
    intros Hf Hi. unfold lazy_paths at 1.
    destruct (bound_fuel s b i) as [|fu] eqn:E.
    { pose proof (bound_fuel_ok b i) as H. rewrite E in H. unfold fuel_ok in H. destruct b; lia. }
    pose proof (bound_fuel_ok b i) as H. rewrite E in H. cbn [fewer_first]. destruct b as [n|].
    - destruct (N.eqb_spec n 0); [reflexivity|]. f_equal. apply flat_map_ext_in. intros j Hj.
      apply Hf in Hj; auto. apply fewer_first_fuel; auto; try lia; [|apply bound_fuel_ok].
      unfold fuel_ok in *. lia.
    - f_equal. apply flat_map_ext_in. intros j Hj. apply Hf in Hj; auto.
      destruct (Nat.eqb_spec i j); [reflexivity|].
      apply fewer_first_fuel; auto; try lia; [|apply bound_fuel_ok].
      unfold fuel_ok in *. lia.
  Qed.

  (** ** Classes *)

  Lemma matches_class n : is_class n = true -> forall i j,
    matches cf s n i j <-> j = S i /\ char_at s (accepts cf n) i = true.
  Proof.
    induction n using node_ind'; intros Hc i j; try discriminate; try reflexivity.
    - cbn in Hc. cbn [matches]. rewrite Hc. reflexivity.
    - rewrite matches_Seq. cbn in Hc. destruct l as [|x [|y r]]; try discriminate.
      inversion H; subst. cbn. split.
      + intros (k & Hk & <-). now apply H2.
      + intros Hk. exists j. split; [|reflexivity]. now apply H2.
    - rewrite matches_Alt. cbn in Hc. destruct l as [|x r]; try discriminate.
      assert (Hall : forall y, In y (x :: r) -> is_class y = true).
      { apply andb_true_iff in Hc as [Hx Hr]. rewrite forallb_forall in Hr.
        intros y [->|Hy]; auto. }
      rewrite Forall_forall in H. split.
      + intros (y & Hy & Hm). apply H in Hm as [-> Ha]; auto. split; [reflexivity|].
        unfold char_at in *. destruct (nth_error s i); [|discriminate].
        cbn [accepts]. apply existsb_exists. eauto.
      + intros [-> Ha]. unfold char_at in *. destruct (nth_error s i) eqn:E; [|discriminate].
        cbn [accepts] in Ha. apply existsb_exists in Ha as (y & Hy & Ha).
        exists y. split; auto. apply H; auto. split; auto. unfold char_at. now rewrite E.
    - cbn in Hc. destruct hi as [h|]; try discriminate.
      apply andb_true_iff in Hc as [Hc Hn]. apply andb_true_iff in Hc as [H1 H2].
      apply N.eqb_eq in H1, H2. subst. cbn [matches accepts].
      assert (E : forall c, allowed 1 (Fin 1) c <-> c = 1).
      { intros c. unfold allowed. lia. }
      split.
      + intros (c & Hcc & Hi). apply E in Hcc. subst. cbn in Hi.
        destruct Hi as (k & Hk & <-). now apply IHn.
      + intros Hk. exists 1. split; [now apply E|]. cbn. exists j. split; [|reflexivity].
        now apply IHn.
  Qed.

  (** ** Bounds of the language *)

  Lemma iterate_bounds (r : nat -> nat -> Prop) n i j :
    (forall i j, i <= L -> r i j -> i <= j <= L) ->
    i <= L -> iterate r n i j -> i <= j <= L.
  Proof.
    intros Hr. revert i. induction n as [|n IH]; intros i Hi; cbn.
    - intros ->. lia.
    - intros (k & Hk & Hj). apply Hr in Hk; auto. apply IH in Hj; lia.
  Qed.

  Theorem matches_bounds n : forall i j, i <= L -> matches cf s n i j -> i <= j <= L.
  Proof.
    assert (Hca : forall p i j, j = S i /\ char_at s p i = true -> i <= j <= L).
    { intros p i j [-> H]. apply char_at_lt in H. lia. }
    induction n using node_ind'; intros i j Hi;
      try (cbn [matches]; eauto; intuition lia).
    - cbn [matches]. destruct (is_class n); eauto. intuition lia.
    - rewrite matches_Seq. revert i Hi. induction H as [|x r Hx Hr IH]; intros i Hi; cbn.
      + intros ->. lia.
      + intros (k & Hk & Hj). apply Hx in Hk; auto. apply IH in Hj; lia.
    - rewrite matches_Alt. intros (x & Hx & Hm). rewrite Forall_forall in H. eapply H; eauto.
    - cbn [matches]. intros (c & _ & Hc). eapply iterate_bounds; eauto.
    - cbn [matches]. destruct d; intuition lia.
  Qed.

  Theorem zero_width_matches n : zero_width n = true ->
    forall i j, matches cf s n i j -> i = j.
  Proof.
    induction n using node_ind'; intros Hz i j; try discriminate;
      try (cbn [matches]; intuition; fail).
    - cbn in Hz. cbn [matches]. destruct (is_class n); [discriminate|]. intuition.
    - rewrite matches_Seq. cbn in Hz. revert i. induction l as [|x r IH]; intros i; cbn; auto.
      cbn in Hz. apply andb_true_iff in Hz as [Hz1 Hz2]. inversion H; subst.
      intros (k & Hk & Hj). apply H2 in Hk; auto. apply IH in Hj; auto. congruence.
    - rewrite matches_Alt. cbn in Hz. rewrite forallb_forall in Hz. rewrite Forall_forall in H.
      intros (x & Hx & Hm). exact (H x Hx (Hz x Hx) i j Hm).
    - cbn [matches]. intros (c & Ha & Hc).
      assert (Hn : c = 0 \/ zero_width n = true).
      { cbn in Hz. destruct hi as [h|]; auto. apply orb_true_iff in Hz as [Hz|Hz]; auto.
        apply N.eqb_eq in Hz. subst. unfold allowed in Ha. left. lia. }
      destruct Hn as [->|Hn]; [exact Hc|]. specialize (IHn Hn).
      clear -Hc IHn. revert i Hc. induction c as [|c IH]; intros i; cbn; auto.
      intros (k & Hk & Hj). apply IHn in Hk. apply IH in Hj. congruence.
    - cbn [matches]. destruct d; intuition.
  Qed.

  (** ** Priority order and language *)

  Lemma in_times f n i j :
    In j (times f n i) <-> iterate (fun i j => In j (f i)) n i j.
  Proof.
    revert i. induction n as [|n IH]; intros i; cbn; [intuition|].
    rewrite in_flat_map. split; intros (k & Hk & Hj); exists k; split; auto; now apply IH.
  Qed.

  Lemma iterate_ext (r1 r2 : nat -> nat -> Prop) n i j :
    (forall i j, i <= L -> (r1 i j <-> r2 i j)) ->
    (forall i j, i <= L -> r1 i j -> i <= j <= L) ->
    i <= L -> (iterate r1 n i j <-> iterate r2 n i j).
  Proof.
    intros He Hb. revert i. induction n as [|n IH]; intros i Hi; cbn; [reflexivity|].
    split; intros (k & Hk & Hj); exists k.
    - split; [now apply He|]. apply IH; auto. apply Hb in Hk; lia.
    - apply He in Hk; auto. split; auto. apply IH; auto. apply Hb in Hk; lia.
  Qed.

  Lemma iterate_app (r : nat -> nat -> Prop) a b i j :
    iterate r (a + b) i j <-> exists k, iterate r a i k /\ iterate r b k j.
  Proof.
    revert i. induction a as [|a IH]; intros i; cbn.
    - split; [intros H; eauto|]. now intros (k & -> & H).
    - split.
      + intros (k & Hk & Hj). apply IH in Hj as (k' & H1 & H2). exists k'. eauto.
      + intros (k' & (k & Hk & H1) & H2). exists k. split; auto. apply IH. eauto.
  Qed.

  Definition within (b : quantifier) (n : nat) : Prop :=
    match b with Fin h => (N.of_nat n <= h)%N | Inf => True end.

  Lemma in_greedy f b i j : bounded f -> i <= L ->
    In j (greedy_paths s f b i)
    <-> exists n, within b n /\ iterate (fun i j => In j (f i)) n i j.
  Proof.
    intros Hf Hi. split.
    - unfold greedy_paths. generalize (bound_fuel s b i). intros fu. revert b i Hi.
      induction fu as [|fu IH]; intros b i Hi; cbn; [easy|].
      destruct b as [h|].
      + destruct (N.eqb_spec h 0).
        * intros [->|[]]. exists 0. cbn. split; [lia|reflexivity].
        * intros H. apply in_app_or in H as [H|[->|[]]].
          -- apply in_flat_map in H as (k & Hk & Hj).
             apply IH in Hj as (c & Hc & Hj); [|apply Hf in Hk; lia].
             exists (S c). cbn in *. split; [lia|eauto].
          -- exists 0. cbn. split; [lia|reflexivity].
      + intros H. apply in_app_or in H as [H|[->|[]]].
        * apply in_flat_map in H as (k & Hk & Hj). destruct (Nat.eqb i k); [easy|].
          apply IH in Hj as (c & _ & Hj); [|apply Hf in Hk; lia].
          exists (S c). cbn. split; eauto.
        * exists 0. cbn. auto.
    - intros (c & Hc & Hj). revert b i Hi Hc Hj.
      induction c as [|c IH]; intros b i Hi Hc Hj; rewrite greedy_paths_unfold by assumption.
      + cbn in Hj. subst. destruct b as [h|].
        * destruct (N.eqb h 0); [cbn; auto|]. apply in_or_app. cbn. auto.
        * apply in_or_app. cbn. auto.
      + cbn in Hj. destruct Hj as (k & Hk & Hj). pose proof (Hf _ _ Hi Hk).
        destruct b as [h|].
        * cbn in Hc. destruct (N.eqb_spec h 0); [lia|]. apply in_or_app. left.
          apply in_flat_map. exists k. split; auto. apply IH; auto; [lia|cbn; lia].
        * destruct (Nat.eqb_spec i k).
          -- subst k. rewrite <- (greedy_paths_unfold f Inf i) by assumption. now apply IH.
          -- apply in_or_app. left. apply in_flat_map. exists k. split; auto.
             destruct (Nat.eqb_spec i k); [easy|]. apply IH; auto. lia.
  Qed.

  Lemma in_lazy f b i j : bounded f -> i <= L ->
    In j (lazy_paths s f b i)
    <-> exists n, within b n /\ iterate (fun i j => In j (f i)) n i j.
  Proof.
    intros Hf Hi. split.
    - unfold lazy_paths. generalize (bound_fuel s b i). intros fu. revert b i Hi.
      induction fu as [|fu IH]; intros b i Hi; cbn; [easy|].
      destruct b as [h|].
      + destruct (N.eqb_spec h 0).
        * intros [->|[]]. exists 0. cbn. split; [lia|reflexivity].
        * intros [->|H].
          -- exists 0. cbn. split; [lia|reflexivity].
          -- apply in_flat_map in H as (k & Hk & Hj).
             apply IH in Hj as (c & Hc & Hj); [|apply Hf in Hk; lia].
             exists (S c). cbn in *. split; [lia|eauto].
      + intros [->|H].
        * exists 0. cbn. auto.
        * apply in_flat_map in H as (k & Hk & Hj). destruct (Nat.eqb i k); [easy|].
          apply IH in Hj as (c & _ & Hj); [|apply Hf in Hk; lia].
          exists (S c). cbn. split; eauto.
    - intros (c & Hc & Hj). revert b i Hi Hc Hj.
      induction c as [|c IH]; intros b i Hi Hc Hj; rewrite lazy_paths_unfold by assumption.
      + cbn in Hj. subst. destruct b as [h|].
        * destruct (N.eqb h 0); cbn; auto.
        * cbn. auto.
      + cbn in Hj. destruct Hj as (k & Hk & Hj). pose proof (Hf _ _ Hi Hk).
        destruct b as [h|].
        * cbn in Hc. destruct (N.eqb_spec h 0); [lia|]. right.
          apply in_flat_map. exists k. split; auto. apply IH; auto; [lia|cbn; lia].
        * destruct (Nat.eqb_spec i k).
          -- subst k. rewrite <- (lazy_paths_unfold f Inf i) by assumption. now apply IH.
          -- right. apply in_flat_map. exists k. split; auto.
             destruct (Nat.eqb_spec i k); [easy|]. apply IH; auto. lia.
  Qed.

  Lemma paths_nonempty n i :
    (exists j, In j (paths cf s n i)) <-> paths cf s n i <> [].
  Proof.
    destruct (paths cf s n i) as [|a l]; cbn; [|split; [discriminate|eauto]].
    split; [now intros (j & [])|easy].
  Qed.

  Lemma in_paths_class n : is_class n = true -> forall i j,
    In j (paths cf s n i) <-> j = S i /\ char_at s (accepts cf n) i = true.
  Proof.
    assert (H1 : forall (b : bool) (i j : nat), In j (if b then [S i] else []) <-> j = S i /\ b = true).
    { intros [|] i j; cbn; intuition congruence. }
    induction n using node_ind'; intros Hc i j; try discriminate;
      try (cbn [paths]; apply H1).
    - cbn in Hc. cbn [paths]. rewrite Hc. apply H1.
    - rewrite paths_Seq. cbn in Hc. destruct l as [|x [|y r]]; try discriminate.
      inversion H as [|? ? Hx _]; subst. cbn [map chain_paths accepts].
      rewrite in_flat_map, <- (Hx Hc). split.
      + intros (k & Hk & [<-|[]]). assumption.
      + intros Hk. exists j. cbn. auto.
    - rewrite paths_Alt. cbn in Hc. destruct l as [|x r]; try discriminate.
      assert (Hall : forall y, In y (x :: r) -> is_class y = true).
      { apply andb_true_iff in Hc as [Hx Hr]. rewrite forallb_forall in Hr.
        intros y [->|Hy]; auto. }
      rewrite Forall_forall in H. rewrite in_flat_map. cbn [accepts].
      unfold char_at in *. destruct (nth_error s i) eqn:E.
      + rewrite existsb_exists. split.
        * intros (y & Hy & Hm). apply H in Hm as [-> Ha]; auto. rewrite E in Ha. eauto.
        * intros [-> (y & Hy & Ha)]. exists y. split; auto. apply H; auto. now rewrite E.
      + split; [|now intros []].
        intros (y & Hy & Hm). apply H in Hm as [-> Ha]; auto. now rewrite E in Ha.
    - cbn in Hc. destruct hi as [h|]; try discriminate.
      apply andb_true_iff in Hc as [Hc Hn]. apply andb_true_iff in Hc as [E1 E2].
      apply N.eqb_eq in E1, E2. subst. cbn [paths accepts]. rewrite <- (IHn Hn).
      assert (E : flat_map (greedy_paths s (paths cf s n) (remaining (Fin 1) 1))
                    (times (paths cf s n) (N.to_nat 1) i) = paths cf s n i).
      { transitivity (flat_map (fun x => [x]) (flat_map (fun x => [x]) (paths cf s n i)));
          [reflexivity|]. now rewrite !flat_map_single. }
      assert (E' : flat_map (lazy_paths s (paths cf s n) (remaining (Fin 1) 1))
                    (times (paths cf s n) (N.to_nat 1) i) = paths cf s n i).
      { transitivity (flat_map (fun x => [x]) (flat_map (fun x => [x]) (paths cf s n i)));
          [reflexivity|]. now rewrite !flat_map_single. }
      rewrite E, E'. destruct md; try (destruct (ungreedy cf); reflexivity).
      split; [apply in_firstn|]. intros Hj.
      destruct (paths cf s n i) as [|a l] eqn:Ep; [easy|].
      assert (Ha : In a (paths cf s n i)) by (rewrite Ep; cbn; auto).
      apply (IHn Hn) in Ha as [-> _]. rewrite <- Ep in Hj. apply (IHn Hn) in Hj as [-> _].
      cbn. auto.
  Qed.

  (** The ends listed in priority order are the ends of the language. *)
  Theorem in_paths n : possessive_free n = true -> well_formed n = true ->
    forall i j, i <= L -> (In j (paths cf s n i) <-> matches cf s n i j).
  Proof.
    assert (H1 : forall (b : bool) (i j : nat), In j (if b then [i] else []) <-> i = j /\ b = true).
    { intros [|] i j; cbn; intuition congruence. }
    assert (H1' : forall (b : bool) (i j : nat), In j (if b then [S i] else []) <-> j = S i /\ b = true).
    { intros [|] i j; cbn; intuition congruence. }
    induction n using node_ind'; intros Hp Hw i j Hi; cbn in Hp, Hw;
      try (cbn [paths matches]; solve [auto | reflexivity]).
    - cbn. intuition.
    - cbn [paths matches]. rewrite H1, Nat.eqb_eq. reflexivity.
    - cbn [paths matches]. rewrite H1, Nat.eqb_eq. reflexivity.
    - (* Neg *) cbn [paths matches].
      apply andb_true_iff in Hw as [_ Hw]. destruct (is_class n); [apply H1'|].
      assert (E : ~ (exists k, matches cf s n i k) <-> paths cf s n i = []).
      { assert (E1 : (exists k, matches cf s n i k) <-> paths cf s n i <> []).
        { rewrite <- paths_nonempty. split; intros [k Hk]; exists k; now apply IHn. }
        rewrite E1. destruct (paths cf s n i); intuition congruence. }
      rewrite E. destruct (paths cf s n i); cbn; intuition congruence.
    - (* Seq *) rewrite matches_Seq, paths_Seq.
      assert (Hw' : forallb well_formed l = true) by (destruct l; [discriminate|assumption]).
      clear Hw. revert i Hi. induction l as [|x r IH]; intros i Hi; cbn; [intuition|].
      cbn in Hp, Hw'. apply andb_true_iff in Hp as [Hp1 Hp2].
      apply andb_true_iff in Hw' as [Hw1 Hw2]. inversion H as [|? ? Hx Hr]; subst.
      rewrite in_flat_map. split; intros (k & Hk & Hj); exists k.
      + pose proof (paths_bounded x _ _ Hi Hk).
        split; [now apply Hx|]. apply IH; auto. lia.
      + pose proof (matches_bounds x _ _ Hi Hk).
        split; [now apply Hx|]. apply IH; auto. lia.
    - (* Alt *) rewrite matches_Alt, paths_Alt, in_flat_map.
      assert (Hw' : forallb well_formed l = true) by (destruct l; [discriminate|assumption]).
      rewrite forallb_forall in Hw', Hp. rewrite Forall_forall in H.
      split; intros (x & Hx & Hj); exists x; split; auto; apply H; auto.
    - (* Rep *)
      destruct (is_class (Rep md lo hi n)) eqn:Hc.
      { rewrite in_paths_class, matches_class by assumption. reflexivity. }
      assert (Hpn : possessive_free n = true)
        by (cbn in Hp, Hc; destruct md; auto; congruence).
      assert (Hmd : md <> Possessive) by (intros ->; cbn in Hp, Hc; congruence).
      clear Hc.
      pose proof (paths_bounded n) as Hb.
      assert (Hcount : forall g, (forall i j, i <= L -> (In j (g i) <->
                exists c, within (remaining hi lo) c
                          /\ iterate (fun i j => In j (paths cf s n i)) c i j)) ->
              In j (flat_map g (times (paths cf s n) (N.to_nat lo) i))
              <-> exists c, allowed lo hi c
                          /\ iterate (fun i j => In j (paths cf s n i)) c i j).
      { intros g Hgg. rewrite in_flat_map. split.
        - intros (k & Hk & Hj). pose proof (times_bounded _ (N.to_nat lo) Hb _ _ Hi Hk).
          apply Hgg in Hj as (c & Hc & Hj); [|lia].
          exists (N.to_nat lo + c). split.
          + unfold allowed, within, remaining in *. destruct hi as [h|]; [|lia].
            apply andb_true_iff in Hw as [Hw _]. apply N.leb_le in Hw. lia.
          + apply iterate_app. exists k. split; auto. now apply in_times.
        - intros (c & Hc & Hj). unfold allowed in Hc.
          assert (Hlo : N.to_nat lo <= c) by lia.
          replace c with (N.to_nat lo + (c - N.to_nat lo)) in Hj by lia.
          apply iterate_app in Hj as (k & Hk & Hj). apply in_times in Hk.
          exists k. split; auto. pose proof (times_bounded _ (N.to_nat lo) Hb _ _ Hi Hk).
          apply Hgg; [lia|]. exists (c - N.to_nat lo). split; auto.
          unfold within, remaining. destruct hi; lia. }
      assert (Hiff : (exists c, allowed lo hi c
                       /\ iterate (fun i j => In j (paths cf s n i)) c i j)
                     <-> matches cf s (Rep md lo hi n) i j).
      { cbn [matches]. destruct hi as [h|].
        - apply andb_true_iff in Hw as [Hle Hw]. apply orb_true_iff in Hw as [Hw|Hw].
          + apply N.eqb_eq in Hw. subst. split; intros (c & Hc & Hj); exists c; split; auto;
              assert (c = 0) by (unfold allowed in Hc; lia); subst c; exact Hj.
          + split; intros (c & Hc & Hj); exists c; split; auto;
              eapply iterate_ext; try eassumption; eauto;
              try (intros; now apply IHn); try (intros; symmetry; now apply IHn).
            intros; eapply matches_bounds; eauto.
        - split; intros (c & Hc & Hj); exists c; split; auto;
            eapply iterate_ext; try eassumption; eauto;
            try (intros; now apply IHn); try (intros; symmetry; now apply IHn).
          intros; eapply matches_bounds; eauto. }
      rewrite <- Hiff. cbn [paths].
      assert (G : In j (flat_map (greedy_paths s (paths cf s n) (remaining hi lo))
                    (times (paths cf s n) (N.to_nat lo) i))
              <-> exists c, allowed lo hi c
                          /\ iterate (fun i j => In j (paths cf s n i)) c i j).
      { apply Hcount. intros. now apply in_greedy. }
      assert (Z : In j (flat_map (lazy_paths s (paths cf s n) (remaining hi lo))
                    (times (paths cf s n) (N.to_nat lo) i))
              <-> exists c, allowed lo hi c
                          /\ iterate (fun i j => In j (paths cf s n i)) c i j).
      { apply Hcount. intros. now apply in_lazy. }
      destruct md; [| |easy]; destruct (ungreedy cf); assumption.
    - (* Look *) destruct d; cbn [paths matches].
      + assert (E1 : (exists k, matches cf s n i k) <-> paths cf s n i <> []).
        { rewrite <- paths_nonempty. split; intros [k Hk]; exists k; now apply IHn. }
        rewrite E1. destruct (paths cf s n i); cbn; intuition congruence.
      + rewrite H1. rewrite existsb_exists. split.
        * intros [-> (k & Hk & He)]. split; auto. apply existsb_exists in He as (e & He1 & He2).
          apply Nat.eqb_eq in He2. subst e. apply in_seq in Hk. exists k. split; [lia|]. apply IHn; auto. lia.
        * intros [-> (k & Hkj & Hk)].
          split; auto. exists k. split; [apply in_seq; lia|].
          apply existsb_exists. exists j. split; [|apply Nat.eqb_refl].
          apply IHn; auto. lia.
  Qed.
End Facts.
