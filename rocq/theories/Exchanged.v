(** Rewritings that keep every attempt together with the content of all groups: the
    laws hold of [explore] (C88). *)
From Verif Require Import Matcher Api Basics Safe Impl Spec Paths Mirror Adequacy Calls Lift Matching
  Results Walk Exact Relate Tracks Tracking Explore Explored Follows Searches Exchange.
From Verif Require Rewrites Gaps.
From Coq Require Import Lia.

Section Nodes.
  Variable cf : config.
  Variable names : list group_name.
  Variable base : list ascii.
  Local Notation L := (length base).
  Local Notation gd := (good names base).
  Local Notation sound := (sound names base).
  Local Notation finder := (finder names base).
  Local Notation same := (same names base).
  Local Notation eqf := (eqf names base).
  Local Notation E := (explore cf names base).
  Local Notation any d b := (any cf base (Nat.odd d) (E d b)).
  Local Notation looping := (looping cf base).
  Local Notation reads d := (reads base (Nat.odd d)).

  Lemma by_equal t u : equal t u -> same t u.
  Proof. apply equal_same. Qed.

  Lemma E_find d b x : finder (Nat.odd d) true (E d b x).
  Proof. eapply finder_weaken. apply explore_finder. Qed.

  Lemma same_eq t u : t = u -> same t u.
  Proof. intros ->. apply same_refl. Qed.

  Ltac go := eapply same_trans.

  (** ** The clauses of [explore] *)

  Lemma reads_first d p i g : first_only (reads d p i g) = reads d p i g.
  Proof. unfold Explored.reads. destruct (read_char _ _ _ _); reflexivity. Qed.

  Lemma E_seq d b l : eqf (E d b (Seq l)) (chain (map (E d b) (if b then rev l else l))).
  Proof.
    intros i g Hi Hg. destruct (is_class (Seq l)) eqn:Hc; [|apply same_eq; now apply E_Seq].
    destruct l as [|x [|y r]]; try discriminate Hc. replace (if b then rev [x] else [x]) with [x] by now destruct b.
    cbn [map chain]. apply by_equal, equal_sym. eapply equal_trans; [apply equal_followed_one|].
    rewrite !E_class by exact Hc. apply equal_refl.
  Qed.

  Lemma E_then d b x y : eqf (E d b (then_ b x y)) (fun i g => followed_by (E d b x i g) (E d b y)).
  Proof.
    intros i g Hi Hg.
    assert (K : same (chain [E d b x; E d b y] i g) (followed_by (E d b x i g) (E d b y))).
    { cbn [chain]. apply by_equal, equal_followed. intros j h. apply equal_followed_one. }
    destruct b.
    - go; [exact (E_seq d true [y; x] i g Hi Hg)|exact K].
    - go; [exact (E_seq d false [x; y] i g Hi Hg)|exact K].
  Qed.

  Lemma E_alt d b l : forall i g, E d b (Alt l) i g = any d b l i g.
  Proof.
    intros i g. destruct (is_class (Alt l)) eqn:Hc; [|now apply E_Alt].
    rewrite E_class by exact Hc. destruct l as [|x l]; [discriminate|]. cbn [Explored.any]. now rewrite Hc.
  Qed.

  Lemma loop_none d b x md i g : looping (E d b x) md (Fin 0) i g = one i g.
  Proof. unfold Explored.looping. destruct md; [destruct (ungreedy cf)|destruct (ungreedy cf)|]; reflexivity. Qed.

  Lemma E_rep d b md lo hi x : eqf (E d b (Rep md lo hi x))
    (fun i g => followed_by (starting (E d b x) md lo i g) (looping (E d b x) md (remaining hi lo))).
  Proof.
    intros i g Hi Hg. destruct (is_class (Rep md lo hi x)) eqn:Hc; [|apply same_eq; now apply E_Rep].
    rewrite E_class by exact Hc. destruct hi as [hi|]; [|discriminate]. cbn [is_class] in Hc.
    apply andb_true_iff in Hc as [Hc Cx]. apply andb_true_iff in Hc as [E1 E2].
    apply N.eqb_eq in E1, E2. subst. cbn [remaining]. change (1 - 1)%N with 0%N.
    assert (Ef : E d b x i g = reads d (accepts cf x) i g) by now apply E_class.
    assert (K : same (starting (E d b x) md 1 i g) (reads d (accepts cf x) i g)).
    { unfold starting. change (N.to_nat 1) with 1. cbn [repeat chain].
      assert (K : same (followed_by (E d b x i g) one) (reads d (accepts cf x) i g))
        by (rewrite <- Ef; apply by_equal, equal_followed_one).
      destruct md; try exact K. go; [apply same_first, K|]. rewrite reads_first. apply same_refl. }
    apply same_sym. go.
    - eapply same_followed; [apply same_refl|apply (finder_starting names base (Nat.odd d) x); auto; apply explore_finder|].
      intros j h Hj Hh. rewrite loop_none. split; [apply same_refl|]. exists (fun _ => True). now apply sound_one.
    - go; [apply by_equal, equal_followed_one|]. exact K.
  Qed.

  Lemma E_fixed d b md n x : md <> Possessive ->
    eqf (E d b (Rep md n (Fin n) x)) (chain (repeat (E d b x) (N.to_nat n))).
  Proof.
    intros Hm i g Hi Hg. go; [apply E_rep; assumption|]. cbn [remaining]. rewrite N.sub_diag.
    go; [apply by_equal, equal_followed; intros j h; rewrite loop_none; apply equal_refl|].
    go; [apply by_equal, equal_followed_one|]. destruct md; try easy; apply same_refl.
  Qed.

  Lemma E_atomic d b n x :
    eqf (E d b (Rep Possessive n (Fin n) x)) (fun i g => first_only (chain (repeat (E d b x) (N.to_nat n)) i g)).
  Proof.
    intros i g Hi Hg. go; [apply E_rep; assumption|]. cbn [remaining]. rewrite N.sub_diag.
    go; [apply by_equal, equal_followed; intros j h; rewrite loop_none; apply equal_refl|].
    apply by_equal, equal_followed_one.
  Qed.

  Lemma E_loop d b md hi x : eqf (E d b (Rep md 0 hi x)) (looping (E d b x) md hi).
  Proof.
    intros i g Hi Hg. go; [apply E_rep; assumption|].
    replace (remaining hi 0) with hi by (destruct hi as [h|]; cbn [remaining]; rewrite ?N.sub_0_r; reflexivity).
    replace (starting (E d b x) md 0 i g) with (one i g) by (unfold starting; destruct md; reflexivity).
    cbn [followed_by]. apply by_equal. apply equal_otherwise_stop.
  Qed.

  Lemma looping_early d b x md hi : md <> Possessive -> looping (E d b x) md hi
    = if Gaps.early cf md then trying_fewer (E d b x) (any_fuel base hi) hi
      else trying_more (E d b x) (any_fuel base hi) hi.
  Proof. intros H. unfold Explored.looping, Gaps.early. destruct md; try easy; now destruct (ungreedy cf). Qed.

  (** ** Alternatives *)

  Section Alternatives.
    Variable d : nat.
    Variable b : bool.

    Fixpoint tries (l : list node) (i : nat) (g : caps) : search :=
      match l with
      | [] => Stop g
      | x :: r => otherwise (E d b x i g) (tries r i)
      end.

    Lemma any_cons x r i g : is_class (Alt (x :: r)) = false ->
      any d b (x :: r) i g = otherwise (E d b x i g) (any d b r i).
    Proof. intros H. cbn [Explored.any]. now rewrite H. Qed.

    Lemma class_app x l1 l2 : is_class (Alt (x :: l1 ++ l2)) = is_class x && forallb is_class l1 && forallb is_class l2.
    Proof. cbn [is_class]. rewrite forallb_app. now rewrite andb_assoc. Qed.

    Lemma any_app l1 l2 i g : forallb is_class l2 = false ->
      equal (any d b (l1 ++ l2) i g) (otherwise (tries l1 i g) (any d b l2 i)).
    Proof.
      intros H. revert g. induction l1 as [|x l1 IH]; intros g; [apply equal_refl|]. cbn [app tries].
      rewrite any_cons by (rewrite class_app, H; apply andb_false_r).
      eapply equal_trans; [|apply equal_sym, equal_otherwise_assoc]. apply equal_otherwise; auto using equal_refl.
    Qed.

    Lemma any_one x : eqf (any d b [x]) (E d b x).
    Proof.
      intros i g Hi Hg. destruct (is_class (Alt [x])) eqn:Hc.
      - cbn [Explored.any]. rewrite Hc. cbn in Hc. rewrite andb_true_r in Hc. rewrite E_class by exact Hc.
        apply same_eq. apply reads_ext. intros a. cbn. apply orb_false_r.
      - rewrite any_cons by exact Hc. apply by_equal. apply equal_otherwise_stop.
    Qed.

    Lemma any_last l y i g : is_class y = false -> equal (any d b (l ++ [y]) i g) (tries (l ++ [y]) i g).
    Proof.
      intros H. eapply equal_trans; [apply any_app; cbn; now rewrite H|].
      assert (K : forall h, any d b [y] i h = otherwise (E d b y i h) Stop).
      { intros h. rewrite any_cons by (cbn; now rewrite H). reflexivity. }
      revert g. induction l as [|x l IH]; intros g; cbn [app tries]; [cbn [otherwise]; rewrite K; apply equal_refl|].
      eapply equal_trans; [apply equal_otherwise_assoc|]. apply equal_otherwise; auto using equal_refl.
    Qed.

    Lemma any_find l : finder (Nat.odd d) true (any d b l).
    Proof. apply finder_any. intros x _. apply E_find. Qed.

    Lemma tries_find l : finder (Nat.odd d) true (tries l).
    Proof.
      induction l as [|x l IH]; intros i g Hi Hg; cbn [tries]; [exact Hg|].
      apply sound_otherwise; [now apply E_find|]. intros h Hh. now apply IH.
    Qed.

    Lemma any_middle l1 x y l2 : is_class x = false -> is_class y = false -> eqf (E d b x) (E d b y) ->
      eqf (any d b (l1 ++ x :: l2)) (any d b (l1 ++ y :: l2)).
    Proof.
      intros Cx Cy H i g Hi Hg. revert g Hg. induction l1 as [|z l1 IH]; intros g Hg; cbn [app].
      - rewrite !any_cons by (cbn [is_class]; now rewrite ?Cx, ?Cy).
        eapply same_otherwise; [now apply H|now apply E_find|]. intros h Hh. apply same_refl.
      - rewrite !any_cons by (rewrite class_app; cbn [forallb]; rewrite ?Cx, ?Cy; apply andb_false_r).
        eapply same_otherwise; [apply same_refl|now apply E_find|]. exact IH.
    Qed.

    Lemma any_chars l1 x y l2 : is_class x = true -> is_class y = true -> (forall c, accepts cf x c = accepts cf y c) ->
      eqf (any d b (l1 ++ x :: l2)) (any d b (l1 ++ y :: l2)).
    Proof.
      intros Cx Cy H i g Hi Hg.
      assert (Hxy : forall h, same (E d b x i h) (E d b y i h)).
      { intros h. rewrite !E_class by assumption. apply same_eq, reads_ext, H. }
      assert (Hr : forall l a, accepts cf (Alt (l ++ x :: l2)) a = accepts cf (Alt (l ++ y :: l2)) a).
      { intros l a. cbn [accepts]. rewrite !existsb_app. cbn [existsb]. now rewrite H. }
      assert (Hc : forall l, is_class (Alt (l ++ x :: l2)) = is_class (Alt (l ++ y :: l2))).
      { intros [|z l]; cbn [app]; [cbn [is_class]; now rewrite Cx, Cy|].
        rewrite !class_app. cbn [forallb]. now rewrite Cx, Cy. }
      revert g Hg. induction l1 as [|z l1 IH]; intros g Hg.
      - specialize (Hr []). specialize (Hc []). cbn [app] in *. destruct (is_class (Alt (x :: l2))) eqn:C1.
        + cbn [Explored.any]. rewrite C1, <- Hc. apply same_eq, reads_ext, Hr.
        + rewrite !any_cons by (symmetry in Hc; assumption).
          eapply same_otherwise; [apply Hxy|now apply E_find|]. intros h Hh. apply same_refl.
      - specialize (Hr (z :: l1)). specialize (Hc (z :: l1)). cbn [app] in *.
        destruct (is_class (Alt (z :: l1 ++ x :: l2))) eqn:C1.
        + cbn [Explored.any]. rewrite C1, <- Hc. apply same_eq, reads_ext, Hr.
        + rewrite !any_cons by (symmetry in Hc; assumption).
          eapply same_otherwise; [apply same_refl|now apply E_find|]. exact IH.
    Qed.

    Lemma class_Alt l : l <> [] -> is_class (Alt l) = forallb is_class l.
    Proof. now destruct l. Qed.

    Lemma any_nested l1 l2 : l2 <> [] -> eqf (any d b (l1 ++ [Alt l2])) (any d b (l1 ++ l2)).
    Proof.
      intros Hne i g Hi Hg.
      assert (Hr : forall l a, accepts cf (Alt (l ++ [Alt l2])) a = accepts cf (Alt (l ++ l2)) a).
      { intros l a. cbn [accepts]. rewrite !existsb_app. cbn [existsb accepts]. now rewrite orb_false_r. }
      revert g Hg. induction l1 as [|z l1 IH]; intros g Hg.
      - cbn [app]. go; [now apply any_one|]. rewrite E_alt. apply same_refl.
      - specialize (Hr (z :: l1)). cbn [app] in *.
        assert (Hc : is_class (Alt (z :: l1 ++ [Alt l2])) = is_class (Alt (z :: l1 ++ l2))).
        { rewrite !class_app. cbn [forallb]. rewrite andb_true_r, class_Alt by assumption. reflexivity. }
        destruct (is_class (Alt (z :: l1 ++ [Alt l2]))) eqn:C1.
        + cbn [Explored.any]. rewrite C1, <- Hc. apply same_eq, reads_ext, Hr.
        + rewrite !any_cons by (symmetry in Hc; assumption).
          eapply same_otherwise; [apply same_refl|now apply E_find|]. exact IH.
    Qed.

    Lemma tries_app l1 l2 i g : equal (tries (l1 ++ l2) i g) (otherwise (tries l1 i g) (tries l2 i)).
    Proof.
      revert g. induction l1 as [|x l1 IH]; intros g; [apply equal_refl|]. cbn [app tries].
      eapply equal_trans; [|apply equal_sym, equal_otherwise_assoc]. apply equal_otherwise; auto using equal_refl.
    Qed.

    Lemma any_flat l1 l2 y l3 : is_class y = false ->
      forall i g, equal (any d b (l1 ++ Alt (l2 ++ [y]) :: l3) i g) (any d b (l1 ++ (l2 ++ [y]) ++ l3) i g).
    Proof.
      intros Cy i g.
      assert (Ca : is_class (Alt (l2 ++ [y])) = false).
      { destruct l2 as [|z l2]; cbn [app]; [cbn; now rewrite Cy|]. rewrite class_app. cbn [forallb]. rewrite Cy. apply andb_false_r. }
      eapply equal_trans; [apply any_app; cbn [forallb]; now rewrite Ca|].
      eapply equal_trans; [|apply equal_sym, any_app; rewrite !forallb_app; cbn [forallb]; rewrite Cy; now rewrite !andb_false_r].
      apply equal_otherwise; [apply equal_refl|]. intros h.
      rewrite any_cons by (cbn [is_class]; cbn [is_class] in Ca; now rewrite Ca).
      rewrite E_alt, <- app_assoc. cbn [app].
      eapply equal_trans; [|apply equal_sym, any_app; cbn [forallb]; now rewrite Cy].
      eapply equal_trans; [apply equal_otherwise; [apply any_last; assumption|intros; apply equal_refl]|].
      eapply equal_trans; [apply equal_otherwise; [apply tries_app|intros; apply equal_refl]|].
      eapply equal_trans; [apply equal_otherwise_assoc|]. apply equal_otherwise; [apply equal_refl|]. intros k.
      rewrite any_cons by (cbn [is_class]; now rewrite Cy). cbn [tries].
      apply equal_otherwise; [apply equal_otherwise_stop|]. intros; apply equal_refl.
    Qed.

    Lemma then_class x y : is_class (then_ b x y) = false.
    Proof. unfold then_, Rewrites.then_. now destruct b. Qed.

    Lemma tries_suffix z l i g : i <= L -> gd g ->
      same (followed_by (tries l i g) (E d b z)) (tries (map (fun x => then_ b x z) l) i g).
    Proof.
      intros Hi. revert g. induction l as [|x l IH]; intros g Hg; cbn [tries map]; [apply same_refl|].
      go; [apply by_equal, equal_followed_otherwise|]. apply same_sym.
      eapply same_otherwise; [now apply E_then|now apply E_find|]. intros h Hh. apply same_sym. now apply IH.
    Qed.

    Lemma any_suffix l y z : is_class y = false ->
      eqf (E d b (then_ b (Alt (l ++ [y])) z)) (any d b (map (fun x => then_ b x z) (l ++ [y]))).
    Proof.
      intros Cy i g Hi Hg. go; [apply E_then; assumption|].
      go.
      - apply (eqf_followed names base (Nat.odd d) _ (tries (l ++ [y]) i g) _ (E d b z) i); auto using E_find, eqf_refl.
        + rewrite E_alt. apply by_equal, any_last, Cy.
        + now apply E_find.
      - go; [apply tries_suffix; assumption|]. rewrite map_app. cbn [map].
        apply same_sym, by_equal, any_last, then_class.
    Qed.
  End Alternatives.

  (** ** Trees without groups: the same ends whatever the groups hold *)

  Fixpoint from (es : list nat) (g : caps) : search :=
    match es with [] => Stop g | j :: r => Found j g (from r) end.

  Definition passes (es : list nat) (f : caps -> search) : Prop :=
    Forall (fun j => j <= L) es /\ forall g, gd g -> same (f g) (from es g).

  Definition uniform (f : nat -> caps -> search) : Prop :=
    forall i, i <= L -> exists es, passes es (f i).

  Lemma from_sound es g : gd g -> Forall (fun j => j <= L) es -> sound (fun j => j <= L) (from es g).
  Proof. intros Hg H. revert g Hg. induction H as [|j es Hj H IH]; intros g Hg; cbn; auto. Qed.

  Lemma from_app e1 e2 g : equal (otherwise (from e1 g) (from e2)) (from (e1 ++ e2) g).
  Proof. revert g. induction e1 as [|j e1 IH]; intros g; cbn; auto using equal_refl. Qed.

  Lemma passes_otherwise e1 e2 f h : passes e1 f -> passes e2 h -> passes (e1 ++ e2) (fun g => otherwise (f g) h).
  Proof.
    intros [B1 H1] [B2 H2]. split; [now apply Forall_app|]. intros g Hg.
    go; [|apply by_equal, from_app]. apply same_sym.
    eapply same_otherwise; [apply same_sym, H1, Hg|now apply from_sound|]. intros k Hk. apply same_sym. auto.
  Qed.

  Lemma passes_ext es f h : (forall g, gd g -> same (f g) (h g)) -> passes es f -> passes es h.
  Proof. intros H [B1 H1]. split; [auto|]. intros g Hg. go; [apply same_sym; auto|auto]. Qed.

  Lemma passes_followed es f h : passes es f -> uniform h -> exists es', passes es' (fun g => followed_by (f g) h).
  Proof.
    intros [B1 H1] Hh.
    assert (K : exists es', passes es' (fun g => followed_by (from es g) h)).
    { clear H1. induction B1 as [|j es Hj B IH]; [exists []; split; auto; intros; apply same_refl|].
      destruct IH as [e2 H2], (Hh j Hj) as [e1 H1']. exists (e1 ++ e2). cbn [from followed_by].
      exact (passes_otherwise e1 e2 (h j) _ H1' H2). }
    destruct K as [es' [B2 H2]]. exists es'. split; [auto|]. intros g Hg. go; [|apply H2, Hg]. apply same_sym.
    eapply same_followed; [apply same_sym, H1, Hg|now apply from_sound|].
    intros j k Hj Hk. cbn in Hj. split; [apply same_refl|]. destruct (Hh j Hj) as [es1 [B3 H3]].
    exists (fun j => j <= L). eapply same_sound; [apply same_sym, H3, Hk|now apply from_sound].
  Qed.

  Lemma passes_first es f : passes es f -> passes (firstn 1 es) (fun g => first_only (f g)).
  Proof.
    intros [B1 H1]. split; [destruct B1; cbn; auto|]. intros g Hg. go; [apply same_first, H1, Hg|].
    destruct es; cbn; auto.
  Qed.

  Lemma uniform_one : uniform one.
  Proof. intros i Hi. exists [i]. split; [auto|]. intros g Hg. apply same_refl. Qed.

  Lemma uniform_stop : uniform (fun _ => Stop).
  Proof. intros i Hi. exists []. split; [auto|]. intros g Hg. apply same_refl. Qed.

  Lemma uniform_test p : uniform (fun i => test (p i) i).
  Proof. intros i Hi. unfold test. destruct (p i); [exact (uniform_one i Hi)|exact (uniform_stop i Hi)]. Qed.

  Lemma uniform_ext f h : eqf f h -> uniform f -> uniform h.
  Proof.
    intros H Hf i Hi. destruct (Hf i Hi) as [es He]. exists es. eapply passes_ext; [|exact He]. intros g Hg. now apply H.
  Qed.

  Lemma uniform_followed f h : uniform f -> uniform h -> uniform (fun i g => followed_by (f i g) h).
  Proof. intros Hf Hh i Hi. destruct (Hf i Hi) as [es He]. eapply passes_followed; eauto. Qed.

  Lemma uniform_otherwise f h : uniform f -> uniform h -> uniform (fun i g => otherwise (f i g) (h i)).
  Proof.
    intros Hf Hh i Hi. destruct (Hf i Hi) as [e1 H1], (Hh i Hi) as [e2 H2]. exists (e1 ++ e2).
    now apply passes_otherwise.
  Qed.

  Lemma uniform_first f : uniform f -> uniform (fun i g => first_only (f i g)).
  Proof. intros Hf i Hi. destruct (Hf i Hi) as [es He]. exists (firstn 1 es). now apply passes_first. Qed.

  Lemma uniform_chain fs : Forall uniform fs -> uniform (chain fs).
  Proof.
    induction 1 as [|f fs Hf H IH]; [apply uniform_one|]. exact (uniform_followed _ _ Hf IH).
  Qed.

  Lemma uniform_if (p : nat -> bool) f h : uniform f -> uniform h -> uniform (fun i g => if p i then f i g else h i g).
  Proof. intros Hf Hh i Hi. destruct (p i); auto. Qed.

  Lemma uniform_reads d p : uniform (reads d p).
  Proof.
    intros i Hi. unfold Explored.reads, read_char, char_before, char_at. destruct (Nat.odd d).
    - destruct i as [|i]; [exact (uniform_stop 0 (Nat.le_0_l _))|]. destruct (nth_error base i) as [a|]; [destruct (p a)|].
      + apply (uniform_one (S i - 1)). lia.
      + exact (uniform_stop 0 (Nat.le_0_l _)).
      + exact (uniform_stop 0 (Nat.le_0_l _)).
    - destruct (nth_error base i) as [a|] eqn:En; [destruct (p a)|].
      + apply (uniform_one (S i)). assert (nth_error base i <> None) by congruence. apply nth_error_Some in H. lia.
      + exact (uniform_stop 0 (Nat.le_0_l _)).
      + exact (uniform_stop 0 (Nat.le_0_l _)).
  Qed.

  Section UniformLoops.
    Variable f : nat -> caps -> search.
    Hypothesis Uf : uniform f.

    Lemma uniform_more fu : forall q, uniform (trying_more f fu q).
    Proof.
      induction fu as [|fu IH]; intros q i Hi; [exact (uniform_stop i Hi)|]. cbn [trying_more].
      destruct (none_left q); [exact (uniform_one i Hi)|].
      assert (U1 : uniform (fun j g' => if idle q i j then Stop g' else trying_more f fu (one_less q) j g'))
        by (apply (uniform_if (idle q i) (fun _ => Stop)); auto using uniform_stop).
      exact (uniform_otherwise _ one (uniform_followed f _ Uf U1) uniform_one i Hi).
    Qed.

    Lemma uniform_fewer fu : forall q, uniform (trying_fewer f fu q).
    Proof.
      induction fu as [|fu IH]; intros q i Hi; [exact (uniform_stop i Hi)|]. cbn [trying_fewer].
      destruct (none_left q); [exact (uniform_one i Hi)|].
      assert (U1 : uniform (fun j g' => if idle q i j then Stop g' else trying_fewer f fu (one_less q) j g'))
        by (apply (uniform_if (idle q i) (fun _ => Stop)); auto using uniform_stop).
      exact (uniform_otherwise one _ uniform_one (uniform_followed f _ Uf U1) i Hi).
    Qed.

    Lemma uniform_commit fu : forall q, uniform (committing f fu q).
    Proof.
      induction fu as [|fu IH]; intros q i Hi; [exact (uniform_stop i Hi)|]. cbn [committing].
      destruct (none_left q); [exact (uniform_one i Hi)|].
      destruct (Uf i Hi) as [[|j es] [B He]].
      - destruct (uniform_one i Hi) as [e1 H1]. exists e1. eapply passes_ext; [|exact H1].
        intros g Hg. specialize (He g Hg). destruct (f i g) as [g'|]; cbn in He; [subst; apply same_refl|easy].
      - inversion B; subst.
        assert (U1 : uniform (fun j g' => if idle q i j then one i g' else committing f fu (one_less q) j g')).
        { apply (uniform_if (idle q i) (fun _ => one i)); auto. intros k _. exact (uniform_one i Hi). }
        destruct (U1 j) as [e1 H1']; [assumption|]. exists e1. eapply passes_ext; [|exact H1'].
        intros g Hg. specialize (He g Hg). destruct (f i g) as [|k g' m]; cbn in He; [easy|].
        destruct He as (-> & -> & _). apply same_refl.
    Qed.
  End UniformLoops.

  Lemma uniform_repeat f n : uniform f -> uniform (chain (repeat f n)).
  Proof. intros H. apply uniform_chain, Forall_forall. intros y Hy. apply repeat_spec in Hy. now subst. Qed.

  Lemma groupless_uniform n : groupless n = true -> forall d b, uniform (E d b n).
  Proof.
    induction n using node_ind'; intros Hg d0 b0;
      match goal with |- uniform (E _ _ ?n) => destruct (is_class n) eqn:Hc end;
      try (eapply uniform_ext; [|apply (uniform_reads d0)]; intros i0 g0 _ _; apply same_eq; symmetry; now apply E_class);
      try discriminate Hg; try discriminate Hc.
    - exact uniform_one.
    - exact (uniform_test (fun i => if Nat.odd d0 then at_line_end cf base i else at_line_start cf base i)).
    - exact (uniform_test (fun i => Nat.eqb i (if Nat.odd d0 then L else 0))).
    - exact (uniform_test (fun i => if Nat.odd d0 then at_line_start cf base i else at_line_end cf base i)).
    - exact (uniform_test (fun i => Nat.eqb i (if Nat.odd d0 then 0 else L))).
    - exact (uniform_test (at_word_boundary base)).
    - (* Neg *) intros i Hi. cbn [groupless] in Hg. destruct (IHn Hg d0 b0 i Hi) as [es [B He]].
      exists (match es with [] => [i] | _ => [] end). split; [destruct es; auto|]. intros g Hgd. specialize (He g Hgd).
      cbn [explore]. rewrite Hc. destruct (E d0 b0 n i g) as [g'|j g' m], es; cbn in He |- *; easy.
    - (* Seq *) eapply uniform_ext; [apply eqf_sym, E_seq|]. apply uniform_chain.
      apply Forall_forall. intros f Hf. apply in_map_iff in Hf as (x & <- & Hx).
      rewrite Forall_forall in H. cbn [groupless] in Hg. rewrite forallb_forall in Hg.
      assert (In x l) by (destruct b0; [now apply in_rev|assumption]). now apply H; auto.
    - (* Alt *) eapply uniform_ext; [intros i g _ _; apply same_eq; symmetry; apply E_alt|].
      rewrite Forall_forall in H. cbn [groupless] in Hg. rewrite forallb_forall in Hg. clear Hc.
      induction l as [|x l IHl]; [exact uniform_stop|]. intros i Hi. cbn [Explored.any].
      destruct (is_class (Alt (x :: l))); [now apply uniform_reads|].
      refine (uniform_otherwise (E d0 b0 x) (any d0 b0 l) _ _ i Hi).
      + apply H; cbn; auto. apply Hg. cbn. auto.
      + apply IHl; intros; [apply H|apply Hg]; cbn; auto.
    - (* Rep *) cbn [groupless] in Hg. specialize (IHn Hg d0 b0).
      eapply uniform_ext; [apply eqf_sym, E_rep|]. apply uniform_followed.
      + unfold starting. destruct md; [| |apply uniform_first]; now apply uniform_repeat.
      + unfold Explored.looping. destruct md; [destruct (ungreedy cf)|destruct (ungreedy cf)|];
          auto using uniform_more, uniform_fewer, uniform_commit.
    - (* Look *) intros i Hi. cbn [groupless] in Hg. cbn [explore is_class].
      set (behind := xorb b0 _). clearbody behind.
      assert (U : exists es, passes es (fun g => if behind then E (S d0) true n i g else E d0 false n i g))
        by (destruct behind; now apply IHn).
      destruct U as [es [B He]]. exists (match es with [] => [] | _ => [i] end). split; [destruct es; auto|].
      intros g Hgd. specialize (He g Hgd). cbn [explore is_class].
      destruct (if behind then E (S d0) true n i g else E d0 false n i g) as [g'|j g' m], es; cbn in He |- *; easy.
  Qed.

  (** ** Trees with one attempt *)

  Definition lone (t : search) : Prop := same (first_only t) t.

  Lemma lone_same t u : same t u -> lone t -> lone u.
  Proof. intros H Ht. unfold lone. go; [apply same_first, same_sym, H|]. go; [exact Ht|exact H]. Qed.

  Lemma lone_one i g : lone (one i g).
  Proof. apply same_refl. Qed.

  Lemma lone_first t : lone (first_only t).
  Proof. destruct t; apply same_refl. Qed.

  Lemma lone_followed left t f i : i <= L -> sound (beyond base left true i) t -> lone t -> finder left true f ->
    (forall j g, j <= L -> gd g -> lone (f j g)) -> lone (followed_by t f).
  Proof.
    intros Hi Ht Hl Ff Hf. apply (lone_same (followed_by (first_only t) f)).
    - apply (eqf_followed names base left _ _ _ _ i); auto using eqf_refl. now apply sound_first.
    - destruct t as [g|j g m]; [apply same_refl|]. cbn [first_only followed_by one]. destruct Ht as ((Hj & _) & Hg & _).
      eapply lone_same; [apply same_sym, by_equal|now apply (Hf j g)].
      eapply equal_trans; [|apply equal_otherwise_stop]. apply equal_otherwise; [apply equal_refl|]. intros; apply equal_refl.
  Qed.

  Lemma lone_chain left fs : Forall (finder left true) fs ->
    Forall (fun f : nat -> caps -> search => forall j g, j <= L -> gd g -> lone (f j g)) fs ->
    forall i g, i <= L -> gd g -> lone (chain fs i g).
  Proof.
    intros Ff Hf. induction fs as [|f fs IH]; intros i g Hi Hg; [apply lone_one|].
    inversion Ff; subst. inversion Hf; subst. cbn [chain]. apply (lone_followed left _ _ i); auto.
    now apply finder_chain.
  Qed.

  Lemma lone_commit f left : finder left true f -> forall fu q i g, i <= L -> gd g -> lone (committing f fu q i g).
  Proof.
    intros Ff. induction fu as [|fu IH]; intros q i g Hi Hg; [apply same_refl|]. cbn [committing].
    destruct (none_left q); [apply same_refl|]. pose proof (Ff i g Hi Hg) as S.
    destruct (f i g) as [g'|j g' m]; [apply same_refl|]. destruct (idle q i j); [apply same_refl|].
    destruct S as ((Hj & _) & Hg' & _). now apply IH.
  Qed.

  Lemma plain_lone n : plain n = true -> forall d b i g, i <= L -> gd g -> lone (E d b n i g).
  Proof.
    induction n using node_ind'; intros Hp d0 b0 i0 g0 Hi0 Hg0;
      match goal with |- lone (E _ _ ?n _ _) => destruct (is_class n) eqn:Hc end;
      try (rewrite E_class by exact Hc; unfold lone; rewrite reads_first; apply same_refl);
      try discriminate Hc; cbn [plain] in Hp; rewrite ?Hc in Hp; try discriminate Hp;
      try (cbn [explore is_class]; unfold test; match goal with |- lone (if ?c then _ else _) => destruct c end; apply same_refl);
      try (cbn [explore is_class]; unfold read_text, test; destruct (Nat.odd d0);
           match goal with |- lone (if ?c then _ else _) => destruct c end; apply same_refl).
    - apply lone_one.
    - (* Neg *) cbn [explore]. rewrite Hc. destruct (E d0 b0 n i0 g0); apply same_refl.
    - (* Seq *) eapply lone_same; [apply same_sym, E_seq; assumption|].
      apply (lone_chain (Nat.odd d0)); auto.
      + apply Forall_forall. intros f Hf. apply in_map_iff in Hf as (x & <- & Hx). apply E_find.
      + apply Forall_forall. intros f Hf. apply in_map_iff in Hf as (x & <- & Hx). intros j h Hj Hh.
        cbn [orb] in Hp. rewrite forallb_forall in Hp. rewrite Forall_forall in H.
        assert (In x l) by (destruct b0; [now apply in_rev|assumption]). apply H; auto.
    - (* Rep *) destruct md; try discriminate Hp. eapply lone_same; [apply same_sym, E_rep; assumption|].
      apply (lone_followed (Nat.odd d0) _ _ i0); auto.
      + apply (finder_starting names base (Nat.odd d0) n); auto. apply explore_finder.
      + apply lone_first.
      + eapply finder_looping. apply explore_finder.
      + intros j h Hj Hh. cbn [Explored.looping]. apply (lone_commit _ (Nat.odd d0)); auto. apply E_find.
    - (* Look *) cbn [explore is_class]. destruct (if xorb _ _ then _ else _); apply same_refl.
  Qed.

  Lemma neutral_cases n : groupless n = true -> plain n = true -> forall d b i, i <= L ->
    (exists j, j <= L /\ forall g, gd g -> same (E d b n i g) (one j g))
    \/ (forall g, gd g -> same (E d b n i g) (Stop g)).
  Proof.
    intros Hg Hp d b i Hi. destruct (groupless_uniform n Hg d b i Hi) as [[|j [|k es]] [B He]].
    - right. exact He.
    - left. exists j. inversion B; subst. split; [assumption|]. exact He.
    - right. intros g Hgd. exfalso. specialize (He g Hgd).
      pose proof (lone_same _ _ He (plain_lone n Hp d b i g Hi Hgd)) as K. cbn in K. destruct K as (_ & _ & K).
      exact (K g Hgd).
  Qed.

  Lemma tests_plain n : Rewrites.tests n = true -> plain n = true.
  Proof. destruct n; try discriminate; try reflexivity. intros _. cbn [plain]. apply orb_true_r. Qed.

  Lemma tests_stay n : Rewrites.tests n = true -> forall d b i g,
    (exists h, E d b n i g = one i h) \/ (exists h, E d b n i g = Stop h).
  Proof.
    destruct n; try discriminate; intros Ht d0 b0 i g; cbn [Rewrites.tests] in Ht.
    all: try (cbn [explore is_class]; unfold test; match goal with |- context [if ?c then one _ _ else _] => destruct c end; eauto).
    - apply negb_true_iff in Ht. cbn [explore]. cbn [is_class]. rewrite Ht. destruct (E d0 b0 n i g); eauto.
    - cbn [explore is_class]. destruct (if xorb _ _ then _ else _); eauto.
  Qed.

  Lemma tests_cases n : Rewrites.tests n = true -> groupless n = true -> forall d b i, i <= L ->
    (forall g, gd g -> same (E d b n i g) (one i g)) \/ (forall g, gd g -> same (E d b n i g) (Stop g)).
  Proof.
    intros Ht Hg d b i Hi. destruct (neutral_cases n Hg (tests_plain n Ht) d b i Hi) as [(j & Hj & H)|H]; [|now right].
    left. intros g Hgd. specialize (H g Hgd). destruct (tests_stay n Ht d b i g) as [[h Eh]|[h Eh]]; rewrite Eh in *; cbn in H.
    - destruct H as (-> & -> & _). apply same_refl.
    - easy.
  Qed.

  Lemma followed_start x t f j g : same t (one j g) -> j <= L -> gd g ->
    finder x true f -> same (followed_by t f) (f j g).
  Proof.
    intros H Hj Hg Ff. go.
    - apply same_sym. apply (same_followed names base (fun k => k = j) (one j g) f f t); [now apply same_sym|now apply sound_one|].
      intros k h -> Hh. split; [apply same_refl|]. eexists. now apply Ff.
    - cbn [followed_by one]. apply by_equal, equal_otherwise_stop.
  Qed.

  Lemma any_prefix d b x l y : groupless x = true -> plain x = true -> is_class y = false ->
    eqf (E d b (then_ b x (Alt (l ++ [y])))) (any d b (map (then_ b x) (l ++ [y]))).
  Proof.
    intros Hg Hp Cy i g Hi Hgd. go; [apply E_then; assumption|].
    apply same_sym. go; [rewrite map_app; cbn [map]; apply by_equal, any_last, then_class|]. apply same_sym.
    change [then_ b x y] with (map (then_ b x) [y]). rewrite <- map_app.
    destruct (neutral_cases x Hg Hp d b i Hi) as [(j & Hj & H)|H].
    - go; [apply (followed_start (Nat.odd d) _ _ j g); auto using E_find|]. rewrite E_alt.
      go; [apply by_equal, any_last, Cy|]. generalize (l ++ [y]). clear - H Hi Hj Hgd. intros m.
      revert g Hgd. induction m as [|z m IH]; intros g Hgd; cbn [tries map]; [apply same_refl|].
      eapply same_otherwise; [|now apply E_find|exact IH]. apply same_sym. go; [now apply E_then|].
      apply (followed_start (Nat.odd d) _ _ j g); auto using E_find.
    - assert (Hs : forall f h, gd h -> same (followed_by (E d b x i h) f) (Stop h)).
      { intros f h Hh. specialize (H h Hh). destruct (E d b x i h); cbn in *; [assumption|easy]. }
      go; [now apply Hs|]. generalize (l ++ [y]). clear - Hs Hi Hgd. intros m. apply same_sym.
      induction m as [|z m IH]; cbn [tries map]; [apply same_refl|].
      assert (K : same (E d b (then_ b x z) i g) (Stop g)) by (go; [now apply E_then|]; now apply Hs).
      destruct (E d b (then_ b x z) i g); cbn in K; [subst; exact IH|easy].
  Qed.

  (** ** Loops *)

  Definition room (left : bool) (i : nat) : nat := if left then i else L - i.

  Lemma room_less left i j : i <= L -> beyond base left false i j -> j <= L /\ room left j < room left i.
  Proof. intros Hi (H1 & H2 & H3). specialize (H3 eq_refl). unfold room. destruct left; lia. Qed.

  Section Consuming.
    Variable left : bool.
    Variable f : nat -> caps -> search.
    Hypothesis Ff : finder left false f.

    Lemma weak : finder left true f.
    Proof. eapply finder_weaken; eauto. Qed.

    Lemma fuel_more : forall fu fu' i g, i <= L -> gd g -> room left i < fu -> room left i < fu' ->
      same (trying_more f fu Inf i g) (trying_more f fu' Inf i g).
    Proof.
      induction fu as [|fu IH]; intros [|fu'] i g Hi Hg H1 H2; try lia. cbn [trying_more none_left one_less].
      assert (Fn : forall n, finder left true (fun j g' => if idle Inf i j then Stop g' else trying_more f n Inf j g')).
      { intros n j k Hj Hk. destruct (idle Inf i j); [exact Hk|]. eapply finder_more; [exact weak| |]; assumption. }
      eapply same_otherwise.
      - eapply same_followed; [apply same_refl|apply Ff; assumption|]. intros j h Hb Hh.
        destruct (room_less left i j Hi Hb) as [Hj Hr]. split; [|eexists; now apply Fn].
        destruct (idle Inf i j); [apply same_refl|]. apply IH; auto; lia.
      - apply (finder_followed names base left true true); [exact Hi|now apply weak|apply Fn].
      - intros h Hh. apply same_refl.
    Qed.

    Lemma fuel_fewer : forall fu fu' i g, i <= L -> gd g -> room left i < fu -> room left i < fu' ->
      same (trying_fewer f fu Inf i g) (trying_fewer f fu' Inf i g).
    Proof.
      induction fu as [|fu IH]; intros [|fu'] i g Hi Hg H1 H2; try lia. cbn [trying_fewer none_left one_less].
      assert (Fn : forall n, finder left true (fun j g' => if idle Inf i j then Stop g' else trying_fewer f n Inf j g')).
      { intros n j k Hj Hk. destruct (idle Inf i j); [exact Hk|]. eapply finder_fewer; [exact weak| |]; assumption. }
      cbn [Exchange.same]. split; [reflexivity|]. split; [reflexivity|]. intros h Hh.
      eapply same_followed; [apply same_refl|apply Ff; assumption|]. intros j k Hb Hk.
      destruct (room_less left i j Hi Hb) as [Hj Hr]. split; [|eexists; now apply Fn].
      destruct (idle Inf i j); [apply same_refl|]. apply IH; auto; lia.
    Qed.
  End Consuming.

  Lemma consumes_not_empty n : consumes n = true -> may_be_empty n = false.
  Proof.
    induction n using node_ind'; intros Hc;
      match goal with |- may_be_empty ?n = _ => destruct (is_class n) eqn:Hk end;
      try (now apply class_not_empty); cbn [consumes] in Hc; rewrite ?Hk in Hc; try discriminate Hc; try discriminate Hk;
      cbn [may_be_empty]; cbn [orb] in Hc.
    - apply existsb_exists in Hc as (x & Hx & Cx). rewrite Forall_forall in H.
      apply Bool.not_true_is_false. intros K. rewrite forallb_forall in K. specialize (K x Hx). rewrite H in K; auto. discriminate.
    - rewrite Forall_forall in H. rewrite forallb_forall in Hc. apply Bool.not_true_is_false. intros K.
      apply existsb_exists in K as (x & Hx & Kx). rewrite H in Kx; auto. discriminate.
    - auto.
    - apply andb_true_iff in Hc as [H1 H2]. apply negb_true_iff in H1. rewrite H1. cbn [orb]. auto.
  Qed.

  (** *** Loops that commit to their first choices *)

  Definition found (t : search) : Prop := match t with Found _ _ _ => True | Stop _ => False end.

  Lemma found_more f fu q i g : 0 < fu -> found (trying_more f fu q i g).
  Proof.
    destruct fu as [|fu]; [lia|]. intros _. cbn [trying_more]. destruct (none_left q); [exact I|].
    destruct (followed_by _ _); exact I.
  Qed.

  Lemma found_fewer f fu q i g : 0 < fu -> found (trying_fewer f fu q i g).
  Proof. destruct fu as [|fu]; [lia|]. intros _. cbn [trying_fewer]. destruct (none_left q); exact I. Qed.

  Lemma first_otherwise t h : found t -> first_only (otherwise t h) = first_only t.
  Proof. now destruct t. Qed.

  Lemma first_followed t f : (forall i g, found (f i g)) ->
    equal (first_only (followed_by t f)) (followed_by (first_only t) (fun i g => first_only (f i g))).
  Proof.
    intros Hf. destruct t as [g|i g m]; [apply equal_refl|]. cbn [followed_by first_only].
    rewrite first_otherwise by apply Hf. cbn [one followed_by]. apply equal_sym, equal_otherwise_stop.
  Qed.

  Definition lasting (left : bool) (q : quantifier) (i fu : nat) : Prop :=
    match q with Fin n => N.to_nat n < fu | Inf => room left i < fu end.

  Lemma lasting_any left q i : i <= L -> lasting left q i (any_fuel base q).
  Proof. intros Hi. unfold lasting, any_fuel, room. destruct q; [lia|]. destruct left; lia. Qed.

  Lemma first_more left z f q : finder left z f ->
    q <> Inf \/ z = false \/ (forall j g, j <= L -> gd g -> lone (f j g)) ->
    forall fu i g, i <= L -> gd g -> lasting left q i fu ->
    same (first_only (trying_more f fu q i g)) (committing f fu q i g).
  Proof.
    intros Ff Hq fu. revert q Hq. induction fu as [|fu IH]; intros q Hq i g Hi Hg Hl; [destruct q; cbn in Hl; lia|].
    cbn [trying_more committing]. destruct (none_left q) eqn:Hn; [apply same_refl|].
    pose proof (Ff i g Hi Hg) as Sf.
    assert (Hq' : one_less q <> Inf \/ z = false \/ (forall j g, j <= L -> gd g -> lone (f j g))).
    { destruct Hq as [Hq|Hq]; [left; destruct q; [discriminate|easy]|right; exact Hq]. }
    destruct (f i g) as [g'|j g' m] eqn:Ef; [apply same_refl|]. cbn [followed_by].
    destruct Sf as (Hb & Hg' & Hm). assert (Hj : j <= L) by apply Hb.
    destruct (idle q i j) eqn:Hd.
    - assert (q = Inf /\ i = j) as [-> <-] by (destruct q; [discriminate Hd|split; [reflexivity|now apply Nat.eqb_eq]]).
      destruct Hq as [Hq|[->|Hq]]; [easy|destruct Hb as (_ & _ & Hb); now destruct (Hb eq_refl)|].
      specialize (Hq i g Hi Hg). rewrite Ef in Hq. unfold lone in Hq. cbn [first_only one Exchange.same] in Hq.
      destruct Hq as (_ & _ & Hs). specialize (Hs g' Hg'). cbn [otherwise].
      destruct (m g') as [k|]; cbn in Hs; [|easy]. subst k. apply same_refl.
    - assert (Hf : lasting left (one_less q) j fu).
      { destruct q as [n|]; cbn in Hl, Hn |- *; [apply N.eqb_neq in Hn; lia|]. cbn in Hd. apply Nat.eqb_neq in Hd.
        destruct Hb as (H1 & H2 & _). unfold room in *. destruct left; lia. }
      assert (0 < fu) by (destruct q; cbn in Hf; lia).
      pose proof (found_more f fu (one_less q) j g' ltac:(assumption)) as Hp.
      specialize (IH (one_less q) Hq' j g' Hj Hg' Hf).
      destruct (trying_more f fu (one_less q) j g'); [easy|]. exact IH.
  Qed.

  Lemma first_fewer f fu q i g : 0 < fu -> first_only (trying_fewer f fu q i g) = one i g.
  Proof. destruct fu as [|fu]; [lia|]. intros _. cbn [trying_fewer]. now destruct (none_left q). Qed.

  Lemma E_atom d b x : eqf (E d b (Rep Possessive 1 (Fin 1) x)) (fun i g => first_only (E d b x i g)).
  Proof.
    intros i g Hi Hg. go; [now apply E_atomic|]. change (N.to_nat 1) with 1. cbn [repeat chain].
    apply same_first, by_equal, equal_followed_one.
  Qed.

  Lemma commit_first f : forall fu q i g, committing (fun j h => first_only (f j h)) fu q i g = committing f fu q i g.
  Proof.
    induction fu as [|fu IH]; intros q i g; [reflexivity|]. cbn [committing]. destruct (none_left q); [reflexivity|].
    destruct (f i g) as [g'|j g' m]; [reflexivity|]. cbn [first_only one]. now rewrite IH.
  Qed.

  Lemma E_none d b md x : eqf (E d b (Rep md 0 (Fin 0) x)) one.
  Proof. intros i g Hi Hg. go; [apply E_loop; assumption|]. rewrite loop_none. apply same_refl. Qed.

  Lemma any_Empty_last d b x i g : equal (any d b [x; Empty] i g) (otherwise (E d b x i g) (one i)).
  Proof.
    rewrite any_cons by (cbn; now rewrite andb_false_r). apply equal_otherwise; [apply equal_refl|]. intros h.
    rewrite any_cons by reflexivity. cbn [explore is_class]. apply equal_refl.
  Qed.

  Lemma any_Empty_first d b x i g : i <= L -> gd g -> same (any d b [Empty; x] i g) (Found i g (E d b x i)).
  Proof.
    intros Hi Hg. rewrite any_cons by reflexivity. cbn [explore is_class one otherwise Exchange.same].
    split; [reflexivity|]. split; [reflexivity|]. intros h Hh. now apply any_one.
  Qed.

  (** One iteration more of a loop: [rest] is what comes behind it. *)
  Lemma E_maybe d b md q x rest : md <> Possessive -> none_left q = false ->
    finder (Nat.odd d) true rest ->
    (forall i j g, i <= L -> gd g -> beyond base (Nat.odd d) (may_be_empty x) i j ->
      same (rest j g) (if idle q i j then Stop g else
                       if Gaps.early cf md then trying_fewer (E d b x) (N.to_nat (match q with Fin n => n | Inf => N.of_nat L end)) (one_less q) j g
                       else trying_more (E d b x) (N.to_nat (match q with Fin n => n | Inf => N.of_nat L end)) (one_less q) j g)) ->
    forall y, eqf (E d b y) (fun i g => followed_by (E d b x i g) rest) ->
    eqf (E d b (Rep md 0 q x)) (E d b (maybe cf md y)).
  Proof.
    intros Hm Hq Fr Hr y Hy i g Hi Hg. go; [apply E_loop; assumption|]. rewrite looping_early by assumption.
    assert (Efu : any_fuel base q = S (N.to_nat (match q with Fin n => n | Inf => N.of_nat L end)))
      by (unfold any_fuel; destruct q; rewrite ?Nat2N.id; reflexivity).
    rewrite Efu. clear Efu. set (fu := N.to_nat _) in *. clearbody fu.
    unfold maybe, Rewrites.maybe. destruct (Gaps.early cf md).
    - rewrite E_alt. apply same_sym. go; [now apply any_Empty_first|]. cbn [trying_fewer Exchange.same]. rewrite Hq.
      cbn [Exchange.same]. split; [reflexivity|]. split; [reflexivity|]. intros h Hh. go; [now apply Hy|].
      eapply same_followed; [apply same_refl|apply explore_finder; assumption|]. intros j k Hb Hk.
      assert (j <= L) by apply Hb. split; [now apply Hr|eexists; now apply Fr].
    - rewrite E_alt. apply same_sym. go; [apply by_equal, any_Empty_last|]. cbn [trying_more]. rewrite Hq.
      eapply same_otherwise; [|now apply E_find|intros; apply same_refl]. go; [now apply Hy|].
      eapply same_followed; [apply same_refl|apply explore_finder; assumption|]. intros j k Hb Hk.
      assert (j <= L) by apply Hb. split; [now apply Hr|eexists; now apply Fr].
  Qed.

  Definition passed (i : nat) (t : search) : search := match t with Stop g => Stop g | Found _ g _ => one i g end.

  Lemma E_look dp b d x i g : E dp b (Look d x) i g
    = passed i (if xorb b (match d with Ahead => false | Behind => true end)
                then E (S dp) true x i g else E dp false x i g).
  Proof. reflexivity. Qed.

  Lemma same_passed i t u : same (first_only t) (first_only u) -> same (passed i t) (passed i u).
  Proof. destruct t, u; cbn; easy. Qed.

  Lemma keeps_sound b x y : keeps cf b x y -> forall d, eqf (E d b x) (E d b y).
  Proof.
    induction 1; intros dp.
    - apply eqf_refl.
    - apply eqf_sym. auto.
    - eapply eqf_trans; eauto.
    - (* seq *) eapply eqf_trans; [apply E_seq|]. eapply eqf_trans; [|apply eqf_sym, E_seq].
      apply (eqf_chain names base (Nat.odd dp)).
      + apply Forall_forall. intros f Hf. apply in_map_iff in Hf as (z & <- & _). apply E_find.
      + assert (R : forall m, Forall2 eqf (map (E dp b) m) (map (E dp b) m)).
        { induction m; constructor; auto using eqf_refl. }
        destruct b; rewrite ?rev_app_distr; cbn [rev]; rewrite <- ?app_assoc, !map_app; cbn [app map];
          apply Forall2_app; auto; constructor; auto.
    - (* alt *) intros i g Hi Hg. rewrite !E_alt. now apply any_middle.
    - (* rep *) eapply eqf_trans; [apply E_rep|]. eapply eqf_trans; [|apply eqf_sym, E_rep].
      intros i g Hi Hg.
      pose proof (E_find dp b x) as Fx. specialize (IHkeeps dp).
      apply (eqf_followed names base (Nat.odd dp) _ _ _ _ i); auto.
      + unfold starting. pose proof (eqf_repeat names base (Nat.odd dp) _ _ Fx IHkeeps (N.to_nat lo) i g Hi Hg) as K.
        destruct md; [exact K|exact K|now apply same_first].
      + apply (finder_starting names base (Nat.odd dp) x); auto. apply explore_finder.
      + eapply finder_looping. apply explore_finder.
      + unfold Explored.looping. destruct md; [destruct (ungreedy cf)|destruct (ungreedy cf)|];
          eauto using eqf_more, eqf_fewer, eqf_commit.
    - (* cap *) intros i g Hi Hg. cbn [explore is_class]. apply same_captured. now apply IHkeeps.
    - (* look *) intros i g Hi Hg. rewrite !E_look. apply same_passed, same_first.
      destruct (xorb b _); [exact (IHkeeps (S dp) i g Hi Hg)|exact (IHkeeps dp i g Hi Hg)].
    - (* neg *) intros i g Hi Hg. cbn [explore]. cbn [is_class]. rewrite H, H0.
      specialize (IHkeeps dp i g Hi Hg). destruct (E dp b x i g), (E dp b y i g); cbn in IHkeeps |- *; easy.
    - (* empty *) intros i g Hi Hg. destruct b; apply same_refl.
    - (* one *) intros i g Hi Hg. go; [apply E_seq; assumption|]. apply by_equal.
      destruct b; apply equal_followed_one.
    - (* flat *) intros i g Hi Hg. go; [apply E_seq; assumption|]. go; [|apply same_sym, E_seq; assumption].
      assert (K : forall m1 m2 m3, (forall j h, j <= L -> gd h -> same (E dp b (Seq l2) j h) (chain (map (E dp b) m2) j h)) ->
        same (chain (map (E dp b) (m1 ++ Seq l2 :: m3)) i g) (chain (map (E dp b) (m1 ++ m2 ++ m3)) i g)).
      { intros m1 m2 m3 Hs. rewrite !map_app. cbn [map].
        assert (FA : forall m, finder (Nat.odd dp) true (chain (map (E dp b) m))).
        { intros m. apply finder_chain. apply Forall_forall. intros f Hf. apply in_map_iff in Hf as (z & <- & _). apply E_find. }
        go; [apply by_equal, chain_app|]. go; [|apply same_sym, by_equal, chain_app].
        apply (eqf_followed names base (Nat.odd dp) _ _ _ _ i); auto using same_refl.
        - now apply FA.
        - apply (FA (Seq l2 :: m3)).
        - intros j h Hj Hh. go; [|apply same_sym, by_equal, chain_app]. cbn [chain].
          apply (eqf_followed names base (Nat.odd dp) _ _ _ _ j); auto using eqf_refl. now apply E_find. }
      destruct b.
      + rewrite !rev_app_distr. cbn [rev]. rewrite <- !app_assoc. cbn [app]. apply K. intros; now apply E_seq.
      + apply K. intros; now apply E_seq.
    - (* alt one *) intros i g Hi Hg. rewrite E_alt. now apply any_one.
    - intros i g Hi Hg. rewrite !E_alt. now apply any_nested.
    - intros i g Hi Hg. rewrite !E_alt. now apply by_equal, any_flat.
    - intros i g Hi Hg. go; [now apply any_suffix|]. rewrite E_alt. apply same_refl.
    - intros i g Hi Hg. go; [now apply any_prefix|]. rewrite E_alt. apply same_refl.
    - (* chars *) intros i g Hi Hg. rewrite !E_class by assumption. apply same_eq, reads_ext. assumption.
    - intros i g Hi Hg. rewrite !E_alt. now apply any_chars.
    - (* none *) apply E_none.
    - (* once *) eapply eqf_trans; [now apply E_fixed|]. intros i g Hi Hg. apply by_equal. apply equal_followed_one.
    - (* optional *) eapply (E_maybe dp b md (Fin 1) x one); auto.
      + apply finder_one.
      + intros i j g Hi Hg Hb. cbn [idle one_less]. change (1 - 1)%N with 0%N. change (N.to_nat 1) with 1.
        destruct (Gaps.early cf md); apply same_refl.
      + intros i g Hi Hg. apply same_sym, by_equal, equal_followed_one.
    - (* optional, atomic *) intros i g Hi Hg. go; [apply E_loop; assumption|].
      go; [|apply same_sym, E_atomic; assumption]. change (N.to_nat 1) with 1. cbn [repeat chain].
      go; [|apply same_sym, same_first, by_equal, equal_followed_one]. rewrite E_alt.
      go; [|apply same_sym, same_first, by_equal, any_Empty_last].
      cbn [Explored.looping any_fuel]. change (N.to_nat 1) with 1. cbn [committing none_left one_less idle N.eqb].
      destruct (E dp b x i g); apply same_refl.
    - (* exactly *) eapply eqf_trans; [now apply E_fixed|]. apply eqf_sym. now apply E_fixed.
    - (* counts *) eapply eqf_trans; [now apply E_fixed|]. apply eqf_sym. eapply eqf_trans; [apply E_then|].
      intros i g Hi Hg. rewrite N2Nat.inj_add, repeat_app. go; [|apply same_sym, by_equal, chain_app].
      apply (eqf_followed names base (Nat.odd dp) _ _ _ _ i); auto using E_find.
      + now apply E_fixed.
      + now apply E_find.
      + now apply E_fixed.
    - (* split *) eapply eqf_trans; [apply E_rep|]. apply eqf_sym. eapply eqf_trans; [apply E_then|].
      intros i g Hi Hg. apply (eqf_followed names base (Nat.odd dp) _ _ _ _ i); auto using E_find.
      + destruct md; [apply E_fixed; easy|apply E_fixed; easy|now apply E_atomic].
      + now apply E_find.
      + apply E_loop.
    - (* unfold *) apply (E_maybe dp b md (Fin (1 + n)) x (E dp b (Rep md 0 (Fin n) x))); auto.
      + cbn [none_left]. destruct (N.eqb_spec (1 + n) 0); [lia|reflexivity].
      + apply E_find.
      + intros i j g Hi Hg Hb. cbn [idle one_less]. replace (1 + n - 1)%N with n by lia.
        replace (N.to_nat (1 + n)) with (any_fuel base (Fin n)) by (unfold any_fuel; lia).
        assert (j <= L) by apply Hb. go; [now apply E_loop|]. rewrite looping_early by assumption.
        destruct (Gaps.early cf md); apply same_refl.
      + apply E_then.
    - (* star *) assert (Ff : finder (Nat.odd dp) false (E dp b x)).
      { pose proof (explore_finder cf names base x dp b) as K. rewrite consumes_not_empty in K by assumption. exact K. }
      apply (E_maybe dp b md Inf x (E dp b (Rep md 0 Inf x))); auto.
      + apply E_find.
      + intros i j g Hi Hg Hb. rewrite consumes_not_empty in Hb by assumption.
        destruct (room_less _ i j Hi Hb) as [Hj Hr]. rewrite Nat2N.id. cbn [one_less idle].
        replace (Nat.eqb i j) with false by (symmetry; apply Nat.eqb_neq; intros ->; lia).
        go; [now apply E_loop|]. rewrite looping_early by assumption. unfold any_fuel.
        assert (room (Nat.odd dp) i <= L) by (unfold room; destruct (Nat.odd dp); lia).
        destruct (Gaps.early cf md); [apply (fuel_fewer (Nat.odd dp))|apply (fuel_more (Nat.odd dp))]; auto; lia.
      + apply E_then.
    - (* atomic *) eapply eqf_trans; [apply E_atomic|]. intros i g Hi Hg. change (N.to_nat 1) with 1. cbn [repeat chain].
      go; [apply same_first, by_equal, equal_followed_one|]. now apply plain_lone.
    - (* fixed *) eapply eqf_trans; [|apply eqf_sym, E_atomic].
      assert (K : forall i g, i <= L -> gd g -> lone (chain (repeat (E dp b x) (N.to_nat n)) i g)).
      { apply (lone_chain (Nat.odd dp)); apply Forall_forall; intros f Hf; apply repeat_spec in Hf; subst.
        - apply E_find.
        - intros j g Hj Hg. now apply plain_lone. }
      destruct md.
      + eapply eqf_trans; [now apply E_fixed|]. intros i g Hi Hg. apply same_sym. now apply K.
      + eapply eqf_trans; [now apply E_fixed|]. intros i g Hi Hg. apply same_sym. now apply K.
      + apply E_atomic.
    - (* order of tests *) intros i g Hi Hg.
      assert (K : forall u v, Rewrites.tests u = true -> Rewrites.tests v = true -> groupless u = true -> groupless v = true ->
        same (chain [E dp b u; E dp b v] i g) (chain [E dp b v; E dp b u] i g)).
      { intros u v Tu Tv Gu Gv. cbn [chain].
        go; [apply by_equal, equal_followed; intros; apply equal_followed_one|].
        go; [|apply same_sym, by_equal, equal_followed; intros; apply equal_followed_one].
        assert (S1 : forall f h, same h (Stop g) -> same (followed_by h f) (Stop g)).
        { intros f h Hs. destruct h; cbn in Hs |- *; easy. }
        destruct (tests_cases u Tu Gu dp b i Hi) as [Hu|Hu], (tests_cases v Tv Gv dp b i Hi) as [Hv|Hv].
        - go; [apply (followed_start (Nat.odd dp) _ _ i g); auto using E_find|].
          go; [|apply same_sym, (followed_start (Nat.odd dp) _ _ i g); auto using E_find].
          go; [apply Hv, Hg|apply same_sym, Hu, Hg].
        - go; [apply (followed_start (Nat.odd dp) _ _ i g); auto using E_find|].
          go; [apply Hv, Hg|]. apply same_sym, S1, Hv, Hg.
        - go; [apply S1, Hu, Hg|].
          go; [|apply same_sym, (followed_start (Nat.odd dp) _ _ i g); auto using E_find]. apply same_sym, Hu, Hg.
        - go; [apply S1, Hu, Hg|]. apply same_sym, S1, Hv, Hg. }
      go; [apply E_seq; assumption|]. go; [|apply same_sym, E_seq; assumption].
      destruct b; cbn [rev app map]; now apply K.
    - (* a test twice *) intros i g Hi Hg. go; [apply E_seq; assumption|].
      replace (if b then rev [x; x] else [x; x]) with [x; x] by now destruct b. cbn [map chain].
      go; [apply by_equal, equal_followed; intros; apply equal_followed_one|].
      destruct (tests_cases x H H0 dp b i Hi) as [Hx|Hx].
      + apply (followed_start (Nat.odd dp) _ _ i g); auto using E_find.
      + specialize (Hx g Hg). destruct (E dp b x i g); cbn in Hx |- *; easy.
    - (* test of an atomic group *) intros i g Hi Hg. rewrite !E_look. apply same_passed.
      assert (K : forall dd bb, same (first_only (E dd bb (Rep Possessive 1 (Fin 1) x) i g)) (first_only (E dd bb x i g))).
      { intros dd bb. go; [apply same_first, E_atomic; assumption|].
        go; [apply lone_first|]. apply same_first, by_equal, equal_followed_one. }
      destruct (xorb b _); apply K.
    - (* a possessive loop commits *) apply eqf_sym. eapply eqf_trans; [apply E_atom|]. intros i g Hi Hg.
      go; [apply same_first, E_rep; assumption|]. rewrite looping_early, H0 by assumption.
      replace (starting (E dp b x) md lo i g) with (chain (repeat (E dp b x) (N.to_nat lo)) i g)
        by (unfold starting; destruct md; easy).
      go; [|apply same_sym, E_rep; assumption]. cbn [Explored.looping].
      set (q := remaining hi lo). assert (Hq : q <> Inf \/ may_be_empty x = false \/ plain x = true)
        by (destruct H1 as [H1|H1]; [left; unfold q; destruct hi; [discriminate|easy]|now right]). clearbody q.
      go; [apply by_equal, first_followed; intros; apply found_more; unfold any_fuel; destruct q; lia|].
      change (starting (E dp b x) Possessive lo i g) with (first_only (chain (repeat (E dp b x) (N.to_nat lo)) i g)).
      assert (FR : finder (Nat.odd dp) true (chain (repeat (E dp b x) (N.to_nat lo)))).
      { apply finder_chain. apply Forall_forall. intros f Hf. apply repeat_spec in Hf. subst. apply E_find. }
      apply (eqf_followed names base (Nat.odd dp) _ _ _ _ i); auto using same_refl.
      + apply sound_first. now apply FR.
      + intros j h Hj Hh. apply sound_first. eapply finder_more; [apply E_find| |]; assumption.
      + intros j h Hj Hh. apply (first_more (Nat.odd dp) (may_be_empty x)); auto using lasting_any.
        * apply explore_finder.
        * destruct Hq as [Hq|[Hq|Hq]]; auto. right. right. intros k c Hk Hc. now apply plain_lone.
    - (* the body of a possessive loop *) eapply eqf_trans; [apply E_rep|]. eapply eqf_trans; [|apply eqf_sym, E_rep].
      intros i g Hi Hg. pose proof (E_find dp b x) as Fx.
      apply (eqf_followed names base (Nat.odd dp) _ _ _ _ i); auto.
      + change (same (first_only (chain (repeat (E dp b x) (N.to_nat lo)) i g))
          (first_only (chain (repeat (E dp b (Rep Possessive 1 (Fin 1) x)) (N.to_nat lo)) i g))).
        assert (lo = 0%N \/ lo = 1%N) as [->| ->] by lia; [apply same_refl|]. change (N.to_nat 1) with 1. cbn [repeat chain].
        go; [apply same_first, by_equal, equal_followed_one|]. go; [|apply same_sym, same_first, by_equal, equal_followed_one].
        go; [|apply same_sym, same_first, E_atom; assumption]. apply same_sym, lone_first.
      + apply (finder_starting names base (Nat.odd dp) x); auto. apply explore_finder.
      + eapply finder_looping. apply explore_finder.
      + intros j h Hj Hh. cbn [Explored.looping]. rewrite <- commit_first. apply same_sym.
        eapply (eqf_commit names base (Nat.odd dp)); auto using E_find, E_atom.
    - (* an atomic lazy loop *) eapply eqf_trans; [apply E_atom|]. intros i g Hi Hg.
      go; [apply same_first, E_rep; assumption|]. rewrite looping_early, H0 by assumption.
      replace (starting (E dp b x) md lo i g) with (chain (repeat (E dp b x) (N.to_nat lo)) i g)
        by (unfold starting; destruct md; easy).
      assert (0 < any_fuel base (remaining hi lo)) by (unfold any_fuel; destruct (remaining hi lo); lia).
      go; [apply by_equal, first_followed; intros; now apply found_fewer|].
      go; [|apply same_sym, E_atomic; assumption].
      go; [apply by_equal, equal_followed; intros; rewrite first_fewer by assumption; apply equal_refl|].
      apply by_equal, equal_followed_one.
  Qed.
End Nodes.

(** ** The answers *)

Section Answers.
  Variable cf : config.
  Variables x y : node.
  Variable s : list ascii.
  Hypothesis Hk : keeps cf false x y.
  Hypothesis Hn : all_names x = all_names y.
  Local Notation names := (all_names x).
  Local Notation gd := (good names s).
  Local Notation E n := (explore cf names s 0 false n).

  Lemma first_end_same p t : forall u, same names s t u ->
    forall P, sound names s P t -> first_end p t = first_end p u.
  Proof.
    induction t as [g|i g m IH]; intros [g'|i' g' m'] H P S; cbn in H |- *; try easy; [now subst|].
    destruct H as (-> & -> & H). destruct S as (_ & Sg & Sm). destruct (p i'); [reflexivity|]. eapply IH; eauto.
  Qed.

  Lemma first_end_good p P t : sound names s P t -> gd (snd (first_end p t)).
  Proof.
    revert P. induction t as [g|i g m IH]; intros P S; cbn in *; [exact S|]. destruct S as (_ & Sg & Sm).
    destruct (p i); [exact Sg|]. eapply IH; eauto.
  Qed.

  Lemma starts_good : gd (no_groups x).
  Proof. change (no_groups x) with (initial_captures x). change names with (group_names x). apply good_initial. Qed.

  Lemma first_end_keeps p i g : i <= length s -> gd g -> first_end p (E x i g) = first_end p (E y i g).
  Proof.
    intros Hi Hg. eapply first_end_same; auto.
    - apply (keeps_sound cf names s false x y Hk 0 i g Hi Hg).
    - apply (explore_finder cf names s x 0 false i g Hi Hg).
  Qed.

  Lemma first_match_keeps : forall count i g, i + count <= length s -> gd g ->
    first_match cf names s x count i g = first_match cf names s y count i g.
  Proof.
    induction count as [|count IH]; intros i g Hi Hg; cbn [first_match].
    - rewrite first_end_keeps by (auto; lia). reflexivity.
    - pose proof (first_end_good (fun _ => true) _ _ (explore_finder cf names s x 0 false i g ltac:(lia) Hg)) as G.
      rewrite first_end_keeps in * by (auto; lia). destruct (first_end _ _) as [[j|] g']; [reflexivity|].
      apply IH; [lia|exact G].
  Qed.

  Lemma full_keeps : full_match cf x s = full_match cf y s.
  Proof.
    unfold full_match, no_groups. rewrite <- Hn. apply first_end_keeps; [lia|apply starts_good].
  Qed.

  Lemma prefix_keeps i : i <= length s -> prefix_match cf x s i = prefix_match cf y s i.
  Proof. intros Hi. unfold prefix_match, no_groups. rewrite <- Hn. apply first_match_keeps; [lia|apply starts_good]. Qed.

  Lemma search_keeps i : i <= length s -> search_match cf x s i = search_match cf y s i.
  Proof. intros Hi. unfold search_match, no_groups. rewrite <- Hn. apply first_match_keeps; [lia|apply starts_good]. Qed.

  Lemma first_match_inside n : forall count i g b e, i + count <= length s -> gd g ->
    fst (first_match cf names s n count i g) = Some (b, e) -> e <= length s.
  Proof.
    assert (K : forall t (P : nat -> Prop), (forall j, P j -> j <= length s) -> sound names s P t -> forall e,
                fst (first_end (fun _ => true) t) = Some e -> e <= length s).
    { intros t P HP S e He. destruct t as [g|j g m]; cbn in He; [discriminate|]. injection He as <-. apply HP, S. }
    induction count as [|count IH]; intros i g b e Hi Hg; cbn [first_match].
    - pose proof (K (E n i g) _ (fun j Hj => proj1 Hj) (explore_finder cf names s n 0 false i g ltac:(lia) Hg)) as K1.
      destruct (first_end _ _) as [[j|] g']; cbn in *; [|discriminate]. intros He. injection He as <- <-. now apply K1.
    - pose proof (K (E n i g) _ (fun j Hj => proj1 Hj) (explore_finder cf names s n 0 false i g ltac:(lia) Hg)) as K1.
      pose proof (first_end_good (fun _ => true) _ _ (explore_finder cf names s n 0 false i g ltac:(lia) Hg)) as G.
      destruct (first_end _ _) as [[j|] g']; cbn in *.
      + intros He. injection He as <- <-. now apply K1.
      + apply IH; [lia|exact G].
  Qed.

  Lemma repeated_keeps step step' : (forall i, i <= length s -> step i = step' i) ->
    (forall i b e, i <= length s -> fst (step i) = Some (b, e) -> e <= length s) ->
    forall fu i, i <= length s -> repeated step fu i = repeated step' fu i.
  Proof.
    intros H B. induction fu as [|fu IH]; intros i Hi; cbn [repeated]; [reflexivity|].
    rewrite <- H by assumption. specialize (B i). destruct (step i) as [[[b e]|] g]; [|reflexivity].
    destruct (Nat.eqb b e); [reflexivity|]. rewrite IH; [reflexivity|]. eapply B; [assumption|reflexivity].
  Qed.

  Lemma tokens_keep : all_tokens cf x s = all_tokens cf y s.
  Proof.
    apply repeated_keeps; [intros; now apply prefix_keeps| |lia]. intros i b e Hi. apply first_match_inside; [lia|apply starts_good].
  Qed.

  Lemma matches_keep : all_matches cf x s = all_matches cf y s.
  Proof.
    apply repeated_keeps; [intros; now apply search_keeps| |lia]. intros i b e Hi. apply first_match_inside; [lia|apply starts_good].
  Qed.
End Answers.

Lemma same_results l1 l2 : Forall (fun r => matched r = true) l1 -> Forall (fun r => matched r = true) l2 ->
  map groups l1 = map groups l2 -> l1 = l2.
Proof.
  intros H1. revert l2. induction H1 as [|r l1 Hr H1 IH]; intros [|r' l2] H2 E; try discriminate; [reflexivity|].
  inversion H2; subst. cbn in E. injection E as E1 E2. f_equal; [|now apply IH].
  destruct r as [g m], r' as [g' m']; cbn in *. congruence.
Qed.

Theorem kept_results x y fl ct s : keeps (config_of fl ct) false x y -> all_names x = all_names y ->
  usable (mk_regex x fl) ct -> usable (mk_regex y fl) ct ->
  Lift.agree (regex_match (mk_regex x fl) ct s) (regex_match (mk_regex y fl) ct s)
  /\ Lift.agree (regex_match_prefix (mk_regex x fl) ct s) (regex_match_prefix (mk_regex y fl) ct s)
  /\ regex_search (mk_regex x fl) ct s = regex_search (mk_regex y fl) ct s
  /\ tokenize (mk_regex x fl) ct s = tokenize (mk_regex y fl) ct s
  /\ find_all (mk_regex x fl) ct s = find_all (mk_regex y fl) ct s.
Proof.
  intros Hk Hn Ux Uy. split; [|split; [|split; [|split]]].
  - destruct (match_explored _ ct s Ux) as (r1 & -> & H1), (match_explored _ ct s Uy) as (r2 & -> & H2). cbn [ast flags] in *.
    rewrite (full_keeps _ x y s Hk Hn) in H1. cbn [Lift.agree]. destruct (full_match _ y s) as [[e|] g].
    + destruct H1 as [-> H1], H2 as [-> H2]. rewrite H1, H2. auto.
    + destruct H1 as [-> H1], H2 as [-> H2]. rewrite H1, H2. split; [auto|]. split; [auto|discriminate].
  - destruct (match_prefix_explored _ ct s Ux) as (r1 & -> & H1), (match_prefix_explored _ ct s Uy) as (r2 & -> & H2). cbn [ast flags] in *.
    rewrite (prefix_keeps _ x y s Hk Hn) in H1 by lia. cbn [Lift.agree]. destruct (prefix_match _ y s 0) as [[e|] g].
    + destruct H1 as [-> H1], H2 as [-> H2]. rewrite H1, H2. auto.
    + destruct H1 as [-> H1], H2 as [-> H2]. rewrite H1, H2. split; [auto|]. split; [auto|discriminate].
  - destruct (search_explored _ ct s Ux) as (r1 & -> & H1), (search_explored _ ct s Uy) as (r2 & -> & H2). cbn [ast flags] in *.
    rewrite (search_keeps _ x y s Hk Hn) in H1 by lia. f_equal. destruct r1 as [g1 m1], r2 as [g2 m2]. cbn [matched groups] in *.
    destruct (search_match _ y s 0) as [[e|] g]; destruct H1, H2; congruence.
  - destruct (tokenize_explored _ ct s Ux) as (l1 & -> & F1 & H1), (tokenize_explored _ ct s Uy) as (l2 & -> & F2 & H2). cbn [ast flags] in *.
    f_equal. apply same_results; auto. rewrite H1, H2. now apply tokens_keep.
  - destruct (find_all_explored _ ct s Ux) as (l1 & -> & F1 & H1), (find_all_explored _ ct s Uy) as (l2 & -> & F2 & H2). cbn [ast flags] in *.
    f_equal. apply same_results; auto. rewrite H1, H2. now apply matches_keep.
Qed.
