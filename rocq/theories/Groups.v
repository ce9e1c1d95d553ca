(** What the groups hold after a call: specification and proofs (Prop_Groups.v). *)
From Verif Require Import Matcher Api Basics Safe Cong Impl Spec Paths Mirror Adequacy Calls Lift
  Matching.

(** ** Specification *)

(** The tree contains a group with this number and this body. *)
Inductive group_in : node -> N -> node -> Prop :=
| gi_here id nm x : group_in (Cap id nm x) id x
| gi_cap id nm x i y : group_in x i y -> group_in (Cap id nm x) i y
| gi_seq l x i y : In x l -> group_in x i y -> group_in (Seq l) i y
| gi_alt l x i y : In x l -> group_in x i y -> group_in (Alt l) i y
| gi_rep md lo hi x i y : group_in x i y -> group_in (Rep md lo hi x) i y
| gi_neg x i y : group_in x i y -> group_in (Neg x) i y
| gi_look d x i y : group_in x i y -> group_in (Look d x) i y.

(** The cell of group [i] holds nothing, or a piece of the text of which [R]
    holds with the body of some group [i] of the tree. *)
Definition holds (R : node -> nat -> nat -> Prop) (s : list ascii) (n : node) (i : nat)
  (v : cell) : Prop :=
  match v with
  | Some (b, e) => b < e -> e <= length s /\ exists x, group_in n (N.of_nat i) x /\ R x b e
  | None => True
  end.

(** ** Captured texts match their groups *)

Lemma class_no_occ x : is_class x = true -> forall rd r i y, ~ occ rd x r i y.
Proof.
  induction x using node_ind'; intros Hc rd r i y Ho; cbn in Hc; try discriminate;
    try (inversion Ho; fail).
  - inversion Ho as [| | | | |? ? ? ? ? Hx| |]; subst. exact (IHx Hc _ _ _ _ Hx).
  - destruct l as [|x0 [|z l]]; try discriminate. inversion H as [|? ? H1]; subst.
    inversion Ho as [| |? ? ? ? ? ? Hin Hx| | | | |]; subst. destruct Hin as [->|[]].
    exact (H1 Hc _ _ _ _ Hx).
  - destruct l as [|x0 l]; try discriminate.
    inversion Ho as [| | |? ? ? ? ? ? Hin Hx| | | |]; subst. rewrite Forall_forall in H.
    refine (H _ Hin _ _ _ _ _ Hx).
    apply andb_true_iff in Hc as [H1 H2]. destruct Hin as [->|Hin]; [assumption|].
    rewrite forallb_forall in H2. auto.
  - destruct hi; [|discriminate]. apply andb_true_iff in Hc as [_ Hc].
    inversion Ho as [| | | |? ? ? ? ? ? ? ? ? Hx| | |]; subst. exact (IHx Hc _ _ _ _ Hx).
Qed.

Lemma occ_inverted x : reversible x = true -> well_formed x = true ->
  forall rd r i y, occ rd (invert x) r i y ->
  r = rd /\ exists z, y = invert z /\ group_in x i z /\ reversible z = true /\ well_formed z = true.
Proof.
  induction x using node_ind'; intros Hr Hw rd r i y Ho;
    try (cbn [invert] in Ho; inversion Ho; fail); try discriminate.
  - cbn [invert] in Ho. inversion Ho as [| | | | |? ? ? ? ? Hx| |]; subst.
    cbn in Hr, Hw. apply andb_true_iff in Hw as [_ Hw].
    destruct (IHx Hr Hw _ _ _ _ Hx) as (E & z & -> & H1 & H2). split; auto.
    exists z. repeat split; try apply H2. now constructor.
  - rewrite invert_Seq in Ho. inversion Ho as [| |? ? ? ? ? ? Hin Hx| | | | |]; subst.
    apply in_rev, in_map_iff in Hin as (x0 & <- & Hx0). rewrite Forall_forall in H.
    assert (Hw' : forallb well_formed l = true) by (cbn in Hw; destruct l; [discriminate|assumption]).
    cbn in Hr. rewrite forallb_forall in Hw', Hr.
    destruct (H _ Hx0 (Hr _ Hx0) (Hw' _ Hx0) _ _ _ _ Hx) as (E & z & -> & H1 & H2). split; auto.
    exists z. repeat split; try apply H2. econstructor; eauto.
  - cbn [invert] in Ho. inversion Ho as [| | |? ? ? ? ? ? Hin Hx| | | |]; subst.
    apply in_map_iff in Hin as (x0 & <- & Hx0). rewrite Forall_forall in H.
    assert (Hw' : forallb well_formed l = true) by (cbn in Hw; destruct l; [discriminate|assumption]).
    cbn in Hr. rewrite forallb_forall in Hw', Hr.
    destruct (H _ Hx0 (Hr _ Hx0) (Hw' _ Hx0) _ _ _ _ Hx) as (E & z & -> & H1 & H2). split; auto.
    exists z. repeat split; try apply H2. econstructor; eauto.
  - cbn [invert] in Ho. cbn in Hr, Hw. inversion Ho as [|? ? ? ? ? ? ? Hx| | | | | |]; subst.
    + split; auto. exists x. repeat split; auto. constructor.
    + destruct (IHx Hr Hw _ _ _ _ Hx) as (E & z & -> & H1 & H2). split; auto.
      exists z. repeat split; try apply H2. now constructor.
  - cbn [invert] in Ho. inversion Ho as [| | | |? ? ? ? ? ? ? ? Hh Hx| | |]; subst.
    assert (Hrx : reversible x = true).
    { cbn [reversible] in Hr. destruct md; auto. apply class_reversible.
      cbn in Hr. destruct hi; [|discriminate]. now apply andb_true_iff in Hr. }
    assert (Hwx : well_formed x = true).
    { cbn in Hw. destruct hi as [h|]; auto. apply andb_true_iff in Hw as [_ Hw].
      destruct (N.eqb_spec h 0); [congruence|]. exact Hw. }
    destruct (IHx Hrx Hwx _ _ _ _ Hx) as (E & z & -> & H1 & H2). split; auto.
    exists z. repeat split; try apply H2. now constructor.
  - cbn [invert] in Ho. cbn in Hr.
    inversion Ho as [| | | | | |? ? ? ? ? Hx|? ? ? ? ? Hx]; subst; exfalso;
      [refine (class_no_occ x Hr _ _ _ _ Hx)|].
    refine (class_no_occ (invert x) _ _ _ _ _ Hx). now rewrite is_class_invert.
Qed.

(** The groups that run: outside lookbehinds as they are, inside inverted. *)
Lemma occ_groups n : lookbehind_ok n = true -> well_formed n = true ->
  forall r i y, occ 0 n r i y ->
  (r = 0 /\ group_in n i y /\ well_formed y = true)
  \/ (r = 1 /\ exists z, y = invert z /\ group_in n i z /\ reversible z = true
        /\ well_formed z = true).
Proof.
  assert (Hstep : forall n x r i y, (forall i y, group_in x i y -> group_in n i y) ->
    (r = 0 /\ group_in x i y /\ well_formed y = true)
    \/ (r = 1 /\ exists z, y = invert z /\ group_in x i z /\ reversible z = true
          /\ well_formed z = true) ->
    (r = 0 /\ group_in n i y /\ well_formed y = true)
    \/ (r = 1 /\ exists z, y = invert z /\ group_in n i z /\ reversible z = true
          /\ well_formed z = true)).
  { intros n0 x r i y Hs [(-> & H1 & H2)|(-> & z & E & H1 & H2)]; [left|right]; auto.
    split; auto. exists z. auto. }
  induction n using node_ind'; intros Hr Hw r i y Ho; try (inversion Ho; fail).
  - inversion Ho as [| | | | |? ? ? ? ? Hx| |]; subst.
    cbn in Hr, Hw. apply andb_true_iff in Hw as [_ Hw].
    refine (Hstep _ _ _ _ _ _ (IHn Hr Hw _ _ _ Hx)). now constructor.
  - inversion Ho as [| |? ? ? ? ? ? Hin Hx| | | | |]; subst.
    rewrite Forall_forall in H.
    assert (Hw' : forallb well_formed l = true) by (cbn in Hw; destruct l; [discriminate|assumption]).
    cbn in Hr. rewrite forallb_forall in Hw', Hr.
    refine (Hstep _ _ _ _ _ _ (H _ Hin (Hr _ Hin) (Hw' _ Hin) _ _ _ Hx)).
    intros. econstructor; eauto.
  - inversion Ho as [| | |? ? ? ? ? ? Hin Hx| | | |]; subst.
    rewrite Forall_forall in H.
    assert (Hw' : forallb well_formed l = true) by (cbn in Hw; destruct l; [discriminate|assumption]).
    cbn in Hr. rewrite forallb_forall in Hw', Hr.
    refine (Hstep _ _ _ _ _ _ (H _ Hin (Hr _ Hin) (Hw' _ Hin) _ _ _ Hx)).
    intros. econstructor; eauto.
  - inversion Ho as [|? ? ? ? ? ? ? Hx| | | | | |]; subst.
    + left. repeat split; auto. constructor.
    + cbn in Hr, Hw. refine (Hstep _ _ _ _ _ _ (IHn Hr Hw _ _ _ Hx)). now constructor.
  - inversion Ho as [| | | |? ? ? ? ? ? ? ? Hh Hx| | |]; subst.
    assert (Hwx : well_formed n = true).
    { cbn in Hw. destruct hi as [h|]; auto. apply andb_true_iff in Hw as [_ Hw].
      destruct (N.eqb_spec h 0); [congruence|]. exact Hw. }
    cbn in Hr. refine (Hstep _ _ _ _ _ _ (IHn Hr Hwx _ _ _ Hx)). now constructor.
  - cbn in Hw. inversion Ho as [| | | | | |? ? ? ? ? Hx|? ? ? ? ? Hx]; subst; cbn in Hr.
    + refine (Hstep _ _ _ _ _ _ (IHn Hr Hw _ _ _ Hx)). now constructor.
    + right. destruct (occ_inverted n Hr Hw _ _ _ _ Hx) as (-> & z & -> & H1 & H2).
      split; auto. exists z. repeat split; try apply H2. now constructor.
Qed.

Section Texts.
  Variable cf : config.
  Variable n : node.
  Variable s : list ascii.
  Hypothesis Hruns : runs cf n.
  Hypothesis Hreg : regular n = true.
  Local Notation L := (length s).
  Local Notation names := (group_names n).

  (** The piece of a group with its well-formedness, for the invariant. *)
  Definition piece (i : N) (b e : nat) : Prop :=
    b <= e /\ e <= L
    /\ exists x, group_in n i x /\ well_formed x = true /\ In e (paths cf s x b).

  Definition piece_at (r : nat) (i : N) (b e : nat) : Prop :=
    match r with
    | 0 => piece i b e
    | _ => piece i (L - e) (L - b)
    end.

  Definition pieces (c : caps) : Prop :=
    length c = length names
    /\ forall i b e, nth_error c i = Some (Some (b, e)) -> b < e -> piece (N.of_nat i) b e.

  Lemma nth_set_cell : forall c i v c' j, set_cell i v c = Some c' ->
    nth_error c' j = if Nat.eqb i j then Some v else nth_error c j.
  Proof.
    induction c as [|x r IH]; intros [|i] v c' j E; cbn in E; try discriminate.
    - injection E as <-. now destruct j.
    - destruct (set_cell i v r) eqn:E'; [|discriminate]. injection E as <-.
      destruct j as [|j]; [reflexivity|]. cbn. now apply IH.
  Qed.

  Lemma nth_clear_cell c i c' j : clear_cell i c = Some c' ->
    nth_error c' j = if Nat.eqb i j then option_map clear_value (nth_error c j) else nth_error c j.
  Proof.
    unfold clear_cell. destruct (nth_error c i) as [v|] eqn:E; [|discriminate]. intros H.
    rewrite (nth_set_cell _ _ _ _ j H). destruct (Nat.eqb_spec i j) as [<-|]; [|reflexivity].
    now rewrite E.
  Qed.

  Lemma pieces_clear i c c' : pieces c -> clear_cell i c = Some c' -> pieces c'.
  Proof.
    intros [H1 H2] E. split.
    - unfold clear_cell in E. destruct (nth_error c i); [|discriminate].
      apply set_cell_length in E. congruence.
    - intros j b e Hj Hbe. rewrite (nth_clear_cell _ _ _ j E) in Hj.
      destruct (Nat.eqb i j); [|eauto].
      destruct (nth_error c j) as [[[b' e']|]|]; cbn in Hj; try discriminate.
      injection Hj as -> ->. lia.
  Qed.

  Lemma pieces_store r i nm b e c c' : pieces c -> b <= e -> e <= L -> piece_at r i b e ->
    store names s r i nm b e c = Some c' -> pieces c'.
  Proof.
    intros [H1 H2] Hbe He Hp E. unfold store in E.
    destruct (nth_error names (N.to_nat i)); [|discriminate].
    destruct (name_eqb nm g); [|discriminate].
    assert (Hset : forall b' e', piece i b' e' -> set_cell (N.to_nat i) (Some (b', e')) c = Some c' ->
              pieces c').
    { intros b' e' Hp' E'. split; [apply set_cell_length in E'; congruence|].
      intros j b0 e0 Hj Hlt. rewrite (nth_set_cell _ _ _ _ j E') in Hj.
      destruct (Nat.eqb_spec (N.to_nat i) j) as [Ej|]; [|eauto].
      injection Hj as <- <-. subst j. now rewrite Nnat.N2Nat.id. }
    destruct r as [|[|r]]; try discriminate; eapply Hset; eauto.
  Qed.

  Lemma piece_ok r i y : occ 0 n r i y -> forall b e, b <= L ->
    In e (paths cf (view s r) y b) -> piece_at r i b e.
  Proof.
    intros Ho b e Hb He. destruct Hruns as [Hc _].
    apply compiles_well_formed in Hc as Hw.
    apply regular_parts in Hreg as Hrp. destruct Hrp as (_ & _ & Hlb).
    assert (Hbd : b <= e <= L).
    { pose proof (paths_bounded cf (view s r) y b e) as H. rewrite view_length in H. auto. }
    destruct (occ_groups n Hlb Hw _ _ _ Ho) as [(-> & Hg & Hwy)|(-> & z & -> & Hg & Hrz & Hwz)].
    - cbn. repeat split; try lia. exists y. auto.
    - cbn in He |- *. repeat split; try lia. exists z. repeat split; auto.
      assert (Hpz : possessive_free z = true) by now apply reversible_possessive_free.
      apply in_paths; auto; [lia|]. apply mirror; auto; try lia.
      replace (L - (L - b)) with b by lia. replace (L - (L - e)) with e by lia.
      apply in_paths in He; auto.
      + apply reversible_possessive_free. now rewrite reversible_invert.
      + now rewrite well_formed_invert.
      + now rewrite rev_length.
  Qed.

  Lemma node_pieces A (P : caps -> nat -> A -> Prop) cur c k kp : cur <= L -> pieces c ->
    (forall j c', In j (paths cf s n cur) -> pieces c' -> adq pieces P (k j c') (kp j)) ->
    adq pieces P (node_match cf names s 0 n cur c k) (first_some kp (paths cf s n cur)).
  Proof.
    intros H1 H2 Hk. destruct Hruns as [Hc Hl].
    refine (adequate cf names s pieces (fun _ => True) piece_at _ _ _ (size n) 0 n
              Hc Hl Hreg _ A P cur c k kp H1 H2 Hk).
    - now intros i c0 _ [H _].
    - intros i c0 c0' _ Hi E. eapply pieces_clear; eauto.
    - intros r i nm b e c0 c0' Hp Hb He Hq E. exact (pieces_store r i nm b e c0 c0' Hp Hb He Hq E).
    - intros r i y Ho. split; [exact I|]. now apply piece_ok.
  Qed.

  Lemma run_pieces cur c k : cur <= L -> pieces c -> k = success \/ k = equals L ->
    result_ok (fun c' _ _ => pieces c') (node_match cf names s 0 n cur c k).
  Proof.
    intros H1 H2 Hk.
    assert (H : exists kp, adq pieces (kept pieces) (node_match cf names s 0 n cur c k)
                             (first_some kp (paths cf s n cur))).
    { destruct Hk as [->| ->].
      - exists (@Some nat). apply node_pieces; auto. intros. now apply kept_success.
      - exists (fun j => if Nat.eqb j L then Some j else None). apply node_pieces; auto.
        intros j c' _ Hc'. now apply kept_equals. }
    destruct H as [kp H]. apply adq_both in H.
    destruct (node_match _ _ _ _ _ _ _ _); cbn in *; auto. apply H.
  Qed.

  Lemma pieces_initial : pieces (initial_captures n).
  Proof.
    split; [apply initial_length|]. intros i b e E. unfold initial_captures in E.
    apply nth_error_In, in_map_iff in E as (? & ? & ?). discriminate.
  Qed.

  Variable R : node -> nat -> nat -> Prop.
  Hypothesis HR : forall i x b e, group_in n i x -> well_formed x = true -> b <= L ->
    In e (paths cf s x b) -> R x b e.

  Definition texts_ok (c : caps) : Prop :=
    forall i v, nth_error c (S i) = Some v -> holds R s n (S i) v.

  Lemma pieces_texts c : pieces c -> texts_ok c.
  Proof.
    intros [_ H] i [[b e]|] E; cbn; auto. intros Hlt.
    destruct (H _ _ _ E Hlt) as (_ & He & x & Hx & Hw & Hp). split; auto.
    exists x. split; auto. eapply HR; eauto. lia.
  Qed.

  Lemma texts_group0 b e c : texts_ok c -> texts_ok (set_group0 b e c).
  Proof. intros H i v. specialize (H i v). now destruct c. Qed.

  Lemma block_texts k : k = success \/ k = equals L ->
    result_ok (fun c' _ _ => texts_ok c')
      (match node_match cf names s 0 n 0 (initial_captures n) k with
       | Res c' e b => Res (set_group0 0 e c') e b
       | o => o
       end).
  Proof.
    intros Hk. pose proof (run_pieces 0 _ k (Nat.le_0_l _) pieces_initial Hk) as H.
    destruct (node_match _ _ _ _ _ _ _ _); cbn in *; auto. now apply texts_group0, pieces_texts.
  Qed.

  Lemma search_pieces : forall fuel cur c, L - cur < fuel -> cur <= L -> pieces c ->
    result_ok (fun c' _ _ => texts_ok c') (search_loop fuel cf n s cur c).
  Proof.
    induction fuel as [|fuel IH]; intros cur c Hf Hc Hp; [lia|]. cbn [search_loop].
    pose proof (run_pieces cur c success Hc Hp (or_introl eq_refl)) as H.
    destruct (node_match _ _ _ _ _ _ _ _) as [c' e [|]| | |]; cbn in H; try contradiction.
    - cbn. now apply texts_group0, pieces_texts.
    - destruct (Nat.eqb_spec cur L); [cbn; now apply pieces_texts|]. apply IH; auto; lia.
  Qed.
End Texts.

Lemma captured_texts (R : node -> nat -> nat -> Prop) r ct s : usable r ct -> regular (ast r) = true ->
  (forall i x b e, group_in (ast r) i x -> well_formed x = true -> b <= length s ->
    In e (paths (config_of (flags r) ct) s x b) -> R x b e) ->
  forall call, call = regex_match \/ call = regex_match_prefix \/ call = regex_search ->
  returns (call r ct s) (fun res =>
    forall i v, nth_error (groups res) (S i) = Some v -> holds R s (ast r) (S i) v).
Proof.
  intros Hu Hr HR call Hcall. pose proof (proj1 Hu) as Hc.
  destruct Hcall as [->|[->| ->]]; (apply invoke_returns; [exact Hc|]).
  - unfold match_method. exact (block_texts _ _ s Hu Hr R HR _ (or_intror eq_refl)).
  - unfold match_prefix_method. exact (block_texts _ _ s Hu Hr R HR _ (or_introl eq_refl)).
  - apply (search_pieces _ _ s Hu Hr R HR); auto; [lia|apply pieces_initial].
Qed.

Theorem captured_texts_paths r ct s : usable r ct -> regular (ast r) = true ->
  forall call, call = regex_match \/ call = regex_match_prefix \/ call = regex_search ->
  returns (call r ct s) (fun res =>
    forall i v, nth_error (groups res) (S i) = Some v ->
    holds (fun x b e => In e (paths (config_of (flags r) ct) s x b)) s (ast r) (S i) v).
Proof. intros. apply captured_texts; auto. Qed.

Lemma group_possessive_free n i x : group_in n i x -> possessive_free n = true ->
  possessive_free x = true.
Proof.
  induction 1; intros Hp; cbn in Hp; auto.
  - rewrite forallb_forall in Hp. auto.
  - rewrite forallb_forall in Hp. auto.
  - apply IHgroup_in. destruct md; auto. apply class_possessive_free.
    destruct hi; [|discriminate]. now apply andb_true_iff in Hp.
Qed.

Theorem captured_texts_language r ct s : usable r ct -> regular (ast r) = true ->
  possessive_free (ast r) = true ->
  forall call, call = regex_match \/ call = regex_match_prefix \/ call = regex_search ->
  returns (call r ct s) (fun res =>
    forall i v, nth_error (groups res) (S i) = Some v ->
    holds (matches (config_of (flags r) ct) s) s (ast r) (S i) v).
Proof.
  intros Hu Hr Hp call Hcall. apply captured_texts; auto.
  intros i x b e Hg Hw Hb He. apply in_paths in He; auto. eapply group_possessive_free; eauto.
Qed.
