(** Searching for words by what stands around them (C77). *)
From Verif Require Import Matcher Api Parser Basics Safe Cong Impl Spec Paths Calls Lift Matching
  Syntax Typing Shape Reading Accepted Print Expressions Actual Laws Compose Contained.
From Coq Require Import Lia.

(** ** Conditions on a place in a text *)

(** What a pattern can demand of a place without consuming anything.  [Next],
    [Last]: a text of the pattern [q] with the tree [m] begins or ends there, or
    none does. *)
Inductive demand :=
| LineStart | LineEnd | TextStart | TextEnd | Edge | NoEdge
| Next (yes : bool) (q : text) (m : node)
| Last (yes : bool) (q : text) (m : node).

(** How it is written. *)
Definition demand_text (d : demand) : text :=
  match d with
  | LineStart => str "^" | LineEnd => str "$" | TextStart => str "\A" | TextEnd => str "\Z"
  | Edge => str "\b" | NoEdge => str "\B"
  | Next yes q _ => str "(" ++ (if yes then str "?=" else str "?!") ++ q ++ str ")"
  | Last yes q _ => str "(" ++ (if yes then str "?<=" else str "?<!") ++ q ++ str ")"
  end.

Definition breaks_line (c : ascii) : Prop := c = "010"%char \/ c = "013"%char.

(** A letter, a digit or an underscore. *)
Definition in_word (c : ascii) : Prop :=
  let k := N_of_ascii c in
  ((97 <= k <= 122) \/ (65 <= k <= 90) \/ (48 <= k <= 57) \/ k = 95)%N.

(** Whether the place between the texts [x] and [y] meets the demand. *)
Definition holds (fl : list regex_flag) (ct : category) (d : demand) (x y : text) : Prop :=
  let word m u := is_word (mk_regex m fl) ct u in
  let word_before := exists x' c, x = x' ++ [c] /\ in_word c in
  let word_behind := exists c y', y = c :: y' /\ in_word c in
  match d with
  | LineStart => x = [] \/ In F_multiline fl /\ exists x' c, x = x' ++ [c] /\ breaks_line c
  | LineEnd => y = [] \/ In F_multiline fl /\ exists c y', y = c :: y' /\ breaks_line c
  | TextStart => x = []
  | TextEnd => y = []
  | Edge => word_before /\ ~ word_behind \/ ~ word_before /\ word_behind
  | NoEdge => word_before <-> word_behind
  | Next true _ m => exists u z, y = u ++ z /\ word m u
  | Next false _ m => ~ exists u z, y = u ++ z /\ word m u
  | Last true _ m => exists z u, x = z ++ u /\ word m u
  | Last false _ m => ~ exists z u, x = z ++ u /\ word m u
  end.

(** The patterns of [Next] and [Last] are accepted and only test the characters
    they consume. *)
Definition sound_demand (fl : list regex_flag) (ct : category) (d : demand) : Prop :=
  match d with
  | Next _ q m | Last _ q m => parse q = P_ok m /\ usable (mk_regex m fl) ct /\ self_contained m = true
  | _ => True
  end.

(** ** Sequences of items *)

Lemma items_more ts ns : Forall2 (item Anything) ts ns -> forall n,
  more_items Anything n (concat ts) Anything (fold_left cat ns n).
Proof.
  induction 1 as [|t m ts ns H _ IH]; intros n; cbn; [constructor|].
  eapply m_item; [exact H|exact I|apply IH].
Qed.

Lemma items_body t m ts ns : item Anything t m -> Forall2 (item Anything) ts ns ->
  body (t ++ concat ts) (fold_left cat ns m).
Proof. intros H F. eapply branch_body, b_items; [exact H|now apply items_more]. Qed.

Lemma matches_items cf s ns : forall n i j,
  matches cf s (fold_left cat ns n) i j <-> matches cf s (Seq (n :: ns)) i j.
Proof.
  induction ns as [|m ns IH]; intros n i j.
  - cbn [fold_left]. rewrite mt_seq_cons. split.
    + intros H. exists j. split; [exact H|reflexivity].
    + intros (k & H & E). cbn in E. now subst.
  - cbn [fold_left]. rewrite IH, !mt_seq_cons. split.
    + intros (k & H & H'). apply (proj1 (matches_cat _ _ _ _ _ _)) in H as (k' & H1 & H2).
      exists k'. split; [exact H1|]. apply mt_seq_cons. exists k. now split.
    + intros (k & H & H'). apply (proj1 (mt_seq_cons _ _ _ _ _ _)) in H' as (k' & H1 & H2).
      exists k'. split; [|exact H2]. apply matches_cat. exists k. now split.
Qed.

Lemma forallb_parts (P : node -> bool) n : (forall l, P (Seq l) = forallb P l) -> forallb P (parts n) = P n.
Proof. intros H. destruct n; try (cbn [parts forallb]; apply andb_true_r). cbn [parts]. now rewrite H. Qed.

Lemma items_all (P : node -> bool) ns : (forall l, P (Seq l) = forallb P l) -> forall n,
  P n = true -> forallb P ns = true -> P (fold_left cat ns n) = true.
Proof.
  intros E. induction ns as [|m ns IH]; intros n Hn H; [exact Hn|].
  cbn in H. apply andb_prop in H as [H1 H2]. cbn [fold_left]. apply IH; [|exact H2].
  unfold cat. rewrite E, forallb_app, !forallb_parts by exact E. now rewrite Hn, H1.
Qed.

(** ** Numbering keeps the fragment *)

Section Numbering.
  Variable P : node -> bool.
  Definition unnumbered (n : node) : Prop := forall off, P (index off n) = P n.

  Lemma unnumbered_map l : Forall unnumbered l -> forall off,
    forallb P (map (index off) l) = forallb P l /\ existsb P (map (index off) l) = existsb P l.
  Proof.
    induction 1 as [|x l Hx _ IH]; intros off; [now split|]. cbn. destruct (IH off) as [-> ->]. now rewrite Hx.
  Qed.

  Lemma unnumbered_list l : Forall unnumbered l -> forall off, forallb P (index_list off l) = forallb P l.
  Proof. induction 1 as [|x l Hx _ IH]; intros off; [reflexivity|]. cbn. now rewrite Hx, IH. Qed.
End Numbering.

Lemma backref_free_index n : unnumbered backref_free n.
Proof.
  induction n using node_ind'; intros off; try reflexivity; try (cbn; now rewrite ?IHn).
  - rewrite index_Seq. cbn. now apply unnumbered_list.
  - cbn. now apply unnumbered_map.
Qed.

Lemma possessive_free_index n : unnumbered possessive_free n.
Proof.
  induction n using node_ind'; intros off; try reflexivity; try (cbn; now rewrite ?IHn).
  - rewrite index_Seq. cbn. now apply unnumbered_list.
  - cbn. now apply unnumbered_map.
  - destruct md; [apply IHn|apply IHn|exact (is_class_index (Rep Possessive lo hi n) off)].
Qed.

Lemma may_be_empty_index n : unnumbered may_be_empty n.
Proof.
  induction n using node_ind'; intros off; try reflexivity; try (cbn; now rewrite ?is_class_index, ?IHn).
  - rewrite index_Seq. cbn. now apply unnumbered_list.
  - cbn. now apply unnumbered_map.
Qed.

Lemma possessive_ok_index n : unnumbered possessive_ok n.
Proof.
  induction n using node_ind'; intros off; try reflexivity; try (cbn; now rewrite ?IHn).
  - rewrite index_Seq. cbn. now apply unnumbered_list.
  - cbn. now apply unnumbered_map.
  - destruct md; [apply IHn|apply IHn|]. destruct hi as [h|]; [apply IHn|].
    cbn [index possessive_ok]. rewrite (may_be_empty_index n off). f_equal. apply IHn.
Qed.

Lemma reversible_index n : unnumbered reversible n.
Proof.
  induction n using node_ind'; intros off; try reflexivity; try (cbn; now rewrite ?is_class_index, ?IHn).
  - rewrite index_Seq. cbn. now apply unnumbered_list.
  - cbn. now apply unnumbered_map.
Qed.

Lemma lookbehind_ok_index n : unnumbered lookbehind_ok n.
Proof.
  induction n using node_ind'; intros off; try reflexivity; try (cbn; now rewrite ?IHn).
  - rewrite index_Seq. cbn. now apply unnumbered_list.
  - cbn. now apply unnumbered_map.
  - cbn. destruct d; [apply IHn|apply reversible_index].
Qed.

(** ** The trees of demands *)

Lemma contained_reversible n : self_contained n = true -> reversible n = true.
Proof.
  assert (M : forall l, Forall (fun n => self_contained n = true -> reversible n = true) l ->
            forallb self_contained l = true -> forallb reversible l = true).
  { induction 1 as [|x l Hx _ IH]; intros Hs; [reflexivity|]. cbn in *. apply andb_prop in Hs as [S1 S2].
    now rewrite Hx, IH. }
  induction n using node_ind'; intros Hs; try reflexivity; try discriminate; cbn [reversible self_contained] in *.
  - apply andb_prop in Hs as [_ Hs]. auto.
  - auto.
  - auto.
  - auto.
  - destruct md; try discriminate; auto.
Qed.

(** [item] and tree of a demand; [b] is the tree of its pattern before numbering. *)
Inductive demand_tree : demand -> node -> Prop :=
| t_line_start : demand_tree LineStart BeginLine
| t_line_end : demand_tree LineEnd EndLine
| t_text_start : demand_tree TextStart BeginInput
| t_text_end : demand_tree TextEnd EndInput
| t_edge : demand_tree Edge WordB
| t_no_edge : demand_tree NoEdge (Neg WordB)
| t_next q b : body q b -> self_contained b = true -> demand_tree (Next true q (index_captures b)) (Look Ahead b)
| t_not_next q b : body q b -> self_contained b = true -> demand_tree (Next false q (index_captures b)) (Neg (Look Ahead b))
| t_last q b : body q b -> self_contained b = true -> demand_tree (Last true q (index_captures b)) (Look Behind b)
| t_not_last q b : body q b -> self_contained b = true -> demand_tree (Last false q (index_captures b)) (Neg (Look Behind b)).

Lemma demand_has_tree fl ct d : sound_demand fl ct d -> exists t, demand_tree d t.
Proof.
  destruct d as [| | | | | |yes q m|yes q m]; intros H; try (eexists; constructor; fail).
  - destruct H as (P & _ & S). apply accepted_pattern in P as (b & Hb & ->).
    unfold index_captures in S. rewrite self_contained_index in S.
    destruct yes; eexists; constructor; eassumption.
  - destruct H as (P & _ & S). apply accepted_pattern in P as (b & Hb & ->).
    unfold index_captures in S. rewrite self_contained_index in S.
    destruct yes; eexists; constructor; eassumption.
Qed.

Lemma demand_item d t : demand_tree d t -> item Anything (demand_text d) t.
Proof.
  destruct 1; try (apply i_anchor; cbn; auto 10; fail); apply piece_item.
  - exact (u_group _ _ q b open_ahead H).
  - exact (u_group _ _ q b open_not_ahead H).
  - exact (u_group _ _ q b open_behind H).
  - exact (u_group _ _ q b open_not_behind H).
Qed.

Lemma demand_regular d t : demand_tree d t -> regular t = true /\ possessive_free t = true.
Proof.
  destruct 1; try (split; reflexivity);
    pose proof (contained_fragment _ H0) as (H1 & H2 & H3 & H4);
    pose proof (contained_reversible _ H0) as H5;
    unfold regular; cbn; rewrite H1, H2, ?H3, ?H4, ?H5; split; reflexivity.
Qed.

Lemma newline_breaks c : is_newline c = true <-> breaks_line c.
Proof.
  unfold breaks_line. destruct c as [[] [] [] [] [] [] [] []]; vm_compute; split; intros H;
    try discriminate; try (destruct H; discriminate); auto.
Qed.

Lemma word_char_in_word c : is_word_char c = true <-> in_word c.
Proof.
  unfold in_word. destruct c as [[] [] [] [] [] [] [] []]; cbn [N_of_ascii N_of_digits N.add N.mul Pos.mul Pos.add Pos.succ];
    vm_compute is_word_char; split; intros H; try discriminate; try reflexivity; lia.
Qed.

Lemma char_at_app (p : ascii -> bool) x y : char_at (x ++ y) p (length x) = true <-> exists c y', y = c :: y' /\ p c = true.
Proof.
  unfold char_at. rewrite nth_error_app2, Nat.sub_diag by lia. destruct y as [|c y]; cbn.
  - split; [discriminate|]. now intros (? & ? & ? & _).
  - split; [eauto|]. intros (c' & y' & E & H). now injection E as <- <-.
Qed.

Lemma char_before_app (p : ascii -> bool) x y : char_before (x ++ y) p (length x) = true <-> exists x' c, x = x' ++ [c] /\ p c = true.
Proof.
  destruct x as [|c x _] using rev_ind.
  - cbn. split; [discriminate|]. intros (x' & c & E & _). now destruct x'.
  - rewrite app_length, Nat.add_1_r. cbn [char_before]. unfold char_at. rewrite <- app_assoc.
    rewrite nth_error_app2, Nat.sub_diag by lia. cbn. split; [eauto|].
    intros (x' & c' & E & H). apply app_inj_tail in E as [_ <-]. exact H.
Qed.

Lemma xorb_iff a b : xorb a b = true <-> (a = true /\ ~ b = true) \/ (~ a = true /\ b = true).
Proof. destruct a, b; cbn; split; intros H; try discriminate; try reflexivity; try (destruct H as [[? H]|[H ?]]; now elim H); [left|right]; now split. Qed.

Lemma xorb_false_iff a b : xorb a b <> true <-> (a = true <-> b = true).
Proof. destruct a, b; cbn; split; intros H; try reflexivity; try discriminate; try (now elim H); try (now split); destruct H as [H1 H2]; [now specialize (H1 eq_refl)|now specialize (H2 eq_refl)]. Qed.

Section Flags.
  Variables (fl : list regex_flag) (ct : category).
  Let cf := config_of fl ct.
  Let r (n : node) := mk_regex n fl.

  Lemma multiline_flag : multiline cf = true <-> In F_multiline fl.
  Proof.
    unfold cf, config_of. cbn [multiline]. unfold flag_test. rewrite existsb_exists. split.
    - intros (f & H & E). destruct f; try discriminate. exact H.
    - intros H. exists F_multiline. now split.
  Qed.

  Lemma ahead_word b x y : usable (r (index_captures b)) ct -> self_contained b = true ->
    (exists k, matches cf (x ++ y) b (length x) k)
    <-> exists u z, y = u ++ z /\ is_word (r (index_captures b)) ct u.
  Proof.
    intros U S. split.
    - intros (k & H). pose proof (matches_bounds cf (x ++ y) b (length x) k) as B.
      rewrite app_length in B. specialize (B ltac:(lia) H).
      exists (firstn (k - length x) y), (skipn (k - length x) y). split; [symmetry; apply firstn_skipn|].
      apply (indexed_word_at b fl ct x _ (skipn (k - length x) y) U S). rewrite firstn_skipn, firstn_length.
      replace (length x + Nat.min (k - length x) (length y)) with k by lia. exact H.
    - intros (u & z & -> & H). exists (length x + length u). now apply (indexed_word_at b fl ct x u z U S).
  Qed.

  Lemma behind_word b x y : usable (r (index_captures b)) ct -> self_contained b = true ->
    (exists k, k <= length x /\ matches cf (x ++ y) b k (length x))
    <-> exists z u, x = z ++ u /\ is_word (r (index_captures b)) ct u.
  Proof.
    intros U S. split.
    - intros (k & L & H). exists (firstn k x), (skipn k x). split; [symmetry; apply firstn_skipn|].
      apply (indexed_word_at b fl ct (firstn k x) _ y U S).
      rewrite app_assoc, firstn_skipn, firstn_length, skipn_length.
      replace (Nat.min k (length x)) with k by lia. replace (k + (length x - k)) with (length x) by lia. exact H.
    - intros (z & u & -> & H). exists (length z). rewrite app_length. split; [lia|].
      rewrite <- app_assoc. now apply (indexed_word_at b fl ct z u y U S).
  Qed.

  Lemma length_nil {A} (l : list A) : length l = 0 <-> l = [].
  Proof. apply length_zero_iff_nil. Qed.

  Lemma demand_holds d t x y j : demand_tree d t -> sound_demand fl ct d ->
    (matches cf (x ++ y) t (length x) j <-> j = length x /\ holds fl ct d x y).
  Proof.
    intros T Hs.
    assert (B : forall p, (char_before (x ++ y) p (length x) = true <-> exists x' c, x = x' ++ [c] /\ p c = true))
      by (intros; apply char_before_app).
    assert (A : forall p, (char_at (x ++ y) p (length x) = true <-> exists c y', y = c :: y' /\ p c = true))
      by (intros; apply char_at_app).
    assert (Bl : char_before (x ++ y) is_newline (length x) = true <-> exists x' c, x = x' ++ [c] /\ breaks_line c).
    { rewrite B. split; intros (x' & c & E & H); exists x', c; (split; [exact E|]); now apply newline_breaks. }
    assert (Al : char_at (x ++ y) is_newline (length x) = true <-> exists c y', y = c :: y' /\ breaks_line c).
    { rewrite A. split; intros (x' & c & E & H); exists x', c; (split; [exact E|]); now apply newline_breaks. }
    assert (Bw : char_before (x ++ y) is_word_char (length x) = true <-> exists x' c, x = x' ++ [c] /\ in_word c).
    { rewrite B. split; intros (x' & c & E & H); exists x', c; (split; [exact E|]); now apply word_char_in_word. }
    assert (Aw : char_at (x ++ y) is_word_char (length x) = true <-> exists c y', y = c :: y' /\ in_word c).
    { rewrite A. split; intros (x' & c & E & H); exists x', c; (split; [exact E|]); now apply word_char_in_word. }
    assert (Ew : at_word_boundary (x ++ y) (length x) = true <-> holds fl ct Edge x y).
    { unfold at_word_boundary. cbn [holds]. rewrite <- Bw, <- Aw.
      apply xorb_iff. }
    destruct T.
    - cbn [matches holds]. unfold at_line_start. rewrite orb_true_iff, andb_true_iff, Nat.eqb_eq, Bl, multiline_flag, length_nil.
      intuition.
    - cbn [matches holds]. unfold at_line_end. rewrite orb_true_iff, andb_true_iff, Nat.eqb_eq, Al, multiline_flag.
      rewrite app_length. assert (E : length x = length x + length y <-> y = []) by (rewrite <- length_nil; lia).
      rewrite E. intuition.
    - cbn [matches holds]. rewrite length_nil. intuition.
    - cbn [matches holds]. rewrite app_length.
      assert (E : length x = length x + length y <-> y = []) by (rewrite <- length_nil; lia). rewrite E. intuition.
    - cbn [matches]. rewrite Ew. intuition.
    - cbn [matches is_class].
      assert (E : ~ (exists k, length x = k /\ at_word_boundary (x ++ y) (length x) = true) <-> holds fl ct NoEdge x y).
      { cbn [holds]. rewrite <- Bw, <- Aw. unfold at_word_boundary.
        rewrite <- xorb_false_iff. split; [intros H1 H2; apply H1; eauto|intros H1 (k & _ & H2); auto]. }
      rewrite E. intuition.
    - destruct Hs as (_ & U & _). cbn [matches holds]. rewrite (ahead_word b x y U H0). intuition.
    - destruct Hs as (_ & U & _). cbn [matches holds is_class]. pose proof (ahead_word b x y U H0) as E.
      assert (G : (exists k, length x = k /\ exists k0, matches cf (x ++ y) b (length x) k0)
                  <-> exists k, matches cf (x ++ y) b (length x) k) by (split; [intros (k & _ & G)|intros G]; eauto).
      rewrite G, E. intuition.
    - destruct Hs as (_ & U & _). cbn [matches holds]. rewrite (behind_word b x y U H0). intuition.
    - destruct Hs as (_ & U & _). cbn [matches holds is_class]. pose proof (behind_word b x y U H0) as E.
      assert (G : (exists k, length x = k /\ exists k0, k0 <= length x /\ matches cf (x ++ y) b k0 (length x))
                  <-> exists k, k <= length x /\ matches cf (x ++ y) b k (length x)) by (split; [intros (k & _ & G)|intros G]; eauto).
      rewrite G, E. intuition.
  Qed.

  Lemma demands_hold l ts x y j : Forall2 demand_tree l ts -> Forall (sound_demand fl ct) l ->
    (matches cf (x ++ y) (Seq ts) (length x) j <-> j = length x /\ Forall (fun d => holds fl ct d x y) l).
  Proof.
    induction 1 as [|d t l ts T _ IH]; intros S.
    - cbn. intuition.
    - inversion_clear S. rewrite mt_seq_cons. split.
      + intros (k & H1 & H2). apply (demand_holds d t x y k T H) in H1 as [-> H1].
        apply (IH H0) in H2 as [-> H2]. auto.
      + intros [-> F]. inversion_clear F. exists (length x). split.
        * now apply (demand_holds d t x y).
        * now apply IH.
  Qed.

  (** The text of the pattern. *)
  Definition surrounded_text (l1 : list demand) (p : text) (l2 : list demand) : text :=
    flat_map demand_text l1 ++ grouped p ++ flat_map demand_text l2.

  (** [u] stands between [x] and [y] as demanded. *)
  Definition found (l1 l2 : list demand) (n : node) (x u y : text) : Prop :=
    is_word (r n) ct u /\ Forall (fun d => holds fl ct d x (u ++ y)) l1
    /\ Forall (fun d => holds fl ct d (x ++ u) y) l2.

  Lemma demand_trees l : Forall (sound_demand fl ct) l -> exists ts, Forall2 demand_tree l ts.
  Proof.
    induction 1 as [|d l H _ [ts IH]]; [eexists; constructor|].
    apply demand_has_tree in H as [t H]. exists (t :: ts). now constructor.
  Qed.

  Lemma demand_items l ts : Forall2 demand_tree l ts -> Forall2 (item Anything) (map demand_text l) ts.
  Proof. induction 1; cbn; constructor; auto using demand_item. Qed.

  Section Around.
    Variables (l1 l2 : list demand) (p : text) (b : node) (ts1 ts2 : list node).
    Hypothesis U : usable (r (index_captures b)) ct.
    Hypothesis S : self_contained b = true.
    Hypothesis S1 : Forall (sound_demand fl ct) l1.
    Hypothesis S2 : Forall (sound_demand fl ct) l2.
    Hypothesis T1 : Forall2 demand_tree l1 ts1.
    Hypothesis T2 : Forall2 demand_tree l2 ts2.
    Hypothesis Hb : body p b.

    (** The tree before numbering. *)
    Definition around : node :=
      match ts1 ++ b :: ts2 with [] => b | t :: ts => fold_left cat ts t end.

    Lemma around_body : body (surrounded_text l1 p l2) around.
    Proof.
      assert (F : Forall2 (item Anything) (map demand_text l1 ++ grouped p :: map demand_text l2) (ts1 ++ b :: ts2)).
      { apply Forall2_app; [now apply demand_items|]. constructor; [apply piece_item, wrap_piece, Hb|now apply demand_items]. }
      unfold surrounded_text. rewrite !flat_map_concat_map.
      replace (concat (map demand_text l1) ++ grouped p ++ concat (map demand_text l2))
        with (concat (map demand_text l1 ++ grouped p :: map demand_text l2)) by (rewrite concat_app; reflexivity).
      unfold around. inversion F as [E1 E2|t n ts ns H H' E1 E2].
      - destruct ts1; discriminate.
      - cbn [concat]. now apply items_body.
    Qed.

    Lemma around_matches s i j : matches cf s around i j <-> matches cf s (Seq (ts1 ++ b :: ts2)) i j.
    Proof.
      unfold around. destruct (ts1 ++ b :: ts2) as [|t ts] eqn:E; [now destruct ts1|]. apply matches_items.
    Qed.

    Lemma around_found s i j : i <= length s ->
      (matches cf s around i j
       <-> exists x u y, s = x ++ u ++ y /\ length x = i /\ length x + length u = j
             /\ found l1 l2 (index_captures b) x u y).
    Proof.
      intros Hi. rewrite around_matches, mt_seq_app. split.
      - intros (k & H1 & H2). apply (proj1 (mt_seq_cons _ _ _ _ _ _)) in H2 as (k' & H2 & H3).
        assert (E : s = firstn i s ++ skipn i s) by (symmetry; apply firstn_skipn).
        assert (Li : length (firstn i s) = i) by (rewrite firstn_length; lia).
        assert (G : matches cf (firstn i s ++ skipn i s) (Seq ts1) (length (firstn i s)) k) by now rewrite <- E, Li.
        apply (demands_hold l1 ts1 _ _ _ T1 S1) in G as [-> G]. clear H1. rename G into H1.
        rewrite Li in H2.
        pose proof (matches_bounds cf s b i k' Hi H2) as B.
        destruct (split_at s i k') as (x & u & y & Es & Hx & Hl); [lia..|].
        exists x, u, y. split; [exact Es|]. split; [exact Hx|].
        rewrite Es, app_assoc in H3. replace k' with (length (x ++ u)) in H3 by (rewrite app_length; lia).
        apply (demands_hold l2 ts2 _ _ _ T2 S2) in H3 as [-> H3].
        split; [now rewrite app_length|]. split; [|split].
        + apply (indexed_word_at b fl ct x u y U S). rewrite <- Es, Hx.
          replace (i + length u) with k' by lia. exact H2.
        + rewrite Es in H1. rewrite <- Hx in H1. rewrite firstn_app, skipn_app, Nat.sub_diag, firstn_all, skipn_all in H1.
          cbn [firstn skipn] in H1. rewrite app_nil_r in H1. exact H1.
        + exact H3.
      - intros (x & u & y & -> & <- & <- & Hw & H1 & H2). exists (length x). split.
        + now apply (demands_hold l1 ts1).
        + apply mt_seq_cons. exists (length x + length u). split.
          * now apply (indexed_word_at b fl ct x u y U S).
          * rewrite app_assoc, <- app_length. now apply (demands_hold l2 ts2).
    Qed.

    Lemma around_regular : regular (index_captures around) = true /\ possessive_free (index_captures around) = true.
    Proof.
      assert (R : Forall (fun t => regular t = true /\ possessive_free t = true) (ts1 ++ b :: ts2)).
      { apply Forall_app. split; [|constructor].
        - clear - T1. induction T1; constructor; eauto using demand_regular.
        - split; [now apply contained_regular|now apply contained_possessive_free].
        - clear - T2. induction T2; constructor; eauto using demand_regular. }
      assert (G : forall P : node -> bool, (forall l, P (Seq l) = forallb P l) ->
                forallb P (ts1 ++ b :: ts2) = true -> P around = true).
      { intros P E H. unfold around. destruct (ts1 ++ b :: ts2) as [|t ts] eqn:Et; [now destruct ts1|].
        cbn in H. apply andb_prop in H as [H1 H2]. now apply items_all. }
      assert (A : forall P : node -> bool, (forall t, regular t = true /\ possessive_free t = true -> P t = true) ->
                forallb P (ts1 ++ b :: ts2) = true).
      { intros P HP. apply forallb_forall. intros t Ht. rewrite Forall_forall in R. auto. }
      unfold regular, index_captures.
      rewrite backref_free_index, possessive_ok_index, lookbehind_ok_index, possessive_free_index.
      split; [|apply G; [reflexivity|]; apply A; tauto].
      rewrite !andb_true_iff; repeat split; (apply G; [reflexivity|]); apply A; unfold regular; intros t [H _];
        now apply andb_prop in H as [[? ?]%andb_prop ?].
    Qed.

    Theorem around_search : usable (r (index_captures around)) ct -> forall s,
      returns (regex_search (r (index_captures around)) ct s) (fun res =>
        let place x u y := s = x ++ u ++ y /\ found l1 l2 (index_captures b) x u y in
        (matched res = true <-> exists x u y, place x u y)
        /\ (matched res = true -> exists x u y, place x u y
              /\ group0 (groups res) = Some (length x, length x + length u)
              /\ forall x' u' y', place x' u' y' -> length x <= length x')).
    Proof.
      intros Ua s. destruct around_regular as [Hr Hp].
      destruct (search_leftmost _ ct s Ua Hr) as (res & E & H1 & H2). exists res. split; [exact E|].
      intros place.
      assert (W : well_formed (index_captures around) = true) by (destruct Ua as [Hc _]; eapply compiles_well_formed; exact Hc).
      assert (M : forall i j, i <= length s -> (In j (paths cf s (index_captures around) i)
                <-> exists x u y, place x u y /\ length x = i /\ length x + length u = j)).
      { intros i j Hi. rewrite in_paths by auto. unfold index_captures at 1. rewrite matches_index, around_found by exact Hi.
        unfold place. split; intros (x & u & y & G); exists x, u, y; tauto. }
      assert (B : forall x u y, place x u y -> length x <= length s).
      { intros x u y [-> _]. rewrite app_length. lia. }
      assert (L : matched res = true -> exists x u y, place x u y
              /\ group0 (groups res) = Some (length x, length x + length u)
              /\ forall x' u' y', place x' u' y' -> length x <= length x').
      { intros Hm. destruct (H1 Hm) as (i & e & Hi & Hpr & Hf & Hg).
        apply preferred_in in Hpr. apply (M i e Hi) in Hpr as (x & u & y & Hpl & Hx & He).
        exists x, u, y. split; [exact Hpl|]. split; [rewrite Hg; congruence|].
        intros x' u' y' Hpl'. rewrite Hx. destruct (le_lt_dec i (length x')) as [Hle|Hlt]; [exact Hle|exfalso].
        eapply (in_preferred cf s (index_captures around) (length x')); [|exact (Hf _ Hlt)].
        apply M; [eauto|]. eauto 8. }
      split; [|exact L]. split.
      - intros Hm. destruct (L Hm) as (x & u & y & H & _). eauto.
      - intros (x & u & y & Hpl). destruct (matched res) eqn:Em; [reflexivity|exfalso].
        eapply (in_preferred cf s (index_captures around) (length x)); [|exact (H2 eq_refl _ (B _ _ _ Hpl))].
        apply M; [eauto|]. eauto 8.
    Qed.
  End Around.

  Theorem surrounded_search l1 p n l2 : parse p = P_ok n -> usable (r n) ct -> self_contained n = true ->
    Forall (sound_demand fl ct) l1 -> Forall (sound_demand fl ct) l2 ->
    exists a, parse (surrounded_text l1 p l2) = P_ok a
      /\ (usable (r a) ct -> forall s, returns (regex_search (r a) ct s) (fun res =>
            let place x u y := s = x ++ u ++ y /\ found l1 l2 n x u y in
            (matched res = true <-> exists x u y, place x u y)
            /\ (matched res = true -> exists x u y, place x u y
                  /\ group0 (groups res) = Some (length x, length x + length u)
                  /\ forall x' u' y', place x' u' y' -> length x <= length x'))).
  Proof.
    intros Pp Un Sn S1 S2. apply accepted_pattern in Pp as (b & Hb & ->).
    unfold index_captures in Sn. rewrite self_contained_index in Sn.
    destruct (demand_trees l1 S1) as [ts1 T1]. destruct (demand_trees l2 S2) as [ts2 T2].
    exists (index_captures (around b ts1 ts2)). split.
    - apply pattern_parses. now apply around_body.
    - exact (around_search l1 l2 p b ts1 ts2 Un Sn S1 S2 T1 T2).
  Qed.
End Flags.

Theorem whole_lines fl ct p n : parse p = P_ok n -> usable (mk_regex n fl) ct -> self_contained n = true ->
  In F_multiline fl ->
  exists a, parse (str "^(?:" ++ p ++ str ")$") = P_ok a
    /\ (usable (mk_regex a fl) ct -> forall s, returns (regex_search (mk_regex a fl) ct s) (fun res =>
          matched res = true
          <-> exists x u y, s = x ++ u ++ y /\ is_word (mk_regex n fl) ct u
                /\ (x = [] \/ exists x' c, x = x' ++ [c] /\ breaks_line c)
                /\ (y = [] \/ exists c y', y = c :: y' /\ breaks_line c))).
Proof.
  intros P U S F.
  destruct (surrounded_search fl ct [LineStart] p n [LineEnd] P U S) as (a & Pa & H); [repeat constructor..|].
  exists a. split.
  - rewrite <- Pa. f_equal. unfold surrounded_text, grouped. cbn. now rewrite <- app_assoc.
  - intros Ua s. destruct (H Ua s) as (res & E & G & _). exists res. split; [exact E|]. rewrite G.
    split; intros (x & u & y & Es & Hw).
    + destruct Hw as (Hw & H1 & H2). inversion_clear H1. inversion_clear H2. cbn [holds] in *.
      exists x, u, y. tauto.
    + exists x, u, y. split; [exact Es|]. split; [tauto|]. split; (constructor; [|constructor]); cbn [holds]; tauto.
Qed.
