(** Lookaheads at the beginning of a pattern combine its words with the words of
    another pattern (C84). *)
From Verif Require Import Matcher Api Parser Basics Safe Cong Impl Spec Paths Walk Calls Lift Matching
  Syntax Typing Shape Reading Accepted Print Expressions Actual Laws Contained Compose Surrounded.
From Coq Require Import Lia.

(** ** The numbers of groups do not matter to [walk] *)

Section Pointwise.
  Variables f g : nat -> list nat.
  Hypothesis E : forall i, f i = g i.

  Lemma times_pointwise n : forall i, times f n i = times g n i.
  Proof.
    induction n as [|n IH]; intros i; [reflexivity|]. cbn. rewrite E.
    apply flat_map_ext. exact IH.
  Qed.

  Lemma more_pointwise fu : forall b i, more_first f fu b i = more_first g fu b i.
  Proof.
    induction fu as [|fu IH]; intros b i; [reflexivity|]. cbn. rewrite E. destruct b as [n|].
    - destruct (N.eqb n 0); [reflexivity|]. f_equal. apply flat_map_ext. intros. apply IH.
    - f_equal. apply flat_map_ext. intros j. now rewrite IH.
  Qed.

  Lemma fewer_pointwise fu : forall b i, fewer_first f fu b i = fewer_first g fu b i.
  Proof.
    induction fu as [|fu IH]; intros b i; [reflexivity|]. cbn. rewrite E. destruct b as [n|].
    - destruct (N.eqb n 0); [reflexivity|]. f_equal. apply flat_map_ext. intros. apply IH.
    - f_equal. apply flat_map_ext. intros j. now rewrite IH.
  Qed.

  Lemma commit_pointwise fu : forall b i, commit f fu b i = commit g fu b i.
  Proof.
    induction fu as [|fu IH]; intros b i; [reflexivity|]. cbn. rewrite E. destruct b as [n|], (g i); try reflexivity.
    - now rewrite IH.
    - now rewrite IH.
  Qed.
End Pointwise.

Lemma walk_index cf s n : forall off left back i, walk cf s left back (index off n) i = walk cf s left back n i.
Proof.
  induction n using node_ind'; intros off left back i; try reflexivity.
  - cbn [index walk]. unfold read_char.
    change (CSet (map (index off) l)) with (index off (CSet l)). unfold char_before, char_at.
    destruct left.
    + destruct i as [|i]; [reflexivity|]. destruct (nth_error s i); [now rewrite accepts_index|reflexivity].
    + destruct (nth_error s i); [now rewrite accepts_index|reflexivity].
  - cbn [index walk]. rewrite is_class_index. destruct (is_class n) eqn:C.
    + change (Neg (index off n)) with (index off (Neg n)). unfold read_char, char_before, char_at.
      destruct left.
      * destruct i as [|i]; [reflexivity|]. destruct (nth_error s i); [now rewrite accepts_index|reflexivity].
      * destruct (nth_error s i); [now rewrite accepts_index|reflexivity].
    + now rewrite IHn.
  - rewrite index_Seq. cbn [walk]. destruct back.
    + revert off i. induction H as [|x l Hx _ IH]; intros off i; [reflexivity|].
      cbn [index_list]. rewrite IH. apply flat_map_ext. intros. apply Hx.
    + revert off i. induction H as [|x l Hx _ IH]; intros off i; [reflexivity|].
      cbn [index_list]. rewrite Hx. apply flat_map_ext. intros. apply IH.
  - cbn [index walk]. induction H as [|x l Hx _ IH]; [reflexivity|]. cbn. now rewrite Hx, IH.
  - cbn [index walk]. apply IHn.
  - cbn [index walk]. specialize (IHn off left back).
    set (f := walk cf s left back (index off n)) in *. set (g := walk cf s left back n) in *.
    assert (T : times f (N.to_nat lo) i = times g (N.to_nat lo) i) by now apply times_pointwise.
    assert (M : forall fu b l, flat_map (more_first f fu b) l = flat_map (more_first g fu b) l)
      by (intros; apply flat_map_ext; intros; now apply more_pointwise).
    assert (F : forall fu b l, flat_map (fewer_first f fu b) l = flat_map (fewer_first g fu b) l)
      by (intros; apply flat_map_ext; intros; now apply fewer_pointwise).
    rewrite T. destruct md; [now rewrite M, F|now rewrite M, F|].
    apply map_ext. intros. now apply commit_pointwise.
  - cbn [index walk]. now rewrite !IHn.
Qed.

(** ** Trees *)

Section Trees.
  Variable cf : config.
  Variable s : list ascii.
  Let W := walk cf s false false.

  Lemma walk_seq_app l1 l2 : forall i, W (Seq (l1 ++ l2)) i = flat_map (W (Seq l2)) (W (Seq l1) i).
  Proof.
    induction l1 as [|x l1 IH]; intros i; [cbn; now rewrite app_nil_r|].
    change (W (Seq ((x :: l1) ++ l2)) i) with (flat_map (W (Seq (l1 ++ l2))) (W x i)).
    change (W (Seq (x :: l1)) i) with (flat_map (W (Seq l1)) (W x i)).
    rewrite (flat_map_ext _ _ IH). clear.
    induction (W x i) as [|j l IH]; [reflexivity|]. cbn [flat_map]. now rewrite IH, flat_map_app.
  Qed.

  Lemma flat_map_same (l : list nat) : flat_map (fun j => [j]) l = l.
  Proof. induction l as [|j l IH]; [reflexivity|]. cbn. now rewrite IH. Qed.

  Lemma walk_parts n i : W (Seq (parts n)) i = W n i.
  Proof.
    destruct n; try reflexivity;
      match goal with |- W (Seq (parts ?x)) i = _ => exact (flat_map_same (W x i)) end.
  Qed.

  Lemma walk_cat n m i : W (cat n m) i = flat_map (W m) (W n i).
  Proof.
    unfold cat. rewrite walk_seq_app, walk_parts. apply flat_map_ext. intros. apply walk_parts.
  Qed.

  (** The words of "(?=(?:p)\Z)(?:q)" and of "(?!(?:p)\Z)(?:q)". *)
  Definition both (b c : node) : node := cat (Look Ahead (cat b EndInput)) c.
  Definition minus (b c : node) : node := cat (Neg (Look Ahead (cat b EndInput))) c.

  Lemma to_the_end b : W (cat b EndInput) 0 <> [] <-> In (length s) (W b 0).
  Proof.
    rewrite walk_cat. split.
    - destruct (flat_map _ _) as [|j l] eqn:F; [easy|]. intros _.
      assert (H : In j (flat_map (W EndInput) (W b 0))) by (rewrite F; now left).
      apply in_flat_map in H as (k & Hk & Hj). cbn in Hj.
      destruct (Nat.eqb k (length s)) eqn:Ek; [|easy]. apply Nat.eqb_eq in Ek. now subst.
    - intros H F. assert (G : In (length s) (flat_map (W EndInput) (W b 0))).
      { apply in_flat_map. exists (length s). split; [exact H|]. cbn. rewrite Nat.eqb_refl. now left. }
      now rewrite F in G.
  Qed.

  Lemma walk_both b c : In (length s) (W (both b c) 0) <-> In (length s) (W b 0) /\ In (length s) (W c 0).
  Proof.
    unfold both. rewrite walk_cat. rewrite <- (to_the_end b).
    change (W (Look Ahead (cat b EndInput)) 0)
      with (match W (cat b EndInput) 0 with [] => [] | _ => [0] end).
    destruct (W (cat b EndInput) 0) as [|j l].
    - cbn. split; [easy|]. now intros [[] _].
    - cbn [flat_map]. rewrite app_nil_r. split; [|tauto]. intros H. split; [easy|exact H].
  Qed.

  Lemma walk_minus b c : In (length s) (W (minus b c) 0) <-> ~ In (length s) (W b 0) /\ In (length s) (W c 0).
  Proof.
    unfold minus. rewrite walk_cat. rewrite <- (to_the_end b).
    change (W (Neg (Look Ahead (cat b EndInput))) 0)
      with (match (match W (cat b EndInput) 0 with [] => [] | _ => [0] end) with [] => [0] | _ => [] end).
    destruct (W (cat b EndInput) 0) as [|j l].
    - cbn [flat_map]. rewrite app_nil_r. split; [|tauto]. intros H. split; [tauto|exact H].
    - cbn. split; [easy|]. intros [H _]. now apply H.
  Qed.
End Trees.

(** ** Calls *)

Lemma is_word_walk r ct u : usable r ct -> backref_free (ast r) = true ->
  (is_word r ct u <-> In (length u) (walk (config_of (flags r) ct) u false false (ast r) 0)).
Proof.
  intros Hu Hb. destruct (match_exact r ct u Hu Hb) as (a & E & Ha).
  unfold is_word. rewrite E. split.
  - intros (b & Eb & Hm). injection Eb as <-. now apply Ha.
  - intros H. exists a. split; [reflexivity|]. now apply Ha.
Qed.

Lemma indexed_walk b fl ct w : usable (mk_regex (index_captures b) fl) ct -> backref_free b = true ->
  (is_word (mk_regex (index_captures b) fl) ct w <-> In (length w) (walk (config_of fl ct) w false false b 0)).
Proof.
  intros Hu Hb. rewrite is_word_walk; [|exact Hu|].
  - cbn [ast flags]. unfold index_captures. now rewrite walk_index.
  - cbn [ast]. unfold index_captures. now rewrite backref_free_index.
Qed.

Lemma free_parts n : forallb backref_free (parts n) = backref_free n.
Proof. now apply forallb_parts. Qed.

Lemma free_cat b c : backref_free (cat b c) = backref_free b && backref_free c.
Proof. unfold cat. cbn [backref_free]. now rewrite forallb_app, !free_parts. Qed.

Lemma begin_parts n : existsb has_begin_line (parts n) = has_begin_line n.
Proof. destruct n; try reflexivity; cbn [parts existsb]; apply orb_false_r. Qed.

Lemma begin_cat b c : has_begin_line (cat b c) = has_begin_line b || has_begin_line c.
Proof. unfold cat. cbn [has_begin_line]. now rewrite existsb_app, !begin_parts. Qed.

Lemma count_cat b c : capture_count b = 0 -> capture_count c = 0 -> capture_count (cat b c) = 0.
Proof. intros H1 H2. unfold cat. apply sum_free. apply Forall_app. split; now apply free_count_parts. Qed.

Section Patterns.
  Variable fl : list regex_flag.
  Variable ct : category.
  Let r x := mk_regex x fl.

  Definition look_text (sign : bool) (p q : text) : text :=
    (if sign then str "(?=" else str "(?!") ++ grouped p ++ str "\Z)" ++ grouped q.

  Lemma look_body sign p q b c : body p b -> body q c ->
    body (look_text sign p q) ((if sign then both else minus) b c).
  Proof.
    intros Hb Hc.
    assert (Z : item Anything (str "\Z") EndInput) by (apply i_anchor; cbn; auto 10).
    assert (B : body (grouped p ++ str "\Z") (cat b EndInput)).
    { eapply branch_body, b_items; [apply piece_item, wrap_piece, Hb|]. rewrite <- (app_nil_r (str "\Z")).
      eapply m_item; [exact Z|exact I|constructor]. }
    assert (L : forall o F, opening o F -> body (str "(" ++ o ++ (grouped p ++ str "\Z") ++ str ")" ++ grouped q)
                  (cat (F (cat b EndInput)) c)).
    { intros o F Ho. pose proof (u_group o F _ _ Ho B) as U. apply piece_item in U.
      replace (str "(" ++ o ++ (grouped p ++ str "\Z") ++ str ")" ++ grouped q)
        with ((str "(" ++ o ++ (grouped p ++ str "\Z") ++ str ")") ++ grouped q) by now rewrite !app_assoc.
      eapply branch_body, b_items; [exact U|]. rewrite <- (app_nil_r (grouped q)).
      eapply m_item; [apply piece_item, wrap_piece, Hc|exact I|constructor]. }
    unfold look_text. destruct sign.
    - pose proof (L _ _ open_ahead) as K. cbn in K |- *. rewrite <- !app_assoc in K. rewrite <- !app_assoc. exact K.
    - pose proof (L _ _ open_not_ahead) as K. cbn in K |- *. rewrite <- !app_assoc in K. rewrite <- !app_assoc. exact K.
  Qed.

  Theorem combined_patterns sign p q n m : parse p = P_ok n -> parse q = P_ok m ->
    usable (r n) ct -> backref_free n = true -> usable (r m) ct -> backref_free m = true ->
    exists a, parse (look_text sign p q) = P_ok a
      /\ (usable (r a) ct -> forall w,
           is_word (r a) ct w
           <-> is_word (r m) ct w /\ (if sign then is_word (r n) ct w else ~ is_word (r n) ct w))
      /\ (capture_count n = 0 -> capture_count m = 0 -> usable (r a) ct /\ capture_count a = 0)
      /\ backref_free a = true.
  Proof.
    intros Pp Pq Un Bn Um Bm.
    assert (Fa : forall x y, backref_free x = true -> backref_free y = true ->
              backref_free ((if sign then both else minus) x y) = true).
    { intros x y H1 H2. destruct sign; unfold both, minus; rewrite free_cat; cbn [backref_free];
        rewrite free_cat, H1; exact H2. }
    apply accepted_pattern in Pp as (b & Hb & ->). apply accepted_pattern in Pq as (c & Hc & ->).
    unfold index_captures in Bn, Bm. rewrite backref_free_index in Bn, Bm.
    exists (index_captures ((if sign then both else minus) b c)). split; [|split; [|split]].
    - apply pattern_parses. now apply look_body.
    - intros U w. pose proof (indexed_walk b fl ct w Un Bn) as E1. pose proof (indexed_walk c fl ct w Um Bm) as E2.
      fold (r (index_captures b)) in E1. fold (r (index_captures c)) in E2.
      etransitivity; [apply indexed_walk; [exact U|]|].
      + now apply Fa.
      + destruct sign; [rewrite walk_both|rewrite walk_minus]; rewrite E1, E2; tauto.
    - unfold index_captures. rewrite !capture_count_index. intros C1 C2.
      unfold usable, runs in *. cbn [ast flags r] in *. unfold index_captures in *.
      destruct Un as [K1 L1], Um as [K2 L2].
      rewrite index_free in K1, L1, K2, L2 by assumption.
      assert (C : capture_count (cat b EndInput) = 0) by now apply count_cat.
      assert (K : compilable (config_of fl ct) (cat b EndInput) = true) by (apply compilable_cat; auto).
      assert (Ca : capture_count ((if sign then both else minus) b c) = 0) by (destruct sign; apply count_cat; auto).
      rewrite index_free by exact Ca. split; [|exact Ca]. split.
      + destruct sign; apply compilable_cat; assumption.
      + destruct L1 as [L1|[L1|L1]], L2 as [L2|[L2|L2]]; unfold lines_ok; auto.
        right. right. destruct sign; unfold both, minus; rewrite begin_cat; cbn [has_begin_line];
          rewrite begin_cat, L1, L2; reflexivity.
    - unfold index_captures. rewrite backref_free_index. now apply Fa.
  Qed.

  Theorem common_words p q n m : parse p = P_ok n -> parse q = P_ok m ->
    usable (r n) ct -> backref_free n = true -> usable (r m) ct -> backref_free m = true ->
    exists a, parse (str "(?=(?:" ++ p ++ str ")\Z)(?:" ++ q ++ str ")") = P_ok a /\ backref_free a = true
      /\ (usable (r a) ct -> forall w, is_word (r a) ct w <-> is_word (r n) ct w /\ is_word (r m) ct w)
      /\ (capture_count n = 0 -> capture_count m = 0 -> usable (r a) ct /\ capture_count a = 0).
  Proof.
    intros Pp Pq Un Bn Um Bm. destruct (combined_patterns true p q n m Pp Pq Un Bn Um Bm) as (a & Pa & Wa & Ua & Ba).
    exists a. split; [|split; [exact Ba|split; [|exact Ua]]].
    - rewrite <- Pa. f_equal. unfold look_text, grouped. cbn. now rewrite <- app_assoc.
    - intros U w. rewrite (Wa U w). tauto.
  Qed.

  Theorem remaining_words p q n m : parse p = P_ok n -> parse q = P_ok m ->
    usable (r n) ct -> backref_free n = true -> usable (r m) ct -> backref_free m = true ->
    exists a, parse (str "(?!(?:" ++ p ++ str ")\Z)(?:" ++ q ++ str ")") = P_ok a /\ backref_free a = true
      /\ (usable (r a) ct -> forall w, is_word (r a) ct w <-> ~ is_word (r n) ct w /\ is_word (r m) ct w)
      /\ (capture_count n = 0 -> capture_count m = 0 -> usable (r a) ct /\ capture_count a = 0).
  Proof.
    intros Pp Pq Un Bn Um Bm. destruct (combined_patterns false p q n m Pp Pq Un Bn Um Bm) as (a & Pa & Wa & Ua & Ba).
    exists a. split; [|split; [exact Ba|split; [|exact Ua]]].
    - rewrite <- Pa. f_equal. unfold look_text, grouped. cbn. now rewrite <- app_assoc.
    - intros U w. rewrite (Wa U w). tauto.
  Qed.
End Patterns.
