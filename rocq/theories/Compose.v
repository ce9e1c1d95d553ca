(** The words of patterns composed of other patterns (C73). *)
From Verif Require Import Matcher Api Parser Basics Safe Cong Impl Spec Paths Calls Lift Matching
  Syntax Typing Shape Reading Accepted Print Expressions Actual Laws Contained.
From Coq Require Import Lia.

(** ** The numbers of groups do not matter *)

Lemma is_class_index n off : is_class (index off n) = is_class n.
Proof. now rewrite <- !trivial_is_class, trivial_index. Qed.

Lemma accepts_index cf n : forall off c, accepts cf (index off n) c = accepts cf n c.
Proof.
  assert (M : forall l off c, Forall (fun x => forall off c, accepts cf (index off x) c = accepts cf x c) l ->
            existsb (fun x => accepts cf x c) (map (index off) l) = existsb (fun x => accepts cf x c) l).
  { induction 1 as [|x l Hx Hl IH]; cbn; [reflexivity|]. now rewrite Hx, IH. }
  induction n using node_ind'; intros off ch; try reflexivity.
  - cbn [index accepts]. now apply M.
  - cbn [index accepts]. now rewrite IHn.
  - rewrite index_Seq. destruct l as [|x [|y l]]; try reflexivity. inversion_clear H. cbn. apply H0.
  - cbn [index accepts]. now apply M.
  - cbn [index accepts]. now rewrite IHn.
Qed.

Lemma iterate_iff (p q : nat -> nat -> Prop) : (forall i j, p i j <-> q i j) ->
  forall n i j, iterate p n i j <-> iterate q n i j.
Proof.
  intros H. induction n; intros i j; cbn; [tauto|].
  split; intros (k & H1 & H2); exists k; (split; [now apply H|now apply IHn]).
Qed.

Lemma matches_index cf s n : forall off i j, matches cf s (index off n) i j <-> matches cf s n i j.
Proof.
  assert (C : forall n off i j, is_class n = true -> (matches cf s (index off n) i j <-> matches cf s n i j)).
  { intros x off i j Hx. rewrite !matches_class by now rewrite ?is_class_index.
    unfold char_at. destruct (nth_error s i); [now rewrite accepts_index|tauto]. }
  induction n using node_ind'; intros off i j; try (cbn; tauto).
  - apply C. reflexivity.
  - destruct (is_class n) eqn:Hc; [now apply C|]. cbn. rewrite is_class_index, Hc.
    split; intros [-> Hn]; (split; [reflexivity|]); intros (k & Hk); apply Hn; exists k; now apply IHn in Hk || apply IHn.
  - rewrite index_Seq. revert off i. induction l as [|x l IH]; intros off i; [tauto|].
    inversion_clear H. cbn [index_list].
    split; intros Hm; apply (proj1 (mt_seq_cons _ _ _ _ _ _)) in Hm as (k & H2 & H3);
      apply mt_seq_cons; exists k; (split; [now apply H0 in H2 || apply <- H0|now apply IH in H3 || apply <- IH]); eauto.
  - cbn [index]. split; intros Hm; apply (proj1 (mt_alt _ _ _ _ _)) in Hm as (x & Hx & Hm); apply mt_alt; rewrite Forall_forall in H.
    + apply in_map_iff in Hx as (y & <- & Hy). exists y. split; [assumption|]. now apply H in Hm.
    + exists (index off x). split; [now apply in_map|]. now apply H.
  - cbn. apply IHn.
  - cbn [index]. rewrite !mt_rep. split; intros (k & H1 & H2); exists k; (split; [exact H1|]);
      (eapply iterate_iff; [|exact H2]); intros; [symmetry|]; apply IHn.
  - cbn. destruct d; (split; [intros [-> (k & Hk)]|intros [-> (k & Hk)]]); (split; [reflexivity|]); exists k.
    + now apply IHn in Hk.
    + now apply IHn.
    + split; [apply Hk|]. eapply IHn, Hk.
    + split; [apply Hk|]. now apply IHn.
Qed.

Lemma self_contained_index n : forall off, self_contained (index off n) = self_contained n.
Proof.
  assert (M : forall l off, Forall (fun x => forall off, self_contained (index off x) = self_contained x) l ->
            forallb self_contained (map (index off) l) = forallb self_contained l).
  { induction 1 as [|x l Hx Hl IH]; cbn; [reflexivity|]. now rewrite Hx, IH. }
  induction n using node_ind'; intros off; try reflexivity.
  - cbn [index self_contained]. now apply M.
  - cbn [index self_contained]. now rewrite IHn, is_class_index.
  - rewrite index_Seq. cbn [self_contained]. revert off. induction H as [|x l Hx Hl IH]; intros off; [reflexivity|].
    cbn [index_list forallb]. now rewrite Hx, IH.
  - cbn [index self_contained]. now apply M.
  - cbn [index self_contained]. apply IHn.
  - cbn [index self_contained]. now rewrite IHn.
Qed.

(** ** Trees *)

Lemma matches_parts cf s n i j : matches cf s (Seq (parts n)) i j <-> matches cf s n i j.
Proof. destruct n; try (cbn [parts]; rewrite mt_seq_cons; split; [intros (k & H & Hk)|intros H; exists j; split; [exact H|reflexivity]]; cbn in Hk; now subst); tauto. Qed.

Lemma matches_cat cf s n m i j : matches cf s (cat n m) i j <-> exists k, matches cf s n i k /\ matches cf s m k j.
Proof.
  unfold cat. rewrite mt_seq_app. split; intros (k & H1 & H2); exists k; split;
    first [exact (proj1 (matches_parts _ _ _ _ _) H1)|exact (proj1 (matches_parts _ _ _ _ _) H2)
          |exact (proj2 (matches_parts _ _ _ _ _) H1)|exact (proj2 (matches_parts _ _ _ _ _) H2)].
Qed.

Lemma matches_branches cf s n i j : (exists x, In x (branches n) /\ matches cf s x i j) <-> matches cf s n i j.
Proof.
  destruct n; try (cbn [branches]; split; [intros (x & [<-|[]] & H); exact H|intros H; eexists; split; [now left|exact H]]).
  cbn [branches]. symmetry. apply mt_alt.
Qed.

Lemma matches_or cf s n m i j : matches cf s (or n m) i j <-> matches cf s n i j \/ matches cf s m i j.
Proof.
  unfold or. rewrite mt_alt, <- matches_branches. split.
  - intros (x & Hx & H). apply in_app_iff in Hx as [Hx|[<-|[]]]; eauto.
  - intros [(x & Hx & H)|H]; [exists x|exists m]; (split; [apply in_app_iff; cbn; tauto|exact H]).
Qed.

Lemma contained_parts n : forallb self_contained (parts n) = self_contained n.
Proof. destruct n; try reflexivity; cbn [parts forallb]; apply andb_true_r. Qed.
Lemma contained_branches n : forallb self_contained (branches n) = self_contained n.
Proof. destruct n; try reflexivity; cbn [branches forallb]; apply andb_true_r. Qed.
Lemma contained_cat n m : self_contained n = true -> self_contained m = true -> self_contained (cat n m) = true.
Proof. intros H1 H2. cbn. now rewrite forallb_app, !contained_parts, H1, H2. Qed.
Lemma contained_or n m : self_contained n = true -> self_contained m = true -> self_contained (or n m) = true.
Proof. intros H1 H2. cbn. rewrite forallb_app, contained_branches, H1. cbn. now rewrite H2. Qed.

(** ** When they compile *)

Lemma compiles_free cf names names' n : capture_count n = 0 -> self_contained n = true ->
  forall f rd, compiles cf names f rd n = compiles cf names' f rd n.
Proof.
  assert (M : forall l f rd, Forall (fun n => capture_count n = 0 -> self_contained n = true ->
              forall f rd, compiles cf names f rd n = compiles cf names' f rd n) l ->
            Forall (fun n => capture_count n = 0) l -> forallb self_contained l = true ->
            forallb (compiles cf names f rd) l = forallb (compiles cf names' f rd) l).
  { intros l f rd. induction 1 as [|x l Hx Hl IH]; intros Hc Hs; [reflexivity|].
    inversion_clear Hc. cbn in Hs |- *. apply andb_prop in Hs as [S1 S2]. now rewrite Hx, IH. }
  induction n using node_ind'; intros Hc Hs f rd; (destruct f as [|f]; [reflexivity|]); try reflexivity;
    try discriminate; cbn [capture_count] in Hc.
  - cbn [compiles self_contained] in *. apply sum_zero in Hc.
    assert (E : forall x, In x l -> compiles cf names f rd x = compiles cf names' f rd x).
    { intros x Hx. rewrite Forall_forall in *. rewrite forallb_forall in Hs. auto. }
    clear - E. induction l as [|x l IH]; [reflexivity|]. cbn. rewrite E by now left. f_equal.
    apply IH. intros y Hy. apply E. now right.
  - cbn [compiles self_contained] in *. apply andb_prop in Hs as [_ Hs]. now rewrite IHn.
  - cbn [compiles self_contained] in *. apply sum_zero in Hc. destruct l; [reflexivity|]. now apply M.
  - cbn [compiles self_contained] in *. apply sum_zero in Hc. destruct l; [reflexivity|]. now apply M.
  - lia.
  - cbn [compiles self_contained] in *. destruct md; try discriminate; now rewrite IHn.
Qed.

Lemma contained_lines cf n : self_contained n = true -> lines_ok cf n.
Proof.
  intros H. right. right. revert H.
  assert (M : forall l, Forall (fun n => self_contained n = true -> has_begin_line n = false) l ->
            forallb self_contained l = true -> existsb has_begin_line l = false).
  { induction 1 as [|x l Hx Hl IH]; intros Hs; [reflexivity|]. cbn in *. apply andb_prop in Hs as [S1 S2].
    now rewrite Hx, IH. }
  induction n using node_ind'; intros Hs; try reflexivity; try discriminate; cbn [has_begin_line self_contained] in *.
  - auto.
  - apply andb_prop in Hs as [_ Hs]. auto.
  - auto.
  - auto.
  - auto.
  - destruct md; try discriminate; auto.
Qed.

Lemma nameless n : capture_count n = 0 -> group_names n = [None].
Proof.
  intros H. unfold group_names. f_equal. apply length_zero_iff_nil. now rewrite names_length.
Qed.

Lemma free_count_parts n : capture_count n = 0 -> Forall (fun x => capture_count x = 0) (parts n).
Proof. destruct n; intros H; try (constructor; [exact H|constructor]). now apply sum_zero. Qed.
Lemma free_count_branches n : capture_count n = 0 -> Forall (fun x => capture_count x = 0) (branches n).
Proof. destruct n; intros H; try (constructor; [exact H|constructor]). now apply sum_zero. Qed.

Lemma sum_free l : Forall (fun x => capture_count x = 0) l -> list_sum (map capture_count l) = 0.
Proof. induction 1 as [|x l Hx Hl IH]; cbn [map]; [reflexivity|]. change (capture_count x + list_sum (map capture_count l) = 0). lia. Qed.

Lemma compiles_list cf names k l : list_sum (map size l) <= k ->
  forallb (compiles cf names k 0) l = forallb (fun x => compiles cf names (size x) 0 x) l.
Proof.
  intros H. apply forallb_ext_Forall, Forall_forall. intros x Hx. apply size_in_sum in Hx.
  apply compiles_fuel; lia.
Qed.

Lemma compilable_Seq cf l : l <> [] -> Forall (fun x => capture_count x = 0) l ->
  compilable cf (Seq l) = forallb (fun x => compiles cf [None] (size x) 0 x) l.
Proof.
  intros Hl Hc. unfold compilable. rewrite nameless by now apply sum_free.
  rewrite size_Seq. rewrite <- (compiles_list _ _ (list_sum (map size l))) by lia. now destruct l.
Qed.

Lemma compilable_Alt cf l : l <> [] -> Forall (fun x => capture_count x = 0) l ->
  compilable cf (Alt l) = forallb (fun x => compiles cf [None] (size x) 0 x) l.
Proof.
  intros Hl Hc. unfold compilable. rewrite nameless by now apply sum_free.
  rewrite size_Alt. rewrite <- (compiles_list _ _ (list_sum (map size l))) by lia. now destruct l.
Qed.

Lemma compilable_parts cf n : capture_count n = 0 -> compilable cf n = true ->
  parts n <> [] /\ forallb (fun x => compiles cf [None] (size x) 0 x) (parts n) = true.
Proof.
  intros Hc H.
  destruct n; try (split; [discriminate|]; cbn [parts forallb]; rewrite andb_true_r;
    unfold compilable in H; now rewrite nameless in H).
  destruct l as [|x l]; [discriminate H|]. split; [discriminate|]. cbn [parts].
  rewrite <- compilable_Seq; [exact H|discriminate|now apply sum_zero].
Qed.

Lemma compilable_branches cf n : capture_count n = 0 -> compilable cf n = true ->
  branches n <> [] /\ forallb (fun x => compiles cf [None] (size x) 0 x) (branches n) = true.
Proof.
  intros Hc H.
  destruct n; try (split; [discriminate|]; cbn [branches forallb]; rewrite andb_true_r;
    unfold compilable in H; now rewrite nameless in H).
  destruct l as [|x l]; [discriminate H|]. split; [discriminate|]. cbn [branches].
  rewrite <- compilable_Alt; [exact H|discriminate|now apply sum_zero].
Qed.

Lemma compilable_cat cf n m : capture_count n = 0 -> capture_count m = 0 ->
  compilable cf n = true -> compilable cf m = true -> compilable cf (cat n m) = true.
Proof.
  intros C1 C2 H1 H2. destruct (compilable_parts _ _ C1 H1) as [N1 P1].
  destruct (compilable_parts _ _ C2 H2) as [_ P2]. unfold cat. rewrite compilable_Seq.
  - now rewrite forallb_app, P1, P2.
  - destruct (parts n); [congruence|discriminate].
  - apply Forall_app. split; now apply free_count_parts.
Qed.

Lemma compilable_or cf n m : capture_count n = 0 -> capture_count m = 0 ->
  compilable cf n = true -> compilable cf m = true -> compilable cf (or n m) = true.
Proof.
  intros C1 C2 H1 H2. destruct (compilable_branches _ _ C1 H1) as [N1 P1]. unfold or. rewrite compilable_Alt.
  - rewrite forallb_app, P1. cbn. rewrite andb_true_r. unfold compilable in H2. now rewrite nameless in H2.
  - destruct (branches n); discriminate.
  - apply Forall_app. split; [now apply free_count_branches|]. constructor; [assumption|constructor].
Qed.

(** ** Words *)

(** Words of a tree that is not numbered yet. *)
Lemma indexed_word b fl ct w : let r := mk_regex (index_captures b) fl in
  usable r ct -> self_contained b = true ->
  (is_word r ct w <-> matches (config_of fl ct) w b 0 (length w)).
Proof.
  intros r Hu Hs. rewrite is_word_matches; [|exact Hu|].
  - cbn [ast flags r]. apply matches_index.
  - cbn [ast r]. unfold index_captures. now rewrite self_contained_index.
Qed.

Lemma indexed_word_at b fl ct x u y : let r := mk_regex (index_captures b) fl in
  usable r ct -> self_contained b = true ->
  (is_word r ct u <-> matches (config_of fl ct) (x ++ u ++ y) b (length x) (length x + length u)).
Proof.
  intros r Hu Hs. rewrite (word_at r ct x u y Hu).
  - cbn [ast flags r]. apply matches_index.
  - cbn [ast r]. unfold index_captures. now rewrite self_contained_index.
Qed.

Section Compose.
  Variables (fl : list regex_flag) (ct : category).
  Let r (n : node) := mk_regex n fl.
  Let cf := config_of fl ct.

  Section One.
    Variable b : node.
    Hypothesis U : usable (r (index_captures b)) ct.
    Hypothesis S : self_contained b = true.

    Lemma iterated_words c : forall x w,
      iterate (matches cf (x ++ w) b) c (length x) (length x + length w)
      <-> exists ws, length ws = c /\ w = concat ws /\ Forall (is_word (r (index_captures b)) ct) ws.
    Proof.
      induction c as [|c IH]; intros x w.
      - cbn. split.
        + intros H. assert (length w = 0) by lia. apply length_zero_iff_nil in H0. subst w. now exists [].
        + intros ([|v ws] & H1 & -> & _); [|discriminate]. cbn. lia.
      - cbn [iterate]. split.
        + intros (k & H1 & H2).
          assert (L1 : length x <= k) by (eapply matches_le; exact H1).
          assert (L2 : k <= length x + length w).
          { clear - H2. revert k H2. induction c as [|c IH]; intros k H; cbn in H; [lia|].
            destruct H as (k' & H & H'). apply IH in H'. apply matches_le in H. lia. }
          set (u := firstn (k - length x) w). set (v := skipn (k - length x) w).
          assert (E : w = u ++ v) by (symmetry; apply firstn_skipn).
          assert (Lu : length u = k - length x) by (unfold u; rewrite firstn_length; lia).
          assert (Hu : is_word (r (index_captures b)) ct u).
          { apply (indexed_word_at b fl ct x u v U S). rewrite <- E, Lu.
            replace (length x + (k - length x)) with k by lia. exact H1. }
          assert (Hv : iterate (matches cf ((x ++ u) ++ v) b) c (length (x ++ u)) (length (x ++ u) + length v)).
          { rewrite <- app_assoc, <- E, app_length, Lu.
            replace (length x + (k - length x)) with k by lia.
            assert (length w = length u + length v) by (rewrite E at 1; apply app_length).
            replace (k + length v) with (length x + length w) by lia. exact H2. }
          apply IH in Hv as (ws & L & -> & F). exists (u :: ws). cbn. rewrite L, E. auto.
        + intros ([|u ws] & L & -> & F); [discriminate|]. inversion_clear F. injection L as L.
          cbn [concat]. exists (length x + length u). split.
          * now apply (indexed_word_at b fl ct x u (concat ws) U S).
          * assert (Hv : exists ws', length ws' = c /\ concat ws = concat ws'
                          /\ Forall (is_word (r (index_captures b)) ct) ws') by eauto.
            apply (IH (x ++ u)) in Hv. rewrite <- app_assoc, app_length in Hv.
            replace (length x + length (u ++ concat ws)) with (length x + length u + length (concat ws))
              by (rewrite app_length; lia). exact Hv.
    Qed.
  End One.

  Lemma split_words b c : usable (r (index_captures b)) ct -> self_contained b = true ->
    usable (r (index_captures c)) ct -> self_contained c = true -> forall w,
    (exists k, matches cf w b 0 k /\ matches cf w c k (length w))
    <-> exists u v, w = u ++ v /\ is_word (r (index_captures b)) ct u /\ is_word (r (index_captures c)) ct v.
  Proof.
    intros Ub Sb Uc Sc w. split.
    - intros (k & H1 & H2). pose proof (matches_le _ _ _ _ _ H2) as L.
      assert (E : w = firstn k w ++ skipn k w) by (symmetry; apply firstn_skipn).
      assert (Lu : length (firstn k w) = k) by (rewrite firstn_length; lia).
      exists (firstn k w), (skipn k w). split; [exact E|]. split.
      + apply (indexed_word_at b fl ct [] (firstn k w) (skipn k w) Ub Sb). cbn [app length Nat.add].
        rewrite <- E, Lu. exact H1.
      + apply (indexed_word_at c fl ct (firstn k w) (skipn k w) [] Uc Sc). rewrite app_nil_r, <- E, Lu.
        rewrite skipn_length. replace (k + (length w - k)) with (length w) by lia. exact H2.
    - intros (u & v & -> & Hu & Hv). exists (length u). split.
      + exact (proj1 (indexed_word_at b fl ct [] u v Ub Sb) Hu).
      + apply (indexed_word_at c fl ct u v [] Uc Sc) in Hv. rewrite app_nil_r in Hv. now rewrite app_length.
  Qed.

  Theorem concatenated_patterns p q n m : parse p = P_ok n -> parse q = P_ok m ->
    usable (r n) ct -> self_contained n = true -> usable (r m) ct -> self_contained m = true ->
    exists a, parse (grouped p ++ grouped q) = P_ok a
      /\ (usable (r a) ct -> forall w,
           is_word (r a) ct w <-> exists u v, w = u ++ v /\ is_word (r n) ct u /\ is_word (r m) ct v)
      /\ (capture_count n = 0 -> capture_count m = 0 -> usable (r a) ct).
  Proof.
    intros Pp Pq Un Sn Um Sm.
    apply accepted_pattern in Pp as (b & Hb & ->). apply accepted_pattern in Pq as (c & Hc & ->).
    unfold index_captures in Sn, Sm. rewrite self_contained_index in Sn, Sm.
    exists (index_captures (cat b c)). split; [|split].
    - apply pattern_parses. eapply branch_body, b_items; [apply piece_item, wrap_piece, Hb|].
      rewrite <- (app_nil_r (grouped q)). eapply m_item; [apply piece_item, wrap_piece, Hc|exact I|constructor].
    - intros U w. rewrite <- (split_words b c Un Sn Um Sm w).
      etransitivity; [exact (indexed_word (cat b c) fl ct w U (contained_cat _ _ Sn Sm))|]. apply matches_cat.
    - unfold index_captures. rewrite !capture_count_index. intros C1 C2.
      unfold usable, runs in *. cbn [ast flags r] in *.
      assert (C : capture_count (cat b c) = 0).
      { unfold cat. apply sum_free. apply Forall_app. split; now apply free_count_parts. }
      unfold index_captures in *. rewrite index_free in *; auto.
      split; [apply compilable_cat; tauto|]. now apply contained_lines, contained_cat.
  Qed.

  Theorem alternative_patterns p q n m : parse p = P_ok n -> parse q = P_ok m ->
    usable (r n) ct -> self_contained n = true -> usable (r m) ct -> self_contained m = true ->
    exists a, parse (grouped p ++ str "|" ++ grouped q) = P_ok a
      /\ (usable (r a) ct -> forall w, is_word (r a) ct w <-> is_word (r n) ct w \/ is_word (r m) ct w)
      /\ (capture_count n = 0 -> capture_count m = 0 -> usable (r a) ct).
  Proof.
    intros Pp Pq Un Sn Um Sm.
    apply accepted_pattern in Pp as (b & Hb & ->). apply accepted_pattern in Pq as (c & Hc & ->).
    unfold index_captures in Sn, Sm. rewrite self_contained_index in Sn, Sm.
    exists (index_captures (or b c)). split; [|split].
    - apply pattern_parses. eapply y_branches.
      + rewrite <- (app_nil_r (grouped p)). eapply b_items; [apply piece_item, wrap_piece, Hb|constructor].
      + rewrite <- (app_nil_r (grouped q)). eapply o_branch; [|discriminate|constructor].
        rewrite <- (app_nil_r (grouped q)). eapply b_items; [apply piece_item, wrap_piece, Hc|constructor].
    - intros U w. etransitivity; [exact (indexed_word (or b c) fl ct w U (contained_or _ _ Sn Sm))|].
      rewrite (matches_or _ _ b c).
      pose proof (indexed_word b fl ct w Un Sn). pose proof (indexed_word c fl ct w Um Sm).
      fold cf in H, H0 |- *. unfold r. tauto.
    - unfold index_captures. rewrite !capture_count_index. intros C1 C2.
      unfold usable, runs in *. cbn [ast flags r] in *.
      assert (C : capture_count (or b c) = 0).
      { unfold or. apply sum_free. apply Forall_app. split; [now apply free_count_branches|]. now constructor. }
      unfold index_captures in *. rewrite index_free in *; auto.
      split; [apply compilable_or; tauto|]. now apply contained_lines, contained_or.
  Qed.

  Lemma compilable_Rep md lo hi b : compilable cf b = true -> (lo < 2 ^ 63)%N -> bound_ok lo hi ->
    compilable cf (Rep md lo hi b) = true.
  Proof.
    unfold compilable, bound_ok. intros H L B. cbn [size compiles].
    change (group_names (Rep md lo hi b)) with (group_names b).
    apply N.ltb_lt in L. destruct hi as [h|].
    - apply N.leb_le in B. now rewrite H, L, B, !orb_true_r.
    - now rewrite H, L, !orb_true_r.
  Qed.

  Theorem repeated_pattern p n q lo hi md : parse p = P_ok n ->
    usable (r n) ct -> self_contained n = true ->
    bounds q lo hi -> bound_ok lo hi -> (lo < 2 ^ 63)%N -> md <> Possessive ->
    exists a, parse (grouped p ++ q ++ mode_text md) = P_ok a /\ usable (r a) ct
      /\ forall w, is_word (r a) ct w
          <-> exists ws, allowed lo hi (length ws) /\ w = concat ws /\ Forall (is_word (r n) ct) ws.
  Proof.
    intros Pp Un Sn Hq B L Hm.
    apply accepted_pattern in Pp as (b & Hb & ->).
    unfold index_captures in Sn. rewrite self_contained_index in Sn.
    assert (Sr : self_contained (Rep md lo hi b) = true) by (now destruct md).
    assert (U : usable (r (index_captures (Rep md lo hi b))) ct).
    { split; [apply (compilable_Rep md lo hi (index_captures b)); [apply Un|exact L|exact B]|].
      apply contained_lines. cbn [ast r]. unfold index_captures. now rewrite self_contained_index. }
    exists (index_captures (Rep md lo hi b)). split; [|split; [exact U|]].
    - apply pattern_parses. eapply branch_body. rewrite <- (app_nil_r (grouped p ++ _)).
      eapply b_items; [|constructor]. eapply i_unit; [apply wrap_piece, Hb|]. now apply q_rep.
    - intros w. etransitivity; [exact (indexed_word (Rep md lo hi b) fl ct w U Sr)|].
      rewrite mt_rep. split.
      + intros (c & Ha & Hc). apply (iterated_words b Un Sn c [] w) in Hc as (ws & <- & H). eauto.
      + intros (ws & Ha & H). exists (length ws). split; [exact Ha|].
        apply (iterated_words b Un Sn (length ws) [] w). eauto.
  Qed.

  Theorem captured_pattern p n : parse p = P_ok n ->
    usable (r n) ct -> self_contained n = true ->
    exists a, parse (str "(" ++ p ++ str ")") = P_ok a
      /\ (usable (r a) ct -> forall w, is_word (r a) ct w <-> is_word (r n) ct w).
  Proof.
    intros Pp Un Sn. apply accepted_pattern in Pp as (b & Hb & ->).
    unfold index_captures in Sn. rewrite self_contained_index in Sn.
    exists (index_captures (Cap 0 None b)). split.
    - apply pattern_parses. eapply branch_body. rewrite <- (app_nil_r (str "(" ++ _)).
      eapply b_items; [|constructor]. apply piece_item. exact (u_group [] _ p b open_capture Hb).
    - intros U w. etransitivity; [exact (indexed_word (Cap 0 None b) fl ct w U Sn)|].
      symmetry. exact (indexed_word b fl ct w Un Sn).
  Qed.
End Compose.
