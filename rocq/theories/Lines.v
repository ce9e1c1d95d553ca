(** Listing the lines of a text that match a pattern (C81). *)
From Verif Require Import Matcher Api Parser Basics Safe Cong Impl Spec Paths Calls Lift Matching
  Syntax Typing Shape Reading Accepted Print Expressions Actual Laws Compose
  Uniform Generators Scans Records Contained Surrounded.
From Coq Require Import Lia.

(** ** Lines *)

(** The first line and, for each further one, the character in front of it. *)
Definition lines_text (x : text) (more : list (ascii * text)) : text :=
  x ++ flat_map (fun l => fst l :: snd l) more.

Definition one_line (u : text) : Prop := forall c, In c u -> ~ breaks_line c.

(** A text is divided at every character that ends a line. *)
Definition divided (x : text) (more : list (ascii * text)) : Prop :=
  one_line x /\ Forall (fun l => breaks_line (fst l) /\ one_line (snd l)) more.

(** The places of the lines that are words, up to the first empty one; the first
    line begins at [i]. *)
Inductive listed (word : text -> Prop) : nat -> list text -> list (nat * nat) -> Prop :=
| l_end i : listed word i [] []
| l_other i u rest l : ~ word u -> listed word (S (i + length u)) rest l -> listed word i (u :: rest) l
| l_empty i rest : word [] -> listed word i ([] :: rest) [(i, i)]
| l_line i u rest l : word u -> u <> [] -> listed word (S (i + length u)) rest l ->
    listed word i (u :: rest) ((i, i + length u) :: l).

Lemma listed_unique word i ls l l' : listed word i ls l -> listed word i ls l' -> l = l'.
Proof.
  intros H. revert l'. induction H as [i|i u rest l H _ IH|i rest H|i u rest l H H0 _ IH]; intros l' H';
    inversion H'; subst; auto; try contradiction; try congruence. f_equal. auto.
Qed.

(** Two ways to cut at the first character that ends a line. *)
Lemma first_line u y u' y' : one_line u -> one_line u' ->
  (y = [] \/ exists c z, y = c :: z /\ breaks_line c) ->
  (y' = [] \/ exists c z, y' = c :: z /\ breaks_line c) ->
  u ++ y = u' ++ y' -> u = u'.
Proof.
  revert u'. induction u as [|a u IH]; intros [|b u'] H1 H2 Y Y' E; cbn in E.
  - reflexivity.
  - destruct Y as [->|(c & z & -> & B)]; [discriminate|]. injection E as -> _.
    destruct (H2 b (or_introl eq_refl) B).
  - destruct Y' as [->|(c & z & -> & B)]; [discriminate|]. injection E as -> _.
    destruct (H1 c (or_introl eq_refl) B).
  - injection E as -> E. f_equal. apply IH; auto; intros c Hc; [apply H1|apply H2]; now right.
Qed.

Section Lines.
  Variable word : text -> Prop.
  Variable s : text.
  Variable from : nat -> option (option nat).
  Hypothesis word_dec : forall u, word u \/ ~ word u.
  Hypothesis word_line : forall u, word u -> one_line u.

  (** Where the pattern matches. *)
  Definition whole (x u y : text) : Prop :=
    s = x ++ u ++ y /\ word u /\ (x = [] \/ exists x' c, x = x' ++ [c] /\ breaks_line c)
    /\ (y = [] \/ exists c z, y = c :: z /\ breaks_line c).

  Hypothesis from_some : forall i e, i <= length s -> from i = Some (Some e) ->
    exists x u y, whole x u y /\ i = length x /\ e = length x + length u.
  Hypothesis from_whole : forall x u y, whole x u y -> exists e, from (length x) = Some (Some e).
  Hypothesis from_known : forall i, i <= length s -> from i <> None.

  Section Here.
    Variables before x rest : text.
    Hypothesis Hs : s = before ++ x ++ rest.
    Hypothesis Hb : before = [] \/ exists z c, before = z ++ [c] /\ breaks_line c.
    Hypothesis Hx : one_line x.
    Hypothesis Hr : rest = [] \/ exists c z, rest = c :: z /\ breaks_line c.

    Lemma here_length : length before + length x <= length s.
    Proof using Hs. rewrite Hs, !app_length. lia. Qed.

    Lemma line_here i e : length before <= i <= length before + length x -> from i = Some (Some e) ->
      i = length before /\ e = length before + length x /\ word x.
    Proof using All.
      intros Hi E. pose proof here_length as Hl.
      destruct (from_some i e) as (x' & u & y & (Es & Hw & H1 & H2) & -> & ->); [lia|exact E|].
      assert (El : length x' = length before).
      { destruct (Nat.eq_dec (length x') (length before)) as [Q|Q]; [exact Q|exfalso].
        destruct H1 as [->|(z & c & -> & B)]; [cbn in *; lia|].
        rewrite app_length in Hi, Q. cbn [length] in Hi, Q.
        assert (N : nth_error s (length z) = Some c).
        { rewrite Es, <- app_assoc, nth_error_app2, Nat.sub_diag by lia. reflexivity. }
        rewrite Hs, nth_error_app2, nth_error_app1 in N by lia.
        apply nth_error_In in N. exact (Hx c N B). }
      assert (Ep : x' = before /\ u ++ y = x ++ rest).
      { rewrite Hs in Es. clear - Es El. revert before Es El.
        induction x' as [|a x' IH]; intros [|b before] Es El; try discriminate; cbn in *.
        - now split.
        - injection Es as -> Es. injection El as El. destruct (IH before Es El) as [-> ?]. now split. }
      destruct Ep as [-> Eu]. assert (u = x) as -> by (apply (first_line u y x rest); auto).
      now split.
    Qed.

    Lemma not_here i : length before <= i <= length before + length x ->
      (word x -> length before < i) -> from i = Some None.
    Proof using All.
      intros Hi Hw. pose proof here_length as Hl.
      destruct (from i) as [[e|]|] eqn:E; [exfalso|reflexivity|exfalso].
      - destruct (line_here i e Hi E) as (-> & _ & W). specialize (Hw W). lia.
      - apply (from_known i); [lia|exact E].
    Qed.

    Lemma word_here : word x -> from (length before) = Some (Some (length before + length x)).
    Proof using All.
      intros W. destruct (from_whole before x rest) as (e & E); [now repeat split|].
      destruct (line_here _ e (conj (le_n _) (Nat.le_add_r _ _)) E) as (_ & -> & _). exact E.
    Qed.
  End Here.

  Theorem lines_scan more : forall before x,
    s = before ++ lines_text x more ->
    (before = [] \/ exists z c, before = z ++ [c] /\ breaks_line c) -> divided x more ->
    exists l, listed word (length before) (x :: map snd more) l
      /\ leftmost_scan from (length s) (length before) l.
  Proof using All.
    induction more as [|[c x1] more IH]; intros before x Hs Hb [Hx Hm].
    - unfold lines_text in Hs. cbn [flat_map] in Hs.
      pose proof (not_here before x [] Hs Hb Hx (or_introl eq_refl)) as N.
      pose proof (word_here before x [] Hs Hb Hx (or_introl eq_refl)) as W.
      assert (Hl : length s = length before + length x) by (rewrite Hs, !app_length; cbn; lia).
      cbn [map]. destruct (word_dec x) as [Wx|Wx].
      + destruct x as [|a x].
        * exists [(length before, length before)]. split; [now constructor|].
          apply ls_empty. split; [lia|]. split; [rewrite (W Wx); f_equal; f_equal; cbn; lia|intros; lia].
        * exists [(length before, length before + length (a :: x))].
          split; [constructor; [exact Wx|discriminate|constructor]|].
          eapply ls_more; [|cbn [length] in *; lia|apply ls_none; intros i Hi; apply N; cbn [length] in *; lia].
          split; [lia|]. split; [now apply W|intros; lia].
      + exists []. split; [constructor; [exact Wx|constructor]|].
        apply ls_none. intros i Hi. apply N; [lia|contradiction].
    - inversion_clear Hm. destruct H as [Bc Hx1]. cbn [fst snd] in *.
      assert (Hs' : s = before ++ x ++ c :: lines_text x1 more) by (rewrite Hs; reflexivity).
      assert (Hr : c :: lines_text x1 more = [] \/ exists c' z, c :: lines_text x1 more = c' :: z /\ breaks_line c')
        by (right; eauto).
      pose proof (not_here before x _ Hs' Hb Hx Hr) as N.
      pose proof (word_here before x _ Hs' Hb Hx Hr) as W.
      destruct (IH (before ++ x ++ [c]) x1) as (l & L1 & L2).
      { rewrite Hs', <- !app_assoc. reflexivity. }
      { right. exists (before ++ x), c. now rewrite app_assoc. }
      { now split. }
      assert (Hl : length (before ++ x ++ [c]) = S (length before + length x)) by (rewrite !app_length; cbn; lia).
      rewrite Hl in *.
      assert (Hle : S (length before + length x) <= length s) by (rewrite Hs', !app_length; cbn; lia).
      cbn [map]. destruct (word_dec x) as [Wx|Wx].
      + destruct x as [|a x].
        * exists [(length before, length before)]. split; [now constructor|].
          apply ls_empty. split; [lia|]. split; [rewrite (W Wx); f_equal; f_equal; cbn; lia|intros; lia].
        * exists ((length before, length before + length (a :: x)) :: l).
          split; [constructor; [exact Wx|discriminate|exact L1]|].
          eapply ls_more; [split; [|split; [now apply W|intros; lia]]| |]; [lia|cbn [length] in *; lia|].
          eapply scan_earlier; [| |exact L2]; [lia|].
          intros i Hi. apply N; cbn [length] in *; lia.
      + exists l. split; [now constructor|].
        eapply scan_earlier; [| |exact L2]; [lia|].
        intros i Hi. apply N; [lia|contradiction].
  Qed.
End Lines.

Theorem lists_lines fl ct p n : parse p = P_ok n -> usable (mk_regex n fl) ct -> self_contained n = true ->
  In F_multiline fl -> (forall u, is_word (mk_regex n fl) ct u -> one_line u) ->
  exists a, parse (str "^(?:" ++ p ++ str ")$") = P_ok a
    /\ (usable (mk_regex a fl) ct -> forall x more, divided x more ->
          exists l, finds (mk_regex a fl) ct (lines_text x more) l
            /\ listed (is_word (mk_regex n fl) ct) 0 (x :: map snd more) l).
Proof.
  intros P U Sn F Hone. apply accepted_pattern in P as (b & Hb & ->).
  unfold index_captures in Sn. rewrite self_contained_index in Sn.
  assert (T1 : Forall2 demand_tree [LineStart] [BeginLine]) by repeat constructor.
  assert (T2 : Forall2 demand_tree [LineEnd] [EndLine]) by repeat constructor.
  assert (S1 : Forall (sound_demand fl ct) [LineStart]) by repeat constructor.
  assert (S2 : Forall (sound_demand fl ct) [LineEnd]) by repeat constructor.
  set (t := around b [BeginLine] [EndLine]).
  exists (index_captures t). split.
  { pose proof (pattern_parses _ _ (around_body [LineStart] [LineEnd] p b _ _ T1 T2 Hb)) as Pa.
    fold t in Pa. rewrite <- Pa. f_equal. unfold surrounded_text, grouped. cbn. now rewrite <- app_assoc. }
  intros Ua x more D.
  destruct (around_regular [LineStart] [LineEnd] b _ _ Sn T1 T2) as [Hr Hp]. fold t in Hr, Hp.
  set (s := lines_text x more). set (cf := config_of fl ct) in *.
  assert (W : well_formed (index_captures t) = true) by (destruct Ua as [Hc _]; eapply compiles_well_formed; exact Hc).
  set (word := is_word (mk_regex (index_captures b) fl) ct) in *.
  assert (M : forall i j, i <= length s -> (In j (paths cf s (index_captures t) i)
            <-> exists x u y, whole word s x u y /\ length x = i /\ length x + length u = j)).
  { intros i j Hi. rewrite in_paths by auto. unfold index_captures at 1. rewrite matches_index.
    pose proof (around_found fl ct [LineStart] [LineEnd] b _ _ U Sn S1 S2 T1 T2 s i j Hi) as G.
    fold cf t in G. rewrite G. clear G.
    unfold whole. split.
    - intros (x' & u & y & Es & H1 & H2 & Hw & D1 & D2). inversion_clear D1. inversion_clear D2. cbn [holds] in *.
      exists x', u, y. repeat split; try tauto.
    - intros (x' & u & y & (Es & Hw & D1 & D2) & H1 & H2). exists x', u, y. repeat split; auto;
        (constructor; [|constructor]); cbn [holds]; tauto. }
  assert (From : forall i, i <= length s -> prefix_from cf (index_captures t) s i = Some (preferred cf s (index_captures t) i)).
  { intros i Hi. unfold prefix_from.
    pose proof (match_prefix_method_paths cf (index_captures t) s Ua Hr i _ Hi (initial_length _)) as H.
    destruct (match_prefix_method cf (index_captures t) s i (initial_captures (index_captures t))); try contradiction.
    cbn in *. destruct H as (_ & _ & ->). reflexivity. }
  destruct (lines_scan word s (prefix_from cf (index_captures t) s)) with (more := more) (before := @nil ascii) (x := x)
    as (l & L1 & L2); auto.
  - intros u. unfold word, is_word.
    destruct (regex_match (mk_regex (index_captures b) fl) ct u) as [a| | |];
      try (right; intros (a & E & _); discriminate).
    destruct (matched a) eqn:E; [left; eauto|right]. intros (a' & E1 & E2). congruence.
  - intros i e Hi E. rewrite From in E by exact Hi. injection E as E. apply preferred_in in E.
    apply (M i e Hi) in E as (x' & u & y & Hw & <- & <-). exists x', u, y. auto.
  - intros x' u y Hw. assert (Hi : length x' <= length s) by (rewrite (proj1 Hw), app_length; lia).
    rewrite From by exact Hi.
    assert (Hin : In (length x' + length u) (paths cf s (index_captures t) (length x'))) by (apply M; eauto 8).
    apply in_preferred in Hin. destruct (preferred cf s (index_captures t) (length x')); [eauto|contradiction].
  - intros i Hi E. rewrite From in E by exact Hi. discriminate.
  - exists l. split; [|exact L1].
    assert (Hf : backref_free (index_captures t) = true).
    { unfold regular in Hr. now apply andb_prop in Hr as [[? ?]%andb_prop ?]. }
    destruct (find_all_scan (mk_regex (index_captures t) fl) ct s Ua Hf) as (f & E & Hm & bnd & B & Sb).
    exists f. split; [exact E|]. split; [exact Hm|]. rewrite B. f_equal.
    exact (scan_unique _ _ _ _ Sb _ L2).
Qed.

(** ** Patterns that stay on a line *)

(** No character read is [sep]. *)
Definition avoids (sep : ascii) (s : text) (i j : nat) : Prop :=
  i <= j /\ forall k, i <= k < j -> nth_error s k <> Some sep.

Lemma avoids_nothing sep s i : avoids sep s i i.
Proof. split; [lia|]. intros k Hk. lia. Qed.

Lemma avoids_both sep s i j k : avoids sep s i j -> avoids sep s j k -> avoids sep s i k.
Proof.
  intros [H1 H2] [H3 H4]. split; [lia|]. intros q Hq.
  destruct (Nat.lt_ge_cases q j); [apply H2|apply H4]; lia.
Qed.

Lemma avoids_one sep s p i : p sep = false -> char_at s p i = true -> avoids sep s i (S i).
Proof.
  intros Hp H. split; [lia|]. intros k Hk. replace k with i by lia. unfold char_at in H.
  intros E. rewrite E in H. congruence.
Qed.

Lemma stays_avoids cf sep s n : stays_between cf sep n = true -> forall i j,
  matches cf s n i j -> avoids sep s i j.
Proof.
  induction n using node_ind'; intros Hn i j Hm; cbn [stays_between] in Hn; try discriminate;
    try (cbn [matches] in Hm; subst; apply avoids_nothing);
    try (cbn [matches] in Hm; destruct Hm as [-> _]; apply avoids_nothing);
    try (cbn [matches] in Hm; destruct Hm as [-> Hc]; apply (avoids_one sep s _ i (proj1 (negb_true_iff _) Hn) Hc)).
  - cbn [matches] in Hm. destruct (is_class n) eqn:C.
    + destruct Hm as [-> Hc]. apply (avoids_one sep s _ i) in Hc; [exact Hc|]. cbn [accepts]. now rewrite Hn.
    + destruct Hm as [-> _]. apply avoids_nothing.
  - revert i Hm. induction H as [|x l Hx _ IH]; intros i Hm.
    + cbn in Hm. subst. apply avoids_nothing.
    + cbn [forallb] in Hn. apply andb_prop in Hn as [H1 H2].
      apply (proj1 (mt_seq_cons _ _ _ _ _ _)) in Hm as (k & M1 & M2).
      eapply avoids_both; [apply (Hx H1), M1|apply (IH H2), M2].
  - cbn [matches] in Hm. induction H as [|x l Hx _ IH]; [contradiction|].
    cbn [forallb] in Hn. apply andb_prop in Hn as [H1 H2]. destruct Hm as [Hm|Hm]; auto.
  - cbn [matches] in Hm. auto.
  - cbn [matches] in Hm. destruct Hm as (q & _ & Hm). revert i Hm.
    induction q as [|q IH]; intros i Hm; cbn in Hm.
    + subst. apply avoids_nothing.
    + destruct Hm as (k & M1 & M2). eapply avoids_both; [apply (IHn Hn), M1|apply IH, M2].
  - cbn [matches] in Hm. destruct d; destruct Hm as [-> _]; apply avoids_nothing.
Qed.

Theorem stays_on_line n fl ct : usable (mk_regex n fl) ct -> self_contained n = true ->
  stays_between (config_of fl ct) "010" n = true -> stays_between (config_of fl ct) "013" n = true ->
  forall u, is_word (mk_regex n fl) ct u -> one_line u.
Proof.
  intros U S H1 H2 u W c Hc B. apply (proj1 (is_word_matches _ ct u U S)) in W. cbn [ast flags] in W.
  apply In_nth_error in Hc as [k Hk]. assert (k < length u) by (apply nth_error_Some; congruence).
  destruct B as [-> | ->]; [apply stays_avoids with (sep := "010"%char) in W as [_ W]
                            |apply stays_avoids with (sep := "013"%char) in W as [_ W]]; auto;
    apply (W k); auto; lia.
Qed.
