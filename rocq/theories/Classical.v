(** Regular expressions in the classical sense, written as patterns (C58). *)
From Verif Require Import Matcher Api Parser Basics Safe Spec Paths Adequacy Calls Matching Syntax Typing Shape Scan Reading Accepted Print
  Compile Expressions Parsed Lift.
From Coq Require Import Lia.

(** ** Classical regular expressions and their languages *)

Inductive re :=
| Nothing
| Epsilon
| Symbol (a : ascii)
| Concat (x y : re)
| Union (x y : re)
| Star (x : re).

Inductive lang : re -> text -> Prop :=
| lang_eps : lang Epsilon []
| lang_symbol a : lang (Symbol a) [a]
| lang_concat x y u v : lang x u -> lang y v -> lang (Concat x y) (u ++ v)
| lang_left x y u : lang x u -> lang (Union x y) u
| lang_right x y u : lang y u -> lang (Union x y) u
| lang_stop x : lang (Star x) []
| lang_go x u v : lang x u -> lang (Star x) v -> lang (Star x) (u ++ v).

(** Texts that are equal, or equal up to the case of letters. *)
Definition same_letter (ic : bool) (a b : ascii) : Prop := b = a \/ (ic = true /\ b = other_case a).
Definition like (ic : bool) (u v : text) : Prop := Forall2 (same_letter ic) u v.

(** As patterns: special characters behind a backslash, the operands in
    brackets. *)
Definition bracketed (t : text) : text := str "(?:" ++ t ++ str ")".

Fixpoint written (e : re) : text :=
  match e with
  | Nothing => str "[]"
  | Epsilon => []
  | Symbol a => if existsb (Ascii.eqb a) (str "\[(){|*+?.^$") then ["\"%char; a] else [a]
  | Concat x y => bracketed (written x) ++ bracketed (written y)
  | Union x y => bracketed (written x) ++ str "|" ++ bracketed (written y)
  | Star x => bracketed (written x) ++ str "*"
  end.

(** ** The trees *)

Fixpoint as_tree (e : re) : node :=
  match e with
  | Nothing => CSet []
  | Epsilon => Empty
  | Symbol a => Lit a
  | Concat x y => cat (as_tree x) (as_tree y)
  | Union x y => or (as_tree x) (as_tree y)
  | Star x => Rep Greedy 0 Inf (as_tree x)
  end.

Lemma written_body e : body (written e) (as_tree e).
Proof.
  assert (G : forall t n, body t n -> piece Anything (bracketed t) n).
  { intros t n H. exact (u_group (str "?:") (fun n => n) t n open_plain H). }
  induction e; cbn [written as_tree].
  - apply (branch_body Anything), (b_items Anything (str "[]") (CSet []) []); [|constructor].
    apply piece_item. apply (u_set [] []); [discriminate|constructor].
  - constructor.
  - destruct (existsb (Ascii.eqb a) (str "\[(){|*+?.^$")) eqn:E.
    + apply (branch_body Anything), (b_items Anything ["\"%char; a] (Lit a) []); [|constructor].
      apply piece_item, u_escape, ce_self. revert E. clear. sweep a.
    + apply (branch_body Anything), (b_items Anything [a] (Lit a) []); [|constructor].
      apply piece_item, u_char. unfold ordinary, among. now rewrite E.
  - eapply branch_body, b_items; [apply piece_item, G, IHe1|].
    rewrite <- (app_nil_r (bracketed (written e2))). eapply m_item; [apply piece_item, G, IHe2|exact I|constructor].
  - eapply y_branches.
    + rewrite <- (app_nil_r (bracketed (written e1))). eapply b_items; [apply piece_item, G, IHe1|constructor].
    + rewrite <- (app_nil_r (bracketed (written e2))). eapply o_branch; [|discriminate|constructor].
      rewrite <- (app_nil_r (bracketed (written e2))). eapply b_items; [apply piece_item, G, IHe2|constructor].
  - eapply branch_body. rewrite <- (app_nil_r (_ ++ str "*")). eapply b_items; [|constructor].
    eapply i_unit; [apply G, IHe|]. apply (q_rep Anything _ (str "*") 0 Inf Greedy). constructor.
Qed.

(** The nodes that occur. *)
Fixpoint simple (n : node) : bool :=
  match n with
  | Empty | Lit _ => true
  | CSet l => Nat.eqb (length l) 0
  | Seq l | Alt l => negb (Nat.eqb (length l) 0) && forallb simple l
  | Rep md lo hi x => match md, hi with Greedy, Inf => N.eqb lo 0 && simple x | _, _ => false end
  | _ => false
  end.

Lemma simple_parts n : simple n = true -> length (parts n) <> 0 /\ forallb simple (parts n) = true.
Proof.
  intros H. destruct n; cbn [parts length forallb] in *; try (split; [lia|rewrite H; reflexivity]).
  cbn [simple] in H. apply andb_true_iff in H. destruct H as [A B]. split; [|exact B].
  intros E. rewrite E in A. discriminate A.
Qed.

Lemma simple_branches n : simple n = true -> length (branches n) <> 0 /\ forallb simple (branches n) = true.
Proof.
  intros H. destruct n; cbn [branches length forallb] in *; try (split; [lia|rewrite H; reflexivity]).
  cbn [simple] in H. apply andb_true_iff in H. destruct H as [A B]. split; [|exact B].
  intros E. rewrite E in A. discriminate A.
Qed.

Lemma tree_simple e : simple (as_tree e) = true.
Proof.
  induction e; cbn [as_tree]; try reflexivity.
  - destruct (simple_parts _ IHe1) as [A B], (simple_parts _ IHe2) as [C D]. unfold cat. cbn [simple].
    rewrite app_length, forallb_app, B, D.
    destruct (Nat.eqb_spec (length (parts (as_tree e1)) + length (parts (as_tree e2))) 0); [lia|reflexivity].
  - destruct (simple_branches _ IHe1) as [A B]. unfold or. cbn [simple].
    rewrite app_length, forallb_app, B. cbn [forallb length]. rewrite IHe2.
    destruct (Nat.eqb_spec (length (branches (as_tree e1)) + 1) 0); [lia|reflexivity].
  - exact IHe.
Qed.

Lemma simple_list (P : node -> bool) l : Forall (fun n => simple n = true -> P n = true) l ->
  forallb simple l = true -> forallb P l = true.
Proof. induction 1 as [|x r Hx Hr IH]; cbn; auto. rewrite !andb_true_iff. intros [A B]. auto. Qed.

Lemma simple_is n : simple n = true ->
  backref_free n = true /\ possessive_ok n = true /\ lookbehind_ok n = true /\ possessive_free n = true
  /\ has_begin_line n = false /\ capture_count n = 0.
Proof.
  induction n using node_ind'; cbn [simple]; try discriminate; intros S; try (repeat split; reflexivity).
  - destruct l; [|discriminate S]. repeat split; reflexivity.
  - apply andb_true_iff in S. destruct S as [_ S].
    assert (Q : Forall (fun n => backref_free n = true /\ possessive_ok n = true /\ lookbehind_ok n = true
      /\ possessive_free n = true /\ has_begin_line n = false /\ capture_count n = 0) l).
    { rewrite forallb_forall in S. rewrite Forall_forall in *. auto. }
    cbn [backref_free possessive_ok lookbehind_ok possessive_free has_begin_line capture_count].
    clear - Q. induction Q as [|x r (A & B & C & D & E & F) _ (A' & B' & C' & D' & E' & F')]; [repeat split; reflexivity|].
    cbn. rewrite A, B, C, D, E. cbn in F'. repeat split; auto. unfold list_sum in F'. rewrite F. exact F'.
  - apply andb_true_iff in S. destruct S as [_ S].
    assert (Q : Forall (fun n => backref_free n = true /\ possessive_ok n = true /\ lookbehind_ok n = true
      /\ possessive_free n = true /\ has_begin_line n = false /\ capture_count n = 0) l).
    { rewrite forallb_forall in S. rewrite Forall_forall in *. auto. }
    cbn [backref_free possessive_ok lookbehind_ok possessive_free has_begin_line capture_count].
    clear - Q. induction Q as [|x r (A & B & C & D & E & F) _ (A' & B' & C' & D' & E' & F')]; [repeat split; reflexivity|].
    cbn. rewrite A, B, C, D, E. cbn in F'. repeat split; auto. unfold list_sum in F'. rewrite F. exact F'.
  - destruct md; try discriminate S. destruct hi; [discriminate S|]. apply andb_true_iff in S. destruct S as [_ S].
    exact (IHn S).
Qed.

Lemma part_simple k rev n k' rev' x : part k rev n k' rev' x -> simple n = true -> simple x = true.
Proof.
  induction 1; cbn [simple]; auto; try discriminate.
  - destruct l; [destruct H|discriminate].
  - rewrite andb_true_iff, forallb_forall. intros [_ A]. auto.
  - rewrite andb_true_iff, forallb_forall. intros [_ A]. auto.
  - destruct md; try discriminate. destruct hi; [discriminate|]. rewrite andb_true_iff. intros [_ A]. auto.
Qed.

Lemma written_parses e : parse (written e) = P_ok (as_tree e).
Proof.
  apply parse_is_grammar. exists (as_tree e). split; [apply written_body|].
  symmetry. apply index_free. apply simple_is, tree_simple.
Qed.

Lemma tree_usable e fl ct : usable (mk_regex (as_tree e) fl) ct.
Proof.
  split.
  - apply (compiles_exactly _ _ _ (written_parses e)). intros k rev x P.
    pose proof (part_simple _ _ _ _ _ _ P (tree_simple e)) as S.
    destruct x; try discriminate S; try exact I. cbn [simple] in S. destruct mode; try discriminate S.
    destruct hi; [discriminate S|]. apply andb_true_iff in S. destruct S as [S _]. apply N.eqb_eq in S. subst.
    split; [exact I|reflexivity].
  - right. right. apply simple_is, tree_simple.
Qed.

(** ** The language *)

Section Language.
  Variable cf : config.
  Variable s : list ascii.
  Local Notation ic := (icase cf).
  Local Notation mt := (matches cf s).

  (** The text [u] is at the offset [i]. *)
  Definition found (i : nat) (u : text) : Prop := exists v r, skipn i s = v ++ r /\ like ic u v.

  Lemma skipn_twice (l : list ascii) : forall i k, skipn (i + k) l = skipn k (skipn i l).
  Proof. induction l as [|a l IH]; intros [|i] k; cbn; auto. now rewrite skipn_nil. Qed.

  Lemma like_length b u v : like b u v -> length u = length v.
  Proof. induction 1; cbn; congruence. Qed.

  Lemma found_app i u v : found i (u ++ v) <-> found i u /\ found (i + length u) v.
  Proof.
    unfold found. split.
    - intros (w & r & E & L). unfold like in L. apply Forall2_app_inv_l in L. destruct L as (u' & v' & L1 & L2 & ->).
      split; [exists u', (v' ++ r); now rewrite E, app_assoc|]. exists v', r. split; [|exact L2].
      rewrite skipn_twice, E, <- app_assoc, (like_length _ _ _ L1), skipn_app, skipn_all, Nat.sub_diag. reflexivity.
    - intros [(u' & r & E & L1) (v' & r' & E' & L2)]. exists (u' ++ v'), r'. split; [|now apply Forall2_app].
      rewrite E, <- app_assoc. f_equal.
      rewrite skipn_twice, E, (like_length _ _ _ L1), skipn_app, skipn_all, Nat.sub_diag in E'. exact E'.
  Qed.

  Lemma found_nil i : found i [].
  Proof. exists [], (skipn i s). split; [reflexivity|constructor]. Qed.

  Lemma head_skipn b i : (exists r, skipn i s = b :: r) <-> nth_error s i = Some b.
  Proof.
    revert i. induction s as [|a l IH]; intros [|i]; cbn.
    - split; [intros [r [=]]|discriminate].
    - split; [intros [r [=]]|discriminate].
    - split; [intros [r' [=]]; now subst|intros [=]; subst; now exists l].
    - apply IH.
  Qed.

  Lemma found_one i a : found i [a] <-> char_at s (accepts cf (Lit a)) i = true.
  Proof.
    assert (S : forall b, same_letter ic a b <-> accepts cf (Lit a) b = true).
    { intros b. cbn [accepts]. unfold same_letter, either_case. rewrite orb_true_iff, andb_true_iff, !Ascii.eqb_eq.
      assert (O : forall x, other_case (other_case x) = x)
        by (intros x; destruct x as [[] [] [] [] [] [] [] []]; vm_compute; reflexivity).
      split; intros [E|[H E]]; auto; right; split; auto; rewrite E, O; reflexivity. }
    unfold found, char_at. split.
    - intros (v & r & E & L). inversion L as [|x b l l' L1 L2]; subst. inversion L2; subst.
      assert (N : nth_error s i = Some b) by (apply head_skipn; now exists r). rewrite N. now apply S.
    - destruct (nth_error s i) as [b|] eqn:E; [|discriminate]. intros H. apply head_skipn in E. destruct E as [r E].
      exists [b], r. split; [exact E|]. constructor; [now apply S|constructor].
  Qed.

  Lemma matches_Seq_app l1 : forall l2 i j, mt (Seq (l1 ++ l2)) i j <-> exists k, mt (Seq l1) i k /\ mt (Seq l2) k j.
  Proof.
    induction l1 as [|x r IH]; intros l2 i j.
    - split; [intros H; exists i; now split|]. now intros (k & <- & H).
    - change (mt (Seq ((x :: r) ++ l2)) i j) with (exists k, mt x i k /\ mt (Seq (r ++ l2)) k j).
      split.
      + intros (k & A & B). apply IH in B. destruct B as (k' & B & C). exists k'. split; [now exists k|exact C].
      + intros (k & (k' & A & B) & C). exists k'. split; [exact A|]. apply IH. now exists k.
  Qed.

  Lemma matches_parts n i j : mt (Seq (parts n)) i j <-> mt n i j.
  Proof.
    assert (O : forall n i j, mt (Seq [n]) i j <-> mt n i j).
    { clear. intros n i j. change (mt (Seq [n]) i j) with (exists k, mt n i k /\ k = j).
      split; [now intros (k & H & <-)|intros H; now exists j]. }
    destruct n; try apply O. reflexivity.
  Qed.

  Lemma matches_Alt_app l1 l2 i j : mt (Alt (l1 ++ l2)) i j <-> mt (Alt l1) i j \/ mt (Alt l2) i j.
  Proof.
    induction l1 as [|x r IH]; [cbn [app]; split; [now right|intros [[]|H]; exact H]|].
    change (mt (Alt ((x :: r) ++ l2)) i j) with (mt x i j \/ mt (Alt (r ++ l2)) i j).
    change (mt (Alt (x :: r)) i j) with (mt x i j \/ mt (Alt r) i j). rewrite IH. tauto.
  Qed.

  Lemma matches_branches n i j : mt (Alt (branches n)) i j <-> mt n i j.
  Proof.
    assert (O : forall n i j, mt (Alt [n]) i j <-> mt n i j).
    { clear. intros n i j. change (mt (Alt [n]) i j) with (mt n i j \/ False). tauto. }
    destruct n; try apply O. reflexivity.
  Qed.

  Lemma language e : forall i j, mt (as_tree e) i j <-> exists u, lang e u /\ found i u /\ j = i + length u.
  Proof.
    induction e; intros i j; cbn [as_tree].
    - cbn. unfold char_at. split.
      + intros [_ H]. destruct (nth_error s i); discriminate H.
      + intros (u & H & _). inversion H.
    - split.
      + intros <-. exists []. split; [constructor|]. split; [apply found_nil|cbn; lia].
      + intros (u & H & _ & ->). inversion H. cbn. lia.
    - change (mt (Lit a) i j) with (j = S i /\ char_at s (accepts cf (Lit a)) i = true). rewrite <- found_one. split.
      + intros [-> H]. exists [a]. split; [constructor|]. split; [exact H|cbn; lia].
      + intros (u & H & F & ->). inversion H. subst. split; [cbn; lia|exact F].
    - unfold cat. rewrite matches_Seq_app. setoid_rewrite matches_parts. setoid_rewrite IHe1. setoid_rewrite IHe2. split.
      + intros (k & (u & A & B & ->) & (v & C & D & ->)). exists (u ++ v). split; [now constructor|].
        split; [apply found_app; auto|rewrite app_length; lia].
      + intros (w & H & F & ->). inversion H as [| |x y u v H1 H2| | | |]. subst. apply found_app in F. destruct F as [F1 F2].
        exists (i + length u). split; [now exists u|]. exists v. repeat split; auto. rewrite app_length. lia.
    - unfold or. rewrite matches_Alt_app, matches_branches. change (mt (Alt [as_tree e2]) i j) with (mt (as_tree e2) i j \/ False).
      rewrite IHe1, IHe2. split.
      + intros [(u & A & B)|[(u & A & B)|[]]]; exists u; (split; [|exact B]); [now apply lang_left|now apply lang_right].
      + intros (u & H & B). inversion H; subst; [left; now exists u|right; left; now exists u].
    - change (mt (Rep Greedy 0 Inf (as_tree e)) i j) with (exists n, allowed 0 Inf n /\ iterate (mt (as_tree e)) n i j). split.
      + intros (n & _ & H). revert i H. induction n as [|n IH]; intros i.
        * intros <-. exists []. split; [constructor|]. split; [apply found_nil|cbn; lia].
        * intros (k & H1 & H2). apply IHe in H1. destruct H1 as (u & A & B & ->).
          destruct (IH _ H2) as (v & C & D & ->). exists (u ++ v). split; [now constructor|].
          split; [apply found_app; auto|rewrite app_length; lia].
      + intros (u & H & F & ->). remember (Star e) as t eqn:E. revert i F.
        induction H; try discriminate E; injection E as ->; intros i F.
        * exists 0. split; [split; [lia|exact I]|cbn; lia].
        * apply found_app in F. destruct F as [F1 F2]. destruct (IHlang2 eq_refl _ F2) as (n & _ & Hn).
          exists (S n). split; [split; [lia|exact I]|]. exists (i + length u). split; [apply IHe; now exists u|].
          rewrite app_length, Nat.add_assoc. exact Hn.
  Qed.
End Language.

(** Texts of the language, up to case if [icase] is set. *)
Definition in_lang (e : re) (fl : list regex_flag) (s : text) : Prop :=
  exists t, lang e t /\ like (flag_test fl F_icase) t s.

Section Calls.
  Variable e : re.
  Variable fl : list regex_flag.
  Variable ct : category.
  Variable s : list ascii.
  Local Notation cf := (config_of fl ct).

  Lemma in_lang_matches i j : i <= length s ->
    matches cf s (as_tree e) i j
    <-> exists p u q, s = p ++ u ++ q /\ length p = i /\ j = i + length u /\ in_lang e fl u.
  Proof.
    intros Hle. rewrite language. split.
    - intros (t & Ht & (v & q & F & L) & ->). exists (firstn i s), v, q. rewrite <- F, firstn_skipn.
      rewrite (like_length _ _ _ L). repeat split; [rewrite firstn_length; lia|]. now exists t.
    - intros (p & u & q & E & <- & -> & (t & Ht & L)). exists t. rewrite (like_length _ _ _ L). repeat split; auto.
      exists u, q. split; [|exact L]. now rewrite E, skipn_app, skipn_all, Nat.sub_diag.
  Qed.

  Lemma tree_regular : regular (as_tree e) = true.
  Proof. destruct (simple_is _ (tree_simple e)) as (A & B & C & _). unfold regular. now rewrite A, B, C. Qed.

  Theorem classical_match :
    exists n res, parse (written e) = P_ok n /\ regex_match (mk_regex n fl) ct s = Returned res
      /\ (matched res = true <-> in_lang e fl s).
  Proof.
    exists (as_tree e). destruct (simple_is _ (tree_simple e)) as (_ & _ & _ & D & _).
    destruct (match_language (mk_regex (as_tree e) fl) ct s (tree_usable e fl ct) tree_regular D) as (res & E & H).
    exists res. split; [apply written_parses|]. split; [exact E|]. rewrite H. cbn [flags ast].
    rewrite in_lang_matches by lia. split.
    - intros (p & u & q & Es & Ep & El & Hu). destruct p; [|discriminate]. cbn in Es, El.
      rewrite Es, app_length in El. destruct q; [|cbn in El; lia]. rewrite app_nil_r in Es. now rewrite Es.
    - intros Hs. exists [], s, []. rewrite app_nil_r. auto.
  Qed.

  Lemma preferred_found i j : i <= length s -> preferred cf s (as_tree e) i = Some j ->
    exists p u q, s = p ++ u ++ q /\ length p = i /\ j = i + length u /\ in_lang e fl u.
  Proof.
    intros Hle H. apply in_lang_matches; [exact Hle|].
    destruct (simple_is _ (tree_simple e)) as (_ & _ & _ & D & _).
    apply in_paths; auto using tree_regular.
    - destruct (tree_usable e fl ct) as [Hc _]. eapply compiles_well_formed; exact Hc.
    - unfold preferred in H. destruct (paths cf s (as_tree e) i); [discriminate|injection H as ->; now left].
  Qed.

  Lemma preferred_none p u q : s = p ++ u ++ q -> in_lang e fl u -> preferred cf s (as_tree e) (length p) <> None.
  Proof.
    intros E Hu. assert (Hle : length p <= length s) by (rewrite E, app_length; lia).
    assert (M : matches cf s (as_tree e) (length p) (length p + length u)).
    { apply in_lang_matches; [exact Hle|]. exists p, u, q. auto. }
    destruct (simple_is _ (tree_simple e)) as (_ & _ & _ & D & _).
    apply in_paths in M; auto using tree_regular.
    - unfold preferred. destruct (paths cf s (as_tree e) (length p)); [destruct M|discriminate].
    - destruct (tree_usable e fl ct) as [Hc _]. eapply compiles_well_formed; exact Hc.
  Qed.

  Theorem classical_prefix :
    exists n res, parse (written e) = P_ok n /\ regex_match_prefix (mk_regex n fl) ct s = Returned res
      /\ (matched res = true -> exists u q, s = u ++ q /\ in_lang e fl u /\ group0 (groups res) = Some (0, length u))
      /\ (matched res = false -> forall u q, s = u ++ q -> ~ in_lang e fl u).
  Proof.
    exists (as_tree e).
    destruct (match_prefix_priority (mk_regex (as_tree e) fl) ct s (tree_usable e fl ct) tree_regular) as (res & E & H).
    exists res. split; [apply written_parses|]. split; [exact E|]. unfold ends_at in H. cbn [flags ast] in H.
    destruct (preferred cf s (as_tree e) 0) as [j|] eqn:P.
    - destruct H as [H1 H2]. split; [|congruence]. intros _.
      destruct (preferred_found 0 j ltac:(lia) P) as (p & u & q & E1 & E2 & -> & Hu). destruct p; [|discriminate].
      exists u, q. auto.
    - rewrite H. split; [discriminate|]. intros _ u q E1 Hu. exact (preferred_none [] u q E1 Hu P).
  Qed.

  Theorem classical_search :
    exists n res, parse (written e) = P_ok n /\ regex_search (mk_regex n fl) ct s = Returned res
      /\ (matched res = true -> exists p u q, s = p ++ u ++ q /\ in_lang e fl u
            /\ group0 (groups res) = Some (length p, length p + length u)
            /\ forall p' u' q', s = p' ++ u' ++ q' -> in_lang e fl u' -> length p <= length p')
      /\ (matched res = false -> forall p u q, s = p ++ u ++ q -> ~ in_lang e fl u).
  Proof.
    exists (as_tree e).
    destruct (search_leftmost (mk_regex (as_tree e) fl) ct s (tree_usable e fl ct) tree_regular) as (res & E & H1 & H2).
    exists res. split; [apply written_parses|]. split; [exact E|]. cbn [flags ast] in *. split.
    - intros M. destruct (H1 M) as (i & j & Hle & P & Hn & G).
      destruct (preferred_found i j Hle P) as (p & u & q & E1 & <- & -> & Hu). exists p, u, q. repeat split; auto.
      intros p' u' q' E' Hu'. destruct (Nat.le_gt_cases (length p) (length p')) as [|L]; auto.
      destruct (preferred_none p' u' q' E' Hu' (Hn _ L)).
    - intros M p u q E1 Hu. apply (preferred_none p u q E1 Hu), (H2 M). rewrite E1, app_length. lia.
  Qed.
End Calls.
