(** A text searched piece by piece: if no part of a pattern reads the character
    between the pieces or can tell it from the border of the text, the matches in
    the text are those in its pieces. *)
From Verif Require Import Matcher Api Basics Safe Spec Calls Lift Matching Paths Walk Exact Actual Uniform Scans.

(** [sep] is never read, and the tests of places take it for the border of the
    text: [^] and [$] if the flag [multiline] is set and [sep] ends lines, [\b]
    and [\B] if it is not a word character, [\A] and [\Z] never. *)
Fixpoint stays_between (cf : config) (sep : ascii) (n : node) : bool :=
  match n with
  | Empty => true
  | BeginLine | EndLine => multiline cf && is_newline sep
  | BeginInput | EndInput => false
  | WordB => negb (is_word_char sep)
  | Wild | Lit _ | Range _ _ | CSet _ => negb (accepts cf n sep)
  | Neg x => if is_class x then accepts cf x sep else stays_between cf sep x
  | Seq l | Alt l => forallb (stays_between cf sep) l
  | Cap _ _ x | Rep _ _ _ x | Look _ x => stays_between cf sep x
  | Backref _ | NBackref _ => false
  end.

(** The results up to and including the first empty match. *)
Fixpoint up_to_empty (l : list (nat * nat)) : list (nat * nat) :=
  match l with
  | [] => []
  | (b, e) :: r => (b, e) :: (if Nat.eqb b e then [] else up_to_empty r)
  end.

(** Matches of a piece, as matches in the text in which it begins at [by_]. *)
Definition further (by_ : nat) (l : list (nat * nat)) : list (nat * nat) :=
  map (fun p => (by_ + fst p, by_ + snd p)) l.

(** The text with the given pieces. *)
Fixpoint joined (sep : ascii) (x : list ascii) (pieces : list (list ascii)) : list ascii :=
  match pieces with
  | [] => x
  | y :: r => x ++ sep :: joined sep y r
  end.

(** The matches in the pieces, one piece after the other. *)
Fixpoint in_turn (by_ : nat) (pieces : list (list ascii)) (found : list (list (nat * nat))) : list (nat * nat) :=
  match pieces, found with
  | x :: r, l :: rest => further by_ l ++ in_turn (by_ + length x + 1) r rest
  | _, _ => []
  end.

(** ** A piece of the text *)

Section Piece.
  Variable cf : config.
  Variable sep : ascii.
  Variables pre x post : list ascii.
  Hypothesis Hpre : pre = [] \/ exists p, pre = p ++ [sep].
  Hypothesis Hpost : post = [] \/ exists p, post = sep :: p.
  Local Notation t := (pre ++ x ++ post).
  Local Notation off := (length pre).
  Local Notation L := (length x).

  Lemma piece_char p i : p sep = false -> i <= L -> char_at t p (off + i) = char_at x p i.
  Proof.
    intros Hp Hi. unfold char_at. rewrite nth_error_app2 by lia. replace (off + i - off) with i by lia.
    destruct (Nat.lt_ge_cases i L).
    - now rewrite nth_error_app1.
    - replace i with L by lia. rewrite nth_error_app2 by lia. rewrite Nat.sub_diag.
      rewrite (proj2 (nth_error_None x L)) by lia.
      destruct Hpost as [->|(q & ->)]; cbn; auto.
  Qed.

  Lemma piece_before p i : p sep = false -> i <= L -> char_before t p (off + i) = char_before x p i.
  Proof.
    intros Hp Hi. destruct i as [|i].
    - rewrite Nat.add_0_r. cbn [char_before]. destruct Hpre as [->|(q & ->)]; [reflexivity|].
      rewrite app_length. cbn [length]. rewrite Nat.add_1_r. cbn [char_before]. unfold char_at.
      rewrite <- app_assoc, nth_error_app2, Nat.sub_diag by lia. exact Hp.
    - rewrite <- plus_n_Sm. cbn [char_before]. apply piece_char; [exact Hp|lia].
  Qed.

  Lemma piece_length : length t = off + L + length post.
  Proof. rewrite !app_length. lia. Qed.

  Lemma piece_start i : multiline cf && is_newline sep = true -> i <= L ->
    at_line_start cf t (off + i) = at_line_start cf x i.
  Proof.
    intros Hn Hi. apply andb_prop in Hn as [Hm Hs]. unfold at_line_start. rewrite Hm. cbn [andb].
    destruct i as [|i].
    - rewrite Nat.add_0_r. destruct Hpre as [->|(q & ->)]; [reflexivity|]. cbn [Nat.eqb orb].
      rewrite app_length. cbn [length]. rewrite Nat.add_1_r. cbn [char_before Nat.eqb orb]. unfold char_at.
      rewrite <- app_assoc, nth_error_app2, Nat.sub_diag by lia. exact Hs.
    - rewrite <- plus_n_Sm. cbn [Nat.eqb orb char_before]. unfold char_at.
      rewrite nth_error_app2 by lia. replace (off + i - off) with i by lia. now rewrite nth_error_app1 by lia.
  Qed.

  Lemma piece_end i : multiline cf && is_newline sep = true -> i <= L ->
    at_line_end cf t (off + i) = at_line_end cf x i.
  Proof.
    intros Hn Hi. apply andb_prop in Hn as [Hm Hs]. unfold at_line_end. rewrite Hm, piece_length. cbn [andb].
    unfold char_at. rewrite nth_error_app2 by lia. replace (off + i - off) with i by lia.
    destruct (Nat.lt_ge_cases i L) as [Hlt|Hge].
    - rewrite nth_error_app1 by lia.
      replace (Nat.eqb (off + i) (off + L + length post)) with false by (symmetry; apply Nat.eqb_neq; lia).
      now replace (Nat.eqb i L) with false by (symmetry; apply Nat.eqb_neq; lia).
    - replace i with L by lia. rewrite Nat.eqb_refl, nth_error_app2, Nat.sub_diag by lia. cbn [orb].
      destruct Hpost as [->|(q & ->)].
      + cbn [length]. now rewrite Nat.add_0_r, Nat.eqb_refl.
      + cbn [nth_error]. rewrite Hs. apply orb_true_r.
  Qed.

  Lemma piece_boundary i : is_word_char sep = false -> i <= L ->
    at_word_boundary t (off + i) = at_word_boundary x i.
  Proof. intros Hs Hi. unfold at_word_boundary. now rewrite piece_before, piece_char. Qed.

  Local Notation sh := (map (fun j => off + j)).

  Lemma piece_read left p i : p sep = false -> i <= L ->
    read_char t left p (off + i) = sh (read_char x left p i).
  Proof.
    intros Hp Hi. unfold read_char. destruct left.
    - rewrite piece_before by assumption. destruct (char_before x p i) eqn:E; [|reflexivity].
      destruct i as [|i]; [discriminate|]. cbn [map]. f_equal. lia.
    - rewrite piece_char by assumption. destruct (char_at x p i); [|reflexivity]. cbn [map]. f_equal. lia.
  Qed.

  (** Loops; [f1] moves in the text as [f2] does in the piece. *)
  Section Loops.
    Variable left : bool.
    Variables f1 f2 : nat -> list nat.
    Hypothesis Hf : forall i, i <= L -> f1 (off + i) = sh (f2 i).
    Hypothesis Hm : moves x left f2.

    Lemma piece_flat g1 g2 i : i <= L -> (forall j, In j (f2 i) -> g1 (off + j) = sh (g2 j)) ->
      flat_map g1 (f1 (off + i)) = sh (flat_map g2 (f2 i)).
    Proof.
      intros Hi Hg. rewrite Hf, flat_map_map, map_flat_map by assumption. apply flat_map_ext_in. exact Hg.
    Qed.

    Lemma piece_next i j : i <= L -> In j (f2 i) -> j <= L.
    Proof. intros Hi Hj. exact (moves_le x left f2 i j Hm Hi Hj). Qed.

    Lemma piece_times n : forall i, i <= L -> times f1 n (off + i) = sh (times f2 n i).
    Proof.
      induction n as [|n IH]; intros i Hi; [reflexivity|]. cbn [times]. apply piece_flat; [exact Hi|].
      intros j Hj. apply IH. eapply piece_next; eauto.
    Qed.

    Definition to_go (i : nat) : nat := if left then i else L - i.
    Definition enough (fu : nat) (b : quantifier) (i : nat) : Prop :=
      match b with Fin n => N.to_nat n < fu | Inf => to_go i < fu end.

    Lemma enough_step fu n i : enough (S fu) (Fin n) i -> N.eqb n 0 = false -> forall j, enough fu (Fin (n - 1)) j.
    Proof. cbn. intros H E j. apply N.eqb_neq in E. lia. Qed.

    Lemma enough_next fu i j : enough (S fu) Inf i -> i <= L -> In j (f2 i) -> Nat.eqb i j = false -> enough fu Inf j.
    Proof.
      cbn. unfold to_go. intros H Hi Hj E. apply Nat.eqb_neq in E. specialize (Hm i j Hi Hj).
      unfold ahead_of in Hm. destruct left; lia.
    Qed.

    Lemma piece_eqb i j : Nat.eqb (off + i) (off + j) = Nat.eqb i j.
    Proof. destruct (Nat.eqb_spec (off + i) (off + j)), (Nat.eqb_spec i j); auto; lia. Qed.

    Lemma piece_more : forall fu1 fu2 b i, i <= L -> enough fu1 b i -> enough fu2 b i ->
      more_first f1 fu1 b (off + i) = sh (more_first f2 fu2 b i).
    Proof.
      induction fu1 as [|fu1 IH]; intros fu2 b i Hi E1 E2; [destruct b; cbn in E1; lia|].
      destruct fu2 as [|fu2]; [destruct b; cbn in E2; lia|]. cbn [more_first]. destruct b as [n|].
      - destruct (N.eqb n 0) eqn:En; [reflexivity|]. rewrite map_app. f_equal. apply piece_flat; [exact Hi|].
        intros j Hj. apply IH; eauto using enough_step, piece_next.
      - rewrite map_app. f_equal. apply piece_flat; [exact Hi|]. intros j Hj. rewrite piece_eqb.
        destruct (Nat.eqb i j) eqn:En; [reflexivity|]. apply IH; eauto using enough_next, piece_next.
    Qed.

    Lemma piece_fewer : forall fu1 fu2 b i, i <= L -> enough fu1 b i -> enough fu2 b i ->
      fewer_first f1 fu1 b (off + i) = sh (fewer_first f2 fu2 b i).
    Proof.
      induction fu1 as [|fu1 IH]; intros fu2 b i Hi E1 E2; [destruct b; cbn in E1; lia|].
      destruct fu2 as [|fu2]; [destruct b; cbn in E2; lia|]. cbn [fewer_first]. destruct b as [n|].
      - destruct (N.eqb n 0) eqn:En; [reflexivity|]. cbn [map]. f_equal. apply piece_flat; [exact Hi|].
        intros j Hj. apply IH; eauto using enough_step, piece_next.
      - cbn [map]. f_equal. apply piece_flat; [exact Hi|]. intros j Hj. rewrite piece_eqb.
        destruct (Nat.eqb i j) eqn:En; [reflexivity|]. apply IH; eauto using enough_next, piece_next.
    Qed.

    Lemma piece_commit : forall fu1 fu2 b i, i <= L -> enough fu1 b i -> enough fu2 b i ->
      commit f1 fu1 b (off + i) = off + commit f2 fu2 b i.
    Proof.
      induction fu1 as [|fu1 IH]; intros fu2 b i Hi E1 E2; [destruct b; cbn in E1; lia|].
      destruct fu2 as [|fu2]; [destruct b; cbn in E2; lia|]. cbn [commit]. rewrite Hf by exact Hi.
      destruct (f2 i) as [|j l] eqn:E; [now destruct b|].
      assert (Hj : In j (f2 i)) by (rewrite E; now left). cbn [map]. destruct b as [n|].
      - destruct (N.eqb n 0) eqn:En; [reflexivity|]. apply IH; eauto using enough_step, piece_next.
      - rewrite piece_eqb. destruct (Nat.eqb i j) eqn:En; [reflexivity|].
        apply IH; eauto using enough_next, piece_next.
    Qed.

    Lemma enough_here b i : i <= L -> enough (any_fuel x b) b i /\ enough (any_fuel t b) b i.
    Proof.
      intros Hi. destruct b as [n|]; cbn; [lia|]. fold (to_go i). rewrite piece_length. unfold to_go.
      destruct left; lia.
    Qed.

    Lemma piece_rep md lo hi i : i <= L ->
      (let b := remaining hi lo in
       let start := times f1 (N.to_nat lo) (off + i) in
       let more := flat_map (more_first f1 (any_fuel t b) b) start in
       let fewer := flat_map (fewer_first f1 (any_fuel t b) b) start in
       match md with
       | Greedy => if ungreedy cf then fewer else more
       | Lazy => if ungreedy cf then more else fewer
       | Possessive => map (commit f1 (any_fuel t b) b) (firstn 1 start)
       end)
      = sh (let b := remaining hi lo in
       let start := times f2 (N.to_nat lo) i in
       let more := flat_map (more_first f2 (any_fuel x b) b) start in
       let fewer := flat_map (fewer_first f2 (any_fuel x b) b) start in
       match md with
       | Greedy => if ungreedy cf then fewer else more
       | Lazy => if ungreedy cf then more else fewer
       | Possessive => map (commit f2 (any_fuel x b) b) (firstn 1 start)
       end).
    Proof.
      intros Hi. cbv zeta. set (b := remaining hi lo). rewrite piece_times by exact Hi.
      assert (Hs : forall j, In j (times f2 (N.to_nat lo) i) -> j <= L)
        by (intros j; apply (moves_le x left (times f2 (N.to_nat lo))); auto using moves_times).
      assert (Hmore : flat_map (more_first f1 (any_fuel t b) b) (sh (times f2 (N.to_nat lo) i))
                      = sh (flat_map (more_first f2 (any_fuel x b) b) (times f2 (N.to_nat lo) i))).
      { rewrite flat_map_map, map_flat_map. apply flat_map_ext_in. intros j Hj.
        destruct (enough_here b j (Hs j Hj)). apply piece_more; auto. }
      assert (Hfewer : flat_map (fewer_first f1 (any_fuel t b) b) (sh (times f2 (N.to_nat lo) i))
                      = sh (flat_map (fewer_first f2 (any_fuel x b) b) (times f2 (N.to_nat lo) i))).
      { rewrite flat_map_map, map_flat_map. apply flat_map_ext_in. intros j Hj.
        destruct (enough_here b j (Hs j Hj)). apply piece_fewer; auto. }
      destruct md; try (destruct (ungreedy cf); assumption).
      rewrite firstn_map, !map_map. apply map_ext_in. intros j Hj.
      assert (j <= L) by (apply Hs; destruct (times f2 (N.to_nat lo) i); [destruct Hj|destruct Hj as [<-|[]]; now left]).
      destruct (enough_here b j ltac:(assumption)). apply piece_commit; auto.
    Qed.
  End Loops.

  (** A pattern reads a piece within the text as it reads it alone. *)
  Theorem piece_walk n : stays_between cf sep n = true -> forall left back i, i <= L ->
    walk cf t left back n (off + i) = sh (walk cf x left back n i).
  Proof.
    assert (Hif : forall (b1 b2 : bool) i, b1 = b2 -> (if b1 then [off + i] else []) = sh (if b2 then [i] else []))
      by (intros b1 b2 i ->; now destruct b2).
    induction n using node_ind'; intros Hn left back i Hi; cbn [stays_between] in Hn; try discriminate.
    - reflexivity.
    - cbn [walk]. apply Hif. destruct left; [now apply piece_end|now apply piece_start].
    - cbn [walk]. apply Hif. destruct left; [now apply piece_start|now apply piece_end].
    - cbn [walk]. apply Hif. apply piece_boundary; [now apply negb_true_iff|exact Hi].
    - cbn [walk]. apply piece_read; [now apply negb_true_iff|exact Hi].
    - cbn [walk]. apply piece_read; [now apply negb_true_iff|exact Hi].
    - cbn [walk]. apply piece_read; [now apply negb_true_iff|exact Hi].
    - cbn [walk]. apply piece_read; [now apply negb_true_iff|exact Hi].
    - cbn [walk]. destruct (is_class n).
      + apply piece_read; [|exact Hi]. cbn [accepts]. now rewrite Hn.
      + rewrite IHn by assumption. now destruct (walk cf x left back n i).
    - rewrite !walk_Seq. rewrite forallb_forall in Hn.
      assert (HF : Forall (fun y => stays_between cf sep y = true -> forall left back i, i <= L ->
                     walk cf t left back y (off + i) = sh (walk cf x left back y i)) (if back then rev l else l))
        by (destruct back; [now apply Forall_rev|assumption]).
      assert (Hin : forall y, In y (if back then rev l else l) -> stays_between cf sep y = true)
        by (intros y Hy; apply Hn; destruct back; [now apply in_rev|assumption]).
      clear H Hn. generalize dependent i. generalize dependent (if back then rev l else l).
      intros l'. induction l' as [|y r IH]; intros HF Hin i Hi; [reflexivity|]. cbn [map chain_paths].
      inversion HF; subst. apply (piece_flat _ (walk cf x left back y)).
      + intros k Hk. apply H1; auto. apply Hin. now left.
      + exact Hi.
      + intros j Hj. apply IH; auto.
        * intros z Hz. apply Hin. now right.
        * eapply (moves_le x left); [apply walk_moves|exact Hi|exact Hj].
    - cbn [walk]. rewrite map_flat_map. apply flat_map_ext_in. intros y Hy.
      rewrite Forall_forall in H. rewrite forallb_forall in Hn. now apply H; auto.
    - cbn [walk]. now apply IHn.
    - cbn [walk]. apply (piece_rep left); auto. apply walk_moves.
    - cbn [walk].
      destruct (xorb back _); rewrite IHn by assumption; now destruct (walk cf x _ _ n i).
  Qed.

  Corollary piece_actual n i : stays_between cf sep n = true -> i <= L ->
    actual cf t n (off + i) = option_map (fun e => off + e) (actual cf x n i).
  Proof. intros Hn Hi. unfold actual. rewrite piece_walk by assumption. now destruct (walk cf x false false n i). Qed.
End Piece.

Lemma class_free n : is_class n = true -> backref_free n = true.
Proof.
  induction n using node_ind'; cbn [is_class backref_free]; intros Hn; auto; try discriminate.
  - destruct l as [|x [|y r]]; try discriminate. inversion H; subst. cbn. now rewrite H2.
  - destruct l as [|x r]; try discriminate. apply andb_prop in Hn as [Hx Hr]. rewrite forallb_forall in *.
    rewrite Forall_forall in H. intros y [<-|Hy]; apply H; cbn; auto.
  - destruct hi as [h|]; [|discriminate]. apply andb_prop in Hn as [_ Hn]. auto.
Qed.

Lemma stays_free cf sep n : stays_between cf sep n = true -> backref_free n = true.
Proof.
  induction n using node_ind'; cbn [stays_between backref_free]; intros Hn; auto; try discriminate.
  - destruct (is_class n) eqn:E; auto using class_free.
  - rewrite forallb_forall in *. rewrite Forall_forall in H. auto.
  - rewrite forallb_forall in *. rewrite Forall_forall in H. auto.
Qed.

Lemma from_actual cf n s i : runs cf n -> backref_free n = true -> i <= length s ->
  prefix_from cf n s i = Some (actual cf s n i).
Proof.
  intros Hr Hb Hi. unfold prefix_from.
  pose proof (match_prefix_method_walk cf n s Hr Hb i (initial_captures n) Hi (initial_length n)) as H.
  destruct (match_prefix_method cf n s i (initial_captures n)); try contradiction.
  cbn in *. destruct H as (_ & _ & ->). reflexivity.
Qed.

(** ** Scans *)

Section Scan.
  Variable from : nat -> option (option nat).
  Variable len : nat.

  Lemma scan_unique p l : leftmost_scan from len p l -> forall l', leftmost_scan from len p l' -> l = l'.
  Proof.
    assert (U : forall p i e i' e', next_match from len p i e -> next_match from len p i' e' -> i = i' /\ e = e').
    { intros q i e i' e' (H1 & H2 & H3) (H1' & H2' & H3').
      assert (i = i') as <-.
      { destruct (Nat.lt_trichotomy i i') as [Hl|[?|Hl]]; auto.
        - rewrite H3' in H2 by lia. discriminate.
        - rewrite H3 in H2' by lia. discriminate. }
      split; [reflexivity|congruence]. }
    induction 1 as [p H|p i H|p i e l H He Hl IH]; intros l' H'.
    - inversion H' as [|? i (H1 & H2 & _)|? i e ? (H1 & H2 & _)]; subst; [reflexivity| |];
        rewrite H in H2 by lia; discriminate.
    - inversion H' as [? N|? j N|? j e ? N Hj]; subst.
      + destruct H as (H1 & H2 & _). rewrite N in H2 by lia. discriminate.
      + destruct (U _ _ _ _ _ H N). now subst.
      + destruct (U _ _ _ _ _ H N). lia.
    - inversion H' as [? N|? j N|? j f ? N Hj Hr]; subst.
      + destruct H as (H1 & H2 & _). rewrite N in H2 by lia. discriminate.
      + destruct (U _ _ _ _ _ H N). lia.
      + destruct (U _ _ _ _ _ H N); subst. f_equal. now apply IH.
  Qed.

  (** Offsets without a match in front. *)
  Lemma scan_earlier p q l : p <= q -> (forall i, p <= i < q -> from i = Some None) ->
    leftmost_scan from len q l -> leftmost_scan from len p l.
  Proof.
    intros Hpq Hn H.
    assert (N : forall i e, next_match from len q i e -> next_match from len p i e).
    { intros i e (H1 & H2 & H3). split; [lia|]. split; [exact H2|]. intros i' Hi'.
      destruct (Nat.lt_ge_cases i' q); [apply Hn; lia|apply H3; lia]. }
    inversion H; subst.
    - apply ls_none. intros i Hi. destruct (Nat.lt_ge_cases i q); [apply Hn; lia|apply H0; lia].
    - apply ls_empty; auto.
    - eapply ls_more; eauto.
  Qed.

  Lemma scan_empty_last p l : leftmost_scan from len p l -> up_to_empty l = l.
  Proof.
    induction 1 as [p H|p i H|p i e l H He Hl IH]; cbn [up_to_empty]; [reflexivity|now rewrite Nat.eqb_refl|].
    replace (Nat.eqb i e) with false by (symmetry; apply Nat.eqb_neq; lia). now rewrite IH.
  Qed.
End Scan.

Section Two.
  Variables from from_x from_y : nat -> option (option nat).
  Variables lx ly : nat.
  Hypothesis Hx : forall i, i <= lx -> from i = from_x i.
  Hypothesis Hy : forall i, i <= ly -> from (S lx + i) = option_map (option_map (fun e => S lx + e)) (from_y i).

  Lemma scan_second p l : leftmost_scan from_y ly p l ->
    leftmost_scan from (S lx + ly) (S lx + p) (further (S lx) l).
  Proof.
    assert (N : forall p i e, next_match from_y ly p i e -> next_match from (S lx + ly) (S lx + p) (S lx + i) (S lx + e)).
    { intros q i e (H1 & H2 & H3). split; [lia|]. split; [now rewrite Hy, H2 by lia|].
      intros i' Hi'. replace i' with (S lx + (i' - S lx)) by lia. now rewrite Hy, H3 by lia. }
    induction 1 as [p H|p i H|p i e l H He Hl IH]; cbn [further map fst snd].
    - apply ls_none. intros i Hi. replace i with (S lx + (i - S lx)) by lia. now rewrite Hy, H by lia.
    - apply ls_empty. now apply N.
    - eapply ls_more; [now apply N|lia|exact IH].
  Qed.

  Lemma scan_both p l l' : p <= lx -> leftmost_scan from_x lx p l -> leftmost_scan from_y ly 0 l' ->
    leftmost_scan from (S lx + ly) p (up_to_empty (l ++ further (S lx) l')).
  Proof.
    intros Hp H H'. apply scan_second in H'. rewrite Nat.add_0_r in H'.
    assert (N : forall p i e, next_match from_x lx p i e -> next_match from (S lx + ly) p i e).
    { intros q i e (H1 & H2 & H3). split; [lia|]. split; [now rewrite Hx by lia|].
      intros i' Hi'. rewrite Hx by lia. apply H3. lia. }
    revert Hp. induction H as [p H|p i H|p i e l H He Hl IH]; intros Hp; cbn [app up_to_empty].
    - erewrite scan_empty_last by exact H'. apply (scan_earlier _ _ p (S lx)); [lia| |exact H'].
      intros i Hi. rewrite Hx by lia. apply H. lia.
    - rewrite Nat.eqb_refl. apply ls_empty. now apply N.
    - replace (Nat.eqb i e) with false by (symmetry; apply Nat.eqb_neq; lia).
      eapply ls_more; [now apply N|lia|apply IH; lia].
  Qed.
End Two.

(** ** The calls *)

(** The matches that [find_all()] lists. *)
Definition finds (r : regex) (ct : category) (s : list ascii) (l : list (nat * nat)) : Prop :=
  exists found, find_all r ct s = Returned found
    /\ Forall (fun a => matched a = true) found
    /\ map (fun a => group0 (groups a)) found = map Some l.

Lemma two_pieces cf sep n x y i : runs cf n -> stays_between cf sep n = true ->
  (i <= length x -> prefix_from cf n (x ++ sep :: y) i = prefix_from cf n x i)
  /\ (i <= length y -> prefix_from cf n (x ++ sep :: y) (S (length x) + i)
        = option_map (option_map (fun e => S (length x) + e)) (prefix_from cf n y i)).
Proof.
  intros Hr Hn. pose proof (stays_free cf sep n Hn) as Hb.
  assert (Hl : length (x ++ sep :: y) = S (length x) + length y) by (rewrite app_length; cbn; lia).
  split; intros Hi; rewrite !from_actual by (auto; lia).
  - f_equal. pose proof (piece_actual cf sep [] x (sep :: y) (or_introl eq_refl) (or_intror (ex_intro _ y eq_refl)) n i Hn Hi) as H.
    cbn [app length Nat.add] in H. rewrite H. now destruct (actual cf x n i).
  - cbn [option_map]. f_equal.
    pose proof (piece_actual cf sep (x ++ [sep]) y [] (or_intror (ex_intro _ x eq_refl)) (or_introl eq_refl) n i Hn Hi) as H.
    rewrite app_nil_r, <- app_assoc, app_length in H. cbn [app length] in H. rewrite Nat.add_1_r in H. exact H.
Qed.

Lemma finds_two r ct sep x y : usable r ct -> stays_between (config_of (flags r) ct) sep (ast r) = true ->
  forall lx ly, finds r ct x lx -> finds r ct y ly ->
  finds r ct (x ++ sep :: y) (up_to_empty (lx ++ further (S (length x)) ly)).
Proof.
  intros Hu Hn lx ly (fx & Ex & _ & Bx) (fy & Ey & _ & By).
  pose proof (stays_free _ sep _ Hn) as Hb.
  destruct (find_all_scan r ct x Hu Hb) as (fx' & Ex' & _ & bx & Bx' & Sx).
  destruct (find_all_scan r ct y Hu Hb) as (fy' & Ey' & _ & by_ & By' & Sy).
  destruct (find_all_scan r ct (x ++ sep :: y) Hu Hb) as (f & E & M & b & B & Sb).
  assert (inj : forall a b : list (nat * nat), map Some a = map Some b -> a = b).
  { induction a as [|? a IH]; intros [|? ?] H; cbn in H; try discriminate; [reflexivity|].
    inversion H. f_equal. auto. }
  assert (lx = bx) as -> by (apply inj; congruence). assert (ly = by_) as -> by (apply inj; congruence).
  exists f. split; [exact E|]. split; [exact M|]. rewrite B. f_equal.
  apply (scan_unique _ _ _ _ Sb).
  rewrite app_length. cbn [length]. rewrite <- plus_n_Sm. change (S (length x + length y)) with (S (length x) + length y).
  eapply scan_both; [| |lia|exact Sx|exact Sy].
  - intros i Hi. apply (proj1 (two_pieces _ sep (ast r) x y i Hu Hn) Hi).
  - intros i Hi. apply (proj2 (two_pieces _ sep (ast r) x y i Hu Hn) Hi).
Qed.

Lemma up_to_empty_app a b : up_to_empty (a ++ up_to_empty b) = up_to_empty (a ++ b).
Proof.
  induction a as [|[i e] a IH]; cbn [app up_to_empty].
  - induction b as [|[i e] b IH]; [reflexivity|]. cbn [up_to_empty]. destruct (Nat.eqb i e); [reflexivity|]. now rewrite IH.
  - destruct (Nat.eqb i e); [reflexivity|]. now rewrite IH.
Qed.

Lemma further_further a b l : further a (further b l) = further (a + b) l.
Proof. unfold further. rewrite map_map. apply map_ext. intros [i e]. cbn. f_equal; lia. Qed.

Lemma further_in_turn a pieces : forall b found, further a (in_turn b pieces found) = in_turn (a + b) pieces found.
Proof.
  induction pieces as [|x r IH]; intros b [|l found]; try reflexivity. cbn [in_turn].
  unfold further at 1. rewrite map_app. fold (further a (further b l)). rewrite further_further.
  fold (further a (in_turn (b + length x + 1) r found)). rewrite IH. now rewrite !Nat.add_assoc.
Qed.

Lemma further_up_to_empty a l : further a (up_to_empty l) = up_to_empty (further a l).
Proof.
  induction l as [|[i e] l IH]; [reflexivity|]. cbn [up_to_empty further map fst snd].
  replace (Nat.eqb (a + i) (a + e)) with (Nat.eqb i e)
    by (destruct (Nat.eqb_spec i e), (Nat.eqb_spec (a + i) (a + e)); auto; lia). destruct (Nat.eqb i e); [reflexivity|]. f_equal. exact IH.
Qed.

Lemma finds_some r ct s : usable r ct -> backref_free (ast r) = true ->
  exists l, finds r ct s l /\ up_to_empty l = l.
Proof.
  intros Hu Hb. destruct (find_all_scan r ct s Hu Hb) as (f & E & M & b & B & Sb).
  exists b. split; [now exists f|]. eapply scan_empty_last, Sb.
Qed.

Lemma further_0 l : further 0 l = l.
Proof. unfold further. induction l as [|[i e] l IH]; [reflexivity|]. cbn in *. now rewrite IH. Qed.

Theorem finds_pieces r ct sep : usable r ct -> stays_between (config_of (flags r) ct) sep (ast r) = true ->
  forall pieces x, exists found, Forall2 (finds r ct) (x :: pieces) found
    /\ finds r ct (joined sep x pieces) (up_to_empty (in_turn 0 (x :: pieces) found)).
Proof.
  intros Hu Hn. pose proof (stays_free _ sep _ Hn) as Hb.
  induction pieces as [|y r' IH]; intros x.
  - destruct (finds_some r ct x Hu Hb) as (l & H & El). exists [l]. split; [repeat constructor; exact H|].
    cbn [in_turn joined]. rewrite app_nil_r, further_0, El. exact H.
  - destruct (finds_some r ct x Hu Hb) as (l & H & _). destruct (IH y) as (found & F & J).
    exists (l :: found). split; [now constructor|]. cbn [joined].
    pose proof (finds_two r ct sep x _ Hu Hn _ _ H J) as K.
    rewrite further_up_to_empty, further_in_turn, Nat.add_0_r, up_to_empty_app in K.
    cbn [in_turn]. rewrite further_0. replace (0 + length x + 1) with (S (length x)) by lia. exact K.
Qed.

Lemma up_to_empty_none l : Forall (fun p => fst p <> snd p) l -> up_to_empty l = l.
Proof.
  induction 1 as [|[i e] l H _ IH]; [reflexivity|]. cbn in *. apply Nat.eqb_neq in H. now rewrite H, IH.
Qed.

Lemma in_turn_nonempty pieces : forall b found, Forall (Forall (fun p => fst p <> snd p)) found ->
  Forall (fun p => fst p <> snd p) (in_turn b pieces found).
Proof.
  induction pieces as [|x r IH]; intros b [|l found] H; try constructor. cbn [in_turn]. inversion H; subst.
  apply Forall_app. split; [|now apply IH]. unfold further. rewrite Forall_map.
  eapply Forall_impl; [|exact H2]. intros [i e]. cbn. lia.
Qed.

Theorem finds_pieces_all r ct sep : usable r ct -> stays_between (config_of (flags r) ct) sep (ast r) = true ->
  forall x pieces found, Forall2 (finds r ct) (x :: pieces) found ->
  Forall (Forall (fun p => fst p <> snd p)) found ->
  finds r ct (joined sep x pieces) (in_turn 0 (x :: pieces) found).
Proof.
  intros Hu Hn x pieces found F He. destruct (finds_pieces r ct sep Hu Hn pieces x) as (found' & F' & J).
  assert (found' = found) as ->.
  { clear -F F'. generalize dependent found'. induction F as [|s l t found H _ IH]; intros found' F'; inversion F'; subst; [reflexivity|].
    f_equal; [|now apply IH]. destruct H as (a & E & _ & B), H2 as (a' & E' & _ & B').
    assert (map Some y = map (@Some (nat * nat)) l) by congruence. clear -H. revert l H.
    induction y as [|? y IH]; intros [|? l] H; cbn in H; try discriminate; [reflexivity|]. inversion H. f_equal. auto. }
  now rewrite up_to_empty_none in J by now apply in_turn_nonempty.
Qed.

(** The first piece with a match decides a search. *)
Theorem search_pieces r ct sep x y : usable r ct -> stays_between (config_of (flags r) ct) sep (ast r) = true ->
  exists a b c, regex_search r ct x = Returned a /\ regex_search r ct y = Returned b
    /\ regex_search r ct (x ++ sep :: y) = Returned c
    /\ matched c = (matched a || matched b)%bool
    /\ (matched a = true -> group0 (groups c) = group0 (groups a))
    /\ (matched a = false -> matched b = true -> exists i e, group0 (groups b) = Some (i, e)
          /\ group0 (groups c) = Some (S (length x) + i, S (length x) + e)).
Proof.
  intros Hu Hn. pose proof (stays_free _ sep _ Hn) as Hb.
  destruct (free_search_first r ct x Hu Hb) as (a & Ea & A1 & A2).
  destruct (free_search_first r ct y Hu Hb) as (b & Eb & B1 & B2).
  destruct (free_search_first r ct (x ++ sep :: y) Hu Hb) as (c & Ec & C1 & C2).
  exists a, b, c. split; [exact Ea|]. split; [exact Eb|]. split; [exact Ec|].
  assert (Hl : length (x ++ sep :: y) = S (length x) + length y) by (rewrite app_length; cbn; lia).
  rewrite Hl in *.
  set (from := prefix_from (config_of (flags r) ct) (ast r)) in *.
  assert (Fx : forall i, i <= length x -> from (x ++ sep :: y) i = from x i)
    by (intros i Hi; exact (proj1 (two_pieces _ sep (ast r) x y i Hu Hn) Hi)).
  assert (Fy : forall i, i <= length y -> from (x ++ sep :: y) (S (length x) + i)
                 = option_map (option_map (fun e => S (length x) + e)) (from y i))
    by (intros i Hi; exact (proj2 (two_pieces _ sep (ast r) x y i Hu Hn) Hi)).
  assert (U : forall i e i' e', from (x ++ sep :: y) i = Some (Some e) -> (forall k, k < i -> from (x ++ sep :: y) k = Some None) ->
            from (x ++ sep :: y) i' = Some (Some e') -> (forall k, k < i' -> from (x ++ sep :: y) k = Some None) -> i = i' /\ e = e').
  { intros i e i' e' H1 H2 H1' H2'. destruct (Nat.lt_trichotomy i i') as [Hlt|[->|Hlt]].
    - rewrite H2' in H1 by assumption. discriminate.
    - split; congruence.
    - rewrite H2 in H1' by assumption. discriminate. }
  destruct (matched a) eqn:Ma.
  - destruct (A1 eq_refl) as (i & e & Hi & Fi & Fl & Ga).
    destruct (matched c) eqn:Mc.
    + destruct (C1 eq_refl) as (i' & e' & Hi' & Fi' & Fl' & Gc).
      destruct (U i e i' e') as [-> ->]; auto.
      * now rewrite Fx.
      * intros k Hk. rewrite Fx by lia. auto.
      * split; [reflexivity|]. split; [intros _; congruence|discriminate].
    + exfalso. specialize (C2 eq_refl i ltac:(lia)). rewrite Fx in C2 by assumption. congruence.
  - specialize (A2 eq_refl). cbn [orb].
    assert (None_before : forall i, i < S (length x) -> from (x ++ sep :: y) i = Some None)
      by (intros i Hi; rewrite Fx by lia; apply A2; lia).
    destruct (matched b) eqn:Mb.
    + destruct (B1 eq_refl) as (i & e & Hi & Fi & Fl & Gb).
      assert (Ft : from (x ++ sep :: y) (S (length x) + i) = Some (Some (S (length x) + e)))
        by (rewrite Fy by assumption; now rewrite Fi).
      assert (Fb : forall k, k < S (length x) + i -> from (x ++ sep :: y) k = Some None).
      { intros k Hk. destruct (Nat.lt_ge_cases k (S (length x))) as [|Hge]; [now apply None_before|].
        replace k with (S (length x) + (k - S (length x))) by lia. rewrite Fy by lia. now rewrite Fl by lia. }
      destruct (matched c) eqn:Mc.
      * destruct (C1 eq_refl) as (i' & e' & Hi' & Fi' & Fl' & Gc).
        destruct (U _ _ _ _ Ft Fb Fi' Fl') as [<- <-].
        split; [reflexivity|]. split; [discriminate|]. intros _ _. now exists i, e.
      * exfalso. specialize (C2 eq_refl (S (length x) + i) ltac:(lia)). congruence.
    + specialize (B2 eq_refl). split; [|split; discriminate].
      destruct (matched c) eqn:Mc; [|reflexivity]. exfalso.
      destruct (C1 eq_refl) as (i' & e' & Hi' & Fi' & _ & _).
      destruct (Nat.lt_ge_cases i' (S (length x))) as [Hlt|Hge]; [rewrite None_before in Fi' by assumption; discriminate|].
      replace i' with (S (length x) + (i' - S (length x))) in Fi' by lia.
      rewrite Fy, B2 in Fi' by lia. discriminate.
Qed.
