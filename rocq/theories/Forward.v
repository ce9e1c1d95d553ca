(** Matching on forward ranges (C56), the character helpers (C57). *)
From Verif Require Import Matcher Basics Safe Impl Spec Calls Lift Matching Api Views Scan Parsed.

(** The constructs that look back: word boundaries, backreferences and
    lookbehinds. *)
Fixpoint looks_back (n : node) : bool :=
  match n with
  | WordB | Backref _ | NBackref _ | Look Behind _ => true
  | CSet l | Seq l | Alt l => existsb looks_back l
  | Neg x | Cap _ _ x | Rep _ _ _ x | Look Ahead x => looks_back x
  | _ => false
  end.

Section Category.
  Variable cf1 cf2 : config.
  Variable names : list group_name.

  Lemma forward_compiles : forall f rd n,
    compiles cf1 names f rd n = true -> looks_back n = false -> compiles cf2 names f rd n = true.
  Proof.
    assert (all : forall f rd (l : list node),
              (forall n, compiles cf1 names f rd n = true -> looks_back n = false -> compiles cf2 names f rd n = true) ->
              forallb (compiles cf1 names f rd) l = true -> existsb looks_back l = false ->
              forallb (compiles cf2 names f rd) l = true).
    { intros f rd l IH. induction l as [|x r IHr]; cbn; auto. rewrite !andb_true_iff, orb_false_iff.
      intros [A B] [C D]. auto. }
    induction f as [|f IH]; intros rd n; [discriminate|]. destruct n; cbn [compiles looks_back]; auto; try discriminate.
    - rewrite !forallb_forall. intros H E x Hx. specialize (H x Hx). rewrite andb_true_iff in *.
      split; [apply H|]. apply IH; [apply H|]. destruct (looks_back x) eqn:L; auto.
      rewrite <- E. symmetry. apply existsb_exists. eauto.
    - rewrite !andb_true_iff. intros [A B] C. auto.
    - destruct l; [discriminate|]. eauto.
    - destruct l; [discriminate|]. eauto.
    - rewrite !andb_true_iff. intros [A B] C. auto.
    - rewrite !andb_true_iff. intros [A B] C. split; auto. destruct hi; auto.
      rewrite !andb_true_iff, !orb_true_iff in *. destruct A as [A [D|D]]; auto.
    - destruct d; [auto|discriminate].
  Qed.
End Category.

(** [^] under [multiline]. *)
Definition line_starts (r : regex) : bool := flag_test (flags r) F_multiline && has_begin_line (ast r).

Theorem forward_usable r : usable r BidirectionalIt -> looks_back (ast r) = false -> line_starts r = false ->
  usable r ForwardIt.
Proof.
  intros [Hc Hl] Hb Hs. split.
  - now apply (forward_compiles (config_of (flags r) BidirectionalIt)).
  - right. unfold line_starts in Hs. apply andb_false_iff in Hs. exact Hs.
Qed.

(** ** What does not compile on forward ranges *)

(** The same constructs outside the bodies of repetitions without iterations, which
    are never instantiated. *)
Fixpoint needs_back (n : node) : bool :=
  match n with
  | WordB | Backref _ | NBackref _ | Look Behind _ => true
  | CSet l | Seq l | Alt l => existsb needs_back l
  | Rep _ _ (Fin h) x => negb (N.eqb h 0) && needs_back x
  | Rep _ _ Inf x => needs_back x
  | Neg x | Cap _ _ x | Look Ahead x => needs_back x
  | _ => false
  end.

Section Exactly.
  Variable cf1 cf2 : config.
  Variable names : list group_name.
  Hypothesis H1 : is_bidirectional cf1 = false.
  Hypothesis H2 : is_bidirectional cf2 = true.

  Lemma compiles_back f : forall rd n,
    compiles cf1 names f rd n = compiles cf2 names f rd n && negb (needs_back n).
  Proof.
    induction f as [|f IH]; intros rd n; [reflexivity|].
    assert (All : forall l, forallb (compiles cf1 names f rd) l
              = forallb (compiles cf2 names f rd) l && negb (existsb needs_back l)).
    { induction l as [|x l IHl]; cbn; [reflexivity|]. rewrite IH, IHl.
      generalize (forallb (compiles cf2 names f rd) l) (existsb needs_back l). intros a b.
      destruct (compiles cf2 names f rd x), (needs_back x), a, b; reflexivity. }
    destruct n; cbn [compiles needs_back]; rewrite ?andb_true_r, ?H1, ?H2; cbn [andb negb]; auto.
    - induction l as [|x l IHl]; cbn; [reflexivity|]. rewrite IH, IHl.
      generalize (forallb (fun x => trivial x && compiles cf2 names f rd x) l) (existsb needs_back l). intros a b.
      destruct (trivial x), (compiles cf2 names f rd x), (needs_back x), a, b; reflexivity.
    - rewrite IH. now destruct (trivial n || is_assertion n), (compiles cf2 names f rd n).
    - destruct l; [reflexivity|]. apply All.
    - destruct l; [reflexivity|]. apply All.
    - rewrite IH. now rewrite !andb_assoc.
    - rewrite IH. destruct hi as [h|].
      + destruct (N.leb lo h), (N.eqb h 0), (compiles cf2 names f rd n), (needs_back n), (negb (trivial n) || N.ltb lo (2 ^ 63)); reflexivity.
      + destruct (compiles cf2 names f rd n), (needs_back n), (negb (trivial n) || N.ltb lo (2 ^ 63)); reflexivity.
    - now rewrite andb_false_r.
    - now rewrite andb_false_r.
    - destruct d; [apply IH|]. now rewrite andb_false_r.
  Qed.
End Exactly.

Lemma forward_compilable fl n :
  compilable (config_of fl ForwardIt) n = compilable (config_of fl BidirectionalIt) n && negb (needs_back n).
Proof. unfold compilable. now apply compiles_back. Qed.

Theorem forward_exactly r : usable r BidirectionalIt ->
  (needs_back (ast r) = true -> forall s k,
     regex_match r ForwardIt s = DoesNotCompile /\ regex_match_prefix r ForwardIt s = DoesNotCompile
     /\ regex_search r ForwardIt s = DoesNotCompile
     /\ tokenizer r ForwardIt s k = DoesNotCompile /\ searcher r ForwardIt s k = DoesNotCompile)
  /\ (line_starts r = false -> (usable r ForwardIt <-> needs_back (ast r) = false)).
Proof.
  intros [Hc Hl]. split.
  - intros H s k.
    assert (E : compilable (config_of (flags r) ForwardIt) (ast r) = false)
      by (rewrite forward_compilable, H; apply andb_false_r).
    unfold regex_match, regex_match_prefix, regex_search, invoke, tokenizer, searcher, generator_results. rewrite E.
    repeat split.
  - intros Hs. split.
    + intros [Hf _]. rewrite forward_compilable, Hc in Hf. now destruct (needs_back (ast r)).
    + intros H. split; [now rewrite forward_compilable, Hc, H|].
      right. unfold line_starts in Hs. apply andb_false_iff in Hs. exact Hs.
Qed.

(** ** Characters *)

Definition upper_code (x : N) : bool := N.leb 65 x && N.leb x 90.
Definition lower_code (x : N) : bool := N.leb 97 x && N.leb x 122.
Definition digit_code (x : N) : bool := N.leb 48 x && N.leb x 57.

Lemma helpers c :
  let x := code c in
  is_upper c = upper_code x /\ is_lower c = lower_code x /\ is_digit c = digit_code x
  /\ is_alpha c = (upper_code x || lower_code x)
  /\ is_word c = (upper_code x || lower_code x || digit_code x || N.eqb x 95)
  /\ is_hexdigit c = (digit_code x || (N.leb 65 x && N.leb x 70) || (N.leb 97 x && N.leb x 102))
  /\ code (to_lower c) = (if upper_code x then x + 32 else x)%N
  /\ code (to_upper c) = (if lower_code x then x - 32 else x)%N
  /\ code (invert_case c) = (if upper_code x then x + 32 else if lower_code x then x - 32 else x)%N.
Proof. cbv zeta. destruct c as [[] [] [] [] [] [] [] []]; vm_compute; repeat split; reflexivity. Qed.

(** ** Names *)

Lemma names_of_groups p n : Parser.parse p = Parser.P_ok n ->
  map (fun nm => (has_name nm, capture_name nm)) (group_names n)
  = (false, []) :: map (fun nm => match nm with Some t => (true, t) | None => (false, []) end) (scan InText p).
Proof.
  intros H. rewrite (parse_group_names _ _ H). cbn [map has_name capture_name]. f_equal.
  apply map_ext. now intros [t|].
Qed.
