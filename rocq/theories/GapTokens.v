(** The occurrences of a pattern are the ends of the tokens of the pattern behind a
    lazy gap (C85). *)
From Verif Require Import Matcher Api Xpr Parser Basics Safe Cong Impl Spec Paths Walk Calls Lift Matching Equiv Classes
  Regroup Pairs Normal Syntax Steps Typing Shape Reading Accepted Print Literal Expressions Composed Anchored
  Actual Contained Compose Held Gaps.
From Verif Require Uniform Scans Records.
From Coq Require Import Lia.

(** The parts of a text that end where the given occurrences end. *)
Fixpoint ending_there (p : nat) (l : list (nat * nat)) : list (nat * nat) :=
  match l with
  | [] => []
  | (_, e) :: r => (p, e) :: ending_there e r
  end.

Section Scan.
  Variables from from' : nat -> option (option nat).   (* of the pattern and behind the gap *)
  Variable len : nat.
  Hypothesis Hsome : forall p i e, Scans.next_match from len p i e -> from' p = Some (Some e).
  Hypothesis Hnone : forall p, p <= len -> (forall i, p <= i <= len -> from i = Some None) -> from' p = Some None.

  Lemma adjacent_there p l : Scans.leftmost_scan from len p l -> p <= len -> Forall (fun be => fst be < snd be) l ->
    forall l', Scans.adjacent_scan from' len p l' -> l' = ending_there p l.
  Proof.
    induction 1 as [p H|p i H|p i e l H He Hl IH]; intros Hp F l' A.
    - apply Hnone in H; [|exact Hp]. inversion A; subst; [reflexivity|congruence|congruence].
    - inversion F; subst. cbn in *. lia.
    - pose proof (Hsome _ _ _ H) as G. destruct H as (H1 & _). inversion F; subst.
      inversion A as [? N|? N|? e' l0 N Hj Hl0]; subst; [congruence| |].
      + assert (p = e) by congruence. lia.
      + assert (e' = e) as -> by congruence. cbn. f_equal. apply IH; auto. lia.
  Qed.
End Scan.

Section Trees.
  Variable n : node.
  Variable fl : list regex_flag.
  Variable ct : category.
  Let cf := config_of fl ct.
  Let r x := mk_regex x fl.
  Hypothesis U : usable (r n) ct.
  Hypothesis B : backref_free n = true.
  Variable s : list ascii.

  Lemma actual_gap p : p <= length s ->
    match actual cf s (Seq [gap (lazily cf); n]) p with
    | Some e => exists i, p <= i <= length s /\ actual cf s n i = Some e /\ forall i', p <= i' < i -> actual cf s n i' = None
    | None => forall i, p <= i <= length s -> actual cf s n i = None
    end.
  Proof.
    intros Hp. unfold actual. rewrite (walk_pair fl ct). fold cf.
    assert (Hm : lazily cf <> Possessive) by (unfold lazily; destruct (ungreedy cf); discriminate).
    rewrite walk_gap by assumption.
    replace (early cf (lazily cf)) with true by (unfold early, lazily; destruct (ungreedy cf) eqn:E; cbn; congruence).
    pose proof (hd_flat_map (walk cf s false false n) (seq p (S (length s - p)))) as H.
    destruct (hd_error (flat_map _ _)) as [e|].
    - destruct H as (l1 & i & l2 & E & He & F). exists i.
      assert (E1 : l1 = seq p (length l1) /\ i = p + length l1).
      { clear -E. revert E. generalize (S (length s - p)) as m. revert p. induction l1 as [|x l1 IH]; intros p [|m] E; try discriminate.
        - injection E as -> _. cbn. split; [reflexivity|lia].
        - injection E as -> E. apply IH in E as [E1 E2]. cbn. split; [now f_equal|lia]. }
      destruct E1 as [E1 ->]. assert (Hi : In (p + length l1) (seq p (S (length s - p)))) by (rewrite E; apply in_elt).
      apply in_seq in Hi. split; [lia|]. split; [exact He|]. intros i' Hi'.
      rewrite E1, Forall_forall in F. rewrite (F i'); [reflexivity|]. apply in_seq. lia.
    - intros i Hi. rewrite Forall_forall in H. rewrite H; [reflexivity|]. apply in_seq. lia.
  Qed.

  Theorem gap_tokens : exists k l bs, find_all (r n) ct s = Returned k
    /\ tokenize (r (Seq [gap (lazily cf); n])) ct s = Returned l
    /\ map (fun x => group0 (groups x)) k = map Some bs
    /\ (Forall (fun be => fst be < snd be) bs ->
        map (fun x => group0 (groups x)) l = map Some (ending_there 0 bs)).
  Proof.
    set (g := Seq [gap (lazily cf); n]).
    assert (Ug : usable (r g) ct) by (apply gap_usable; assumption).
    assert (Bg : backref_free g = true) by (cbn; now rewrite B).
    destruct (Scans.find_all_scan (r n) ct s U B) as (k & Ek & _ & bs & Bk & Sk).
    destruct (Scans.tokenize_scan (r g) ct s Ug) as (l & El & _ & bs' & Bl & Sl).
    exists k, l, bs. split; [exact Ek|]. split; [exact El|]. split; [exact Bk|]. intros F. rewrite Bl. f_equal.
    change (config_of (flags (r n)) ct) with cf in Sk. change (config_of (flags (r g)) ct) with cf in Sl.
    change (ast (r n)) with n in Sk. change (ast (r g)) with g in Sl.
    apply (adjacent_there (Uniform.prefix_from cf n s) (Uniform.prefix_from cf g s) (length s)) with (l := bs); auto; try lia.
    - intros p i e (H1 & H2 & H3). assert (Hp : p <= length s) by lia.
      rewrite Records.from_actual in H2 by (auto; lia). rewrite Records.from_actual by auto.
      pose proof (actual_gap p Hp) as A. fold g in A. injection H2 as H2. f_equal.
      assert (H3' : forall i', p <= i' < i -> actual cf s n i' = None).
      { intros i' Hi'. specialize (H3 i' Hi'). rewrite Records.from_actual in H3 by (auto; lia). congruence. }
      destruct (actual cf s g p) as [e'|].
      + destruct A as (j & J1 & J2 & J3). destruct (Nat.lt_trichotomy i j) as [Lt|[<-|Lt]].
        * rewrite J3 in H2 by lia. discriminate.
        * congruence.
        * rewrite H3' in J2 by lia. discriminate.
      + rewrite A in H2 by lia. discriminate.
    - intros p Hp H. rewrite Records.from_actual by auto. f_equal.
      pose proof (actual_gap p Hp) as A. fold g in A. destruct (actual cf s g p) as [e|]; [|reflexivity].
      destruct A as (j & J1 & J2 & _). specialize (H j J1). rewrite Records.from_actual in H by (auto; lia). congruence.
  Qed.
End Trees.

(** ** Regroupings have the same tokens *)

Lemma elements_fuel mt cf n s f g l : range_elements f mt cf n s g = Returned l -> length l < f.
Proof.
  revert g l. induction f as [|f IH]; intros g l E; [discriminate|]. cbn [range_elements] in E.
  destruct (next mt cf n s g) as [[x h]| | |]; try discriminate. destruct (matched x).
  - destruct (range_elements f mt cf n s h) as [l0| | |] eqn:E0; try discriminate. injection E as <-.
    apply IH in E0. cbn. lia.
  - injection E as <-. cbn. lia.
Qed.

Lemma generated_elements mt cf n s x l : forall f g, length l < f ->
  Forall (fun y => matched y = true) l -> matched x = false ->
  generate mt cf n s (S (length l)) g = Returned (l ++ [x]) -> range_elements f mt cf n s g = Returned l.
Proof.
  induction l as [|y l IH]; intros [|f] g Hf F Mx E; cbn [length] in Hf; try lia; cbn [range_elements].
  - cbn [length] in E. cbn [generate] in E. destruct (next mt cf n s g) as [[z h]| | |]; try discriminate.
    cbn in E. injection E as ->. now rewrite Mx.
  - cbn [length] in E. remember (S (length l)) as k eqn:K. cbn [generate] in E.
    destruct (next mt cf n s g) as [[z h]| | |]; try discriminate.
    destruct (generate mt cf n s k h) as [l0| | |] eqn:E0; try discriminate.
    assert (z = y /\ l0 = l ++ [x]) as [-> ->] by (cbn in E; split; congruence).
    inversion F; subst. rewrite H1. rewrite (IH f h); auto. lia.
Qed.

Lemma agreeing_tokens x y fl ct s : compilable (config_of fl ct) x = compilable (config_of fl ct) y ->
  (forall k, agree_lists (tokenizer (mk_regex x fl) ct s k) (tokenizer (mk_regex y fl) ct s k)) ->
  forall l, tokenize (mk_regex x fl) ct s = Returned l -> tokenize (mk_regex y fl) ct s = Returned l.
Proof.
  intros C A l E. destruct (proj1 (Generators.range_cuts_generator (mk_regex x fl) ct s) l E) as (F & z & Mz & G).
  specialize (A (S (length l))). rewrite G in A.
  destruct (tokenizer (mk_regex y fl) ct s (S (length l))) as [l2| | |] eqn:G2; cbn in A; try easy.
  apply Forall2_app_inv_l in A as (l3 & l4 & A3 & A4 & ->). inversion A4 as [|? z' ? l5 Hz Hn]; subst.
  inversion Hn; subst. cbn in Hz. destruct Hz as (Hz & _).
  assert (l3 = l) as ->.
  { clear -A3 F. induction A3 as [|a b l l3 H A3 IH]; [reflexivity|]. inversion F as [|? ? Ma F']; subst.
    rewrite (IH F'). f_equal. destruct H as (H1 & _ & H3). specialize (H3 Ma). destruct a, b. cbn in *. congruence. }
  unfold tokenize, range_of in E |- *. cbn [ast flags] in E |- *. rewrite C in E.
  unfold tokenizer, generator_results in G2. cbn [ast flags] in G2.
  destruct (compilable (config_of fl ct) y); [|discriminate].
  apply elements_fuel in E. apply (generated_elements _ _ _ _ z'); [exact E|exact F|now rewrite <- Hz|exact G2].
Qed.

(** ** Patterns *)

Theorem gap_tokens_pattern p n fl ct : parse p = P_ok n ->
  usable (mk_regex n fl) ct -> backref_free n = true ->
  exists a, parse (gap_text (lazily (config_of fl ct)) ++ grouped p) = P_ok a
    /\ forall s, exists k l bs, find_all (mk_regex n fl) ct s = Returned k
      /\ tokenize (mk_regex a fl) ct s = Returned l
      /\ map (fun x => group0 (groups x)) k = map Some bs
      /\ (Forall (fun be => fst be < snd be) bs ->
          map (fun x => group0 (groups x)) l = map Some (ending_there 0 bs)).
Proof.
  intros H U B. destruct (gap_patterns p n (lazily (config_of fl ct)) Greedy H) as (a & _ & Pa & _ & R & _).
  exists a. split; [exact Pa|]. intros s.
  destruct (gap_tokens n fl ct U B s) as (k & l & bs & Ek & El & Bk & F). exists k, l, bs.
  split; [exact Ek|]. split; [|split; [exact Bk|exact F]].
  destruct (regrouped_agree _ _ fl ct s R) as (_ & _ & _ & T & _).
  eapply agreeing_tokens; [|exact T|exact El].
  specialize (T 0). unfold tokenizer, generator_results in T. cbn [ast flags] in T.
  destruct (compilable _ (Seq [_; n])), (compilable _ a); cbn in T; easy.
Qed.
