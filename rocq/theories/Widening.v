(** Enlarging a part of a pattern enlarges what it matches (C72). *)
From Verif Require Import Matcher Api Basics Safe Cong Impl Spec Paths Mirror Adequacy Calls
  Lift Matching Actual Laws.
From Coq Require Import Lia.

(** Bounds of repetitions, the second at least as permissive. *)
Definition looser (lo : N) (hi : quantifier) (lo' : N) (hi' : quantifier) : Prop :=
  (lo' <= lo)%N /\ match hi, hi' with
                   | _, Inf => True
                   | Inf, Fin _ => False
                   | Fin h, Fin h' => (h <= h')%N
                   end.

(** [wider cf cf' x y]: [y] under the flags [cf'] is [x] under the flags [cf] with
    some parts enlarged; under a negation, with some parts made smaller. *)
Inductive wider : config -> config -> node -> node -> Prop :=
| wider_trans cf1 cf2 cf3 x y z : wider cf1 cf2 x y -> wider cf2 cf3 y z -> wider cf1 cf3 x z
(* leaves *)
| wider_leaf cf cf' x : In x [Empty; BeginInput; EndInput; WordB] -> wider cf cf' x x
| wider_line cf cf' x : In x [BeginLine; EndLine] ->
    (multiline cf = true -> multiline cf' = true) -> wider cf cf' x x
| wider_begin cf cf' : wider cf cf' BeginInput BeginLine
| wider_end cf cf' : wider cf cf' EndInput EndLine
| wider_class cf cf' x y : is_class x = true -> is_class y = true ->
    (forall c, accepts cf x c = true -> accepts cf' y c = true) -> wider cf cf' x y
(* inside a tree *)
| wider_seq_nil cf cf' : wider cf cf' (Seq []) (Seq [])
| wider_seq cf cf' x y l m : wider cf cf' x y -> wider cf cf' (Seq l) (Seq m) ->
    wider cf cf' (Seq (x :: l)) (Seq (y :: m))
| wider_alt_nil cf cf' m : wider cf cf' (Alt []) (Alt m)
| wider_alt cf cf' x y l m : In y m -> wider cf cf' x y -> wider cf cf' (Alt l) (Alt m) ->
    wider cf cf' (Alt (x :: l)) (Alt m)
| wider_rep cf cf' md lo hi md' lo' hi' x y : looser lo hi lo' hi' -> wider cf cf' x y ->
    wider cf cf' (Rep md lo hi x) (Rep md' lo' hi' y)
| wider_cap cf cf' i nm i' nm' x y : wider cf cf' x y -> wider cf cf' (Cap i nm x) (Cap i' nm' y)
| wider_look cf cf' d x y : wider cf cf' x y -> wider cf cf' (Look d x) (Look d y)
| wider_not cf cf' x y : is_class x = false -> is_class y = false -> wider cf' cf y x ->
    wider cf cf' (Neg x) (Neg y)
(* parts added or left out *)
| wider_choice cf cf' x y m : In y m -> wider cf cf' x y -> wider cf cf' x (Alt m)
| wider_once cf cf' md lo hi x y : looser 1 (Fin 1) lo hi -> wider cf cf' x y ->
    wider cf cf' x (Rep md lo hi y)
| wider_none cf cf' md hi y : wider cf cf' Empty (Rep md 0 hi y)
| wider_assertion cf cf' x : zero_width x = true -> wider cf cf' x Empty
| wider_drop cf cf' x l m : zero_width x = true -> wider cf cf' (Seq l) (Seq m) ->
    wider cf cf' (Seq (x :: l)) (Seq m)
| wider_add cf cf' md hi y l m : wider cf cf' (Seq l) (Seq m) ->
    wider cf cf' (Seq l) (Seq (Rep md 0 hi y :: m)).

Lemma looser_allowed lo hi lo' hi' n : looser lo hi lo' hi' -> allowed lo hi n -> allowed lo' hi' n.
Proof.
  unfold looser, allowed. destruct hi, hi'; intuition lia.
Qed.

Section Text.
  Variable s : list ascii.

  Lemma iterate_mono (p q : nat -> nat -> Prop) : (forall i j, p i j -> q i j) ->
    forall n i j, iterate p n i j -> iterate q n i j.
  Proof.
    intros H. induction n; intros i j; cbn; [auto|]. intros (k & H1 & H2). eauto.
  Qed.

  Lemma iterate_still (p : nat -> nat -> Prop) : (forall i j, p i j -> i = j) ->
    forall n i j, iterate p n i j -> i = j.
  Proof.
    intros H. induction n; intros i j; cbn; [auto|]. intros (k & H1 & H2).
    apply H in H1. apply IHn in H2. congruence.
  Qed.

  Lemma zero_width_still cf x : zero_width x = true -> forall i j, matches cf s x i j -> i = j.
  Proof.
    induction x using node_ind'; intros Z i j; cbn [zero_width] in Z; try discriminate Z;
      try (cbn; tauto).
    - cbn. destruct (is_class x); [discriminate|]. tauto.
    - revert i Z. induction l as [|x l IH]; intros i Z Hm; [exact Hm|].
      inversion_clear H. cbn in Z. apply andb_prop in Z as [Z1 Z2].
      apply (proj1 (mt_seq_cons _ _ _ _ _ _)) in Hm as (k & H2 & H3).
      apply H0 in H2; auto. apply IH in H3; auto. congruence.
    - intros Hm. apply (proj1 (mt_alt _ _ _ _ _)) in Hm as (x & Hx & Hm). rewrite Forall_forall in H.
      rewrite forallb_forall in Z. eapply H; eauto.
    - cbn. eauto.
    - cbn [matches]. intros (n & [_ Ha] & Hn). destruct hi as [h|].
      + apply orb_prop in Z as [Z|Z].
        * apply N.eqb_eq in Z. subst h. assert (n = 0) by lia. subst n. exact Hn.
        * eapply iterate_still; [|exact Hn]. intros. eapply IHx; eauto.
      + eapply iterate_still; [|exact Hn]. intros. eapply IHx; eauto.
    - cbn. destruct d; tauto.
  Qed.

  Theorem wider_matches cf cf' x y : wider cf cf' x y ->
    forall i j, matches cf s x i j -> matches cf' s y i j.
  Proof.
    induction 1; intros i0 j0.
    - auto.
    - cbn in H. intuition subst; cbn in *; auto.
    - cbn in H. destruct H as [<-|[<-|[]]]; cbn; unfold at_line_start, at_line_end; intros [-> H];
        (split; [reflexivity|]); apply orb_prop in H as [H|H]; rewrite ?H; auto;
        apply andb_prop in H as [H1 H2]; rewrite (H0 H1), H2; apply orb_true_r.
    - cbn. unfold at_line_start. intros [-> ->]. auto.
    - cbn. unfold at_line_end. intros [-> ->]. rewrite Nat.eqb_refl. auto.
    - rewrite !matches_class by assumption. intros [-> Hc]. split; [reflexivity|].
      unfold char_at in *. destruct (nth_error s i0); auto.
    - auto.
    - intros Hm. apply (proj1 (mt_seq_cons _ _ _ _ _ _)) in Hm as (k & H1 & H2). apply mt_seq_cons. eauto.
    - cbn. tauto.
    - intros [Hm|Hm]; [|exact (IHwider2 _ _ Hm)]. apply mt_alt. eauto.
    - cbn [matches]. intros (n & Ha & Hn). exists n. split; [eapply looser_allowed; eauto|].
      eapply iterate_mono; eauto.
    - cbn. auto.
    - cbn. destruct d; [intros [-> (k & Hk)]|intros [-> (k & Hk & Hm)]]; (split; [reflexivity|]); eauto.
    - cbn. rewrite H, H0. intros [-> Hn]. split; [reflexivity|]. intros (k & Hk). eauto.
    - intros Hm. apply mt_alt. eauto.
    - intros Hm. cbn [matches]. exists 1. split.
      + eapply looser_allowed; [exact H|]. split; cbn; lia.
      + cbn. eauto.
    - cbn [matches]. intros ->. exists 0. split; [|reflexivity]. unfold allowed.
      destruct hi; split; cbn; auto; lia.
    - intros Hm. cbn. eapply zero_width_still; eauto.
    - intros Hm. apply (proj1 (mt_seq_cons _ _ _ _ _ _)) in Hm as (k & H1 & H2). apply zero_width_still in H1; [|assumption].
      subst k. auto.
    - intros Hm. apply mt_seq_cons. exists i0. split; [|auto]. cbn [matches]. exists 0.
      split; [|reflexivity]. unfold allowed. destruct hi; split; cbn; auto; lia.
  Qed.
End Text.

(** The second call finds a match if the first one does. *)
Definition implies (a b : call match_res) : Prop :=
  exists x y, a = Returned x /\ b = Returned y /\ (matched x = true -> matched y = true).

(** And it does not start after that of the first one. *)
Definition no_later (a b : call match_res) : Prop :=
  exists x y, a = Returned x /\ b = Returned y
    /\ (matched x = true -> matched y = true /\ exists i e i' e',
          group0 (groups x) = Some (i, e) /\ group0 (groups y) = Some (i', e') /\ i' <= i).

Theorem wider_verdicts r1 r2 ct s :
  wider (config_of (flags r1) ct) (config_of (flags r2) ct) (ast r1) (ast r2) ->
  usable r1 ct -> regular (ast r1) = true -> possessive_free (ast r1) = true ->
  usable r2 ct -> regular (ast r2) = true -> possessive_free (ast r2) = true ->
  implies (regex_match r1 ct s) (regex_match r2 ct s)
  /\ implies (regex_match_prefix r1 ct s) (regex_match_prefix r2 ct s)
  /\ no_later (regex_search r1 ct s) (regex_search r2 ct s).
Proof.
  intros HL U1 R1 P1 U2 R2 P2.
  pose proof (wider_matches s _ _ _ _ HL) as E.
  assert (Q : forall i, i <= length s -> preferred (config_of (flags r1) ct) s (ast r1) i <> None ->
            preferred (config_of (flags r2) ct) s (ast r2) i <> None).
  { intros i Hi. rewrite (preferred_iff r1), (preferred_iff r2) by assumption.
    intros (j & Hj). eauto. }
  split; [|split].
  - destruct (match_language r1 ct s U1 R1 P1) as (x & Ex & Hx).
    destruct (match_language r2 ct s U2 R2 P2) as (y & Ey & Hy).
    exists x, y. repeat split; auto. rewrite Hx, Hy. apply E.
  - destruct (match_prefix_priority r1 ct s U1 R1) as (x & Ex & Hx).
    destruct (match_prefix_priority r2 ct s U2 R2) as (y & Ey & Hy).
    exists x, y. repeat split; auto. specialize (Q 0 (Nat.le_0_l _)).
    cbn in Hx, Hy.
    destruct (preferred _ s (ast r1) 0); [|congruence].
    destruct (preferred _ s (ast r2) 0); [destruct Hy; congruence|].
    destruct Q; congruence.
  - destruct (search_leftmost r1 ct s U1 R1) as (x & Ex & Hx1 & Hx2).
    destruct (search_leftmost r2 ct s U2 R2) as (y & Ey & Hy1 & Hy2).
    cbn in Hx1, Hx2, Hy1, Hy2.
    exists x, y. split; [exact Ex|]. split; [exact Ey|]. intros Mx.
    destruct (Hx1 Mx) as (i & e1 & Hi & Hp1 & Hl1 & G1).
    assert (Q' : preferred (config_of (flags r2) ct) s (ast r2) i <> None) by (apply Q; congruence).
    destruct (matched y) eqn:My.
    + split; [reflexivity|].
      destruct (Hy1 eq_refl) as (i' & e2 & Hi' & Hp2 & Hl2 & G2).
      exists i, e1, i', e2. repeat split; auto.
      destruct (le_lt_dec i' i); [assumption|]. now apply Hl2 in l.
    + exfalso. apply Q'. now apply Hy2.
Qed.

(** Trees without negation. *)
Fixpoint positive (n : node) : bool :=
  match n with
  | Neg _ => false
  | Seq l | Alt l | CSet l => forallb positive l
  | Cap _ _ x | Rep _ _ _ x | Look _ x => positive x
  | Backref _ | NBackref _ => false
  | _ => true
  end.

(** The flags that change which texts match, the second set with more of them. *)
Definition more_flags (cf cf' : config) : Prop :=
  (icase cf = true -> icase cf' = true) /\ (dotall cf = true -> dotall cf' = true)
  /\ (multiline cf = true -> multiline cf' = true).

Lemma accepts_more cf cf' n : more_flags cf cf' -> positive n = true ->
  forall c, accepts cf n c = true -> accepts cf' n c = true.
Proof.
  intros (Hi & Hd & _). induction n using node_ind'; intros P ch; cbn [positive] in P; try discriminate;
    try (cbn; congruence).
  - cbn. intros H. apply orb_prop in H as [H|H]; [rewrite (Hd H)|rewrite H, orb_true_r]; reflexivity.
  - cbn. unfold either_case. intros H. apply orb_prop in H as [H|H]; [now rewrite H|].
    apply andb_prop in H as [H1 H2]. rewrite (Hi H1), H2. apply orb_true_r.
  - cbn. unfold either_case. intros H. apply orb_prop in H as [H|H]; [now rewrite H|].
    apply andb_prop in H as [H1 H2]. rewrite (Hi H1), H2. apply orb_true_r.
  - cbn. rewrite !existsb_exists. intros (x & Hx & Ha). exists x. split; [assumption|].
    rewrite Forall_forall in H. rewrite forallb_forall in P. auto.
  - cbn. destruct l as [|x [|y l]]; auto. inversion_clear H. cbn in P. rewrite andb_true_r in P. auto.
  - cbn. rewrite !existsb_exists. intros (x & Hx & Ha). exists x. split; [assumption|].
    rewrite Forall_forall in H. rewrite forallb_forall in P. auto.
  - cbn. auto.
Qed.

Theorem flags_widen cf cf' n : more_flags cf cf' -> positive n = true -> wider cf cf' n n.
Proof.
  intros F. induction n using node_ind'; intros P; cbn [positive] in P; try discriminate;
    try (apply wider_leaf; cbn; tauto); try (apply wider_line; [cbn; tauto|apply F]);
    try (apply wider_class; [reflexivity|reflexivity|now apply accepts_more]).
  - induction l as [|x l IH]; [apply wider_seq_nil|]. inversion_clear H. cbn in P.
    apply andb_prop in P as [P1 P2]. apply wider_seq; auto.
  - assert (G : forall m, incl m l -> wider cf cf' (Alt m) (Alt l)).
    { induction m as [|x m IH]; intros Hm; [apply wider_alt_nil|]. rewrite Forall_forall in H.
      rewrite forallb_forall in P. apply wider_alt with (y := x).
      - apply Hm. now left.
      - apply H; [|apply P]; apply Hm; now left.
      - apply IH. intros z Hz. apply Hm. now right. }
    apply G, incl_refl.
  - apply wider_cap. auto.
  - apply wider_rep; [|auto]. split; [lia|]. destruct hi; auto; lia.
  - apply wider_look. auto.
Qed.

Lemma more_flags_of fl fl' ct : incl fl fl' -> more_flags (config_of fl ct) (config_of fl' ct).
Proof.
  intros H. unfold more_flags, config_of, flag_test. cbn [icase dotall multiline].
  repeat split; rewrite !existsb_exists; intros (x & Hx & E); exists x; auto.
Qed.

Theorem flags_only_add n fl fl' ct s : incl fl fl' -> positive n = true ->
  let r1 := mk_regex n fl in let r2 := mk_regex n fl' in
  usable r1 ct -> usable r2 ct -> regular n = true -> possessive_free n = true ->
  implies (regex_match r1 ct s) (regex_match r2 ct s)
  /\ implies (regex_match_prefix r1 ct s) (regex_match_prefix r2 ct s)
  /\ no_later (regex_search r1 ct s) (regex_search r2 ct s).
Proof.
  intros Hf Hp r1 r2 U1 U2 R P. apply wider_verdicts; auto. cbn.
  apply flags_widen; [|assumption]. now apply more_flags_of.
Qed.
