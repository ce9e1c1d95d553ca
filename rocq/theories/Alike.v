(** Characters matter only through the classes of the pattern: C79. *)
From Verif Require Import Basics Safe Calls Lift Matching Spec Cong Paths Exact Generators.
From Verif Require Import Results.
From Verif Require Export Api.

(** ** Specification *)

(** Some test of the pattern separates the two characters: a class accepts one of
    them and not the other, a line anchor sees only one of them as a line break, a
    word boundary sees only one of them as a word character. *)
Fixpoint tells_apart (cf : config) (n : node) (a b : ascii) : bool :=
  match n with
  | Lit _ | Range _ _ | Wild | CSet _ => xorb (accepts cf n a) (accepts cf n b)
  | BeginLine | EndLine => multiline cf && xorb (is_newline a) (is_newline b)
  | WordB => xorb (is_word_char a) (is_word_char b)
  | Seq l | Alt l => existsb (fun x => tells_apart cf x a b) l
  | Neg x | Cap _ _ x | Rep _ _ _ x | Look _ x => tells_apart cf x a b
  | Empty | BeginInput | EndInput | Backref _ | NBackref _ => false
  end.

(** What a backreference takes for the same character. *)
Definition equal_chars (cf : config) (a b : ascii) : Prop :=
  a = b \/ (icase cf = true /\ other_case a = b).

(** No test tells the texts apart, place by place. *)
Definition alike (cf : config) (n : node) (s1 s2 : list ascii) : Prop :=
  Forall2 (fun a b => tells_apart cf n a b = false) s1 s2.

(** The same places of the two texts hold equal characters. *)
Definition same_repeats (cf : config) (s1 s2 : list ascii) : Prop :=
  forall i j a a' b b', nth_error s1 i = Some a -> nth_error s2 i = Some a' ->
  nth_error s1 j = Some b -> nth_error s2 j = Some b' ->
  (equal_chars cf a b <-> equal_chars cf a' b').

(** ** Proof *)

Lemma xorb_false_eq a b : xorb a b = false -> a = b.
Proof. destruct a, b; cbn; congruence. Qed.

Lemma tells_accepts cf n a b : tells_apart cf n a b = false -> accepts cf n a = accepts cf n b.
Proof.
  induction n using node_ind'; intros E; cbn [tells_apart] in E;
    try (now apply xorb_false_eq); try reflexivity; cbn [accepts]; auto.
  - f_equal. auto.
  - destruct l as [|x [|y r]]; auto. cbn in E. rewrite orb_false_r in E.
    inversion H; auto.
  - induction l as [|x r IH]; [reflexivity|]. cbn in *. apply orb_false_iff in E as [E1 E2].
    inversion H; subst. f_equal; auto.
Qed.

Lemma existsb_rev {A} (f : A -> bool) l : existsb f (rev l) = existsb f l.
Proof.
  induction l as [|x r IH]; [reflexivity|]. cbn. rewrite existsb_app, IH. cbn.
  rewrite orb_false_r. apply orb_comm.
Qed.

Lemma existsb_map_ext {A B} (f : B -> bool) (h : A -> B) (k : A -> bool) l :
  Forall (fun x => f (h x) = k x) l -> existsb f (map h l) = existsb k l.
Proof. induction 1 as [|x r Hx _ IH]; cbn; [reflexivity|]. now rewrite Hx, IH. Qed.

Lemma tells_invert cf n a b : tells_apart cf (invert n) a b = tells_apart cf n a b.
Proof.
  induction n using node_ind'; try reflexivity.
  - change (xorb (accepts cf (invert (CSet l)) a) (accepts cf (invert (CSet l)) b)
            = xorb (accepts cf (CSet l) a) (accepts cf (CSet l) b)).
    now rewrite !accepts_invert.
  - exact IHn.
  - rewrite invert_Seq. cbn [tells_apart]. rewrite existsb_rev. now apply existsb_map_ext.
  - cbn [invert tells_apart]. now apply existsb_map_ext.
  - exact IHn.
  - exact IHn.
Qed.

Lemma Forall2_nth {A B} (P : A -> B -> Prop) u v : Forall2 P u v ->
  forall i a b, nth_error u i = Some a -> nth_error v i = Some b -> P a b.
Proof.
  induction 1 as [|x y u v Hxy Huv IH]; intros [|i] a b Ha Hb; cbn in Ha, Hb; try discriminate.
  - congruence.
  - eapply IH; eauto.
Qed.

Section Alike.
  Variable r : regex.
  Variable ct : category.
  Local Notation cf := (config_of (flags r) ct).
  Variables s1 s2 : list ascii.
  Hypothesis Halike : alike cf (ast r) s1 s2.
  Hypothesis Hrep : backref_free (ast r) = true \/ same_repeats cf s1 s2.

  (** Characters at the same place. *)
  Definition facing (a b : ascii) : Prop :=
    exists i, nth_error s1 i = Some a /\ nth_error s2 i = Some b.

  Definition not_told (n : node) : Prop :=
    (forall a b, facing a b -> tells_apart cf n a b = false)
    /\ (backref_free n = true \/ same_repeats cf s1 s2).

  Lemma same_repeats_eq a a' b b' : same_repeats cf s1 s2 -> facing a a' -> facing b b' ->
    backref_char_eq cf a b = backref_char_eq cf a' b'.
  Proof.
    intros H [i [Ha Ha']] [j [Hb Hb']]. apply eq_true_iff_eq. rewrite !backref_char_spec.
    exact (H i j a a' b b' Ha Ha' Hb Hb').
  Qed.

  Lemma facing_all : Forall2 facing s1 s2.
  Proof.
    assert (H : forall u v, length u = length v ->
      (forall i a b, nth_error u i = Some a -> nth_error v i = Some b -> facing a b) ->
      Forall2 facing u v).
    { induction u as [|x u IH]; intros [|y v] L H; try discriminate; constructor.
      - exact (H 0 x y eq_refl eq_refl).
      - apply IH; [now injection L|]. intros i. exact (H (S i)). }
    apply H.
    - exact (Forall2_length _ _ _ Halike).
    - intros i a b Ha Hb. exists i. auto.
  Qed.

  Lemma facing_not_told a b : facing a b -> tells_apart cf (ast r) a b = false.
  Proof.
    intros [i [Ha Hb]]. exact (Forall2_nth _ _ _ Halike i a b Ha Hb).
  Qed.

  Lemma existsb_out {A} (f : A -> bool) l x : existsb f l = false -> In x l -> f x = false.
  Proof.
    intros H Hx. destruct (f x) eqn:E; auto. exfalso.
    assert (existsb f l = true) by (apply existsb_exists; eauto). congruence.
  Qed.

  Theorem alike_calls : same_calls r r ct s1 s2.
  Proof.
    apply exact_calls; auto.
    - exact (Forall2_length _ _ _ Halike).
    - intros k cur c Hc Hk. unfold node_match.
      pose proof (map_mode_id (ast r)) as Hid.
      transitivity (m cf (group_names (ast r)) s2 (size (ast r)) 0
                      (map_mode (fun x => x) (ast r)) cur c k); [|now rewrite Hid].
      eapply (m_cong _ _ (group_names (ast r)) s1 s2 facing (fun x => x))
        with (ok := not_told); auto; try tauto.
      + intros l x [[H1 H2]|[H1 H2]] Hx; (split;
          [intros a b Hab; exact (existsb_out _ _ _ (H1 a b Hab) Hx)
          |destruct H2 as [H2|H2]; [left|now right];
           cbn in H2; rewrite forallb_forall in H2; auto]).
      + intros x [H1 H2]. split.
        * intros a b Hab. rewrite tells_invert. auto.
        * rewrite backref_free_invert. exact H2.
      + intros n a b [H1 H2] Hab. rewrite !match_one_accepts. apply tells_accepts. auto.
      + intros a b Ho Hm Hab. rewrite !linebreak_newline. apply xorb_false_eq.
        assert (Hx : (multiline cf && xorb (is_newline a) (is_newline b))%bool = false)
          by (destruct Ho as [[H1 _]|[H1 _]]; exact (H1 a b Hab)).
        rewrite Hm in Hx. exact Hx.
      + intros a b [H1 _] Hab. rewrite !word_word_char. apply xorb_false_eq. exact (H1 a b Hab).
      + intros a a' b b' Href Ha Hb. apply same_repeats_eq; auto.
        destruct Href as [[i [_ [H|H]]]|[nm [_ [H|H]]]]; auto; discriminate.
      + apply facing_all.
      + split; [exact facing_not_told|exact Hrep].
      + intros j c'. reflexivity.
  Qed.
End Alike.

(** Rewriting a text character by character. *)
Theorem recoded_calls r ct h s :
  (forall a, In a s -> tells_apart (config_of (flags r) ct) (ast r) a (h a) = false) ->
  backref_free (ast r) = true
  \/ (forall a b, In a s -> In b s ->
        (equal_chars (config_of (flags r) ct) a b
         <-> equal_chars (config_of (flags r) ct) (h a) (h b))) ->
  same_calls r r ct s (map h s).
Proof.
  intros H1 H2. apply alike_calls.
  - unfold alike. revert H1. clear. induction s as [|a s IH]; intros H; cbn; constructor.
    + apply H. now left.
    + apply IH. intros b Hb. apply H. now right.
  - destruct H2 as [H2|H2]; [now left|right].
    intros i j a a' b b' Ha Ha' Hb Hb'.
    rewrite nth_error_map, Ha in Ha'. rewrite nth_error_map, Hb in Hb'. cbn in Ha', Hb'.
    injection Ha' as <-. injection Hb' as <-.
    apply H2; eapply nth_error_In; eauto.
Qed.
