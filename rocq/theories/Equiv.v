(** Trees with the same paths give the same answers, in every context. *)
From Verif Require Import Matcher Api Basics Safe Cong Impl Spec Paths Mirror Adequacy Calls Lift
  Matching.

(** Both calls return, with the same verdict and the same matched range. *)
Definition same_answer (o1 o2 : call match_res) : Prop :=
  exists a b, o1 = Returned a /\ o2 = Returned b /\ matched a = matched b
    /\ (matched a = true -> group0 (groups a) = group0 (groups b)).

Definition same_answers (r1 r2 : regex) (ct : category) (s : list ascii) : Prop :=
  same_answer (regex_match r1 ct s) (regex_match r2 ct s)
  /\ same_answer (regex_match_prefix r1 ct s) (regex_match_prefix r2 ct s)
  /\ same_answer (regex_search r1 ct s) (regex_search r2 ct s).

Lemma same_paths_answers n1 n2 fl ct s :
  usable (mk_regex n1 fl) ct -> usable (mk_regex n2 fl) ct ->
  regular n1 = true -> regular n2 = true ->
  (forall i, paths (config_of fl ct) s n1 i = paths (config_of fl ct) s n2 i) ->
  same_answers (mk_regex n1 fl) (mk_regex n2 fl) ct s.
Proof.
  intros U1 U2 R1 R2 E. unfold same_answers, same_answer, regex_match, regex_match_prefix,
    regex_search, invoke. rewrite (proj1 U1), (proj1 U2). cbn [ast flags].
  set (cf := config_of fl ct) in *. split; [|split].
  - assert (H1 := match_method_paths _ _ s U1 R1 0 _ (Nat.le_0_l _) (initial_length _)).
    assert (H2 := match_method_paths _ _ s U2 R2 0 _ (Nat.le_0_l _) (initial_length _)).
    cbn [ast flags] in H1, H2. fold cf in H1, H2.
    destruct (match_method cf n1 _ _ _) as [c1 e1 b1| | |]; try contradiction.
    destruct (match_method cf n2 _ _ _) as [c2 e2 b2| | |]; try contradiction.
    cbn in *. destruct H1 as (_ & G1 & M1 & E1), H2 as (_ & G2 & M2 & E2).
    do 2 eexists. do 2 (split; [reflexivity|]). cbn. rewrite E, <- M2 in M1.
    assert (Hb : b1 = b2) by (destruct b1, b2; intuition congruence). split; auto.
    intros H. rewrite G1, G2, E1, E2; congruence.
  - assert (H1 := match_prefix_method_paths _ _ s U1 R1 0 _ (Nat.le_0_l _) (initial_length _)).
    assert (H2 := match_prefix_method_paths _ _ s U2 R2 0 _ (Nat.le_0_l _) (initial_length _)).
    cbn [ast flags] in H1, H2. fold cf in H1, H2.
    destruct (match_prefix_method cf n1 _ _ _) as [c1 e1 b1| | |]; try contradiction.
    destruct (match_prefix_method cf n2 _ _ _) as [c2 e2 b2| | |]; try contradiction.
    cbn in *. destruct H1 as (_ & G1 & M1), H2 as (_ & G2 & M2).
    do 2 eexists. do 2 (split; [reflexivity|]). cbn. unfold preferred in *.
    rewrite E, <- M2 in M1. destruct b1, b2; try discriminate; split; auto; try discriminate.
    intros _. congruence.
  - assert (H1 := search_method_paths _ _ s U1 R1 0 _ (Nat.le_0_l _) (initial_length _)).
    assert (H2 := search_method_paths _ _ s U2 R2 0 _ (Nat.le_0_l _) (initial_length _)).
    cbn [ast flags] in H1, H2. fold cf in H1, H2.
    destruct (search_method cf n1 _ _ _) as [c1 e1 b1| | |]; try contradiction.
    destruct (search_method cf n2 _ _ _) as [c2 e2 b2| | |]; try contradiction.
    cbn in *. destruct H1 as (_ & A & A'), H2 as (_ & B & B').
    assert (P : forall i, preferred cf s n1 i = preferred cf s n2 i).
    { intros i. unfold preferred. now rewrite E. }
    do 2 eexists. do 2 (split; [reflexivity|]). cbn. destruct b1, b2.
    + split; auto. intros _.
      destruct (A eq_refl) as (i & (? & Hi & Hi') & ->), (B eq_refl) as (j & (? & Hj & Hj') & ->).
      destruct (Nat.lt_trichotomy i j) as [Hlt|[->|Hlt]].
      * rewrite P, (Hj' i) in Hi by lia. discriminate.
      * rewrite P in Hi. congruence.
      * rewrite <- P, (Hi' j) in Hj by lia. discriminate.
    + destruct (A eq_refl) as (i & (? & Hi & Hi') & _). rewrite P, B' in Hi by auto. discriminate.
    + destruct (B eq_refl) as (i & (? & Hi & Hi') & _). rewrite <- P, A' in Hi by auto. discriminate.
    + split; [reflexivity|discriminate].
Qed.

(** ** Contexts: a tree with a hole (not inside a character class) *)

Inductive ctx :=
| Hole
| CSeq (l1 : list node) (C : ctx) (l2 : list node)
| CAlt (l1 : list node) (C : ctx) (l2 : list node)
| CCap (id : N) (nm : group_name) (C : ctx)
| CRep (md : match_mode) (lo : N) (hi : quantifier) (C : ctx)
| CLook (d : direction) (C : ctx)
| CNegLook (d : direction) (C : ctx).

Fixpoint plug (C : ctx) (x : node) : node :=
  match C with
  | Hole => x
  | CSeq l1 C l2 => Seq (l1 ++ plug C x :: l2)
  | CAlt l1 C l2 => Alt (l1 ++ plug C x :: l2)
  | CCap id nm C => Cap id nm (plug C x)
  | CRep md lo hi C => Rep md lo hi (plug C x)
  | CLook d C => Look d (plug C x)
  | CNegLook d C => Neg (Look d (plug C x))
  end.

Section Context.
  Variable cf : config.
  Variable s : list ascii.

  Lemma flat_map_eq {A B} (f g : A -> list B) l : (forall x, f x = g x) -> flat_map f l = flat_map g l.
  Proof. intros H. induction l; cbn; auto. now rewrite H, IHl. Qed.

  Lemma times_eq f g : (forall i, f i = g i) -> forall n i, times f n i = times g n i.
  Proof.
    intros H. induction n as [|n IH]; intros i; cbn [times]; auto. rewrite H. now apply flat_map_eq.
  Qed.

  Lemma greedy_eq f g : (forall i, f i = g i) ->
    forall b i, greedy_paths s f b i = greedy_paths s g b i.
  Proof.
    intros H b i. unfold greedy_paths. generalize (bound_fuel s b i). intros fu. revert b i.
    induction fu as [|fu IH]; intros b i; cbn [more_first]; auto. rewrite H.
    destruct b as [n|].
    - destruct (N.eqb n 0); auto. f_equal. apply flat_map_eq. auto.
    - f_equal. apply flat_map_eq. intros j. destruct (Nat.eqb i j); auto.
  Qed.

  Lemma lazy_eq f g : (forall i, f i = g i) ->
    forall b i, lazy_paths s f b i = lazy_paths s g b i.
  Proof.
    intros H b i. unfold lazy_paths. generalize (bound_fuel s b i). intros fu. revert b i.
    induction fu as [|fu IH]; intros b i; cbn [fewer_first]; auto. rewrite H.
    destruct b as [n|].
    - destruct (N.eqb n 0); auto. f_equal. apply flat_map_eq. auto.
    - f_equal. apply flat_map_eq. intros j. destruct (Nat.eqb i j); auto.
  Qed.

  Lemma paths_Rep_eq md lo hi x y : (forall i, paths cf s x i = paths cf s y i) ->
    forall i, paths cf s (Rep md lo hi x) i = paths cf s (Rep md lo hi y) i.
  Proof.
    intros H i. cbn [paths].
    assert (G : flat_map (greedy_paths s (paths cf s x) (remaining hi lo))
                  (times (paths cf s x) (N.to_nat lo) i)
                = flat_map (greedy_paths s (paths cf s y) (remaining hi lo))
                  (times (paths cf s y) (N.to_nat lo) i)).
    { rewrite (times_eq _ _ H). apply flat_map_eq. now apply greedy_eq. }
    assert (Z : flat_map (lazy_paths s (paths cf s x) (remaining hi lo))
                  (times (paths cf s x) (N.to_nat lo) i)
                = flat_map (lazy_paths s (paths cf s y) (remaining hi lo))
                  (times (paths cf s y) (N.to_nat lo) i)).
    { rewrite (times_eq _ _ H). apply flat_map_eq. now apply lazy_eq. }
    now rewrite G, Z.
  Qed.

  Lemma chain_app l1 l2 i :
    chain_paths (l1 ++ l2) i = flat_map (chain_paths l2) (chain_paths l1 i).
  Proof.
    revert i. induction l1 as [|f r IH]; intros i.
    - cbn. now rewrite app_nil_r.
    - cbn [app chain_paths].
      rewrite flat_map_eq with (g := fun j => flat_map (chain_paths l2) (chain_paths r j))
        by exact IH.
      induction (f i) as [|j q IHq]; cbn; auto. now rewrite flat_map_app, IHq.
  Qed.

  Lemma paths_plug C x y : (forall i, paths cf s x i = paths cf s y i) ->
    forall i, paths cf s (plug C x) i = paths cf s (plug C y) i.
  Proof.
    intros H. induction C; intros i; cbn [plug].
    - apply H.
    - rewrite !paths_Seq, !map_app, !chain_app. apply flat_map_eq. intros j. cbn [map chain_paths].
      now rewrite IHC.
    - cbn [paths]. rewrite !flat_map_app. cbn [flat_map]. now rewrite IHC.
    - apply IHC.
    - now apply paths_Rep_eq.
    - destruct d; cbn [paths]; [now rewrite IHC|].
      replace (existsb (fun k => existsb (Nat.eqb i) (paths cf s (plug C y) k)) (List.seq 0 (S i)))
        with (existsb (fun k => existsb (Nat.eqb i) (paths cf s (plug C x) k)) (List.seq 0 (S i)));
        [reflexivity|].
      induction (List.seq 0 (S i)); cbn [existsb]; auto. now rewrite IHl, IHC.
    - destruct d; cbn [paths is_class]; [now rewrite IHC|].
      replace (existsb (fun k => existsb (Nat.eqb i) (paths cf s (plug C y) k)) (List.seq 0 (S i)))
        with (existsb (fun k => existsb (Nat.eqb i) (paths cf s (plug C x) k)) (List.seq 0 (S i)));
        [reflexivity|].
      induction (List.seq 0 (S i)); cbn [existsb]; auto. now rewrite IHl, IHC.
  Qed.

  (** ** Quantifier shorthands (C20) *)

  Lemma flat_map_single {A} (l : list A) : flat_map (fun x => [x]) l = l.
  Proof. induction l; cbn; congruence. Qed.

  Lemma flat_map_flat_map {A B D} (f : A -> list B) (g : B -> list D) l :
    flat_map g (flat_map f l) = flat_map (fun x => flat_map g (f x)) l.
  Proof. induction l; cbn; auto. now rewrite flat_map_app, IHl. Qed.

  Lemma greedy_zero f i : greedy_paths s f (Fin 0) i = [i].
  Proof. reflexivity. Qed.
  Lemma lazy_zero f i : lazy_paths s f (Fin 0) i = [i].
  Proof. reflexivity. Qed.

  Lemma times_one f i : times f 1 i = f i.
  Proof. cbn [times]. apply flat_map_single. Qed.

  Lemma paths_exactly md n x i : md <> Possessive ->
    paths cf s (Rep md n (Fin n) x) i = times (paths cf s x) (N.to_nat n) i.
  Proof.
    intros Hm. cbn [paths remaining]. rewrite N.sub_diag.
    assert (G : forall l, flat_map (greedy_paths s (paths cf s x) (Fin 0)) l = l).
    { intros l. rewrite <- (flat_map_single l) at 2. now apply flat_map_eq. }
    assert (Z : forall l, flat_map (lazy_paths s (paths cf s x) (Fin 0)) l = l).
    { intros l. rewrite <- (flat_map_single l) at 2. now apply flat_map_eq. }
    rewrite G, Z. destruct md; [| |easy]; now destruct (ungreedy cf).
  Qed.

  Lemma paths_once md x i : md <> Possessive -> paths cf s (Rep md 1 (Fin 1) x) i = paths cf s x i.
  Proof. intros H. rewrite paths_exactly by assumption. apply times_one. Qed.

  Lemma paths_zero md x i : paths cf s (Rep md 0 (Fin 0) x) i = paths cf s Empty i.
  Proof. destruct md; cbn [paths]; try destruct (ungreedy cf); reflexivity. Qed.

  Lemma paths_split md n hi x i : md <> Possessive ->
    (match hi with Fin h => (n <= h)%N | Inf => True end) ->
    paths cf s (Rep md n hi x) i
    = paths cf s (Seq [Rep md n (Fin n) x; Rep md 0 (remaining hi n) x]) i.
  Proof.
    intros Hm Hh. rewrite paths_Seq. cbn [map chain_paths]. rewrite paths_exactly by assumption.
    rewrite flat_map_eq with (g := fun j => paths cf s (Rep md 0 (remaining hi n) x) j)
      by (intros; apply flat_map_single).
    cbn [paths]. change (N.to_nat 0) with 0. cbn [times flat_map].
    assert (Hrem : remaining (remaining hi n) 0 = remaining hi n).
    { destruct hi; cbn; auto. now rewrite N.sub_0_r. }
    rewrite Hrem.
    destruct md; [| |easy]; destruct (ungreedy cf); apply flat_map_eq; intros j; now rewrite app_nil_r.
  Qed.

  Lemma paths_plus md x i : md <> Possessive ->
    paths cf s (Rep md 1 Inf x) i = paths cf s (Seq [x; Rep md 0 Inf x]) i.
  Proof.
    intros Hm. rewrite paths_split by auto. rewrite !paths_Seq. cbn [map chain_paths remaining].
    now rewrite paths_once.
  Qed.

  Lemma paths_copies md n x i : md <> Possessive ->
    paths cf s (Rep md n (Fin n) x) i = paths cf s (Seq (repeat x (N.to_nat n))) i.
  Proof.
    intros Hm. rewrite paths_exactly by assumption. rewrite paths_Seq.
    generalize (N.to_nat n). intros k. revert i. induction k as [|k IH]; intros i; [reflexivity|].
    cbn [times repeat map chain_paths]. now apply flat_map_eq.
  Qed.
End Context.

(** The pairs of trees that quantifier shorthands identify. *)
Inductive shorthand : node -> node -> Prop :=
| sh_once md x : md <> Possessive -> shorthand (Rep md 1 (Fin 1) x) x
| sh_zero md x : shorthand (Rep md 0 (Fin 0) x) Empty
| sh_between md n k x : md <> Possessive ->
    shorthand (Seq [Rep md n (Fin n) x; Rep md 0 (Fin k) x]) (Rep md n (Fin (n + k)) x)
| sh_at_least md n x : md <> Possessive ->
    shorthand (Seq [Rep md n (Fin n) x; Rep md 0 Inf x]) (Rep md n Inf x)
| sh_plus md x : md <> Possessive -> shorthand (Seq [x; Rep md 0 Inf x]) (Rep md 1 Inf x)
| sh_copies md n x : md <> Possessive -> n <> 0%N ->
    shorthand (Seq (repeat x (N.to_nat n))) (Rep md n (Fin n) x).

Lemma shorthand_paths cf s x y i : shorthand x y -> paths cf s x i = paths cf s y i.
Proof.
  intros [md z Hm|md z|md n k z Hm|md n z Hm|md z Hm|md n z Hm Hn].
  - now apply paths_once.
  - apply paths_zero.
  - symmetry. rewrite paths_split by (auto; lia). cbn [remaining].
    replace (n + k - n)%N with k by lia. reflexivity.
  - symmetry. rewrite paths_split by auto. reflexivity.
  - symmetry. now apply paths_plus.
  - symmetry. now apply paths_copies.
Qed.

Theorem shorthands C x y fl ct s : shorthand x y ->
  usable (mk_regex (plug C x) fl) ct -> usable (mk_regex (plug C y) fl) ct ->
  regular (plug C x) = true -> regular (plug C y) = true ->
  same_answers (mk_regex (plug C x) fl) (mk_regex (plug C y) fl) ct s.
Proof.
  intros Hs U1 U2 R1 R2. apply same_paths_answers; auto.
  apply paths_plug. intros i. now apply shorthand_paths.
Qed.

Theorem possessive_atomic C lo hi x fl ct s : ~ In F_ungreedy fl ->
  usable (mk_regex (plug C (Rep Possessive lo hi x)) fl) ct ->
  usable (mk_regex (plug C (atomic (Rep Greedy lo hi x))) fl) ct ->
  regular (plug C (Rep Possessive lo hi x)) = true ->
  regular (plug C (atomic (Rep Greedy lo hi x))) = true ->
  same_answers (mk_regex (plug C (Rep Possessive lo hi x)) fl)
    (mk_regex (plug C (atomic (Rep Greedy lo hi x))) fl) ct s.
Proof.
  intros Hf U1 U2 R1 R2. apply same_paths_answers; auto.
  apply paths_plug. intros i. apply possessive_paths. cbn. now apply flag_test_not_In.
Qed.
