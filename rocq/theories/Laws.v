(** Laws of regular expressions that keep the verdicts (C70). *)
From Verif Require Import Matcher Api Basics Safe Cong Impl Spec Paths Mirror Adequacy Calls
  Lift Matching Actual.
From Coq Require Import Lia Permutation.

Definition star (x : node) : node := Rep Greedy 0 Inf x.

(** The upper bound of two repetitions one after the other. *)
Definition bound_sum (a b : quantifier) : quantifier :=
  match a, b with Fin x, Fin y => Fin (x + y) | _, _ => Inf end.
Definition bound_ok (lo : N) (hi : quantifier) : Prop :=
  match hi with Fin h => (lo <= h)%N | Inf => True end.

(** The laws of Kleene algebras and of counted repetitions, and that modes, names
    and numbers of groups and the groups themselves make no difference; used
    anywhere in a tree, any number of times, in both directions. *)
Inductive law : node -> node -> Prop :=
(* equality *)
| law_refl x : law x x
| law_sym x y : law x y -> law y x
| law_trans x y z : law x y -> law y z -> law x z
(* inside a tree *)
| law_seq l l' x y : law x y -> law (Seq (l ++ x :: l')) (Seq (l ++ y :: l'))
| law_alt l l' x y : law x y -> law (Alt (l ++ x :: l')) (Alt (l ++ y :: l'))
| law_rep md lo hi x y : law x y -> law (Rep md lo hi x) (Rep md lo hi y)
| law_cap i nm x y : law x y -> law (Cap i nm x) (Cap i nm y)
| law_look d x y : law x y -> law (Look d x) (Look d y)
| law_not d x y : law x y -> law (Neg (Look d x)) (Neg (Look d y))
(* concatenation *)
| law_seq_one x : law (Seq [x]) x
| law_seq_none : law (Seq []) Empty
| law_seq_unit l l' : law (Seq (l ++ Empty :: l')) (Seq (l ++ l'))
| law_seq_flat l m l' : law (Seq (l ++ Seq m :: l')) (Seq (l ++ m ++ l'))
(* alternation *)
| law_alt_one x : law (Alt [x]) x
| law_alt_flat l m l' : law (Alt (l ++ Alt m :: l')) (Alt (l ++ m ++ l'))
| law_alt_order l l' : Permutation l l' -> law (Alt l) (Alt l')
| law_alt_twice x l : In x l -> law (Alt (x :: l)) (Alt l)
| law_distribute l m l' : law (Seq (l ++ Alt m :: l')) (Alt (map (fun x => Seq (l ++ x :: l')) m))
(* star *)
| law_star x : law (star x) (Alt [Empty; Seq [x; star x]])
| law_star_star x : law (star (star x)) (star x)
| law_star_alt x y : law (star (Alt [x; y])) (Seq [star (Seq [star x; y]); star x])
| law_star_slide x y : law (Seq [star (Seq [x; y]); x]) (Seq [x; star (Seq [y; x])])
(* counts *)
| law_mode md md' lo hi x : law (Rep md lo hi x) (Rep md' lo hi x)
| law_times_none md x : law (Rep md 0 (Fin 0) x) Empty
| law_times_one md x : law (Rep md 1 (Fin 1) x) x
| law_times_add md l1 h1 l2 h2 x : bound_ok l1 h1 -> bound_ok l2 h2 ->
    law (Seq [Rep md l1 h1 x; Rep md l2 h2 x]) (Rep md (l1 + l2) (bound_sum h1 h2) x)
| law_times_times md p q x :
    law (Rep md p (Fin p) (Rep md q (Fin q) x)) (Rep md (p * q) (Fin (p * q)) x)
(* groups *)
| law_group i nm x : law (Cap i nm x) x.

Section Sound.
  Variable cf : config.
  Variable s : list ascii.
  Local Notation mt := (matches cf s).

  Definition same (r1 r2 : nat -> nat -> Prop) : Prop := forall i j, r1 i j <-> r2 i j.

  Lemma mt_seq l i j : mt (Seq l) i j <-> chain (map mt l) i j.
  Proof. apply matches_Seq. Qed.
  Lemma mt_alt l i j : mt (Alt l) i j <-> exists x, In x l /\ mt x i j.
  Proof. apply matches_Alt. Qed.

  Lemma chain_app' l1 l2 i j : chain (l1 ++ l2) i j <-> exists k, chain l1 i k /\ chain l2 k j.
  Proof.
    revert i. induction l1 as [|r l IH]; intros i; cbn.
    - split; [intros H; exists i; auto|intros (k & <- & H); exact H].
    - split.
      + intros (k & H & Hl). apply IH in Hl as (k' & H1 & H2). eauto 6.
      + intros (k & (k' & H1 & H2) & H3). exists k'. split; auto. apply IH. eauto.
  Qed.

  Lemma mt_seq_app l l' i j : mt (Seq (l ++ l')) i j <-> exists k, mt (Seq l) i k /\ mt (Seq l') k j.
  Proof.
    rewrite mt_seq, map_app, chain_app'.
    split; intros (k & H1 & H2); exists k; (split; [apply mt_seq, H1|apply mt_seq, H2]).
  Qed.
  Lemma mt_seq_cons x l i j : mt (Seq (x :: l)) i j <-> exists k, mt x i k /\ mt (Seq l) k j.
  Proof. rewrite mt_seq. cbn [map chain]. 
    split; intros (k & H1 & H2); exists k; (split; [exact H1|apply mt_seq, H2]). Qed.
  Lemma mt_seq_nil i j : mt (Seq []) i j <-> i = j.
  Proof. reflexivity. Qed.
  Lemma mt_seq2 x y i j : mt (Seq [x; y]) i j <-> exists k, mt x i k /\ mt y k j.
  Proof.
    rewrite mt_seq_cons. split; intros (k & H1 & H2); exists k; split; auto.
    - apply mt_seq_cons in H2 as (k' & H2 & H3). cbn in H3. now subst.
    - apply mt_seq_cons. exists j. split; auto. reflexivity.
  Qed.
  Lemma mt_alt2 x y i j : mt (Alt [x; y]) i j <-> mt x i j \/ mt y i j.
  Proof.
    rewrite mt_alt. split.
    - intros (z & [<-|[<-|[]]] & H); auto.
    - intros [H|H]; eexists; (split; [|exact H]); cbn; auto.
  Qed.
  Lemma mt_rep md lo hi x i j : mt (Rep md lo hi x) i j <-> exists n, allowed lo hi n /\ iterate (mt x) n i j.
  Proof. reflexivity. Qed.
  Lemma mt_star x i j : mt (star x) i j <-> exists n, iterate (mt x) n i j.
  Proof.
    unfold star. rewrite mt_rep. split.
    - intros (n & _ & H). eauto.
    - intros (n & H). exists n. split; auto. split; [lia|exact I].
  Qed.

  Lemma iterate_plus (r : nat -> nat -> Prop) n m i j :
    iterate r (n + m) i j <-> exists k, iterate r n i k /\ iterate r m k j.
  Proof.
    revert i. induction n as [|n IH]; intros i; cbn.
    - split; [intros H; exists i; auto|intros (k & <- & H); exact H].
    - split.
      + intros (k & H & Hl). apply IH in Hl as (k' & H1 & H2). eauto 6.
      + intros (k & (k' & H1 & H2) & H3). exists k'. split; auto. apply IH. eauto.
  Qed.
  Lemma iterate_same (r1 r2 : nat -> nat -> Prop) : same r1 r2 -> forall n, same (iterate r1 n) (iterate r2 n).
  Proof.
    intros H. induction n as [|n IH]; intros i j; cbn; [reflexivity|].
    split; intros (k & H1 & H2); exists k; (split; [now apply H|now apply IH]).
  Qed.
  Lemma iterate_mul (r : nat -> nat -> Prop) n m : same (iterate (iterate r m) n) (iterate r (n * m)).
  Proof.
    induction n as [|n IH]; intros i j; cbn; [reflexivity|]. rewrite iterate_plus.
    split; intros (k & H1 & H2); exists k; (split; auto; now apply IH).
  Qed.
  Lemma iterate_one (r : nat -> nat -> Prop) i j : iterate r 1 i j <-> r i j.
  Proof. cbn. split; [intros (k & H & <-); exact H|intros H; eauto]. Qed.

  Lemma star_refl x i : mt (star x) i i.
  Proof. apply mt_star. exists 0. reflexivity. Qed.
  Lemma star_step x i k j : mt x i k -> mt (star x) k j -> mt (star x) i j.
  Proof. rewrite !mt_star. intros H (n & Hn). exists (S n). exists k. auto. Qed.
  Lemma star_trans x i k j : mt (star x) i k -> mt (star x) k j -> mt (star x) i j.
  Proof. rewrite !mt_star. intros (n & Hn) (m & Hm). exists (n + m). apply iterate_plus. eauto. Qed.
  Lemma star_once x i j : mt x i j -> mt (star x) i j.
  Proof. intros H. eapply star_step; [exact H|apply star_refl]. Qed.
  Lemma star_induct x (r : nat -> nat -> Prop) : (forall i, r i i) ->
    (forall i k j, mt x i k -> r k j -> r i j) -> forall i j, mt (star x) i j -> r i j.
  Proof.
    intros H0 H1 i j H. apply mt_star in H as (n & H). revert i H.
    induction n as [|n IH]; cbn; intros i; [intros <-; apply H0|]. intros (k & Hk & H). eauto.
  Qed.

  Lemma law_sound x y : law x y -> same (mt x) (mt y).
  Proof.
    induction 1; intros a b.
    - reflexivity.
    - symmetry. apply IHlaw.
    - rewrite (IHlaw1 a b). apply IHlaw2.
    - rewrite !mt_seq_app. split; intros (k & H1 & H2); exists k; (split; [exact H1|]);
        apply mt_seq_cons; apply mt_seq_cons in H2 as (k' & H2 & H3); exists k'; (split; [now apply IHlaw|exact H3]).
    - rewrite !mt_alt. split; intros (z & Hz & Hm); apply in_app_iff in Hz as [Hz|[<-|Hz]];
        try (exists z; split; [apply in_app_iff; cbn; auto|exact Hm]).
      + exists y. split; [apply in_app_iff; cbn; auto|now apply IHlaw].
      + exists x. split; [apply in_app_iff; cbn; auto|now apply IHlaw].
    - rewrite !mt_rep. split; intros (n & Hn & Hi); exists n; (split; [exact Hn|]).
      + now apply (iterate_same _ _ IHlaw).
      + now apply (iterate_same _ _ IHlaw).
    - apply IHlaw.
    - destruct d; cbn [matches]; split; intros (E & k & H1); (split; [exact E|]); exists k.
      + now apply IHlaw. + now apply IHlaw.
      + destruct H1. split; auto. now apply IHlaw.
      + destruct H1. split; auto. now apply IHlaw.
    - assert (E : forall c, (exists k, mt (Look d x) c k) <-> (exists k, mt (Look d y) c k)).
      { intros c. destruct d; cbn [matches].
        - split; intros (k & Hk & k' & H1); exists k; (split; [exact Hk|]); exists k'; now apply IHlaw.
        - split; intros (k & Hk & k' & H1 & H2); exists k; (split; [exact Hk|]); exists k';
            (split; [exact H1|]); now apply IHlaw. }
      change (a = b /\ ~ (exists k, mt (Look d x) a k) <-> a = b /\ ~ (exists k, mt (Look d y) a k)).
      now rewrite E.
    - rewrite mt_seq_cons. split; [intros (k & H1 & H2); cbn in H2; now subst|].
      intros H. exists b. split; auto. reflexivity.
    - reflexivity.
    - rewrite !mt_seq_app. split; intros (k & H1 & H2); exists k; (split; [exact H1|]).
      + apply mt_seq_cons in H2 as (k' & H2 & H3). cbn in H2. now subst.
      + apply mt_seq_cons. exists k. split; [reflexivity|exact H2].
    - rewrite !mt_seq_app. split; intros (k & H1 & H2); exists k; (split; [exact H1|]).
      + apply mt_seq_cons in H2 as (k' & H2 & H3). apply mt_seq_app. eauto.
      + apply mt_seq_cons. apply mt_seq_app in H2 as (k' & H2 & H3). eauto.
    - rewrite mt_alt. split; [intros (z & [<-|[]] & H); exact H|]. intros H. exists x. cbn. auto.
    - rewrite !mt_alt. split.
      + intros (z & Hz & Hm). apply in_app_iff in Hz as [Hz|[<-|Hz]].
        * exists z. split; [apply in_app_iff; auto|exact Hm].
        * apply mt_alt in Hm as (w & Hw & Hm). exists w. split; [|exact Hm]. rewrite !in_app_iff. auto.
        * exists z. split; [rewrite !in_app_iff; auto|exact Hm].
      + intros (z & Hz & Hm). rewrite !in_app_iff in Hz. destruct Hz as [Hz|[Hz|Hz]].
        * exists z. split; [apply in_app_iff; auto|exact Hm].
        * exists (Alt m). split; [apply in_app_iff; cbn; auto|]. apply mt_alt. eauto.
        * exists z. split; [apply in_app_iff; cbn; auto|exact Hm].
    - rewrite !mt_alt. split; intros (z & Hz & Hm); exists z; (split; [|exact Hm]).
      + eapply Permutation_in; eauto.
      + eapply Permutation_in; [apply Permutation_sym|]; eauto.
    - rewrite !mt_alt. split.
      + intros (z & [<-|Hz] & Hm); eauto.
      + intros (z & Hz & Hm). exists z. cbn. auto.
    - rewrite mt_alt, mt_seq_app. split.
      + intros (k & H1 & H2). apply mt_seq_cons in H2 as (k' & H2 & H3).
        apply mt_alt in H2 as (z & Hz & H2). exists (Seq (l ++ z :: l')). split.
        * apply in_map_iff. eauto.
        * apply mt_seq_app. exists k. split; auto. apply mt_seq_cons. eauto.
      + intros (z & Hz & Hm). apply in_map_iff in Hz as (w & <- & Hw).
        apply mt_seq_app in Hm as (k & H1 & H2). exists k. split; auto.
        apply mt_seq_cons in H2 as (k' & H2 & H3). apply mt_seq_cons. exists k'. split; auto.
        apply mt_alt. eauto.
    - rewrite mt_alt2, mt_seq2. split.
      + intros H. apply mt_star in H as ([|n] & H); cbn [iterate] in H; [left; exact H|right].
        destruct H as (k & H1 & H2). exists k. split; auto. apply mt_star. eauto.
      + intros [H|(k & H1 & H2)]; [cbn in H; subst; apply star_refl|]. eapply star_step; eauto.
    - split.
      + revert a b. apply star_induct; [apply star_refl|]. intros i k j. apply star_trans.
      + apply star_once.
    - rewrite mt_seq2. split.
      + revert a b. apply star_induct.
        * intros i. exists i. split; apply star_refl.
        * intros i k j H (k' & H1 & H2). apply mt_alt2 in H as [H|H].
          -- apply mt_star in H1 as ([|n] & H1); cbn [iterate] in H1.
             ++ subst. exists i. split; [apply star_refl|]. eapply star_step; eauto.
             ++ destruct H1 as (k2 & H3 & H4). exists k'. split; auto.
                apply mt_seq2 in H3 as (k3 & H5 & H6).
                eapply star_step; [|apply mt_star; exists n; exact H4].
                apply mt_seq2. exists k3. split; auto. eapply star_step; eauto.
          -- exists k'. split; auto. eapply star_step; eauto. apply mt_seq2. exists i. split; auto.
             apply star_refl.
      + intros (k & H1 & H2).
        assert (G : forall i j, mt (star x) i j -> mt (star (Alt [x; y])) i j).
        { apply star_induct; [apply star_refl|]. intros i k0 j H H'. eapply star_step; [|exact H'].
          apply mt_alt2. auto. }
        apply G in H2. revert a k H1 b H2.
        enough (G2 : forall a k, mt (star (Seq [star x; y])) a k ->
                  mt (star (Alt [x; y])) a k) by (intros; eapply star_trans; eauto).
        apply star_induct; [apply star_refl|]. intros i k0 j H H'.
        apply mt_seq2 in H as (k1 & Ha & Hb). apply G in Ha. eapply star_trans; [exact Ha|].
        eapply star_step; [|exact H']. apply mt_alt2. auto.
    - rewrite !mt_seq2. split.
      + intros (k & H1 & H2). revert a k H1 b H2.
        enough (G2 : forall a k, mt (star (Seq [x; y])) a k -> forall b, mt x k b ->
           exists k0, mt x a k0 /\ mt (star (Seq [y; x])) k0 b) by (intros; eauto).
        apply (star_induct (Seq [x; y]) (fun a k => forall b, mt x k b ->
           exists k0, mt x a k0 /\ mt (star (Seq [y; x])) k0 b)).
        * intros i b H. exists b. split; [exact H|apply star_refl].
        * intros i k j H IH b Hb. apply mt_seq2 in H as (k1 & Ha & Hc).
          destruct (IH b Hb) as (k2 & H1 & H2). exists k1. split; [exact Ha|].
          eapply star_step; [|exact H2]. apply mt_seq2. eauto.
      + intros (k & H1 & H2). revert k b H2 a H1.
        enough (G2 : forall k b, mt (star (Seq [y; x])) k b -> forall a, mt x a k ->
           exists k0, mt (star (Seq [x; y])) a k0 /\ mt x k0 b) by (intros; eauto).
        apply (star_induct (Seq [y; x]) (fun k b => forall a, mt x a k ->
           exists k0, mt (star (Seq [x; y])) a k0 /\ mt x k0 b)).
        * intros i a H. exists a. split; [apply star_refl|exact H].
        * intros i k j H IH a Ha. apply mt_seq2 in H as (k1 & Hb & Hc).
          destruct (IH k1 Hc) as (k2 & H1 & H2). exists k2. split; [|exact H2].
          eapply star_step; [|exact H1]. apply mt_seq2. eauto.
    - reflexivity.
    - rewrite mt_rep. split.
      + intros (n & Hn & H). replace n with 0 in H by (unfold allowed in Hn; lia). exact H.
      + intros H. exists 0. split; [unfold allowed; lia|exact H].
    - rewrite mt_rep. split.
      + intros (n & Hn & H). replace n with 1 in H by (unfold allowed in Hn; lia). now apply iterate_one.
      + intros H. exists 1. split; [unfold allowed; lia|now apply iterate_one].
    - rewrite mt_seq2. split.
      + intros (k & (n & Hn & H3) & (m & Hm & H4)). exists (n + m). split.
        * clear - Hn Hm. unfold allowed, bound_sum in *. destruct h1, h2; lia.
        * apply iterate_plus. eauto.
      + intros (n & Hn & H3).
        assert (E : exists n1 n2, n = n1 + n2 /\ allowed l1 h1 n1 /\ allowed l2 h2 n2).
        { clear - H H0 Hn. unfold allowed, bound_sum, bound_ok in *. destruct h1 as [h1|], h2 as [h2|].
          - exists (N.to_nat (N.max l1 (N.of_nat n - h2))), (N.to_nat (N.min h2 (N.of_nat n - l1))). lia.
          - exists (N.to_nat l1), (n - N.to_nat l1). lia.
          - exists (n - N.to_nat l2), (N.to_nat l2). lia.
          - exists (N.to_nat l1), (n - N.to_nat l1). lia. }
        destruct E as (n1 & n2 & -> & E1 & E2). apply iterate_plus in H3 as (k & H1 & H2).
        exists k. split; [exists n1|exists n2]; auto.
    - assert (A : forall c n, allowed c (Fin c) n <-> n = N.to_nat c) by (intros; unfold allowed; lia).
      assert (E : forall c z, same (mt (Rep md c (Fin c) z)) (iterate (mt z) (N.to_nat c))).
      { intros c z i j. rewrite mt_rep. split.
        - intros (n & Hn & H). apply A in Hn. now subst.
        - intros H. exists (N.to_nat c). split; [now apply A|exact H]. }
      rewrite (E _ _ a b), (E _ _ a b).
      rewrite (iterate_same _ _ (E q x) _ a b), (iterate_mul _ _ _ a b).
      replace (N.to_nat (p * q)) with (N.to_nat p * N.to_nat q) by lia. reflexivity.
    - reflexivity.
  Qed.
End Sound.

(** ** Verdicts *)

(** Same verdict. *)
Definition verdicts (a b : call match_res) : Prop :=
  exists x y, a = Returned x /\ b = Returned y /\ matched x = matched y.

(** Same verdict and, if positive, matches that start at the same offset. *)
Definition starts (a b : call match_res) : Prop :=
  exists x y, a = Returned x /\ b = Returned y /\ matched x = matched y
    /\ (matched x = true -> exists i e1 e2,
          group0 (groups x) = Some (i, e1) /\ group0 (groups y) = Some (i, e2)).

Lemma bool_iff (a b : bool) (P Q : Prop) : (a = true <-> P) -> (b = true <-> Q) -> (P <-> Q) -> a = b.
Proof. destruct a, b; intuition congruence. Qed.

Lemma preferred_iff r ct s i : usable r ct -> possessive_free (ast r) = true -> i <= length s ->
  (preferred (config_of (flags r) ct) s (ast r) i <> None
   <-> exists j, matches (config_of (flags r) ct) s (ast r) i j).
Proof.
  intros Hu Hp Hi.
  assert (W : well_formed (ast r) = true) by (destruct Hu as [Hc _]; eapply compiles_well_formed; exact Hc).
  split.
  - destruct (preferred _ s (ast r) i) as [e|] eqn:P; [|easy]. intros _. exists e.
    apply preferred_in in P. now apply in_paths in P.
  - intros (j & Hj). apply (in_paths _ _ _ Hp W i j Hi) in Hj. now apply in_preferred in Hj.
Qed.

Theorem laws_keep_verdicts n1 n2 fl ct s : law n1 n2 ->
  let r1 := mk_regex n1 fl in let r2 := mk_regex n2 fl in
  usable r1 ct -> regular n1 = true -> possessive_free n1 = true ->
  usable r2 ct -> regular n2 = true -> possessive_free n2 = true ->
  verdicts (regex_match r1 ct s) (regex_match r2 ct s)
  /\ verdicts (regex_match_prefix r1 ct s) (regex_match_prefix r2 ct s)
  /\ starts (regex_search r1 ct s) (regex_search r2 ct s).
Proof.
  intros HL r1 r2 U1 R1 P1 U2 R2 P2. set (cf := config_of fl ct).
  pose proof (law_sound cf s _ _ HL) as E.
  assert (Q : forall i, i <= length s -> preferred cf s n1 i = None <-> preferred cf s n2 i = None).
  { intros i Hi. pose proof (preferred_iff r1 ct s i U1 P1 Hi) as Q1.
    pose proof (preferred_iff r2 ct s i U2 P2 Hi) as Q2.
    assert (QE : (exists j, matches cf s n1 i j) <-> (exists j, matches cf s n2 i j)).
    { split; intros (j & Hj); exists j; now apply E. }
    cbn in Q1, Q2. fold cf in Q1, Q2.
    destruct (preferred cf s n1 i), (preferred cf s n2 i); intuition congruence. }
  split; [|split].
  - destruct (match_language r1 ct s U1 R1 P1) as (x & Ex & Hx).
    destruct (match_language r2 ct s U2 R2 P2) as (y & Ey & Hy).
    exists x, y. repeat split; auto. eapply bool_iff; [exact Hx|exact Hy|]. apply E.
  - destruct (match_prefix_priority r1 ct s U1 R1) as (x & Ex & Hx).
    destruct (match_prefix_priority r2 ct s U2 R2) as (y & Ey & Hy).
    exists x, y. repeat split; auto. specialize (Q 0 (Nat.le_0_l _)).
    cbn in Hx, Hy. fold cf in Hx, Hy.
    destruct (preferred cf s n1 0), (preferred cf s n2 0); try (destruct Hx, Hy; congruence);
      intuition congruence.
  - destruct (search_leftmost r1 ct s U1 R1) as (x & Ex & Hx1 & Hx2).
    destruct (search_leftmost r2 ct s U2 R2) as (y & Ey & Hy1 & Hy2).
    cbn in Hx1, Hx2, Hy1, Hy2. fold cf in Hx1, Hx2, Hy1, Hy2.
    exists x, y. split; [exact Ex|]. split; [exact Ey|].
    destruct (matched x) eqn:Mx, (matched y) eqn:My.
    + split; [reflexivity|]. intros _.
      destruct (Hx1 eq_refl) as (i & e1 & Hi & Hp1 & Hl1 & G1).
      destruct (Hy1 eq_refl) as (i' & e2 & Hi' & Hp2 & Hl2 & G2).
      assert (i = i').
      { destruct (lt_eq_lt_dec i i') as [[H|H]|H]; [|exact H|].
        - apply Hl2 in H. apply Q in H; [congruence|exact Hi].
        - apply Hl1 in H. apply Q in H; [congruence|exact Hi']. }
      subst i'. eauto.
    + exfalso. destruct (Hx1 eq_refl) as (i & e1 & Hi & Hp1 & _).
      specialize (Hy2 eq_refl i Hi). apply Q in Hy2; congruence.
    + exfalso. destruct (Hy1 eq_refl) as (i & e1 & Hi & Hp1 & _).
      specialize (Hx2 eq_refl i Hi). apply Q in Hx2; congruence.
    + split; [reflexivity|discriminate].
Qed.
