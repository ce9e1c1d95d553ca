(** Loops that need not give anything back: specification and proofs
    (Prop_Harden.v). *)
From Verif Require Import Matcher Api Basics Safe Cong Impl Spec Paths Mirror Adequacy Calls Lift
  Matching Equiv Linear.

(** ** Specification *)

Definition anything (a : ascii) : bool := true.
Definition nothing (a : ascii) : bool := false.

(** A character, a range, a dot, a set or a negated one. *)
Definition is_set (n : node) : bool :=
  match n with
  | Lit _ | Range _ _ | Wild | CSet _ => true
  | Neg x => is_class x
  | _ => false
  end.

(** [hardened cf F x y]: [y] is [x] with some of its loops over single characters
    made possessive, where no character of the loop may come behind it.  [F]: the
    characters that may come behind [x]. *)
Inductive hardened (cf : config) : (ascii -> bool) -> node -> node -> Prop :=
| hd_loop F md lo hi x : is_set x = true -> disjoint (accepts cf x) F = true ->
    hardened cf F (Rep md lo hi x) (Rep Possessive lo hi x)
| hd_refl F x : hardened cf F x x
| hd_trans F x y z : hardened cf F x y -> hardened cf F y z -> hardened cf F x z
| hd_seq F l1 x y l2 : hardened cf (behind cf l2 F) x y ->
    hardened cf F (Seq (l1 ++ x :: l2)) (Seq (l1 ++ y :: l2))
| hd_alt F l1 x y l2 : hardened cf F x y ->
    hardened cf F (Alt (l1 ++ x :: l2)) (Alt (l1 ++ y :: l2))
| hd_cap F id nm x y : hardened cf F x y -> hardened cf F (Cap id nm x) (Cap id nm y)
| hd_rep F md lo hi x y : md <> Possessive ->
    hardened cf (fun a => opening cf x a || F a) x y ->
    hardened cf F (Rep md lo hi x) (Rep md lo hi y)
| hd_atomic F lo hi x y : hardened cf anything x y ->
    hardened cf F (Rep Possessive lo hi x) (Rep Possessive lo hi y)
| hd_look F d x y : hardened cf anything x y -> hardened cf F (Look d x) (Look d y)
| hd_not_look F d x y : hardened cf anything x y ->
    hardened cf F (Neg (Look d x)) (Neg (Look d y)).

(** ** Proofs *)

Section Paths.
  Variable cf : config.
  Variable s : list ascii.
  Local Notation L := (length s).

  Definition good (F : ascii -> bool) (j : nat) : bool := Nat.leb L j || sees s F j.

  Lemma skippable_may n : skippable n = may_be_empty n.
  Proof.
    induction n using node_ind'; cbn [skippable may_be_empty]; auto.
    - now rewrite trivial_is_class.
    - induction H; cbn; congruence.
    - induction H; cbn; congruence.
    - now rewrite IHn.
  Qed.

  (** *** Where a path begins *)

  Definition opens (O : ascii -> bool) (f : nat -> list nat) : Prop :=
    forall i j, i <= L -> In j (f i) -> (j = i \/ sees s O i = true) /\ j <= L.

  (** Then further. *)
  Lemma opens_on O f i j (h : nat -> list nat) : opens O f -> i <= L ->
    (forall k, k <= L -> In j (h k) -> (j = k \/ sees s O k = true) /\ j <= L) ->
    In j (flat_map h (f i)) -> (j = i \/ sees s O i = true) /\ j <= L.
  Proof.
    intros Hf Hi Hh H. apply in_flat_map in H as (k & H1 & H2). apply Hf in H1 as [[->|H1] Hk]; auto.
    destruct (Hh k Hk H2). auto.
  Qed.

  Lemma opens_times O f n : opens O f -> opens O (times f n).
  Proof.
    intros H. induction n as [|n IH]; intros i j Hi; cbn [times]; [intros [->|[]]; auto|].
    apply opens_on; auto.
  Qed.

  Lemma opens_more O f : opens O f -> forall fu b, opens O (more_first f fu b).
  Proof.
    intros H. induction fu as [|fu IH]; intros b i j Hi; cbn [more_first]; [intros []|].
    destruct b as [n|].
    - destruct (N.eqb n 0); [intros [->|[]]; auto|]. rewrite in_app_iff. intros [Hj|[->|[]]]; [|auto].
      revert Hj. apply opens_on; auto. intros k Hk. now apply IH.
    - rewrite in_app_iff. intros [Hj|[->|[]]]; [|auto]. revert Hj. apply opens_on; auto. intros k Hk.
      destruct (Nat.eqb i k); [intros []|]. now apply IH.
  Qed.

  Lemma opens_fewer O f : opens O f -> forall fu b, opens O (fewer_first f fu b).
  Proof.
    intros H. induction fu as [|fu IH]; intros b i j Hi; cbn [fewer_first]; [intros []|].
    destruct b as [n|].
    - destruct (N.eqb n 0); [intros [->|[]]; auto|]. intros [->|Hj]; [auto|].
      revert Hj. apply opens_on; auto. intros k Hk. now apply IH.
    - intros [->|Hj]; [auto|]. revert Hj. apply opens_on; auto. intros k Hk.
      destruct (Nat.eqb i k); [intros []|]. now apply IH.
  Qed.

  Lemma opens_mono O O' f : (forall a, O a = true -> O' a = true) -> opens O f -> opens O' f.
  Proof.
    intros H Hf i j Hi Hj. apply Hf in Hj as [[Hj|Hj] Hl]; auto. split; auto. right. unfold sees in *.
    destruct (nth_error s i); auto.
  Qed.

  Lemma opens_here O f : (forall i j, In j (f i) -> j = i) -> opens O f.
  Proof. intros H i j Hi Hj. apply H in Hj as ->. auto. Qed.

  Lemma opens_class O n : (forall a, accepts cf n a = O a) ->
    opens O (fun i => if char_at s (accepts cf n) i then [S i] else []).
  Proof.
    intros H i j Hi Hj. destruct (char_at s (accepts cf n) i) eqn:E; [|destruct Hj].
    pose proof (char_at_lt s _ _ E). destruct Hj as [<-|[]]. split; [|lia]. right.
    unfold char_at in E. unfold sees. destruct (nth_error s i); [|discriminate]. now rewrite <- H.
  Qed.

  Lemma paths_opens n : opens (opening cf n) (paths cf s n).
  Proof.
    assert (B : forall (b : bool) (i j : nat), In j (if b then [i] else []) -> j = i).
    { intros [|] i j; cbn; [intros [->|[]]; reflexivity|intros []]. }
    induction n using node_ind'.
    - apply opens_here. intros i j [->|[]]. reflexivity.
    - apply opens_here. intros i j. apply B.
    - apply opens_here. intros i j. apply B.
    - apply opens_here. intros i j. apply B.
    - apply opens_here. intros i j. apply B.
    - apply opens_here. intros i j. apply B.
    - apply opens_class. intros ?. symmetry. apply match_one_accepts.
    - apply opens_class. intros ?. symmetry. apply match_one_accepts.
    - apply opens_class. intros ?. symmetry. apply match_one_accepts.
    - apply opens_class. intros ?. symmetry. apply match_one_accepts.
    - intros i j Hi. cbn [paths opening]. rewrite trivial_is_class. destruct (is_class n) eqn:E.
      + apply (opens_class (fun a => true && match_one cf (Neg n) a) (Neg n)); auto. intros ?. symmetry. apply match_one_accepts.
      + destruct (paths cf s n i); [intros [->|[]]; auto|intros []].
    - eapply opens_mono; [intros a E; rewrite opening_Seq; exact E|].
      intros i j. rewrite paths_Seq. revert i j.
      induction H as [|x r Hx Hr IH]; intros i j Hi; cbn [map chain_paths].
      + intros [->|[]]. auto.
      + intros Hj. apply in_flat_map in Hj as (k & H1 & H2). cbn [opening_all]. rewrite sees_or, sees_and.
        destruct (Hx i k Hi H1) as [Hk Hl]. destruct (IH k j Hl H2) as [H3 H4]. split; [|assumption].
        destruct Hk as [->|E]; [|right; now rewrite E].
        destruct (skippable x) eqn:Es.
        * destruct H3 as [->|E]; [now left|]. right. rewrite E. apply orb_true_r.
        * rewrite skippable_may in Es. pose proof (paths_consuming cf s x Es i i Hi H1). lia.
    - intros i j Hi Hj. rewrite paths_Alt in Hj. apply in_flat_map in Hj as (x & H1 & H2).
      rewrite Forall_forall in H. destruct (H x H1 i j Hi H2) as [[->|E] Hl]; split; auto. right.
      unfold sees in *. destruct (nth_error s i) as [a|]; [|discriminate]. cbn [opening].
      apply existsb_exists. exists x. auto.
    - exact IHn.
    - intros i j Hi. cbn [paths opening].
      assert (G : In j (flat_map (greedy_paths s (paths cf s n) (remaining hi lo)) (times (paths cf s n) (N.to_nat lo) i)) ->
        (j = i \/ sees s (opening cf n) i = true) /\ j <= L).
      { apply opens_on; auto; [now apply opens_times|]. intros k Hk. now apply opens_more. }
      assert (Z : In j (flat_map (lazy_paths s (paths cf s n) (remaining hi lo)) (times (paths cf s n) (N.to_nat lo) i)) ->
        (j = i \/ sees s (opening cf n) i = true) /\ j <= L).
      { apply opens_on; auto; [now apply opens_times|]. intros k Hk. now apply opens_fewer. }
      destruct md; [destruct (ungreedy cf); auto|destruct (ungreedy cf); auto|].
      intros Hj. apply in_firstn in Hj. auto.
    - intros i j Hi [].
    - intros i j Hi [].
    - apply opens_here. intros i j. destruct d; cbn [paths]; [|apply B].
      destruct (paths cf s n i); [intros []|intros [->|[]]; reflexivity].
  Qed.

  (** *** Paths that lead to where something may come behind *)

  Definition alike (F : ascii -> bool) (l1 l2 : list nat) : Prop :=
    filter (good F) l1 = filter (good F) l2.

  Lemma filter_off {A} (P : A -> bool) l : (forall j, In j l -> P j = false) -> filter P l = [].
  Proof.
    induction l as [|j l IH]; intros H; cbn; auto. rewrite H by now left. apply IH. intros k Hk. apply H. now right.
  Qed.

  Lemma filter_flat_map {A B} (P : B -> bool) (Q : A -> bool) h l :
    (forall j, In j l -> Q j = false -> filter P (h j) = []) ->
    filter P (flat_map h l) = filter P (flat_map h (filter Q l)).
  Proof.
    induction l as [|j l IH]; intros H; cbn; auto. rewrite filter_app, IH by (intros; apply H; auto; now right).
    destruct (Q j) eqn:E; cbn; [now rewrite filter_app|]. rewrite H; auto. now left.
  Qed.

  Lemma filter_flat_map_ext {A B} (P : B -> bool) (h h' : A -> list B) l :
    (forall j, In j l -> filter P (h j) = filter P (h' j)) ->
    filter P (flat_map h l) = filter P (flat_map h' l).
  Proof.
    induction l as [|j l IH]; intros H; cbn; auto. rewrite !filter_app, IH by (intros; apply H; now right).
    rewrite H by now left. reflexivity.
  Qed.

  Lemma alike_flat F G l l' (h h' : nat -> list nat) :
    alike G l l' -> (forall j, In j l -> j <= L) -> (forall j, In j l' -> j <= L) ->
    (forall j, j <= L -> good G j = false -> filter (good F) (h j) = [] /\ filter (good F) (h' j) = []) ->
    (forall j, j <= L -> alike F (h j) (h' j)) ->
    alike F (flat_map h l) (flat_map h' l').
  Proof.
    intros Hl B1 B2 Hn Hh. unfold alike in *.
    rewrite (filter_flat_map (good F) (good G) h l) by (intros j Hj E; now apply (Hn j (B1 j Hj))).
    rewrite (filter_flat_map (good F) (good G) h' l') by (intros j Hj E; now apply (Hn j (B2 j Hj))).
    rewrite Hl. apply filter_flat_map_ext. intros j Hj. apply filter_In in Hj as [Hj _]. auto.
  Qed.

  Lemma good_or F O j : good (fun a => O a || F a) j = good F j || sees s O j.
  Proof. unfold good. rewrite sees_or. now destruct (Nat.leb L j), (sees s O j), (sees s F j). Qed.

  Lemma opens_off F O f j : opens O f -> j <= L -> good (fun a => O a || F a) j = false ->
    filter (good F) (f j) = [].
  Proof.
    intros Hf Hj H. rewrite good_or in H. apply orb_false_elim in H as [H1 H2].
    apply filter_off. intros k Hk. apply Hf in Hk as [[->|Hk] _]; auto. congruence.
  Qed.

  Section Loops.
    Variables (F O : ascii -> bool) (f g : nat -> list nat).
    Hypothesis Hf : opens O f.
    Hypothesis Hg : opens O g.
    Local Notation G := (fun a => O a || F a).
    Hypothesis Hfg : forall i, i <= L -> alike G (f i) (g i).

    Lemma within O' h i j : opens O' h -> i <= L -> In j (h i) -> j <= L.
    Proof. intros H Hi Hj. now apply (H i j Hi Hj). Qed.

    Lemma alike_more : forall fu b i, i <= L -> alike F (more_first f fu b i) (more_first g fu b i).
    Proof.
      induction fu as [|fu IH]; intros b i Hi; cbn [more_first]; [reflexivity|].
      assert (A : forall l l', alike F l l' -> alike F (l ++ [i]) (l' ++ [i])).
      { unfold alike. intros l l' E. rewrite !filter_app. now rewrite E. }
      destruct b as [n|].
      - destruct (N.eqb n 0); [reflexivity|]. apply A. apply (alike_flat F G); auto.
        + intros j. now apply (within O f).
        + intros j. now apply (within O g).
        + intros j Hj E. split; eapply opens_off; try exact E; auto; now apply opens_more.
      - apply A. apply (alike_flat F G); auto.
        + intros j. now apply (within O f).
        + intros j. now apply (within O g).
        + intros j Hj E. destruct (Nat.eqb i j); [auto|].
          split; eapply opens_off; try exact E; auto; now apply opens_more.
        + intros j Hj. destruct (Nat.eqb i j); [reflexivity|auto].
    Qed.

    Lemma alike_fewer : forall fu b i, i <= L -> alike F (fewer_first f fu b i) (fewer_first g fu b i).
    Proof.
      induction fu as [|fu IH]; intros b i Hi; cbn [fewer_first]; [reflexivity|].
      assert (A : forall l l', alike F l l' -> alike F (i :: l) (i :: l')).
      { unfold alike. intros l l' E. cbn. now rewrite E. }
      destruct b as [n|].
      - destruct (N.eqb n 0); [reflexivity|]. apply A. apply (alike_flat F G); auto.
        + intros j. now apply (within O f).
        + intros j. now apply (within O g).
        + intros j Hj E. split; eapply opens_off; try exact E; auto; now apply opens_fewer.
      - apply A. apply (alike_flat F G); auto.
        + intros j. now apply (within O f).
        + intros j. now apply (within O g).
        + intros j Hj E. destruct (Nat.eqb i j); [auto|].
          split; eapply opens_off; try exact E; auto; now apply opens_fewer.
        + intros j Hj. destruct (Nat.eqb i j); [reflexivity|auto].
    Qed.

    Lemma alike_times (h h' : nat -> list nat) : opens O h -> opens O h' ->
      (forall i, i <= L -> alike F (h i) (h' i)) ->
      forall n i, i <= L -> alike F (flat_map h (times f n i)) (flat_map h' (times g n i)).
    Proof.
      intros Oh Oh' Hh. induction n as [|n IH]; intros i Hi; cbn [times].
      - cbn. rewrite !app_nil_r. auto.
      - rewrite !flat_map_flat_map. apply (alike_flat F G); auto.
        + intros j. now apply (within O f).
        + intros j. now apply (within O g).
        + assert (Q : forall e h, opens O e -> opens O h -> opens O (fun j => flat_map h (times e n j))).
          { intros e h0 He H0 i0 j0 Hi0. apply opens_on; auto. now apply opens_times. }
          intros j Hj E. split.
          * exact (opens_off F O _ j (Q f h Hf Oh) Hj E).
          * exact (opens_off F O _ j (Q g h' Hg Oh') Hj E).
    Qed.
  End Loops.

  (** *** Loops over a class *)

  Section Class.
    Variables (A F : ascii -> bool).
    Hypothesis Hd : disjoint A F = true.
    Variable f : nat -> list nat.
    Hypothesis Hf : forall i, f i = if sees s A i then [S i] else [].

    Lemma class_bad j : sees s A j = true -> good F j = false.
    Proof.
      intros H. unfold good. rewrite (disjoint_sees s A F j Hd H), orb_false_r.
      apply sees_lt in H. apply Nat.leb_gt. lia.
    Qed.

    Lemma more_class : forall fu b i, more_first f fu b i = []
      \/ exists h t, more_first f fu b i = h :: t /\ forall j, In j t -> good F j = false.
    Proof.
      induction fu as [|fu IH]; intros b i; cbn [more_first]; [now left|]. right.
      assert (R : forall l, (l = [] \/ exists h t, l = h :: t /\ forall j, In j t -> good F j = false) ->
        (l <> [] -> good F i = false) ->
        exists h t, l ++ [i] = h :: t /\ forall j, In j t -> good F j = false).
      { intros l [->|(h & t & -> & H)] Hi; [exists i, []; now split|].
        exists h, (t ++ [i]). split; auto. intros j. rewrite in_app_iff. intros [Hj|[<-|[]]]; auto.
        apply Hi. discriminate. }
      rewrite Hf. destruct b as [n|].
      - destruct (N.eqb n 0); [exists i, []; now split|]. destruct (sees s A i) eqn:E; cbn [flat_map].
        + rewrite app_nil_r. apply R; [apply IH|]. intros _. now apply class_bad.
        + apply R; [now left|congruence].
      - destruct (sees s A i) eqn:E; cbn [flat_map].
        + rewrite app_nil_r. destruct (Nat.eqb i (S i)); [apply R; [now left|congruence]|].
          apply R; [apply IH|]. intros _. now apply class_bad.
        + apply R; [now left|congruence].
    Qed.

    Lemma fewer_class : forall fu b i, fewer_first f fu b i = rev (more_first f fu b i).
    Proof.
      induction fu as [|fu IH]; intros b i; cbn [more_first fewer_first]; [reflexivity|].
      rewrite Hf. destruct b as [n|].
      - destruct (N.eqb n 0); [reflexivity|]. rewrite rev_app_distr. cbn [rev app].
        destruct (sees s A i); cbn [flat_map]; [|reflexivity]. now rewrite !app_nil_r, IH.
      - rewrite rev_app_distr. cbn [rev app].
        destruct (sees s A i); cbn [flat_map]; [|reflexivity]. rewrite !app_nil_r.
        destruct (Nat.eqb i (S i)); [reflexivity|]. now rewrite IH.
    Qed.

    Lemma times_class : forall n i, times f n i = [] \/ exists j, times f n i = [j].
    Proof.
      induction n as [|n IH]; intros i; cbn [times]; [right; now exists i|].
      rewrite Hf. destruct (sees s A i); cbn [flat_map]; [|now left]. rewrite app_nil_r. apply IH.
    Qed.

    Lemma alike_greedy fu b i : alike F (more_first f fu b i) (firstn 1 (more_first f fu b i)).
    Proof.
      unfold alike. destruct (more_class fu b i) as [->|(h & t & -> & H)]; [reflexivity|].
      cbn [firstn filter]. now rewrite (filter_off _ t H).
    Qed.

    Lemma alike_lazy fu b i : alike F (fewer_first f fu b i) (firstn 1 (more_first f fu b i)).
    Proof.
      rewrite fewer_class. unfold alike. destruct (more_class fu b i) as [->|(h & t & -> & H)]; [reflexivity|].
      cbn [firstn rev]. rewrite filter_app. rewrite (filter_off _ (rev t)); [reflexivity|].
      intros j Hj. apply H. now apply in_rev.
    Qed.
  End Class.

  Lemma paths_set n i : is_set n = true ->
    paths cf s n i = if sees s (accepts cf n) i then [S i] else [].
  Proof. destruct n; cbn [is_set]; try discriminate; try reflexivity. intros H. cbn [paths]. now rewrite H. Qed.

  Lemma alike_loop F md lo hi x i : is_set x = true -> disjoint (accepts cf x) F = true ->
    alike F (paths cf s (Rep md lo hi x) i) (paths cf s (Rep Possessive lo hi x) i).
  Proof.
    intros Hx Hd. cbn [paths]. pose proof (fun i => paths_set x i Hx) as Hf.
    assert (T : forall h h' : nat -> list nat, (forall j, alike F (h j) (firstn 1 (h' j))) ->
      alike F (flat_map h (times (paths cf s x) (N.to_nat lo) i))
        (firstn 1 (flat_map h' (times (paths cf s x) (N.to_nat lo) i)))).
    { intros h h' H. destruct (times_class (accepts cf x) (paths cf s x) Hf (N.to_nat lo) i) as [->|[j ->]]; [reflexivity|].
      cbn [flat_map]. rewrite !app_nil_r. apply H. }
    destruct md; [destruct (ungreedy cf)|destruct (ungreedy cf)|reflexivity]; apply T; intros j;
      unfold greedy_paths, lazy_paths; first [now apply alike_greedy with (accepts cf x)|now apply alike_lazy with (accepts cf x)].
  Qed.

  Lemma opening_hardened F x y : hardened cf F x y ->
    skippable x = skippable y /\ forall a, opening cf x a = opening cf y a.
  Proof.
    induction 1; auto.
    - destruct IHhardened1, IHhardened2. split; [congruence|]. intros a. congruence.
    - destruct IHhardened as [H1 H2]. cbn [skippable]. split.
      + rewrite !forallb_app. cbn. now rewrite H1.
      + intros a. rewrite !opening_Seq. induction l1 as [|z r IH]; cbn [app opening_all]; [now rewrite H1, H2|].
        now rewrite IH.
    - destruct IHhardened as [H1 H2]. cbn [skippable opening]. split.
      + rewrite !existsb_app. cbn. now rewrite H1.
      + intros a. rewrite !existsb_app. cbn. now rewrite H2.
    - destruct IHhardened as [H1 H2]. cbn [skippable opening]. now rewrite H1.
    - destruct IHhardened as [H1 H2]. cbn [skippable opening]. now rewrite H1.
  Qed.

  Lemma sees_anything j : good anything j = true.
  Proof.
    unfold good, sees. destruct (nth_error s j) eqn:E; [apply orb_true_r|]. apply nth_error_None in E.
    apply Nat.leb_le in E. now rewrite E.
  Qed.

  Lemma alike_anything l l' : alike anything l l' -> l = l'.
  Proof.
    assert (E : forall l, filter (good anything) l = l).
    { induction l0 as [|j r IH]; cbn; auto. now rewrite sees_anything, IH. }
    unfold alike. now rewrite !E.
  Qed.

  Lemma alike_ext F G l l' : (forall a, F a = G a) -> alike F l l' -> alike G l l'.
  Proof.
    intros H E. unfold alike in *. rewrite <- !(filter_ext (good F) (good G)); auto;
      intros j; unfold good, sees; destruct (nth_error s j); congruence.
  Qed.

  Lemma chain_opens l : opens (opening_all cf l) (chain_paths (map (paths cf s) l)).
  Proof.
    intros i j Hi Hj. rewrite <- paths_Seq in Hj. destruct (paths_opens (Seq l) i j Hi Hj) as [H H']. split; auto.
    destruct H as [H|H]; auto. right. rewrite <- H. apply sees_ext. intros a. symmetry. apply opening_Seq.
  Qed.

  (** A position where what comes next cannot go on. *)
  Lemma chain_off F l j : j <= L -> good (behind cf l F) j = false ->
    filter (good F) (chain_paths (map (paths cf s) l) j) = [].
  Proof.
    intros Hj H. apply filter_off. intros k Hk.
    assert (E : good (behind cf l F) j = Nat.leb L j || (sees s (opening_all cf l) j || (forallb skippable l && sees s F j))).
    { unfold good. f_equal. rewrite <- sees_and, <- sees_or. reflexivity. }
    rewrite E in H. apply orb_false_elim in H as [H1 H2]. apply orb_false_elim in H2 as [H2 H3].
    destruct (chain_opens l j k Hj Hk) as [[->|H4] _]; [|congruence]. unfold good. rewrite H1. cbn.
    destruct (forallb skippable l) eqn:Es; [exact H3|].
    rewrite <- paths_Seq in Hk.
    pose proof (paths_consuming cf s (Seq l)) as Hc. rewrite <- skippable_may in Hc. specialize (Hc Es j j Hj Hk). lia.
  Qed.

  Theorem hardened_paths F x y : hardened cf F x y -> forall i, i <= L ->
    alike F (paths cf s x i) (paths cf s y i).
  Proof.
    induction 1 as [F md lo hi x Hx Hd|F x|F x y z _ IH1 _ IH2|F l1 x y l2 Hxy IH|F l1 x y l2 Hxy IH|
      F id nm x y Hxy IH|F md lo hi x y Hmd Hxy IH|F lo hi x y Hxy IH|F d x y Hxy IH|F d x y Hxy IH];
      intros i Hi.
    - now apply alike_loop.
    - reflexivity.
    - unfold alike in *. rewrite IH1 by assumption. auto.
    - rewrite !paths_Seq, !map_app, !chain_app. unfold alike.
      apply filter_flat_map_ext. intros j Hj.
      assert (Hjl : j <= L) by (apply (chain_opens l1 i j Hi Hj)).
      cbn [map chain_paths]. apply (alike_flat F (behind cf l2 F)); auto.
      + intros k Hk. now apply (paths_opens x j k).
      + intros k Hk. now apply (paths_opens y j k).
      + intros k Hk E. split; now apply chain_off.
      + reflexivity.
    - rewrite !paths_Alt, !flat_map_app. cbn [flat_map]. unfold alike in *. rewrite !filter_app. now rewrite IH.
    - exact (IH i Hi).
    - destruct (opening_hardened _ _ _ Hxy) as [_ Ho].
      pose proof (paths_opens x) as Ox.
      assert (Oy : opens (opening cf x) (paths cf s y)).
      { eapply opens_mono; [|apply paths_opens]. intros a E. now rewrite Ho. }
      cbn [paths].
      assert (Gr : alike F (flat_map (greedy_paths s (paths cf s x) (remaining hi lo)) (times (paths cf s x) (N.to_nat lo) i))
        (flat_map (greedy_paths s (paths cf s y) (remaining hi lo)) (times (paths cf s y) (N.to_nat lo) i))).
      { apply (alike_times F (opening cf x)); auto.
        - intros k j Hk. now apply opens_more.
        - intros k j Hk. now apply opens_more.
        - intros k Hk. now apply (alike_more F (opening cf x)). }
      assert (Lz : alike F (flat_map (lazy_paths s (paths cf s x) (remaining hi lo)) (times (paths cf s x) (N.to_nat lo) i))
        (flat_map (lazy_paths s (paths cf s y) (remaining hi lo)) (times (paths cf s y) (N.to_nat lo) i))).
      { apply (alike_times F (opening cf x)); auto.
        - intros k j Hk. now apply opens_fewer.
        - intros k j Hk. now apply opens_fewer.
        - intros k Hk. now apply (alike_fewer F (opening cf x)). }
      destruct md; [destruct (ungreedy cf); auto|destruct (ungreedy cf); auto|contradiction].
    - assert (E : forall k, k <= L -> paths cf s x k = paths cf s y k) by (intros k Hk; now apply alike_anything, IH).
      cbn [paths].
      assert (Gr : alike anything (flat_map (greedy_paths s (paths cf s x) (remaining hi lo)) (times (paths cf s x) (N.to_nat lo) i))
        (flat_map (greedy_paths s (paths cf s y) (remaining hi lo)) (times (paths cf s y) (N.to_nat lo) i))).
      { destruct (opening_hardened _ _ _ Hxy) as [_ Ho]. pose proof (paths_opens x) as Ox.
        assert (Oy : opens (opening cf x) (paths cf s y)).
        { eapply opens_mono; [|apply paths_opens]. intros a E'. now rewrite Ho. }
        assert (Ea : forall k, k <= L -> alike (fun a => opening cf x a || anything a) (paths cf s x k) (paths cf s y k)).
        { intros k Hk. unfold alike. now rewrite E. }
        apply (alike_times anything (opening cf x)); auto.
        - intros k j Hk. now apply opens_more.
        - intros k j Hk. now apply opens_more.
        - intros k Hk. now apply (alike_more anything (opening cf x)). }
      apply alike_anything in Gr. now rewrite Gr.
    - assert (E : forall k, k <= L -> paths cf s x k = paths cf s y k) by (intros k Hk; now apply alike_anything, IH).
      destruct d; cbn [paths]; [now rewrite E|].
      replace (existsb (fun k => existsb (Nat.eqb i) (paths cf s y k)) (List.seq 0 (S i)))
        with (existsb (fun k => existsb (Nat.eqb i) (paths cf s x k)) (List.seq 0 (S i))); [reflexivity|].
      assert (H : forall k, In k (List.seq 0 (S i)) -> k <= L) by (intros k Hk; apply in_seq in Hk; lia).
      induction (List.seq 0 (S i)); cbn [existsb]; auto. rewrite IHl, E; auto. apply H. now left.
      intros k Hk. apply H. now right.
    - assert (E : forall k, k <= L -> paths cf s x k = paths cf s y k) by (intros k Hk; now apply alike_anything, IH).
      destruct d; cbn [paths is_class]; [now rewrite E|].
      replace (existsb (fun k => existsb (Nat.eqb i) (paths cf s y k)) (List.seq 0 (S i)))
        with (existsb (fun k => existsb (Nat.eqb i) (paths cf s x k)) (List.seq 0 (S i))); [reflexivity|].
      assert (H : forall k, In k (List.seq 0 (S i)) -> k <= L) by (intros k Hk; apply in_seq in Hk; lia).
      induction (List.seq 0 (S i)); cbn [existsb]; auto. rewrite IHl, E; auto. apply H. now left.
      intros k Hk. apply H. now right.
  Qed.
End Paths.

(** ** Calls *)

Lemma same_paths_answers_in n1 n2 fl ct s :
  usable (mk_regex n1 fl) ct -> usable (mk_regex n2 fl) ct ->
  regular n1 = true -> regular n2 = true ->
  (forall i, i <= length s -> paths (config_of fl ct) s n1 i = paths (config_of fl ct) s n2 i) ->
  same_answers (mk_regex n1 fl) (mk_regex n2 fl) ct s.
Proof.
  intros U1 U2 R1 R2 E. unfold same_answers, same_answer, regex_match, regex_match_prefix,
    regex_search, invoke. rewrite (proj1 U1), (proj1 U2). cbn [ast flags].
  set (cf := config_of fl ct) in *. split; [|split].
  - assert (H1 := match_method_paths _ _ s U1 R1 0 _ (Nat.le_0_l _) (initial_length _)).
    assert (H2 := match_method_paths _ _ s U2 R2 0 _ (Nat.le_0_l _) (initial_length _)).
    cbn [ast flags] in H1, H2. fold cf in H1, H2.
    destruct (match_method cf n1 _ _ _) as [c1 e1 b1| | |]; try contradiction.
    destruct (match_method cf n2 _ _ _) as [c2 e2 b2| | |]; try contradiction.
    cbn in *. destruct H1 as (_ & G1 & M1 & E1), H2 as (_ & G2 & M2 & E2).
    do 2 eexists. do 2 (split; [reflexivity|]). cbn. rewrite E, <- M2 in M1 by apply Nat.le_0_l.
    assert (Hb : b1 = b2) by (destruct b1, b2; intuition congruence). split; auto.
    intros H. rewrite G1, G2, E1, E2; congruence.
  - assert (H1 := match_prefix_method_paths _ _ s U1 R1 0 _ (Nat.le_0_l _) (initial_length _)).
    assert (H2 := match_prefix_method_paths _ _ s U2 R2 0 _ (Nat.le_0_l _) (initial_length _)).
    cbn [ast flags] in H1, H2. fold cf in H1, H2.
    destruct (match_prefix_method cf n1 _ _ _) as [c1 e1 b1| | |]; try contradiction.
    destruct (match_prefix_method cf n2 _ _ _) as [c2 e2 b2| | |]; try contradiction.
    cbn in *. destruct H1 as (_ & G1 & M1), H2 as (_ & G2 & M2).
    do 2 eexists. do 2 (split; [reflexivity|]). cbn. unfold preferred in *.
    rewrite E, <- M2 in M1 by apply Nat.le_0_l. destruct b1, b2; try discriminate; split; auto; try discriminate.
    intros _. congruence.
  - assert (H1 := search_method_paths _ _ s U1 R1 0 _ (Nat.le_0_l _) (initial_length _)).
    assert (H2 := search_method_paths _ _ s U2 R2 0 _ (Nat.le_0_l _) (initial_length _)).
    cbn [ast flags] in H1, H2. fold cf in H1, H2.
    destruct (search_method cf n1 _ _ _) as [c1 e1 b1| | |]; try contradiction.
    destruct (search_method cf n2 _ _ _) as [c2 e2 b2| | |]; try contradiction.
    cbn in *. destruct H1 as (_ & A & A'), H2 as (_ & B & B').
    assert (P : forall i, i <= length s -> preferred cf s n1 i = preferred cf s n2 i).
    { intros i Hi. unfold preferred. now rewrite E. }
    do 2 eexists. do 2 (split; [reflexivity|]). cbn. destruct b1, b2.
    + split; auto. intros _.
      destruct (A eq_refl) as (i & (? & Hi & Hi') & ->), (B eq_refl) as (j & (? & Hj & Hj') & ->).
      destruct (Nat.lt_trichotomy i j) as [Hlt|[->|Hlt]].
      * rewrite P, (Hj' i) in Hi by lia. discriminate.
      * rewrite P in Hi by lia. congruence.
      * rewrite <- P, (Hi' j) in Hj by lia. discriminate.
    + destruct (A eq_refl) as (i & (? & Hi & Hi') & _). rewrite P in Hi by lia; rewrite B' in Hi by auto. discriminate.
    + destruct (B eq_refl) as (i & (? & Hi & Hi') & _). rewrite <- P in Hi by lia; rewrite A' in Hi by auto. discriminate.
    + split; [reflexivity|discriminate].
Qed.

Theorem hardened_answers n1 n2 fl ct s : hardened (config_of fl ct) anything n1 n2 ->
  usable (mk_regex n1 fl) ct -> usable (mk_regex n2 fl) ct ->
  regular n1 = true -> regular n2 = true ->
  same_answers (mk_regex n1 fl) (mk_regex n2 fl) ct s.
Proof.
  intros H U1 U2 R1 R2. apply same_paths_answers_in; auto. intros i Hi. apply (alike_anything s).
  now apply hardened_paths.
Qed.

Theorem hardened_match n1 n2 fl ct s : hardened (config_of fl ct) nothing n1 n2 ->
  usable (mk_regex n1 fl) ct -> usable (mk_regex n2 fl) ct ->
  regular n1 = true -> regular n2 = true ->
  same_answer (regex_match (mk_regex n1 fl) ct s) (regex_match (mk_regex n2 fl) ct s).
Proof.
  intros H U1 U2 R1 R2. unfold same_answer, regex_match, invoke. rewrite (proj1 U1), (proj1 U2). cbn [ast flags].
  pose proof (hardened_paths (config_of fl ct) s nothing n1 n2 H 0 (Nat.le_0_l _)) as Ha.
  assert (E : In (length s) (paths (config_of fl ct) s n1 0) <-> In (length s) (paths (config_of fl ct) s n2 0)).
  { unfold alike in Ha. assert (G : good s nothing (length s) = true) by (unfold good; now rewrite Nat.leb_refl).
    split; intros Hi.
    - assert (In (length s) (filter (good s nothing) (paths (config_of fl ct) s n1 0))) as Hf by now apply filter_In.
      rewrite Ha in Hf. now apply filter_In in Hf.
    - assert (In (length s) (filter (good s nothing) (paths (config_of fl ct) s n2 0))) as Hf by now apply filter_In.
      rewrite <- Ha in Hf. now apply filter_In in Hf. }
  set (cf := config_of fl ct) in *.
  assert (H1 := match_method_paths _ _ s U1 R1 0 _ (Nat.le_0_l _) (initial_length _)).
  assert (H2 := match_method_paths _ _ s U2 R2 0 _ (Nat.le_0_l _) (initial_length _)).
  cbn [ast flags] in H1, H2. fold cf in H1, H2.
  destruct (match_method cf n1 _ _ _) as [c1 e1 b1| | |]; try contradiction.
  destruct (match_method cf n2 _ _ _) as [c2 e2 b2| | |]; try contradiction.
  cbn in *. destruct H1 as (_ & G1 & M1 & E1), H2 as (_ & G2 & M2 & E2).
  do 2 eexists. do 2 (split; [reflexivity|]). cbn. rewrite E, <- M2 in M1.
  assert (Hb : b1 = b2) by (destruct b1, b2; intuition congruence). split; auto.
  intros Hm. rewrite G1, G2, E1, E2; congruence.
Qed.
