(** Searching for the words that are matched (C67). *)
From Verif Require Import Matcher Api Basics Safe Cong Impl Spec Paths Mirror Adequacy Calls
  Lift Matching Actual.
From Coq Require Import Lia.

(** The tree tests nothing but the characters it consumes and never gives up
    alternatives: no anchors, no lookarounds, no backreferences, no possessive
    repetitions. *)
Fixpoint self_contained (n : node) : bool :=
  match n with
  | BeginLine | BeginInput | EndLine | EndInput | WordB | Look _ _
  | Backref _ | NBackref _ | Rep Possessive _ _ _ => false
  | Neg x => is_class x && self_contained x
  | CSet l | Seq l | Alt l => forallb self_contained l
  | Cap _ _ x | Rep _ _ _ x => self_contained x
  | _ => true
  end.

Section Part.
  Variable cf : config.
  Variables x u y : list ascii.
  Local Notation off := (length x).
  Local Notation t := (x ++ u ++ y).

  Lemma char_at_part p i : i < length u -> char_at t p (off + i) = char_at u p i.
  Proof.
    intros Hi. unfold char_at. rewrite nth_error_app2 by lia.
    replace (off + i - off) with i by lia. now rewrite nth_error_app1.
  Qed.

  Lemma class_part (p : ascii -> bool) i j : i <= j -> j <= length u ->
    (off + j = S (off + i) /\ char_at t p (off + i) = true <-> j = S i /\ char_at u p i = true).
  Proof.
    intros H1 H2. split; intros [E H]; (split; [lia|]).
    - rewrite char_at_part in H by lia. exact H.
    - now rewrite char_at_part by lia.
  Qed.

  Definition same_part (r1 r2 : nat -> nat -> Prop) : Prop :=
    forall i j, i <= j -> j <= length u -> (r1 (off + i) (off + j) <-> r2 i j).
  Definition forth (r : nat -> nat -> Prop) : Prop := forall i j, r i j -> i <= j.

  Lemma chain_forth rs : Forall forth rs -> forth (chain rs).
  Proof.
    induction 1 as [|r rs Hr _ IH]; intros i j; cbn; [lia|].
    intros (k & Hk & Hj). apply Hr in Hk. apply IH in Hj. lia.
  Qed.

  Lemma chain_part rs1 rs2 : Forall2 same_part rs1 rs2 -> Forall forth rs1 -> Forall forth rs2 ->
    same_part (chain rs1) (chain rs2).
  Proof.
    induction 1 as [|r1 r2 rs1 rs2 Hr _ IH]; intros F1 F2 i j Hi Hj; cbn; [lia|].
    inversion_clear F1 as [|? ? G1 K1]. inversion_clear F2 as [|? ? G2 K2].
    split; intros (k & Hk & Hr').
    - pose proof (G1 _ _ Hk). pose proof (chain_forth _ K1 _ _ Hr').
      exists (k - off). replace k with (off + (k - off)) in Hk, Hr' by lia.
      apply Hr in Hk; [|lia..]. apply IH in Hr'; auto; lia.
    - pose proof (G2 _ _ Hk). pose proof (chain_forth _ K2 _ _ Hr').
      exists (off + k). split; [apply Hr; auto; lia|]. apply IH; auto; lia.
  Qed.

  Lemma iterate_chain r c : forall i j, iterate r c i j <-> chain (repeat r c) i j.
  Proof.
    induction c as [|c IH]; intros i j; cbn; [reflexivity|].
    split; intros (k & H1 & H2); exists k; split; auto; now apply IH.
  Qed.

  Lemma matches_part n : self_contained n = true -> same_part (matches cf t n) (matches cf u n).
  Proof.
    induction n using node_ind'; intros Hn i j Hi Hj; try discriminate;
      try (cbn [matches]; apply class_part; auto; fail).
    - cbn [matches]. lia.
    - cbn in Hn. apply andb_true_iff in Hn as [Hc _]. cbn [matches]. rewrite Hc. now apply class_part.
    - cbn in Hn. rewrite !matches_Seq. apply chain_part; auto.
      + clear Hi Hj. induction H as [|z l Hz _ IH]; [constructor|]. cbn in *.
        apply andb_true_iff in Hn as [H1 H2]. constructor; auto.
      + apply Forall_map, Forall_forall. intros z _ a b. apply matches_le.
      + apply Forall_map, Forall_forall. intros z _ a b. apply matches_le.
    - cbn in Hn. rewrite forallb_forall in Hn. rewrite Forall_forall in H. rewrite !matches_Alt.
      split; intros (z & Hz & Hm); exists z; (split; [exact Hz|]); now apply H; auto.
    - cbn in Hn. cbn [matches]. now apply IHn.
    - assert (Hx : self_contained n = true) by (destruct md; [exact Hn|exact Hn|discriminate]).
      specialize (IHn Hx). cbn [matches].
      assert (E : forall c, same_part (chain (repeat (matches cf t n) c)) (chain (repeat (matches cf u n) c))).
      { intros c. apply chain_part.
        - clear - IHn. induction c; constructor; auto.
        - apply Forall_forall. intros r Hr. apply repeat_spec in Hr. subst. intros a b. apply matches_le.
        - apply Forall_forall. intros r Hr. apply repeat_spec in Hr. subst. intros a b. apply matches_le. }
      split; intros (c & Hc & Hm); exists c; (split; [exact Hc|]);
        apply iterate_chain; apply iterate_chain in Hm; now apply E.
  Qed.
End Part.

(** ** The fragment *)

Lemma contained_fragment n : self_contained n = true ->
  backref_free n = true /\ possessive_ok n = true /\ lookbehind_ok n = true /\ possessive_free n = true.
Proof.
  induction n using node_ind'; intros Hn; try discriminate; try (repeat split; reflexivity).
  - cbn in *. apply andb_true_iff in Hn as [_ Hn]. now apply IHn.
  - assert (G : forall z, In z l -> backref_free z = true /\ possessive_ok z = true /\ lookbehind_ok z = true /\ possessive_free z = true).
    { cbn in Hn. rewrite forallb_forall in Hn. rewrite Forall_forall in H. auto. }
    cbn. rewrite !forallb_forall. repeat split; intros z Hz; apply G; auto.
  - assert (G : forall z, In z l -> backref_free z = true /\ possessive_ok z = true /\ lookbehind_ok z = true /\ possessive_free z = true).
    { cbn in Hn. rewrite forallb_forall in Hn. rewrite Forall_forall in H. auto. }
    cbn. rewrite !forallb_forall. repeat split; intros z Hz; apply G; auto.
  - cbn in *. now apply IHn.
  - assert (Hx : self_contained n = true) by (destruct md; [exact Hn|exact Hn|discriminate]).
    apply IHn in Hx. destruct md; [exact Hx|exact Hx|discriminate].
Qed.

Lemma contained_regular n : self_contained n = true -> regular n = true.
Proof.
  intros H. apply contained_fragment in H as (H1 & H2 & H3 & _). unfold regular. now rewrite H1, H2, H3.
Qed.

Lemma contained_possessive_free n : self_contained n = true -> possessive_free n = true.
Proof. intros H. now apply contained_fragment in H. Qed.

(** ** Calls *)

(** [u] is matched as a whole. *)
Definition is_word (r : regex) (ct : category) (u : list ascii) : Prop :=
  exists a, regex_match r ct u = Returned a /\ matched a = true.

Lemma is_word_matches r ct u : usable r ct -> self_contained (ast r) = true ->
  (is_word r ct u <-> matches (config_of (flags r) ct) u (ast r) 0 (length u)).
Proof.
  intros Hu Hn.
  destruct (match_language r ct u Hu (contained_regular _ Hn) (contained_possessive_free _ Hn)) as (a & E & Ha).
  unfold is_word. rewrite E. split.
  - intros (b & Eb & Hb). injection Eb as <-. now apply Ha.
  - intros H. exists a. split; [reflexivity|]. now apply Ha.
Qed.

Lemma split_at {A} (s : list A) i j : i <= j -> j <= length s ->
  exists x u y, s = x ++ u ++ y /\ length x = i /\ length u = j - i.
Proof.
  intros H1 H2. exists (firstn i s), (firstn (j - i) (skipn i s)), (skipn (j - i) (skipn i s)).
  rewrite firstn_skipn, firstn_skipn. repeat split.
  - apply firstn_length_le. lia.
  - apply firstn_length_le. rewrite skipn_length. lia.
Qed.

Lemma word_at r ct x u y : usable r ct -> self_contained (ast r) = true ->
  (is_word r ct u
   <-> matches (config_of (flags r) ct) (x ++ u ++ y) (ast r) (length x) (length x + length u)).
Proof.
  intros Hu Hn. rewrite is_word_matches by auto.
  rewrite <- (matches_part _ x u y _ Hn 0 (length u)) by lia. now rewrite Nat.add_0_r.
Qed.

Lemma preferred_word r ct s i : usable r ct -> self_contained (ast r) = true -> i <= length s ->
  (preferred (config_of (flags r) ct) s (ast r) i <> None
   <-> exists x u y, s = x ++ u ++ y /\ length x = i /\ is_word r ct u)
  /\ forall e, preferred (config_of (flags r) ct) s (ast r) i = Some e ->
       exists x u y, s = x ++ u ++ y /\ length x = i /\ length x + length u = e /\ is_word r ct u.
Proof.
  intros Hu Hn Hi. set (cf := config_of (flags r) ct).
  assert (W : well_formed (ast r) = true) by (destruct Hu as [Hc _]; eapply compiles_well_formed; exact Hc).
  pose proof (contained_possessive_free _ Hn) as Hp.
  assert (G : forall e, preferred cf s (ast r) i = Some e ->
    exists x u y, s = x ++ u ++ y /\ length x = i /\ length x + length u = e /\ is_word r ct u).
  { intros e E. apply preferred_in in E. apply in_paths in E; auto.
    pose proof (matches_bounds _ _ _ _ _ Hi E) as B.
    destruct (split_at s i e) as (x & u & y & -> & Hx & Hl); [lia..|].
    exists x, u, y. repeat split; auto; [lia|]. rewrite (word_at r ct x u y) by auto.
    replace (length x + length u) with e by lia. now rewrite Hx. }
  split; [|exact G]. split.
  - intros H. destruct (preferred cf s (ast r) i) as [e|] eqn:E; [|easy].
    destruct (G e eq_refl) as (x & u & y & H1 & H2 & _ & H3). eauto 6.
  - intros (x & u & y & -> & <- & Hw). apply in_preferred with (length x + length u).
    apply in_paths; auto. now apply word_at.
Qed.

Theorem search_finds_words r ct s : usable r ct -> self_contained (ast r) = true ->
  exists res, regex_search r ct s = Returned res
  /\ (matched res = true <-> exists x u y, s = x ++ u ++ y /\ is_word r ct u)
  /\ (matched res = true -> exists x u y, s = x ++ u ++ y /\ is_word r ct u
        /\ group0 (groups res) = Some (length x, length x + length u)
        /\ forall x' u' y', s = x' ++ u' ++ y' -> is_word r ct u' -> length x <= length x').
Proof.
  intros Hu Hn. destruct (search_leftmost r ct s Hu (contained_regular _ Hn)) as (res & E & H1 & H2).
  exists res. split; [exact E|].
  assert (G : matched res = true -> exists x u y, s = x ++ u ++ y /\ is_word r ct u
        /\ group0 (groups res) = Some (length x, length x + length u)
        /\ forall x' u' y', s = x' ++ u' ++ y' -> is_word r ct u' -> length x <= length x').
  { intros Hm. destruct (H1 Hm) as (i & e & Hi & Hp & Hf & Hg).
    destruct (proj2 (preferred_word r ct s i Hu Hn Hi) _ Hp) as (x & u & y & Es & Hx & He & Hw).
    exists x, u, y. split; [exact Es|]. split; [exact Hw|]. split; [rewrite Hg; congruence|].
    intros x' u' y' Es' Hw'. rewrite Hx. destruct (le_lt_dec i (length x')) as [Hle|Hlt]; [exact Hle|].
    exfalso. assert (Hi' : length x' <= length s) by lia.
    apply (proj1 (preferred_word r ct s (length x') Hu Hn Hi')); [eauto 6|now apply Hf]. }
  split; [|exact G]. split.
  - intros Hm. destruct (G Hm) as (x & u & y & Es & Hw & _). eauto.
  - intros (x & u & y & Es & Hw). destruct (matched res) eqn:Em; [reflexivity|]. exfalso.
    assert (Hi : length x <= length s) by (rewrite Es, app_length; lia).
    apply (proj1 (preferred_word r ct s (length x) Hu Hn Hi)); [eauto 6|]. now apply H2.
Qed.

Theorem prefix_finds_words r ct s : usable r ct -> self_contained (ast r) = true ->
  exists res, regex_match_prefix r ct s = Returned res
  /\ (matched res = true <-> exists u y, s = u ++ y /\ is_word r ct u)
  /\ (matched res = true -> exists u y, s = u ++ y /\ is_word r ct u
        /\ group0 (groups res) = Some (0, length u)).
Proof.
  intros Hu Hn. destruct (match_prefix_priority r ct s Hu (contained_regular _ Hn)) as (res & E & H).
  exists res. split; [exact E|].
  destruct (preferred_word r ct s 0 Hu Hn (Nat.le_0_l _)) as [H1 H2].
  assert (G : matched res = true -> exists u y, s = u ++ y /\ is_word r ct u
        /\ group0 (groups res) = Some (0, length u)).
  { intros Hm. destruct (preferred _ s (ast r) 0) as [e|] eqn:Ep; [|congruence].
    destruct H as [_ Hg]. destruct (H2 e eq_refl) as (x & u & y & Es & Hx & He & Hw).
    destruct x; [|discriminate]. exists u, y. repeat split; auto. rewrite Hg. cbn in He. congruence. }
  split; [|exact G]. split.
  - intros Hm. destruct (G Hm) as (u & y & Es & Hw & _). eauto.
  - intros (u & y & Es & Hw). destruct (preferred _ s (ast r) 0) as [e|] eqn:Ep; [now destruct H|].
    exfalso. apply H1; [|reflexivity]. exists [], u, y. auto.
Qed.
