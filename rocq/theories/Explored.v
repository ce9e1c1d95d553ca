(** The matcher follows [explore] (Explore.v) on every tree that compiles. *)
From Verif Require Import Matcher Basics Safe Impl Spec Paths Mirror Adequacy Calls Lift Matching Api
  Results Walk Exact Relate Tracks Explore.

(** Outcomes up to the end that a failure reports. *)
Definition norm (o : outcome) : outcome :=
  match o with Res c e false => Res c 0 false | o => o end.

Lemma norm_norm o : norm (norm o) = norm o.
Proof. now destruct o as [c e [|]| | |]. Qed.

Lemma norm_or_else o1 o2 f1 f2 : norm o1 = norm o2 ->
  (forall c e, o1 = Res c e false -> norm (f1 c) = norm (f2 c)) ->
  norm (or_else o1 f1) = norm (or_else o2 f2).
Proof.
  destruct o1 as [c1 e1 [|]| | |], o2 as [c2 e2 [|]| | |]; cbn; intros E H;
    try discriminate E; try exact E; try reflexivity.
  injection E as <-. eauto.
Qed.

Lemma norm_fail o (h : caps -> nat) : norm (or_else o (fun c => Res c (h c) false)) = norm o.
Proof. now destruct o as [c e [|]| | |]. Qed.

Lemma norm_on_result o1 o2 f1 f2 g1 g2 : norm o1 = norm o2 ->
  (forall c e, o1 = Res c e true -> norm (f1 e c) = norm (f2 e c)) ->
  (forall c e, o1 = Res c e false -> norm (g1 c) = norm (g2 c)) ->
  norm (on_result o1 f1 g1) = norm (on_result o2 f2 g2).
Proof.
  destruct o1 as [c1 e1 [|]| | |], o2 as [c2 e2 [|]| | |]; cbn; intros E H1 H2;
    try discriminate E; try reflexivity.
  - injection E as <- <-. eauto.
  - injection E as <-. eauto.
Qed.

Lemma or_else_cong o f f' : (forall c e, o = Res c e false -> f c = f' c) ->
  or_else o f = or_else o f'.
Proof. destruct o as [c e [|]| | |]; cbn; eauto. Qed.

Lemma norm_res o c e : norm o = Res c e true <-> o = Res c e true.
Proof. destruct o as [c' e' [|]| | |]; cbn; split; congruence. Qed.

Section Searches.
  Variable names : list group_name.
  Variable base : list ascii.
  Local Notation L := (length base).
  Local Notation gd := (good names base).
  Local Notation pos := (pos base).

  (** ** Searches whose ends satisfy a predicate *)

  Fixpoint sound (P : nat -> Prop) (t : search) : Prop :=
    match t with
    | Stop g => gd g
    | Found i g more => P i /\ gd g /\ forall g', gd g' -> sound P (more g')
    end.

  Lemma sound_mono (P Q : nat -> Prop) t : (forall i, P i -> Q i) -> sound P t -> sound Q t.
  Proof.
    intros H. induction t as [g|i g more IH]; cbn; [auto|].
    intros (H1 & H2 & H3). repeat split; auto; apply H2.
  Qed.

  Lemma sound_one (P : nat -> Prop) i g : P i -> gd g -> sound P (one i g).
  Proof. intros H1 H2. cbn. auto. Qed.

  Lemma sound_test (P : nat -> Prop) b i g : (b = true -> P i) -> gd g -> sound P (test b i g).
  Proof. intros H1 H2. destruct b; [now apply sound_one; auto|exact H2]. Qed.

  Lemma sound_first P t : sound P t -> sound P (first_only t).
  Proof. destruct t; cbn; [auto|]. intros (H1 & H2 & _). auto. Qed.

  Lemma sound_otherwise P t h : sound P t -> (forall g, gd g -> sound P (h g)) ->
    sound P (otherwise t h).
  Proof.
    intros Ht Hh. induction t as [g|i g more IH]; cbn in *; [auto|].
    destruct Ht as (H1 & H2 & H3). auto.
  Qed.

  Lemma sound_followed (P Q : nat -> Prop) t f : sound P t ->
    (forall i g, P i -> gd g -> sound Q (f i g)) -> sound Q (followed_by t f).
  Proof.
    intros Ht Hf. induction t as [g|i g more IH]; cbn in *; [auto|].
    destruct Ht as (H1 & H2 & H3). apply sound_otherwise; auto.
  Qed.

  Lemma good_update i h g : gd g -> (forall v, good_cell base v -> good_cell base (h v)) ->
    gd (update i h g).
  Proof.
    intros [H1 H2] Hh. split.
    - rewrite <- H1. clear. revert i. induction g as [|v r IH]; intros [|i]; cbn; auto.
    - clear H1. revert i. induction H2 as [|v r Hv Hr IH]; intros [|i]; cbn; auto.
  Qed.

  Lemma sound_captured (P : nat -> Prop) id range t : sound P t ->
    (forall j, P j -> good_cell base (Some (range j))) -> sound P (captured id range t).
  Proof.
    intros Ht Hr. induction t as [g|j g more IH]; cbn [captured sound] in *.
    - apply good_update; auto. intros [[b e]|]; cbn; auto. lia.
    - destruct Ht as (H1 & H2 & H3). split; [auto|]. split; [|auto].
      apply good_update; auto.
  Qed.

  (** Ends in the direction of reading, and other than the start if [z] is
      [false]. *)
  Definition beyond (left z : bool) (i j : nat) : Prop :=
    j <= L /\ (if left then j <= i else i <= j) /\ (z = false -> i <> j).

  Lemma beyond_self left i : i <= L -> beyond left true i i.
  Proof. intros H. split; [exact H|]. split; [destruct left; lia|discriminate]. Qed.

  Lemma beyond_trans left z1 z2 i j k : beyond left z1 i j -> beyond left z2 j k ->
    beyond left (z1 && z2) i k.
  Proof.
    unfold beyond. intros (H1 & H2 & H3) (H4 & H5 & H6). split; [auto|].
    destruct left; (split; [lia|]); intros Hz; apply andb_false_iff in Hz as [->| ->];
      first [specialize (H3 eq_refl)|specialize (H6 eq_refl)]; lia.
  Qed.

  Lemma beyond_weaken left z i j : beyond left z i j -> beyond left true i j.
  Proof. intros (H1 & H2 & _). split; [exact H1|]. split; [exact H2|discriminate]. Qed.

  Definition finder (left z : bool) (f : nat -> caps -> search) : Prop :=
    forall i g, i <= L -> gd g -> sound (beyond left z i) (f i g).

  Lemma finder_weaken left z f : finder left z f -> finder left true f.
  Proof.
    intros H i g Hi Hg. eapply sound_mono; [|apply H; auto]. intros. eapply beyond_weaken; eauto.
  Qed.

  Lemma finder_one left : finder left true one.
  Proof. intros i g Hi Hg. apply sound_one; auto. now apply beyond_self. Qed.

  Lemma finder_followed left z1 z2 t f i : i <= L -> sound (beyond left z1 i) t ->
    finder left z2 f -> sound (beyond left (z1 && z2) i) (followed_by t f).
  Proof.
    intros Hi Ht Hf. eapply sound_followed; [exact Ht|]. intros j g Hj Hg.
    assert (j <= L) by apply Hj.
    eapply sound_mono; [|apply Hf; auto]. intros k Hk. eapply beyond_trans; eauto.
  Qed.

  Lemma finder_exactly left z f n : finder left z f ->
    finder left (Nat.eqb n 0 || z) (exactly f n).
  Proof.
    intros Hf. induction n as [|n IH]; intros i g Hi Hg; cbn [exactly]; [now apply finder_one|].
    eapply sound_mono; [|eapply (finder_followed left z); eauto].
    intros j (H1 & H2 & H3). cbn. split; [auto|]. split; [auto|]. intros ->. auto.
  Qed.

  Lemma finder_more left z f : finder left z f -> forall fuel b, finder left true (trying_more f fuel b).
  Proof.
    intros Hf. induction fuel as [|fu IH]; intros b i g Hi Hg; cbn [trying_more]; [exact Hg|].
    destruct (none_left b); [now apply finder_one|].
    apply sound_otherwise; [|intros; now apply finder_one].
    eapply sound_mono; [|apply (finder_followed left z true); [exact Hi|now apply Hf|]].
    - intros j. apply beyond_weaken.
    - intros j g' Hj Hg'. destruct (idle b i j); [exact Hg'|]. now apply IH.
  Qed.

  Lemma finder_fewer left z f : finder left z f -> forall fuel b, finder left true (trying_fewer f fuel b).
  Proof.
    intros Hf. induction fuel as [|fu IH]; intros b i g Hi Hg; cbn [trying_fewer]; [exact Hg|].
    destruct (none_left b); [now apply finder_one|].
    cbn [sound]. split; [now apply beyond_self|]. split; [exact Hg|]. intros g0 Hg0.
    eapply sound_mono; [|apply (finder_followed left z true); [exact Hi|now apply Hf|]].
    - intros j. apply beyond_weaken.
    - intros j g' Hj Hg'. destruct (idle b i j); [exact Hg'|]. now apply IH.
  Qed.

  Lemma finder_commit left z f : finder left z f -> forall fuel b, finder left true (committing f fuel b).
  Proof.
    intros Hf. induction fuel as [|fu IH]; intros b i g Hi Hg; cbn [committing]; [exact Hg|].
    destruct (none_left b); [now apply finder_one|].
    pose proof (Hf i g Hi Hg) as Ht. destruct (f i g) as [g'|j g' more]; cbn [sound] in Ht.
    - now apply finder_one.
    - destruct Ht as (Hj & Hg' & _). destruct (idle b i j); [now apply finder_one|].
      assert (j <= L) by apply Hj.
      eapply sound_mono; [|apply IH; auto]. intros k Hk. eapply (beyond_trans left true true); eauto.
      eapply beyond_weaken; eauto.
  Qed.

  (** ** The outcome of a search with a continuation *)

  Fixpoint follow (left : bool) (t : search) (k : cont) : outcome :=
    match t with
    | Stop g => Res g 0 false
    | Found i g more => or_else (k (pos left i) g) (fun g' => follow left (more g') k)
    end.

  (** Continuations that leave good groups, from an offset on. *)
  Definition polite (lo : nat) (k : cont) : Prop :=
    forall j c c' e, lo <= j -> j <= L -> gd c -> k j c = Res c' e false -> gd c'.

  Lemma polite_from lo lo' k : polite lo k -> lo <= lo' -> polite lo' k.
  Proof. intros H Hl j c c' e Hj. apply H. lia. Qed.

  Lemma polite_success lo : polite lo success.
  Proof. intros j c c' e _ _ _ H. discriminate H. Qed.

  Lemma polite_equals lo n : polite lo (equals n).
  Proof. intros j c c' e _ _ Hg H. unfold equals in H. injection H as <- _ _. exact Hg. Qed.

  Lemma beyond_pos left z cur i : cur <= L -> beyond left z (pos left cur) i ->
    cur <= pos left i /\ pos left i <= L /\ i <= L.
  Proof. unfold beyond, Exact.pos. intros Hc (H1 & H2 & _). destruct left; lia. Qed.

  Lemma follow_polite left z cur t k c e : cur <= L -> sound (beyond left z (pos left cur)) t -> polite cur k ->
    follow left t k = Res c e false -> gd c.
  Proof.
    intros Hc Ht Hk. revert c e. induction t as [g|i g more IH]; cbn in *; intros c e H.
    - injection H as <- _. exact Ht.
    - destruct Ht as (H1 & H2 & H3).
      destruct (k (pos left i) g) as [c' e' [|]| | |] eqn:E; cbn in H; try discriminate.
      apply (IH c') in H; auto. apply H3.
      destruct (beyond_pos left z cur i Hc H1) as (B1 & B2 & _).
      apply (Hk (pos left i) g c' e'); auto.
  Qed.

  Lemma polite_follow left z f k lo : finder left z f -> polite lo k ->
    polite lo (fun j c => follow left (f (pos left j) c) k).
  Proof.
    intros Hf Hk j c c' e Hlo Hj Hg H.
    refine (follow_polite left z j _ k c' e Hj _ _ H).
    - apply Hf; auto. now apply pos_le.
    - eapply polite_from; eauto.
  Qed.

  Lemma follow_otherwise left t h k :
    follow left (otherwise t h) k = or_else (follow left t k) (fun g => follow left (h g) k).
  Proof.
    induction t as [g|i g more IH]; cbn; [reflexivity|]. rewrite or_else_assoc.
    apply or_else_cong. auto.
  Qed.

  Lemma follow_then left z1 z2 t f k cur : cur <= L -> sound (beyond left z1 (pos left cur)) t -> finder left z2 f ->
    polite cur k ->
    follow left (followed_by t f) k = follow left t (fun j c => follow left (f (pos left j) c) k).
  Proof.
    intros Hc Ht Hf Hk. induction t as [g|i g more IH]; cbn in *; [reflexivity|].
    destruct Ht as (H1 & H2 & H3). destruct (beyond_pos left z1 cur i Hc H1) as (B1 & B2 & B3).
    rewrite follow_otherwise, pos_pos by auto.
    apply or_else_cong. intros c e E. apply IH, H3.
    refine (follow_polite left z2 (pos left i) _ k c e B2 _ _ E).
    - rewrite pos_pos by auto. auto.
    - eapply polite_from; eauto.
  Qed.

  Lemma follow_cong left z cur t k1 k2 : cur <= L -> sound (beyond left z (pos left cur)) t -> polite cur k1 ->
    (forall i g, beyond left z (pos left cur) i -> gd g -> norm (k1 (pos left i) g) = norm (k2 (pos left i) g)) ->
    norm (follow left t k1) = norm (follow left t k2).
  Proof.
    intros Hc Ht Hk H. induction t as [g|i g more IH]; cbn in *; [reflexivity|].
    destruct Ht as (H1 & H2 & H3). destruct (beyond_pos left z cur i Hc H1) as (B1 & B2 & B3).
    apply norm_or_else; [auto|].
    intros c e E. apply IH, H3. exact (Hk _ g c e B1 B2 H2 E).
  Qed.

  Lemma follow_one left i g k : i <= L -> norm (follow left (one (pos left i) g) k) = norm (k i g).
  Proof.
    intros Hi. cbn. rewrite pos_pos by auto. apply (norm_fail _ (fun _ => 0)).
  Qed.

  Lemma follow_test left b i g k : i <= L ->
    norm (follow left (test b (pos left i) g) k) = norm (assert_that b i g k).
  Proof. intros Hi. destruct b; [now apply follow_one|reflexivity]. Qed.

  (** The first end. *)
  Lemma follow_success left t : follow left t success
    = match t with Stop g => Res g 0 false | Found i g _ => Res g (pos left i) true end.
  Proof. now destruct t. Qed.

  Lemma follow_first left t k :
    norm (follow left (first_only t) k)
    = norm (on_result (follow left t success) (fun e c => k e c) (fun c => Res c 0 false)).
  Proof.
    rewrite follow_success. destruct t as [g|i g more]; [reflexivity|].
    cbn. apply (norm_fail _ (fun _ => 0)).
  Qed.

  (** ** Matchers and finders *)

  Definition sem (left : bool) (mx : matcher) (f : nat -> caps -> search) : Prop :=
    forall cur c k, cur <= L -> gd c -> polite cur k ->
    norm (mx cur c k) = norm (follow left (f (pos left cur) c) k).

  Lemma sem_polite left z mx f k cur c c' e : sem left mx f -> finder left z f -> cur <= L -> gd c ->
    polite cur k -> mx cur c k = Res c' e false -> gd c'.
  Proof.
    intros Hs Hf Hc Hg Hk E. pose proof (Hs cur c k Hc Hg Hk) as H. rewrite E in H. cbn in H.
    destruct (follow left (f (pos left cur) c) k) as [c'' e'' [|]| | |] eqn:F; cbn in H;
      try discriminate. injection H as ->.
    refine (follow_polite left z cur _ k c'' e'' Hc _ Hk F).
    apply Hf; auto. now apply pos_le.
  Qed.

  (** Then [mx2]. *)
  Lemma sem_then left z1 z2 mx1 f1 (K : cont -> cont) f2 : sem left mx1 f1 -> finder left z1 f1 ->
    (forall k j c, j <= L -> gd c -> polite j k -> norm (K k j c) = norm (follow left (f2 (pos left j) c) k)) ->
    finder left z2 f2 ->
    sem left (fun cur c k => mx1 cur c (K k)) (fun i g => followed_by (f1 i g) f2).
  Proof.
    intros H1 F1 H2 F2 cur c k Hc Hg Hk.
    assert (HK : polite cur (K k)).
    { intros j c0 c' e Hl Hj Hg0 E. pose proof (H2 k j c0 Hj Hg0 (polite_from _ _ _ Hk Hl)) as H.
      rewrite E in H. cbn in H.
      destruct (follow left (f2 (pos left j) c0) k) as [c'' e'' [|]| | |] eqn:F; cbn in H;
        try discriminate. injection H as ->. eapply (polite_follow left z2 f2); eauto. }
    rewrite (H1 cur c (K k)) by auto.
    rewrite (follow_then left z1 z2 _ _ _ cur); auto using pos_le.
    apply (follow_cong left z1 cur); auto.
    - apply F1; auto using pos_le.
    - intros i g Hi Hg'. destruct (beyond_pos left z1 cur i Hc Hi) as (B1 & B2 & B3).
      apply H2; auto. eapply polite_from; eauto.
  Qed.
End Searches.

(** ** The loops and blocks of the matcher *)

Section Blocks.
  Variable cf : config.
  Variable names : list group_name.
  Variable base : list ascii.
  Variable left : bool.
  Local Notation L := (length base).
  Local Notation gd := (good names base).
  Local Notation pos := (pos base).
  Local Notation s := (side base left).
  Local Notation follow := (follow base).
  Local Notation sem := (sem names base).
  Local Notation finder := (finder names base).
  Local Notation polite := (polite names base).
  Local Notation beyond := (beyond base).

  Lemma s_length : length s = L.
  Proof. apply side_length. Qed.

  (** One character. *)
  Definition reads (p : ascii -> bool) (i : nat) (g : caps) : search :=
    match read_char base left p i with j :: _ => one j g | [] => Stop g end.

  Lemma reads_spec p cur c : cur <= L -> reads p (pos left cur) c
    = match nth_error s cur with
      | Some a => if p a then one (pos left (S cur)) c else Stop c
      | None => Stop c
      end.
  Proof.
    intros Hc. unfold reads. pose proof (seen_read base left p cur) as H. unfold seen, char_at in H.
    destruct (read_char base left p (pos left cur)) as [|j l] eqn:E.
    - destruct (nth_error s cur) as [a|]; [|reflexivity]. now destruct (p a).
    - cbn [map] in H. assert (Hj : j <= L).
      { unfold read_char in E. destruct left.
        - destruct (char_before base p (pos true cur)) eqn:B; [|discriminate]. injection E as <- _.
          cbn. lia.
        - destruct (char_at base p (pos false cur)) eqn:B; [|discriminate]. injection E as <- _.
          unfold char_at in B. destruct (nth_error base (pos false cur)) eqn:N; [|discriminate].
          assert (nth_error base (pos false cur) <> None) by congruence. now apply nth_error_Some in H0. }
      destruct (nth_error s cur) as [a|]; [|discriminate]. destruct (p a); [|discriminate].
      injection H as H _. rewrite <- H, pos_pos by assumption. reflexivity.
  Qed.

  Lemma finder_reads p : finder left false (reads p).
  Proof.
    intros i g Hi Hg. rewrite <- (pos_pos base left i Hi) at 2. rewrite reads_spec by now apply pos_le.
    destruct (nth_error s (pos left i)) as [a|] eqn:E; [|exact Hg].
    assert (H : pos left i < L).
    { rewrite <- s_length. apply nth_error_Some. congruence. }
    destruct (p a); [|exact Hg]. apply sound_one; auto. unfold beyond, Exact.pos in *.
    unfold Explored.beyond. destruct left; repeat split; try lia.
  Qed.

  Lemma sem_trivial p : sem left (match_trivial s p) (reads p).
  Proof.
    intros cur c k Hc Hg Hk. rewrite reads_spec by assumption. unfold match_trivial, deref.
    rewrite s_length. destruct (nth_error s cur) as [a|] eqn:E.
    - assert (cur < length s) by (apply nth_error_Some; congruence). rewrite s_length in *.
      destruct (Nat.eqb_spec cur L); [lia|]. destruct (p a); [|reflexivity].
      symmetry. apply follow_one. lia.
    - apply nth_error_None in E. rewrite s_length in E. destruct (Nat.eqb_spec cur L); [reflexivity|lia].
  Qed.

  (** ** Concatenation *)

  Fixpoint chain (fs : list (nat -> caps -> search)) (i : nat) (g : caps) : search :=
    match fs with
    | [] => one i g
    | f :: r => followed_by (f i g) (chain r)
    end.

  Lemma finder_chain fs : Forall (finder left true) fs -> finder left true (chain fs).
  Proof.
    induction 1 as [|f r Hf Hr IH]; intros i g Hi Hg; cbn [chain]; [now apply finder_one|].
    apply (finder_followed names base left true true); auto.
  Qed.

  Lemma exactly_chain f n : exactly f n = chain (repeat f n).
  Proof.
    induction n as [|n IH]; [reflexivity|]. cbn [repeat].
    change (chain (f :: repeat f n)) with (fun i g => followed_by (f i g) (chain (repeat f n))).
    rewrite <- IH. reflexivity.
  Qed.

  (** A block of single characters. *)
  Definition block (ps : list (ascii -> bool)) (cur : nat) (c : caps) (k : cont) : outcome :=
    if Nat.ltb (L - cur) (length ps) then Res c 0 false
    else match all_at s ps cur with
         | Some true => k (cur + length ps) c
         | _ => Res c 0 false
         end.

  Definition read_by (f : nat -> caps -> search) (p : ascii -> bool) : Prop :=
    forall i g, f i g = reads p i g.

  Lemma finder_read_by f p : read_by f p -> finder left false f.
  Proof. intros H i g Hi Hg. rewrite H. now apply finder_reads. Qed.

  Lemma sem_block fs ps : Forall2 read_by fs ps -> sem left (block ps) (chain fs).
  Proof.
    induction 1 as [|f p fs r Hf Hr IH]; intros cur c k Hc Hg Hk; cbn [chain].
    - unfold block. cbn. destruct (Nat.ltb_spec (L - cur) 0); [lia|].
      rewrite Nat.add_0_r. symmetry. now apply follow_one.
    - rewrite (follow_then names base left false true _ _ _ cur); auto using pos_le.
      + rewrite Hf, reads_spec by assumption. unfold block. cbn [length all_at].
        destruct (nth_error s cur) as [a|] eqn:E.
        * assert (Hlt : cur < length s) by (apply nth_error_Some; congruence). rewrite s_length in Hlt.
          destruct (p a).
          -- cbn [Explored.follow one]. rewrite (pos_pos base left (S cur)) by lia.
             transitivity (norm (follow left (chain fs (pos left (S cur)) c) k)).
             2:{ symmetry. apply (norm_fail _ (fun _ => 0)). }
             rewrite <- IH by (try (eapply polite_from; [eassumption|lia]); auto; lia). unfold block.
             destruct (Nat.ltb_spec (L - cur) (S (length r))), (Nat.ltb_spec (L - S cur) (length r)); try lia;
               [reflexivity|]. replace (cur + S (length r)) with (S cur + length r) by lia. reflexivity.
          -- destruct (Nat.ltb (L - cur) (S (length r))); reflexivity.
        * destruct (Nat.ltb (L - cur) (S (length r))); reflexivity.
      + rewrite Hf. apply finder_reads; auto using pos_le.
      + apply finder_chain. clear -Hr. induction Hr; constructor; auto.
        eapply finder_weaken, finder_read_by; eauto.
  Qed.

  Lemma block_random ps cur c k : cur + length ps <= L ->
    norm (trivial_block_random s ps cur c k) = norm (block ps cur c k).
  Proof.
    intros H. unfold trivial_block_random, block. destruct (Nat.ltb_spec (L - cur) (length ps)); [lia|].
    destruct (all_at_some base s s_length ps cur H) as [b ->]. now destruct b.
  Qed.

  Lemma block_forward ps cur c k : ps <> [] -> cur + length ps <= L ->
    norm (sequence_block_forward s ps cur c k) = norm (block ps cur c k).
  Proof.
    intros Hn H. destruct (forward_as_random base s s_length ps cur c k Hn H) as [F1 F2].
    unfold block. destruct (Nat.ltb_spec (L - cur) (length ps)); [lia|].
    destruct (all_at_some base s s_length ps cur H) as [b E]. rewrite E in *. destruct b.
    - now rewrite F1.
    - destruct (F2 eq_refl) as [e ->]. reflexivity.
  Qed.

  Lemma block_repetition p n cur c k : cur + n <= L ->
    norm (repetition_block_forward s p n cur c k) = norm (block (repeat p n) cur c k).
  Proof.
    intros H. pose proof (forward_repetition base s s_length p n cur c k) as F. unfold block.
    rewrite repeat_length. destruct (Nat.ltb_spec (L - cur) n); [lia|].
    destruct (all_at_some base s s_length (repeat p n) cur) as [b E]; [now rewrite repeat_length|].
    rewrite E in *. destruct b; [now rewrite F|]. destruct F as [e ->]. reflexivity.
  Qed.

  (** ** Loops *)

  Section Loops.
    Variable mx : matcher.
    Variable f : nat -> caps -> search.
    Variable z : bool.
    Hypothesis Hsem : sem left mx f.
    Hypothesis Hfind : finder left z f.

    Lemma polite_continue w lo cur K : polite lo K -> polite lo (continue_unless_infinite_loop w cur K).
    Proof.
      intros HK j c c' e Hl Hj Hg. unfold continue_unless_infinite_loop.
      destruct (w && Nat.eqb cur j); [|now apply HK]. unfold non_match. congruence.
    Qed.

    Lemma polite_greedy w k lo : polite lo k -> forall fuel b, polite lo (fun j c => greedy_generic fuel mx w b j c k).
    Proof.
      intros Hk. induction fuel as [|fu IH]; intros b j c c' e Hl Hj Hg E; [discriminate|].
      cbn [greedy_generic] in E. destruct (bound_is_zero b); [exact (Hk j c c' e Hl Hj Hg E)|].
      destruct (mx j c _) as [c0 e0 [|]| | |] eqn:E0 in E; cbn in E; try discriminate.
      refine (Hk j c0 c' e Hl Hj _ E).
      refine (sem_polite names base left z mx f _ j c c0 e0 Hsem Hfind Hj Hg _ E0).
      apply polite_continue. exact (polite_from _ _ _ _ _ (IH _) Hl).
    Qed.

    Lemma polite_lazy w k lo : polite lo k -> forall fuel b, polite lo (fun j c => lazy_generic fuel mx w b j c k).
    Proof.
      intros Hk. induction fuel as [|fu IH]; intros b j c c' e Hl Hj Hg E; [discriminate|].
      cbn [lazy_generic] in E.
      destruct (k j c) as [c0 e0 [|]| | |] eqn:E0; cbn in E; try discriminate.
      assert (Hg0 : gd c0) by exact (Hk j c c0 e0 Hl Hj Hg E0).
      destruct (bound_is_zero b); [unfold non_match in E; congruence|].
      refine (sem_polite names base left z mx f _ j c0 c' e Hsem Hfind Hj Hg0 _ E).
      apply polite_continue. exact (polite_from _ _ _ _ _ (IH _) Hl).
    Qed.

    (** The loops with the guard of the code ([w]) and of the specification. *)
    Variable w : bool.

    Definition guarded (b : quantifier) : Prop :=
      (w = true -> b = Inf) /\ (b = Inf -> w = false -> z = false).

    Lemma guarded_less b : guarded b -> guarded (one_less b).
    Proof. intros [H1 H2]. split; destruct b; cbn; intros; auto; try discriminate. now apply H1 in H. Qed.

    Lemma beyond_forward cur j : cur <= L -> beyond left z (pos left cur) j ->
      cur <= pos left j /\ pos left j <= L /\ (pos left cur <> j -> cur < pos left j).
    Proof.
      unfold Explored.beyond, Exact.pos. intros Hc (H1 & H2 & _). destruct left; lia.
    Qed.

    Lemma guard_spec b cur j : guarded b -> cur <= L -> beyond left z (pos left cur) j ->
      w && Nat.eqb cur (pos left j) = idle b (pos left cur) j.
    Proof.
      intros [H1 H2] Hc Hj. assert (Hl : j <= L) by apply Hj.
      rewrite <- (pos_eqb base left cur (pos left j)), pos_pos by auto using pos_le.
      destruct b as [n|]; cbn.
      - destruct w; [discriminate H1; auto|reflexivity].
      - destruct w; [reflexivity|]. cbn. symmetry. apply Nat.eqb_neq. apply Hj, H2; auto.
    Qed.

    Lemma enough_next fm b cur j : enough base (S fm) b cur -> none_left b = false -> cur <= L ->
      beyond left z (pos left cur) j -> idle b (pos left cur) j = false ->
      enough base fm (one_less b) (pos left j).
    Proof.
      intros He Hb Hc Hj Hi. destruct (beyond_forward cur j Hc Hj) as (H1 & H2 & H3).
      apply (enough_step base s s_length fm b cur); auto. intros ->. cbn in Hi. apply Nat.eqb_neq in Hi. auto.
    Qed.

    Lemma enough_pos fm b cur : enough base fm b cur -> fm <> 0.
    Proof. destruct b; cbn; lia. Qed.

    Lemma sem_committing : forall fm fu b cur c k, guarded b -> cur <= L -> gd c -> polite cur k ->
      enough base fm b cur -> enough base fu b cur ->
      norm (possessive_generic fm mx w b cur c k) = norm (follow left (committing f fu b (pos left cur) c) k).
    Proof.
      induction fm as [|fm IH]; intros fu b cur c k Hw Hc Hg Hk E1 E2; [now apply enough_pos in E1|].
      destruct fu as [|fu]; [now apply enough_pos in E2|].
      cbn [possessive_generic committing]. change (bound_is_zero b) with (none_left b).
      destruct (none_left b) eqn:Z; [symmetry; now apply follow_one|].
      pose proof (Hsem cur c success Hc Hg (polite_success names base cur)) as H. rewrite follow_success in H.
      pose proof (Hfind (pos left cur) c (pos_le base left cur Hc) Hg) as Ht.
      destruct (f (pos left cur) c) as [g'|j g' more]; cbn [sound] in Ht.
      - destruct (mx cur c success) as [c0 e0 [|]| | |]; cbn in H; try discriminate.
        injection H as ->. cbn [on_result]. symmetry. now apply follow_one.
      - destruct Ht as (Hj & Hg' & _). apply (proj1 (norm_res _ _ _)) in H. rewrite H. cbn [on_result].
        rewrite (guard_spec b cur j Hw Hc Hj). destruct (idle b (pos left cur) j) eqn:I.
        + symmetry. now apply follow_one.
        + assert (Hl : j <= L) by apply Hj. rewrite <- (pos_pos base left j Hl) at 2.
          change (bound_decrement b) with (one_less b).
          apply IH; auto using guarded_less, pos_le;
            [eapply polite_from; [eassumption|eapply beyond_pos; eauto] | | ]; eapply enough_next; eauto.
    Qed.

    Lemma sem_more : forall fm fu b cur c k, guarded b -> cur <= L -> gd c -> polite cur k ->
      enough base fm b cur -> enough base fu b cur ->
      norm (greedy_generic fm mx w b cur c k) = norm (follow left (trying_more f fu b (pos left cur) c) k).
    Proof.
      induction fm as [|fm IH]; intros fu b cur c k Hw Hc Hg Hk E1 E2; [now apply enough_pos in E1|].
      destruct fu as [|fu]; [now apply enough_pos in E2|].
      cbn [greedy_generic trying_more]. change (bound_is_zero b) with (none_left b).
      destruct (none_left b) eqn:Z; [symmetry; now apply follow_one|].
      rewrite follow_otherwise. apply norm_or_else; [|intros; symmetry; now apply follow_one].
      set (K := continue_unless_infinite_loop w cur _).
      assert (HK : polite cur K) by (apply polite_continue, (polite_greedy w k cur Hk)).
      rewrite (Hsem cur c K Hc Hg HK).
      rewrite (follow_then names base left z true _ _ _ cur); auto using pos_le.
      - apply (follow_cong names base left z cur); auto using pos_le.
        + intros j g Hj Hg'. assert (Hl : j <= L) by apply Hj. rewrite (pos_pos base left j Hl).
          unfold K, continue_unless_infinite_loop. rewrite (guard_spec b cur j Hw Hc Hj).
          destruct (idle b (pos left cur) j) eqn:I; [reflexivity|].
          rewrite <- (pos_pos base left j Hl) at 2. change (bound_decrement b) with (one_less b).
          apply IH; auto using guarded_less, pos_le;
            [eapply polite_from; [eassumption|eapply beyond_pos; eauto] | | ]; eapply enough_next; eauto.
      - intros j g Hj Hg'. destruct (idle b (pos left cur) j); [exact Hg'|].
        now apply (finder_more names base left z f Hfind).
    Qed.

    Lemma sem_fewer : forall fm fu b cur c k, guarded b -> cur <= L -> gd c -> polite cur k ->
      enough base fm b cur -> enough base fu b cur ->
      norm (lazy_generic fm mx w b cur c k) = norm (follow left (trying_fewer f fu b (pos left cur) c) k).
    Proof.
      induction fm as [|fm IH]; intros fu b cur c k Hw Hc Hg Hk E1 E2; [now apply enough_pos in E1|].
      destruct fu as [|fu]; [now apply enough_pos in E2|].
      cbn [lazy_generic trying_fewer]. change (bound_is_zero b) with (none_left b).
      destruct (none_left b) eqn:Z.
      { rewrite follow_one by assumption. apply (norm_fail _ (fun _ => cur)). }
      cbn [Explored.follow]. rewrite pos_pos by assumption. apply norm_or_else; [reflexivity|].
      intros c0 e0 E0. assert (Hg0 : gd c0) by exact (Hk cur c c0 e0 (le_n _) Hc Hg E0). clear E0.
      set (K := continue_unless_infinite_loop w cur _).
      assert (HK : polite cur K) by (apply polite_continue, (polite_lazy w k cur Hk)).
      rewrite (Hsem cur c0 K Hc Hg0 HK).
      rewrite (follow_then names base left z true _ _ _ cur); auto using pos_le.
      - apply (follow_cong names base left z cur); auto using pos_le.
        + intros j g Hj Hg'. assert (Hl : j <= L) by apply Hj. rewrite (pos_pos base left j Hl).
          unfold K, continue_unless_infinite_loop. rewrite (guard_spec b cur j Hw Hc Hj).
          destruct (idle b (pos left cur) j) eqn:I; [reflexivity|].
          rewrite <- (pos_pos base left j Hl) at 2. change (bound_decrement b) with (one_less b).
          apply IH; auto using guarded_less, pos_le;
            [eapply polite_from; [eassumption|eapply beyond_pos; eauto] | | ]; eapply enough_next; eauto.
      - intros j g Hj Hg'. destruct (idle b (pos left cur) j); [exact Hg'|].
        now apply (finder_fewer names base left z f Hfind).
    Qed.

    (** ** Counted repetitions *)

    Lemma sem_unrolled n : sem left (unrolled_backtracking mx n) (chain (repeat f n)).
    Proof.
      induction n as [|n IH]; intros cur c k Hc Hg Hk; [symmetry; now apply follow_one|].
      assert (HF : finder left true (chain (repeat f n))).
      { apply finder_chain, Forall_forall. intros y Hy. apply repeat_spec in Hy. subst y.
        eapply finder_weaken; eauto. }
      cbn [unrolled_backtracking repeat chain]. destruct n as [|n].
      - rewrite (follow_then names base left z true _ _ _ cur); auto using pos_le.
        rewrite (Hsem cur c k Hc Hg Hk).
        apply (follow_cong names base left z cur); auto using pos_le.
        + intros j g Hj Hg'. assert (Hl : j <= L) by apply Hj. cbn [repeat chain].
          symmetry. apply follow_one. now apply pos_le.
      - exact (sem_then names base left z true mx f (fun k j c => unrolled_backtracking mx (S n) j c k)
                 (chain (repeat f (S n))) Hsem Hfind (fun k j c Hj Hg Hk => IH j c k Hj Hg Hk) HF cur c k Hc Hg Hk).
    Qed.

    Lemma non_unrolled n : forall cur c k, non_unrolled_backtracking mx (S n) cur c k
      = match n with
        | 0 => mx cur c k
        | _ => mx cur c (fun next c' => non_unrolled_backtracking mx n next c' k)
        end.
    Proof. intros. destruct n; reflexivity. Qed.

    Lemma sem_non_unrolled n : sem left (non_unrolled_backtracking mx (S n)) (chain (repeat f (S n))).
    Proof.
      induction n as [|n IH]; intros cur c k Hc Hg Hk; rewrite non_unrolled.
      - exact (sem_unrolled 1 cur c k Hc Hg Hk).
      - assert (HF : finder left true (chain (repeat f (S n)))).
        { apply finder_chain, Forall_forall. intros y Hy. apply repeat_spec in Hy. subst y.
          eapply finder_weaken; eauto. }
        exact (sem_then names base left z true mx f (fun k j c => non_unrolled_backtracking mx (S n) j c k)
                 (chain (repeat f (S n))) Hsem Hfind (fun k j c Hj Hg Hk => IH j c k Hj Hg Hk) HF cur c k Hc Hg Hk).
    Qed.
  End Loops.

  (** A greedy loop over a class: its longest run, then back one by one. *)
  Lemma sem_steps f p : read_by f p -> forall fm fu b cur d c k,
    Impl.run s fm p b cur = Some d -> enough base fu b cur -> cur <= L -> gd c -> polite cur k ->
    norm (step_back cur d c k) = norm (follow left (trying_more f fu b (pos left cur) c) k).
  Proof.
    intros Hf. induction fm as [|fm IH]; intros fu b cur d c k Hr He Hc Hg Hk; [discriminate|].
    destruct fu as [|fu]; [now apply enough_pos in He|].
    cbn [Impl.run] in Hr. cbn [trying_more]. change (bound_is_zero b) with (none_left b) in Hr.
    destruct (none_left b) eqn:Z.
    { injection Hr as <-. cbn [step_back]. rewrite Nat.add_0_r. unfold non_match.
      rewrite (norm_fail _ (fun _ => cur)). symmetry. now apply follow_one. }
    rewrite follow_otherwise, Hf, reads_spec by assumption.
    assert (Hlast : forall d', Some 0 = Some d' -> norm (step_back cur d' c k)
              = norm (or_else (follow left (Stop c) k) (fun g => follow left (one (pos left cur) g) k))).
    { intros d' E. injection E as <-. cbn [step_back Explored.follow or_else]. rewrite Nat.add_0_r. unfold non_match.
      rewrite (norm_fail _ (fun _ => cur)). symmetry. now apply follow_one. }
    destruct (nth_error s cur) as [a|] eqn:En; [|now apply Hlast].
    destruct (p a); [|now apply Hlast].
    assert (Hlt : cur < L) by (rewrite <- s_length; apply nth_error_Some; congruence).
    destruct (Impl.run s fm p (bound_decrement b) (S cur)) as [d'|] eqn:Er; [|discriminate].
    cbn in Hr. injection Hr as <-. rewrite (step_back_split base s s_length).
    assert (Hi : idle b (pos left cur) (pos left (S cur)) = false).
    { destruct b; [reflexivity|]. cbn. rewrite (pos_eqb base left) by lia. apply Nat.eqb_neq. lia. }
    apply norm_or_else.
    - cbn [followed_by one]. rewrite Hi, follow_otherwise.
      transitivity (norm (follow left (trying_more f fu (one_less b) (pos left (S cur)) c) k)).
      2:{ symmetry. apply (norm_fail _ (fun _ => 0)). }
      apply IH; auto; try lia; [|eapply polite_from; [eassumption|lia]].
      apply (enough_step base s s_length fu b cur); auto; lia.
    - intros c' e' _. unfold non_match. rewrite (norm_fail _ (fun _ => cur)). symmetry. now apply follow_one.
  Qed.

  Lemma sem_ext mx f g : (forall i c, i <= L -> gd c -> f i c = g i c) -> sem left mx f -> sem left mx g.
  Proof. intros E H cur c k Hc Hg Hk. rewrite <- E by auto using pos_le. now apply H. Qed.

  Lemma reads_ext p q : (forall a, p a = q a) -> read_by (reads p) q.
  Proof.
    intros E i g. unfold reads, read_char, char_before, char_at.
    destruct left; [destruct i as [|i]; [reflexivity|]|]; destruct (nth_error base i); try reflexivity;
      now rewrite E.
  Qed.

  Lemma sem_read f p : read_by f p -> sem left (match_trivial s p) f.
  Proof. intros H. apply (sem_ext _ (reads p)); [now intros; rewrite H|apply sem_trivial]. Qed.

  Section Repetition.
    Variable x : node.
    Variable mx : matcher.
    Variable f : nat -> caps -> search.
    Hypothesis Hsem : sem left mx f.
    Hypothesis Hfind : finder left (may_be_empty x) f.
    Hypothesis Hclass : trivial x = true -> read_by f (match_one cf x).

    Definition looping (md : match_mode) (b : quantifier) : nat -> caps -> search :=
      match md with
      | Greedy => if ungreedy cf then trying_fewer f (any_fuel base b) b else trying_more f (any_fuel base b) b
      | Lazy => if ungreedy cf then trying_more f (any_fuel base b) b else trying_fewer f (any_fuel base b) b
      | Possessive => committing f (any_fuel base b) b
      end.

    Lemma enough_any b cur : enough base (any_fuel base b) b cur.
    Proof. unfold enough, any_fuel. destruct b; lia. Qed.

    Lemma trivial_guarded b : trivial x = true -> guarded false false b.
    Proof. intros _. split; auto. discriminate. Qed.

    Lemma finder_class : trivial x = true -> finder left false f.
    Proof. intros T. eapply finder_read_by; eauto. Qed.

    Lemma sem_between md b w : guarded (may_be_empty x) w b ->
      sem left (between_bounds cf s md b w x mx) (looping md b).
    Proof.
      intros Hw cur c k Hc Hg Hk. unfold between_bounds.
      pose proof (enough_loop_fuel base s s_length b cur) as He.
      set (fm := loop_fuel b (length s) cur) in *. clearbody fm.
      pose proof (enough_any b cur) as Hu.
      assert (Hmore : norm (if trivial x && is_bidirectional cf then
                 possessive_trivial fm s (match_one cf x) b cur c
                   (fun next c' => step_back cur (next - cur) c' k)
               else greedy_generic fm mx w b cur c k)
          = norm (follow left (trying_more f (any_fuel base b) b (pos left cur) c) k)).
      { destruct (trivial x && is_bidirectional cf) eqn:T.
        - apply andb_true_iff in T as [T _]. rewrite (possessive_run base s s_length) by assumption.
          destruct (Impl.run s fm (match_one cf x) b cur) as [d|] eqn:Er.
          + replace (cur + d - cur) with d by lia. eapply sem_steps; eauto.
          + exfalso. exact (run_some base s s_length (match_one cf x) fm b cur Hc He Er).
        - eapply sem_more; eauto. }
      assert (Hfewer : norm (if trivial x then lazy_trivial fm s (match_one cf x) b cur c k
               else lazy_generic fm mx w b cur c k)
          = norm (follow left (trying_fewer f (any_fuel base b) b (pos left cur) c) k)).
      { destruct (trivial x) eqn:T in |- *.
        - rewrite lazy_trivial_generic.
          refine (sem_fewer _ f false (sem_read _ _ (Hclass T)) (finder_class T) false _ _ _ _ _ _ _ _ _ _ He Hu);
            auto using trivial_guarded.
        - eapply sem_fewer; eauto. }
      destruct md; cbn [xorb looping].
      - destruct (ungreedy cf); cbn [negb]; assumption.
      - destruct (ungreedy cf); cbn [negb]; assumption.
      - destruct (trivial x) eqn:T in |- *.
        + rewrite possessive_trivial_generic.
          refine (sem_committing _ f false (sem_read _ _ (Hclass T)) (finder_class T) false _ _ _ _ _ _ _ _ _ _ He Hu);
            auto using trivial_guarded.
        + eapply sem_committing; eauto.
    Qed.

    Lemma finder_times n : finder left true (chain (repeat f n)).
    Proof.
      apply finder_chain, Forall_forall. intros y Hy. apply repeat_spec in Hy. subst y.
      eapply finder_weaken; eauto.
    Qed.

    Lemma finder_looping md b : finder left true (looping md b).
    Proof.
      unfold looping. destruct md; [destruct (ungreedy cf)|destruct (ungreedy cf)|];
        eauto using finder_more, finder_fewer, finder_commit.
    Qed.

    Lemma sem_fixed_backtracking n : (1 < n)%N ->
      sem left (fixed_backtracking cf s x mx n) (chain (repeat f (N.to_nat n))).
    Proof.
      intros Hn cur c k Hc Hg Hk. unfold fixed_backtracking. destruct (trivial x) eqn:T.
      - rewrite (distance_spec cf base s s_length) by assumption.
        rewrite <- (sem_block (repeat f (N.to_nat n)) (repeat (match_one cf x) (N.to_nat n))); auto.
        2:{ clear -Hclass T. induction (N.to_nat n); constructor; auto. }
        destruct (Nat.ltb_spec (L - cur) (N.to_nat n)) as [Hlt|Hge].
        + unfold block. rewrite repeat_length. apply Nat.ltb_lt in Hlt. rewrite Hlt. reflexivity.
        + destruct (is_random cf).
          * rewrite (repetition_loop_block base s s_length).
            destruct (unroll cf); apply block_random; rewrite repeat_length; lia.
          * apply block_repetition. lia.
      - destruct (N.to_nat n) as [|n'] eqn:E; [lia|]. destruct (unroll cf).
        + eapply sem_unrolled; eauto.
        + eapply sem_non_unrolled; eauto.
    Qed.

    Lemma sem_first mx' f' : sem left mx' f' -> finder left true f' ->
      sem left (fun cur c k => on_result (mx' cur c success) (fun e c' => k e c') (fun c' => non_match cur c'))
        (fun i g => first_only (f' i g)).
    Proof.
      intros H Hf cur c k Hc Hg Hk.
      rewrite follow_first. apply norm_on_result; [|intros; reflexivity|intros; reflexivity].
      apply H; auto. apply polite_success.
    Qed.

    Definition starting (md : match_mode) (n : N) (i : nat) (g : caps) : search :=
      match md with
      | Possessive => first_only (chain (repeat f (N.to_nat n)) i g)
      | _ => chain (repeat f (N.to_nat n)) i g
      end.

    Lemma finder_starting md n : finder left true (starting md n).
    Proof.
      unfold starting. destruct md; try apply finder_times.
      intros i g Hi Hg. apply sound_first. now apply finder_times.
    Qed.

    Lemma sem_fixed md n : sem left (fixed_match cf s md n x mx) (starting md n).
    Proof.
      intros cur c k Hc Hg Hk. unfold fixed_match.
      destruct (N.eqb_spec n 0) as [->|Hn0].
      { destruct md; symmetry; now apply follow_one. }
      destruct (N.eqb_spec n 1) as [->|Hn1].
      - assert (H1 : norm (mx cur c k) = norm (follow left (chain (repeat f 1) (pos left cur) c) k))
          by (now apply (sem_unrolled mx f (may_be_empty x) Hsem Hfind 1)).
        destruct md; try exact H1. destruct (trivial x) eqn:T.
        + rewrite H1. cbn [starting]. change (N.to_nat 1) with 1. cbn [repeat chain].
          rewrite Hclass, reads_spec by auto. destruct (nth_error s cur) as [a|]; [|reflexivity].
          now destruct (match_one cf x a).
        + refine (sem_first mx (chain (repeat f 1)) _ (finder_times 1) cur c k Hc Hg Hk).
          exact (sem_unrolled mx f (may_be_empty x) Hsem Hfind 1).
      - assert (Hb : sem left (fixed_backtracking cf s x mx n) (chain (repeat f (N.to_nat n))))
          by (apply sem_fixed_backtracking; lia).
        destruct md; try (now apply Hb).
        exact (sem_first _ _ Hb (finder_times _) cur c k Hc Hg Hk).
    Qed.
  End Repetition.

  Lemma sem_rep x mx f md lo hi :
    (hi = Fin 0 \/ sem left mx f) -> finder left (may_be_empty x) f ->
    (trivial x = true -> read_by f (match_one cf x)) ->
    match hi with Fin h => (lo <= h)%N | Inf => True end ->
    sem left (rep_match cf s md lo hi x mx)
      (fun i g => followed_by (starting f md lo i g) (looping f md (remaining hi lo))).
  Proof.
    intros Hsem Hfind Hclass Hlo cur c k Hc Hg Hk. unfold rep_match.
    assert (Hloop0 : forall f' i g, looping f' md (Fin 0) i g = one i g).
    { intros. unfold looping. destruct md; [destruct (ungreedy cf)|destruct (ungreedy cf)|]; reflexivity. }
    assert (Hfst : forall n, sound names base (beyond left true (pos left cur)) (starting f md n (pos left cur) c)).
    { intros n. apply (finder_starting x f Hfind); auto using pos_le. }
    destruct (match hi with Fin h => N.eqb lo h | Inf => false end) eqn:Hfix.
    - destruct hi as [h|]; [|discriminate]. apply N.eqb_eq in Hfix. subst h.
      cbn [remaining]. rewrite N.sub_diag.
      rewrite (follow_then names base left true true _ _ _ cur); auto using pos_le.
      2:{ intros i g Hi Hg'. rewrite Hloop0. now apply finder_one. }
      transitivity (norm (follow left (starting f md lo (pos left cur) c) k)).
      + destruct Hsem as [E|Hsem].
        * injection E as ->. unfold fixed_match. cbn [N.eqb].
          destruct md; symmetry; now apply follow_one.
        * now apply (sem_fixed x mx f Hsem Hfind Hclass).
      + apply (follow_cong names base left true cur); auto.
        * intros i g Hi Hg'. rewrite Hloop0. symmetry. apply follow_one. apply pos_le, Hi.
    - destruct Hsem as [->|Hsem].
      { apply N.eqb_neq in Hfix. lia. }
      set (w := is_infinity hi && zlm x).
      assert (Hw : guarded (may_be_empty x) w (bound_subtract hi lo)).
      { unfold w. rewrite <- may_be_empty_zlm. split; destruct hi; cbn; intros; try discriminate; auto. }
      change (bound_subtract hi lo) with (remaining hi lo) in *.
      assert (Hb : sem left (between_bounds cf s md (remaining hi lo) w x mx) (looping f md (remaining hi lo)))
        by now apply sem_between.
      assert (Hfl : finder left true (looping f md (remaining hi lo)))
        by (apply (finder_looping x f Hfind)).
      unfold is_zero. destruct (N.eqb_spec lo 0) as [->|Hn0].
      + transitivity (norm (follow left (looping f md (remaining hi 0) (pos left cur) c) k)); [now apply Hb|].
        assert (E : starting f md 0 (pos left cur) c = one (pos left cur) c) by now destruct md.
        rewrite E. cbn [followed_by one]. rewrite follow_otherwise. symmetry. apply (norm_fail _ (fun _ => 0)).
      + exact (sem_then names base left true true (fixed_match cf s md lo x mx) (starting f md lo)
                 (fun k j c => between_bounds cf s md (remaining hi lo) w x mx j c k) _
                 (sem_fixed x mx f Hsem Hfind Hclass md lo) (finder_starting x f Hfind md lo)
                 (fun k j c Hj Hg Hk => Hb j c k Hj Hg Hk) Hfl cur c k Hc Hg Hk).
  Qed.

  (** ** Concatenation and alternation of nodes *)

  Definition node_ok (mm : node -> matcher) (x : node) (f : nat -> caps -> search) : Prop :=
    sem left (mm x) f /\ finder left true f /\ (trivial x = true -> read_by f (match_one cf x)).

  Lemma reads_all mm l fs : Forall2 (node_ok mm) l fs -> forallb trivial l = true ->
    Forall2 read_by fs (map (match_one cf) l).
  Proof.
    induction 1 as [|x f l fs (_ & _ & C) H IH]; intros T; [constructor|].
    cbn in T. apply andb_true_iff in T as [T1 T2]. constructor; auto.
  Qed.

  Lemma sem_seq mm l fs : l <> [] -> Forall2 (node_ok mm) l fs ->
    sem left (seq_match cf s mm l) (chain fs).
  Proof.
    intros Hne H. induction H as [|x f l fs (Hx & Ff & Cf) H IH]; [easy|]. clear Hne.
    destruct l as [|y l].
    - inversion H; subst. intros cur c k Hc Hg Hk. cbn [seq_match].
      exact (sem_unrolled (mm x) f true Hx Ff 1 cur c k Hc Hg Hk).
    - intros cur c k Hc Hg Hk. rewrite seq_match_cons by discriminate.
      destruct (forallb trivial (x :: y :: l)) eqn:T.
      + assert (HF : Forall2 read_by (f :: fs) (map (match_one cf) (x :: y :: l))).
        { apply (reads_all mm); auto. constructor; [now split|assumption]. }
        set (ps := map (match_one cf) (x :: y :: l)) in *.
        assert (Hlen : length (x :: y :: l) = length ps) by (unfold ps; now rewrite map_length).
        rewrite <- (sem_block (f :: fs) ps) by auto.
        rewrite (distance_spec cf base s s_length) by assumption. rewrite Hlen, Nat2N.id.
        destruct (Nat.ltb_spec (L - cur) (length ps)) as [Hlt|Hge].
        * unfold block. apply Nat.ltb_lt in Hlt. rewrite Hlt. reflexivity.
        * destruct (is_random cf); [apply block_random; lia|apply block_forward; [|lia]].
          unfold ps. discriminate.
      + assert (HF : finder left true (chain fs)).
        { apply finder_chain. clear -H. induction H as [|? ? ? ? (_ & F & _)]; constructor; auto. }
        refine (sem_then names base left true true (mm x) f (fun k j c => seq_match cf s mm (y :: l) j c k)
                 (chain fs) Hx Ff _ HF cur c k Hc Hg Hk).
        intros k' j c' Hj Hg' Hk'. apply IH; auto. discriminate.
  Qed.

  Section Alternatives.
    Variable F : node -> nat -> caps -> search.

    Fixpoint any (l : list node) (i : nat) (g : caps) : search :=
      if is_class (Alt l) then reads (accepts cf (Alt l)) i g
      else match l with
           | [] => Stop g
           | x :: r => otherwise (F x i g) (any r i)
           end.

    Definition alt_ok (mm : node -> matcher) (x y : node) : Prop :=
      node_ok mm x (F y) /\ is_class x = is_class y /\ forall a, accepts cf x a = accepts cf y a.

    Lemma alt_class mm l l' : Forall2 (alt_ok mm) l l' -> is_class (Alt l) = is_class (Alt l')
      /\ forall a, accepts cf (Alt l) a = accepts cf (Alt l') a.
    Proof.
      intros H. split.
      - destruct H as [|x y l l' (_ & E & _) H]; [reflexivity|]. cbn [is_class]. rewrite E. f_equal.
        induction H as [|? ? ? ? (_ & E' & _) H IH]; [reflexivity|]. cbn. now rewrite E', IH.
      - intros a. cbn [accepts]. induction H as [|? ? ? ? (_ & _ & E') H IH]; [reflexivity|]. cbn. now rewrite E', IH.
    Qed.

    Lemma existsb_match l a : existsb (fun y => match_one cf y a) l = accepts cf (Alt l) a.
    Proof. cbn [accepts]. induction l as [|z r IHr]; [reflexivity|]. cbn. now rewrite match_one_accepts, IHr. Qed.

    Lemma sem_alt mm l l' : l <> [] -> Forall2 (alt_ok mm) l l' ->
      sem left (alt_match cf s mm l) (any l').
    Proof.
      intros Hne H. induction H as [|x y l l' Hxy H IH]; [easy|]. clear Hne.
      destruct (alt_class mm (x :: l) (y :: l') (Forall2_cons _ _ Hxy H)) as [Ec Ea].
      destruct Hxy as ((Hx & Ff & Cf) & E1 & E2).
      intros cur c k Hc Hg Hk. destruct l as [|x' l].
      - inversion H; subst. cbn [alt_match any].
        destruct (is_class (Alt [y])) eqn:Cy.
        + cbn [is_class forallb] in Cy. rewrite andb_true_r in Cy.
          rewrite (Hx cur c k Hc Hg Hk). rewrite Cf by (rewrite trivial_is_class; congruence).
          rewrite (reads_ext (accepts cf (Alt [y])) (match_one cf x)); [reflexivity|].
          intros a. rewrite match_one_accepts, E2. cbn. apply orb_false_r.
        + rewrite follow_otherwise. cbn [any is_class]. rewrite (Hx cur c k Hc Hg Hk).
          symmetry. apply (norm_fail _ (fun _ => 0)).
      - rewrite alt_match_cons by discriminate.
        assert (Et : forallb trivial (x :: x' :: l) = is_class (Alt (x :: x' :: l))).
        { rewrite <- trivial_is_class, trivial_Alt. reflexivity. }
        cbn [any]. rewrite Et, Ec. destruct (is_class (Alt (y :: l'))).
        + rewrite <- (sem_read _ (fun a => existsb (fun y => match_one cf y a) (x :: x' :: l))); auto.
          apply reads_ext. intros a. rewrite <- Ea. symmetry. apply existsb_match.
        + rewrite follow_otherwise. apply norm_or_else; [now apply Hx|].
          intros c' e E. apply IH; auto; [discriminate|].
          exact (sem_polite names base left true (mm x) (F y) k cur c c' e Hx Ff Hc Hg Hk E).
    Qed.

    Lemma finder_any l : (forall x, In x l -> finder left true (F x)) -> finder left true (any l).
    Proof.
      induction l as [|x r IH]; intros H i g Hi Hg; cbn [any].
      - exact Hg.
      - destruct (is_class (Alt (x :: r))).
        + eapply finder_weaken; eauto. apply finder_reads.
        + apply sound_otherwise; [now apply H; cbn; auto|]. intros g' Hg'. apply IH; auto.
          intros y Hy. apply H. cbn. auto.
    Qed.
  End Alternatives.
End Blocks.
