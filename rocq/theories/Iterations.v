(** What a group that is repeated holds when its loop is left: in every search
    of [explore], that is at every point of a match where the code goes on after
    the loop (see C55). *)
From Coq Require Import Lia.
From Verif Require Import Ast Matcher Spec Basics Mirror Walk Safe Last Explore Explored Follows.

(** A search finds an end, now or after what followed earlier ends has failed. *)
Inductive finds : search -> nat -> Prop :=
| finds_now i g more : finds (Found i g more) i
| finds_later i g more g' j : finds (more g') j -> finds (Found i g more) j.

(** All that a search finds, when what follows leaves groups of the text behind
    (see [good]). *)
Fixpoint leaves_with (names : list group_name) (s : list ascii) (P : nat -> caps -> Prop)
    (t : search) : Prop :=
  match t with
  | Stop _ => True
  | Found i g more =>
      P i g /\ forall g', good names s g' -> leaves_with names s P (more g')
  end.

Section Iterations.
  Variable step : nat -> nat -> Prop.          (* one iteration *)
  Variable range : nat -> nat -> nat * nat.    (* what it captures *)
  Variable id : nat.

  Fixpoint iterations (q : nat) (i j : nat) : Prop :=
    match q with
    | 0 => i = j
    | S q' => exists k, iterations q' i k /\ step k j
    end.

  (** The group holds the text of the last iteration; without any it is as
      before. *)
  Definition holds_last (q i : nat) (g : caps) (j : nat) (g' : caps) : Prop :=
    match q with
    | 0 => i = j /\ nth id g' None = nth id g None
    | S q' => exists k, iterations q' i k /\ step k j /\ nth id g' None = Some (range k j)
    end.

  (** The group is empty or was never set. *)
  Definition holds_nothing (g' : caps) : Prop :=
    match nth id g' None with None => True | Some (b, e) => b = e end.

  Definition left_loop (more : bool) (lo : N) (hi : quantifier) (i : nat) (g : caps)
      (j : nat) (g' : caps) : Prop :=
    exists q,
      N.to_nat lo <= q
      /\ match hi with Fin h => q <= N.to_nat h | Inf => True end
      /\ iterations q i j
      /\ (if more && match hi with Fin h => negb (Nat.eqb q (N.to_nat h)) | Inf => true end
          then holds_nothing g' else holds_last q i g j g').
End Iterations.

(** One iteration of [x]: an end of its search. *)
Definition iteration (cf : config) (names : list group_name) (s : list ascii)
    (depth : nat) (back : bool) (x : node) (i j : nat) : Prop :=
  exists g, finds (explore cf names s depth back x i g) j.

Section Proofs.
  Variable cf : config.
  Variable names : list group_name.
  Variable base : list ascii.
  Notation gd := (good names base).
  Notation L := (length base).

  (** As [leaves_with], with what is known of the groups. *)
  Fixpoint ends (P : nat -> caps -> Prop) (t : search) : Prop :=
    match t with
    | Stop g => gd g
    | Found i g more => P i g /\ gd g /\ (forall g', gd g' -> ends P (more g'))
    end.

  Fixpoint stops (Q : caps -> Prop) (t : search) : Prop :=
    match t with
    | Stop g => Q g
    | Found i g more => forall g', gd g' -> stops Q (more g')
    end.

  Lemma ends_leaves P t : ends P t -> leaves_with names base P t.
  Proof.
    induction t as [g|i g more IH]; cbn; [auto|]. intros (H1 & H2 & H3). auto.
  Qed.

  Lemma ends_mono (P P' : nat -> caps -> Prop) t : (forall i g, gd g -> P i g -> P' i g) ->
    ends P t -> ends P' t.
  Proof.
    intros H. induction t as [g|i g more IH]; cbn; [auto|]. intros (H1 & H2 & H3). auto.
  Qed.

  Lemma ends_one (P : nat -> caps -> Prop) i g : P i g -> gd g -> ends P (one i g).
  Proof. intros H1 H2. cbn. auto. Qed.

  Lemma ends_first P t : ends P t -> ends P (first_only t).
  Proof. destruct t; cbn; [auto|]. intros (H1 & H2 & _). auto. Qed.

  Lemma ends_otherwise P Q t h : ends P t -> stops Q t -> (forall g, gd g -> Q g -> ends P (h g)) ->
    ends P (otherwise t h).
  Proof.
    intros Ht Hs Hh. induction t as [g|i g more IH]; cbn in *; [auto|].
    destruct Ht as (H1 & H2 & H3). auto.
  Qed.

  Lemma stops_any t : stops (fun _ => True) t.
  Proof. induction t; cbn; auto. Qed.

  Lemma stops_otherwise Q P t h : ends P t -> (forall g, gd g -> stops Q (h g)) -> stops Q (otherwise t h).
  Proof.
    intros Ht Hh. induction t as [g|i g more IH]; cbn in *; [auto|].
    destruct Ht as (H1 & H2 & H3). auto.
  Qed.

  Lemma ends_followed (P P' : nat -> caps -> Prop) t f : ends P t ->
    (forall i g, P i g -> gd g -> ends P' (f i g)) -> ends P' (followed_by t f).
  Proof.
    intros Ht Hf. induction t as [g|i g more IH]; cbn in *; [auto|].
    destruct Ht as (H1 & H2 & H3).
    eapply ends_otherwise; [auto|apply stops_any|auto].
  Qed.

  Lemma stops_followed (P P' : nat -> caps -> Prop) Q t f : ends P t -> stops Q t ->
    (forall i g, P i g -> gd g -> ends P' (f i g)) -> stops Q (followed_by t f).
  Proof.
    intros Ht Hs Hf. induction t as [g|i g more IH]; cbn in *; [auto|].
    destruct Ht as (H1 & H2 & H3).
    eapply stops_otherwise; [auto|auto].
  Qed.

  Section Loop.
    Variable x : node.
    Variables (depth : nat) (back : bool) (id : nat).
    Hypothesis Hid : id < length names.
    Notation range := (fun i j => if Nat.odd depth then (j, i) else (i, j)).
    Notation stp := (iteration cf names base depth back x).
    Notation f := (fun i g => captured id (range i) (explore cf names base depth back x i g)).
    Notation iters := (iterations stp).
    Notation last := (holds_last stp range id).
    Notation nothing := (holds_nothing id).

    Lemma nth_update h : forall (g : caps) n, n < length g -> nth n (update n h g) None = h (nth n g None).
    Proof. induction g as [|v r IH]; intros [|n] H; cbn in *; try lia; auto. apply IH. lia. Qed.

    Lemma gd_id g : gd g -> id < length g.
    Proof. intros [H _]. lia. Qed.

    Lemma one_step i g : i <= L -> gd g ->
      ends (fun j g' => j <= L /\ stp i j /\ nth id g' None = Some (range i j)) (f i g)
      /\ stops nothing (f i g).
    Proof.
      intros Hi Hg.
      pose proof (explore_finder cf names base x depth back i g Hi Hg) as Hs.
      assert (Hr : forall j, finds (explore cf names base depth back x i g) j -> stp i j)
        by (intros; eexists; eauto).
      cbv beta.
      revert Hs Hr. generalize (explore cf names base depth back x i g).
      induction s as [h|j h more IH]; cbn [captured ends stops sound]; intros Hs Hr.
      - assert (Hu : gd (update id (option_map (fun v => (fst v, fst v))) h)).
        { apply good_update; auto. intros [[b e]|]; cbn; auto. lia. }
        split; [exact Hu|]. unfold holds_nothing. rewrite nth_update by (now apply gd_id).
        destruct (nth id h None) as [[b e]|]; cbn; auto.
      - destruct Hs as (H1 & H2 & H3).
        assert (H4 : forall g', gd g' -> (forall j0, finds (more g') j0 -> stp i j0)).
        { intros g' Hg' j0 Hf. apply Hr. eapply finds_later; eauto. }
        split; [split; [|split]|].
        + destruct H1 as (H1 & _). split; [exact H1|]. split; [apply Hr; constructor|].
          rewrite nth_update by (now apply gd_id). reflexivity.
        + apply good_update; auto. intros _ _. destruct H1 as (H1 & H5 & _). cbn.
          destruct (Nat.odd depth); cbn; lia.
        + intros g' Hg'. apply (IH g'); [apply H3; auto|apply H4; auto].
        + intros g' Hg'. apply (IH g'); [apply H3; auto|apply H4; auto].
    Qed.

    Lemma iters_trans a b i k j : iters a i k -> iters b k j -> iters (a + b) i j.
    Proof.
      revert j. induction b as [|b IH]; cbn; intros j H1 H2.
      - subst. now rewrite Nat.add_0_r.
      - destruct H2 as (k' & H2 & H3). rewrite Nat.add_succ_r. cbn. eauto.
    Qed.

    Lemma last_iters q i g j g' : last q i g j g' -> iters q i j.
    Proof. destruct q; cbn; [tauto|]. intros (k & H1 & H2 & _). eauto. Qed.

    Lemma last_trans a b i g0 k g1 j g2 : last a i g0 k g1 -> last b k g1 j g2 ->
      last (a + b) i g0 j g2.
    Proof.
      destruct b as [|b]; cbn.
      - rewrite Nat.add_0_r. intros H (-> & E). destruct a; cbn in *; rewrite E; auto.
      - intros H1 (p & H2 & H3 & H4). rewrite Nat.add_succ_r. cbn. exists p. repeat split; auto.
        eapply iters_trans; eauto. eapply last_iters; eauto.
    Qed.

    Lemma last_step i g j g' : stp i j -> nth id g' None = Some (range i j) -> last 1 i g j g'.
    Proof. intros H1 H2. exists i. cbn. auto. Qed.

    Lemma last_start q i g h j g' : last (S q) i g j g' -> last (S q) i h j g'.
    Proof. auto. Qed.

    Lemma ends_exactly n : forall i g, i <= L -> gd g ->
      ends (fun j g' => j <= L /\ last n i g j g') (exactly f n i g).
    Proof.
      induction n as [|n IH]; intros i g Hi Hg; cbn [exactly].
      - apply ends_one; cbn; auto.
      - eapply ends_followed; [apply one_step; auto|]. cbv beta. intros k g1 (H1 & H2 & H3) Hg1.
        eapply ends_mono; [|apply IH; auto]. cbv beta. intros j g2 _ (H4 & H5). split; [auto|].
        eapply (last_trans 1 n); eauto. now apply last_step.
    Qed.

    Definition within (b : quantifier) (q : nat) : Prop :=
      match b with Fin h => q <= N.to_nat h | Inf => True end.
    Definition full (b : quantifier) (q : nat) : bool :=
      match b with Fin h => Nat.eqb q (N.to_nat h) | Inf => false end.

    Definition after_more (b : quantifier) (i : nat) (g : caps) (j : nat) (g' : caps) : Prop :=
      j <= L /\ exists q, within b q /\ iters q i j
        /\ (if full b q then last q i g j g' else nothing g').
    Definition after_fewer (b : quantifier) (i : nat) (g : caps) (j : nat) (g' : caps) : Prop :=
      j <= L /\ exists q, within b q /\ last q i g j g'.

    Lemma none_left_full b : none_left b = true -> within b 0 /\ full b 0 = true.
    Proof.
      destruct b as [h|]; cbn; [|discriminate]. intros H. apply N.eqb_eq in H. subst. cbn. auto.
    Qed.

    Lemma some_left b q : none_left b = false -> within (one_less b) q ->
      within b (S q) /\ full b (S q) = full (one_less b) q.
    Proof.
      destruct b as [h|]; cbn; [|auto]. intros H H1. apply N.eqb_neq in H. split; [lia|].
      destruct (Nat.eqb_spec q (N.to_nat (h - 1))) as [->|Hn];
        destruct (N.to_nat h) as [|m0] eqn:E; try lia; apply Nat.eqb_eq || apply Nat.eqb_neq; lia.
    Qed.

    Lemma not_full b : none_left b = false -> within b 0 /\ full b 0 = false.
    Proof.
      destruct b as [h|]; cbn; [|auto]. intros H. apply N.eqb_neq in H. split; [lia|].
      destruct (N.to_nat h) eqn:E; auto. lia.
    Qed.

    Lemma after_more_step b i g k g1 j g2 : none_left b = false -> stp i k ->
      nth id g1 None = Some (range i k) -> after_more (one_less b) k g1 j g2 ->
      after_more b i g j g2.
    Proof.
      intros Hb H1 H2 (Hj & q & H3 & H4 & H5). split; [exact Hj|]. exists (S q).
      destruct (some_left b q Hb H3) as [H6 H7]. rewrite H7. split; [exact H6|]. split.
      - apply (iters_trans 1 q i k j); auto. exists i. cbn. auto.
      - destruct (full (one_less b) q); auto.
        apply (last_trans 1 q i g k g1 j g2); auto. now apply last_step.
    Qed.

    Lemma ends_more fu : forall b i g, i <= L -> gd g -> ends (after_more b i g) (trying_more f fu b i g).
    Proof.
      induction fu as [|fu IH]; intros b i g Hi Hg; cbn [trying_more]; [exact Hg|].
      destruct (none_left b) eqn:Hb.
      - apply ends_one; auto. split; [auto|]. exists 0.
        destruct (none_left_full b Hb) as [H1 H2]. rewrite H2. cbn. auto.
      - assert (Hrest : forall k g1, (k <= L /\ stp i k /\ nth id g1 None = Some (range i k)) -> gd g1 ->
           ends (after_more b i g) (if idle b i k then Stop g1 else trying_more f fu (one_less b) k g1)).
        { intros k g1 (H1 & H2 & H3) Hg1. destruct (idle b i k); [exact Hg1|].
          eapply ends_mono; [|apply IH; auto]. intros j g2 _ H. eapply after_more_step; eauto. }
        destruct (one_step i g Hi Hg) as [Ho Hn].
        eapply ends_otherwise with (Q := nothing).
        + eapply ends_followed; [exact Ho|exact Hrest].
        + eapply stops_followed; [exact Ho|exact Hn|exact Hrest].
        + intros g1 Hg1 Hn1. apply ends_one; auto. split; [auto|]. exists 0.
          destruct (not_full b Hb) as [H1 H2]. rewrite H2. cbn. auto.
    Qed.

    Lemma ends_fewer fu : forall b i g, i <= L -> gd g -> ends (after_fewer b i g) (trying_fewer f fu b i g).
    Proof.
      induction fu as [|fu IH]; intros b i g Hi Hg; cbn [trying_fewer]; [exact Hg|].
      destruct (none_left b) eqn:Hb.
      - apply ends_one; auto. split; [auto|]. exists 0.
        destruct (none_left_full b Hb) as [H1 H2]. cbn. auto.
      - cbn [ends]. split; [|split; [exact Hg|]].
        + split; [auto|]. exists 0. destruct (not_full b Hb) as [H1 H2]. cbn. auto.
        + intros g0 Hg0. eapply ends_followed; [apply one_step; auto|]. cbv beta.
          intros k g1 (H1 & H2 & H3) Hg1. destruct (idle b i k); [exact Hg1|].
          eapply ends_mono; [|apply IH; auto]. intros j g2 _ (Hj & q & H4 & H5).
          split; [exact Hj|]. exists (S q). split; [now apply (some_left b q)|].
          apply (last_trans 1 q i g k g1 j g2); auto. now apply last_step.
    Qed.

    Lemma ends_commit fu : forall b i g, i <= L -> gd g -> ends (after_more b i g) (committing f fu b i g).
    Proof.
      induction fu as [|fu IH]; intros b i g Hi Hg; cbn [committing]; [exact Hg|].
      destruct (none_left b) eqn:Hb.
      - apply ends_one; auto. split; [auto|]. exists 0.
        destruct (none_left_full b Hb) as [H1 H2]. rewrite H2. cbn. auto.
      - destruct (one_step i g Hi Hg) as [Ho Hn].
        destruct (captured id _ _) as [g1|k g1 more]; cbn in Ho, Hn.
        + apply ends_one; auto. split; [auto|]. exists 0.
          destruct (not_full b Hb) as [H1 H2]. rewrite H2. cbn. auto.
        + destruct Ho as ((H1 & H2 & H3) & Hg1 & _). destruct (idle b i k) eqn:Hidle.
          * apply ends_one; auto. split; [auto|]. exists 0.
            destruct (not_full b Hb) as [H4 H5]. rewrite H5. cbn. split; [auto|]. split; [auto|].
            unfold holds_nothing. rewrite H3. destruct b; cbn in Hidle; [discriminate|].
            apply Nat.eqb_eq in Hidle. subst. destruct (Nat.odd depth); auto.
          * eapply ends_mono; [|apply IH; auto]. intros j g2 _ H. eapply after_more_step; eauto.
    Qed.
  End Loop.

  Lemma loop_left depth back md lo hi id nm x i g :
    N.to_nat id < length names -> match hi with Fin h => (lo <= h)%N | Inf => True end ->
    i <= L -> gd g ->
    leaves_with names base
      (left_loop (iteration cf names base depth back x)
         (fun i j => if Nat.odd depth then (j, i) else (i, j)) (N.to_nat id)
         (tries_more cf md) lo hi i g)
      (explore cf names base depth back (Rep md lo hi (Cap id nm x)) i g).
  Proof.
    intros Hid Hb Hi Hg. apply ends_leaves.
    cbn [explore]. cbn [is_class].
    match goal with |- ends _ (if ?b then _ else _) =>
      replace b with false by (destruct hi; [now rewrite andb_false_r|reflexivity]) end.
    set (f := explore cf names base depth back (Cap id nm x)).
    change f with (fun i g => captured (N.to_nat id)
       ((fun i j => if Nat.odd depth then (j, i) else (i, j)) i) (explore cf names base depth back x i g)).
    clear f.
    pose proof (ends_exactly x depth back (N.to_nat id) Hid (N.to_nat lo) i g Hi Hg) as Hs.
    assert (Hmore : forall k g1 j g2, k <= L /\ holds_last (iteration cf names base depth back x)
         (fun i j => if Nat.odd depth then (j, i) else (i, j)) (N.to_nat id) (N.to_nat lo) i g k g1 ->
       after_more x depth back (N.to_nat id) (remaining hi lo) k g1 j g2 ->
       left_loop (iteration cf names base depth back x)
         (fun i j => if Nat.odd depth then (j, i) else (i, j)) (N.to_nat id) true lo hi i g j g2).
    { intros k g1 j g2 (H1 & H2) (H3 & q & H4 & H5 & H6). exists (N.to_nat lo + q).
      split; [lia|]. split; [destruct hi; cbn in *; lia|].
      split; [eapply iters_trans; eauto; eapply last_iters; eauto|].
      destruct hi as [h|]; cbn in *; [|exact H6].
      replace (Nat.eqb (N.to_nat lo + q) (N.to_nat h)) with (Nat.eqb q (N.to_nat (h - lo)))
        by (destruct (Nat.eqb_spec q (N.to_nat (h - lo))), (Nat.eqb_spec (N.to_nat lo + q) (N.to_nat h)); lia).
      destruct (Nat.eqb q _); cbn; auto. eapply last_trans; eauto. }
    assert (Hfewer : forall k g1 j g2, k <= L /\ holds_last (iteration cf names base depth back x)
         (fun i j => if Nat.odd depth then (j, i) else (i, j)) (N.to_nat id) (N.to_nat lo) i g k g1 ->
       after_fewer x depth back (N.to_nat id) (remaining hi lo) k g1 j g2 ->
       left_loop (iteration cf names base depth back x)
         (fun i j => if Nat.odd depth then (j, i) else (i, j)) (N.to_nat id) false lo hi i g j g2).
    { intros k g1 j g2 (H1 & H2) (H3 & q & H4 & H5). exists (N.to_nat lo + q).
      split; [lia|]. split; [destruct hi; cbn in *; lia|].
      split; [eapply iters_trans; eauto; eapply last_iters; eauto|].
      cbn. eapply last_trans; eauto. }
    unfold tries_more.
    destruct md; [destruct (ungreedy cf)|destruct (ungreedy cf)|]; cbn [negb];
      (eapply ends_followed; [first [exact Hs | apply ends_first; exact Hs]|]);
      cbv beta; intros k g1 H1 Hg1;
      (eapply ends_mono; [|first [apply ends_more|apply ends_fewer|apply ends_commit]; [exact Hid|exact (proj1 H1)|exact Hg1]]);
      cbv beta; intros j g2 _ H2; eauto.
  Qed.
End Proofs.
