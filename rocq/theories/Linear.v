(** Expressions whose next character decides how to go on: specification, and the
    number of steps they take (Prop_Linear.v). *)
From Verif Require Import Costs Basics Effort Lift.

(** ** Specification *)

(** The node may match without consuming a character. *)
Fixpoint skippable (n : node) : bool :=
  match n with
  | Lit _ | Range _ _ | Wild | CSet _ => false
  | Neg x => negb (trivial x)
  | Cap _ _ x => skippable x
  | Seq l => forallb skippable l
  | Alt l => existsb skippable l
  | Rep _ lo _ x => N.eqb lo 0 || skippable x
  | _ => true
  end.

(** The characters that the node may consume first. *)
Fixpoint opening (cf : config) (n : node) (a : ascii) : bool :=
  match n with
  | Lit _ | Range _ _ | Wild | CSet _ => match_one cf n a
  | Neg x => trivial x && match_one cf n a
  | Cap _ _ x => opening cf x a
  | Seq l =>
      (fix go (l : list node) : bool :=
         match l with
         | [] => false
         | x :: r => opening cf x a || (skippable x && go r)
         end) l
  | Alt l => existsb (fun x => opening cf x a) l
  | Rep _ _ _ x => opening cf x a
  | _ => false
  end.

(** One after the other. *)
Fixpoint opening_all (cf : config) (l : list node) (a : ascii) : bool :=
  match l with
  | [] => false
  | x :: r => opening cf x a || (skippable x && opening_all cf r a)
  end.

(** The characters that may come behind a node with [l] next and then [F]. *)
Definition behind (cf : config) (l : list node) (F : ascii -> bool) (a : ascii) : bool :=
  opening_all cf l a || (forallb skippable l && F a).

Definition disjoint (F G : ascii -> bool) : bool :=
  forallb (fun a => negb (F a && G a)) all_bytes.

(** Tests of a position: anchors, boundaries, lookarounds at one character. *)
Fixpoint checks (n : node) : bool :=
  match n with
  | Empty | BeginLine | BeginInput | EndLine | EndInput | WordB => true
  | Look _ x => trivial x
  | Neg x => is_assertion x && checks x
  | _ => false
  end.

(** At every choice the next character excludes all but one of the ways to go on,
    where [F] are the characters that may come behind the node.  Without
    backreferences, atomic groups and longer lookarounds. *)
Fixpoint determined (cf : config) (n : node) (F : ascii -> bool) : bool :=
  match n with
  | Lit _ | Range _ _ | Wild | CSet _ => true
  | Neg x => if is_assertion x then checks x else trivial x
  | Cap _ _ x => determined cf x F
  | Seq l =>
      (fix go (l : list node) : bool :=
         match l with
         | [] => true
         | x :: r => determined cf x (behind cf r F) && go r
         end) l
  | Alt l =>
      (fix go (l : list node) : bool :=
         forallb trivial l
         || match l with
            | [] => true
            | x :: r =>
                determined cf x F && go r
                && disjoint (opening cf x) (opening cf (Alt r))
                && negb (skippable x && skippable (Alt r))
                && (negb (skippable x) || disjoint (opening cf (Alt r)) F)
                && (negb (skippable (Alt r)) || disjoint (opening cf x) F)
            end) l
  | Rep mode lo hi x =>
      determined cf x (fun a => opening cf x a || F a) && negb (skippable x)
      && match mode with
         | Possessive => trivial x
         | _ => match hi with Fin h => N.eqb lo h | Inf => false end || disjoint (opening cf x) F
         end
  | n => checks n
  end.

(** ** Proofs *)

Definition determined_all (cf : config) (F : ascii -> bool) : list node -> bool :=
  fix go (l : list node) : bool :=
    match l with
    | [] => true
    | x :: r => determined cf x (behind cf r F) && go r
    end.

Definition determined_any (cf : config) (F : ascii -> bool) : list node -> bool :=
  fix go (l : list node) : bool :=
    forallb trivial l
    || match l with
       | [] => true
       | x :: r =>
           determined cf x F && go r
           && disjoint (opening cf x) (opening cf (Alt r))
           && negb (skippable x && skippable (Alt r))
           && (negb (skippable x) || disjoint (opening cf (Alt r)) F)
           && (negb (skippable (Alt r)) || disjoint (opening cf x) F)
       end.

Lemma opening_Seq cf l a : opening cf (Seq l) a = opening_all cf l a.
Proof. cbn [opening]. induction l as [|x r IH]; cbn; [reflexivity|]. now rewrite IH. Qed.

Section Text.
  Variable s : list ascii.
  Local Notation L := (length s).

  (** The next character is in the set; false at the end. *)
  Definition sees (F : ascii -> bool) (j : nat) : bool :=
    match nth_error s j with Some a => F a | None => false end.

  Lemma sees_or F G j : sees (fun a => F a || G a) j = sees F j || sees G j.
  Proof. unfold sees. now destruct (nth_error s j). Qed.

  Lemma sees_and b F j : sees (fun a => b && F a) j = b && sees F j.
  Proof. unfold sees. destruct (nth_error s j); auto. now rewrite andb_false_r. Qed.

  Lemma sees_ext F G j : (forall a, F a = G a) -> sees F j = sees G j.
  Proof. intros H. unfold sees. destruct (nth_error s j); auto. Qed.

  Lemma sees_lt F j : sees F j = true -> j < L.
  Proof. unfold sees. destruct (nth_error s j) eqn:E; [|discriminate]. intros _. apply nth_error_Some. congruence. Qed.

  Lemma disjoint_sees F G j : disjoint F G = true -> sees F j = true -> sees G j = false.
  Proof.
    unfold sees. intros H. destruct (nth_error s j) as [a|]; auto. intros Ha.
    unfold disjoint in H. pose proof (for_all_bytes _ H a) as Q. cbn in Q. rewrite Ha in Q. now destruct (G a).
  Qed.

  (** The continuation gives up within [q] steps unless the next character is in
      [F]. *)
  Definition quick (F : ascii -> bool) (q : nat) (k : ccont) : Prop :=
    forall j c, j <= L -> sees F j = false -> steps (k j c) <= q.

  Definition bd (A d D q : nat) : nat := (A * d + D) * S q.

  (** [x] steps from [cur]: linear in the distance to a position [p], and at most
      one long run of the continuation, which starts there. *)
  Definition goes (A D : nat) (O F : ascii -> bool) (z : bool) (q cur : nat) (k : ccont) (x : nat) : Prop :=
    exists p, cur <= p <= L /\ (sees O cur = false -> p = cur)
      /\ (x <= bd A (p - cur) D q
          \/ sees F p = true /\ (z = false -> cur < p)
             /\ exists c', x <= bd A (p - cur) D q + steps (k p c')).

  Definition linear (A D : nat) (O F : ascii -> bool) (z : bool) (mx : cmatcher) : Prop :=
    (forall q cur c k, cur <= L -> quick F q k -> goes A D O F z q cur k (steps (mx cur c k)))
    /\ (z = false -> forall cur c k, cur <= L -> sees O cur = false -> steps (mx cur c k) <= D).

  Lemma bound_mono A D A' D' d q : A <= A' -> D <= D' -> bd A d D q <= bd A' d D' q.
  Proof. intros H1 H2. unfold bd. apply Nat.mul_le_mono_r. pose proof (Nat.mul_le_mono_r _ _ d H1). lia. Qed.

  Lemma bound_succ A d D q : bd A d (S D) q = bd A d D q + S q.
  Proof. unfold bd. ring. Qed.

  Lemma bound_0 A D q cur : bd A (cur - cur) D q = D * S q.
  Proof. unfold bd. rewrite Nat.sub_diag, Nat.mul_0_r. reflexivity. Qed.

  Lemma goes_mono A D A' D' O F z q cur k x x' : goes A D O F z q cur k x ->
    A <= A' -> D <= D' -> x' <= x -> goes A' D' O F z q cur k x'.
  Proof.
    intros (p & H1 & H2 & H3) HA HD Hx. exists p. split; auto. split; auto.
    pose proof (bound_mono A D A' D' (p - cur) q HA HD).
    destruct H3 as [H3|(H3 & H4 & c' & H5)]; [left; lia|]. right. split; auto. split; auto. exists c'. lia.
  Qed.

  Lemma goes_more A D O F z q cur k x y : goes A D O F z q cur k x -> y <= S q ->
    goes A (S D) O F z q cur k (x + y).
  Proof.
    intros (p & H1 & H2 & H3) Hy. exists p. split; auto. split; auto.
    pose proof (bound_succ A (p - cur) D q).
    destruct H3 as [H3|(H3 & H4 & c' & H5)]; [left; lia|]. right. split; auto. split; auto. exists c'. lia.
  Qed.

  Lemma linear_mono A D A' D' O F z mx : linear A D O F z mx -> A <= A' -> D <= D' ->
    linear A' D' O F z mx.
  Proof.
    intros [H1 H2] HA HD. split.
    - intros q cur c k Hc Hk. eapply goes_mono; [exact (H1 q cur c k Hc Hk)|assumption|assumption|apply le_n].
    - intros Hz cur c k Hc Ho. specialize (H2 Hz cur c k Hc Ho). lia.
  Qed.

  (** Fewer characters behind. *)
  Lemma linear_follow A D O F G z mx : linear A D O F z mx ->
    (forall j, sees G j = true -> sees F j = true) -> linear A (S D) O G z mx.
  Proof.
    intros [H1 H2] Hs. split.
    - intros q cur c k Hc Hk.
      destruct (H1 q cur c k Hc) as (p & P1 & P2 & P3).
      { intros j c' Hj Hf. apply Hk; auto. destruct (sees G j) eqn:E; auto. apply Hs in E. congruence. }
      exists p. split; auto. split; auto.
      pose proof (bound_mono A D A (S D) (p - cur) q (le_n _) (le_S _ _ (le_n _))).
      destruct P3 as [P3|(P3 & P4 & c' & P5)]; [left; lia|].
      destruct (sees G p) eqn:E; [right; split; auto; split; auto; exists c'; lia|]. left.
      pose proof (Hk p c' ltac:(lia) E).
      pose proof (bound_succ A (p - cur) D q). lia.
    - intros Hz cur c k Hc Ho. specialize (H2 Hz cur c k Hc Ho). lia.
  Qed.

  Lemma linear_opening A D O O' F z mx : linear A D O F z mx ->
    (forall j, sees O j = true -> sees O' j = true) -> linear A D O' F z mx.
  Proof.
    intros [H1 H2] Hs.
    assert (Hn : forall j, sees O' j = false -> sees O j = false).
    { intros j H. destruct (sees O j) eqn:E; auto. apply Hs in E. congruence. }
    split.
    - intros q cur c k Hc Hk. destruct (H1 q cur c k Hc Hk) as (p & P1 & P2 & P3).
      exists p. split; auto.
    - intros Hz cur c k Hc Ho. auto.
  Qed.

  Lemma linear_called A D O F z mx : linear A D O F z mx ->
    linear A (S D) O F z (fun cur c k => called (mx cur c k)).
  Proof.
    intros [H1 H2]. split.
    - intros q cur c k Hc Hk. cbn [called steps].
      replace (S (steps (mx cur c k))) with (steps (mx cur c k) + 1) by lia. apply goes_more; [now apply H1|lia].
    - intros Hz cur c k Hc Ho. specialize (H2 Hz cur c k Hc Ho). cbn [called steps]. lia.
  Qed.

  Lemma linear_skip A D O F z mx : linear A D O F z mx -> linear A D O F true mx.
  Proof.
    intros [H1 H2]. split; [|discriminate].
    intros q cur c k Hc Hk. destruct (H1 q cur c k Hc Hk) as (p & P1 & P2 & P3).
    exists p. split; auto. split; auto. destruct P3 as [P3|(P3 & P4 & c' & P5)]; [now left|].
    right. split; auto. split; [discriminate|]. now exists c'.
  Qed.

  (** At the same position, at most one run of the continuation. *)
  Lemma linear_here D O F mx :
    (forall cur c k, cur <= L -> steps (mx cur c k) <= D \/ exists c', steps (mx cur c k) <= D + steps (k cur c')) ->
    linear 0 (S D) O F true mx.
  Proof.
    intros H. split; [|discriminate]. intros q cur c k Hc Hk. exists cur. split; [lia|]. split; auto.
    assert (HD : S D + q <= bd 0 (cur - cur) (S D) q) by (rewrite bound_0; nia).
    destruct (H cur c k Hc) as [Hx|[c' Hx]]; [left; lia|].
    destruct (sees F cur) eqn:E.
    - right. split; auto. split; [discriminate|]. exists c'. lia.
    - left. pose proof (Hk cur c' Hc E). lia.
  Qed.

  (** ** One after the other *)

  Lemma quick_then A D O F z my q k : linear A D O F z my -> quick F q k ->
    quick (fun a => O a || (z && F a)) (D * S q) (fun j c => my j c k).
  Proof.
    intros [H1 H2] Hk j c Hj Hs. rewrite sees_or, sees_and in Hs. apply orb_false_elim in Hs as [Ho Hf].
    destruct z.
    - destruct (H1 q j c k Hj Hk) as (p & P1 & P2 & P3). specialize (P2 Ho). subst p.
      rewrite bound_0 in P3.
      destruct P3 as [P3|(P3 & _)]; [assumption|]. cbn in Hf. congruence.
    - specialize (H2 eq_refl j c k Hj Ho). nia.
  Qed.

  Lemma then_bound A1 D1 A2 D2 d1 d2 q :
    bd A1 d1 D1 (D2 * S q) + bd A2 d2 D2 q
      <= bd (A1 * S D2 + A2) (d1 + d2) (D1 * S D2 + D2) q.
  Proof.
    unfold bd. assert (H : S (D2 * S q) <= S D2 * S q) by (cbn [Nat.mul]; lia).
    pose proof (Nat.mul_le_mono_l _ _ (A1 * d1 + D1) H) as H1.
    assert (H2 : (A1 * d1 + D1) * (S D2 * S q) + (A2 * d2 + D2) * S q
      = ((A1 * S D2 * d1 + A2 * d2) + (D1 * S D2 + D2)) * S q) by ring.
    assert (H3 : A1 * S D2 * d1 + A2 * d2 <= (A1 * S D2 + A2) * (d1 + d2)).
    { rewrite Nat.mul_add_distr_r, !Nat.mul_add_distr_l. lia. }
    pose proof (Nat.mul_le_mono_r _ _ (S q) (proj1 (Nat.add_le_mono_r _ _ (D1 * S D2 + D2)) H3)) as H4.
    rewrite <- H2 in H4. eapply Nat.le_trans; [|exact H4]. now apply Nat.add_le_mono_r.
  Qed.

  Lemma linear_then A1 D1 O1 z1 mx A2 D2 O2 F z2 my :
    linear A1 D1 O1 (fun a => O2 a || (z2 && F a)) z1 mx -> linear A2 D2 O2 F z2 my ->
    linear (A1 * S D2 + A2) (D1 * S D2 + D2) (fun a => O1 a || (z1 && O2 a)) F (z1 && z2)
      (fun cur c k => mx cur c (fun j c' => my j c' k)).
  Proof.
    intros Hx Hy. split.
    - intros q cur c k Hc Hk. pose proof (quick_then _ _ _ _ _ _ _ _ Hy Hk) as Hq.
      destruct (proj1 Hx _ cur c _ Hc Hq) as (p1 & P1 & P2 & P3).
      pose proof (fun d2 => then_bound A1 D1 A2 D2 (p1 - cur) d2 q) as B.
      destruct P3 as [P3|(P3 & P4 & c1 & P5)].
      + exists p1. split; auto. split.
        { rewrite sees_or. intros H. apply orb_false_elim in H as [H _]. auto. }
        left. specialize (B 0). rewrite Nat.add_0_r in B. lia.
      + destruct (proj1 Hy q p1 c1 k (proj2 P1) Hk) as (p2 & Q1 & Q2 & Q3). exists p2. split; [lia|]. split.
        { rewrite sees_or, sees_and. intros H. apply orb_false_elim in H as [H1 H2]. specialize (P2 H1). subst p1.
          destruct z1; [now apply Q2|]. specialize (P4 eq_refl). lia. }
        specialize (B (p2 - p1)). replace (p1 - cur + (p2 - p1)) with (p2 - cur) in B by lia.
        destruct Q3 as [Q3|(Q3 & Q4 & c2 & Q5)]; [left; lia|]. right. split; auto. split.
        { intros Hz. destruct z1; [|specialize (P4 eq_refl); lia]. cbn in Hz. specialize (Q4 Hz). lia. }
        exists c2. lia.
    - intros Hz cur c k Hc Ho. rewrite sees_or, sees_and in Ho. apply orb_false_elim in Ho as [Ho1 Ho2].
      destruct z1.
      + cbn in Hz, Ho2. subst z2.
        assert (Hq : quick (fun a => O2 a || (false && F a)) D2 (fun j c' => my j c' k)).
        { intros j c' Hj Hs. rewrite sees_or in Hs. apply orb_false_elim in Hs as [Hs _].
          exact (proj2 Hy eq_refl j c' k Hj Hs). }
        destruct (proj1 Hx _ cur c _ Hc Hq) as (p1 & P1 & P2 & P3). specialize (P2 Ho1). subst p1.
        rewrite bound_0 in P3.
        destruct P3 as [P3|(P3 & _)]; [lia|]. rewrite sees_or in P3. rewrite Ho2 in P3.
        unfold sees in P3. destruct (nth_error s cur); discriminate.
      + pose proof (proj2 Hx eq_refl cur c (fun j c' => my j c' k) Hc Ho1). nia.
  Qed.

  (** ** Alternatives *)

  Lemma linear_or A1 D1 O1 z1 mx A2 D2 O2 z2 my F :
    linear A1 D1 O1 F z1 mx -> linear A2 D2 O2 F z2 my ->
    (forall j, sees O1 j = true -> sees O2 j = false) -> z1 && z2 = false ->
    (z1 = true -> forall j, sees O2 j = true -> sees F j = false) ->
    (z2 = true -> forall j, sees O1 j = true -> sees F j = false) ->
    linear (A1 + A2) (D1 + D2) (fun a => O1 a || O2 a) F (z1 || z2)
      (fun cur c k => c_or_else (mx cur c k) (fun c' => my cur c' k)).
  Proof.
    intros Hx Hy H12 Hz Hz1 Hz2.
    assert (S : forall cur c k, exists c', steps (c_or_else (mx cur c k) (fun c' => my cur c' k))
      <= steps (mx cur c k) + steps (my cur c' k)).
    { intros cur c k. unfold c_or_else. destruct (out (mx cur c k)) as [c' e []| | |]; try (exists c; lia).
      exists c'. cbn. lia. }
    split.
    - intros q cur c k Hc Hk. destruct (S cur c k) as [c0 S0].
      destruct (proj1 Hx q cur c k Hc Hk) as (p1 & P1 & P2 & P3).
      destruct (proj1 Hy q cur c0 k Hc Hk) as (p2 & Q1 & Q2 & Q3).
      assert (B : forall p, p1 <= p -> p2 <= p -> bd A1 (p1 - cur) D1 q + bd A2 (p2 - cur) D2 q
        <= bd (A1 + A2) (p - cur) (D1 + D2) q).
      { intros p I1 I2. unfold bd. rewrite <- Nat.mul_add_distr_r. apply Nat.mul_le_mono_r.
        pose proof (Nat.mul_le_mono_l (p1 - cur) (p - cur) A1). pose proof (Nat.mul_le_mono_l (p2 - cur) (p - cur) A2). lia. }
      assert (N1 : sees O1 cur || sees O2 cur = false -> p1 = cur /\ p2 = cur).
      { intros H. apply orb_false_elim in H as [H1 H2]. auto. }
      destruct P3 as [P3|(P3 & P4 & c1 & P5)], Q3 as [Q3|(Q3 & Q4 & c2 & Q5)].
      + exists (Nat.max p1 p2). split; [lia|]. split; [rewrite sees_or; intros H; apply N1 in H; lia|].
        left. specialize (B (Nat.max p1 p2)). lia.
      + assert (p1 <= p2).
        { destruct (sees O1 cur) eqn:E; [|specialize (P2 eq_refl); lia].
          specialize (H12 cur E). specialize (Q2 H12). subst p2.
          destruct z2; [|specialize (Q4 eq_refl); lia]. rewrite (Hz2 eq_refl cur E) in Q3. discriminate. }
        exists p2. split; [lia|]. split; [rewrite sees_or; intros H'; apply N1 in H'; lia|].
        right. split; auto. split; [|exists c2; specialize (B p2); lia].
        intros H'. apply orb_false_elim in H' as [_ H']. auto.
      + assert (p2 <= p1).
        { destruct (sees O2 cur) eqn:E; [|specialize (Q2 eq_refl); lia].
          destruct (sees O1 cur) eqn:E1; [rewrite (H12 cur E1) in E; discriminate|].
          specialize (P2 eq_refl). subst p1.
          destruct z1; [|specialize (P4 eq_refl); lia]. rewrite (Hz1 eq_refl cur E) in P3. discriminate. }
        exists p1. split; [lia|]. split; [rewrite sees_or; intros H'; apply N1 in H'; lia|].
        right. split; auto. split; [|exists c1; specialize (B p1); lia].
        intros H'. apply orb_false_elim in H' as [H' _]. auto.
      + exfalso. destruct (sees O1 cur) eqn:E1.
        * specialize (H12 cur E1). specialize (Q2 H12). subst p2.
          destruct z2; [|specialize (Q4 eq_refl); lia]. rewrite (Hz2 eq_refl cur E1) in Q3. discriminate.
        * specialize (P2 eq_refl). subst p1. destruct z1; [|specialize (P4 eq_refl); lia].
          cbn in Hz. subst z2. specialize (Q4 eq_refl).
          destruct (sees O2 cur) eqn:E2; [|specialize (Q2 eq_refl); lia].
          rewrite (Hz1 eq_refl cur E2) in P3. discriminate.
    - intros H cur c k Hc Ho. apply orb_false_elim in H as [-> ->].
      rewrite sees_or in Ho. apply orb_false_elim in Ho as [Ho1 Ho2].
      destruct (S cur c k) as [c0 S0]. pose proof (proj2 Hx eq_refl cur c k Hc Ho1).
      pose proof (proj2 Hy eq_refl cur c0 k Hc Ho2). lia.
  Qed.

  (** ** Loops *)

  Section Loop.
    Variables (A D : nat) (O F : ascii -> bool) (mx : cmatcher).
    Hypothesis Hmx : linear A D O (fun a => O a || F a) false mx.
    Hypothesis Hd : forall j, sees O j = true -> sees F j = false.

    Definition loop_D : nat := D * (D + 2) + 2.
    Definition loop_A : nat := A * (D + 2) + loop_D.

    (** One round: a way out at [cur], and the body with [kl] behind it. *)
    Lemma loop_round q cur k kl c0 c1 x : cur <= L -> quick F q k ->
      quick (fun a => O a || F a) (S (D + q)) kl ->
      (forall p c, p <= L -> goes loop_A loop_D O F true q p k (steps (kl p c))) ->
      x <= S (steps (k cur c0) + steps (mx cur c1 kl)) ->
      goes loop_A loop_D O F true q cur k x.
    Proof.
      intros Hc Hk Hl IH Hx.
      destruct (proj1 Hmx _ cur c1 kl Hc Hl) as (p & P1 & P2 & P3).
      assert (E : forall d, bd A d D (S (D + q)) <= bd (A * (D + 2)) d (D * (D + 2)) q).
      { intros d. unfold bd. replace (A * (D + 2) * d + D * (D + 2)) with ((A * d + D) * (D + 2)) by ring.
        rewrite <- Nat.mul_assoc. apply Nat.mul_le_mono_l. nia. }
      assert (E2 : forall d, bd (A * (D + 2)) d (D * (D + 2)) q + S q <= bd loop_A d loop_D q).
      { intros d. rewrite <- bound_succ. apply bound_mono; unfold loop_A, loop_D; lia. }
      destruct (sees F cur) eqn:Ef.
      - (* the way out *)
        assert (Eo : sees O cur = false).
        { destruct (sees O cur) eqn:Eo; auto. rewrite (Hd cur Eo) in Ef. discriminate. }
        pose proof (proj2 Hmx eq_refl cur c1 kl Hc Eo) as Hb.
        exists cur. split; [lia|]. split; auto. right. split; auto. split; [discriminate|]. exists c0.
        rewrite bound_0. assert (S D <= loop_D * S q) by (unfold loop_D; nia). lia.
      - pose proof (Hk cur c0 Hc Ef) as Hq.
        destruct P3 as [P3|(P3 & P4 & c' & P5)].
        + exists p. split; auto. split; auto. left. specialize (E (p - cur)). specialize (E2 (p - cur)). lia.
        + specialize (P4 eq_refl). destruct (IH p c' (proj2 P1)) as (p2 & Q1 & Q2 & Q3).
          exists p2. split; [lia|]. split.
          { intros Ho. specialize (P2 Ho). lia. }
          assert (E3 : bd (A * (D + 2)) (p - cur) (D * (D + 2)) q + S q + bd loop_A (p2 - p) loop_D q
            <= bd loop_A (p2 - cur) loop_D q).
          { rewrite <- bound_succ. unfold bd. rewrite <- Nat.mul_add_distr_r. apply Nat.mul_le_mono_r.
            replace (p2 - cur) with ((p - cur) + (p2 - p)) by lia. rewrite (Nat.mul_add_distr_l loop_A).
            assert (A * (D + 2) * (p - cur) + S (D * (D + 2)) <= loop_A * (p - cur)); [|lia].
            unfold loop_A. rewrite Nat.mul_add_distr_r.
            assert (loop_D * 1 <= loop_D * (p - cur)) by (apply Nat.mul_le_mono_l; lia).
            unfold loop_D at 1 in H. lia. }
          specialize (E (p - cur)).
          destruct Q3 as [Q3|(Q3 & _ & c2 & Q5)]; [left; lia|].
          right. split; auto. split; [discriminate|]. exists c2. lia.
    Qed.

    Lemma loop_out q cur k c0 x : cur <= L -> quick F q k -> x <= S (steps (k cur c0)) ->
      goes loop_A loop_D O F true q cur k x.
    Proof.
      intros Hc Hk Hx. exists cur. split; [lia|]. split; auto. rewrite bound_0.
      assert (S q <= loop_D * S q) by (unfold loop_D; nia).
      destruct (sees F cur) eqn:E.
      - right. split; auto. split; [discriminate|]. exists c0. lia.
      - left. pose proof (Hk cur c0 Hc E). lia.
    Qed.

    Lemma quick_continue q G w cur k : quick G q k -> quick G q (c_continue_unless_infinite_loop w cur k).
    Proof.
      intros H j c Hj Hs. unfold c_continue_unless_infinite_loop.
      destruct (_ && _); [cbn; lia|now apply H].
    Qed.

    Lemma goes_continue q w cur k kl :
      (forall p c, p <= L -> goes loop_A loop_D O F true q p k (steps (kl p c))) ->
      forall p c, p <= L -> goes loop_A loop_D O F true q p k (steps (c_continue_unless_infinite_loop w cur kl p c)).
    Proof.
      intros H p c Hp. unfold c_continue_unless_infinite_loop. destruct (_ && _); [|now apply H].
      exists p. split; [lia|]. split; auto. left. cbn. lia.
    Qed.

    Lemma goes_0 A' D' O' F' z q cur k x : cur <= L -> x = 0 -> goes A' D' O' F' z q cur k x.
    Proof. intros Hc ->. exists cur. split; [lia|]. split; auto. left. lia. Qed.

    Lemma greedy_round fuel w b cur c k : exists c0,
      let kl := c_continue_unless_infinite_loop w cur (fun next c' => c_greedy_generic fuel mx w (bound_decrement b) next c' k) in
      steps (c_greedy_generic (S fuel) mx w b cur c k) <= S (steps (k cur c0) + if bound_is_zero b then 0 else steps (mx cur c kl)).
    Proof.
      cbn [c_greedy_generic called steps]. destruct (bound_is_zero b); [exists c; cbn; lia|].
      set (kl := c_continue_unless_infinite_loop _ _ _). unfold c_or_else.
      destruct (out (mx cur c kl)) as [c' e []| | |]; try (exists c; cbn; lia). exists c'. cbn. lia.
    Qed.

    Lemma lazy_round fuel w b cur c k : exists c0,
      let kl := c_continue_unless_infinite_loop w cur (fun next c' => c_lazy_generic fuel mx w (bound_decrement b) next c' k) in
      steps (c_lazy_generic (S fuel) mx w b cur c k) <= S (steps (k cur c) + if bound_is_zero b then 0 else steps (mx cur c0 kl)).
    Proof.
      cbn [c_lazy_generic called steps]. unfold c_or_else.
      destruct (out (k cur c)) as [c' e []| | |]; try (exists c; cbn; lia). exists c'.
      destruct (bound_is_zero b); cbn; lia.
    Qed.

    Lemma quick_greedy q k w : quick F q k -> forall fuel b,
      quick (fun a => O a || F a) (S (D + q)) (fun next c => c_greedy_generic fuel mx w b next c k).
    Proof.
      intros Hk [|fuel] b j c Hj Hs; [cbn; lia|]. rewrite sees_or in Hs. apply orb_false_elim in Hs as [Ho Hf].
      destruct (greedy_round fuel w b j c k) as [c0 H]. cbv zeta in H. pose proof (Hk j c0 Hj Hf).
      destruct (bound_is_zero b); [lia|].
      match type of H with _ <= S (_ + steps (mx j c ?kl)) => pose proof (proj2 Hmx eq_refl j c kl Hj Ho) end. lia.
    Qed.

    Lemma quick_lazy q k w : quick F q k -> forall fuel b,
      quick (fun a => O a || F a) (S (D + q)) (fun next c => c_lazy_generic fuel mx w b next c k).
    Proof.
      intros Hk [|fuel] b j c Hj Hs; [cbn; lia|]. rewrite sees_or in Hs. apply orb_false_elim in Hs as [Ho Hf].
      destruct (lazy_round fuel w b j c k) as [c0 H]. cbv zeta in H. pose proof (Hk j c Hj Hf).
      destruct (bound_is_zero b); [lia|].
      match type of H with _ <= S (_ + steps (mx j c0 ?kl)) => pose proof (proj2 Hmx eq_refl j c0 kl Hj Ho) end. lia.
    Qed.

    Lemma linear_greedy fuel w b : linear loop_A loop_D O F true (c_greedy_generic fuel mx w b).
    Proof.
      split; [|discriminate]. intros q cur c k Hc Hk. revert b cur c Hc.
      induction fuel as [|fuel IH]; intros b cur c Hc; [now apply goes_0|].
      destruct (greedy_round fuel w b cur c k) as [c0 H]. cbv zeta in H.
      destruct (bound_is_zero b).
      - apply (loop_out q cur k c0); auto. lia.
      - eapply loop_round; [exact Hc|exact Hk| | |exact H].
        + apply quick_continue. now apply quick_greedy.
        + apply goes_continue. intros p c' Hp. now apply IH.
    Qed.

    Lemma linear_lazy fuel w b : linear loop_A loop_D O F true (c_lazy_generic fuel mx w b).
    Proof.
      split; [|discriminate]. intros q cur c k Hc Hk. revert b cur c Hc.
      induction fuel as [|fuel IH]; intros b cur c Hc; [now apply goes_0|].
      destruct (lazy_round fuel w b cur c k) as [c0 H]. cbv zeta in H.
      destruct (bound_is_zero b).
      - apply (loop_out q cur k c); auto. lia.
      - eapply loop_round; [exact Hc|exact Hk| | |exact H].
        + apply quick_continue. now apply quick_lazy.
        + apply goes_continue. intros p c' Hp. now apply IH.
    Qed.
  End Loop.

  (** Loops over one character. *)
  Section Characters.
    Variables (P F : ascii -> bool).

    Lemma walk fuel : forall b cur c k, cur <= L -> exists e, cur <= e <= L
      /\ (forall j, cur <= j < e -> sees P j = true)
      /\ steps (c_possessive_trivial fuel s P b cur c k) <= e - cur + steps (k e c).
    Proof.
      induction fuel as [|f IH]; intros b cur c k Hc; cbn [c_possessive_trivial].
      { exists cur. split; [lia|]. split; [lia|]. cbn. lia. }
      assert (Z : exists e, cur <= e <= L /\ (forall j, cur <= j < e -> sees P j = true)
        /\ steps (k cur c) <= e - cur + steps (k e c)).
      { exists cur. split; [lia|]. split; lia. }
      destruct (bound_is_zero b); [exact Z|]. destruct (Nat.eqb_spec cur L); [exact Z|].
      unfold c_deref. destruct (nth_error s cur) as [a|] eqn:Ea.
      - destruct (P a) eqn:Ep; [|exact Z].
        destruct (IH (bound_decrement b) (S cur) c k) as (e & E1 & E2 & E3); [lia|].
        exists e. split; [lia|]. split; [|cbn [round steps]; lia].
        intros j Hj. destruct (Nat.eq_dec j cur) as [->|]; [unfold sees; now rewrite Ea|]. apply E2. lia.
      - exists cur. split; [lia|]. split; [lia|]. cbn. lia.
    Qed.

    Lemma linear_possessive_trivial fuel b : linear 1 1 P F true (c_possessive_trivial fuel s P b).
    Proof.
      split; [|discriminate]. intros q cur c k Hc Hk.
      destruct (walk fuel b cur c k Hc) as (e & E1 & E2 & E3). exists e. split; auto. split.
      { intros Ho. destruct (Nat.eq_dec e cur); auto. rewrite (E2 cur) in Ho by lia. discriminate. }
      assert (B : e - cur + q <= bd 1 (e - cur) 1 q) by (unfold bd; nia).
      destruct (sees F e) eqn:Ef.
      - right. split; auto. split; [discriminate|]. exists c. lia.
      - left. pose proof (Hk e c ltac:(lia) Ef). lia.
    Qed.

    Hypothesis Hd : forall j, sees P j = true -> sees F j = false.

    Lemma back q initial k : forall d c, (forall j c, initial <= j < initial + d -> steps (k j c) <= q) ->
      steps (c_step_back initial d c k) <= S (steps (k (initial + d) c)) + d * S q.
    Proof.
      induction d as [|d IH]; intros c Hq; cbn [c_step_back]; unfold c_or_else; cbn [round out].
      - destruct (out (k (initial + 0) c)) as [c' e []| | |]; cbn; lia.
      - destruct (out (k (initial + S d) c)) as [c' e []| | |]; try (cbn; lia).
        cbn [Costs.after steps round]. assert (H : forall j c, initial <= j < initial + d -> steps (k j c) <= q).
        { intros j c0 Hj. apply Hq. lia. }
        specialize (IH c' H). specialize (Hq (initial + d) c' ltac:(lia)). lia.
    Qed.

    Lemma linear_greedy_trivial fuel b : linear 2 2 P F true
      (fun cur c k => c_possessive_trivial fuel s P b cur c (fun next c' => c_step_back cur (next - cur) c' k)).
    Proof.
      split; [|discriminate]. intros q cur c k Hc Hk.
      destruct (walk fuel b cur c (fun next c' => c_step_back cur (next - cur) c' k) Hc) as (e & E1 & E2 & E3).
      exists e. split; auto. split.
      { intros Ho. destruct (Nat.eq_dec e cur); auto. rewrite (E2 cur) in Ho by lia. discriminate. }
      pose proof (back q cur k (e - cur) c) as Hb. replace (cur + (e - cur)) with e in Hb by lia.
      cbv beta in E3. assert (Hs : steps (c_step_back cur (e - cur) c k) <= S (steps (k e c)) + (e - cur) * S q).
      { apply Hb. intros j c' Hj. apply Hk; [lia|]. apply Hd, E2. exact Hj. }
      assert (B : (e - cur) + (e - cur) * S q + S q <= bd 2 (e - cur) 2 q).
      { unfold bd. nia. }
      destruct (sees F e) eqn:Ef.
      - right. split; auto. split; [discriminate|]. exists c. lia.
      - left. pose proof (Hk e c ltac:(lia) Ef). lia.
    Qed.

    Lemma lazy_walk q k : quick F q k -> forall fuel b cur c, cur <= L -> exists e c', cur <= e <= L
      /\ (sees P cur = false -> e = cur)
      /\ steps (c_lazy_trivial fuel s P b cur c k) <= S (e - cur) * S q + steps (k e c').
    Proof.
      intros Hk. induction fuel as [|f IH]; intros b cur c Hc; cbn [c_lazy_trivial].
      { exists cur, c. split; [lia|]. split; auto. cbn. lia. }
      assert (Z : steps (round (k cur c)) <= S (cur - cur) * S q + steps (k cur c)).
      { rewrite Nat.sub_diag. cbn. lia. }
      unfold c_or_else. cbn [round out].
      destruct (out (k cur c)) as [c' e []| | |];
        try (exists cur, c; split; [lia|]; split; [auto|exact Z]).
      cbn [Costs.after steps round] in *.
      destruct (bound_is_zero b); [exists cur, c; split; [lia|]; split; [auto|cbn; lia]|].
      destruct (Nat.eqb_spec cur L); [exists cur, c; split; [lia|]; split; [auto|cbn; lia]|].
      unfold c_deref. destruct (nth_error s cur) as [a|] eqn:Ea;
        [|exists cur, c; split; [lia|]; split; [auto|cbn; lia]].
      destruct (P a) eqn:Ep; [|exists cur, c; split; [lia|]; split; [auto|cbn; lia]].
      assert (Ho : sees P cur = true) by (unfold sees; now rewrite Ea).
      destruct (IH (bound_decrement b) (S cur) c') as (e' & c2 & E1 & E2 & E3); [lia|].
      exists e', c2. split; [lia|]. split; [congruence|].
      pose proof (Hk cur c Hc (Hd _ Ho)).
      replace (S (e' - cur)) with (S (S (e' - S cur))) by lia. cbn [Nat.mul] in *. lia.
    Qed.

    Lemma linear_lazy_trivial fuel b : linear 2 2 P F true (c_lazy_trivial fuel s P b).
    Proof.
      split; [|discriminate]. intros q cur c k Hc Hk.
      destruct (lazy_walk q k Hk fuel b cur c Hc) as (e & c' & E1 & E2 & E3). exists e. split; auto. split; auto.
      assert (B : S (e - cur) * S q + q <= bd 2 (e - cur) 2 q) by (unfold bd; nia).
      destruct (sees F e) eqn:Ef.
      - right. split; auto. split; [discriminate|]. exists c'. lia.
      - left. pose proof (Hk e c' ltac:(lia) Ef). lia.
    Qed.
  End Characters.

  (** ** Blocks: a number of characters at once *)

  Definition block (D n : nat) (O : ascii -> bool) (mx : cmatcher) : Prop := forall cur c, cur <= L ->
    (forall k, steps (mx cur c k) <= D /\ forall c' e, out (mx cur c k) <> Res c' e true)
    \/ sees O cur = true /\ cur + n <= L
       /\ forall k, steps (mx cur c k) <= D + steps (k (cur + n) c)
                    /\ out (mx cur c k) = out (k (cur + n) c).

  Lemma block_linear D n O F mx : 1 <= n -> block D n O mx -> linear 0 (S D) O F false mx.
  Proof.
    intros Hn H. split.
    - intros q cur c k Hc Hk. assert (B : forall p, bd 0 (p - cur) (S D) q = S D * S q) by reflexivity.
      assert (D + q <= S D * S q) by nia.
      destruct (H cur c Hc) as [H1|(H1 & H2 & H3)].
      + exists cur. split; [lia|]. split; auto. left. destruct (H1 k) as [H4 _]. rewrite B. lia.
      + exists (cur + n). split; [lia|]. split; [congruence|]. rewrite B. destruct (H3 k) as [H4 _].
        destruct (sees F (cur + n)) eqn:Ef.
        * right. split; auto. split; [lia|]. exists c. lia.
        * left. pose proof (Hk (cur + n) c H2 Ef). lia.
    - intros _ cur c k Hc Ho. destruct (H cur c Hc) as [H1|(H1 & _)]; [|congruence].
      destruct (H1 k). lia.
  Qed.

  Lemma block_mono D D' n O mx : block D n O mx -> D <= D' -> block D' n O mx.
  Proof.
    intros H HD cur c Hc. destruct (H cur c Hc) as [H1|(H1 & H2 & H3)].
    - left. intros k. destruct (H1 k). split; [lia|auto].
    - right. split; auto. split; auto. intros k. destruct (H3 k). split; [lia|auto].
  Qed.

  Lemma block_called D n O mx : block D n O mx -> block (S D) n O (fun cur c k => called (mx cur c k)).
  Proof.
    intros H cur c Hc. destruct (H cur c Hc) as [H1|(H1 & H2 & H3)].
    - left. intros k. destruct (H1 k). cbn [called steps out]. split; [lia|auto].
    - right. split; auto. split; auto. intros k. destruct (H3 k). cbn [called steps out]. split; [lia|auto].
  Qed.

  (** Without giving back. *)
  Lemma block_possessive D n O mx : block D n O mx ->
    block D n O (fun cur c k => c_on_result (mx cur c c_success) (fun e c' => k e c') (fun c' => c_non_match cur c')).
  Proof.
    intros H cur c Hc. destruct (H cur c Hc) as [H1|(H1 & H2 & H3)].
    - left. intros k. destruct (H1 c_success) as [H4 H5]. unfold c_on_result.
      destruct (out (mx cur c c_success)) as [c' e []| | |] eqn:E; try (split; [lia|congruence]).
      + now destruct (H5 c' e).
      + cbn [Costs.after steps out c_non_match leaf non_match]. split; [lia|discriminate].
    - right. split; auto. split; auto. intros k. destruct (H3 c_success) as [H4 H5].
      change (steps (c_success (cur + n) c)) with 0 in H4.
      change (out (c_success (cur + n) c)) with (Res c (cur + n) true) in H5.
      unfold c_on_result. rewrite H5. cbn [Costs.after steps out]. split; [lia|reflexivity].
  Qed.

  Lemma block_trivial P : block 0 1 P (c_match_trivial s P).
  Proof.
    intros cur c Hc. unfold c_match_trivial. destruct (Nat.eqb_spec cur L).
    { left. intros k. split; [cbn; lia|discriminate]. }
    unfold c_deref. destruct (nth_error s cur) as [a|] eqn:Ea.
    - destruct (P a) eqn:Ep.
      + right. unfold sees. rewrite Ea. split; auto. split; [lia|]. intros k.
        rewrite Nat.add_1_r. split; [lia|reflexivity].
      + left. intros k. split; [cbn; lia|discriminate].
    - left. intros k. split; [cbn; lia|discriminate].
  Qed.

  Lemma all_at_fits ps : forall cur, all_at s ps cur = Some true -> cur <= L -> cur + length ps <= L.
  Proof.
    induction ps as [|P r IH]; intros cur E Hc; cbn [all_at length] in *; [lia|].
    destruct (nth_error s cur) as [a|] eqn:Ea; [|discriminate].
    assert (cur < L) by (apply nth_error_Some; congruence).
    destruct (P a); [|discriminate]. apply IH in E; lia.
  Qed.

  Lemma block_random P ps : block (S (length ps)) (S (length ps)) P (c_trivial_block_random s (P :: ps)).
  Proof.
    intros cur c Hc. unfold c_trivial_block_random. pose proof (tests_at_le s (P :: ps) cur) as Ht. cbn [length] in Ht.
    destruct (all_at s (P :: ps) cur) as [[]|] eqn:E.
    - right. pose proof (all_at_fits _ _ E Hc) as Hf. cbn [length] in Hf. split; [|split; [exact Hf|]].
      + cbn [all_at] in E. unfold sees. destruct (nth_error s cur) as [a|]; [|discriminate]. now destruct (P a).
      + intros k. cbn [paid steps out length]. split; [lia|reflexivity].
    - left. intros k. cbn [paid steps out]. split; [cbn [c_non_match leaf steps]; lia|discriminate].
    - left. intros k. cbn [paid steps out]. split; [cbn [leaf steps]; lia|discriminate].
  Qed.

  Lemma block_forward P ps : forall cur c, cur + S (length ps) <= L ->
    (forall k, steps (c_sequence_block_forward s (P :: ps) cur c k) <= S (length ps)
       /\ forall c' e, out (c_sequence_block_forward s (P :: ps) cur c k) <> Res c' e true)
    \/ sees P cur = true
       /\ forall k, steps (c_sequence_block_forward s (P :: ps) cur c k) <= S (length ps) + steps (k (cur + S (length ps)) c)
                    /\ out (c_sequence_block_forward s (P :: ps) cur c k) = out (k (cur + S (length ps)) c).
  Proof.
    revert P. induction ps as [|Q r IH]; intros P cur c Hc.
    - cbn [c_sequence_block_forward length] in *. unfold c_deref, sees.
      destruct (nth_error s cur) as [a|] eqn:Ea; [|left; intros k; split; [cbn; lia|discriminate]].
      destruct (P a); [|left; intros k; split; [cbn; lia|discriminate]].
      right. split; auto. intros k. rewrite Nat.add_1_r. cbn [round steps out]. split; [lia|reflexivity].
    - assert (Hl : cur + S (S (length r)) <= L) by exact Hc.
      destruct (IH Q (S cur) c ltac:(lia)) as [H|(H1 & H2)].
      + left. intros k. destruct (H k) as [H3 H4]. change (length (Q :: r)) with (S (length r)).
        change (c_sequence_block_forward s (P :: Q :: r) cur c k)
          with (round (c_deref s cur (fun a => if P a then c_sequence_block_forward s (Q :: r) (S cur) c k else c_non_match cur c))).
        unfold c_deref. destruct (nth_error s cur) as [a|]; [|split; [cbn; lia|discriminate]].
        destruct (P a); [|split; [cbn; lia|discriminate]]. cbn [round steps out]. split; [lia|exact H4].
      + change (length (Q :: r)) with (S (length r)).
        assert (E : forall k, c_sequence_block_forward s (P :: Q :: r) cur c k
          = round (c_deref s cur (fun a => if P a then c_sequence_block_forward s (Q :: r) (S cur) c k else c_non_match cur c)))
          by reflexivity.
        unfold c_deref in E. destruct (nth_error s cur) as [a|] eqn:Ea.
        * destruct (P a) eqn:Ep.
          -- right. split; [unfold sees; now rewrite Ea|]. intros k. rewrite E. destruct (H2 k) as [H3 H4].
             cbn [round steps out]. replace (cur + S (S (length r))) with (S cur + S (length r)) by lia.
             split; [lia|exact H4].
          -- left. intros k. rewrite E. split; [cbn; lia|discriminate].
        * left. intros k. rewrite E. split; [cbn; lia|discriminate].
  Qed.

  Lemma block_loop_random P c : forall todo offset cur, cur + offset + todo <= L ->
    (forall k, steps (c_repetition_loop_random s P todo offset cur c k) <= todo
       /\ forall c' e, out (c_repetition_loop_random s P todo offset cur c k) <> Res c' e true)
    \/ (todo <> 0 -> sees P (cur + offset) = true)
       /\ forall k, steps (c_repetition_loop_random s P todo offset cur c k) <= todo + steps (k (cur + offset + todo) c)
                    /\ out (c_repetition_loop_random s P todo offset cur c k) = out (k (cur + offset + todo) c).
  Proof.
    induction todo as [|t IH]; intros offset cur Hc; cbn [c_repetition_loop_random].
    - right. split; [easy|]. intros k. rewrite Nat.add_0_r. split; [lia|reflexivity].
    - unfold c_deref, sees. destruct (nth_error s (cur + offset)) as [a|];
        [|left; intros k; split; [cbn; lia|discriminate]].
      destruct (P a); cbn [negb]; [|left; intros k; split; [cbn; lia|discriminate]].
      destruct (IH (S offset) cur ltac:(lia)) as [H|(_ & H)].
      + left. intros k. destruct (H k). cbn [round steps out]. split; [lia|assumption].
      + right. split; auto. intros k. destruct (H k) as [H1 H2]. cbn [round steps out].
        replace (cur + offset + S t) with (cur + S offset + t) by lia. split; [lia|exact H2].
  Qed.

  Lemma block_loop_forward P c : forall n cur, cur + n <= L ->
    (forall k, steps (c_repetition_block_forward s P n cur c k) <= n
       /\ forall c' e, out (c_repetition_block_forward s P n cur c k) <> Res c' e true)
    \/ (n <> 0 -> sees P cur = true)
       /\ forall k, steps (c_repetition_block_forward s P n cur c k) <= n + steps (k (cur + n) c)
                    /\ out (c_repetition_block_forward s P n cur c k) = out (k (cur + n) c).
  Proof.
    induction n as [|t IH]; intros cur Hc; cbn [c_repetition_block_forward].
    - right. split; [easy|]. intros k. rewrite Nat.add_0_r. split; [lia|reflexivity].
    - unfold c_deref, sees. destruct (nth_error s cur) as [a|];
        [|left; intros k; split; [cbn; lia|discriminate]].
      destruct (P a); [|left; intros k; split; [cbn; lia|discriminate]].
      destruct (IH (S cur) ltac:(lia)) as [H|(_ & H)].
      + left. intros k. destruct (H k). cbn [round steps out]. split; [lia|assumption].
      + right. split; auto. intros k. destruct (H k) as [H1 H2]. cbn [round steps out].
        replace (cur + S t) with (S cur + t) by lia. split; [lia|exact H2].
  Qed.
End Text.
