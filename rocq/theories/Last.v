(** Groups that are repeated: what the group holds after the loop
    (Prop_Groups.v). *)
From Verif Require Import Matcher Api Basics Safe Cong Impl Spec Paths Adequacy Calls Groups Keeps Held.

(** ** Specification *)

(** A tree is this loop, or a sequence with this loop as one of its elements. *)
Definition loop_in (n : node) (pre : list node) (loop : node) (post : list node) : Prop :=
  (n = loop /\ pre = [] /\ post = []) \/ n = Seq (pre ++ loop :: post).

(** Loops that try another iteration before going on (greedy and possessive
    ones; with [ungreedy] lazy instead of greedy ones). *)
Definition tries_more (cf : config) (md : match_mode) : bool :=
  match md with
  | Greedy => negb (ungreedy cf)
  | Lazy => ungreedy cf
  | Possessive => true
  end.

(** [p] are the ends of the last of [q] consecutive matches of [x] from [i] to [j]. *)
Definition last_iteration (cf : config) (s : list ascii) (x : node) (q i j : nat) (p : nat * nat)
  : Prop :=
  match q with
  | 0 => False
  | S q' => snd p = j /\ (exists t, takes_all cf s (repeat x q') i (fst p) t)
      /\ exists t, takes cf s x (fst p) j t
  end.

(** ** Proofs *)

Lemma last_iteration_cons cf s x q i h j p t : takes cf s x i h t ->
  last_iteration cf s x q h j p -> last_iteration cf s x (S q) i j p.
Proof.
  destruct q as [|q]; [intros _ []|]. cbn. intros Hx (H1 & (u & H2) & H3). repeat split; auto.
  exists (t ++ u). econstructor; eauto.
Qed.

Lemma last_iteration_one cf s x i j t : takes cf s x i j t -> last_iteration cf s x 1 i j (i, j).
Proof. intros H. repeat split; [exists []; constructor|]. now exists t. Qed.

Section Loop.
  Variable cf : config.
  Variable s : list ascii.
  Variable id : N.
  Variable x : node.
  Variable mx : matcher.
  Hypothesis mx_success : forall cur c k c' e, mx cur c k = Res c' e true ->
    exists j t c1, takes cf s x cur j t /\ cell_of c1 id = Some (cur, j) /\ k j c1 = Res c' e true.
  Hypothesis mx_failure : forall cur c k c' e, mx cur c k = Res c' e false ->
    cell_is_empty (cell_of c' id) = true.

  Definition many (q i j : nat) : Prop := exists t, takes_all cf s (repeat x q) i j t.

  (** The state in which the continuation succeeds after [q] iterations. *)
  Definition exactly (c : caps) (q i j : nat) (c1 : caps) : Prop :=
    many q i j
    /\ match q with
       | 0 => c1 = c
       | _ => exists p, cell_of c1 id = Some p /\ last_iteration cf s x q i j p
       end.

  Lemma many_zero i : many 0 i i.
  Proof. exists []. constructor. Qed.

  Lemma many_cons q i h j t : takes cf s x i h t -> many q h j -> many (S q) i j.
  Proof. intros Hx (u & Hu). exists (t ++ u). cbn. econstructor; eauto. Qed.

  Lemma exactly_zero c i : exactly c 0 i i c.
  Proof. split; [apply many_zero|reflexivity]. Qed.

  Lemma exactly_cons c c0 q i h j t c1 : takes cf s x i h t -> cell_of c0 id = Some (i, h) ->
    exactly c0 q h j c1 -> exactly c (S q) i j c1.
  Proof.
    intros Hx H0 (Hm & Hq). split; [eapply many_cons; eauto|]. destruct q as [|q].
    - subst c1. exists (i, h). split; auto. destruct Hm as (u & Hu). cbn in Hu.
      inversion Hu. subst. eapply last_iteration_one; eauto.
    - destruct Hq as (p & Hp & Hl). exists p. split; auto. eapply last_iteration_cons; eauto.
  Qed.

  Lemma lazy_exact w : forall fuel b cur c k c' e,
    lazy_generic fuel mx w b cur c k = Res c' e true ->
    exists q j c1, within b q /\ exactly c q cur j c1 /\ k j c1 = Res c' e true.
  Proof.
    induction fuel as [|f IH]; intros b cur c k c' e E; [discriminate|]. cbn [lazy_generic] in E.
    destruct (k cur c) as [c2 e2 [|]| | |] eqn:Ek; cbn [or_else] in E; try discriminate.
    - exists 0, cur, c. rewrite Ek. repeat split; auto using many_zero. destruct b; cbn; auto; lia.
    - destruct (bound_is_zero b) eqn:Hb; [discriminate|].
      apply mx_success in E as (h & t & c3 & Hx & Hc3 & E).
      unfold continue_unless_infinite_loop in E. destruct (w && Nat.eqb cur h); [discriminate|].
      apply IH in E as (q & j & c1 & Hw & He & Hk). exists (S q), j, c1. repeat split; auto.
      + destruct b as [n|]; cbn in *; auto. apply N.eqb_neq in Hb. lia.
      + exact (proj1 (exactly_cons c c3 q cur h j t c1 Hx Hc3 He)).
      + exact (proj2 (exactly_cons c c3 q cur h j t c1 Hx Hc3 He)).
  Qed.

  (** Trying more iterations first: exact when the bound is reached, otherwise
      the group is empty. *)
  Definition eagerly (b : quantifier) (c : caps) (q i j : nat) (c1 : caps) : Prop :=
    many q i j
    /\ match b with Fin n => q = N.to_nat n /\ exactly c q i j c1 | Inf => False end
       \/ many q i j /\ (b <> Fin (N.of_nat q)) /\ cell_is_empty (cell_of c1 id) = true.

  Lemma eagerly_cons b c c0 q i h j t c1 : bound_is_zero b = false -> takes cf s x i h t ->
    cell_of c0 id = Some (i, h) -> eagerly (bound_decrement b) c0 q h j c1 -> eagerly b c (S q) i j c1.
  Proof.
    intros Hb Hx H0 [[Hm H]|(Hm & Hn & He)].
    - left. split; [eapply many_cons; eauto|]. destruct b as [n|]; [|easy]. cbn in *.
      apply N.eqb_neq in Hb. destruct H as [-> H]. split; [lia|].
      replace (S (N.to_nat (n - 1))) with (S (N.to_nat (n - 1))) by lia.
      eapply exactly_cons; eauto.
    - right. split; [eapply many_cons; eauto|]. split; auto. destruct b as [n|]; [|easy]. cbn in *.
      apply N.eqb_neq in Hb. intros E. injection E as E. apply Hn. f_equal. lia.
  Qed.

  Lemma eagerly_zero b cur c : bound_is_zero b = true -> eagerly b c 0 cur cur c.
  Proof.
    intros Hb. left. split; [apply many_zero|]. destruct b as [n|]; [|discriminate].
    cbn in Hb. apply N.eqb_eq in Hb. subst n. split; auto. apply exactly_zero.
  Qed.

  Lemma eagerly_stop b cur c c1 : bound_is_zero b = false -> cell_is_empty (cell_of c1 id) = true ->
    eagerly b c 0 cur cur c1.
  Proof.
    intros Hb He. right. split; [apply many_zero|]. split; auto. intros ->. discriminate.
  Qed.

  Lemma eagerly_within b c q i j c1 : eagerly b c q i j c1 -> within b q \/ b <> Fin (N.of_nat q).
  Proof. intros [[_ H]|(_ & H & _)]; auto. destruct b; [|easy]. left. cbn. lia. Qed.

  Lemma greedy_eager w : forall fuel b cur c k c' e,
    greedy_generic fuel mx w b cur c k = Res c' e true ->
    exists q j c1, within b q /\ eagerly b c q cur j c1 /\ k j c1 = Res c' e true.
  Proof.
    induction fuel as [|f IH]; intros b cur c k c' e E; [discriminate|]. cbn [greedy_generic] in E.
    destruct (bound_is_zero b) eqn:Hb.
    - exists 0, cur, c. repeat split; auto using eagerly_zero. destruct b; cbn; auto; lia.
    - destruct (mx cur c _) as [c2 e2 [|]| | |] eqn:Em; cbn [or_else] in E; try discriminate.
      + rewrite E in Em. apply mx_success in Em as (h & t & c3 & Hx & Hc3 & E').
        unfold continue_unless_infinite_loop in E'. destruct (w && Nat.eqb cur h); [discriminate|].
        apply IH in E' as (q & j & c1 & Hw & He & Hk). exists (S q), j, c1. repeat split; auto.
        * destruct b as [n|]; cbn in *; auto. apply N.eqb_neq in Hb. lia.
        * eapply eagerly_cons; eauto.
      + apply mx_failure in Em. exists 0, cur, c2. repeat split; auto using eagerly_stop.
        destruct b; cbn; auto; lia.
  Qed.

  Lemma possessive_eager w : forall fuel b cur c k c' e,
    possessive_generic fuel mx w b cur c k = Res c' e true ->
    exists q j c1, within b q /\ eagerly b c q cur j c1 /\ k j c1 = Res c' e true.
  Proof.
    induction fuel as [|f IH]; intros b cur c k c' e E; [discriminate|]. cbn [possessive_generic] in E.
    destruct (bound_is_zero b) eqn:Hb.
    - exists 0, cur, c. repeat split; auto using eagerly_zero. destruct b; cbn; auto; lia.
    - destruct (mx cur c success) as [c2 e2 [|]| | |] eqn:Em; cbn [on_result] in E; try discriminate.
      + apply mx_success in Em as (h & t & c3 & Hx & Hc3 & E'). unfold success in E'.
        injection E' as -> ->. destruct (w && Nat.eqb cur e2) eqn:Ew.
        * apply andb_true_iff in Ew as [_ Ew]. apply Nat.eqb_eq in Ew. subst e2.
          exists 0, cur, c2. repeat split; auto; [destruct b; cbn; auto; lia|].
          apply eagerly_stop; auto. rewrite Hc3. cbn. apply Nat.eqb_refl.
        * apply IH in E as (q & j & c1 & Hw & He & Hk). exists (S q), j, c1. repeat split; auto.
          -- destruct b as [n|]; cbn in *; auto. apply N.eqb_neq in Hb. lia.
          -- eapply eagerly_cons; eauto.
      + apply mx_failure in Em. exists 0, cur, c2. repeat split; auto using eagerly_stop.
        destruct b; cbn; auto; lia.
  Qed.

  Lemma unrolled_exact : forall n cur c k c' e,
    unrolled_backtracking mx n cur c k = Res c' e true ->
    exists j c1, exactly c n cur j c1 /\ k j c1 = Res c' e true.
  Proof.
    induction n as [|n IH]; intros cur c k c' e E; cbn [unrolled_backtracking] in E.
    - exists cur, c. split; auto using exactly_zero.
    - assert (E' : mx cur c (fun next c' => unrolled_backtracking mx n next c' k) = Res c' e true).
      { destruct n; exact E. }
      apply mx_success in E' as (h & t & c3 & Hx & Hc3 & E').
      apply IH in E' as (j & c1 & He & Hk). exists j, c1. split; auto. eapply exactly_cons; eauto.
  Qed.

  Lemma non_unrolled_exact : forall n cur c k c' e,
    non_unrolled_backtracking mx n cur c k = Res c' e true ->
    exists j c1, exactly c n cur j c1 /\ k j c1 = Res c' e true.
  Proof.
    induction n as [|n IH]; intros cur c k c' e E; [discriminate|].
    cbn [non_unrolled_backtracking] in E. destruct (Nat.eqb_spec (S n) 1) as [E1|].
    - injection E1 as ->. apply mx_success in E as (h & t & c3 & Hx & Hc3 & E').
      exists h, c3. split; auto. eapply exactly_cons; eauto. apply exactly_zero.
    - apply mx_success in E as (h & t & c3 & Hx & Hc3 & E').
      apply IH in E' as (j & c1 & He & Hk). exists j, c1. split; auto. eapply exactly_cons; eauto.
  Qed.

  Variable y : node.           (* the group as a node *)
  Hypothesis Hy : trivial y = false.

  Lemma fixed_backtracking_exact n cur c k c' e :
    fixed_backtracking cf s y mx n cur c k = Res c' e true ->
    exists j c1, exactly c (N.to_nat n) cur j c1 /\ k j c1 = Res c' e true.
  Proof.
    unfold fixed_backtracking. rewrite Hy. destruct (unroll cf);
      [apply unrolled_exact|apply non_unrolled_exact].
  Qed.

  Lemma fixed_exact md n cur c k c' e : fixed_match cf s md n y mx cur c k = Res c' e true ->
    exists j c1, exactly c (N.to_nat n) cur j c1 /\ k j c1 = Res c' e true.
  Proof.
    unfold fixed_match. destruct (N.eqb_spec n 0) as [->|].
    { intros E. exists cur, c. split; auto. apply exactly_zero. }
    assert (Hone : forall c0 k0 c'0 e0, mx cur c0 k0 = Res c'0 e0 true ->
              exists j c1, exactly c0 1 cur j c1 /\ k0 j c1 = Res c'0 e0 true).
    { intros c0 k0 c'0 e0 E. apply mx_success in E as (h & t & c3 & Hx & Hc3 & E').
      exists h, c3. split; auto. eapply exactly_cons; eauto. apply exactly_zero. }
    destruct (N.eqb_spec n 1) as [->|].
    - change (N.to_nat 1) with 1. destruct md; auto. rewrite Hy.
      destruct (mx cur c success) as [c2 e2 [|]| | |] eqn:Em; cbn [on_result]; intros E; try discriminate.
      apply Hone in Em as (j & c1 & He & E'). unfold success in E'. injection E' as -> ->.
      exists e2, c2. auto.
    - destruct md; try apply fixed_backtracking_exact.
      destruct (fixed_backtracking cf s y mx n cur c success) as [c2 e2 [|]| | |] eqn:Em;
        cbn [on_result]; intros E; try discriminate.
      apply fixed_backtracking_exact in Em as (j & c1 & He & E'). unfold success in E'.
      injection E' as -> ->. exists e2, c2. auto.
  Qed.

  Lemma between_exact md b w cur c k c' e : between_bounds cf s md b w y mx cur c k = Res c' e true ->
    exists q j c1, within b q
      /\ (if tries_more cf md then eagerly b c q cur j c1 else exactly c q cur j c1)
      /\ k j c1 = Res c' e true.
  Proof.
    unfold between_bounds, tries_more. rewrite Hy. cbn [andb].
    destruct md, (ungreedy cf); cbn [xorb negb]; intros E;
      first [now apply greedy_eager in E|now apply possessive_eager in E|now apply lazy_exact in E].
  Qed.

  Lemma exactly_app c a b i h j c0 c1 : exactly c a i h c0 -> exactly c0 b h j c1 ->
    exactly c (a + b) i j c1.
  Proof.
    intros (Hm1 & H1) (Hm2 & H2). split.
    - destruct Hm1 as (t & Ht). destruct Hm2 as (u & Hu). exists (t ++ u). clear - Ht Hu.
      revert i t Ht. induction a as [|a IH]; intros i t Ht; cbn in *; inversion Ht; subst; auto.
      rewrite <- app_assoc. econstructor; eauto.
    - destruct b as [|b].
      + subst c1. rewrite Nat.add_0_r. destruct a; auto.
        destruct Hm2 as (u & Hu). inversion Hu. subst. exact H1.
      + destruct H2 as (p & Hp & (Hj & (u & Hu) & Hx)). rewrite Nat.add_succ_r.
        exists p. split; auto. split; auto. split; auto. destruct Hm1 as (t & Ht). exists (t ++ u).
        clear - Ht Hu. revert i t Ht.
        induction a as [|a IH]; intros i t Ht; cbn in *; inversion Ht; subst; auto.
        rewrite <- app_assoc. econstructor; eauto.
  Qed.

  Lemma many_app a b i h j : many a i h -> many b h j -> many (a + b) i j.
  Proof.
    intros (t & Ht) (u & Hu). exists (t ++ u). revert i t Ht.
    induction a as [|a IH]; intros i t Ht; cbn in *; inversion Ht; subst; auto.
    rewrite <- app_assoc. econstructor; eauto.
  Qed.

  (** The result for the whole loop. *)
  Definition loop_result (md : match_mode) (hi : quantifier) (q i j : nat) (c1 : caps) : Prop :=
    many q i j /\
    (if tries_more cf md && negb (match hi with Fin h => N.eqb h (N.of_nat q) | Inf => false end)
     then cell_is_empty (cell_of c1 id) = true
     else 0 < q -> exists p, cell_of c1 id = Some p /\ last_iteration cf s x q i j p).

  Lemma rep_result md lo hi cur c k c' e : match hi with Fin h => (lo <= h)%N | Inf => True end ->
    rep_match cf s md lo hi y mx cur c k = Res c' e true ->
    exists q j c1, allowed lo hi q /\ loop_result md hi q cur j c1 /\ k j c1 = Res c' e true.
  Proof.
    intros Hlo. unfold rep_match. set (w := is_infinity hi && zlm y). set (b := bound_subtract hi lo).
    assert (Hex : forall q c0 i j c1, exactly c0 q i j c1 ->
              many q i j /\ (0 < q -> exists p, cell_of c1 id = Some p /\ last_iteration cf s x q i j p)).
    { intros q c0 i j c1 [Hm Hq]. split; auto. intros Hpos. destruct q; [lia|exact Hq]. }
    destruct (match hi with Fin h => N.eqb lo h | Inf => false end) eqn:Ef.
    { intros E. apply fixed_exact in E as (j & c1 & He & Hk). exists (N.to_nat lo), j, c1.
      destruct hi as [h|]; [|discriminate]. apply N.eqb_eq in Ef. subst h.
      split; [split; lia|]. split; auto. unfold loop_result. rewrite Nnat.N2Nat.id, N.eqb_refl.
      cbn [negb]. rewrite andb_false_r. eapply Hex; eauto. }
    assert (Hmain : forall c0 c2 h1 q j c1, exactly c0 (N.to_nat lo) cur h1 c2 -> within b q ->
              (if tries_more cf md then eagerly b c2 q h1 j c1 else exactly c2 q h1 j c1) ->
              allowed lo hi (N.to_nat lo + q) /\ loop_result md hi (N.to_nat lo + q) cur j c1).
    { intros c0 c2 h1 q j c1 H1 Hw H2. split.
      { split; [lia|]. subst b. destruct hi as [h|]; cbn in *; auto. lia. }
      unfold loop_result. destruct (tries_more cf md); cbn [andb].
      - destruct H2 as [[Hm H2]|(Hm & Hn & He)].
        + subst b. destruct hi as [h|]; cbn in H2; [|easy]. destruct H2 as [-> H2].
          replace (N.of_nat (N.to_nat lo + N.to_nat (h - lo))) with h by lia. rewrite N.eqb_refl.
          cbn [negb]. eapply Hex. eapply exactly_app; eauto.
        + split; [eapply many_app; eauto; apply H1|]. subst b. destruct hi as [h|]; cbn [negb]; auto.
          cbn in Hn. destruct (N.eqb_spec h (N.of_nat (N.to_nat lo + q))) as [Eh|]; auto.
          exfalso. apply Hn. f_equal. lia.
      - eapply Hex. eapply exactly_app; eauto. }
    unfold is_zero. destruct (N.eqb_spec lo 0) as [->|Hn0].
    - intros E. apply between_exact in E as (q & j & c1 & Hw & He & Hk).
      destruct (Hmain c c cur q j c1 (exactly_zero c cur) Hw He) as [H1 H2].
      exists q, j, c1. auto.
    - intros E. apply fixed_exact in E as (h1 & c2 & H1 & E).
      apply between_exact in E as (q & j & c1 & Hw & He & Hk).
      destruct (Hmain c c2 h1 q j c1 H1 Hw He) as [H3 H4].
      exists (N.to_nat lo + q), j, c1. auto.
  Qed.
End Loop.

Definition nothing (id : N) : Prop := False.

Lemma falls_nothing k : falls nothing k.
Proof. intros j c1 c2 e _ id []. Qed.

Lemma group_success cf names s f id nm x : compiles cf names f 0 (Cap id nm x) = true ->
  forall cur c k c' e, m cf names s f 0 (Cap id nm x) cur c k = Res c' e true ->
  exists j t c1, takes cf s x cur j t /\ cell_of c1 id = Some (cur, j) /\ k j c1 = Res c' e true.
Proof.
  intros Hc cur c k c' e E. destruct f as [|f]; [discriminate|]. cbn [compiles] in Hc.
  apply andb_true_iff in Hc as [_ Hc]. cbn [m] in E.
  match type of E with or_else (m _ _ _ _ _ _ _ _ ?kk) _ = _ => set (k' := kk) in E end.
  destruct (m cf names s f 0 x cur c k') as [c2 e2 [|]| | |] eqn:Em; cbn [or_else] in E; try discriminate.
  - pose proof (held_traces cf names s f nothing x Hc (fun i H => match H with end) cur c k'
                  (falls_nothing _)) as H.
    unfold yields in H. rewrite Em in H. destruct H as (j & t & c1 & H1 & _ & H3). unfold k' in H3.
    destruct (store names s 0 id nm cur j c1) as [c3|] eqn:Es; [|discriminate].
    exists j, t, c3. split; auto. split; [|congruence]. unfold store in Es.
    destruct (nth_error _ _); [|discriminate]. destruct (name_eqb _ _); [|discriminate].
    rewrite (cell_of_set _ _ _ _ id Es). now rewrite N.eqb_refl.
  - destruct (clear_cell _ _); discriminate.
Qed.

Lemma group_failure cf names s f id nm x cur c k c' e :
  m cf names s f 0 (Cap id nm x) cur c k = Res c' e false ->
  cell_is_empty (cell_of c' id) = true.
Proof.
  intros E. destruct f as [|f]; [discriminate|]. cbn [m] in E.
  destruct (m cf names s f 0 x cur c _) as [c2 e2 [|]| | |]; cbn [or_else] in E; try discriminate.
  destruct (clear_cell (N.to_nat id) c2) as [c3|] eqn:Ec; [|discriminate].
  injection E as <- _. rewrite (cell_of_clear _ _ _ id Ec), N.eqb_refl. apply clear_value_empty.
Qed.

Section Within.
  Variable cf : config.
  Variable names : list group_name.
  Variable s : list ascii.
  Variables (md : match_mode) (lo : N) (hi : quantifier) (id : N) (nm : group_name) (x : node).
  Local Notation loop := (Rep md lo hi (Cap id nm x)).
  Local Notation mm f := (m cf names s f 0).

  Lemma loop_success f : compiles cf names f 0 loop = true ->
    forall cur c k c' e, mm f loop cur c k = Res c' e true ->
    exists q j c1, allowed lo hi q /\ loop_result cf s id x md hi q cur j c1 /\ k j c1 = Res c' e true.
  Proof.
    destruct f as [|f]; [discriminate|]. intros Hc cur c k c' e E. cbn [compiles] in Hc.
    apply andb_true_iff in Hc as [Hc _]. cbn [m] in E.
    destruct (match hi with Fin h => N.eqb h 0 | Inf => false end) eqn:Hz.
    { destruct hi as [h|]; [|discriminate]. apply N.eqb_eq in Hz. subst h.
      apply andb_true_iff in Hc as [Hc _]. apply N.leb_le in Hc. assert (lo = 0%N) as -> by lia.
      cbn in E. exists 0, cur, c. split; [split; lia|]. split; auto. split; [apply many_zero|].
      cbn. rewrite andb_false_r. lia. }
    assert (Hcx : compiles cf names f 0 (Cap id nm x) = true).
    { destruct hi as [h|]; auto. apply andb_true_iff in Hc as [_ Hc]. now rewrite Hz in Hc. }
    eapply rep_result in E; eauto.
    - exact (group_success cf names s f id nm x Hcx).
    - intros. eapply group_failure; eauto.
    - destruct hi as [h|]; auto. apply andb_true_iff in Hc as [Hc _]. now apply N.leb_le.
  Qed.

  Lemma loop_nontrivial : trivial loop = false.
  Proof. cbn [trivial]. destruct lo as [|[| |]]; auto. destruct hi as [[|[| |]]|]; auto. Qed.

  (** What follows does not touch the group. *)
  Definition apart (l : list node) : Prop := forall y z, In y l -> ~ group_in y id z.

  Lemma seq_keeps f v : forall l, apart l -> l <> [] -> forall cur c k,
    cell_of c id = v -> keeps (fun c => cell_of c id = v) k ->
    post (fun c => cell_of c id = v) (seq_match cf s (mm f) l cur c k).
  Proof.
    intros l Ha Hl cur c k Hv Hk.
    pose proof (keeps_captures cf names s (fun c => cell_of c id = v) (fun i => i <> id)) as K.
    assert (P : keeps_m (fun c => cell_of c id = v) (m cf names s (S f) 0 (Seq l))).
    { apply K.
      - intros i c1 c2 Hi H E. rewrite (cell_of_clear _ _ _ id E).
        destruct (N.eqb_spec i id); [contradiction|auto].
      - intros r i nm' b e c1 c2 Hi H E. unfold store in E.
        destruct (nth_error _ _); [|discriminate]. destruct (name_eqb _ _); [|discriminate].
        destruct r as [|[|r]]; try discriminate; rewrite (cell_of_set _ _ _ _ id E);
          (destruct (N.eqb_spec i id); [contradiction|auto]).
      - intros i y Hg ->. inversion Hg; subst. eapply Ha; eauto. }
    exact (P cur c k Hv Hk).
  Qed.

  Lemma seq_compiles f l : forallb (compiles cf names f 0) l = true -> l <> [] ->
    traces nothing (seq_match cf s (mm f) l) (takes_all cf s l).
  Proof.
    intros Hc Hl. apply (traces_seq cf names s nothing f l Hl). intros y Hy.
    rewrite forallb_forall in Hc. apply held_traces; auto. intros i [].
  Qed.

  Definition final (k : cont) : Prop := k = success \/ exists t, k = equals t.

  Lemma final_result k j c c' e : final k -> k j c = Res c' e true -> c' = c /\ e = j.
  Proof. intros [->|[t ->]] E; unfold success, equals in E; injection E; auto. Qed.

  Lemma final_keeps (Inv : caps -> Prop) k : final k -> keeps Inv k.
  Proof. intros [->|[t ->]]; [apply keeps_success|apply keeps_equals]. Qed.

  Lemma seq_loop_success f post : forall pre,
    forallb (compiles cf names f 0) (pre ++ loop :: post) = true -> apart post ->
    forall cur c k c' e, final k -> seq_match cf s (mm f) (pre ++ loop :: post) cur c k = Res c' e true ->
    exists i j q c1 t1 t2, takes_all cf s pre cur i t1 /\ allowed lo hi q
      /\ loop_result cf s id x md hi q i j c1 /\ takes_all cf s post j e t2
      /\ cell_of c' id = cell_of c1 id.
  Proof.
    induction pre as [|y pre IH]; intros Hc Ha cur c k c' e Hk E.
    - cbn [app] in *. cbn [forallb] in Hc. apply andb_true_iff in Hc as [Hl Hp]. destruct post as [|p post].
      + cbn [seq_match] in E. apply (loop_success f Hl) in E as (q & j & c1 & H1 & H2 & H3).
        destruct (final_result _ _ _ _ _ Hk H3) as [-> ->]. exists cur, j, q, c1, [], [].
        split; [constructor|]. split; auto. split; auto. split; [constructor|auto].
      + rewrite seq_match_cons in E by discriminate. cbn [forallb] in E.
        rewrite loop_nontrivial in E. cbn [andb] in E.
        apply (loop_success f Hl) in E as (q & j & c1 & H1 & H2 & H3).
        pose proof (seq_compiles f (p :: post) Hp ltac:(discriminate) j c1 k (falls_nothing k)) as Ht.
        pose proof (seq_keeps f (cell_of c1 id) (p :: post) Ha ltac:(discriminate) j c1 k eq_refl
                      (final_keeps _ k Hk)) as Hp'.
        unfold yields in Ht. rewrite H3 in Ht, Hp'. destruct Ht as (e' & t & c2 & Ht & _ & H4).
        pose proof (final_result _ _ _ _ _ Hk H4) as [<- ->].
        exists cur, j, q, c1, [], t. split; [constructor|]. auto.
    - cbn [app] in *. cbn [forallb] in Hc. apply andb_true_iff in Hc as [Hy Hc].
      rewrite seq_match_cons in E by (destruct pre; discriminate).
      replace (forallb trivial (y :: pre ++ loop :: post)) with false in E
        by (cbn [forallb]; rewrite forallb_app; cbn [forallb]; rewrite loop_nontrivial; cbn [andb]; rewrite !andb_false_r; reflexivity).
      pose proof (held_traces cf names s f nothing y Hy (fun i H => match H with end) cur c
                    (fun next c' => seq_match cf s (mm f) (pre ++ loop :: post) next c' k)
                    (falls_nothing _)) as H.
      unfold yields in H. rewrite E in H. destruct H as (h & t & c0 & H1 & _ & H2).
      apply (IH Hc Ha h c0 k c' e Hk) in H2 as (i & j & q & c1 & t1 & t2 & H3 & H4).
      exists i, j, q, c1, (t ++ t1), t2. split; auto. econstructor; eauto.
  Qed.
End Within.

(** ** Calls *)

Section Call.
  Variable cf : config.
  Variable n : node.
  Variable s : list ascii.
  Hypothesis Hc : compilable cf n = true.
  Variables (md : match_mode) (lo : N) (hi : quantifier) (id : N) (nm : group_name) (x : node).
  Variables (pre post : list node).
  Hypothesis Hin : loop_in n pre (Rep md lo hi (Cap id nm x)) post.
  Hypothesis Hpost : apart id post.
  Hypothesis Hid : id <> 0%N.
  Local Notation names := (group_names n).

  Definition looped (c : caps) : Prop := exists b e i j q t1 t2,
    group0 c = Some (b, e) /\ takes_all cf s pre b i t1 /\ allowed lo hi q
    /\ loop_result cf s id x md hi q i j c /\ takes_all cf s post j e t2.

  Lemma loop_result_cell c c1 q i j : cell_of c id = cell_of c1 id ->
    loop_result cf s id x md hi q i j c1 -> loop_result cf s id x md hi q i j c.
  Proof. unfold loop_result. now intros ->. Qed.

  Lemma run_looped cur c k c' e : length c = length names ->
    k = success \/ k = equals (length s) ->
    node_match cf names s 0 n cur c k = Res c' e true -> looped (set_group0 cur e c').
  Proof.
    intros Hl Hk E. pose proof (run_length cf n s cur c k c' e true Hl Hk E) as Hl'.
    assert (Hf : final k) by (destruct Hk as [->| ->]; [now left|right; eauto]).
    pose proof Hc as Hc'. unfold compilable in Hc'. unfold node_match in E.
    assert (H : exists i j q c1 t1 t2, takes_all cf s pre cur i t1 /\ allowed lo hi q
      /\ loop_result cf s id x md hi q i j c1 /\ takes_all cf s post j e t2
      /\ cell_of c' id = cell_of c1 id).
    { destruct Hin as [(En & -> & ->)|En].
      - apply (seq_loop_success cf names s md lo hi id nm x (size n) [] []) with c k; auto.
        + cbn [app forallb]. rewrite <- En, Hc'. reflexivity.
        + cbn [app seq_match]. now rewrite <- En.
      - destruct (size n) as [|f] eqn:Es; [discriminate|].
        apply (seq_loop_success cf names s md lo hi id nm x f post pre) with c k; auto.
        + rewrite En in Hc' at 2. cbn [compiles] in Hc'.
          destruct (pre ++ _ :: post) eqn:Ep; [destruct pre; discriminate|]. exact Hc'.
        + rewrite En in E at 2. exact E. }
    destruct H as (i & j & q & c1 & t1 & t2 & H1 & H2 & H3 & H4 & H5).
    exists cur, e, i, j, q, t1, t2. split; [now apply (group0_set_length n)|]. split; auto. split; auto.
    split; auto. apply loop_result_cell with c1; auto. now rewrite cell_of_group0.
  Qed.

  Lemma search_looped : forall fuel cur c c' e, length c = length names ->
    search_loop fuel cf n s cur c = Res c' e true -> looped c'.
  Proof.
    induction fuel as [|f IH]; intros cur c c' e Hl E; [discriminate|]. cbn [search_loop] in E.
    destruct (node_match cf names s 0 n cur c success) as [c1 e1 [|]| | |] eqn:Em; try discriminate.
    - injection E as <- _. exact (run_looped cur c success _ _ Hl (or_introl eq_refl) Em).
    - destruct (Nat.eqb cur (length s)); [discriminate|]. eapply IH; [|exact E].
      exact (run_length _ _ _ _ _ _ _ _ _ Hl (or_introl eq_refl) Em).
  Qed.

  Lemma block_looped k c e : k = success \/ k = equals (length s) ->
    (match node_match cf names s 0 n 0 (initial_captures n) k with
     | Res c' e b => Res (set_group0 0 e c') e b
     | o => o
     end) = Res c e true -> looped c.
  Proof.
    intros Hk E.
    destruct (node_match _ _ _ _ _ _ _ _) as [c' e' [|]| | |] eqn:Em; try discriminate.
    injection E as <- _. eapply run_looped; eauto. apply initial_length.
  Qed.
End Call.

Theorem repeated_group r ct s call res md lo hi id nm x pre post :
  call = regex_match \/ call = regex_match_prefix \/ call = regex_search ->
  call r ct s = Returned res -> matched res = true ->
  loop_in (ast r) pre (Rep md lo hi (Cap id nm x)) post ->
  id <> 0%N -> (forall y z, In y post -> ~ group_in y id z) ->
  looped (config_of (flags r) ct) s md lo hi id x pre post (groups res).
Proof.
  intros Hcall E Hm Hin Hid Ha.
  destruct Hcall as [->|[->| ->]];
    unfold regex_match, regex_match_prefix, regex_search, invoke in E;
    (destruct (compilable (config_of (flags r) ct) (ast r)) eqn:Hc; [|discriminate]).
  - destruct (match_method _ _ _ _ _) as [c e b| | |] eqn:Em; cbn in E; try discriminate.
    injection E as <-. cbn in Hm. subst b. eapply block_looped; [exact Hc|exact Hin|exact Ha|exact Hid|now right|exact Em].
  - destruct (match_prefix_method _ _ _ _ _) as [c e b| | |] eqn:Em; cbn in E; try discriminate.
    injection E as <-. cbn in Hm. subst b. eapply block_looped; [exact Hc|exact Hin|exact Ha|exact Hid|now left|exact Em].
  - destruct (search_method _ _ _ _ _) as [c e b| | |] eqn:Em; cbn in E; try discriminate.
    injection E as <-. cbn in Hm. subst b. unfold search_method in Em.
    eapply search_looped; eauto. apply initial_length.
Qed.

Theorem repeated_group_holds r ct s call res md lo hi id nm x pre post :
  call = regex_match \/ call = regex_match_prefix \/ call = regex_search ->
  call r ct s = Returned res -> matched res = true ->
  loop_in (ast r) pre (Rep md lo hi (Cap id nm x)) post ->
  id <> 0%N -> (forall y z, In y post -> ~ group_in y id z) ->
  let cf := config_of (flags r) ct in
  let v := nth (N.to_nat id) (groups res) None in
  exists b i j e q t1 t t2, group0 (groups res) = Some (b, e)
    /\ takes_all cf s pre b i t1
    /\ allowed lo hi q /\ takes_all cf s (repeat x q) i j t
    /\ takes_all cf s post j e t2
    /\ (tries_more cf md = false \/ hi = Fin (N.of_nat q) -> 0 < q ->
        exists p, v = Some p /\ last_iteration cf s x q i j p)
    /\ (tries_more cf md = true -> hi <> Fin (N.of_nat q) -> cell_is_empty v = true).
Proof.
  intros Hcall E Hm Hin Hid Ha cf v.
  destruct (repeated_group r ct s call res md lo hi id nm x pre post Hcall E Hm Hin Hid Ha)
    as (b & e & i & j & q & t1 & t2 & H1 & H2 & H3 & ((t & H4) & H5) & H6).
  exists b, i, j, e, q, t1, t, t2. repeat (split; [assumption|]). fold cf in H5.
  change (cell_of (groups res) id) with v in H5.
  assert (Hq : (match hi with Fin h => N.eqb h (N.of_nat q) | Inf => false end) = true
            <-> hi = Fin (N.of_nat q)).
  { destruct hi as [h|]; [|split; discriminate]. rewrite N.eqb_eq. split; [now intros ->|congruence]. }
  destruct (match hi with Fin h => N.eqb h (N.of_nat q) | Inf => false end).
  - rewrite andb_false_r in H5. split; auto. intros _ Hn. now destruct Hn; apply Hq.
  - rewrite andb_true_r in H5. split.
    + intros [Ht|Ht]; [now rewrite Ht in H5|]. apply Hq in Ht. discriminate.
    + intros Ht _. now rewrite Ht in H5.
Qed.

Theorem unbounded_loop_empties r ct s call res md lo id nm x pre post :
  call = regex_match \/ call = regex_match_prefix \/ call = regex_search ->
  call r ct s = Returned res -> matched res = true ->
  loop_in (ast r) pre (Rep md lo Inf (Cap id nm x)) post ->
  id <> 0%N -> (forall y z, In y post -> ~ group_in y id z) ->
  tries_more (config_of (flags r) ct) md = true ->
  cell_is_empty (nth (N.to_nat id) (groups res) None) = true.
Proof.
  intros Hcall E Hm Hin Hid Ha Ht.
  destruct (repeated_group_holds r ct s call res md lo Inf id nm x pre post Hcall E Hm Hin Hid Ha)
    as (b & i & j & e & q & t1 & t & t2 & _ & _ & _ & _ & _ & _ & H). apply H; [exact Ht|discriminate].
Qed.
