(** How many steps a call makes. *)
From Verif Require Import Costs Basics.

(** When the continuation makes at most [N] steps, the matcher makes at most
    [T + F * N]. *)
Definition takes (T F : nat) (mx : cmatcher) : Prop :=
  forall N cur c k, (forall j c, steps (k j c) <= N) -> steps (mx cur c k) <= T + F * N.

Lemma takes_mono T T' F F' mx : takes T F mx -> T <= T' -> F <= F' -> takes T' F' mx.
Proof.
  intros H HT HF N cur c k Hk. specialize (H N cur c k Hk).
  assert (F * N <= F' * N) by (apply Nat.mul_le_mono_r; lia). lia.
Qed.

Lemma takes_run T F mx cur c : takes T F mx -> steps (mx cur c c_success) <= T.
Proof. intros H. specialize (H 0 cur c c_success (fun _ _ => le_n 0)). lia. Qed.

Lemma steps_or_else o f N M : steps o <= N -> (forall c, steps (f c) <= M) ->
  steps (c_or_else o f) <= N + M.
Proof.
  intros H Hf. unfold c_or_else. destruct (out o) as [c e []| | |]; try lia.
  cbn. specialize (Hf c). lia.
Qed.

Lemma steps_on_result o f g N M : steps o <= N -> (forall e c, steps (f e c) <= M) ->
  (forall c, steps (g c) <= M) -> steps (c_on_result o f g) <= N + M.
Proof.
  intros H Hf Hg. unfold c_on_result. destruct (out o) as [c e []| | |]; try lia; cbn.
  - specialize (Hf e c). lia.
  - specialize (Hg c). lia.
Qed.

Lemma steps_deref s i f N : (forall a, steps (f a) <= N) -> steps (c_deref s i f) <= N.
Proof. intros H. unfold c_deref. destruct (nth_error s i); [apply H|cbn; lia]. Qed.

Lemma takes_trivial s p : takes 0 1 (c_match_trivial s p).
Proof.
  intros N cur c k Hk. unfold c_match_trivial. destruct (Nat.eqb _ _); [cbn; lia|].
  apply steps_deref. intros a. destruct (p a); [specialize (Hk (S cur) c); lia|cbn; lia].
Qed.

Lemma tests_at_le s ps : forall cur, tests_at s ps cur <= length ps.
Proof.
  induction ps as [|p r IH]; intros cur; cbn [tests_at length]; [lia|].
  destruct (nth_error s cur) as [a|]; [|lia]. specialize (IH (S cur)). destruct (p a); lia.
Qed.

Lemma distance_rounds_le cf n len cur : distance_rounds cf n len cur <= N.to_nat n.
Proof. unfold distance_rounds. destruct (is_random cf); lia. Qed.

Lemma distance_rounds_left cf n len cur : distance_rounds cf n len cur <= len - cur.
Proof. unfold distance_rounds. destruct (is_random cf); lia. Qed.

Lemma takes_block_random s ps : takes (length ps) 1 (c_trivial_block_random s ps).
Proof.
  intros N cur c k Hk. unfold c_trivial_block_random. cbn [paid steps].
  pose proof (tests_at_le s ps cur).
  destruct (all_at s ps cur) as [[]|]; try (cbn; lia). specialize (Hk (cur + length ps) c). lia.
Qed.

Lemma takes_block_forward s ps : takes (length ps) 1 (c_sequence_block_forward s ps).
Proof.
  intros N. induction ps as [|p r IH]; intros cur c k Hk; [cbn; lia|].
  cbn [c_sequence_block_forward].
  destruct r; cbn [round steps length]; rewrite Nat.add_succ_l; apply le_n_S, steps_deref; intros a;
    (destruct (p a); [|cbn; lia]).
  - specialize (Hk (S cur) c). lia.
  - now apply IH.
Qed.

Lemma takes_repetition_random s p : forall todo offset,
  takes todo 1 (c_repetition_loop_random s p todo offset).
Proof.
  induction todo as [|t IH]; intros offset N cur c k Hk; cbn [c_repetition_loop_random].
  - specialize (Hk (cur + offset) c). lia.
  - cbn [round steps].
    assert (steps (c_deref s (cur + offset) (fun a =>
        if negb (p a) then c_non_match cur c
        else c_repetition_loop_random s p t (S offset) cur c k)) <= t + 1 * N); [|lia].
    apply steps_deref. intros a. destruct (p a); cbn [negb]; [now apply IH|cbn; lia].
Qed.

Lemma takes_repetition_forward s p : forall n, takes n 1 (c_repetition_block_forward s p n).
Proof.
  induction n as [|n IH]; intros N cur c k Hk; cbn [c_repetition_block_forward].
  - specialize (Hk cur c). lia.
  - cbn [round steps].
    assert (steps (c_deref s cur (fun a =>
        if p a then c_repetition_block_forward s p n (S cur) c k
        else c_non_match (S cur) c)) <= n + 1 * N); [|lia].
    apply steps_deref. intros a. destruct (p a); [now apply IH|cbn; lia].
Qed.

Lemma steps_possessive_trivial s p N k : forall fuel b cur c,
  (forall j c, j <= cur + fuel -> steps (k j c) <= N) ->
  steps (c_possessive_trivial fuel s p b cur c k) <= fuel + N.
Proof.
  induction fuel as [|f IH]; intros b cur c Hk; cbn [c_possessive_trivial]; [cbn; lia|].
  assert (Hc : steps (k cur c) <= S f + N) by (specialize (Hk cur c); lia).
  destruct (bound_is_zero b); [exact Hc|]. destruct (Nat.eqb _ _); [exact Hc|].
  apply steps_deref. intros a. destruct (p a); [|exact Hc]. cbn [round steps].
  assert (steps (c_possessive_trivial f s p (bound_decrement b) (S cur) c k) <= f + N); [|lia].
  apply IH. intros j c' J. apply Hk. lia.
Qed.

Lemma takes_possessive_trivial s p fuel b : takes fuel 1 (c_possessive_trivial fuel s p b).
Proof.
  intros N cur c k Hk. rewrite Nat.mul_1_l. now apply steps_possessive_trivial.
Qed.

Lemma steps_step_back N k initial : (forall j c, steps (k j c) <= N) ->
  forall d c, steps (c_step_back initial d c k) <= S d * S N.
Proof.
  intros Hk. induction d as [|d IH]; intros c; cbn [c_step_back].
  - replace (1 * S N) with (S N + 0) by lia. apply steps_or_else; [|cbn; lia].
    cbn. specialize (Hk (initial + 0) c). lia.
  - replace (S (S d) * S N) with (S N + S d * S N) by lia. apply steps_or_else; [|apply IH].
    cbn. specialize (Hk (initial + S d) c). lia.
Qed.

Lemma takes_greedy_trivial s p fuel b : takes (2 * fuel + 1) (fuel + 1)
  (fun cur c k => c_possessive_trivial fuel s p b cur c
     (fun next c' => c_step_back cur (next - cur) c' k)).
Proof.
  intros N cur c k Hk.
  assert (steps (c_possessive_trivial fuel s p b cur c
     (fun next c' => c_step_back cur (next - cur) c' k)) <= fuel + S fuel * S N); [|lia].
  apply steps_possessive_trivial. intros j c' J.
  pose proof (steps_step_back N k cur Hk (j - cur) c').
  assert (S (j - cur) * S N <= S fuel * S N) by (apply Nat.mul_le_mono_r; lia). lia.
Qed.

Lemma takes_lazy_trivial s p : forall fuel b, takes fuel fuel (c_lazy_trivial fuel s p b).
Proof.
  induction fuel as [|f IH]; intros b N cur c k Hk; cbn [c_lazy_trivial]; [cbn; lia|].
  replace (S f + S f * N) with (S N + (f + f * N)) by lia.
  apply steps_or_else; [cbn; specialize (Hk cur c); lia|]. intros c'.
  destruct (bound_is_zero b); [cbn; lia|]. destruct (Nat.eqb _ _); [cbn; lia|].
  apply steps_deref. intros a. destruct (p a); [now apply IH|cbn; lia].
Qed.

Lemma pow_pos F n : 1 <= F -> 1 <= F ^ n.
Proof. intros H. pose proof (Nat.pow_nonzero F n). lia. Qed.

Lemma takes_continue w cur N k : (forall j c, steps (k j c) <= N) ->
  forall j c, steps (c_continue_unless_infinite_loop w cur k j c) <= N.
Proof.
  intros H j c. unfold c_continue_unless_infinite_loop.
  destruct (_ && _)%bool; [cbn; lia|apply H].
Qed.

Section Loops.
  Variables (T F : nat) (mx : cmatcher).
  Hypothesis Hmx : takes T F mx.
  Hypothesis HF : 1 <= F.

  (** [n] rounds after each other. *)
  Definition rounds (n : nat) : nat := n * (T + 2) * F ^ (n - 1).

  Lemma rounds_succ n : T + 2 + F * rounds n <= rounds (S n).
  Proof.
    unfold rounds. destruct n as [|m].
    - cbn. nia.
    - replace (S m - 1) with m by lia. replace (S (S m) - 1) with (S m) by lia.
      rewrite Nat.pow_succ_r'. pose proof (pow_pos F m HF).
      assert (T + 1 <= (T + 1) * (F * F ^ m)).
      { rewrite <- (Nat.mul_1_r (T + 1)) at 1. apply Nat.mul_le_mono_l. nia. }
      nia.
  Qed.

  Lemma rounds_le n N : S (T + F * (rounds n + F ^ n * N)) <= rounds (S n) + F ^ S n * N.
  Proof. pose proof (rounds_succ n). rewrite Nat.pow_succ_r'. nia. Qed.

  Lemma rounds_1 N : S (T + F * N) <= rounds 1 + F ^ 1 * N.
  Proof. unfold rounds. cbn. nia. Qed.

  Lemma takes_unrolled : forall n, takes (rounds n) (F ^ n) (c_unrolled_backtracking mx n).
  Proof.
    induction n as [|n IH]; intros N cur c k Hk; cbn [c_unrolled_backtracking].
    - cbn. specialize (Hk cur c). lia.
    - destruct n as [|n'].
      + specialize (Hmx N cur c k Hk). pose proof (rounds_1 N). lia.
      + set (n := S n') in *. cbn [called steps].
        eapply Nat.le_trans; [|apply (rounds_le n N)].
        apply le_n_S, Hmx. intros j c'. now apply IH.
  Qed.

  Lemma takes_non_unrolled : forall n, takes (rounds n) (F ^ n) (c_non_unrolled_backtracking mx n).
  Proof.
    induction n as [|n IH]; intros N cur c k Hk; cbn [c_non_unrolled_backtracking]; [cbn; lia|].
    cbn [called steps]. destruct (Nat.eqb_spec (S n) 1).
    - assert (n = 0) by lia. subst n. specialize (Hmx N cur c k Hk).
      pose proof (rounds_1 N). lia.
    - eapply Nat.le_trans; [|apply (rounds_le n N)].
      apply le_n_S, Hmx. intros j c'. now apply IH.
  Qed.

  (** Rounds with a way out of each. *)
  Lemma exits_le n N :
    S (T + F * (rounds n + F ^ n + S n * F ^ n * N) + N)
      <= rounds (S n) + F ^ S n + S (S n) * F ^ S n * N.
  Proof.
    pose proof (rounds_succ n). rewrite Nat.pow_succ_r'. pose proof (pow_pos F n HF).
    assert (N <= N * (F * F ^ n)).
    { rewrite <- (Nat.mul_1_r N) at 1. apply Nat.mul_le_mono_l. nia. }
    nia.
  Qed.

  Lemma takes_greedy_fin w : forall fuel n,
    takes (rounds (N.to_nat n) + F ^ N.to_nat n) (S (N.to_nat n) * F ^ N.to_nat n)
      (c_greedy_generic fuel mx w (Fin n)).
  Proof.
    induction fuel as [|f IH]; intros n N cur c k Hk; cbn [c_greedy_generic]; [cbn; lia|].
    cbn [called steps bound_is_zero bound_decrement]. pose proof (Hk cur c) as Hc.
    destruct (N.eqb_spec n 0) as [->|Hn]; [cbn; lia|].
    replace (N.to_nat n) with (S (N.to_nat (n - 1))) by lia.
    eapply Nat.le_trans; [|apply exits_le]. apply le_n_S.
    apply steps_or_else; [|intros; apply Hk].
    apply Hmx. apply takes_continue. intros j c'. now apply IH.
  Qed.

  Lemma takes_lazy_fin w : forall fuel n,
    takes (rounds (N.to_nat n) + F ^ N.to_nat n) (S (N.to_nat n) * F ^ N.to_nat n)
      (c_lazy_generic fuel mx w (Fin n)).
  Proof.
    induction fuel as [|f IH]; intros n N cur c k Hk; cbn [c_lazy_generic]; [cbn; lia|].
    cbn [called steps bound_is_zero bound_decrement]. pose proof (Hk cur c) as Hc.
    destruct (N.eqb_spec n 0) as [->|Hn].
    - assert (steps (c_or_else (k cur c) (fun c' => c_non_match cur c')) <= N + 0); [|cbn; lia].
      apply steps_or_else; [apply Hk|]. cbn. lia.
    - replace (N.to_nat n) with (S (N.to_nat (n - 1))) by lia.
      eapply Nat.le_trans; [|apply exits_le]. apply le_n_S. rewrite Nat.add_comm.
      apply steps_or_else; [apply Hk|]. intros c0.
      apply Hmx. apply takes_continue. intros j c'. now apply IH.
  Qed.

  Lemma takes_possessive_generic w : forall fuel b,
    takes (fuel * (T + 1)) 1 (c_possessive_generic fuel mx w b).
  Proof.
    induction fuel as [|f IH]; intros b N cur c k Hk; cbn [c_possessive_generic]; [cbn; lia|].
    pose proof (fun c => Hk cur c) as Hc.
    destruct (bound_is_zero b); [specialize (Hc c); lia|].
    replace (S f * (T + 1) + 1 * N) with (S T + (f * (T + 1) + 1 * N)) by lia.
    apply steps_on_result.
    - cbn [round steps]. apply le_n_S. now apply takes_run with F.
    - intros e c'. destruct (_ && _)%bool; [specialize (Hc c'); lia|]. now apply IH.
    - intros c'. specialize (Hc c'). lia.
  Qed.
End Loops.

(** Loops without a bound over a node that goes on at most once. *)
Lemma takes_greedy_inf T mx w : takes T 1 mx -> forall fuel b,
  takes (fuel * (T + 1)) fuel (c_greedy_generic fuel mx w b).
Proof.
  intros Hmx. induction fuel as [|f IH]; intros b N cur c k Hk; cbn [c_greedy_generic]; [cbn; lia|].
  cbn [called steps]. pose proof (Hk cur c) as Hc.
  destruct (bound_is_zero b); [nia|].
  replace (S f * (T + 1) + S f * N) with (S (T + 1 * (f * (T + 1) + f * N) + N)) by lia.
  apply le_n_S. apply steps_or_else; [|intros; apply Hk].
  apply Hmx. apply takes_continue. intros j c'. now apply IH.
Qed.

Lemma takes_lazy_inf T mx w : takes T 1 mx -> forall fuel b,
  takes (fuel * (T + 1)) fuel (c_lazy_generic fuel mx w b).
Proof.
  intros Hmx. induction fuel as [|f IH]; intros b N cur c k Hk; cbn [c_lazy_generic]; [cbn; lia|].
  cbn [called steps].
  replace (S f * (T + 1) + S f * N) with (S (N + (T + 1 * (f * (T + 1) + f * N)))) by lia.
  apply le_n_S. apply steps_or_else; [apply Hk|]. intros c0.
  destruct (bound_is_zero b); [cbn; lia|].
  apply Hmx. apply takes_continue. intros j c'. now apply IH.
Qed.

Lemma takes_backref_loop cf s t : takes (length t) 1 (c_backref_loop cf s t).
Proof.
  induction t as [|a r IH]; intros N cur c k Hk; cbn [c_backref_loop length].
  - specialize (Hk cur c). lia.
  - cbn [round steps].
    assert (steps (c_deref s cur (fun a' =>
        if backref_char_eq cf a a' then c_backref_loop cf s r (S cur) c k
        else c_non_match cur c)) <= length r + 1 * N); [|lia].
    apply steps_deref. intros a'. destruct (backref_char_eq _ _ _); [now apply IH|cbn; lia].
Qed.

(** One after the other. *)
Lemma takes_called T F mx : takes T F mx -> takes (S T) F (fun cur c k => called (mx cur c k)).
Proof. intros H N cur c k Hk. specialize (H N cur c k Hk). cbn. lia. Qed.

Lemma takes_then T1 F1 mx T2 F2 my : takes T1 F1 mx -> takes T2 F2 my ->
  takes (T1 + F1 * T2) (F1 * F2) (fun cur c k => mx cur c (fun j c' => my j c' k)).
Proof.
  intros H1 H2 N cur c k Hk.
  assert (steps (mx cur c (fun j c' => my j c' k)) <= T1 + F1 * (T2 + F2 * N)); [|nia].
  apply H1. intros j c'. now apply H2.
Qed.

(** A verdict, then at most one continuation. *)
Lemma takes_verdict T F mx cur c f g N : takes T F mx ->
  (forall e c, steps (f e c) <= N) -> (forall c, steps (g c) <= N) ->
  steps (c_on_result (mx cur c c_success) f g) <= T + N.
Proof. intros H Hf Hg. apply steps_on_result; auto. now apply takes_run with F. Qed.

(** The node goes on at most once: it has no alternatives left to try. *)
Fixpoint once (n : node) : bool :=
  match n with
  | Cap _ _ x => once x
  | Seq l => forallb once l
  | Alt l => forallb trivial l || match l with [x] => once x | _ => false end
  | Rep mode lo hi x =>
      match mode, hi with
      | Possessive, _ => true
      | _, Fin h => N.eqb lo h && once x
      | _, Inf => false
      end
  | _ => true
  end.

(** Every unbounded repetition is possessive or repeats a node that goes on at
    most once. *)
Fixpoint tame (n : node) : bool :=
  match n with
  | Neg x | Cap _ _ x | Look _ x => tame x
  | Seq l | Alt l => forallb tame l
  | Rep mode lo hi x =>
      tame x && match hi, mode with
                | Inf, Greedy | Inf, Lazy => once x
                | _, _ => true
                end
  | _ => true
  end.

(** The number of unbounded repetitions and backreferences on a way through the
    tree, each counted as often as finite repetitions repeat it. *)
Fixpoint degree (n : node) : nat :=
  match n with
  | Backref _ | NBackref _ => 1
  | Neg x | Cap _ _ x | Look _ x => degree x
  | Seq l => list_sum (map degree l)
  | Alt l => list_max (map degree l)
  | Rep _ lo (Fin h) x => N.to_nat (N.max lo h) * degree x
  | Rep _ lo Inf x => 1 + N.to_nat (N.max 1 lo) * degree x
  | _ => 0
  end.

Lemma once_trivial n : trivial n = true -> once n = true.
Proof.
  induction n using node_ind'; cbn [trivial once]; auto; try discriminate.
  - destruct l as [|x [|]]; try discriminate. intros T. inversion H; subst. cbn.
    rewrite H2 by assumption. reflexivity.
  - destruct l as [|x r]; [discriminate|]. intros T. cbn [forallb]. now rewrite T.
  - intros T. destruct lo as [|[]]; try discriminate; destruct hi as [[|[]]|]; try discriminate.
    rewrite IHn by assumption. now destruct md.
Qed.

Lemma once_invert n : once (invert n) = once n.
Proof.
  induction n using node_ind'; try reflexivity; try (cbn; assumption).
  - rewrite invert_Seq. cbn [once]. rewrite forallb_rev, forallb_map.
    now apply forallb_ext_Forall.
  - cbn [invert once]. rewrite forallb_map. f_equal.
    + apply forallb_ext_Forall. apply Forall_forall. intros x _. apply trivial_invert.
    + destruct l as [|x [|]]; auto. cbn. now inversion H.
  - cbn [invert once]. rewrite IHn. reflexivity.
Qed.

Lemma tame_invert n : tame (invert n) = tame n.
Proof.
  induction n using node_ind'; try reflexivity; try (cbn; assumption).
  - rewrite invert_Seq. cbn [tame]. rewrite forallb_rev, forallb_map.
    now apply forallb_ext_Forall.
  - cbn [invert tame]. rewrite forallb_map. now apply forallb_ext_Forall.
  - cbn [invert tame]. rewrite IHn, once_invert. reflexivity.
Qed.

Lemma list_sum_rev l : list_sum (rev l) = list_sum l.
Proof.
  induction l as [|a l IH]; [reflexivity|]. cbn [rev]. rewrite list_sum_app, IH.
  change (list_sum (a :: l)) with (a + list_sum l). change (list_sum [a]) with (a + 0). lia.
Qed.

Lemma degree_invert n : degree (invert n) = degree n.
Proof.
  induction n using node_ind'; try reflexivity; try (cbn; assumption).
  - rewrite invert_Seq. cbn [degree]. rewrite map_rev, list_sum_rev, map_map. f_equal.
    apply map_ext_Forall. assumption.
  - cbn [invert degree]. rewrite map_map. f_equal. apply map_ext_Forall. assumption.
  - cbn [invert degree]. now rewrite IHn.
Qed.

(** Repetitions. *)
Section Repetition.
  Variables (cf : config) (s : list ascii) (x : node) (mx : cmatcher) (T F : nat).
  Hypothesis Hmx : takes T F mx.
  Hypothesis HF : 1 <= F.
  Hypothesis Ht : trivial x = true -> F = 1.

  Definition fixed_steps (n : nat) : nat := S (rounds T F n).
  Definition fixed_exits (mode : match_mode) (n : nat) : nat :=
    match mode with Possessive => 1 | _ => F ^ n end.

  Lemma rounds_ge n : 2 * n <= rounds T F n.
  Proof using HF.
    clear Hmx Ht. unfold rounds. pose proof (pow_pos F (n - 1) HF).
    assert (n * 2 <= n * ((T + 2) * F ^ (n - 1))) by (apply Nat.mul_le_mono_l; nia). lia.
  Qed.

  Lemma takes_fixed_backtracking n : takes (rounds T F (N.to_nat n)) (F ^ N.to_nat n)
    (c_fixed_backtracking cf s x mx n).
  Proof.
    intros N cur c k Hk. unfold c_fixed_backtracking.
    pose proof (rounds_ge (N.to_nat n)). pose proof (pow_pos F (N.to_nat n) HF).
    assert (W : forall g, takes (N.to_nat n) 1 g ->
      distance_rounds cf n (length s) cur + steps (g cur c k)
        <= rounds T F (N.to_nat n) + F ^ N.to_nat n * N).
    { intros g Hg. pose proof (distance_rounds_le cf n (length s) cur).
      pose proof (Hg N cur c k Hk). nia. }
    destruct (trivial x).
    - cbn [paid steps].
      destruct (distance_less_than _ _ _ _).
      { pose proof (distance_rounds_le cf n (length s) cur). cbn. lia. }
      destruct (is_random cf) eqn:Rn; [destruct (unroll cf)|].
      + apply W. eapply takes_mono; [apply takes_block_random|rewrite repeat_length; lia|lia].
      + apply (W (c_repetition_loop_random s (match_one cf x) (N.to_nat n) 0)).
        apply takes_repetition_random.
      + apply (W (c_repetition_block_forward s (match_one cf x) (N.to_nat n))).
        apply takes_repetition_forward.
    - destruct (unroll cf); [now apply takes_unrolled|now apply takes_non_unrolled].
  Qed.

  Lemma takes_fixed mode n : takes (fixed_steps (N.to_nat n)) (fixed_exits mode (N.to_nat n))
    (c_fixed_match cf s mode n x mx).
  Proof.
    intros N cur c k Hk. unfold c_fixed_match, fixed_steps.
    assert (Hc : forall j c, steps (k j c) <= fixed_exits mode (N.to_nat n) * N).
    { intros j c'. specialize (Hk j c'). unfold fixed_exits.
      pose proof (pow_pos F (N.to_nat n) HF). destruct mode; nia. }
    destruct (N.eqb_spec n 0) as [->|H0].
    { cbn [called steps]. specialize (Hc cur c). lia. }
    destruct (N.eqb_spec n 1) as [->|H1].
    - assert (steps (mx cur c k) <= S (rounds T F (N.to_nat 1)) + F ^ N.to_nat 1 * N).
      { pose proof (Hmx N cur c k Hk). pose proof (rounds_1 T F HF N). change (N.to_nat 1) with 1. lia. }
      destruct mode; auto. destruct (trivial x).
      + pose proof (Hmx N cur c k Hk) as HH. rewrite (Ht eq_refl) in HH.
        cbn [fixed_exits]. change (N.to_nat 1) with 1.
        assert (rounds T F 1 = T + 2) by (unfold rounds; cbn; lia). lia.
      + cbn [called steps]. cbn [fixed_exits] in *.
        assert (steps (c_on_result (mx cur c c_success) (fun e c' => k e c')
                 (fun c' => c_non_match cur c')) <= T + 1 * N).
        { eapply takes_verdict; eauto. cbn. lia. }
        change (N.to_nat 1) with 1.
        assert (rounds T F 1 = T + 2) by (unfold rounds; cbn; lia). lia.
    - cbn [called steps]. apply le_n_S. destruct mode; try now apply takes_fixed_backtracking.
      cbn [fixed_exits] in *. eapply takes_verdict; eauto; [|cbn; lia].
      apply takes_fixed_backtracking.
  Qed.

  (** Between the bounds, for a text shorter than [X]. *)
  Variable X : nat.
  Hypothesis HX : length s < X.

  Definition between_steps (mode : match_mode) (b : quantifier) : nat :=
    match mode, b with
    | Possessive, Fin d => S (N.to_nat d) * (T + 1)
    | Possessive, Inf => X * (T + 1)
    | _, Fin d => rounds T F (N.to_nat d) + F ^ N.to_nat d + (2 * N.to_nat d + 3)
    | _, Inf => (2 * X + 1) * (T + 1)
    end.
  Definition between_exits (mode : match_mode) (b : quantifier) : nat :=
    match mode, b with
    | Possessive, _ => 1
    | _, Fin d => (N.to_nat d + 2) * F ^ N.to_nat d
    | _, Inf => X + 1
    end.

  Lemma takes_between mode b w : (mode <> Possessive -> b = Inf -> F = 1) ->
    takes (between_steps mode b) (between_exits mode b) (c_between_bounds cf s mode b w x mx).
  Proof.
    intros H1 N cur c k Hk. unfold c_between_bounds.
    assert (W : forall T1 F1 (g : cmatcher), takes T1 F1 g -> T1 <= between_steps mode b ->
      F1 <= between_exits mode b ->
      steps (g cur c k) <= between_steps mode b + between_exits mode b * N).
    { intros T1 F1 g Hg L1 L2. now apply (takes_mono _ _ _ _ _ Hg L1 L2). }
    set (fuel := loop_fuel b (length s) cur) in *.
    assert (Hfuel : match b with Fin d => fuel = S (N.to_nat d) | Inf => fuel <= X end).
    { unfold fuel, loop_fuel. destruct b; lia. }
    destruct mode.
    3: { unfold between_exits, between_steps in *. destruct (trivial x).
         - apply (W fuel 1 (c_possessive_trivial fuel s (match_one cf x) b));
             [apply takes_possessive_trivial| |destruct b; lia].
           destruct b; nia.
         - apply (W (fuel * (T + 1)) 1 (c_possessive_generic fuel mx w b));
             [now apply takes_possessive_generic with F| |destruct b; lia].
           destruct b; [rewrite Hfuel; lia|]. apply Nat.mul_le_mono_r. lia. }
    all: specialize (H1 ltac:(discriminate)); cbn [between_exits between_steps] in W |- *.
    all: assert (B1 : forall d, b = Fin d -> 1 <= F ^ N.to_nat d)
        by (intros d _; now apply pow_pos).
    all: assert (G : steps (c_greedy_generic fuel mx w b cur c k) <=
        between_steps Greedy b + between_exits Greedy b * N) by
      (destruct b as [d|]; cbn [between_exits between_steps];
       [ apply (W (rounds T F (N.to_nat d) + F ^ N.to_nat d) (S (N.to_nat d) * F ^ N.to_nat d)
           (c_greedy_generic fuel mx w (Fin d))); [now apply takes_greedy_fin|lia|nia]
       | assert (Hmx1 : takes T 1 mx) by (rewrite <- (H1 eq_refl); exact Hmx);
         apply (W (fuel * (T + 1)) fuel (c_greedy_generic fuel mx w Inf));
           [now apply takes_greedy_inf| |lia]; apply Nat.mul_le_mono_r; lia ]).
    all: assert (Lz : steps (c_lazy_generic fuel mx w b cur c k) <=
        between_steps Greedy b + between_exits Greedy b * N) by
      (destruct b as [d|]; cbn [between_exits between_steps];
       [ apply (W (rounds T F (N.to_nat d) + F ^ N.to_nat d) (S (N.to_nat d) * F ^ N.to_nat d)
           (c_lazy_generic fuel mx w (Fin d))); [now apply takes_lazy_fin|lia|nia]
       | assert (Hmx1 : takes T 1 mx) by (rewrite <- (H1 eq_refl); exact Hmx);
         apply (W (fuel * (T + 1)) fuel (c_lazy_generic fuel mx w Inf));
           [now apply takes_lazy_inf| |lia]; apply Nat.mul_le_mono_r; lia ]).
    all: assert (Gt : steps (c_possessive_trivial fuel s (match_one cf x) b cur c
              (fun next c' => c_step_back cur (next - cur) c' k)) <=
        between_steps Greedy b + between_exits Greedy b * N) by
      (apply (W (2 * fuel + 1) (fuel + 1) (fun cur c k => c_possessive_trivial fuel s (match_one cf x) b cur c
              (fun next c' => c_step_back cur (next - cur) c' k))); [apply takes_greedy_trivial| |];
        destruct b as [d|]; try specialize (B1 d eq_refl); nia).
    all: assert (Lt : steps (c_lazy_trivial fuel s (match_one cf x) b cur c k) <=
        between_steps Greedy b + between_exits Greedy b * N) by
      (apply (W fuel fuel (c_lazy_trivial fuel s (match_one cf x) b)); [apply takes_lazy_trivial| |];
        destruct b as [d|]; try specialize (B1 d eq_refl); nia).
    all: cbn [between_exits between_steps] in G, Lz, Gt, Lt.
    all: destruct (xorb _ _); [destruct (_ && _)%bool|destruct (trivial x)]; assumption.
  Qed.

  Lemma exits_pos mode n : 1 <= fixed_exits mode n.
  Proof. unfold fixed_exits. destruct mode; auto; now apply pow_pos. Qed.

  Definition is_fixed (lo : N) (hi : quantifier) : bool :=
    match hi with Fin h => N.eqb lo h | Inf => false end.

  Definition rep_steps (mode : match_mode) (lo : N) (hi : quantifier) : nat :=
    if is_fixed lo hi then fixed_steps (N.to_nat lo)
    else S (fixed_steps (N.to_nat lo)
            + fixed_exits mode (N.to_nat lo) * between_steps mode (bound_subtract hi lo)).
  Definition rep_exits (mode : match_mode) (lo : N) (hi : quantifier) : nat :=
    if is_fixed lo hi then fixed_exits mode (N.to_nat lo)
    else fixed_exits mode (N.to_nat lo) * between_exits mode (bound_subtract hi lo).

  Lemma takes_rep mode lo hi : (mode <> Possessive -> hi = Inf -> F = 1) ->
    takes (rep_steps mode lo hi) (rep_exits mode lo hi) (c_rep_match cf s mode lo hi x mx).
  Proof.
    intros H N cur c k Hk. unfold c_rep_match, rep_steps, rep_exits, is_fixed.
    assert (HB : takes (between_steps mode (bound_subtract hi lo))
      (between_exits mode (bound_subtract hi lo))
      (c_between_bounds cf s mode (bound_subtract hi lo) (is_infinity hi && zlm x) x mx)).
    { apply takes_between. intros M E. apply H; auto. destruct hi; [discriminate|reflexivity]. }
    destruct (match hi with Fin h => N.eqb lo h | Inf => false end); [now apply takes_fixed|].
    cbn [called steps]. pose proof (exits_pos mode (N.to_nat lo)).
    destruct (is_zero lo).
    - specialize (HB N cur c k Hk). nia.
    - apply le_n_S. exact (takes_then _ _ _ _ _ _ (takes_fixed mode lo) HB N cur c k Hk).
  Qed.
End Repetition.

(** At most [C * X ^ d]. *)
Definition upto (X C d v : nat) : Prop := v <= C * X ^ d.

Section Upto.
  Variable X : nat.
  Hypothesis HX : 1 <= X.

  Lemma upto_mono C d C' d' v : upto X C d v -> C <= C' -> d <= d' -> upto X C' d' v.
  Proof using All.
    unfold upto. intros H H1 H2.
    assert (X ^ d <= X ^ d') by (apply Nat.pow_le_mono_r; lia). nia.
  Qed.
  Lemma upto_const C d v : v <= C -> upto X C d v.
  Proof using All. intros H. apply (upto_mono C 0); [unfold upto; cbn; lia|lia|lia]. Qed.
  Lemma upto_add C d v C' v' : upto X C d v -> upto X C' d v' -> upto X (C + C') d (v + v').
  Proof using All. unfold upto. nia. Qed.
  Lemma upto_mul C d v C' d' v' : upto X C d v -> upto X C' d' v' ->
    upto X (C * C') (d + d') (v * v').
  Proof using All.
    unfold upto. intros H H'. rewrite Nat.pow_add_r.
    apply Nat.le_trans with ((C * X ^ d) * (C' * X ^ d')); [now apply Nat.mul_le_mono|nia].
  Qed.
  Lemma upto_pow C d v n : upto X C d v -> upto X (C ^ n) (n * d) (v ^ n).
  Proof using All.
    intros H. induction n as [|n IH]; [unfold upto; cbn; lia|].
    rewrite !Nat.pow_succ_r'. cbn [Nat.mul]. now apply upto_mul.
  Qed.
  Lemma upto_scale C d v n : upto X C d v -> upto X (n * C) d (n * v).
  Proof using All. unfold upto. nia. Qed.
  Lemma upto_text : upto X 1 1 X.
  Proof using All. unfold upto. cbn. lia. Qed.
End Upto.

(** A repetition of a node with polynomial effort has polynomial effort. *)
Lemma upto_rounds X A q T F n : 1 <= X -> upto X A q T -> upto X A q F ->
  upto X (n * (A + 2) * A ^ (n - 1)) (n * q) (rounds T F n).
Proof.
  intros HX HT HF. unfold rounds. destruct n as [|n]; [unfold upto; cbn; lia|].
  replace (S n - 1) with n by lia. cbn [Nat.mul].
  replace (S n * q) with (q + n * q) by lia.
  apply upto_mul; auto; [|now apply upto_pow].
  apply (upto_scale X HX (A + 2) q (T + 2) (S n)). apply upto_add; auto. now apply upto_const.
Qed.

Lemma rep_upto A q mode lo hi :
  let d := match hi with
           | Fin h => N.to_nat (N.max lo h) * q
           | Inf => 1 + N.to_nat (N.max 1 lo) * q
           end in
  exists C, forall X T F, 1 <= X -> upto X A q T -> upto X A q F ->
    (mode <> Possessive -> hi = Inf -> F = 1) ->
    upto X C d (rep_steps T F X mode lo hi) /\ upto X C d (rep_exits F X mode lo hi).
Proof.
  intros d. set (n := N.to_nat lo).
  set (Cf := 1 + n * (A + 2) * A ^ (n - 1)).
  (* the fixed part *)
  assert (HFx : forall X T F, 1 <= X -> upto X A q T -> upto X A q F ->
    upto X Cf (n * q) (fixed_steps T F n) /\ upto X (1 + A ^ n) (n * q) (fixed_exits F mode n)).
  { intros X T F HX HT HF. split.
    - apply (upto_add X HX 1 (n * q) 1 _ _); auto; [now apply upto_const|now apply upto_rounds].
    - unfold fixed_exits. pose proof (upto_pow X HX A q F n HF) as P.
      destruct mode; try (apply (upto_mono X HX _ _ _ _ _ P); lia).
      apply upto_const; auto; lia. }
  unfold rep_steps, rep_exits. destruct (is_fixed lo hi) eqn:Fx.
  { exists (Cf + (1 + A ^ n)). intros X T F HX HT HF _. destruct (HFx X T F HX HT HF) as [H1 H2].
    destruct hi as [h|]; [|discriminate]. apply N.eqb_eq in Fx. subst h.
    assert (d = n * q) by (unfold d, n; now rewrite N.max_id). rewrite H.
    split; [apply (upto_mono X HX _ _ _ _ _ H1)|apply (upto_mono X HX _ _ _ _ _ H2)]; lia. }
  (* the composition *)
  assert (Comp : forall CT CE df db de,
    (forall X T F, 1 <= X -> upto X A q T -> upto X A q F ->
      (mode <> Possessive -> hi = Inf -> F = 1) ->
      upto X (1 + A ^ n) df (fixed_exits F mode n)
      /\ upto X CT db (between_steps T F X mode (bound_subtract hi lo))
      /\ upto X CE de (between_exits F X mode (bound_subtract hi lo))
      /\ upto X Cf d (fixed_steps T F n)) ->
    df + db <= d -> df + de <= d ->
    exists C, forall X T F, 1 <= X -> upto X A q T -> upto X A q F ->
      (mode <> Possessive -> hi = Inf -> F = 1) ->
      upto X C d (S (fixed_steps T F n + fixed_exits F mode n * between_steps T F X mode (bound_subtract hi lo)))
      /\ upto X C d (fixed_exits F mode n * between_exits F X mode (bound_subtract hi lo))).
  { intros CT CE df db de H Hb He. exists (1 + (Cf + (1 + A ^ n) * CT) + (1 + A ^ n) * CE).
    intros X T F HX HT HF HI. destruct (H X T F HX HT HF HI) as (H1 & H2 & H3 & H4).
    pose proof (upto_mul X HX _ _ _ _ _ _ H1 H2) as P1. pose proof (upto_mul X HX _ _ _ _ _ _ H1 H3) as P2.
    split.
    - apply (upto_mono X HX (1 + (Cf + (1 + A ^ n) * CT)) d); [|lia|lia].
      apply (upto_add X HX 1 d 1 _ _); auto; [now apply upto_const|].
      apply upto_add; auto. apply (upto_mono X HX _ _ _ _ _ P1); lia.
    - apply (upto_mono X HX _ _ _ _ _ P2); lia. }
  destruct hi as [h|].
  - cbn [is_fixed] in Fx. apply N.eqb_neq in Fx. cbn [bound_subtract] in *.
    set (e := N.to_nat (h - lo)) in *.
    assert (Hd : n * q + e * q <= d).
    { unfold d, n, e. rewrite <- Nat.mul_add_distr_r. apply Nat.mul_le_mono_r. lia. }
    destruct mode.
    1,2: apply (Comp (e * (A + 2) * A ^ (e - 1) + A ^ e + (2 * e + 3)) ((e + 2) * A ^ e) (n * q) (e * q) (e * q));
      [|lia|lia]; intros X T F HX HT HF HI; destruct (HFx X T F HX HT HF) as [H1 H2];
      (split; [exact H2|]); cbn [between_steps between_exits]; fold e;
      pose proof (upto_pow X HX A q F e HF) as P; (split; [|split]).
    1,4: apply upto_add; auto; [|now apply upto_const]; apply upto_add; auto; now apply upto_rounds.
    1,3: now apply upto_scale.
    1,2: apply (upto_mono X HX _ _ _ _ _ H1); lia.
    assert (Hd2 : q <= d).
    { unfold d. assert (1 <= N.to_nat (N.max lo h)) by lia. nia. }
    apply (Comp (S e * (A + 1)) 1 0 q 0); [|lia|lia].
    intros X T F HX HT HF HI. destruct (HFx X T F HX HT HF) as [H1 H2].
    cbn [between_steps between_exits fixed_exits]. fold e. repeat split.
    + apply upto_const; auto; lia.
    + apply upto_scale; auto. apply upto_add; auto. now apply upto_const.
    + now apply upto_const.
    + apply (upto_mono X HX _ _ _ _ _ H1); lia.
  - cbn [bound_subtract] in *.
    assert (Hd : 1 + q <= d /\ n * q <= d).
    { unfold d, n. assert (1 <= N.to_nat (N.max 1 lo)) by lia.
      assert (N.to_nat lo <= N.to_nat (N.max 1 lo)) by lia. nia. }
    assert (HT1 : forall X T, 1 <= X -> upto X A q T -> upto X (A + 1) q (T + 1)).
    { intros X T HX HT. apply upto_add; auto. now apply upto_const. }
    destruct mode.
    1,2: apply (Comp (3 * (A + 1)) 2 0 (1 + q) 1);
      [|lia|lia]; intros X T F HX HT HF HI; destruct (HFx X T F HX HT HF) as [H1 H2];
      specialize (HI ltac:(discriminate) eq_refl); subst F;
      cbn [between_steps between_exits fixed_exits]; rewrite Nat.pow_1_l;
      (split; [apply upto_const; auto; lia|split; [|split]]).
    1,4: apply upto_mul; auto; unfold upto; cbn; lia.
    1,3: unfold upto; cbn; lia.
    1,2: apply (upto_mono X HX _ _ _ _ _ H1); lia.
    apply (Comp (A + 1) 1 0 (1 + q) 0); [|lia|lia].
    intros X T F HX HT HF HI. destruct (HFx X T F HX HT HF) as [H1 H2].
    cbn [between_steps between_exits fixed_exits]. repeat split.
    + apply upto_const; auto; lia.
    + rewrite <- (Nat.mul_1_l (A + 1)). apply upto_mul; auto. now apply upto_text.
    + now apply upto_const.
    + apply (upto_mono X HX _ _ _ _ _ H1); lia.
Qed.

Section Tree.
  Variable cf : config.

  (** The steps of a tree, whatever the text is. *)
  Definition effort (n : node) : Prop :=
    exists C, forall names base rd f, exists T F,
      upto (S (length base)) C (degree n) T /\ upto (S (length base)) C (degree n) F /\ 1 <= F
      /\ (once n = true -> F = 1) /\ takes T F (c_m cf names base f rd n).

  Lemma takes_leaf T F o : takes T F (fun _ _ _ => leaf o).
  Proof. intros N cur c k Hk. cbn. lia. Qed.

  (** Nodes that go on at most once after a fixed number of steps. *)
  Lemma effort_single n C d : d <= degree n ->
    (forall names base rd f, exists T, upto (S (length base)) C d T
       /\ takes T 1 (c_m cf names base (S f) rd n)) -> effort n.
  Proof.
    intros Hd H. exists (C + 1). intros names base rd [|f].
    - exists 0, 1. repeat split; auto; try (apply upto_const; lia). intros N cur c k _. cbn. lia.
    - destruct (H names base rd f) as (T & H1 & H2). exists T, 1. repeat split; auto.
      + apply (upto_mono (S (length base)) (le_n_S _ _ (Nat.le_0_l _)) _ _ _ _ _ H1); lia.
      + apply upto_const; lia.
  Qed.

  Lemma takes_called_1 g mx : takes 0 1 g -> (forall cur c k, mx cur c k = called (g cur c k)) ->
    takes 1 1 mx.
  Proof. intros H E N cur c k Hk. rewrite E. specialize (H N cur c k Hk). cbn [called steps]. lia. Qed.

  Ltac here := intros N cur c k Hk; pose proof (Hk cur c); unfold c_assert_that;
    repeat first [ apply steps_deref; intros
                 | match goal with |- context [if ?b then _ else _] => destruct b end
                 | lia | progress cbn ].

  Lemma effort_seq l : Forall effort l -> exists C, forall names base rd f, exists T F,
      upto (S (length base)) C (list_sum (map degree l)) T
      /\ upto (S (length base)) C (list_sum (map degree l)) F /\ 1 <= F
      /\ (forallb once l = true -> F = 1)
      /\ takes T F (c_seq_match cf (view base rd) (c_m cf names base f rd) l).
  Proof.
    induction 1 as [|x l (C1 & H1) Hl (C2 & H2)].
    - exists 1. intros names base rd f. exists 0, 1.
      repeat split; auto; try (apply upto_const; lia). intros N cur c k _. cbn. lia.
    - exists (2 + 2 * length (x :: l) + C1 + C1 * C2). intros names base rd f.
      destruct (H1 names base rd f) as (T1 & F1 & A1 & B1 & P1 & O1 & K1).
      destruct (H2 names base rd f) as (T2 & F2 & A2 & B2 & P2 & O2 & K2).
      set (X := S (length base)) in *. assert (HX : 1 <= X) by (unfold X; lia).
      change (list_sum (map degree (x :: l))) with (degree x + list_sum (map degree l)).
      set (d2 := list_sum (map degree l)) in *.
      destruct l as [|y r].
      + exists T1, F1. repeat split; auto.
        * apply (upto_mono X HX _ _ _ _ _ A1); lia.
        * apply (upto_mono X HX _ _ _ _ _ B1); lia.
        * cbn. rewrite andb_true_r. auto.
      + set (l := y :: r) in *.
        exists (S (2 * length (x :: l) + (T1 + F1 * T2))), (F1 * F2).
        pose proof (upto_mul X HX _ _ _ _ _ _ B1 A2) as Q1.
        pose proof (upto_mul X HX _ _ _ _ _ _ B1 B2) as Q2.
        repeat split.
        * apply (upto_mono X HX (1 + (2 * length (x :: l) + (C1 + C1 * C2))) (degree x + d2)); [|lia|lia].
          apply (upto_add X HX 1 _ 1 _ _); auto; [now apply upto_const|].
          apply upto_add; auto; [now apply upto_const|]. apply upto_add; auto.
          apply (upto_mono X HX _ _ _ _ _ A1); lia.
        * apply (upto_mono X HX _ _ _ _ _ Q2); lia.
        * nia.
        * cbn [forallb]. intros E. apply andb_true_iff in E as [E1 E2].
          rewrite O1, O2; auto.
        * intros N cur c k Hk. cbn [c_seq_match]. unfold l at 1.
          cbn [called steps]. fold l.
          destruct (forallb trivial (x :: l)).
          -- pose proof (distance_rounds_le cf (N.of_nat (length (x :: l))) (length (view base rd)) cur) as Hd.
             rewrite Nat2N.id in Hd. cbn [paid steps].
             assert (Hb : forall g, takes (length (x :: l)) 1 g ->
               distance_rounds cf (N.of_nat (length (x :: l))) (length (view base rd)) cur
                 + steps (g cur c k)
                 <= 2 * length (x :: l) + (T1 + F1 * T2) + F1 * F2 * N).
             { intros g Hg. specialize (Hg N cur c k Hk). assert (N <= F1 * F2 * N) by (rewrite <- (Nat.mul_1_l N) at 1; apply Nat.mul_le_mono_r; nia). pose proof (Nat.le_0_l (F1 * T2)). lia. }
             apply le_n_S.
             destruct (distance_less_than _ _ _ _).
             { change (steps (c_non_match cur c)) with 0. rewrite Nat.add_0_r.
               eapply Nat.le_trans; [exact Hd|]. rewrite <- !Nat.add_assoc.
               eapply Nat.le_trans; [|apply Nat.le_add_r]. lia. }
             destruct (is_random cf).
             ++ apply (Hb (c_trivial_block_random _ _)).
                rewrite <- (map_length (match_one cf) (x :: l)). apply takes_block_random.
             ++ apply (Hb (c_sequence_block_forward _ _)).
                rewrite <- (map_length (match_one cf) (x :: l)). apply takes_block_forward.
          -- apply le_n_S. pose proof (takes_then _ _ _ _ _ _ K1 K2 N cur c k Hk) as P. cbv beta in P.
             eapply Nat.le_trans; [exact P|]. apply Nat.add_le_mono_r, Nat.le_add_l.
  Qed.

  Lemma effort_alt l : Forall effort l -> exists C, forall names base rd f, exists T F,
      upto (S (length base)) C (list_max (map degree l)) T
      /\ upto (S (length base)) C (list_max (map degree l)) F /\ 1 <= F
      /\ (once (Alt l) = true -> F = 1)
      /\ takes T F (c_alt_match cf (view base rd) (c_m cf names base f rd) l).
  Proof.
    induction 1 as [|x l (C1 & H1) Hl (C2 & H2)].
    - exists 1. intros names base rd f. exists 0, 1.
      repeat split; auto; try (apply upto_const; lia). intros N cur c k _. cbn. lia.
    - exists (2 + C1 + C2). intros names base rd f.
      destruct (H1 names base rd f) as (T1 & F1 & A1 & B1 & P1 & O1 & K1).
      destruct (H2 names base rd f) as (T2 & F2 & A2 & B2 & P2 & O2 & K2).
      set (X := S (length base)) in *. assert (HX : 1 <= X) by (unfold X; lia).
      change (list_max (map degree (x :: l))) with (Nat.max (degree x) (list_max (map degree l))).
      set (d2 := list_max (map degree l)) in *.
      destruct l as [|y r].
      + exists T1, F1. repeat split; auto.
        * apply (upto_mono X HX _ _ _ _ _ A1); lia.
        * apply (upto_mono X HX _ _ _ _ _ B1); lia.
        * cbn [once forallb]. rewrite andb_true_r. intros E. apply O1.
          apply orb_true_iff in E as [E|E]; [now apply once_trivial|exact E].
      + set (l := y :: r) in *. destruct (forallb trivial (x :: l)) eqn:Tr.
        * exists 1, 1. repeat split; auto; try (apply upto_const; auto; lia).
          intros N cur c k Hk. cbn [c_alt_match]. unfold l at 1. cbn [called steps]. fold l.
          rewrite Tr. apply le_n_S. now apply (takes_trivial _ _ N cur c k).
        * exists (S (T1 + T2)), (F1 + F2). repeat split.
          -- apply (upto_mono X HX (1 + (C1 + C2)) (Nat.max (degree x) d2)); [|lia|lia].
             apply (upto_add X HX 1 _ 1 _ _); auto; [now apply upto_const|]. apply upto_add; auto.
             ++ apply (upto_mono X HX _ _ _ _ _ A1); lia.
             ++ apply (upto_mono X HX _ _ _ _ _ A2); lia.
          -- apply (upto_mono X HX (C1 + C2) (Nat.max (degree x) d2)); [|lia|lia].
             apply upto_add; auto.
             ++ apply (upto_mono X HX _ _ _ _ _ B1); lia.
             ++ apply (upto_mono X HX _ _ _ _ _ B2); lia.
          -- lia.
          -- cbn [once]. rewrite Tr. discriminate.
          -- intros N cur c k Hk. cbn [c_alt_match]. unfold l at 1. cbn [called steps]. fold l.
             rewrite Tr.
             replace (S (T1 + T2) + (F1 + F2) * N) with (S (T1 + F1 * N + (T2 + F2 * N))) by lia.
             apply le_n_S.
             apply steps_or_else; [now apply K1|]. intros c'. now apply K2.
  Qed.

  Lemma backref_target_length (base : list ascii) b e rd :
    length (match rd with
            | 0 => firstn (e - b) (skipn b base)
            | _ => rev (firstn (e - b) (skipn b base))
            end) <= length base.
  Proof.
    assert (length (firstn (e - b) (skipn b base)) <= length base).
    { rewrite firstn_length, skipn_length. lia. }
    destruct rd; [assumption|now rewrite rev_length].
  Qed.

  Lemma takes_backref base rd i : takes (2 * length base) 1 (c_backref_match cf base rd i).
  Proof.
    intros N cur c k Hk. unfold c_backref_match.
    destruct (nth_error c i) as [v|]; [|cbn; lia].
    destruct (match v with Some p => p | None => (0, 0) end) as [b e].
    cbn [paid steps].
    pose proof (distance_rounds_left cf (N.of_nat (e - b)) (length (view base rd)) cur) as Hd.
    rewrite view_length in *.
    destruct (distance_less_than _ _ _ _); [cbn [c_non_match leaf steps]; lia|].
    destruct (_ || _)%bool; [cbn [leaf steps]; lia|].
    pose proof (backref_target_length base b e rd).
    match goal with |- _ + steps (c_backref_loop _ _ ?t _ _ _) <= _ =>
      pose proof (takes_backref_loop cf (view base rd) t N cur c k Hk) end. lia.
  Qed.

  Theorem effort_node n : tame n = true -> effort n.
  Proof.
    assert (G : forall b n, size n <= b -> tame n = true -> effort n);
      [|now apply (G (size n))]. clear n.
    induction b as [|b IH]; intros n Hn; [pose proof (size_pos n); lia|].
    assert (HL : forall l, list_sum (map size l) <= b -> forallb tame l = true -> Forall effort l).
    { intros l Hl Ht. apply Forall_forall. intros x Hx. apply IH.
      - pose proof (size_in_sum l x Hx). lia.
      - rewrite forallb_forall in Ht. auto. }
    destruct n as [ | | | | | | |ch|r1 r2|l|x|l|l|id nm x|md lo hi x|id|nm|d x]; intros Ht.
    all: try solve [ apply (effort_single _ 1 0); [lia|]; intros names base rd f; exists 1;
      split; [apply upto_const; lia|];
      (eapply takes_called_1; [|intros cur c k; cbn [c_m]; reflexivity]);
      first [ apply takes_trivial | here ] ].
    - (* WordB *)
      apply (effort_single _ 1 0); [lia|]. intros names base rd f. exists 1.
      split; [apply upto_const; lia|].
      intros N cur c k Hk. cbn [c_m]. destruct (negb _); [cbn; lia|]. cbn [called steps].
      apply le_n_S. revert N cur c k Hk. here.
    - (* Neg *)
      destruct (is_assertion x) eqn:As.
      + destruct (IH x) as (C & H); [cbn in Hn; lia|exact Ht|].
        apply (effort_single _ (1 + C) (degree x)); [cbn; lia|]. intros names base rd f.
        destruct (H names base rd f) as (T & F & A1 & _ & _ & _ & K). exists (1 + T). split.
        * apply upto_add; [lia|apply upto_const; lia|exact A1].
        * intros N cur c k Hk. cbn [c_m called steps]. rewrite As. cbn [Nat.add Nat.mul].
          apply le_n_S. rewrite Nat.add_0_r. eapply takes_verdict; eauto. cbn. lia.
      + apply (effort_single _ 1 0); [lia|]. intros names base rd f. exists 1.
        split; [apply upto_const; lia|]. intros N cur c k Hk. cbn [c_m called steps]. rewrite As.
        apply le_n_S. now apply (takes_trivial _ _ N cur c k).
    - (* Seq *)
      rewrite size_Seq in Hn. destruct (effort_seq l (HL l ltac:(lia) Ht)) as (C & H).
      exists (C + 1). intros names base rd [|f].
      + exists 0, 1. repeat split; auto; try (apply upto_const; lia). intros N cur c k _. cbn. lia.
      + destruct (H names base rd f) as (T & F & A & B & P & O & K). exists T, F.
        repeat split; auto.
        * apply (upto_mono (S (length base)) (le_n_S _ _ (Nat.le_0_l _)) _ _ _ _ _ A); cbn; lia.
        * apply (upto_mono (S (length base)) (le_n_S _ _ (Nat.le_0_l _)) _ _ _ _ _ B); cbn; lia.
    - (* Alt *)
      rewrite size_Alt in Hn. destruct (effort_alt l (HL l ltac:(lia) Ht)) as (C & H).
      exists (C + 1). intros names base rd [|f].
      + exists 0, 1. repeat split; auto; try (apply upto_const; lia). intros N cur c k _. cbn. lia.
      + destruct (H names base rd f) as (T & F & A & B & P & O & K). exists T, F.
        repeat split; auto.
        * apply (upto_mono (S (length base)) (le_n_S _ _ (Nat.le_0_l _)) _ _ _ _ _ A); cbn; lia.
        * apply (upto_mono (S (length base)) (le_n_S _ _ (Nat.le_0_l _)) _ _ _ _ _ B); cbn; lia.
    - (* Cap *)
      destruct (IH x) as (C & H); [cbn in Hn; lia|exact Ht|].
      exists (C + 1). intros names base rd [|f].
      + exists 0, 1. repeat split; auto; try (apply upto_const; lia). intros N cur c k _. cbn. lia.
      + destruct (H names base rd f) as (T & F & A & B & P & O & K). exists (T + 1), F.
        repeat split; auto.
        * apply upto_add; [lia|exact A|apply upto_const; lia].
        * apply (upto_mono (S (length base)) (le_n_S _ _ (Nat.le_0_l _)) _ _ _ _ _ B); cbn; lia.
        * intros N cur c k Hk. cbn [c_m called steps].
          replace (T + 1 + F * N) with (S (T + F * N + 0)) by lia. apply le_n_S.
          apply steps_or_else.
          -- apply K. intros j c'. destruct (store _ _ _ _ _ _ _); [apply Hk|cbn; lia].
          -- intros c'. destruct (clear_cell _ _); cbn; lia.
    - (* Rep *)
      cbn [tame] in Ht. apply andb_true_iff in Ht as [Ht Ho].
      destruct (IH x) as (C & H); [cbn in Hn; lia|exact Ht|].
      destruct (rep_upto C (degree x) md lo hi) as (C' & HC).
      exists (C' + 1). intros names base rd [|f].
      + exists 0, 1. repeat split; auto; try (apply upto_const; lia). intros N cur c k _. cbn. lia.
      + destruct (H names base rd f) as (T & F & A & B & P & O & K).
        set (X := S (length base)) in *. assert (HX : 1 <= X) by (unfold X; lia).
        assert (HI : md <> Possessive -> hi = Inf -> F = 1).
        { intros M E. apply O. subst hi. now destruct md. }
        destruct (HC X T F HX A B HI) as [U1 U2].
        assert (Hd : degree (Rep md lo hi x) = match hi with
           | Fin h => N.to_nat (N.max lo h) * degree x
           | Inf => 1 + N.to_nat (N.max 1 lo) * degree x
           end) by (destruct hi; reflexivity).
        exists (rep_steps T F X md lo hi), (rep_exits F X md lo hi).
        rewrite Hd. repeat split.
        * apply (upto_mono X HX _ _ _ _ _ U1); lia.
        * apply (upto_mono X HX _ _ _ _ _ U2); lia.
        * unfold rep_exits. pose proof (exits_pos F P md (N.to_nat lo)) as E1.
          destruct (is_fixed lo hi); [exact E1|].
          assert (1 <= between_exits F X md (bound_subtract hi lo)); [|nia].
          unfold between_exits. destruct md, (bound_subtract hi lo) as [d|]; try lia;
            pose proof (pow_pos F (N.to_nat d) P); nia.
        * cbn [once]. unfold rep_exits, fixed_exits. destruct md.
          1,2: destruct hi as [h|]; [|discriminate]; intros E; apply andb_true_iff in E as [E1 E2];
            cbn [is_fixed]; rewrite E1, (O E2); apply Nat.pow_1_l.
          intros _. destruct (is_fixed lo hi); reflexivity.
        * intros N cur c k. cbn [c_m]. apply takes_rep; auto.
          -- intros Tr. apply O, once_trivial, Tr.
          -- rewrite view_length. unfold X. lia.
    - (* Backref *)
      apply (effort_single _ 2 1); [cbn; lia|]. intros names base rd f.
      exists (2 * S (length base)). split; [unfold upto; rewrite Nat.pow_1_r; lia|].
      intros N cur c k Hk. cbn [c_m called steps].
      pose proof (takes_backref base rd (N.to_nat id) N cur c k Hk). lia.
    - (* NBackref *)
      apply (effort_single _ 2 1); [cbn; lia|]. intros names base rd f.
      exists (2 * S (length base)). split; [unfold upto; rewrite Nat.pow_1_r; lia|].
      intros N cur c k Hk. cbn [c_m]. destruct (unique_position _ _) as [i|]; [|cbn; lia].
      cbn [called steps]. pose proof (takes_backref base rd i N cur c k Hk). lia.
    - (* Look *)
      destruct (IH x) as (C1 & H1); [cbn in Hn; lia|exact Ht|].
      destruct (IH (invert x)) as (C2 & H2);
        [rewrite size_invert; cbn in Hn; lia|rewrite tame_invert; exact Ht|].
      apply (effort_single _ (1 + (C1 + C2)) (degree x)); [cbn; lia|]. intros names base rd f.
      destruct (H1 names base rd f) as (T1 & F1 & A1 & _ & _ & _ & K1).
      destruct (H2 names base (S rd) f) as (T2 & F2 & A2 & _ & _ & _ & K2).
      rewrite degree_invert in A2. exists (1 + (T1 + T2)). split.
      + apply upto_add; [lia|apply upto_const; lia|]. apply upto_add; [lia|exact A1|exact A2].
      + intros N cur c k Hk. cbn [c_m].
        assert (V : forall T F mx cur' f g, takes T F mx -> T <= T1 + T2 ->
          (forall e c, steps (f e c) <= N) -> (forall c, steps (g c) <= N) ->
          steps (c_on_result (mx cur' c c_success) f g) <= T1 + T2 + 1 * N).
        { intros T F mx cur' f0 g0 Hm HT Hf Hg. pose proof (takes_verdict T F mx cur' c f0 g0 N Hm Hf Hg). lia. }
        change (1 + (T1 + T2) + 1 * N) with (S (T1 + T2 + 1 * N)).
        unfold c_assert_that. pose proof (Hk cur c) as Hc. destruct d.
        * cbn [called steps]. apply le_n_S. destruct (trivial x).
          -- destruct (Nat.eqb _ _); [cbn; lia|]. apply steps_deref. intros a.
             destruct (match_one _ _ _); [lia|cbn; lia].
          -- apply (V T1 F1); auto; [lia|]. intros; cbn; lia.
        * destruct (negb _); [cbn; lia|]. cbn [called steps]. apply le_n_S. destruct (trivial x).
          -- destruct (Nat.eqb _ _); [cbn; lia|]. apply steps_deref. intros a.
             destruct (match_one _ _ _); [lia|cbn; lia].
          -- apply (V T2 F2); auto; [lia|]. intros; cbn; lia.
  Qed.
End Tree.
