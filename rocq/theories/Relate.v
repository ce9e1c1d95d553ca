(** Comparing two runs of the matcher.  A relation between runs (functions of the
    captures) that is preserved by the basic steps is preserved by [m]. *)
From Verif Require Import Basics Spec Safe.
From Verif Require Export Api.

(** ** Operations on captures *)

(** What a run does to a group: nothing, clear it, or assign it. *)
Inductive op := Keep | Clear | Put (v : cell).

Definition act1 (o : op) (v : cell) : cell :=
  match o with Keep => v | Clear => clear_value v | Put w => w end.

Definition comp1 (o2 o1 : op) : op :=
  match o2 with
  | Keep => o1
  | Clear => match o1 with Keep => Clear | Clear => Clear | Put w => Put (clear_value w) end
  | Put w => Put w
  end.

Lemma clear_twice v : clear_value (clear_value v) = clear_value v.
Proof. now destruct v as [[b e]|]. Qed.

Lemma comp1_act o2 o1 v : act1 (comp1 o2 o1) v = act1 o2 (act1 o1 v).
Proof. destruct o2, o1; cbn; auto. now rewrite clear_twice. Qed.

Lemma act1_twice o v : act1 o (act1 o v) = act1 o v.
Proof. destruct o; cbn; auto. apply clear_twice. Qed.

Fixpoint act (ops : nat -> op) (c : caps) : caps :=
  match c with
  | [] => []
  | v :: r => act1 (ops 0) v :: act (fun i => ops (S i)) r
  end.

Lemma act_length c : forall ops, length (act ops c) = length c.
Proof. induction c; intros ops; cbn; auto. Qed.

Lemma act_comp c : forall o2 o1, act o2 (act o1 c) = act (fun i => comp1 (o2 i) (o1 i)) c.
Proof. induction c as [|v r IH]; intros o2 o1; cbn; auto. now rewrite comp1_act, IH. Qed.

Lemma act_keep c : act (fun _ => Keep) c = c.
Proof. induction c as [|v r IH]; cbn; auto. now rewrite IH. Qed.

Lemma act_twice c : forall ops, act ops (act ops c) = act ops c.
Proof. induction c as [|v r IH]; intros ops; cbn; auto. now rewrite act1_twice, IH. Qed.

Definition only (i : nat) (o : op) : nat -> op := fun j => if Nat.eqb j i then o else Keep.

Lemma act_put c : forall i v, i < length c -> set_cell i v c = Some (act (only i (Put v)) c).
Proof.
  induction c as [|x r IH]; intros i v H; cbn [length] in H; [lia|].
  destruct i as [|i]; cbn [set_cell act].
  - unfold only. cbn. f_equal. f_equal. symmetry. apply act_keep.
  - rewrite (IH i v) by lia. cbn. reflexivity.
Qed.

Lemma set_cell_none c : forall i v, length c <= i -> set_cell i v c = None.
Proof.
  induction c as [|x r IH]; intros i v H; [now destruct i|]. cbn [length] in H.
  destruct i; [lia|]. cbn. now rewrite IH by lia.
Qed.

Lemma act_clear c : forall i, i < length c -> clear_cell i c = Some (act (only i Clear) c).
Proof.
  induction c as [|x r IH]; intros i H; cbn [length] in H; [lia|].
  unfold clear_cell in *. destruct i as [|i]; cbn [nth_error set_cell act].
  - unfold only. cbn. f_equal. f_equal. symmetry. apply act_keep.
  - specialize (IH i ltac:(lia)). destruct (nth_error r i); [|discriminate].
    rewrite IH. cbn. reflexivity.
Qed.

Lemma clear_cell_none c i : length c <= i -> clear_cell i c = None.
Proof.
  intros H. unfold clear_cell. apply nth_error_None in H. now rewrite H.
Qed.

(** ** Relations between runs *)

Definition run := caps -> outcome.

Section Relate.
  Variable cf : config.
  Variable names : list group_name.
  Variable base : list ascii.

  Local Notation L := (length names).
  Local Notation N0 := (length base).

  (** [Q] is the relation required of a run whose result is committed to. *)
  Record closed (Q P : run -> run -> Prop) : Prop := {
    c_fail : forall e1 e2, P (fun c => Res c e1 false) (fun c => Res c e2 false);
    c_succ : forall e, e <= N0 -> P (fun c => Res c e true) (fun c => Res c e true);
    c_undef : P (fun _ => Undef) (fun _ => Undef);
    c_ill : P (fun _ => IllFormed) (fun _ => IllFormed);
    c_div : P (fun _ => Diverge) (fun _ => Diverge);
    c_act : forall ops F1 F2, P F1 F2 -> P (fun c => F1 (act ops c)) (fun c => F2 (act ops c));
    c_ext : forall F1 F2 G1 G2,
      (forall c, length c = L -> F1 c = G1 c) -> (forall c, length c = L -> F2 c = G2 c) ->
      P F1 F2 -> P G1 G2;
    c_or : forall F1 F2 H1 H2, P F1 F2 -> P H1 H2 ->
      P (fun c => or_else (F1 c) H1) (fun c => or_else (F2 c) H2);
    c_on : forall F1 F2 G1 G2 H1 H2, Q F1 F2 ->
      (forall e, e <= N0 -> P (G1 e) (G2 e)) -> P H1 H2 ->
      P (fun c => on_result (F1 c) G1 H1) (fun c => on_result (F2 c) G2 H2)
  }.

  Definition pair_cont (P : run -> run -> Prop) (k1 k2 : cont) : Prop :=
    forall j, j <= N0 -> P (k1 j) (k2 j).
  Definition pair_matcher (P : run -> run -> Prop) (m1 m2 : matcher) : Prop :=
    forall cur k1 k2, cur <= N0 -> pair_cont P k1 k2 ->
    P (fun c => m1 cur c k1) (fun c => m2 cur c k2).

  Section Steps.
    Variables Q P : run -> run -> Prop.
    Hypothesis CP : closed Q P.
    Local Notation PC := (pair_cont P).
    Local Notation PM := (pair_matcher P).

    Variable s : list ascii.
    Hypothesis Hs : length s = N0.

    Lemma r_fail e1 e2 : P (fun c => non_match e1 c) (fun c => non_match e2 c).
    Proof. apply (c_fail _ _ CP). Qed.

    Lemma r_success : PC success success.
    Proof. intros j Hj. now apply (c_succ _ _ CP). Qed.

    Lemma r_deref i F1 F2 : (forall a, i < N0 -> P (fun c => F1 c a) (fun c => F2 c a)) ->
      P (fun c => deref s i (F1 c)) (fun c => deref s i (F2 c)).
    Proof.
      intros H. unfold deref. destruct (nth_error s i) eqn:E.
      - apply H. rewrite <- Hs. apply nth_error_Some. congruence.
      - apply (c_undef _ _ CP).
    Qed.

    Lemma r_assert b cur k1 k2 : cur <= N0 -> PC k1 k2 ->
      P (fun c => assert_that b cur c k1) (fun c => assert_that b cur c k2).
    Proof. intros Hc H. unfold assert_that. destruct b; [now apply H|apply r_fail]. Qed.

    Lemma r_trivial p q : (forall a, p a = q a) -> PM (match_trivial s p) (match_trivial s q).
    Proof.
      intros Hp cur k1 k2 Hc Hk. unfold match_trivial. destruct (Nat.eqb _ _); [apply r_fail|].
      apply r_deref. intros a Ha. rewrite Hp. destruct (q a); [now apply Hk|apply r_fail].
    Qed.

    Lemma all_at_bound ps : forall cur, cur <= N0 -> all_at s ps cur = Some true -> cur + length ps <= N0.
    Proof.
      induction ps as [|p r IH]; intros cur Hc E; cbn in *; [lia|].
      destruct (nth_error s cur) eqn:En; [|discriminate].
      assert (cur < N0) by (rewrite <- Hs; apply nth_error_Some; congruence).
      destruct (p a); [|discriminate]. apply IH in E; lia.
    Qed.

    Lemma all_at_eq ps qs : Forall2 (fun p q => forall a : ascii, p a = q a) ps qs ->
      forall cur, all_at s ps cur = all_at s qs cur.
    Proof.
      induction 1 as [|p q ps qs Hp _ IH]; intros cur; cbn; auto.
      destruct (nth_error s cur); auto. rewrite Hp. destruct (q a); auto.
    Qed.

    Lemma r_block_random ps qs : Forall2 (fun p q => forall a : ascii, p a = q a) ps qs ->
      PM (trivial_block_random s ps) (trivial_block_random s qs).
    Proof.
      intros Hp cur k1 k2 Hc Hk. unfold trivial_block_random. rewrite (all_at_eq _ _ Hp).
      destruct (all_at s qs cur) as [[|]|] eqn:E; [|apply r_fail|apply (c_undef _ _ CP)].
      replace (length ps) with (length qs) by (clear -Hp; induction Hp; cbn; congruence).
      apply Hk. now apply all_at_bound.
    Qed.

    Lemma r_block_forward ps qs : Forall2 (fun p q => forall a : ascii, p a = q a) ps qs ->
      PM (sequence_block_forward s ps) (sequence_block_forward s qs).
    Proof.
      induction 1 as [|p q ps qs Hp Hps IH]; intros cur k1 k2 Hc Hk; cbn [sequence_block_forward];
        [apply (c_ill _ _ CP)|].
      inversion Hps; subst; cbn [sequence_block_forward] in *.
      - apply r_deref. intros a Ha. rewrite Hp. destruct (q a); [now apply Hk|apply r_fail].
      - apply r_deref. intros a Ha. rewrite Hp. destruct (q a); [|apply r_fail].
        apply IH; auto.
    Qed.

    Lemma r_loop_random p q cur k1 k2 : (forall a, p a = q a) -> PC k1 k2 -> forall todo off,
      cur + off <= N0 ->
      P (fun c => repetition_loop_random s p todo off cur c k1)
        (fun c => repetition_loop_random s q todo off cur c k2).
    Proof.
      intros Hp Hk. induction todo as [|t IH]; intros off Ho; cbn [repetition_loop_random]; [now apply Hk|].
      apply r_deref. intros a Ha. rewrite Hp. destruct (negb (q a)); [apply r_fail|apply IH; lia].
    Qed.

    Lemma r_rep_forward p q n : (forall a, p a = q a) ->
      PM (repetition_block_forward s p n) (repetition_block_forward s q n).
    Proof.
      intros Hp. induction n as [|n IH]; intros cur k1 k2 Hc Hk; cbn [repetition_block_forward]; [now apply Hk|].
      apply r_deref. intros a Ha. rewrite Hp. destruct (q a); [now apply IH|apply r_fail].
    Qed.

    Lemma r_possessive_trivial p q fuel : (forall a, p a = q a) -> forall b,
      PM (possessive_trivial fuel s p b) (possessive_trivial fuel s q b).
    Proof.
      intros Hp. induction fuel as [|f IH]; intros b cur k1 k2 Hc Hk; cbn [possessive_trivial];
        [apply (c_div _ _ CP)|].
      destruct (bound_is_zero b); [now apply Hk|]. destruct (Nat.eqb _ _); [now apply Hk|].
      apply r_deref. intros a Ha. rewrite Hp. destruct (q a); [now apply IH|now apply Hk].
    Qed.

    Lemma r_step_back initial k1 k2 : PC k1 k2 -> forall d, initial + d <= N0 ->
      P (fun c => step_back initial d c k1) (fun c => step_back initial d c k2).
    Proof.
      intros Hk. induction d as [|d IH]; intros Hd; cbn [step_back];
        apply (c_or _ _ CP); try (now apply Hk); [apply r_fail|apply IH; lia].
    Qed.

    Lemma r_lazy_trivial p q fuel : (forall a, p a = q a) -> forall b,
      PM (lazy_trivial fuel s p b) (lazy_trivial fuel s q b).
    Proof.
      intros Hp. induction fuel as [|f IH]; intros b cur k1 k2 Hc Hk; cbn [lazy_trivial];
        [apply (c_div _ _ CP)|].
      apply (c_or _ _ CP); [now apply Hk|]. destruct (bound_is_zero b); [apply r_fail|].
      destruct (Nat.eqb _ _); [apply r_fail|].
      apply (r_deref cur
        (fun c' a => if p a then lazy_trivial f s p (bound_decrement b) (S cur) c' k1 else non_match cur c')
        (fun c' a => if q a then lazy_trivial f s q (bound_decrement b) (S cur) c' k2 else non_match cur c')).
      intros a Ha. rewrite Hp. destruct (q a); [now apply IH|apply r_fail].
    Qed.

    Lemma r_unrolled m1 m2 n : PM m1 m2 -> PM (unrolled_backtracking m1 n) (unrolled_backtracking m2 n).
    Proof.
      intros Hm. induction n as [|n IH]; intros cur k1 k2 Hc Hk; cbn [unrolled_backtracking]; [now apply Hk|].
      destruct n; [now apply Hm|]. apply Hm; auto. intros j Hj. now apply IH.
    Qed.

    Lemma r_non_unrolled m1 m2 n : PM m1 m2 ->
      PM (non_unrolled_backtracking m1 n) (non_unrolled_backtracking m2 n).
    Proof.
      intros Hm. induction n as [|n IH]; intros cur k1 k2 Hc Hk; cbn [non_unrolled_backtracking];
        [apply (c_div _ _ CP)|].
      destruct (Nat.eqb _ _); [now apply Hm|]. apply Hm; auto. intros j Hj. now apply IH.
    Qed.

    Lemma r_continue w cur k1 k2 : PC k1 k2 ->
      PC (continue_unless_infinite_loop w cur k1) (continue_unless_infinite_loop w cur k2).
    Proof.
      intros Hk j Hj. unfold continue_unless_infinite_loop.
      destruct (w && Nat.eqb cur j); [apply r_fail|now apply Hk].
    Qed.

    Lemma r_greedy_generic m1 m2 w fuel : PM m1 m2 ->
      forall b, PM (greedy_generic fuel m1 w b) (greedy_generic fuel m2 w b).
    Proof.
      intros Hm. induction fuel as [|f IH]; intros b cur k1 k2 Hc Hk; cbn [greedy_generic];
        [apply (c_div _ _ CP)|].
      destruct (bound_is_zero b); [now apply Hk|].
      apply (c_or _ _ CP); [|now apply Hk]. apply Hm; auto. apply r_continue. intros j Hj. now apply IH.
    Qed.

    Lemma r_lazy_generic m1 m2 w fuel : PM m1 m2 ->
      forall b, PM (lazy_generic fuel m1 w b) (lazy_generic fuel m2 w b).
    Proof.
      intros Hm. induction fuel as [|f IH]; intros b cur k1 k2 Hc Hk; cbn [lazy_generic];
        [apply (c_div _ _ CP)|].
      apply (c_or _ _ CP); [now apply Hk|]. destruct (bound_is_zero b); [apply r_fail|].
      apply Hm; auto. apply r_continue. intros j Hj. now apply IH.
    Qed.

    (** Nodes treated alike by everything but [match]. *)
    Definition alike (x y : node) : Prop :=
      trivial x = trivial y /\ zlm x = zlm y /\ is_assertion x = is_assertion y
      /\ forall a, match_one cf x a = match_one cf y a.

    Lemma forallb_alike l1 l2 : Forall2 alike l1 l2 -> forallb trivial l1 = forallb trivial l2.
    Proof. induction 1 as [|x y l1 l2 (H & _) _ IH]; cbn; congruence. Qed.

    Lemma tests_alike l1 l2 : Forall2 alike l1 l2 ->
      Forall2 (fun p q => forall a : ascii, p a = q a) (map (match_one cf) l1) (map (match_one cf) l2).
    Proof. induction 1 as [|x y l1 l2 (_ & _ & _ & H) _ IH]; cbn; constructor; auto. Qed.

    Lemma existsb_alike l1 l2 a : Forall2 alike l1 l2 ->
      existsb (fun y => match_one cf y a) l1 = existsb (fun y => match_one cf y a) l2.
    Proof. induction 1 as [|x y l1 l2 (_ & _ & _ & H) _ IH]; cbn; congruence. Qed.

    Lemma r_seq mm1 mm2 l1 l2 : Forall2 (fun x y => alike x y /\ PM (mm1 x) (mm2 y)) l1 l2 ->
      PM (seq_match cf s mm1 l1) (seq_match cf s mm2 l2).
    Proof.
      intros Hl. assert (Ha : Forall2 alike l1 l2) by (clear -Hl; induction Hl; constructor; tauto).
      induction Hl as [|x y l1 l2 [Hxy Hm] Hl IH]; intros cur k1 k2 Hc Hk; cbn [seq_match];
        [apply (c_ill _ _ CP)|].
      inversion Ha; subst.
      rewrite (forallb_alike _ _ Ha).
      assert (Hlen : length (x :: l1) = length (y :: l2))
        by (clear -Hl; cbn; f_equal; induction Hl; cbn; congruence).
      destruct Hl as [|x' y' l1 l2 Hx' Hl]; [now apply Hm|].
      rewrite Hlen.
      destruct (forallb trivial (y :: y' :: l2)).
      - destruct (distance_less_than _ _ _ _); [apply r_fail|].
        destruct (is_random cf); [apply r_block_random|apply r_block_forward]; auto;
          now apply tests_alike.
      - apply Hm; auto. intros j Hj. now apply IH.
    Qed.

    Lemma r_alt mm1 mm2 l1 l2 : Forall2 (fun x y => alike x y /\ PM (mm1 x) (mm2 y)) l1 l2 ->
      PM (alt_match cf s mm1 l1) (alt_match cf s mm2 l2).
    Proof.
      intros Hl. assert (Ha : Forall2 alike l1 l2) by (clear -Hl; induction Hl; constructor; tauto).
      induction Hl as [|x y l1 l2 [Hxy Hm] Hl IH]; intros cur k1 k2 Hc Hk; cbn [alt_match];
        [apply (c_ill _ _ CP)|].
      inversion Ha; subst. rewrite (forallb_alike _ _ Ha).
      destruct Hl as [|x' y' l1 l2 Hx' Hl]; [now apply Hm|].
      destruct (forallb trivial (y :: y' :: l2)).
      - apply r_trivial; auto. intros a. now apply existsb_alike.
      - apply (c_or _ _ CP); [now apply Hm|now apply IH].
    Qed.

    Lemma r_fixed_backtracking x y m1 m2 n : alike x y -> PM m1 m2 ->
      PM (fixed_backtracking cf s x m1 n) (fixed_backtracking cf s y m2 n).
    Proof.
      intros (Ht & _ & _ & Ho) Hm cur k1 k2 Hc Hk. unfold fixed_backtracking. rewrite Ht.
      destruct (trivial y).
      - destruct (distance_less_than _ _ _ _); [apply r_fail|].
        destruct (is_random cf); [|now apply r_rep_forward].
        destruct (unroll cf); [|apply r_loop_random; auto; lia].
        apply r_block_random; auto. generalize (N.to_nat n). induction n0; cbn; constructor; auto.
      - destruct (unroll cf); [now apply r_unrolled|now apply r_non_unrolled].
    Qed.

    Lemma r_store rd id nm b e k1 k2 : PC k1 k2 -> forall j, j <= N0 ->
      P (fun c => match store names base rd id nm b e c with Some c' => k1 j c' | None => IllFormed end)
        (fun c => match store names base rd id nm b e c with Some c' => k2 j c' | None => IllFormed end).
    Proof.
      intros Hk j Hj. unfold store.
      destruct (nth_error names (N.to_nat id)) eqn:E; [|apply (c_ill _ _ CP)].
      assert (Hid : N.to_nat id < L) by (apply nth_error_Some; congruence).
      destruct (name_eqb nm g); [|apply (c_ill _ _ CP)].
      assert (H : forall v,
        P (fun c => match set_cell (N.to_nat id) v c with Some c' => k1 j c' | None => IllFormed end)
          (fun c => match set_cell (N.to_nat id) v c with Some c' => k2 j c' | None => IllFormed end)).
      { intros v. apply (c_ext _ _ CP (fun c => k1 j (act (only (N.to_nat id) (Put v)) c))
                                      (fun c => k2 j (act (only (N.to_nat id) (Put v)) c))).
        - intros c Hc. now rewrite act_put by congruence.
        - intros c Hc. now rewrite act_put by congruence.
        - now apply (c_act _ _ CP (only (N.to_nat id) (Put v)) (k1 j) (k2 j)), Hk. }
      destruct rd as [|[|rd]]; [apply H|apply H|apply (c_ill _ _ CP)].
    Qed.

    Lemma r_clear id e1 e2 :
      P (fun c => match clear_cell id c with Some c' => non_match e1 c' | None => IllFormed end)
        (fun c => match clear_cell id c with Some c' => non_match e2 c' | None => IllFormed end).
    Proof.
      destruct (Nat.lt_ge_cases id L) as [Hlt|Hge].
      - apply (c_ext _ _ CP (fun c => non_match e1 (act (only id Clear) c))
                            (fun c => non_match e2 (act (only id Clear) c))).
        + intros c Hc. now rewrite act_clear by congruence.
        + intros c Hc. now rewrite act_clear by congruence.
        + apply (c_act _ _ CP (only id Clear) (non_match e1) (non_match e2)), r_fail.
      - apply (c_ext _ _ CP (fun _ => IllFormed) (fun _ => IllFormed)).
        + intros c Hc. now rewrite clear_cell_none by congruence.
        + intros c Hc. now rewrite clear_cell_none by congruence.
        + apply (c_ill _ _ CP).
    Qed.
  End Steps.

  Section Commit.
    Variables Q P : run -> run -> Prop.
    Hypothesis CQ : closed Q Q.
    Hypothesis CP : closed Q P.
    Local Notation PC := (pair_cont P).
    Local Notation PM := (pair_matcher P).
    Local Notation QM := (pair_matcher Q).

    Variable s : list ascii.
    Hypothesis Hs : length s = N0.

    Lemma r_possessive_generic m1 m2 w fuel : QM m1 m2 ->
      forall b, PM (possessive_generic fuel m1 w b) (possessive_generic fuel m2 w b).
    Proof.
      intros Hm. induction fuel as [|f IH]; intros b cur k1 k2 Hc Hk; cbn [possessive_generic];
        [apply (c_div _ _ CP)|].
      destruct (bound_is_zero b); [now apply Hk|].
      apply (c_on _ _ CP).
      - apply Hm; auto. apply (r_success _ _ CQ).
      - intros e He. destruct (w && Nat.eqb cur e); [now apply Hk|now apply IH].
      - now apply Hk.
    Qed.

    Lemma r_fixed md n x y m1 m2 : alike x y -> QM m1 m2 -> PM m1 m2 ->
      PM (fixed_match cf s md n x m1) (fixed_match cf s md n y m2).
    Proof.
      intros Hxy Hq Hm cur k1 k2 Hc Hk. unfold fixed_match. destruct (N.eqb n 0); [now apply Hk|].
      rewrite (proj1 Hxy).
      destruct (N.eqb n 1).
      - destruct md; try now apply Hm. destruct (trivial y); [now apply Hm|].
        apply (c_on _ _ CP); [apply Hq; auto; apply (r_success _ _ CQ)|intros; now apply Hk|apply (r_fail _ _ CP)].
      - destruct md; try now apply (r_fixed_backtracking _ _ CP).
        apply (c_on _ _ CP); [|intros; now apply Hk|apply (r_fail _ _ CP)].
        apply (r_fixed_backtracking _ _ CQ); auto. apply (r_success _ _ CQ).
    Qed.

    Lemma r_between md b w x y m1 m2 : alike x y -> QM m1 m2 -> PM m1 m2 ->
      PM (between_bounds cf s md b w x m1) (between_bounds cf s md b w y m2).
    Proof.
      intros (Ht & _ & _ & Ho) Hq Hm cur k1 k2 Hc Hk. unfold between_bounds. rewrite Ht.
      set (fuel := loop_fuel b (length s) cur).
      assert (Hg : P (fun c =>
        if trivial y && is_bidirectional cf
        then possessive_trivial fuel s (match_one cf x) b cur c
               (fun next c' => step_back cur (next - cur) c' k1)
        else greedy_generic fuel m1 w b cur c k1)
        (fun c =>
        if trivial y && is_bidirectional cf
        then possessive_trivial fuel s (match_one cf y) b cur c
               (fun next c' => step_back cur (next - cur) c' k2)
        else greedy_generic fuel m2 w b cur c k2)).
      { destruct (trivial y && is_bidirectional cf); [|now apply (r_greedy_generic _ _ CP)].
        apply (r_possessive_trivial _ _ CP); auto. intros j Hj.
        eapply (r_step_back _ _ CP); [exact Hs|exact Hk|lia]. }
      assert (Hz : P (fun c =>
        if trivial y then lazy_trivial fuel s (match_one cf x) b cur c k1
        else lazy_generic fuel m1 w b cur c k1)
        (fun c =>
        if trivial y then lazy_trivial fuel s (match_one cf y) b cur c k2
        else lazy_generic fuel m2 w b cur c k2)).
      { destruct (trivial y); [now apply (r_lazy_trivial _ _ CP)|now apply (r_lazy_generic _ _ CP)]. }
      destruct md.
      - destruct (xorb true (ungreedy cf)); auto.
      - destruct (xorb false (ungreedy cf)); auto.
      - destruct (trivial y); [now apply (r_possessive_trivial _ _ CP)|now apply r_possessive_generic].
    Qed.

    Lemma r_rep md lo hi x y m1 m2 : alike x y -> QM m1 m2 -> PM m1 m2 ->
      PM (rep_match cf s md lo hi x m1) (rep_match cf s md lo hi y m2).
    Proof.
      intros Hxy Hq Hm cur k1 k2 Hc Hk. unfold rep_match. rewrite (proj1 (proj2 Hxy)).
      destruct (match hi with Fin h => N.eqb lo h | Inf => false end); [now apply r_fixed|].
      destruct (is_zero lo); [now apply r_between|].
      apply r_fixed; auto. intros j Hj. now apply r_between.
    Qed.

  End Commit.

  Section Node.
    Variables Q P : run -> run -> Prop.
    Hypothesis CQ : closed Q Q.
    Hypothesis CP : closed Q P.
    Local Notation PC := (pair_cont P).
    Local Notation PM := (pair_matcher P).
    Local Notation QM := (pair_matcher Q).

    (** Whether backreferences are allowed, and then respected by the relations. *)
    Variable bk : bool.
    Hypothesis Hbk : bk = true -> forall rd i,
      PM (backref_match cf base rd i) (backref_match cf base rd i).

    (** Two trees with the same root and related parts (at fuel [f] and layer [rd]). *)
    Definition related f rd (x y : node) : Prop :=
      alike x y /\ QM (m cf names base f rd x) (m cf names base f rd y)
      /\ PM (m cf names base f rd x) (m cf names base f rd y).

    Inductive same_shape f rd : node -> node -> Prop :=
    | ss_leaf n : (match n with
                   | Empty | BeginLine | BeginInput | EndLine | EndInput | WordB | Wild
                   | Lit _ | Range _ _ => True
                   | Backref _ | NBackref _ => bk = true
                   | _ => False end) -> same_shape f rd n n
    | ss_set l1 l2 : Forall2 alike l1 l2 -> same_shape f rd (CSet l1) (CSet l2)
    | ss_neg x y : related f rd x y -> same_shape f rd (Neg x) (Neg y)
    | ss_seq l1 l2 : Forall2 (related f rd) l1 l2 -> same_shape f rd (Seq l1) (Seq l2)
    | ss_alt l1 l2 : Forall2 (related f rd) l1 l2 -> same_shape f rd (Alt l1) (Alt l2)
    | ss_cap id nm x y : related f rd x y -> same_shape f rd (Cap id nm x) (Cap id nm y)
    | ss_rep md lo hi x y : related f rd x y -> same_shape f rd (Rep md lo hi x) (Rep md lo hi y)
    | ss_ahead x y : related f rd x y -> same_shape f rd (Look Ahead x) (Look Ahead y)
    | ss_behind x y : alike x y -> related f (S rd) (invert x) (invert y) ->
        same_shape f rd (Look Behind x) (Look Behind y).

    Lemma related_m f rd x y : same_shape f rd x y ->
      PM (m cf names base (S f) rd x) (m cf names base (S f) rd y).
    Proof.
      intros Hsh cur k1 k2 Hc Hk. cbn [m].
      assert (Hv : length (view base rd) = N0) by apply view_length.
      assert (Hnode : forall x y, alike x y ->
        forall cur, cur <= N0 -> P (fun c => match_trivial (view base rd) (match_one cf x) cur c k1)
                     (fun c => match_trivial (view base rd) (match_one cf y) cur c k2)).
      { intros x0 y0 (_ & _ & _ & Ho) cur0 Hc0. now apply (r_trivial _ _ CP). }
      assert (Hrefl : forall x, alike x x) by (intros; repeat split).
      destruct Hsh as [n Hn|l1 l2 Hl|x y (Hxy & Hq & Hp)|l1 l2 Hl|l1 l2 Hl|id nm x y (Hxy & Hq & Hp)
                      |md lo hi x y (Hxy & Hq & Hp)|x y (Hxy & Hq & Hp)|x y Hxy (Hxy' & Hq & Hp)].
      - destruct n; try contradiction.
        + now apply Hk.
        + destruct (Nat.eqb cur 0); [now apply Hk|].
          destruct (multiline cf); [|apply (r_fail _ _ CP)].
          destruct (is_bidirectional cf); [|apply (c_undef _ _ CP)].
          apply (r_deref _ _ CP); auto. intros a _. now apply (r_assert _ _ CP).
        + now apply (r_assert _ _ CP).
        + destruct (Nat.eqb _ _); [now apply Hk|]. destruct (multiline cf); [|apply (r_fail _ _ CP)].
          apply (r_deref _ _ CP); auto. intros a _. now apply (r_assert _ _ CP).
        + now apply (r_assert _ _ CP).
        + destruct (negb _); [apply (c_ill _ _ CP)|]. cbv zeta.
          assert (Ha : forall b, P (fun c =>
            if Nat.eqb cur (length (view base rd)) then assert_that (xorb b false) cur c k1
            else deref (view base rd) cur (fun a => assert_that (xorb b (match_one cf n_word a)) cur c k1))
            (fun c =>
            if Nat.eqb cur (length (view base rd)) then assert_that (xorb b false) cur c k2
            else deref (view base rd) cur (fun a => assert_that (xorb b (match_one cf n_word a)) cur c k2))).
          { intros b. destruct (Nat.eqb _ _); [now apply (r_assert _ _ CP)|].
            apply (r_deref _ _ CP); auto. intros a _. now apply (r_assert _ _ CP). }
          destruct (Nat.eqb cur 0); [apply Ha|].
          apply (r_deref _ _ CP _ Hv (cur - 1) (fun c a =>
            if Nat.eqb cur (length (view base rd)) then assert_that (xorb (match_one cf n_word a) false) cur c k1
            else deref (view base rd) cur (fun a0 =>
              assert_that (xorb (match_one cf n_word a) (match_one cf n_word a0)) cur c k1))
            (fun c a =>
            if Nat.eqb cur (length (view base rd)) then assert_that (xorb (match_one cf n_word a) false) cur c k2
            else deref (view base rd) cur (fun a0 =>
              assert_that (xorb (match_one cf n_word a) (match_one cf n_word a0)) cur c k2))).
          intros a _. apply Ha.
        + now apply Hnode.
        + now apply Hnode.
        + now apply Hnode.
        + now apply Hbk.
        + destruct (unique_position _ _); [now apply Hbk|apply (c_ill _ _ CP)].
      - apply (r_trivial _ _ CP); auto. intros a. cbn [match_one]. now apply existsb_alike.
      - destruct Hxy as (Ht & Hz & Ha & Ho). rewrite Ha. destruct (is_assertion y).
        + apply (c_on _ _ CP); [|intros; apply (r_fail _ _ CP)|now apply Hk].
          apply Hq; auto. apply (r_success _ _ CQ).
        + apply (r_trivial _ _ CP); auto. intros a. cbn [match_one]. now rewrite Ho.
      - apply (r_seq _ _ CP); auto. clear -Hl. induction Hl as [|x y l1 l2 (H1 & _ & H2) _ IH]; auto.
      - apply (r_alt _ _ CP); auto. clear -Hl. induction Hl as [|x y l1 l2 (H1 & _ & H2) _ IH]; auto.
      - apply (c_or _ _ CP); [|apply (r_clear _ _ CP)]. apply Hp; auto. intros j Hj.
        now apply (r_store _ _ CP).
      - now apply (r_rep Q P CQ CP).
      - destruct Hxy as (Ht & Hz & Ha & Ho). rewrite Ht. destruct (trivial y).
        + destruct (Nat.eqb _ _); [apply (r_fail _ _ CP)|]. apply (r_deref _ _ CP); auto.
          intros a _. rewrite Ho. now apply (r_assert _ _ CP).
        + apply (c_on _ _ CP); [|intros; now apply Hk|apply (r_fail _ _ CP)].
          apply Hq; auto. apply (r_success _ _ CQ).
      - destruct Hxy as (Ht & Hz & Ha & Ho). destruct (negb _); [apply (c_ill _ _ CP)|].
        rewrite Ht. destruct (trivial y).
        + destruct (Nat.eqb _ _); [apply (r_fail _ _ CP)|]. apply (r_deref _ _ CP); auto.
          intros a _. rewrite Ho. now apply (r_assert _ _ CP).
        + apply (c_on _ _ CP); [|intros; now apply Hk|apply (r_fail _ _ CP)].
          apply Hq; [lia|]. apply (r_success _ _ CQ).
    Qed.
  End Node.

  (** ** Reflexivity *)

  Lemma alike_refl x : alike x x.
  Proof. repeat split. Qed.

  Lemma backref_free_invert n : backref_free (invert n) = backref_free n.
  Proof.
    induction n as [| | | | | | | | |l H|n IHn|l H|l H|id nm n IHn|md lo hi n IHn| | |d n IHn] using node_ind';
      cbn [invert backref_free]; auto.
    - rewrite reverse_pack_rev, forallb_rev, forallb_map. now apply forallb_ext_Forall.
    - rewrite forallb_map. now apply forallb_ext_Forall.
  Qed.

  Lemma shape_refl Q P bk f rd n : bk || backref_free n = true ->
    (forall rd x, bk || backref_free x = true ->
       pair_matcher Q (m cf names base f rd x) (m cf names base f rd x)
       /\ pair_matcher P (m cf names base f rd x) (m cf names base f rd x)) ->
    same_shape Q P bk f rd n n.
  Proof.
    intros Hb H.
    assert (Hr : forall rd x, bk || backref_free x = true -> related Q P f rd x x).
    { intros rd0 x Hx. split; [apply alike_refl|now apply H]. }
    assert (Hl : forall l, bk || forallb backref_free l = true -> Forall2 (related Q P f rd) l l).
    { intros l Hl. assert (F : forall x, In x l -> bk || backref_free x = true).
      { intros x Hx. destruct bk; [reflexivity|]. cbn in *. now apply (proj1 (forallb_forall _ _) Hl). }
      clear Hl. induction l as [|x r IH]; constructor; [apply Hr, F; now left|].
      apply IH. intros y Hy. apply F. now right. }
    destruct n; cbn [backref_free] in Hb;
      try (apply ss_leaf; cbn; auto; destruct bk; auto; fail).
    - apply ss_set. clear. induction l; constructor; auto using alike_refl.
    - apply ss_neg, Hr, Hb.
    - apply ss_seq, Hl, Hb.
    - apply ss_alt, Hl, Hb.
    - apply ss_cap, Hr, Hb.
    - apply ss_rep, Hr, Hb.
    - destruct d.
      + apply ss_ahead, Hr, Hb.
      + apply ss_behind; [apply alike_refl|]. apply Hr. now rewrite backref_free_invert.
  Qed.

  (** A closed relation relates every run to itself. *)
  Lemma self_related Q bk : closed Q Q ->
    (bk = true -> forall rd i, pair_matcher Q (backref_match cf base rd i) (backref_match cf base rd i)) ->
    forall f rd n, bk || backref_free n = true ->
    pair_matcher Q (m cf names base f rd n) (m cf names base f rd n).
  Proof.
    intros CQ Hbk. induction f as [|f IH]; intros rd n Hb.
    - intros cur k1 k2 _ _. apply (c_div _ _ CQ).
    - apply (related_m Q Q CQ CQ bk Hbk). apply shape_refl; auto.
  Qed.

  Lemma self_related_commit Q P bk : closed Q Q -> closed Q P ->
    (bk = true -> forall rd i, pair_matcher Q (backref_match cf base rd i) (backref_match cf base rd i)) ->
    (bk = true -> forall rd i, pair_matcher P (backref_match cf base rd i) (backref_match cf base rd i)) ->
    forall f rd n, bk || backref_free n = true ->
    pair_matcher P (m cf names base f rd n) (m cf names base f rd n).
  Proof.
    intros CQ CP Hq Hp. induction f as [|f IH]; intros rd n Hb.
    - intros cur k1 k2 _ _. apply (c_div _ _ CP).
    - apply (related_m Q P CQ CP bk Hp). apply shape_refl; auto.
      intros rd' x Hx. split; [now apply (self_related Q bk)|now apply IH].
  Qed.
End Relate.
