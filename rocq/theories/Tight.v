(** The bound of C62 on the number of steps is attained: k stars one after the other,
    followed by a letter that is not there, take n^k steps on n letters. *)
From Coq Require Import String Lia Factorial.
From Verif Require Import Costs Costing Effort Basics Examples Budget Syntax Normal Print Expressions.
Local Open Scope nat_scope.
Local Open Scope list_scope.

(** ** The ways to share letters out *)

Fixpoint sum_to (f : nat -> nat) (r : nat) : nat :=
  match r with 0 => f 0 | S r' => f r + sum_to f r' end.
Fixpoint ways (k r : nat) : nat := match k with 0 => 1 | S k' => sum_to (ways k') r end.

Lemma sum_to_le f g c r : (forall i, i <= r -> f i <= c * g i) -> sum_to f r <= c * sum_to g r.
Proof.
  induction r as [|r IH]; intros H; cbn [sum_to]; [apply H; lia|].
  specialize (H (S r) (le_n _)) as H1. assert (sum_to f r <= c * sum_to g r) by (apply IH; auto).
  lia.
Qed.

Lemma power_step k x : S x ^ S k <= x ^ S k + S k * S x ^ k.
Proof.
  induction k as [|k IH]; [cbn; lia|].
  rewrite (Nat.pow_succ_r' (S x) (S k)), (Nat.pow_succ_r' x (S k)).
  assert (H : x ^ S k <= S x ^ S k) by (apply Nat.pow_le_mono_l; lia).
  replace (S (S k) * S x ^ S k) with (S x ^ S k + S x * (S k * S x ^ k))
    by (rewrite (Nat.pow_succ_r' (S x) k); lia).
  nia.
Qed.

Lemma power_sum k r : S r ^ S k <= S k * sum_to (fun i => S i ^ k) r.
Proof.
  induction r as [|r IH].
  - cbn [sum_to]. rewrite !Nat.pow_1_l. lia.
  - cbn [sum_to]. pose proof (power_step k (S r)). lia.
Qed.

Lemma ways_power k : forall r, S r ^ k <= fact k * ways k r.
Proof.
  induction k as [|k IH]; intros r; [reflexivity|].
  pose proof (power_sum k r) as H.
  pose proof (sum_to_le (fun i => S i ^ k) (ways k) (fact k) r (fun i _ => IH i)) as H'.
  change (ways (S k) r) with (sum_to (ways k) r).
  change (fact (S k)) with (S k * fact k). nia.
Qed.

(** ** The steps *)

Section Stars.
  Variable n : nat.
  Variable names : list group_name.
  Let cf := config_of [] RandomAccessIt.
  Let x := Rep Greedy 0 Inf (Lit "a").
  Let s := letters n.

  Lemma back_sum (k : ccont) (w : nat -> nat) i r c : i + r = n ->
    (forall j, i <= j -> j <= n -> fails c (k j c) /\ w (n - j) <= steps (k j c)) ->
    forall d, d <= r ->
      fails c (c_step_back i d c k)
      /\ sum_to w r <= steps (c_step_back i d c k) + (if Nat.eqb d r then 0 else sum_to w (r - S d)).
  Proof.
    intros Hi Hk. induction d as [|d IH]; intros Hd; cbn [c_step_back]; unfold c_or_else at 1 2;
      cbn [round out].
    - destruct (Hk (i + 0)) as [(j & E) H1]; [lia|lia|]. rewrite E.
      cbn [Costs.after out steps round]. split; [eexists; reflexivity|].
      replace (n - (i + 0)) with r in H1 by lia.
      destruct r as [|r]; cbn [Nat.eqb sum_to].
      + cbn in *. lia.
      + replace (S r - 1) with r by lia. lia.
    - destruct (Hk (i + S d)) as [(j & E) H1]; [lia|lia|]. rewrite E.
      destruct (IH ltac:(lia)) as [F2 H2]. cbn [Costs.after out steps round]. split; [exact F2|].
      replace (n - (i + S d)) with (r - S d) in H1 by lia.
      destruct (Nat.eqb_spec d r); [lia|].
      destruct (Nat.eqb_spec (S d) r) as [Er|].
      + assert (E0 : r - S d = 0) by lia. rewrite E0 in H1, H2. cbn [sum_to] in H2.
        cbn [round] in *. lia.
      + replace (r - S d) with (S (r - S (S d))) in H2, H1 by lia. cbn [sum_to] in H2. lia.
  Qed.

  Definition stars (k : nat) : list node := repeat x k ++ [Lit "b"].

  Lemma lit_fails f i c k : i <= n ->
    let y := c_m cf names s (S f) 0 (Lit "b") i c k in fails c y /\ 1 <= steps y.
  Proof.
    intros Hi. cbn [c_m called out steps]. split; [|lia]. unfold fails. cbn [called out].
    unfold c_match_trivial. change (view s 0) with s. unfold s. rewrite letters_length.
    destruct (Nat.eqb_spec i n); [eexists; reflexivity|]. unfold c_deref.
    rewrite letters_nth by lia. eexists. reflexivity.
  Qed.

  Lemma stars_steps f kk c : forall k i, i <= n ->
    let y := c_seq_match cf s (c_m cf names s (S (S f)) 0) (stars k) i c kk in
    fails c y /\ ways k (n - i) <= steps y.
  Proof.
    induction k as [|k IH]; intros i Hi; cbv zeta.
    - apply (lit_fails (S f)); exact Hi.
    - change (stars (S k)) with (x :: stars k).
      remember (stars k) as l eqn:El.
      assert (Hl : exists y l', l = y :: l').
      { subst l. unfold stars. destruct k; cbn; eauto. }
      destruct Hl as (y & l' & ->). cbn [c_seq_match].
      cbn [forallb trivial x andb].
      set (K := fun (next : nat) (c' : caps) => _) in *.
      cbn [called out steps]. unfold fails. cbn [called out].
      enough (B : fails c (c_m cf names s (S (S f)) 0 x i c K)
                  /\ ways (S k) (n - i) <= steps (c_m cf names s (S (S f)) 0 x i c K)).
      { destruct B as [B1 B2]. split; [exact B1|lia]. }
      cbn [c_m x]. unfold c_rep_match. cbn [is_zero N.eqb bound_subtract is_infinity zlm andb].
      unfold c_between_bounds.
      cbn [xorb ungreedy cf config_of existsb trivial is_bidirectional cat andb].
      change (view s 0) with s.
      destruct (run_trivial n (fun next c' => c_step_back i (next - i) c' K) c (n - i)
        (loop_fuel Inf (List.length s) i) i) as [H1 H2]; [lia| |].
      { unfold s. rewrite letters_length. cbn. lia. }
      destruct (back_sum K (ways k) i (n - i) c) with (d := n - i) as [F3 H3]; [lia| |lia|].
      + intros j J1 J2. apply (IH j J2).
      + rewrite Nat.eqb_refl in H3. cbn [called out steps]. split.
        * destruct F3 as (j & E). exists j. cbn [called out]. rewrite <- E. exact H1.
        * change (flag_test [] F_ungreedy) with false. cbv iota.
          change (ways (S k) (n - i)) with (sum_to (ways k) (n - i)).
          change (is_bidirectional cf) with true. cbv iota.
          fold s in H2. fold cf in H2. lia.
  Qed.
End Stars.

(** ** The calls *)

Definition starred (k : nat) : node :=
  match k with 0 => Lit "b" | _ => Seq (stars k) end.

Lemma size_above k : exists f, size (starred k) = S (S (S f)) \/ k = 0.
Proof.
  destruct k as [|k]; [exists 0; auto|].
  unfold starred. rewrite size_Seq. change (stars (S k)) with (Rep Greedy 0 Inf (Lit "a") :: stars k).
  exists (list_sum (map size (stars k))). left. reflexivity.
Qed.

Lemma node_steps k n c i kk : i <= n ->
  let cf := config_of [] RandomAccessIt in
  let y := c_node_match cf (group_names (starred k)) (letters n) 0 (starred k) i c kk in
  fails c y /\ ways k (n - i) <= steps y.
Proof.
  intros Hi. cbv zeta. unfold c_node_match.
  destruct (size_above k) as (f & [E| ->]).
  - rewrite E. destruct k as [|k].
    + apply (lit_fails n _ (S (S f))); exact Hi.
    + change (starred (S k)) with (Seq (stars (S k))). cbn [c_m].
      apply (stars_steps n _ f); exact Hi.
  - apply (lit_fails n _ 0); exact Hi.
Qed.

Lemma match_steps k n :
  ways k n <= steps (cost_of c_match_method (mk_regex (starred k) []) RandomAccessIt (letters n)).
Proof.
  unfold cost_of, c_match_method. cbn [ast flags]. cbv zeta.
  set (y := c_node_match _ _ _ _ _ _ _ _).
  assert (H : ways k n <= steps y).
  { pose proof (node_steps k n (initial_captures (starred k)) 0 (c_equals (List.length (letters n)))
      (Nat.le_0_l n)) as [_ H]. rewrite Nat.sub_0_r in H. exact H. }
  destruct (out y); cbn [with_out steps]; exact H.
Qed.

Lemma search_steps k n c : forall r fuel i, i + r = n -> r < fuel ->
  sum_to (ways k) r
  <= steps (c_search_loop fuel (config_of [] RandomAccessIt) (starred k) (letters n) i c).
Proof.
  induction r as [|r IH]; intros [|fuel] i Hi Hf; try lia; cbn [c_search_loop];
    destruct (node_steps k n c i c_success ltac:(lia)) as [(j & E) H]; cbn [round out];
    rewrite E; cbn [Costs.after steps round sum_to].
  - replace (n - i) with 0 in H by lia. lia.
  - replace (n - i) with (S r) in H by lia. rewrite letters_length.
    destruct (Nat.eqb_spec i n); [lia|].
    pose proof (IH fuel (S i) ltac:(lia) ltac:(lia)). lia.
Qed.

Lemma stars_all (p : node -> bool) k : p (Rep Greedy 0 Inf (Lit "a")) = true ->
  p (Lit "b") = true -> forallb p (stars k) = true.
Proof.
  intros H1 H2. unfold stars. induction k as [|k IH]; cbn; [now rewrite H2|]. now rewrite H1.
Qed.

Lemma stars_sum (f : node -> nat) k :
  list_sum (map f (stars k)) = k * f (Rep Greedy 0 Inf (Lit "a")) + f (Lit "b").
Proof.
  unfold stars. induction k as [|k IH]; [cbn; lia|].
  change (f (Rep Greedy 0 Inf (Lit "a")) + list_sum (map f (repeat (Rep Greedy 0 Inf (Lit "a")) k ++ [Lit "b"]))
          = S k * f (Rep Greedy 0 Inf (Lit "a")) + f (Lit "b")).
  rewrite IH. lia.
Qed.

Lemma starred_shape k : tame (starred k) = true /\ degree (starred k) = k
  /\ exists p, parse p = P_ok (starred k).
Proof.
  destruct k as [|k].
  { split; [reflexivity|]. split; [reflexivity|]. exists (str "b"). vm_compute. reflexivity. }
  unfold starred. split; [|split].
  - cbn [tame]. apply stars_all; reflexivity.
  - change (degree (Seq (stars (S k)))) with (list_sum (map degree (stars (S k)))).
    rewrite stars_sum. cbn [degree]. lia.
  - exists (print 0 (Seq (stars (S k)))).
    assert (H : printable (Seq (stars (S k))) = true).
    { cbn [printable]. rewrite !stars_all by reflexivity. rewrite !Bool.andb_true_r.
      unfold stars. rewrite app_length, repeat_length. apply Nat.leb_le. cbn. lia. }
    rewrite (parse_print _ H). f_equal. apply index_free.
    change (list_sum (map capture_count (stars (S k))) = 0). rewrite stars_sum. cbn. lia.
Qed.

(** Every degree is attained, for [match] and with one more for [search]. *)
Theorem degree_attained k : exists r, tame (ast r) = true /\ degree (ast r) = k
  /\ (exists p, parse p = P_ok (ast r))
  /\ forall n, exists s, List.length s = n
       /\ S n ^ k <= fact k * steps (cost_of c_match_method r RandomAccessIt s)
       /\ S n ^ S k <= fact (S k) * steps (cost_of c_search_method r RandomAccessIt s).
Proof.
  exists (mk_regex (starred k) []). cbn [ast].
  destruct (starred_shape k) as (H1 & H2 & H3). do 3 (split; [assumption|]).
  intros n. exists (letters n). split; [apply letters_length|]. split.
  - eapply Nat.le_trans; [apply ways_power|]. apply Nat.mul_le_mono_l, match_steps.
  - eapply Nat.le_trans; [apply ways_power|]. apply Nat.mul_le_mono_l.
    unfold cost_of, c_search_method. cbn [ast flags].
    apply search_steps with (r := n); rewrite ?letters_length; lia.
Qed.
