(** The parser without fuel: one lemma per transition. *)
From Verif Require Import Parser.
From Coq Require Import Lia.

(** How many stack symbols a symbol turns into, at most, before the next token
    is read. *)
Definition weight (s : symbol) : nat :=
  match s with
  | quantifier_begin => 6
  | group_begin_or_mod | set_range_begin => 3
  | group_begin | hex_esc_seq _ | quantifier_mod _ _ _ | backref_id _ => 2
  | _ => 1
  end.

Definition weights (l : list symbol) : nat := list_sum (map weight l).

Lemma weights_app l1 l2 : weights (l1 ++ l2) = weights l1 + weights l2.
Proof. unfold weights. now rewrite map_app, list_sum_app. Qed.

Lemma weights_cons s l : weights (s :: l) = weight s + weights l.
Proof. reflexivity. Qed.

Ltac split_rule := repeat match goal with
  | H : (if ?b then _ else _) = _ |- _ => destruct b; try discriminate
  | H : match ?x with _ => _ end = _ |- _ => destruct x; try discriminate
  end.

Lemma escaped_not_push c l : handle_escaped_char c <> Push l.
Proof. unfold handle_escaped_char. intros H. split_rule. Qed.

Lemma atom_advances tail c : exists l, atom tail c = Advance l.
Proof. unfold atom. repeat (match goal with |- context [if ?b then _ else _] => destruct b end); eauto. Qed.

Lemma rule_push s token l : rule s token = Push l -> weights l < weight s.
Proof.
  destruct s; cbn [rule weight]; intros H; split_rule;
    try (unfold handle_set_range_escape_sequence, handle_escape_sequence, handle_set_escape_sequence,
           begin_name, continue_name, continue_quantifier_value, continue_quantifier_range,
           begin_quantifier_value, continue_hex_escape_sequence, abort_quantifier_parsing in H; cbv zeta in H;
         split_rule);
    try (exfalso; eapply escaped_not_push; exact H);
    try (match goal with H : atom ?t ?c = _ |- _ => destruct (atom_advances t c) as [? E]; rewrite E in H; discriminate end);
    try discriminate; injection H as <-; cbn; lia.
Qed.

Lemma weights_fuel symbols : weights symbols < token_fuel symbols.
Proof.
  unfold token_fuel. induction symbols as [|s r IH]; [cbn; lia|].
  rewrite weights_cons. cbn [length]. assert (weight s <= 6) by (destruct s; cbn; lia). lia.
Qed.

Lemma token_fuel_cons s r : token_fuel (s :: r) = S (7 + 8 * S (length r)).
Proof. unfold token_fuel. cbn [length]. lia. Qed.

Definition is_act (s : symbol) : bool := match s with Act _ => true | _ => false end.

Lemma token_act f i prev token nodes a r :
  parse_token (S f) i prev token nodes (Act a :: r)
  = match build a prev nodes with
    | Some nodes' => parse_token f i prev token nodes' r
    | None => P_result P_stuck
    end.
Proof. reflexivity. Qed.

Lemma token_rule f i prev token nodes s r : is_act s = false ->
  parse_token (S f) i prev token nodes (s :: r)
  = match rule s token with
    | Ignore => parse_token f i prev token nodes r
    | Push l => parse_token f i prev token nodes (l ++ r)
    | Advance l => P_state nodes (l ++ r)
    | Reject => P_result (P_error i)
    | Accept => P_result (P_ok (accepted_tree nodes))
    end.
Proof. destruct s; easy. Qed.

Lemma parse_token_fuel f1 : forall f2 i prev token nodes symbols,
  weights symbols < f1 -> weights symbols < f2 ->
  parse_token f1 i prev token nodes symbols = parse_token f2 i prev token nodes symbols.
Proof.
  induction f1 as [|f1 IH]; intros [|f2] i prev token nodes symbols H1 H2; try lia.
  destruct symbols as [|s r]; [reflexivity|].
  rewrite weights_cons in *.
  assert (Hw : 1 <= weight s) by (destruct s; cbn; lia).
  destruct (is_act s) eqn:A.
  - destruct s; try discriminate. rewrite !token_act.
    destruct (build a prev nodes); [apply IH; lia|reflexivity].
  - rewrite !token_rule by exact A. pose proof (rule_push s token) as Hp.
    destruct (rule s token); try reflexivity; [apply IH; lia|].
    specialize (Hp _ eq_refl). apply IH; rewrite weights_app; lia.
Qed.

Lemma enough_fuel r : weights r < 7 + 8 * S (length r).
Proof. pose proof (weights_fuel r). unfold token_fuel in *. lia. Qed.

Lemma from_token rest i prev nodes symbols :
  parse_from i prev rest nodes symbols
  = match parse_token (token_fuel symbols) i prev (hd_error rest) nodes symbols with
    | P_result r => r
    | P_state nodes' symbols' =>
        match rest with
        | [] => P_stuck
        | c :: rest' => parse_from (S i) (Some c) rest' nodes' symbols'
        end
    end.
Proof. now destruct rest. Qed.

(** The parser at a position of the pattern. *)
Lemma parse_act i prev rest nodes a r nodes' : build a prev nodes = Some nodes' ->
  parse_from i prev rest nodes (Act a :: r) = parse_from i prev rest nodes' r.
Proof.
  intros H. rewrite !from_token, token_fuel_cons, token_act, H.
  now rewrite (parse_token_fuel _ (token_fuel r)) by auto using enough_fuel, weights_fuel.
Qed.

Lemma parse_act_stuck i prev rest nodes a r : build a prev nodes = None ->
  parse_from i prev rest nodes (Act a :: r) = P_stuck.
Proof. intros H. now rewrite from_token, token_fuel_cons, token_act, H. Qed.

Lemma parse_ignore i prev rest nodes s r : is_act s = false -> rule s (hd_error rest) = Ignore ->
  parse_from i prev rest nodes (s :: r) = parse_from i prev rest nodes r.
Proof.
  intros Ha H. rewrite !from_token, token_fuel_cons, token_rule, H by assumption.
  now rewrite (parse_token_fuel _ (token_fuel r)) by auto using enough_fuel, weights_fuel.
Qed.

Lemma parse_push i prev rest nodes s r l : is_act s = false -> rule s (hd_error rest) = Push l ->
  parse_from i prev rest nodes (s :: r) = parse_from i prev rest nodes (l ++ r).
Proof.
  intros Ha H. rewrite !from_token, token_fuel_cons, token_rule, H by assumption.
  pose proof (rule_push s _ l H) as Hw.
  pose proof (weights_fuel (s :: r)) as Hf. rewrite weights_cons, token_fuel_cons in Hf.
  rewrite (parse_token_fuel _ (token_fuel (l ++ r))); [reflexivity| |apply weights_fuel].
  rewrite weights_app. lia.
Qed.

Lemma parse_advance i prev c rest nodes s r l : is_act s = false -> rule s (Some c) = Advance l ->
  parse_from i prev (c :: rest) nodes (s :: r) = parse_from (S i) (Some c) rest nodes (l ++ r).
Proof.
  intros Ha H. rewrite from_token, token_fuel_cons, token_rule by assumption. cbn [hd_error].
  now rewrite H.
Qed.

Lemma parse_reject i prev rest nodes s r : is_act s = false -> rule s (hd_error rest) = Reject ->
  parse_from i prev rest nodes (s :: r) = P_error i.
Proof. intros Ha H. now rewrite from_token, token_fuel_cons, token_rule, H by assumption. Qed.

Lemma parse_end i prev nodes : parse_from i prev [] nodes [] = P_ok (accepted_tree nodes).
Proof. reflexivity. Qed.

Lemma parse_trailing i prev c rest nodes : parse_from i prev (c :: rest) nodes [] = P_error i.
Proof. reflexivity. Qed.

(** One token never runs out of fuel. *)
Lemma token_no_loop i prev token nodes symbols f : weights symbols < f ->
  parse_token f i prev token nodes symbols <> P_result P_loop.
Proof.
  revert nodes symbols. induction f as [|f IH]; intros nodes symbols H; [lia|].
  destruct symbols as [|s r]; [cbn; destruct (rule_empty token); discriminate|].
  rewrite weights_cons in H. assert (Hw : 1 <= weight s) by (destruct s; cbn; lia).
  destruct (is_act s) eqn:A.
  - destruct s; try discriminate. rewrite token_act.
    destruct (build a prev nodes); [apply IH; lia|discriminate].
  - rewrite token_rule by exact A. pose proof (rule_push s token) as Hp.
    destruct (rule s token); try discriminate; [apply IH; lia|].
    specialize (Hp _ eq_refl). apply IH. rewrite weights_app. lia.
Qed.

Theorem parse_no_loop : forall rest i prev nodes symbols,
  parse_from i prev rest nodes symbols <> P_loop.
Proof.
  induction rest as [|c rest IH]; intros i prev nodes symbols; rewrite from_token.
  - pose proof (token_no_loop i prev (hd_error []) nodes symbols _ (weights_fuel symbols)) as H.
    destruct (parse_token _ _ _ _ _ _); [discriminate|congruence].
  - pose proof (token_no_loop i prev (hd_error (c :: rest)) nodes symbols _ (weights_fuel symbols)) as H.
    destruct (parse_token _ _ _ _ _ _); [apply IH|congruence].
Qed.

(** Errors carry the position at which they are found. *)
Lemma token_error f : forall i prev token nodes symbols j,
  parse_token f i prev token nodes symbols = P_result (P_error j) -> j = i.
Proof.
  induction f as [|f IH]; intros i prev token nodes symbols j H; [discriminate|].
  cbn [parse_token] in H. destruct symbols as [|s r].
  - destruct (rule_empty token); congruence.
  - destruct (is_act s) eqn:A.
    + destruct s; try discriminate. destruct (build a prev nodes); [eapply IH; exact H|congruence].
    + change (parse_token (S f) i prev token nodes (s :: r) = P_result (P_error j)) in H.
      rewrite token_rule in H by exact A.
      destruct (rule s token); try congruence; eapply IH; exact H.
Qed.

Theorem error_bound : forall rest i prev nodes symbols j,
  parse_from i prev rest nodes symbols = P_error j -> i <= j <= i + length rest.
Proof.
  induction rest as [|c rest IH]; intros i prev nodes symbols j H; rewrite from_token in H;
    destruct (parse_token _ _ _ _ _ _) as [n' s'|r] eqn:E; try discriminate.
  - subst r. apply token_error in E. cbn. lia.
  - apply IH in H. cbn. lia.
  - subst r. apply token_error in E. cbn. lia.
Qed.

(** C30: an error depends only on the pattern up to its position. *)
Theorem error_determined : forall rest rest' i prev nodes symbols j,
  parse_from i prev rest nodes symbols = P_error j ->
  (forall k, i + k <= j -> nth_error rest' k = nth_error rest k) ->
  parse_from i prev rest' nodes symbols = P_error j.
Proof.
  induction rest as [|c rest IH]; intros rest' i prev nodes symbols j H Hk.
  - pose proof (error_bound _ _ _ _ _ _ H) as Hb. cbn in Hb.
    assert (rest' = []) as ->; [|exact H].
    specialize (Hk 0 ltac:(lia)). now destruct rest'.
  - pose proof (error_bound _ _ _ _ _ _ H) as Hb.
    destruct rest' as [|c' rest']; [specialize (Hk 0 ltac:(lia)); discriminate|].
    assert (c' = c) as -> by (specialize (Hk 0 ltac:(lia)); cbn in Hk; congruence).
    rewrite from_token in H |- *. cbn [hd_error] in *.
    destruct (parse_token _ _ _ _ _ _) as [n' s'|r]; [|exact H].
    apply IH; auto. intros k Hle. apply (Hk (S k)). lia.
Qed.
