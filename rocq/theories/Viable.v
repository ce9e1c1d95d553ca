(** Where syntax errors are reported (C30): the text in front of the position can
    be completed to a pattern. *)
From Verif Require Import Parser Basics Steps Typing.
From Coq Require Import Lia.

(** ** How to complete a pattern *)

(** A text that a symbol can be satisfied with. *)
Definition closer (s : symbol) : list ascii :=
  match s with
  | expect c => [c]
  | s_esc | set_esc | set_range_esc => str "-"
  | s_alt_seq => str "a"
  | group_mod => str ":"
  | group_mod_less_than => str "="
  | backref_name_begin => str "n>"
  | backref_name_seq _ | capture_name_seq _ => str ">"
  | hex_esc_seq [] => str "00"
  | hex_esc_seq [_] => str "0"
  | quantifier_value _ | quantifier_range _ _ => str "}"
  | _ => []
  end.

Definition closing (l : list symbol) : list ascii := flat_map closer l.

Lemma closing_app l r : closing (l ++ r) = closing l ++ closing r.
Proof. apply flat_map_app. Qed.

(** The character that comes next, when [t] follows. *)
Definition next_char (l : list symbol) (t : option ascii) : option ascii :=
  match hd_error (closing l) with Some c => Some c | None => t end.

Lemma next_char_closing l r : hd_error (closing (l ++ r)) = next_char l (hd_error (closing r)).
Proof. rewrite closing_app. unfold next_char. now destruct (closing l). Qed.

Definition at_end (t : option ascii) : bool :=
  match t with None => true | Some c => Ascii.eqb c ")" end.
Definition is_char (x : ascii) (t : option ascii) : bool :=
  match t with None => false | Some c => Ascii.eqb c x end.

(** What may follow a symbol. *)
Definition follow (s : symbol) (t : option ascii) : bool :=
  match s with
  | s_begin => match t with None => true | _ => false end
  | s_seq | s_alt | s_alt_seq | s_mod | s_esc | backref_name_begin | backref_name_seq _ | backref_id _
  | unquantifiable | quantifier_begin | quantifier_value _ | quantifier_range _ _ | quantifier_mod _ _ _ => at_end t
  | group_begin_or_mod | group_mod | group_mod_less_than | capture_name_seq _ | group_begin => is_char ")" t
  | set_begin_or_neg | set_begin | set_seq | set_range_begin | set_range_seq => is_char "]" t
  | hex_esc_seq ds => Nat.leb (length ds) 2
  | _ => true
  end%char.

Fixpoint closable (l : list symbol) (t : option ascii) : bool :=
  match l with
  | [] => true
  | s :: r => follow s (next_char r t) && closable r t
  end.

Lemma closable_app l r t : closable (l ++ r) t = closable l (next_char r t) && closable r t.
Proof.
  induction l as [|s l IH]; [reflexivity|]. cbn [app closable]. rewrite IH, Bool.andb_assoc. do 2 f_equal.
  unfold next_char. rewrite closing_app. now destruct (closing l).
Qed.

Ltac cases_of H := repeat match type of H with
  | context [if ?b then _ else _] => destruct b eqn:?; try discriminate H
  end.

Ltac ends t F := destruct t as [t0|]; cbn [at_end is_char follow] in F; try discriminate F;
  try (apply Ascii.eqb_eq in F; subst t0).

Lemma closable_escaped c l t : handle_escaped_char c = Advance l -> at_end t = true -> closable l t = true.
Proof.
  intros H F. unfold handle_escaped_char in H. cases_of H; injection H as <-; ends t F; reflexivity.
Qed.

Lemma closable_set_esc c l t : handle_set_escape_sequence c = Advance l -> closable l t = true.
Proof.
  intros H. unfold handle_set_escape_sequence, handle_escaped_char in H.
  repeat match type of H with
  | (if ?b then _ else _) = _ =>
      first [ match goal with E : b = _ |- _ => rewrite E in H end
            | let E := fresh "E" in destruct b eqn:E ]
  end; try discriminate H; injection H as <-; reflexivity.
Qed.

Lemma closable_atom tail c l t : atom tail c = Advance l -> closable tail t = true -> at_end (next_char tail t) = true ->
  closable l t = true.
Proof.
  intros H T F. unfold atom in H.
  assert (N : forall s, closer s = [] -> next_char (s :: tail) t = next_char tail t).
  { intros s E. unfold next_char, closing. cbn [flat_map]. now rewrite E. }
  cases_of H; injection H as <-; cbn [closable follow]; rewrite ?T, ?N by reflexivity; rewrite ?F; reflexivity.
Qed.

(** The rules put only symbols that can be satisfied. *)
Lemma closable_step s token l t : follow s t = true -> result_of s token = Some l -> closable l t = true.
Proof.
  intros F H. unfold result_of in H.
  assert (A : forall tail c l0, Some l0 = Some l -> atom tail c = Advance l0 -> closable tail t = true ->
    at_end (next_char tail t) = true -> closable l t = true).
  { intros tail c l0 E. injection E as ->. apply closable_atom. }
  destruct s; cbn [follow] in F; cbn [rule] in H; try discriminate H.
  all: try (destruct token as [c0|]; [|try discriminate H]).
  all: unfold begin_name, continue_name, continue_quantifier_value, continue_quantifier_range,
         begin_quantifier_value, abort_quantifier_parsing, handle_escape_sequence,
         handle_set_range_escape_sequence in H.
  all: cases_of H.
  all: try (injection H as <-; ends t F; reflexivity).
  all: try (match type of H with context [atom ?tl ?c] =>
         destruct (atom_advances tl c) as [l0 E]; rewrite E in H;
         refine (A _ _ _ H E _ _); ends t F; reflexivity end).
  all: try (destruct (esc_shape c0) as [l0 E]; rewrite E in H; injection H as <-; eapply closable_escaped; eassumption).
  all: try (destruct (set_esc_shape c0) as [l0 E]; rewrite E in H; injection H as <-; eapply closable_set_esc; eassumption).
  all: destruct digits as [|a [|b [|d ds]]]; cbn in H; try discriminate H; try discriminate F.
  all: cases_of H; injection H as <-; reflexivity.
Qed.

(** The next step of the completion. *)
Lemma closer_step s t : is_act s = false -> follow s t = true ->
  match closer s with
  | [] => match rule s t with Ignore => True | Push l => closing l = [] | _ => False end
  | c :: w => exists l, rule s (Some c) = Advance l /\ closing l = w
  end.
Proof.
  intros A F. destruct s; try discriminate A; cbn [follow closer] in *.
  all: try (ends t F; cbn; try reflexivity; exact I).
  all: try (eexists; split; [reflexivity|reflexivity]).
  - exists []. cbn [rule]. now rewrite Ascii.eqb_refl.
  - destruct digits as [|a [|b [|d ds]]]; try discriminate F.
    + eexists. split; reflexivity.
    + eexists. split; reflexivity.
    + reflexivity.
Qed.

Lemma close_state m : forall k i prev nodes symbols,
  length (closing symbols) <= m -> weights symbols <= k ->
  ok prev nodes symbols -> closable symbols None = true ->
  exists n, parse_from i prev (closing symbols) nodes symbols = P_ok n.
Proof.
  induction m as [m IHm] using lt_wf_ind.
  induction k as [k IHk] using lt_wf_ind. intros i prev nodes symbols Hm Hk Hok Hc.
  destruct symbols as [|s r]; [eexists; apply parse_end|].
  rewrite weights_cons in Hk. assert (Hw : 1 <= weight s) by (destruct s; cbn; lia).
  change (closing (s :: r)) with (closer s ++ closing r) in *.
  cbn [closable] in Hc. apply andb_prop in Hc. destruct Hc as [Hf Hc].
  assert (Et : next_char r None = hd_error (closing r)) by (unfold next_char; now destruct (closing r)).
  rewrite Et in Hf.
  destruct (is_act s) eqn:A.
  { destruct s; try discriminate A. destruct (ok_act _ _ _ _ Hok) as (c & nodes' & _ & E & Hok').
    cbn [closer app] in *. setoid_rewrite (parse_act _ _ _ _ _ _ _ E).
    apply (IHk (weights r)); auto; lia. }
  pose proof (closer_step s _ A Hf) as St. destruct (closer s) as [|c w] eqn:Ec.
  - cbn [app] in *. destruct (rule s (hd_error (closing r))) eqn:R; try contradiction.
    + setoid_rewrite (parse_ignore _ _ _ _ _ _ A R).
      destruct (ok_ignore _ _ _ _ _ Hok R) as [[Hn Ho]|Hok'].
      * destruct s; try discriminate Ho; cbn [follow] in Hf; rewrite Hn in Hf; try discriminate Hf.
        destruct (ok_only_begin _ _ _ Hok) as [-> ->]. eexists. reflexivity.
      * apply (IHk (weights r)); auto; lia.
    + setoid_rewrite (parse_push _ _ _ _ _ _ _ A R).
      assert (E : closing (l ++ r) = closing r) by now rewrite closing_app, St.
      rewrite <- E. pose proof (rule_push _ _ _ R) as Hl.
      apply (IHk (weights (l ++ r))); rewrite ?weights_app, ?E; try lia.
      * eapply ok_push; eauto.
      * rewrite closable_app, Et, Hc, Bool.andb_true_r. eapply closable_step; [exact Hf|].
        unfold result_of. now rewrite R.
  - destruct St as (l & R & El). cbn [app]. setoid_rewrite (parse_advance _ _ _ _ _ _ _ _ A R).
    assert (E : closing (l ++ r) = w ++ closing r) by now rewrite closing_app, El.
    rewrite <- E. cbn [app length] in Hm.
    apply (IHm (length (closing (l ++ r)))) with (k := weights (l ++ r)); auto; rewrite ?E; try lia.
    + eapply ok_advance; eauto.
    + rewrite closable_app, Et, Hc, Bool.andb_true_r. eapply closable_step; [exact Hf|].
      unfold result_of. now rewrite R.
Qed.

(** ** The states of the parser can be completed *)

Lemma token_closable f : forall i prev token nodes symbols,
  closable symbols None = true ->
  match parse_token f i prev token nodes symbols with
  | P_state _ symbols' => closable symbols' None = true
  | _ => True
  end.
Proof.
  induction f as [|f IH]; intros i prev token nodes symbols Hc; [exact I|].
  destruct symbols as [|s r]; [cbn; now destruct (rule_empty token)|].
  pose proof Hc as Hc'. cbn [closable] in Hc. apply andb_prop in Hc. destruct Hc as [Hf Hc].
  destruct (is_act s) eqn:A.
  { destruct s; try discriminate A. rewrite token_act. destruct (build a prev nodes); [now apply IH|exact I]. }
  rewrite token_rule by exact A.
  assert (G : forall l, result_of s token = Some l -> closable (l ++ r) None = true).
  { intros l E. rewrite closable_app, Hc, Bool.andb_true_r. eapply closable_step; eauto. }
  unfold result_of in G. destruct (rule s token); try exact I;
    [now apply IH|apply IH; now apply G|now apply G].
Qed.

(** The text read before an error can be completed. *)
Theorem error_viable : forall rest i prev nodes symbols j,
  ok prev nodes symbols -> closable symbols None = true ->
  parse_from i prev rest nodes symbols = P_error j ->
  exists t n, parse_from i prev (firstn (j - i) rest ++ t) nodes symbols = P_ok n.
Proof.
  induction rest as [|c rest IH]; intros i prev nodes symbols j Hok Hc H.
  - exists (closing symbols). rewrite firstn_nil. cbn [app]. eapply close_state; eauto.
  - pose proof (error_bound _ _ _ _ _ _ H) as Hb.
    destruct (Nat.eq_dec j i) as [->|Hne].
    { exists (closing symbols). rewrite Nat.sub_diag. cbn [firstn app]. eapply close_state; eauto. }
    rewrite from_token in H. cbn [hd_error] in H.
    pose proof (token_ok _ i prev (Some c) nodes symbols (weights_fuel symbols) Hok) as T.
    pose proof (token_closable (token_fuel symbols) i prev (Some c) nodes symbols Hc) as T2.
    destruct (parse_token _ _ _ _ _ _) as [nodes' symbols'|r] eqn:E.
    2:{ subst r. apply token_error in E. congruence. }
    destruct T as (c' & [= <-] & T).
    destruct (IH _ _ _ _ _ T T2 H) as (t & n & Ht). exists t, n.
    replace (j - i) with (S (j - S i)) by lia. cbn [firstn app]. rewrite from_token. cbn [hd_error].
    now rewrite E.
Qed.

(** So can a pattern at whose end the parser is stuck. *)
Theorem stuck_viable : forall rest i prev nodes symbols,
  ok prev nodes symbols -> closable symbols None = true ->
  parse_from i prev rest nodes symbols = P_stuck ->
  exists t n, parse_from i prev (rest ++ t) nodes symbols = P_ok n.
Proof.
  induction rest as [|c rest IH]; intros i prev nodes symbols Hok Hc H.
  - exists (closing symbols). cbn [app]. eapply close_state; eauto.
  - rewrite from_token in H. cbn [hd_error] in H.
    pose proof (token_ok _ i prev (Some c) nodes symbols (weights_fuel symbols) Hok) as T.
    pose proof (token_closable (token_fuel symbols) i prev (Some c) nodes symbols Hc) as T2.
    destruct (parse_token _ _ _ _ _ _) as [nodes' symbols'|r] eqn:E.
    2:{ subst r. destruct T as [[=] _]. }
    destruct T as (c' & [= <-] & T).
    destruct (IH _ _ _ _ T T2 H) as (t & n & Ht). exists t, n.
    cbn [app]. rewrite from_token. cbn [hd_error]. now rewrite E.
Qed.

(** ** Syntax errors *)

(** The longest part of a pattern that is the beginning of some accepted pattern. *)
Definition viable (p : list ascii) : Prop := exists t n, parse (p ++ t) = P_ok n.

Lemma viable_before p q : viable (p ++ q) -> viable p.
Proof. intros (t & n & H). exists (q ++ t), n. now rewrite app_assoc. Qed.

Theorem parse_error_viable p i : parse p = P_error i -> viable (firstn i p).
Proof.
  intros H. destruct (error_viable _ _ _ _ _ _ ok_begin eq_refl H) as (t & n & Ht).
  rewrite Nat.sub_0_r in Ht. now exists t, n.
Qed.

Theorem parse_error_not_viable p i : parse p = P_error i -> i < length p -> ~ viable (firstn (S i) p).
Proof.
  intros H Hi (t & n & Ht).
  assert (E : parse (firstn (S i) p ++ t) = P_error i); [|congruence].
  apply (error_determined _ (firstn (S i) p ++ t) _ _ _ _ _ H). intros k Hk. cbn [plus] in Hk.
  rewrite nth_error_app1 by (rewrite firstn_length; lia).
  destruct (Nat.lt_ge_cases k (length p)) as [Hl|Hl]; [|lia].
  rewrite <- (firstn_skipn (S i) p) at 2. rewrite nth_error_app1 by (rewrite firstn_length; lia). reflexivity.
Qed.

Theorem parse_stuck_viable p : parse p = P_stuck -> viable p.
Proof. intros H. destruct (stuck_viable _ _ _ _ _ ok_begin eq_refl H) as (t & n & Ht). now exists t, n. Qed.

(** A pattern is rejected at [i] exactly if its first [i] characters can be
    completed, and one more cannot (or there is none). *)
Theorem parse_error_exact p i :
  parse p = P_error i <->
  i <= length p /\ viable (firstn i p) /\ (i < length p -> ~ viable (firstn (S i) p))
  /\ (i = length p -> parse p <> P_stuck /\ forall n, parse p <> P_ok n).
Proof.
  split.
  - intros H. split; [|split; [|split]].
    + apply error_bound in H. lia.
    + now apply parse_error_viable.
    + now apply parse_error_not_viable.
    + intros _. rewrite H. split; [discriminate|intros n; discriminate].
  - intros (Hi & Hv & Hn & He).
    assert (B : forall k, k <= length p -> viable (firstn k p) -> k <= i).
    { intros k Hk Vk. destruct (Nat.le_gt_cases k i) as [|Hlt]; [assumption|]. exfalso.
      apply Hn; [lia|]. apply (viable_before _ (skipn (S i) (firstn k p))).
      rewrite <- (firstn_skipn (S i) (firstn k p)) in Vk. rewrite firstn_firstn in Vk.
      now rewrite Nat.min_l in Vk by lia. }
    destruct (parse p) as [n|j| |] eqn:E.
    + destruct (Nat.eq_dec i (length p)) as [->|Hne]; [destruct (He eq_refl) as [_ Hno]; now destruct (Hno n)|].
      specialize (B (length p) ltac:(lia)). rewrite firstn_all in B.
      assert (V : viable p) by (exists [], n; now rewrite app_nil_r). apply B in V. lia.
    + f_equal. assert (Hj : j <= length p) by (apply error_bound in E; lia).
      assert (j <= i) by (apply B; [exact Hj|now apply parse_error_viable]).
      destruct (Nat.eq_dec j i) as [->|Hne]; [reflexivity|]. exfalso.
      apply (parse_error_not_viable p j E); [lia|].
      apply (viable_before _ (skipn (S j) (firstn i p))).
      rewrite <- (firstn_skipn (S j) (firstn i p)) in Hv. rewrite firstn_firstn in Hv.
      now rewrite Nat.min_l in Hv by lia.
    + apply parse_stuck_viable in E as V. rewrite <- (firstn_all p) in V. apply B in V; [|lia].
      destruct (He ltac:(lia)) as [Hs _]. now destruct Hs.
    + now apply parse_no_loop in E.
Qed.
