(** Bounds for the instantiations of the parser (ParserCosts.v). *)
From Verif Require Import ParserCosts Steps.
From Coq Require Import Lia.

(** ** The same outcomes *)
Lemma same_token f : forall i prev token nodes symbols,
  fst (c_parse_token f i prev token nodes symbols) = parse_token f i prev token nodes symbols.
Proof.
  induction f as [|f IH]; intros i prev token nodes symbols; [reflexivity|].
  destruct symbols as [|s r]; [cbn; now destruct (rule_empty token)|].
  cbn [c_parse_token parse_token]. cbv zeta.
  assert (A : forall nodes symbols,
    fst (let (st, k) := c_parse_token f i prev token nodes symbols in (st, S k))
    = parse_token f i prev token nodes symbols).
  { intros nodes' symbols'. rewrite <- IH. now destruct (c_parse_token _ _ _ _ _ _). }
  destruct s; try (destruct (rule _ token); auto; fail).
  destruct (build a prev nodes); auto.
Qed.

Lemma same_from rest : forall i prev nodes symbols,
  fst (c_parse_from i prev rest nodes symbols) = parse_from i prev rest nodes symbols.
Proof.
  induction rest as [|c rest IH]; intros i prev nodes symbols; cbn [c_parse_from parse_from];
    rewrite <- same_token; destruct (c_parse_token _ _ _ _ _ _) as [[nodes' symbols'|r] k]; auto.
  cbn [fst]. rewrite <- IH. now destruct (c_parse_from _ _ _ _ _).
Qed.

(** ** The total is linear *)
Lemma rule_advance s token l : rule s token = Advance l -> weights l <= 8 + weight s.
Proof.
  destruct s; cbn [rule weight]; intros H; split_rule;
    try (unfold handle_set_range_escape_sequence, handle_escape_sequence, handle_set_escape_sequence, handle_escaped_char,
           begin_name, continue_name, continue_quantifier_value, continue_quantifier_range, atom,
           begin_quantifier_value, continue_hex_escape_sequence, abort_quantifier_parsing in H; cbv zeta in H;
         split_rule);
    try discriminate; injection H as <-; cbn; lia.
Qed.

Lemma weight_pos s : 1 <= weight s.
Proof. destruct s; cbn; lia. Qed.

(** What is still to do on the stack after a token. *)
Definition left_over (st : parser_state) : nat :=
  match st with P_state _ symbols => weights symbols | P_result _ => 0 end.

Lemma token_total f : forall i prev token nodes symbols st k,
  c_parse_token f i prev token nodes symbols = (st, k) ->
  k + left_over st <= weights symbols + 9.
Proof.
  induction f as [|f IH]; intros i prev token nodes symbols st k; cbn [c_parse_token]; cbv zeta.
  { intros H. injection H as <- <-. cbn. lia. }
  assert (A : forall nodes symbols', weights symbols' < weights symbols ->
    (let (st, k) := c_parse_token f i prev token nodes symbols' in (st, S k)) = (st, k) ->
    k + left_over st <= weights symbols + 9).
  { intros nodes' symbols' Hw H. destruct (c_parse_token f i prev token nodes' symbols') as [st1 k1] eqn:E.
    injection H as <- <-. apply IH in E. lia. }
  destruct symbols as [|s r].
  { destruct (rule_empty token); intros H; injection H as <- <-; cbn; lia. }
  rewrite weights_cons in *. pose proof (weight_pos s) as Hs.
  assert (B : match rule s token with
              | Ignore => let (st, k) := c_parse_token f i prev token nodes r in (st, S k)
              | Push l => let (st, k) := c_parse_token f i prev token nodes (l ++ r) in (st, S k)
              | Advance l => (P_state nodes (l ++ r), 1)
              | Reject => (P_result (P_error i), 1)
              | Accept => (P_result (P_ok (accepted_tree nodes)), 1)
              end = (st, k) -> k + left_over st <= weight s + weights r + 9).
  { destruct (rule s token) as [|l|l| |] eqn:E.
    - apply A. lia.
    - apply A. apply rule_push in E. rewrite weights_app. lia.
    - intros H. injection H as <- <-. apply rule_advance in E. cbn [left_over]. rewrite weights_app. lia.
    - intros H. injection H as <- <-. cbn. lia.
    - intros H. injection H as <- <-. cbn. lia. }
  destruct s; try exact B.
  destruct (build a prev nodes); [apply A; lia|]. intros H. injection H as <- <-. cbn. lia.
Qed.

Lemma from_total rest : forall i prev nodes symbols,
  list_sum (snd (c_parse_from i prev rest nodes symbols)) <= weights symbols + 9 * S (length rest)
  /\ length (snd (c_parse_from i prev rest nodes symbols)) <= S (length rest).
Proof.
  induction rest as [|c rest IH]; intros i prev nodes symbols; cbn [c_parse_from];
    destruct (c_parse_token _ _ _ _ _ _) as [st k] eqn:E; apply token_total in E;
    destruct st as [nodes' symbols'|r]; cbn [left_over snd list_sum fold_right length] in *;
    try (split; lia).
  specialize (IH (S i) (Some c) nodes' symbols').
  destruct (c_parse_from _ _ _ _ _) as [r ks]. cbn [snd list_sum fold_right length] in *.
  unfold list_sum in IH. lia.
Qed.

(** ** The stack between two expected characters *)

(** Kinds of symbols; 0 is a symbol that reads a character or fails. *)
Definition kind_of (s : symbol) : nat :=
  match s with
  | expect _ => 0 | Act _ => 1 | s_begin => 2 | s_esc => 3 | s_seq => 4 | s_alt => 5 | s_alt_seq => 6
  | s_mod => 7 | group_begin_or_mod => 8 | group_mod => 9 | group_mod_less_than => 10
  | group_begin => 11 | set_begin_or_neg => 12 | set_begin => 13 | set_seq => 14 | set_esc => 15
  | set_range_begin => 16 | set_range_seq => 17 | set_range_esc => 18 | backref_name_begin => 19
  | backref_id _ => 20 | backref_name_seq _ => 21 | capture_name_seq _ => 22 | hex_esc_seq _ => 23
  | quantifier_begin => 24 | quantifier_value _ => 25 | quantifier_range _ _ => 26
  | quantifier_mod _ _ _ => 27 | unquantifiable => 28
  end.

Definition kinds := map kind_of.

(** What the rules put in the place of a symbol; without the brace that begins no
    quantifier. *)
Definition atoms (tail : list nat) : list (list nat) :=
  map (fun l => l ++ tail) [[1; 12; 0; 7]; [8; 0; 7]; [3; 7]; [1; 7]; [1]].
Definition escaped : list (list nat) := [[1]; [1; 1]; [1; 28]; [1; 1; 28]].
Definition produces (k : nat) : list (list nat) :=
  match k with
  | 2 => atoms [4; 5]
  | 3 => [0; 19] :: [23] :: [20] :: escaped
  | 4 => atoms [1; 4]
  | 5 => [[6; 1; 5]]
  | 6 => atoms [4]
  | 7 => [[27]; [24]]
  | 8 => [1; 1] :: [9] :: atoms [4; 5; 1]
  | 9 => [[11]; [10]; [11; 1]; [11; 1; 1]]
  | 10 => [[11; 1]; [11; 1; 1]; [22]]
  | 11 => [1] :: atoms [4; 5]
  | 12 => [[13; 1]; [15; 1; 14]; [1; 14]]
  | 13 => [[15; 1; 14]; [1; 14]]
  | 14 => [[15; 1; 14]; [1; 14]]
  | 15 => [23] :: escaped
  | 16 => [[1; 1]; [18; 1; 1; 17]; [1; 17]]
  | 17 => [[15; 1; 14]; [1; 14]]
  | 18 => [23] :: escaped
  | 19 => [[21]]
  | 20 => [[20]; [1]]
  | 21 => [[1]; [21]]
  | 22 => [[11; 1]; [22]]
  | 23 => [[1]; [23]]
  | 24 => [[25]]
  | 25 => [[27]; [26]; [25]]
  | 26 => [[27]; [26]]
  | 27 => [[1]]
  | _ => []
  end.

Fixpoint nats_eqb (a b : list nat) : bool :=
  match a, b with
  | [], [] => true
  | x :: a', y :: b' => Nat.eqb x y && nats_eqb a' b'
  | _, _ => false
  end.

Lemma nats_eqb_eq a : forall b, nats_eqb a b = true <-> a = b.
Proof.
  induction a as [|x a IH]; intros [|y b]; cbn; split; intros H; try congruence.
  - apply andb_true_iff in H as [H1 H2]. apply Nat.eqb_eq in H1. apply IH in H2. congruence.
  - injection H as <- <-. rewrite Nat.eqb_refl. apply IH. reflexivity.
Qed.

Definition elem (l : list nat) (L : list (list nat)) : bool := existsb (nats_eqb l) L.

(** The two rules that leave something on the stack below which the parsing goes
    on: a minus sign in a set and a brace that begins no quantifier. *)
Definition grows (s : symbol) (token : option ascii) : option (list symbol) :=
  match s, token with
  | set_seq, Some c => if c == "-" then Some [set_range_begin; set_seq] else None
  | quantifier_begin, Some c =>
      if is_digit c then None else Some [Act (push_literal "{"); s_mod; Act make_sequence; s_seq; s_alt]
  | quantifier_begin, None => Some [Act (push_literal "{"); s_mod; Act make_sequence; s_seq; s_alt]
  | _, _ => None
  end.

Lemma rule_produces s token l : is_act s = false -> kind_of s <> 0 ->
  rule s token = Push l \/ rule s token = Advance l ->
  elem (kinds l) (produces (kind_of s)) = true \/ grows s token = Some l.
Proof.
  intros Ha H0. destruct s; try discriminate; try (now elim H0);
    intros [H|H]; cbn [rule] in H; try discriminate; destruct token as [c|]; try discriminate;
    cbn [grows];
    unfold handle_set_range_escape_sequence, handle_escape_sequence, handle_set_escape_sequence, handle_escaped_char,
      begin_name, continue_name, continue_quantifier_value, continue_quantifier_range, atom, begin_quantifier_value,
      abort_quantifier_parsing, continue_hex_escape_sequence in H; cbv zeta in H;
    split_rule;
    try discriminate; injection H as <-; first [left; reflexivity|right; reflexivity].
Qed.

(** The stack in pieces, cut at the kind 0. *)
Fixpoint cut (l : list nat) : list (list nat) :=
  match l with
  | [] => [[]]
  | 0 :: r => [] :: cut r
  | k :: r => match cut r with g :: gs => (k :: g) :: gs | [] => [[k]] end
  end.

(** All pieces that come up. *)
Definition next_pieces (g : list nat) : list (list nat) :=
  match g with
  | [] => []
  | k :: r => r :: flat_map (fun l => cut (l ++ r)) (produces k)
  end.

Fixpoint close (fuel : nat) (todo seen : list (list nat)) : list (list nat) :=
  match fuel with
  | 0 => seen
  | S f =>
      match todo with
      | [] => seen
      | g :: todo' => if elem g seen then close f todo' seen else close f (next_pieces g ++ todo') (g :: seen)
      end
  end.

Definition pieces : list (list nat) :=
  Eval vm_compute in close 5000 [[2]; [16]; [1; 7; 1; 4; 5]] [].

Definition piece (g : list nat) : Prop := elem g pieces = true.

Lemma pieces_closed : forallb (fun g => forallb (fun x => elem x pieces) (next_pieces g)) pieces = true.
Proof. vm_compute. reflexivity. Qed.

Lemma pieces_no_zero : forallb (forallb (fun k => negb (Nat.eqb k 0))) pieces = true.
Proof. vm_compute. reflexivity. Qed.

Definition kind_weight (k : nat) : nat :=
  match k with 24 => 6 | 8 | 16 => 3 | 11 | 23 | 27 | 20 => 2 | _ => 1 end.

Lemma pieces_light : forallb (fun g => Nat.leb (list_sum (map kind_weight g)) 12) pieces = true.
Proof. vm_compute. reflexivity. Qed.

Lemma piece_in g : piece g -> In g pieces.
Proof.
  unfold piece, elem. intros H. apply existsb_exists in H as (x & Hx & E). apply nats_eqb_eq in E. congruence.
Qed.

Lemma piece_next g x : piece g -> In x (next_pieces g) -> piece x.
Proof.
  intros H Hx. pose proof pieces_closed as C. rewrite forallb_forall in C.
  specialize (C g (piece_in g H)). rewrite forallb_forall in C. exact (C x Hx).
Qed.

Lemma piece_tail k r : piece (k :: r) -> piece r.
Proof. intros H. apply (piece_next _ _ H). left. reflexivity. Qed.

Lemma piece_light g : piece g -> list_sum (map kind_weight g) <= 12.
Proof.
  intros H. pose proof pieces_light as C. rewrite forallb_forall in C.
  apply Nat.leb_le. exact (C g (piece_in g H)).
Qed.

Lemma piece_no_zero g : piece g -> ~ In 0 g.
Proof.
  intros H H0. pose proof pieces_no_zero as C. rewrite forallb_forall in C.
  specialize (C g (piece_in g H)). rewrite forallb_forall in C. specialize (C 0 H0). discriminate.
Qed.

Lemma piece_nil : piece [].
Proof. reflexivity. Qed.

(** A stack of pieces, with the number of pieces that are left below another one
    without an expected character between them. *)
Inductive stacked : nat -> list nat -> Prop :=
| S_one g : piece g -> stacked 0 g
| S_bar g n r : piece g -> stacked n r -> stacked n (g ++ 0 :: r)
| S_below g n r : piece g -> stacked n r -> stacked (S n) (g ++ r).

Lemma stacked_more n l : stacked n l -> stacked (S n) l.
Proof. intros H. apply (S_below [] n l piece_nil H). Qed.

Lemma stacked_pop n l : stacked n l -> forall k r, l = k :: r -> stacked n r.
Proof.
  induction 1 as [g Hg|g n l Hg Hl IH|g n l Hg Hl IH]; intros k r E.
  - subst. constructor. eapply piece_tail; eauto.
  - destruct g as [|k' g]; injection E as <- <-; [exact Hl|].
    apply S_bar; [eapply piece_tail; eauto|exact Hl].
  - destruct g as [|k' g].
    + apply stacked_more. eapply IH. exact E.
    + injection E as <- <-. apply S_below; [eapply piece_tail; eauto|exact Hl].
Qed.

(** Pieces from cutting. *)
Lemma cut_some l : exists g gs, cut l = g :: gs.
Proof.
  induction l as [|[|k] r (g & gs & IH)]; cbn; [eauto|eauto|]. rewrite IH. eauto.
Qed.

Fixpoint glue (gs : list (list nat)) : list nat :=
  match gs with
  | [] => []
  | g :: gs' => match gs' with [] => g | _ => g ++ 0 :: glue gs' end
  end.

Lemma glue_cut l : glue (cut l) = l.
Proof.
  induction l as [|k l IH]; [reflexivity|].
  destruct (cut_some l) as (g & gs & E). destruct k as [|k]; cbn [cut].
  - rewrite <- IH at 2. rewrite E. reflexivity.
  - rewrite <- IH at 2. rewrite E. destruct gs; reflexivity.
Qed.

Lemma stacked_glue gs n r : gs <> [] -> Forall piece gs -> stacked n r ->
  stacked n (glue gs ++ 0 :: r) /\ stacked (S n) (glue gs ++ r) /\ stacked 0 (glue gs).
Proof.
  intros H F Hr. induction F as [|g gs Hg F IH]; [congruence|].
  destruct gs as [|h gs].
  - cbn [glue]. split; [apply S_bar|split; [apply S_below|apply S_one]]; auto.
  - destruct IH as (I1 & I2 & I3); [discriminate|].
    change (glue (g :: h :: gs)) with (g ++ 0 :: glue (h :: gs)).
    rewrite <- !app_assoc. cbn [app].
    split; [|split]; apply S_bar; auto.
Qed.

Lemma stacked_produce n l : stacked n l -> forall k r p, l = k :: r -> k <> 0 ->
  elem p (produces k) = true -> stacked n (p ++ r).
Proof.
  intros H. induction H as [g Hg|g n l Hg Hl IH|g n l Hg Hl IH]; intros k r p E Hk Hp.
  all: assert (P : forall g', piece (k :: g') -> Forall piece (cut (p ++ g')) /\ cut (p ++ g') <> []) by
    (intros g' Hg'; split;
     [apply Forall_forall; intros x Hx; apply (piece_next _ _ Hg'); right; apply in_flat_map; exists p; split; auto;
      unfold elem in Hp; apply existsb_exists in Hp as (q & Hq & Eq); apply nats_eqb_eq in Eq; congruence
     |destruct (cut_some (p ++ g')) as (? & ? & ->); discriminate]).
  - subst. destruct (P r Hg) as [F N].
    destruct (stacked_glue (cut (p ++ r)) 0 [] N F (S_one _ piece_nil)) as (_ & _ & H).
    now rewrite glue_cut in H.
  - destruct g as [|k' g]; injection E as <- <-; [congruence|].
    destruct (P g Hg) as [F N]. destruct (stacked_glue _ n l N F Hl) as (H & _).
    rewrite glue_cut, <- app_assoc in H. exact H.
  - destruct g as [|k' g].
    + apply stacked_more. eapply IH; eauto.
    + injection E as <- <-. destruct (P g Hg) as [F N]. destruct (stacked_glue _ n l N F Hl) as (_ & H & _).
      rewrite glue_cut, <- app_assoc in H. exact H.
Qed.

(** The weight up to the first expected character. *)
Fixpoint upper (l : list nat) : nat :=
  match l with
  | [] => 0
  | 0 :: _ => 0
  | k :: r => kind_weight k + upper r
  end.

Lemma upper_app a b : upper (a ++ b) <= list_sum (map kind_weight a) + upper b.
Proof. induction a as [|[|k] a IH]; cbn [app upper map list_sum fold_right]; unfold list_sum in *; lia. Qed.

Lemma upper_bar a b : upper (a ++ 0 :: b) <= list_sum (map kind_weight a).
Proof. pose proof (upper_app a (0 :: b)). cbn [upper] in *. lia. Qed.

Lemma stacked_upper n l : stacked n l -> upper l <= 12 * S n.
Proof.
  induction 1 as [g Hg|g n l Hg Hl IH|g n l Hg Hl IH]; pose proof (piece_light g Hg) as L.
  - pose proof (upper_app g []) as U. rewrite app_nil_r in U. cbn [upper] in U. lia.
  - pose proof (upper_bar g l). lia.
  - pose proof (upper_app g l). lia.
Qed.

Lemma kind_weights l : list_sum (map kind_weight (kinds l)) = weights l.
Proof.
  unfold kinds, weights. rewrite map_map. f_equal. apply map_ext. intros s. destruct s; reflexivity.
Qed.

(** One token takes no more steps than that, and one. *)
Lemma token_upper f : forall i prev token nodes symbols st k,
  c_parse_token f i prev token nodes symbols = (st, k) -> k <= S (upper (kinds symbols)).
Proof.
  induction f as [|f IH]; intros i prev token nodes symbols st k; cbn [c_parse_token]; cbv zeta.
  { intros H. injection H as <- <-. lia. }
  assert (A : forall nodes symbols', upper (kinds symbols') < upper (kinds symbols) ->
    (let (st, k) := c_parse_token f i prev token nodes symbols' in (st, S k)) = (st, k) ->
    k <= S (upper (kinds symbols))).
  { intros nodes' symbols' Hw H. destruct (c_parse_token f i prev token nodes' symbols') as [st1 k1] eqn:E.
    injection H as <- <-. apply IH in E. lia. }
  destruct symbols as [|s r].
  { destruct (rule_empty token); intros H; injection H as <- <-; lia. }
  assert (W : kind_of s <> 0 -> upper (kinds (s :: r)) = weight s + upper (kinds r)).
  { intros H. destruct s; try reflexivity. now elim H. }
  assert (B : match rule s token with
              | Ignore => let (st, k) := c_parse_token f i prev token nodes r in (st, S k)
              | Push l => let (st, k) := c_parse_token f i prev token nodes (l ++ r) in (st, S k)
              | Advance l => (P_state nodes (l ++ r), 1)
              | Reject => (P_result (P_error i), 1)
              | Accept => (P_result (P_ok (accepted_tree nodes)), 1)
              end = (st, k) -> k <= S (upper (kinds (s :: r)))).
  { destruct (rule s token) as [|l|l| |] eqn:E.
    - apply A. rewrite W; [pose proof (weight_pos s); lia|].
      intros H. destruct s; try discriminate. cbn in E. split_rule.
    - apply A. rewrite W.
      + apply rule_push in E. unfold kinds. rewrite map_app.
        pose proof (upper_app (kinds l) (kinds r)) as U. rewrite kind_weights in U. unfold kinds in *. lia.
      + intros H. destruct s; try discriminate. cbn in E. split_rule.
    - intros H. injection H as <- <-. lia.
    - intros H. injection H as <- <-. lia.
    - intros H. injection H as <- <-. lia. }
  destruct s; try exact B.
  destruct (build a prev nodes); [apply A; cbn; lia|]. intros H. injection H as <- <-. lia.
Qed.

(** ** Counting what is left below *)

(** The minus signs and the braces that no digit follows; [prev] is the
    character before. *)
Fixpoint leavers (prev : option ascii) (rest : list ascii) : nat :=
  (match prev, hd_error rest with
   | Some c, Some d => if (c == "{") && negb (is_digit d) then 1 else 0
   | Some c, None => if c == "{" then 1 else 0
   | None, _ => 0
   end)
  + match rest with
    | [] => 0
    | c :: r => (if c == "-" then 1 else 0) + leavers (Some c) r
    end.

(** An opened quantifier is on top, and its brace was read last. *)
Definition opened (s : symbol) : bool := match s with quantifier_begin => true | _ => false end.
Definition none_opened (l : list symbol) : Prop := forallb (fun s => negb (opened s)) l = true.
Definition opened_on_top (prev : option ascii) (symbols : list symbol) : Prop :=
  match symbols with
  | [] => True
  | s :: r => none_opened r /\ (opened s = true -> prev = Some "{"%char)
  end.

Lemma none_opened_app a b : none_opened (a ++ b) <-> none_opened a /\ none_opened b.
Proof. unfold none_opened. rewrite forallb_app. apply andb_true_iff. Qed.

Lemma on_top_none prev l : none_opened l -> opened_on_top prev l.
Proof.
  destruct l as [|s r]; [easy|]. unfold none_opened. cbn. intros H. apply andb_true_iff in H as [H1 H2].
  split; [exact H2|]. intros E. now rewrite E in H1.
Qed.

Lemma rule_pushes_none s token l : rule s token = Push l -> none_opened l.
Proof.
  destruct s; cbn [rule]; intros H; split_rule;
    try (unfold handle_set_range_escape_sequence, handle_escape_sequence, handle_set_escape_sequence, handle_escaped_char,
           begin_name, continue_name, continue_quantifier_value, continue_quantifier_range, atom,
           begin_quantifier_value, continue_hex_escape_sequence, abort_quantifier_parsing in H; cbv zeta in H;
         split_rule);
    try discriminate; injection H as <-; reflexivity.
Qed.

Lemma rule_advances_top s c l : rule s (Some c) = Advance l ->
  none_opened l \/ (l = [quantifier_begin] /\ c = "{"%char).
Proof.
  destruct s; cbn [rule]; intros H;
    try (unfold handle_set_range_escape_sequence, handle_escape_sequence, handle_set_escape_sequence, handle_escaped_char,
           begin_name, continue_name, continue_quantifier_value, continue_quantifier_range, atom,
           begin_quantifier_value, continue_hex_escape_sequence, abort_quantifier_parsing in H; cbv zeta in H);
    repeat match goal with
    | H : (if ?b then _ else _) = _ |- _ => destruct b eqn:?; try discriminate
    | H : match ?x with _ => _ end = _ |- _ => destruct x; try discriminate
    end;
    try discriminate; injection H as <-; try (left; reflexivity).
  right. split; [reflexivity|]. now apply Ascii.eqb_eq.
Qed.

Lemma rule_advances_some s l : rule s None <> Advance l.
Proof.
  destruct s; cbn [rule]; try discriminate.
  unfold continue_hex_escape_sequence. destruct digits as [|? [|? [|]]]; discriminate.
Qed.

(** What an opened quantifier and a minus sign may leave. *)
Definition brace_left (prev : option ascii) (c : option ascii) : nat :=
  match prev, c with
  | Some c, Some d => if (c == "{") && negb (is_digit d) then 1 else 0
  | Some c, None => if c == "{" then 1 else 0
  | None, _ => 0
  end.
Definition minus_left (c : ascii) : nat := if c == "-" then 1 else 0.

Lemma token_stays f : forall i prev c nodes symbols nodes' symbols' n,
  parse_token f i prev (Some c) nodes symbols = P_state nodes' symbols' ->
  stacked n (kinds symbols) -> opened_on_top prev symbols ->
  opened_on_top (Some c) symbols'
  /\ exists n', stacked n' (kinds symbols')
       /\ n' <= n + match symbols with s :: _ => if opened s then brace_left prev (Some c) else 0 | [] => 0 end
                  + minus_left c.
Proof.
  induction f as [|f IH]; intros i prev c nodes symbols nodes' symbols' n H Hn Ho; [discriminate|].
  destruct symbols as [|s r]; [discriminate|].
  assert (Hr : none_opened r) by apply Ho.
  assert (Hk : kinds (s :: r) = kind_of s :: kinds r) by reflexivity.
  assert (Hp : stacked n (kinds r)) by (eapply stacked_pop; [exact Hn|exact Hk]).
  assert (A : forall nodes r' n1, stacked n1 (kinds r') -> none_opened r' ->
    parse_token f i prev (Some c) nodes r' = P_state nodes' symbols' ->
    opened_on_top (Some c) symbols' /\ exists n', stacked n' (kinds symbols') /\ n' <= n1 + minus_left c).
  { intros nodes1 r' n1 H1 H2 H3. destruct (IH _ _ _ _ _ _ _ n1 H3 H1 (on_top_none _ _ H2)) as (I1 & n' & I2 & I3).
    split; [exact I1|]. exists n'. split; [exact I2|].
    destruct r' as [|s' r']; [lia|]. unfold none_opened in H2. cbn in H2.
    destruct (opened s'); [discriminate|lia]. }
  destruct (is_act s) eqn:Ha.
  { destruct s; try discriminate. rewrite token_act in H.
    destruct (build a prev nodes); [|discriminate]. destruct (A _ _ _ Hp Hr H) as (I1 & n' & I2 & I3).
    split; [exact I1|]. exists n'. split; [exact I2|lia]. }
  rewrite token_rule in H by exact Ha.
  destruct (rule s (Some c)) as [|l|l| |] eqn:E; try discriminate.
  - destruct (A _ _ _ Hp Hr H) as (I1 & n' & I2 & I3).
    split; [exact I1|]. exists n'. split; [exact I2|lia].
  - assert (K0 : kind_of s <> 0).
    { intros K. destruct s; try discriminate. cbn in E. destruct (c == c0); discriminate. }
    assert (Hl : none_opened (l ++ r)) by (apply none_opened_app; split; [eapply rule_pushes_none; eauto|exact Hr]).
    destruct (rule_produces s (Some c) l Ha K0 (or_introl E)) as [P|G].
    + assert (S1 : stacked n (kinds (l ++ r))).
      { unfold kinds. rewrite map_app. eapply stacked_produce; [exact Hn|exact Hk|exact K0|exact P]. }
      destruct (A _ _ _ S1 Hl H) as (I1 & n' & I2 & I3).
      split; [exact I1|]. exists n'. split; [exact I2|lia].
    + destruct s; try discriminate; cbn [grows] in G.
      { cbn [rule] in E. destruct (c == "]"); [discriminate|]. destruct (c == "\"); [discriminate|].
        destruct (c == "-"); discriminate. }
      destruct (is_digit c) eqn:D; [discriminate|]. injection G as <-.
      assert (S1 : stacked (S n) (kinds ([Act (push_literal "{"); s_mod; Act make_sequence; s_seq; s_alt] ++ r))).
      { apply (S_below [1; 7; 1; 4; 5] n (kinds r)); [reflexivity|exact Hp]. }
      destruct (A _ _ _ S1 Hl H) as (I1 & n' & I2 & I3).
      split; [exact I1|]. exists n'. split; [exact I2|]. cbn [opened].
      destruct Ho as [_ Ho]. rewrite (Ho eq_refl). cbn [brace_left]. rewrite D. cbn. lia.
  - injection H as <- <-. split.
    { destruct (rule_advances_top s c l E) as [N|[-> ->]].
      - apply on_top_none. apply none_opened_app. auto.
      - split; [exact Hr|auto]. }
    destruct (Nat.eq_dec (kind_of s) 0) as [K0|K0].
    { destruct s; try discriminate. cbn in E. destruct (c == c0); [|discriminate]. injection E as <-.
      exists n. split; [exact Hp|lia]. }
    destruct (rule_produces s (Some c) l Ha K0 (or_intror E)) as [P|G].
    + exists n. split; [|lia]. unfold kinds. rewrite map_app.
      eapply stacked_produce; [exact Hn|exact Hk|exact K0|exact P].
    + destruct s; try discriminate; cbn [grows] in G.
      * destruct (c == "-") eqn:D; [|discriminate]. injection G as <-.
        exists (S n). split; [|unfold minus_left; rewrite D; lia].
        apply (S_below [16] n (kinds (set_seq :: r))); [reflexivity|exact Hn].
      * destruct (is_digit c) eqn:D; [discriminate|]. cbn [rule] in E. unfold begin_quantifier_value in E.
        rewrite D in E. discriminate.
Qed.

Lemma from_upper rest : forall i prev nodes symbols n,
  stacked n (kinds symbols) -> opened_on_top prev symbols ->
  Forall (fun k => k <= S (12 * S (n + leavers prev rest))) (snd (c_parse_from i prev rest nodes symbols)).
Proof.
  induction rest as [|c rest IH]; intros i prev nodes symbols n Hn Ho; cbn [c_parse_from];
    destruct (c_parse_token _ _ _ _ _ _) as [st k] eqn:E;
    pose proof (token_upper _ _ _ _ _ _ _ _ E) as Hk;
    pose proof (stacked_upper _ _ Hn) as Hu.
  - destruct st; cbn [snd]; (constructor; [lia|constructor]).
  - pose proof (same_token (token_fuel symbols) i prev (hd_error (c :: rest)) nodes symbols) as Es.
    rewrite E in Es. cbn [fst hd_error] in Es.
    destruct st as [nodes' symbols'|r]; [|cbn [snd]; (constructor; [lia|constructor])].
    destruct (token_stays _ _ _ _ _ _ _ _ n (eq_sym Es) Hn Ho) as (Ho' & n' & Hn' & Hle).
    specialize (IH (S i) (Some c) nodes' symbols' n' Hn' Ho').
    destruct (c_parse_from _ _ _ _ _) as [r ks]. cbn [snd] in *.
    constructor; [lia|]. eapply Forall_impl; [|exact IH]. cbv beta. intros j Hj.
    assert (n' + leavers (Some c) rest <= n + leavers prev (c :: rest)); [|lia].
    change (leavers prev (c :: rest)) with (brace_left prev (Some c) + (minus_left c + leavers (Some c) rest)).
    destruct symbols as [|s symbols]; [|destruct (opened s)]; lia.
Qed.

Theorem parse_depth p : Forall (fun k => k <= 13 + 12 * leavers None p) (snd (c_parse p)).
Proof.
  unfold c_parse.
  assert (H : opened_on_top None [s_begin]) by (split; [reflexivity|discriminate]).
  assert (H0 : stacked 0 (kinds [s_begin])) by (apply S_one; reflexivity).
  pose proof (from_upper p 0 None [] [s_begin] 0 H0 H) as F. clear H H0. revert F.
  generalize (snd (c_parse_from 0 None p [] [s_begin])). intros l F.
  eapply Forall_impl; [|exact F]. cbv beta. intros k Hk. lia.
Qed.

Theorem parse_total p :
  list_sum (snd (c_parse p)) <= 10 + 9 * length p /\ length (snd (c_parse p)) <= S (length p).
Proof.
  destruct (from_total p 0 None [] [s_begin]) as [H1 H2]. cbn [weights weight map list_sum fold_right] in H1.
  split; [unfold c_parse; unfold list_sum in *; lia|exact H2].
Qed.

(** ** Each range of a set leaves something *)
Fixpoint ranges (n : nat) : list ascii :=
  match n with 0 => [] | S n' => "-"%char :: "a"%char :: "a"%char :: ranges n' end.

Lemma leaving_end f : forall i prev nodes k r, k < f ->
  k <= snd (c_parse_token f i prev (Some "]"%char) nodes (repeat set_seq k ++ r)).
Proof.
  induction f as [|f IH]; intros i prev nodes k r H; [lia|].
  destruct k as [|k]; [lia|]. cbn [repeat app c_parse_token rule Ascii.eqb Bool.eqb]. cbv zeta.
  specialize (IH i prev nodes k r ltac:(lia)).
  destruct (c_parse_token f i prev (Some "]"%char) nodes (repeat set_seq k ++ r)) as [st j].
  cbn [snd] in *. lia.
Qed.

Lemma fuel_two s r : exists f, token_fuel (s :: r) = S (S f) /\ length r < f.
Proof. exists (6 + 8 * S (length r)). unfold token_fuel. cbn [length]. lia. Qed.

(** One step of the fold. *)
Lemma later_steps (P : nat -> Prop) i prev c rest nodes symbols nodes' symbols' :
  (forall f, exists k, c_parse_token (S (S f)) i prev (Some c) nodes symbols = (P_state nodes' symbols', k)) ->
  symbols <> [] ->
  Exists P (snd (c_parse_from (S i) (Some c) rest nodes' symbols')) ->
  Exists P (snd (c_parse_from i prev (c :: rest) nodes symbols)).
Proof.
  intros H Hs E. destruct symbols as [|s r]; [congruence|].
  destruct (fuel_two s r) as (f & Hf & _). cbn [c_parse_from hd_error]. rewrite Hf.
  destruct (H f) as (k & ->). destruct (c_parse_from (S i) (Some c) rest nodes' symbols') as [res ks].
  cbn [snd] in *. now apply Exists_cons_tl.
Qed.

Lemma leaving n : forall k i l nodes r,
  Exists (fun j => n + k <= j)
    (snd (c_parse_from i (Some "a"%char) (ranges n ++ ["]"%char]) (CSet l :: nodes)
       (Act make_set_from_current_char :: set_seq :: repeat set_seq k ++ r))).
Proof.
  induction n as [|n IH]; intros k i l nodes r.
  - cbn [ranges app Nat.add c_parse_from hd_error].
    change (set_seq :: repeat set_seq k ++ r) with (repeat set_seq (S k) ++ r).
    destruct (fuel_two (Act make_set_from_current_char) (repeat set_seq (S k) ++ r)) as (f & Hf & Hl).
    rewrite Hf. rewrite app_length, repeat_length in Hl.
    change (c_parse_token (S (S f)) i (Some "a"%char) (Some "]"%char) (CSet l :: nodes)
             (Act make_set_from_current_char :: repeat set_seq (S k) ++ r))
      with (let (st, j) := c_parse_token (S f) i (Some "a"%char) (Some "]"%char) (CSet (Lit "a" :: l) :: nodes)
              (repeat set_seq (S k) ++ r) in (st, S j)).
    pose proof (leaving_end (S f) i (Some "a"%char) (CSet (Lit "a" :: l) :: nodes) (S k) r ltac:(lia)) as H.
    destruct (c_parse_token (S f) i (Some "a"%char) (Some "]"%char) (CSet (Lit "a" :: l) :: nodes)
      (repeat set_seq (S k) ++ r)) as [[nodes' symbols'|res] j]; cbn [snd] in *;
      [destruct (c_parse_token _ _ _ _ _ _) as [[]]|]; apply Exists_cons_hd; lia.
  - change (ranges (S n) ++ ["]"%char]) with ("-"%char :: "a"%char :: "a"%char :: ranges n ++ ["]"%char]).
    eapply later_steps; [intros f; eexists; reflexivity|discriminate|].
    eapply later_steps; [intros f; eexists; reflexivity|discriminate|].
    eapply later_steps; [intros f; eexists; reflexivity|discriminate|].
    replace (S n + k) with (n + S k) by lia.
    exact (IH (S k) (S (S (S i))) (Range "a" "a" :: l) nodes r).
Qed.

Theorem depth_grows n :
  Exists (fun j => n <= j) (snd (c_parse ("["%char :: "a"%char :: ranges n ++ ["]"%char]))).
Proof.
  unfold c_parse.
  eapply later_steps; [intros f; eexists; reflexivity|discriminate|].
  eapply later_steps; [intros f; eexists; reflexivity|discriminate|].
  pose proof (leaving n 0 2 [] [] [expect "]"; s_mod; s_seq; s_alt]) as H.
  rewrite Nat.add_0_r in H. exact H.
Qed.
