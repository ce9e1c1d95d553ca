(** Escaping a character without a meaning changes nothing (C51). *)
From Verif Require Import Parser Basics Steps Typing Shape Syntax Scan.
From Coq Require Import Lia.

(** ** Places of a pattern *)

(** One step of [scan]. *)
Definition move (pl : place) (c : ascii) : place :=
  let text :=
    if c == "\" then AfterEscape else if c == "[" then InSet else if c == "(" then AfterOpen else InText in
  match pl with
  | InText => text
  | AfterEscape => InText
  | InSet => if c == "\" then AfterSetEscape else if c == "]" then InText else InSet
  | AfterSetEscape => InSet
  | AfterOpen => if c == "?" then AfterMark else text
  | AfterMark => if c == "<" then AfterLess else InText
  | AfterLess => if (c == "=") || (c == "!") then InText else InName [c]
  | InName chars => if c == ">" then InText else InName (chars ++ [c])
  end.

(** The place behind a text. *)
Definition here (p : text) : place := fold_left move p InText.

(** Characters that stand for themselves at a place, with and without a backslash
    in front. *)
Definition meaningless (pl : place) (c : ascii) : bool :=
  match pl with
  | AfterEscape | AfterSetEscape => false
  | InSet => negb (among c (str "\]^-0nrtfvaedDwWsSRNbx"))
  | _ => negb (among c (str "\[(){|*+?.^$0123456789nrtfvaedDwWsSRNbBAZkx"))
  end.

(** ** The places of the parser *)

Ltac by_move := cbn [move];
  repeat (match goal with
    | E : ?b = _ |- context [if ?b then _ else _] => rewrite E
    | |- context [if ?b then _ else _] => destruct b eqn:?
    end); chars; try reflexivity; try easy.

Lemma move_atom tail c l r :
  atom tail c = Advance l -> place_of (tail ++ r) = InText -> place_of (l ++ r) = move InText c.
Proof.
  intros H Hp. unfold atom in H. split_step H; injection H as <-; cbn [app place_of]; try rewrite Hp; by_move.
Qed.

Lemma move_advance s c l r : rule s (Some c) = Advance l -> placed (s :: r) ->
  place_of (l ++ r) = move (place_of (s :: r)) c.
Proof.
  intros H Hr.
  assert (A : forall tail, forallb (fun x => match x with s_seq | s_alt | Act _ => true | _ => false end) tail = true ->
    place_of r = InText -> atom tail c = Advance l -> place_of (l ++ r) = move InText c).
  { intros tail Ht Hp HA.
    assert (P : place_of (tail ++ r) = InText).
    { clear HA. induction tail as [|x tail IH]; [exact Hp|]. cbn in Ht. apply Bool.andb_true_iff in Ht.
      destruct Ht as [Hx Ht]. specialize (IH Ht). destruct x; try discriminate Hx; cbn; auto. }
    eapply move_atom; eauto. }
  destruct s; cbn [rule] in H; try discriminate H; cbn [placed] in Hr; destruct Hr as [Hp Hr].
  all: unfold handle_escape_sequence, handle_set_range_escape_sequence, begin_name, continue_name,
         begin_quantifier_value, continue_quantifier_value, continue_quantifier_range,
         continue_hex_escape_sequence, abort_quantifier_parsing in H.
  all: split_step H.
  all: lazymatch type of H with
       | atom ?t _ = _ => pose proof (A t eq_refl Hp H) as A1; cbn [place_of]; try exact A1
       | handle_escaped_char _ = _ =>
           destruct (escaped_place _ _ r H Hp Hr) as [P1 P2]; rewrite P1; reflexivity
       | handle_set_escape_sequence _ = _ =>
           apply set_escaped_passes in H; rewrite (passes_place _ r H), Hp; reflexivity
       | _ => injection H as <-; cbn [app place_of]; try rewrite Hp
       end.
  all: try solve [clear A; by_move].
  - apply Ascii.eqb_eq in E. subst c0. destruct Hp as [-> [->|[->| ->]]]; reflexivity.
  - cbn [move] in *. destruct (c == "?") eqn:Q; [discriminate|exact A1].
  - cbn [move]. now rewrite E, E0.
  - clear A. destruct Hp as [-> | ->]; by_move.
  - clear A. destruct Hp as [-> | ->]; by_move.
Qed.

Lemma move_push s c l r : rule s (Some c) = Push l -> placed (s :: r) ->
  move (place_of (l ++ r)) c = move (place_of (s :: r)) c.
Proof.
  intros H Hr. destruct s; cbn [rule] in H; try discriminate H;
    cbn [placed] in Hr; destruct Hr as [Hp Hr].
  all: unfold handle_escape_sequence, handle_set_range_escape_sequence, begin_name, continue_name,
         begin_quantifier_value, continue_quantifier_value, continue_quantifier_range,
         continue_hex_escape_sequence, abort_quantifier_parsing in H.
  all: split_step H; try (exfalso; eapply escaped_not_push; eassumption).
  all: try (match type of H with
         | context [atom ?t ?c] => destruct (atom_advances t c) as [? X]; rewrite X in H; discriminate H
         | context [handle_set_escape_sequence ?c] => destruct (set_esc_shape c) as [? X]; rewrite X in H; discriminate H
         end).
  all: injection H as <-; cbn [app place_of]; try rewrite Hp; try reflexivity.
  all: by_move.
Qed.

Lemma token_moves f : forall i prev c nodes symbols nodes' symbols', placed symbols ->
  parse_token f i prev (Some c) nodes symbols = P_state nodes' symbols' ->
  placed symbols' /\ place_of symbols' = move (place_of symbols) c.
Proof.
  induction f as [|f IH]; intros i prev c nodes symbols nodes' symbols' Hp H; [discriminate|].
  destruct symbols as [|s r]; [discriminate|].
  destruct (is_act s) eqn:A.
  { destruct s; try discriminate A. rewrite token_act in H. destruct (build a prev nodes); [|discriminate].
    apply IH in H; [exact H|apply Hp]. }
  rewrite token_rule in H by exact A. destruct (rule s (Some c)) eqn:R; try discriminate.
  - destruct (scan_ignore _ _ r R Hp) as [Hq|[_ [=]]]. rewrite Hq. apply IH in H; [exact H|].
    clear - Hp. destruct s; apply Hp.
  - rewrite <- (move_push _ _ _ _ R Hp). apply IH in H; [exact H|].
    now destruct (scan_push _ _ _ r R Hp).
  - injection H as <- <-. split; [now destruct (scan_advance _ _ _ r [] R Hp)|now apply move_advance].
Qed.

(** ** Positions do not matter for the tree *)

Lemma token_shift f : forall i j prev token nodes symbols,
  match parse_token f i prev token nodes symbols with
  | P_state n s => parse_token f j prev token nodes symbols = P_state n s
  | P_result (P_ok n) => parse_token f j prev token nodes symbols = P_result (P_ok n)
  | _ => True
  end.
Proof.
  induction f as [|f IH]; intros i j prev token nodes symbols; [exact I|].
  destruct symbols as [|s r]; [cbn; now destruct (rule_empty token)|].
  destruct (is_act s) eqn:A.
  { destruct s; try discriminate A. rewrite !token_act. destruct (build a prev nodes); [apply IH|exact I]. }
  rewrite !token_rule by exact A. destruct (rule s token); auto; apply IH.
Qed.

Lemma parse_shift rest : forall i j prev nodes symbols n,
  parse_from i prev rest nodes symbols = P_ok n -> parse_from j prev rest nodes symbols = P_ok n.
Proof.
  induction rest as [|c rest IH]; intros i j prev nodes symbols n H; rewrite from_token in H |- *;
    pose proof (token_shift (token_fuel symbols) i j prev (hd_error []) nodes symbols) as T;
    pose proof (token_shift (token_fuel symbols) i j prev (hd_error (c :: rest)) nodes symbols) as T' || idtac.
  - destruct (parse_token _ i _ _ _ _) as [n' s'|[]]; try discriminate; now rewrite T.
  - destruct (parse_token _ i _ (hd_error (c :: rest)) _ _) as [n' s'|[]]; try discriminate; rewrite T'; eauto.
Qed.

(** ** One escape *)

(** What the parser expects after the backslash, and after the character. *)
Inductive twins : list symbol -> list symbol -> Prop :=
| twin_text t : twins (s_esc :: t) (Act make_literal :: t)
| twin_set t : twins (set_esc :: Act make_set_from_stack :: t) (Act make_set_from_current_char :: t)
| twin_range t : twins (set_range_esc :: Act make_set_from_stack :: Act make_range_from_stack :: t)
                       (Act make_range :: t).

Lemma among_false c l : among c l = false -> forall x, In x l -> (c == x) = false.
Proof.
  unfold among. intros H x Hx. destruct (c == x) eqn:E; [|reflexivity].
  rewrite <- H. symmetry. apply existsb_exists. eauto.
Qed.

Ltac knows H := repeat match goal with
  | |- context [?c == ?x] =>
      is_var c; rewrite (among_false _ _ H x) by (cbn; tauto)
  end; cbn [orb andb negb].

Lemma text_meaning pl c : meaningless pl c = true -> pl <> InSet ->
  among c (str "\[(){|*+?.^$0123456789nrtfvaedDwWsSRNbBAZkx") = false.
Proof.
  intros H Hp. destruct pl; try discriminate H; try congruence; now apply Bool.negb_true_iff in H.
Qed.

Lemma not_digit_char c : among c (str "0123456789") = false -> is_digit c = false.
Proof. destruct c as [[] [] [] [] [] [] [] []]; vm_compute; intros H; congruence. Qed.

Lemma among_sub c l l' : (forall x, In x l -> In x l') -> among c l' = false -> among c l = false.
Proof.
  intros Hs H. unfold among in *. destruct (existsb (Ascii.eqb c) l) eqn:E; [|reflexivity].
  apply existsb_exists in E. destruct E as (x & Hx & E). rewrite <- H. symmetry. apply existsb_exists. eauto.
Qed.

(** The rules treat the backslash and the character alike. *)
Lemma twin_rule s r c : placed (s :: r) -> meaningless (place_of (s :: r)) c = true ->
  match rule s (Some "\"%char) with
  | Ignore => rule s (Some c) = Ignore
  | Push l => rule s (Some c) = Push l
  | Advance l => exists l', rule s (Some c) = Advance l' /\ twins (l ++ r) (l' ++ r)
  | _ => True
  end.
Proof.
  intros Hp Hm.
  assert (T : place_of (s :: r) <> InSet -> among c (str "\[(){|*+?.^$0123456789nrtfvaedDwWsSRNbBAZkx") = false)
    by (intros H; eapply text_meaning; eauto).
  assert (D : place_of (s :: r) <> InSet -> is_digit c = false).
  { intros H. apply not_digit_char. eapply among_sub; [|exact (T H)]. cbn. tauto. }
  assert (AT : forall tail, place_of (s :: r) <> InSet -> exists l', atom tail c = Advance l'
             /\ forall r, twins ((s_esc :: s_mod :: tail) ++ r) (l' ++ r)).
  { intros tail H. specialize (T H). unfold atom. knows T. eexists. split; [reflexivity|]. intros. constructor. }
  destruct s; cbn [placed place_of] in *; destruct Hp as [Hp Hr]; try exact I.
  all: try (specialize (T ltac:(discriminate)); specialize (D ltac:(discriminate))).
  all: try (cbn [meaningless] in Hm; apply Bool.negb_true_iff in Hm).
  all: try (cbn [rule]; unfold is_star_plus_brace, begin_quantifier_value, continue_quantifier_value; cbn; knows T; rewrite ?D;
    try reflexivity;
    match goal with |- context [atom ?t _] => destruct (AT t ltac:(discriminate)) as (l2 & E1 & E2); exists l2; split; [exact E1|exact (E2 r)] end).
  all: try (cbn [rule]; cbn; knows Hm; eexists; (split; [reflexivity|]); cbn [app]; constructor).
  all: try discriminate Hm.
  - cbn [rule]. destruct Hp as [_ [->|[->| ->]]]; exact I.
  - cbn [rule]. unfold continue_hex_escape_sequence. destruct digits as [|a [|b [|d ds]]]; try exact I; reflexivity.
Qed.

Lemma twin_token f : forall i prev c nodes symbols nodes' s1,
  placed symbols -> meaningless (place_of symbols) c = true ->
  parse_token f i prev (Some "\"%char) nodes symbols = P_state nodes' s1 ->
  exists s2, parse_token f i prev (Some c) nodes symbols = P_state nodes' s2 /\ twins s1 s2.
Proof.
  induction f as [|f IH]; intros i prev c nodes symbols nodes' s1 Hp Hm H; [discriminate|].
  destruct symbols as [|s r]; [discriminate|].
  destruct (is_act s) eqn:A.
  { destruct s; try discriminate A. rewrite token_act in H |- *. destruct (build a prev nodes); [|discriminate].
    apply (IH i prev c) in H; [exact H|apply Hp|exact Hm]. }
  rewrite token_rule in H |- * by exact A. pose proof (twin_rule s r c Hp Hm) as T.
  destruct (rule s (Some "\"%char)) eqn:R; try discriminate.
  - rewrite T. destruct (scan_ignore _ _ r R Hp) as [Hq|[_ [=]]]. rewrite Hq in Hm.
    apply (IH i prev c) in H; [exact H| |exact Hm]. clear - Hp. destruct s; apply Hp.
  - rewrite T. apply (IH i prev c) in H; [exact H| |].
    + now destruct (scan_push _ _ _ r R Hp).
    + replace (place_of (l ++ r)) with (place_of (s :: r)); [exact Hm|].
      clear - R Hp. destruct s; cbn [rule] in R; try discriminate R; cbn [placed] in Hp; destruct Hp as [Hp _];
        unfold begin_quantifier_value, continue_hex_escape_sequence in R; cbn in R; try discriminate R.
      all: try (injection R as <-; cbn; now rewrite ?Hp).
      1: destruct Hp as [_ [->|[->| ->]]]; discriminate R.
      destruct digits as [|a [|b [|d ds]]]; try discriminate R. injection R as <-. reflexivity.
  - destruct T as (l' & E & T). rewrite E. injection H as <- <-. eauto.
Qed.

Lemma twins_agree s1 s2 : twins s1 s2 -> forall c pl i j nodes q n,
  meaningless pl c = true -> (pl = InSet <-> hd_error s1 <> Some s_esc) ->
  parse_from i (Some "\"%char) (c :: q) nodes s1 = P_ok n <-> parse_from j (Some c) q nodes s2 = P_ok n.
Proof.
  intros T c pl i j nodes q n Hm Hpl.
  assert (AT : pl <> InSet -> among c (str "\[(){|*+?.^$0123456789nrtfvaedDwWsSRNbBAZkx") = false)
    by (intros X; eapply text_meaning; eauto).
  assert (AS : pl = InSet -> among c (str "\]^-0nrtfvaedDwWsSRNbx") = false)
    by (intros ->; now apply Bool.negb_true_iff in Hm).
  destruct T as [t|t|t]; cbn [hd_error] in Hpl.
  - assert (X : pl <> InSet) by (intros X; now apply Hpl in X). specialize (AT X).
    assert (D : is_digit c = false) by (apply not_digit_char; eapply among_sub; [|exact AT]; cbn; tauto).
    assert (E : rule s_esc (Some c) = Advance [Act make_literal]).
    { cbn [rule]. unfold handle_escape_sequence, handle_escaped_char. knows AT. now rewrite D. }
    rewrite (parse_advance i _ _ _ _ s_esc _ _ eq_refl E). split; apply parse_shift.
  - assert (X : pl = InSet) by (apply Hpl; discriminate). specialize (AS X).
    assert (E : rule set_esc (Some c) = Advance [Act make_literal]).
    { cbn [rule]. unfold handle_set_escape_sequence, handle_escaped_char.
      destruct (c == "A") eqn:EA; [apply Ascii.eqb_eq in EA; now subst|].
      destruct (c == "Z") eqn:EZ; [apply Ascii.eqb_eq in EZ; now subst|].
      destruct (c == "B") eqn:EB; [apply Ascii.eqb_eq in EB; now subst|]. now knows AS. }
    rewrite (parse_advance i _ _ _ _ set_esc _ _ eq_refl E). cbn [app].
    rewrite (parse_act _ (Some c) _ nodes make_literal _ (Lit c :: nodes) eq_refl).
    assert (B : build make_set_from_stack (Some c) (Lit c :: nodes) = build make_set_from_current_char (Some c) nodes)
      by (destruct nodes as [|[] ?]; reflexivity).
    destruct (build make_set_from_current_char (Some c) nodes) as [nodes'|] eqn:B'.
    + rewrite (parse_act _ _ _ _ _ _ _ B), (parse_act _ _ _ _ _ _ _ B'). split; apply parse_shift.
    + rewrite !parse_act_stuck by assumption. easy.
  - assert (X : pl = InSet) by (apply Hpl; discriminate). specialize (AS X).
    assert (E : rule set_range_esc (Some c) = Advance [Act make_literal]).
    { cbn [rule]. unfold handle_set_range_escape_sequence, handle_set_escape_sequence, handle_escaped_char.
      destruct (c == "A") eqn:EA; [apply Ascii.eqb_eq in EA; now subst|].
      destruct (c == "Z") eqn:EZ; [apply Ascii.eqb_eq in EZ; now subst|].
      destruct (c == "B") eqn:EB; [apply Ascii.eqb_eq in EB; now subst|]. now knows AS. }
    rewrite (parse_advance i _ _ _ _ set_range_esc _ _ eq_refl E). cbn [app].
    rewrite (parse_act _ (Some c) _ nodes make_literal _ (Lit c :: nodes) eq_refl).
    destruct (build make_set_from_stack (Some c) (Lit c :: nodes)) as [nodes1|] eqn:B1.
    2:{ exfalso. destruct nodes as [|[] ?]; discriminate B1. }
    rewrite (parse_act _ _ _ _ _ _ _ B1).
    assert (B : build make_range_from_stack (Some c) nodes1 = build make_range (Some c) nodes)
      by (destruct nodes as [|[] ?]; injection B1 as <-; try reflexivity;
          match goal with |- context [CSet (Lit _ :: ?l)] => destruct l as [|[] ?]; reflexivity end).
    destruct (build make_range (Some c) nodes) as [nodes'|] eqn:B'.
    + rewrite (parse_act _ _ _ _ _ _ _ B), (parse_act _ _ _ _ _ _ _ B'). split; apply parse_shift.
    + rewrite !parse_act_stuck by assumption. easy.
Qed.

Lemma token_not_ok f : forall i prev c nodes symbols n,
  parse_token f i prev (Some c) nodes symbols <> P_result (P_ok n).
Proof.
  induction f as [|f IH]; intros i prev c nodes symbols n H; [discriminate|].
  destruct symbols as [|s r]; [discriminate|]. destruct (is_act s) eqn:A.
  { destruct s; try discriminate A. rewrite token_act in H. destruct (build a prev nodes); [|discriminate]. now apply IH in H. }
  rewrite token_rule in H by exact A. destruct (rule s (Some c)) eqn:R; try discriminate.
  - now apply IH in H.
  - now apply IH in H.
  - now apply no_accept in R.
Qed.

(** Where a dot can follow, a backslash can. *)
Lemma dot_rule s r : placed (s :: r) ->
  match rule s (Some "."%char) with
  | Ignore => rule s (Some "\"%char) = Ignore
  | Push l => rule s (Some "\"%char) = Push l
  | Advance _ => exists l, rule s (Some "\"%char) = Advance l
  | _ => True
  end.
Proof.
  intros [Hp _]. destruct s; try exact I; try (cbn; eauto; fail).
  - destruct Hp as [_ [->|[->| ->]]]; exact I.
  - destruct digits as [|a [|b [|d ds]]]; try exact I; reflexivity.
Qed.

Lemma dot_token f : forall i prev nodes symbols nodes' s1, placed symbols ->
  parse_token f i prev (Some "."%char) nodes symbols = P_state nodes' s1 ->
  exists nodes2 s2, parse_token f i prev (Some "\"%char) nodes symbols = P_state nodes2 s2.
Proof.
  induction f as [|f IH]; intros i prev nodes symbols nodes' s1 Hp H; [discriminate|].
  destruct symbols as [|s r]; [discriminate|]. destruct (is_act s) eqn:A.
  { destruct s; try discriminate A. rewrite token_act in H |- *. destruct (build a prev nodes); [|discriminate].
    eapply IH; [apply Hp|exact H]. }
  rewrite token_rule in H |- * by exact A. pose proof (dot_rule s r Hp) as T.
  destruct (rule s (Some "."%char)) eqn:R; try discriminate.
  - rewrite T. eapply IH; [|exact H]. clear - Hp. destruct s; apply Hp.
  - rewrite T. eapply IH; [|exact H]. now destruct (scan_push _ _ _ r R Hp).
  - destruct T as [l' ->]. eauto.
Qed.

Lemma unescape_here i prev nodes symbols c q n : placed symbols ->
  meaningless (place_of symbols) c = true ->
  (exists nodes' s1, parse_token (token_fuel symbols) i prev (Some "\"%char) nodes symbols = P_state nodes' s1) ->
  parse_from i prev ("\"%char :: c :: q) nodes symbols = P_ok n <-> parse_from i prev (c :: q) nodes symbols = P_ok n.
Proof.
  intros Hp Hm (nodes' & s1 & E). rewrite !from_token. cbn [hd_error]. rewrite E.
  destruct (twin_token _ _ _ _ _ _ _ _ Hp Hm E) as (s2 & E2 & T). rewrite E2.
  destruct (token_moves _ _ _ _ _ _ _ _ Hp E) as [_ Pl].
  eapply twins_agree; [exact T|exact Hm|].
  clear - T Pl Hm. destruct T as [t|t|t]; cbn [place_of hd_error] in *.
  all: destruct (place_of symbols); try discriminate Pl; try discriminate Hm; split; intros X; congruence.
Qed.

Lemma unescape_from p : forall i prev nodes symbols c q n, placed symbols ->
  meaningless (fold_left move p (place_of symbols)) c = true ->
  (parse_from i prev (p ++ "\"%char :: c :: q) nodes symbols = P_ok n ->
   parse_from i prev (p ++ c :: q) nodes symbols = P_ok n)
  /\ ((exists t m, parse_from i prev (p ++ "."%char :: t) nodes symbols = P_ok m) ->
      parse_from i prev (p ++ c :: q) nodes symbols = P_ok n ->
      parse_from i prev (p ++ "\"%char :: c :: q) nodes symbols = P_ok n).
Proof.
  induction p as [|x p IH]; intros i prev nodes symbols c q n Hp Hm; cbn [app fold_left] in *.
  - split.
    + intros H. apply unescape_here; auto.
      rewrite from_token in H. cbn [hd_error] in H.
      destruct (parse_token _ _ _ _ _ _) as [nodes' s1|v] eqn:E; [eauto|].
      subst v. now apply token_not_ok in E.
    + intros (t & m & D) H. apply unescape_here; auto.
      rewrite from_token in D. cbn [hd_error] in D.
      destruct (parse_token _ _ _ _ _ _) as [nodes' s1|v] eqn:E; [eapply dot_token; eauto|].
      subst v. now apply token_not_ok in E.
  - rewrite !(from_token (x :: _)). cbn [hd_error].
    destruct (parse_token _ _ _ _ _ _) as [nodes' s1|v] eqn:E; [|easy].
    destruct (token_moves _ _ _ _ _ _ _ _ Hp E) as [Hp' Pl].
    destruct (IH (S i) (Some x) nodes' s1 c q n Hp' ltac:(now rewrite Pl)) as [I1 I2].
    split; [exact I1|]. intros (t & m & D). rewrite from_token in D. cbn [hd_error] in D. rewrite E in D. eauto.
Qed.

(** A backslash in front of a character that has no meaning there can be left out;
    it can be put there wherever a pattern can go on with a dot. *)
Theorem unescape p c q n : meaningless (here p) c = true ->
  (parse (p ++ "\"%char :: c :: q) = P_ok n -> parse (p ++ c :: q) = P_ok n)
  /\ ((exists t m, parse (p ++ "."%char :: t) = P_ok m) ->
      parse (p ++ c :: q) = P_ok n -> parse (p ++ "\"%char :: c :: q) = P_ok n).
Proof. intros Hm. apply unescape_from; [now cbn|exact Hm]. Qed.
