(** The groups of an accepted pattern are its capturing parentheses (C24). *)
From Verif Require Import Parser Basics Steps Typing Shape.
From Coq Require Import Lia.

(** ** Capturing parentheses of a pattern, read from the text alone *)

Inductive place :=
| InText | AfterEscape | InSet | AfterSetEscape
| AfterOpen                 (* after "(" *)
| AfterMark                 (* after "(?" *)
| AfterLess                 (* after "(?<" *)
| InName (chars : list ascii).

(** Names of the capturing parentheses from left to right; [None]: unnamed. *)
Fixpoint scan (pl : place) (p : list ascii) : list group_name :=
  match p with
  | [] => []
  | c :: r =>
      let text :=
        if c == "\" then scan AfterEscape r
        else if c == "[" then scan InSet r
        else if c == "(" then scan AfterOpen r
        else scan InText r in
      match pl with
      | InText => text
      | AfterEscape => scan InText r
      | InSet =>
          if c == "\" then scan AfterSetEscape r
          else if c == "]" then scan InText r
          else scan InSet r
      | AfterSetEscape => scan InSet r
      | AfterOpen => if c == "?" then scan AfterMark r else None :: text
      | AfterMark => if c == "<" then scan AfterLess r else scan InText r
      | AfterLess => if (c == "=") || (c == "!") then scan InText r else scan (InName [c]) r
      | InName chars =>
          if c == ">" then Some chars :: scan InText r else scan (InName (chars ++ [c])) r
      end
  end.

(** ** The place of the parser *)

(** Symbols that leave the place to the symbols below. *)
Definition passes (s : symbol) : bool :=
  match s with Act _ | hex_esc_seq _ => true | _ => false end.

Fixpoint place_of (symbols : list symbol) : place :=
  match symbols with
  | [] => InText
  | s :: r =>
      match s with
      | Act _ | hex_esc_seq _ => place_of r
      | s_esc => AfterEscape
      | set_begin_or_neg | set_begin | set_seq | set_range_begin | set_range_seq => InSet
      | set_esc | set_range_esc => AfterSetEscape
      | expect x => if x == "]" then InSet else InText
      | group_begin_or_mod => AfterOpen
      | group_mod => AfterMark
      | group_mod_less_than => AfterLess
      | capture_name_seq chars => InName chars
      | _ => InText
      end
  end.

(** Symbols of sets stand above symbols of sets. *)
Fixpoint placed (symbols : list symbol) : Prop :=
  match symbols with
  | [] => True
  | s :: r =>
      match s with
      | Act _ => True
      | hex_esc_seq _ => place_of r = InText \/ place_of r = InSet
      | expect x => place_of r = InText /\ (x = ")" \/ x = "]" \/ x = "<")%char
      | set_begin_or_neg | set_begin | set_seq | set_range_begin | set_range_seq
      | set_esc | set_range_esc => place_of r = InSet
      | _ => place_of r = InText
      end /\ placed r
  end.

Lemma passes_place l r : forallb passes l = true -> place_of (l ++ r) = place_of r.
Proof. induction l as [|s l IH]; [easy|]. cbn. destruct s; try discriminate; exact IH. Qed.

Lemma passes_placed l r : forallb passes l = true -> place_of r = InText \/ place_of r = InSet ->
  placed r -> placed (l ++ r).
Proof.
  intros H Hp Hr. induction l as [|s l IH]; [easy|]. cbn in *. destruct s; try discriminate; cbn; auto.
  split; auto. now rewrite passes_place.
Qed.

Lemma escaped_place c l r : handle_escaped_char c = Advance l -> place_of r = InText -> placed r ->
  place_of (l ++ r) = InText /\ placed (l ++ r).
Proof.
  intros H Hp Hr. unfold handle_escaped_char in H. split_step H; injection H as <-; cbn; auto.
Qed.

Lemma set_escaped_passes c l : handle_set_escape_sequence c = Advance l -> forallb passes l = true.
Proof.
  unfold handle_set_escape_sequence, handle_escaped_char. intros H. split_step H; injection H as <-; reflexivity.
Qed.

(** The group that begins when the symbol reads the character. *)
Definition emit (s : symbol) (c : ascii) : list group_name :=
  match s with
  | group_begin_or_mod => if c == "?" then [] else [None]
  | capture_name_seq chars => if c == ">" then [Some chars] else []
  | _ => []
  end.

Ltac chars := repeat match goal with
  | E : (_ || _) = false |- _ => apply Bool.orb_false_iff in E; destruct E
  | E : (_ && _) = true |- _ => apply Bool.andb_true_iff in E; destruct E
  | E : (?c == _) = true |- _ => is_var c; apply Ascii.eqb_eq in E; subst c
  end; try discriminate.

Ltac by_scan := cbn [scan];
  repeat (match goal with
    | E : ?b = _ |- context [if ?b then _ else _] => rewrite E
    | |- context [if ?b then _ else _] => destruct b eqn:?
    end); chars; try reflexivity; try easy.

Lemma scan_atom tail c l r rest :
  atom tail c = Advance l -> place_of (tail ++ r) = InText -> placed (tail ++ r) ->
  placed (l ++ r) /\ scan InText (c :: rest) = scan (place_of (l ++ r)) rest.
Proof.
  intros H Hp Hr. unfold atom in H. split_step H; injection H as <-;
    (split; [cbn; rewrite ?Hp; tauto|]); cbn [app place_of]; try rewrite Hp; by_scan.
Qed.

Lemma scan_advance s c l r rest : rule s (Some c) = Advance l -> placed (s :: r) ->
  placed (l ++ r)
  /\ scan (place_of (s :: r)) (c :: rest) = emit s c ++ scan (place_of (l ++ r)) rest.
Proof.
  intros H Hr.
  assert (A : forall tail, forallb (fun x => match x with s_seq | s_alt | Act _ => true | _ => false end) tail = true ->
    place_of r = InText -> placed r ->
    atom tail c = Advance l -> placed (l ++ r) /\ scan InText (c :: rest) = scan (place_of (l ++ r)) rest).
  { intros tail Ht Hp Hpr HA.
    assert (P : place_of (tail ++ r) = InText /\ placed (tail ++ r)).
    { clear HA. induction tail as [|x tail IH]; [now split|]. cbn in Ht. apply Bool.andb_true_iff in Ht.
      destruct Ht as [Hx Ht]. destruct (IH Ht). destruct x; try discriminate Hx; cbn; auto. }
    destruct P. eapply scan_atom; eauto. }
  destruct s; cbn [rule] in H; try discriminate H; cbn [placed] in Hr; destruct Hr as [Hp Hr].
  all: unfold handle_escape_sequence, handle_set_range_escape_sequence, begin_name, continue_name,
         begin_quantifier_value, continue_quantifier_value, continue_quantifier_range,
         continue_hex_escape_sequence, abort_quantifier_parsing in H.
  all: split_step H.
  all: lazymatch type of H with
       | atom ?t _ = _ => destruct (A t eq_refl Hp Hr H) as [A1 A2]; split; [exact A1|];
           cbn [place_of emit]; try exact A2
       | handle_escaped_char _ = _ =>
           destruct (escaped_place _ _ r H Hp Hr) as [P1 P2]; split; [exact P2|]; rewrite P1; reflexivity
       | handle_set_escape_sequence _ = _ =>
           apply set_escaped_passes in H; split; [apply passes_placed; auto|];
           rewrite (passes_place _ r H), Hp; reflexivity
       | _ => injection H as <-; (split; [solve [cbn; rewrite ?Hp; tauto]|]);
              cbn [app place_of emit]; try rewrite Hp
       end.
  all: try solve [clear A; by_scan].
  - apply Ascii.eqb_eq in E. subst c0. destruct Hp as [-> [->|[->| ->]]]; reflexivity.
  - cbn [app scan]. destruct (c == "?") eqn:Q; [|now rewrite <- A2]. discriminate.
  - cbn [scan]. now rewrite E, E0.
  - clear A. destruct Hp as [-> | ->]; by_scan.
  - clear A. destruct Hp as [-> | ->]; by_scan.
Qed.

Lemma scan_push s token l r : rule s token = Push l -> placed (s :: r) ->
  placed (l ++ r)
  /\ match token with
     | Some c => forall rest, scan (place_of (s :: r)) (c :: rest) = emit s c ++ scan (place_of (l ++ r)) (c :: rest)
     | None => True
     end.
Proof.
  intros H Hr. destruct s; cbn [rule] in H; destruct token as [c0|]; try discriminate H;
    cbn [placed] in Hr; destruct Hr as [Hp Hr].
  all: unfold handle_escape_sequence, handle_set_range_escape_sequence, begin_name, continue_name,
         begin_quantifier_value, continue_quantifier_value, continue_quantifier_range,
         continue_hex_escape_sequence, abort_quantifier_parsing in H.
  all: split_step H; try (exfalso; eapply escaped_not_push; eassumption).
  all: try (match type of H with
         | context [atom ?t ?c] => destruct (atom_advances t c) as [? X]; rewrite X in H; discriminate H
         | context [handle_set_escape_sequence ?c] => destruct (set_esc_shape c) as [? X]; rewrite X in H; discriminate H
         end).
  all: injection H as <-; split; [solve [cbn; rewrite ?Hp; tauto]|]; try exact I.
  all: intros rest; cbn [app place_of emit]; try rewrite Hp; try reflexivity.
  all: by_scan.
Qed.

Lemma scan_ignore s token r : rule s token = Ignore -> placed (s :: r) ->
  place_of (s :: r) = place_of r \/ opener s = true /\ token = None.
Proof.
  intros H Hr. destruct s; cbn [rule] in H; destruct token as [c0|]; try discriminate H;
    cbn [placed] in Hr; destruct Hr as [Hp Hr].
  all: unfold handle_escape_sequence, handle_set_range_escape_sequence, begin_name, continue_name,
         begin_quantifier_value, continue_quantifier_value, continue_quantifier_range,
         continue_hex_escape_sequence, abort_quantifier_parsing in H.
  all: split_step H.
  all: try (match type of H with
         | context [atom ?t ?c] => destruct (atom_advances t c) as [? X]; rewrite X in H; discriminate H
         | context [handle_escaped_char ?c] => destruct (esc_shape c) as [? X]; rewrite X in H; discriminate H
         | context [handle_set_escape_sequence ?c] => destruct (set_esc_shape c) as [? X]; rewrite X in H; discriminate H
         end).
  all: try (right; now split).
  all: left; cbn [place_of]; now rewrite Hp.
Qed.

(** ** The names that the stacks stand for *)

Definition ev_act (a : action) (st : list (list group_name)) : list (list group_name) :=
  match a with
  | make_sequence | make_alternation | make_set_from_stack =>
      match st with x :: y :: r => (y ++ x) :: r | _ => st end
  | make_capture nm => match st with x :: r => (nm :: x) :: r | [] => st end
  | make_set_from_current_char | make_range | make_range_from_stack
  | make_negated | make_repetition _ _ _ | make_lookaround _ => st
  | _ => [] :: st
  end.

(** Symbols that give a node without taking one. *)
Definition quiet (s : symbol) : bool :=
  match s with
  | Act a =>
      match a with
      | make_sequence | make_alternation | make_set_from_stack | make_capture _
      | make_set_from_current_char | make_range | make_range_from_stack
      | make_negated | make_repetition _ _ _ | make_lookaround _ => true
      | _ => false
      end
  | expect _ | s_seq | s_alt | s_mod | set_begin_or_neg | set_begin | set_seq | set_range_begin
  | set_range_seq | quantifier_begin | quantifier_value _ | quantifier_range _ _
  | quantifier_mod _ _ _ | unquantifiable => true
  | _ => false
  end.

Definition ev (s : symbol) (st : list (list group_name)) : list (list group_name) :=
  match s with
  | Act a => ev_act a st
  | _ => if quiet s then st else [] :: st
  end.

Fixpoint evs (l : list symbol) (st : list (list group_name)) : list (list group_name) :=
  match l with [] => st | s :: r => evs r (ev s st) end.

Lemma evs_app l1 l2 st : evs (l1 ++ l2) st = evs l2 (evs l1 st).
Proof. revert st. induction l1; intros st; cbn; auto. Qed.

(** All names, in the order of the pattern. *)
Definition flat (st : list (list group_name)) : list group_name := concat (rev st).

Lemma flat_append x d st : flat ((x ++ d) :: st) = flat (x :: st) ++ d.
Proof. unfold flat. cbn [rev]. rewrite !concat_app. cbn. now rewrite !app_nil_r, app_assoc. Qed.

Lemma quiet_append r : forallb quiet r = true -> forall x d st,
  exists y st', evs r (x :: st) = y :: st' /\ evs r ((x ++ d) :: st) = (y ++ d) :: st'.
Proof.
  induction r as [|s r IH]; intros Hq x d st; [cbn; eauto|].
  cbn [forallb] in Hq. apply Bool.andb_true_iff in Hq. destruct Hq as [Hs Hq]. cbn [evs].
  destruct s; try discriminate Hs; try (cbn [ev quiet]; now apply IH).
  destruct a; try discriminate Hs; cbn [ev ev_act]; try (now apply IH).
  - destruct st as [|y st]; [now apply IH|]. rewrite app_assoc. now apply IH.
  - destruct st as [|y st]; [now apply IH|]. rewrite app_assoc. now apply IH.
  - destruct st as [|y st]; [now apply IH|]. rewrite app_assoc. now apply IH.
  - rewrite app_comm_cons. now apply IH.
Qed.

Lemma quiet_emit r d st : forallb quiet r = true -> flat (evs r (d :: st)) = flat (evs r ([] :: st)) ++ d.
Proof.
  intros Hq. destruct (quiet_append r Hq [] d st) as (y & st' & E1 & E2).
  cbn [app] in E2. rewrite E1, E2. apply flat_append.
Qed.

(** Symbols below the first one take what they give. *)
Definition calm (symbols : list symbol) : Prop :=
  forallb quiet (tl symbols) = true
  \/ exists r, symbols = expect "<" :: backref_name_begin :: r /\ forallb quiet r = true.

Lemma calm_tl s r : s <> expect "<" -> calm (s :: r) -> forallb quiet r = true.
Proof. intros H [Hc|(r' & [= -> _] & _)]; [exact Hc|congruence]. Qed.

Lemma calm_quiet l r : forallb quiet (tl l) = true -> forallb quiet r = true -> calm (l ++ r).
Proof.
  intros H1 H2. left. destruct l as [|s l]; cbn [app tl] in *; [destruct r; [easy|]; cbn in H2; now apply Bool.andb_true_iff in H2|].
  now rewrite forallb_app, H1, H2.
Qed.

Lemma atom_calm tail c l : atom tail c = Advance l -> forallb quiet tail = true -> forallb quiet (tl l) = true.
Proof. intros H Ht. unfold atom in H. split_step H; injection H as <-; cbn; exact Ht. Qed.

Lemma atom_ev tail c l st : atom tail c = Advance l -> evs l st = evs tail ([] :: st).
Proof. intros H. unfold atom in H. split_step H; injection H as <-; reflexivity. Qed.

Lemma escaped_ev c l : handle_escaped_char c = Advance l ->
  (forall st, evs l st = [] :: st) /\ forallb quiet (tl l) = true.
Proof. intros H. unfold handle_escaped_char in H. split_step H; injection H as <-; split; reflexivity. Qed.

Lemma set_escaped_ev c l : handle_set_escape_sequence c = Advance l ->
  (forall st, evs l st = [] :: st) /\ forallb quiet (tl l) = true.
Proof.
  intros H. unfold handle_set_escape_sequence in H. split_step H; try (injection H as <-; split; reflexivity).
  eapply escaped_ev; eauto.
Qed.

Definition with_emit (d : list group_name) (st : list (list group_name)) : list (list group_name) :=
  match d with [] => st | _ => match st with x :: r => (x ++ d) :: r | [] => st end end.

(** Rule symbols that take a node. *)
Definition takes (s : symbol) : bool :=
  match s with
  | Act _ | expect _ | unquantifiable => false
  | _ => quiet s
  end.

Lemma ev_advance s c l st : rule s (Some c) = Advance l -> (takes s = true -> st <> []) ->
  evs l st = with_emit (emit s c) (ev s st)
  /\ (forallb quiet (tl l) = true \/ l = [expect "<"; backref_name_begin]).
Proof.
  intros H Ht. destruct s; cbn [rule] in H; try discriminate H.
  all: unfold handle_escape_sequence, handle_set_range_escape_sequence, begin_name, continue_name,
         begin_quantifier_value, continue_quantifier_value, continue_quantifier_range,
         continue_hex_escape_sequence, abort_quantifier_parsing in H.
  all: split_step H.
  all: lazymatch type of H with
       | atom ?t _ = _ => split;
           [rewrite (atom_ev _ _ _ st H)|left; eapply atom_calm; [exact H|reflexivity]]
       | handle_escaped_char _ = _ =>
           apply escaped_ev in H; destruct H as [H1 H2]; split; [now rewrite H1|now left]
       | handle_set_escape_sequence _ = _ =>
           apply set_escaped_ev in H; destruct H as [H1 H2]; split; [now rewrite H1|now left]
       | _ => injection H as <-; split; [|first [left; reflexivity | right; reflexivity]]
       end.
  all: cbn [emit with_emit ev quiet evs ev_act]; try reflexivity.
  all: repeat match goal with E : (_ == _) = _ |- _ => rewrite E end; try reflexivity.
  all: destruct st; [now destruct Ht|]; now rewrite app_nil_r.
Qed.

Lemma ev_push s token l st : rule s token = Push l -> (takes s = true -> st <> []) ->
  evs l st = with_emit (match token with Some c => emit s c | None => [] end) (ev s st)
  /\ forallb quiet (tl l) = true.
Proof.
  intros H Ht. destruct s; cbn [rule] in H; destruct token as [c0|]; try discriminate H.
  all: unfold handle_escape_sequence, handle_set_range_escape_sequence, begin_name, continue_name,
         begin_quantifier_value, continue_quantifier_value, continue_quantifier_range,
         continue_hex_escape_sequence, abort_quantifier_parsing in H.
  all: split_step H; try (exfalso; eapply escaped_not_push; eassumption).
  all: try (match type of H with
         | context [atom ?t ?c] => destruct (atom_advances t c) as [? X]; rewrite X in H; discriminate H
         | context [handle_set_escape_sequence ?c] => destruct (set_esc_shape c) as [? X]; rewrite X in H; discriminate H
         end).
  all: injection H as <-; (split; [|reflexivity]).
  all: cbn [emit with_emit ev quiet evs ev_act]; try reflexivity.
  all: repeat match goal with E : (_ == _) = true |- _ => apply Ascii.eqb_eq in E; subst end; try reflexivity.
  all: destruct st; [now destruct Ht|]; now rewrite app_nil_r.
Qed.

Lemma ev_ignore s token : rule s token = Ignore -> quiet s = true \/ opener s = true /\ token = None.
Proof.
  intros H. destruct s; cbn [rule] in H; destruct token as [c0|]; try discriminate H.
  all: unfold handle_escape_sequence, handle_set_range_escape_sequence, begin_name, continue_name,
         begin_quantifier_value, continue_quantifier_value, continue_quantifier_range,
         continue_hex_escape_sequence, abort_quantifier_parsing in H.
  all: split_step H.
  all: try (match type of H with
         | context [atom ?t ?c] => destruct (atom_advances t c) as [? X]; rewrite X in H; discriminate H
         | context [handle_escaped_char ?c] => destruct (esc_shape c) as [? X]; rewrite X in H; discriminate H
         | context [handle_set_escape_sequence ?c] => destruct (set_esc_shape c) as [? X]; rewrite X in H; discriminate H
         end).
  all: auto.
Qed.

Lemma quiet_act_ev s r st : is_act s = false -> quiet s = true -> evs (s :: r) st = evs r st.
Proof. intros Ha Hq. cbn [evs]. f_equal. destruct s; try discriminate; reflexivity. Qed.

(** Actions on nodes do what [ev_act] says about their names. *)
Definition node_names (nodes : list node) : list (list group_name) := map capture_name_spec nodes.

Lemma trivial_nameless n : shaped n = true -> trivial n = true -> capture_name_spec n = [].
Proof.
  intros H1 H2. pose proof (shaped_trivial_no_groups n H1 H2) as H. rewrite <- names_count in H.
  now destruct (capture_name_spec n).
Qed.

Ltac inv_eff He := inversion He; subst;
  try match goal with B : In _ _ |- _ => exfalso; cbn [In] in B;
    repeat match type of B with _ \/ _ => destruct B as [B|B]; try discriminate B end; destruct B end.

Lemma names_act a need give f c nodes nodes' :
  eff (Act a) need give -> fits (need ++ f) nodes -> build a (Some c) nodes = Some nodes' ->
  node_names nodes' = ev_act a (node_names nodes).
Proof.
  intros He F B. unfold node_names.
  destruct a; cbn [build] in B; try (injection B as <-; reflexivity).
  - (* sequence *)
    inv_eff He. inversion F as [|? y ? t _ F1]; subst. inversion F1 as [|? y0 ? t0 _ F2]; subst.
    destruct y, y0; injection B as <-; cbn [map capture_name_spec flat_map ev_act];
      rewrite ?flat_map_app; cbn [flat_map]; rewrite ?app_nil_r; reflexivity.
  - inv_eff He. inversion F as [|? y ? t _ F1]; subst. inversion F1 as [|? y0 ? t0 _ F2]; subst.
    destruct y0; injection B as <-; cbn [map capture_name_spec flat_map ev_act];
      rewrite ?flat_map_app; cbn [flat_map]; rewrite ?app_nil_r; reflexivity.
  - inv_eff He. inversion F as [|? y ? t [A K] F1]; subst. destruct K as (l & ->). injection B as <-. reflexivity.
  - assert (G : exists x l t, nodes = x :: CSet l :: t /\ shaped x = true /\ trivial x = true
                              /\ shaped (CSet l) = true).
    { inv_eff He; inversion F as [|? y ? t [A K] F1]; subst;
        inversion F1 as [|? y0 ? t0 [A0 K0] F2]; subst.
      all: apply printable_shaped in A, A0.
      - destruct K0 as [l ->]. exists y, l, t0. split; [reflexivity|]. split; [exact A|]. split; [|exact A0].
        destruct K as [[c' ->]|[K|(x & -> & K)]]; [reflexivity| |];
          cbn [classes In] in K; repeat destruct K as [<-|K]; try reflexivity; destruct K.
      - destruct K0 as (x & l & ->). destruct K as [c' ->]. exists (Lit c'), (x :: l), t0. auto. }
    destruct G as (x & l & t & -> & S1 & S2 & S3).
    pose proof (trivial_nameless x S1 S2) as N1. pose proof (trivial_nameless (CSet l) S3 eq_refl) as N2.
    cbn [map ev_act]. rewrite N1, N2.
    assert (B' : exists l', nodes' = CSet l' :: t /\ capture_name_spec (CSet l') = []).
    { destruct x; injection B as <-; eexists; (split; [reflexivity|]);
        cbn [capture_name_spec flat_map] in *; rewrite ?flat_map_app, ?N1, ?N2; auto. }
    destruct B' as (l' & -> & B'). cbn [map]. now rewrite B'.
  - inv_eff He. inversion F as [|? y ? t [A K] F1]; subst. destruct K as (x & l & ->).
    destruct x; injection B as <-; reflexivity.
  - inv_eff He. inversion F as [|? y ? t [A K] F1]; subst. destruct K as (c' & x & l & ->).
    destruct x; injection B as <-; reflexivity.
  - destruct nodes; [discriminate|]. injection B as <-. reflexivity.
  - destruct nodes; [discriminate|]. injection B as <-. reflexivity.
  - destruct nodes; [discriminate|]. injection B as <-. reflexivity.
  - destruct nodes; [discriminate|]. injection B as <-. reflexivity.
Qed.

Lemma takes_nodes prev nodes s r : ok prev nodes (s :: r) -> takes s = true -> node_names nodes <> [].
Proof.
  intros [(ks & F & T) _ _ _] Ht.
  inversion T as [|s0 r0 need give frame ks0 ks0' He Hsub _]; subst.
  pose proof (fits_sub _ _ _ Hsub F) as F'.
  assert (N : need <> []).
  { clear - He Ht. intros ->. inversion He; subst; try discriminate Ht; cbn [In] in *;
      repeat match goal with
      | B : _ \/ _ |- _ => destruct B as [B|B]; subst; try discriminate
      | B : False |- _ => destruct B
      end. }
  destruct need; [easy|]. inversion F'; subst. discriminate.
Qed.

Lemma ok_names prev nodes a r : ok prev nodes (Act a :: r) ->
  forall nodes', build a prev nodes = Some nodes' -> node_names nodes' = ev_act a (node_names nodes).
Proof.
  intros [(ks & F & T) _ _ Hp] nodes' B.
  inversion T as [|s0 r0 need give frame ks0 ks0' He Hsub Ht]; subst.
  pose proof (fits_sub _ _ _ Hsub F) as F'.
  destruct Hp as [Hp|[_ Hp]]; [|discriminate]. destruct prev as [c|]; [|easy].
  eapply names_act; eauto.
Qed.

Lemma emits s c : emit s c = [] \/ quiet s = false /\ s <> expect "<" /\ ev s = cons [].
Proof.
  destruct s; cbn [emit]; auto.
  - destruct (c == "?"); [now left|right]. repeat split. discriminate.
  - destruct (c == ">"); [right|now left]. repeat split. discriminate.
Qed.

Lemma emit_flat s c r st : calm (s :: r) ->
  flat (evs r (with_emit (emit s c) (ev s st))) = flat (evs r (ev s st)) ++ emit s c.
Proof.
  intros Hc. destruct (emits s c) as [->|(Hq & Hs & ->)]; [cbn; now rewrite app_nil_r|].
  destruct (emit s c) as [|x d]; [cbn; now rewrite app_nil_r|]. cbn [with_emit app].
  apply quiet_emit. now apply calm_tl in Hc.
Qed.

Lemma calm_expect r : calm (expect "<" :: r) -> forall l, l = [] -> calm (l ++ r).
Proof.
  intros [H|(r' & [= ->] & H)] l ->.
  - now apply (calm_quiet [] r).
  - left. exact H.
Qed.

Theorem from_scan : forall rest w i prev nodes symbols n,
  weights symbols <= w -> ok prev nodes symbols -> placed symbols -> calm symbols ->
  parse_from i prev rest nodes symbols = P_ok n ->
  capture_name_spec n = flat (evs symbols (node_names nodes)) ++ scan (place_of symbols) rest.
Proof.
  induction rest as [|c rest IHrest]; intros w; induction w as [|w IHw];
    intros i prev nodes symbols n Hw Hok Hpl Hc E.
  1,3: assert (symbols = []) as -> by
         (destruct symbols as [|s r]; [reflexivity|]; rewrite weights_cons in Hw; destruct s; cbn in Hw; lia).
  - rewrite parse_end in E. injection E as <-. apply ok_final in Hok.
    destruct nodes as [|x [|]]; cbn in Hok; try lia; [reflexivity|]. cbn.
    unfold index_captures. rewrite names_index. unfold flat. cbn. now rewrite !app_nil_r.
  - discriminate E.
  - destruct symbols as [|s r].
    { rewrite parse_end in E. injection E as <-. apply ok_final in Hok.
      destruct nodes as [|x [|]]; cbn in Hok; try lia; [reflexivity|]. cbn.
      unfold index_captures. rewrite names_index. unfold flat. cbn. now rewrite !app_nil_r. }
    rewrite weights_cons in Hw. assert (1 <= weight s) by (destruct s; cbn; lia).
    destruct (is_act s) eqn:A.
    + destruct s; try discriminate A. destruct (ok_act _ _ _ _ Hok) as (c & nodes' & Hprev & B & Hok').
      rewrite (parse_act _ _ _ _ _ _ _ B) in E.
      apply IHw in E; auto; try lia.
      * rewrite E. cbn [evs ev place_of]. now rewrite (ok_names _ _ _ _ Hok _ B).
      * apply Hpl.
      * apply (calm_quiet [] r); [reflexivity|]. eapply calm_tl; [|exact Hc]. discriminate.
    + destruct (rule s None) eqn:R.
      * assert (E' := E). rewrite parse_ignore in E by assumption.
        destruct (ok_ignore _ _ _ _ _ Hok R) as [[_ Ho]|Hok'].
        -- destruct s; try discriminate Ho.
           ++ destruct (ok_only_begin _ _ _ Hok) as [-> ->]. rewrite parse_end in E. injection E as <-. reflexivity.
           ++ exfalso. destruct (ok_head _ _ _ Hok) as [r' ->]. now rewrite parse_reject in E.
           ++ exfalso. destruct (ok_head _ _ _ Hok) as (acts & r' & -> & _).
              rewrite from_token in E. cbn [hd_error] in E.
              destruct (waits acts (token_fuel (map Act acts ++ expect ")" :: r')) i prev nodes r'
                          (weights_fuel _)) as [X|[X _]]; rewrite X in E; discriminate E.
        -- destruct (ev_ignore _ _ R) as [Hq|[Ho _]].
           2: { destruct s; try discriminate Ho.
             - destruct (ok_only_begin _ _ _ Hok) as [-> ->]. rewrite parse_end in E. injection E as <-. reflexivity.
             - exfalso. destruct (ok_head _ _ _ Hok) as [r' ->]. now rewrite parse_reject in E.
             - exfalso. destruct (ok_head _ _ _ Hok) as (acts & r' & -> & _).
               rewrite from_token in E. cbn [hd_error] in E.
               destruct (waits acts (token_fuel (map Act acts ++ expect ")" :: r')) i prev nodes r'
                          (weights_fuel _)) as [X|[X _]]; rewrite X in E; discriminate E. }
           apply IHw in E; auto; try lia.
           ++ rewrite E, quiet_act_ev by assumption. reflexivity.
           ++ apply Hpl.
           ++ apply (calm_quiet [] r); [reflexivity|]. eapply calm_tl; [|exact Hc].
              intros ->. discriminate R.
      * pose proof (rule_push _ _ _ R) as Hl. rewrite (parse_push i prev [] nodes s r l A R) in E.
        destruct (scan_push _ _ _ r R Hpl) as [Hpl' _].
        destruct (ev_push _ _ _ (node_names nodes) R (takes_nodes _ _ _ _ Hok)) as [Hev Hqt].
        apply IHw in E; auto.
        -- rewrite E, evs_app, Hev. cbn [evs with_emit]. reflexivity.
        -- rewrite weights_app. lia.
        -- eapply ok_push; eauto.
        -- apply calm_quiet; auto. eapply calm_tl; [|exact Hc]. intros ->. discriminate R.
      * now apply no_advance_end in R.
      * now rewrite parse_reject in E.
      * now apply no_accept in R.
  - destruct symbols as [|s r]; [discriminate E|].
    rewrite weights_cons in Hw. assert (1 <= weight s) by (destruct s; cbn; lia).
    destruct (is_act s) eqn:A.
    + destruct s; try discriminate A. destruct (ok_act _ _ _ _ Hok) as (c' & nodes' & Hprev & B & Hok').
      rewrite (parse_act _ _ _ _ _ _ _ B) in E.
      apply IHw in E; auto; try lia.
      * rewrite E. cbn [evs ev place_of]. now rewrite (ok_names _ _ _ _ Hok _ B).
      * apply Hpl.
      * apply (calm_quiet [] r); [reflexivity|]. eapply calm_tl; [|exact Hc]. discriminate.
    + destruct (rule s (Some c)) eqn:R.
      * rewrite parse_ignore in E by assumption.
        destruct (ok_ignore _ _ _ _ _ Hok R) as [[[=] _]|Hok'].
        destruct (ev_ignore _ _ R) as [Hq|[_ [=]]].
        destruct (scan_ignore _ _ r R Hpl) as [Hp|[_ [=]]].
        apply IHw in E; auto; try lia.
        -- rewrite E, quiet_act_ev, Hp by assumption. reflexivity.
        -- apply Hpl.
        -- apply (calm_quiet [] r); [reflexivity|]. eapply calm_tl; [|exact Hc].
           intros ->. cbn [rule] in R. destruct (c == "<"); discriminate R.
      * pose proof (rule_push _ _ _ R) as Hl. rewrite (parse_push i prev (c :: rest) nodes s r l A R) in E.
        destruct (scan_push _ _ _ r R Hpl) as [Hpl' Hsc].
        destruct (ev_push _ _ _ (node_names nodes) R (takes_nodes _ _ _ _ Hok)) as [Hev Hqt].
        apply IHw in E; auto.
        -- rewrite E, evs_app, Hev, emit_flat, Hsc, <- app_assoc by exact Hc. reflexivity.
        -- rewrite weights_app. lia.
        -- eapply ok_push; eauto.
        -- apply calm_quiet; auto. eapply calm_tl; [|exact Hc].
           intros ->. cbn [rule] in R. destruct (c == "<"); discriminate R.
      * rewrite (parse_advance _ _ _ _ _ _ _ l A R) in E.
        destruct (scan_advance _ _ _ r rest R Hpl) as [Hpl' Hsc].
        destruct (ev_advance _ _ _ (node_names nodes) R (takes_nodes _ _ _ _ Hok)) as [Hev Hqt].
        apply (IHrest (weights (l ++ r))) in E; auto.
        -- rewrite E, evs_app, Hev, emit_flat, Hsc, <- app_assoc by exact Hc. reflexivity.
        -- eapply ok_advance; eauto.
        -- assert (D : s = expect "<" \/ s <> expect "<").
           { destruct s; try (right; discriminate). destruct (c0 == "<") eqn:X.
             - apply Ascii.eqb_eq in X. subst. now left.
             - right. intros [= ->]. discriminate. }
           destruct D as [->|D].
           ++ cbn [rule] in R. destruct (c == "<"); [|discriminate R]. injection R as <-.
              eapply calm_expect; [exact Hc|reflexivity].
           ++ apply calm_tl in Hc; [|exact D]. destruct Hqt as [Hqt| ->]; [now apply calm_quiet|].
              right. exists r. split; [reflexivity|exact Hc].
      * now rewrite parse_reject in E.
      * now apply no_accept in R.
Qed.

(** C24: the groups of the tree are the capturing parentheses of the pattern. *)
Theorem parse_scan p n : parse p = P_ok n -> capture_name_spec n = scan InText p.
Proof.
  intros E. unfold parse in E.
  rewrite (from_scan p _ 0 None [] [s_begin] n (le_n _) ok_begin) with (3 := E); try reflexivity.
  - cbn. auto.
  - now left.
Qed.
