(** The patterns at whose end the parser is stuck (C29). *)
From Verif Require Import Parser Basics Normal Syntax Steps Typing Shape Reading Accepted Viable.
From Coq Require Import Lia.

(** ** The shape of these patterns *)

(** Nothing but opened groups, the last one of a kind that needs a body. *)
Inductive openings : text -> Prop :=
| openings_last o F : opening o F -> o <> [] -> o <> str "?:" -> openings (str "(" ++ o)
| openings_more o F t : opening o F -> openings t -> openings (str "(" ++ o ++ t).

(** ** They are stuck *)

Lemma openings_begin t : openings t -> exists t', t = "("%char :: t'.
Proof. destruct 1; eexists; reflexivity. Qed.

Theorem openings_stuck t : openings t -> forall s tail i prev r, starts s tail ->
  parse_from i prev t [] (s :: r) = P_stuck.
Proof.
  induction 1 as [o F Ho Hne Hp|o F t Ho Ht IH]; intros s tail i prev r [Ha Hs]; texts.
  - erewrite parse_advance; [|exact Ha|rewrite Hs by reflexivity; reflexivity]. cbn [app].
    destruct (opening_reads o F Ho Hne) as (acts & H1 & _ & [H2|(a & acts' & -> & H2)]); [easy|].
    destruct (H1 (S i) (Some "("%char) [] [] (expect ")"%char :: s_mod :: tail ++ r)) as (i' & p' & E).
    rewrite app_nil_r in E. rewrite E. rewrite parse_ignore by reflexivity. cbn [app]. now apply parse_act_stuck.
  - erewrite parse_advance; [|exact Ha|rewrite Hs by reflexivity; reflexivity]. cbn [app].
    destruct o as [|c o]; [cbn [app]; eapply IH, starts_group_or_mod|].
    destruct (opening_reads _ F Ho ltac:(discriminate)) as (acts & H1 & _).
    edestruct H1 as (i' & p' & E). rewrite E. eapply IH, starts_group.
Qed.

(** ** Only these are stuck *)

(** An action that needs no node. *)
Definition creates (a : action) : bool :=
  match a with
  | make_set | make_digit | make_word | make_linebreak | make_empty | make_beginning_of_line
  | make_beginning_of_input | make_end_of_line | make_end_of_input | make_word_boundary | make_whitespace
  | make_wildcard | make_literal | push_literal _ | make_backref _ | make_named_backref _ => true
  | _ => false
  end.

(** There is a node on the stack, or there will be one. *)
Definition wet (nodes : list node) (symbols : list symbol) : Prop :=
  nodes <> [] \/
  match symbols with
  | Act a :: _ => creates a = true
  | (s_esc | hex_esc_seq _ | backref_id _ | backref_name_begin | backref_name_seq _) :: _ => True
  | expect _ :: backref_name_begin :: _ => True
  | _ => False
  end.

Lemma build_some a prev nodes nodes' : build a prev nodes = Some nodes' -> nodes' <> [].
Proof.
  intros H. destruct a; cbn [build] in H;
    repeat match type of H with match ?x with _ => _ end = Some _ => destruct x; try discriminate H end;
    injection H as <-; discriminate.
Qed.

Lemma unary_build acts : forallb unary acts = true -> forall f i prev nodes r, nodes <> [] ->
  weights (map Act acts ++ expect ")" :: r) < f ->
  parse_token f i prev None nodes (map Act acts ++ expect ")" :: r) = P_result (P_error i).
Proof.
  induction acts as [|a acts IH]; intros Hu [|f] i prev nodes r Hn Hf; try lia; [reflexivity|].
  cbn [forallb map app] in *. apply andb_prop in Hu. destruct Hu as [Ha Hu].
  rewrite weights_cons in Hf. cbn [weight] in Hf. rewrite token_act.
  destruct nodes as [|x nodes]; [easy|].
  destruct a; try discriminate Ha; cbn [build]; apply IH; auto; try discriminate; lia.
Qed.

Lemma wet_escape c l r : handle_escape_sequence c = Advance l -> wet [] (l ++ r).
Proof.
  intros H. unfold handle_escape_sequence, handle_escaped_char in H.
  repeat match type of H with (if ?b then _ else _) = _ => destruct b end; injection H as <-; right; cbn; auto.
Qed.

Lemma wet_more nodes symbols : wet [] symbols -> wet nodes symbols.
Proof. intros [H|H]; [easy|now right]. Qed.

Lemma token_wet f : forall i prev token nodes symbols, weights symbols < f -> ok prev nodes symbols ->
  wet nodes symbols ->
  match parse_token f i prev token nodes symbols with
  | P_result P_stuck => False
  | P_state nodes' symbols' => wet nodes' symbols'
  | _ => True
  end.
Proof.
  induction f as [|f IH]; intros i prev token nodes symbols Hf Hok Hw; [lia|].
  destruct symbols as [|s r]; [cbn; now destruct (rule_empty token)|].
  rewrite weights_cons in Hf. assert (Hw1 : 1 <= weight s) by (destruct s; cbn; lia).
  destruct (is_act s) eqn:A.
  { destruct s; try discriminate A. rewrite token_act.
    destruct (ok_act _ _ _ _ Hok) as (c & nodes' & _ & E & Hok'). rewrite E. apply IH; [lia|exact Hok'|].
    left. eapply build_some, E. }
  rewrite token_rule by exact A. destruct (rule s token) eqn:R; try exact I.
  - assert (N : nodes <> []).
    { destruct Hw as [Hw|Hw]; [exact Hw|exfalso].
      destruct s; try contradiction Hw; try discriminate A; cbn [rule] in R; destruct token as [c0|]; try discriminate R.
      all: unfold handle_escape_sequence, begin_name, continue_name in R.
      all: repeat match type of R with
             | context [if ?b then _ else _] => destruct b; try discriminate R
             | context [handle_escaped_char ?c] => destruct (esc_shape c) as [? E]; rewrite E in R; discriminate R
             end.
      all: destruct digits as [|? [|? [|]]]; cbn in R; try discriminate R; destruct (is_hexdigit c0); discriminate R. }
    destruct (ok_ignore _ _ _ _ _ Hok R) as [[-> Ho]|Hok']; [|apply IH; [lia|exact Hok'|now left]].
    pose proof (ok_head _ _ _ Hok) as Hh. destruct s; try discriminate Ho; cbn [head_ok] in Hh.
    + destruct (ok_only_begin _ _ _ Hok) as [-> ->]. easy.
    + destruct Hh as [r' ->]. pose proof (unary_build [] eq_refl f i prev nodes r' N) as X. cbn [map app] in X. rewrite X by lia. exact I.
    + destruct Hh as (acts & r' & -> & _ & Ha). rewrite (unary_build acts Ha f i prev nodes r' N) by lia. exact I.
  - apply IH; [pose proof (rule_push _ _ _ R) as Hl; rewrite weights_app; lia|eapply ok_push; eauto|].
    destruct Hw as [Hw|Hw]; [now left|].
    destruct s; try contradiction Hw; try discriminate A; cbn [rule] in R; destruct token as [c0|]; try discriminate R.
    all: unfold handle_escape_sequence, begin_name, continue_name in R.
    all: repeat match type of R with
           | context [if ?b then _ else _] => destruct b; try discriminate R
           | context [handle_escaped_char ?c] => destruct (esc_shape c) as [? E]; rewrite E in R; discriminate R
           end.
    all: try (destruct digits as [|? [|? [|]]]; cbn in R; try discriminate R).
    all: try (destruct (is_hexdigit c0); discriminate R).
    all: injection R as <-; right; reflexivity.
  - destruct Hw as [Hw|Hw]; [now left|].
    destruct token as [c0|]; [|now apply no_advance_end in R].
    destruct s; try contradiction Hw; try discriminate A; cbn [rule] in R.
    + destruct (c0 == c); [|discriminate R]. injection R as <-. cbn [app].
      destruct r as [|[] r]; try contradiction Hw. right. exact I.
    + apply wet_more. eapply wet_escape, R.
    + unfold begin_name in R. destruct (_ && _) in R; [|discriminate R]. injection R as <-. right. exact I.
    + destruct (is_digit c0); [|discriminate R]. injection R as <-. right. exact I.
    + unfold continue_name in R. destruct (c0 == ">"); [injection R as <-; right; reflexivity|].
      destruct (is_word c0); [|discriminate R]. injection R as <-. right. exact I.
    + unfold continue_hex_escape_sequence in R. destruct digits as [|? [|? [|]]]; cbn in R; try discriminate R;
        destruct (is_hexdigit c0); try discriminate R; injection R as <-; right; exact I.
Qed.

Theorem wet_not_stuck : forall rest i prev nodes symbols, ok prev nodes symbols -> wet nodes symbols ->
  parse_from i prev rest nodes symbols <> P_stuck.
Proof.
  induction rest as [|c rest IH]; intros i prev nodes symbols Hok Hw E; rewrite from_token in E.
  - pose proof (token_ok _ i prev (@hd_error ascii []) nodes symbols (weights_fuel symbols) Hok) as T.
    pose proof (token_wet _ i prev (@hd_error ascii []) nodes symbols (weights_fuel symbols) Hok Hw) as T2.
    destruct (parse_token _ _ _ _ _ _); [destruct T as (? & [=] & _)|]. now subst r.
  - pose proof (token_ok _ i prev (hd_error (c :: rest)) nodes symbols (weights_fuel symbols) Hok) as T.
    pose proof (token_wet _ i prev (hd_error (c :: rest)) nodes symbols (weights_fuel symbols) Hok Hw) as T2.
    destruct (parse_token _ _ _ _ _ _).
    + destruct T as (c' & [= <-] & T). eapply IH; eauto.
    + now subst r.
Qed.

Lemma name_stuck : forall rest chars i prev nodes r,
  ok prev nodes (capture_name_seq chars :: r) ->
  parse_from i prev rest nodes (capture_name_seq chars :: r) = P_stuck ->
  exists nm rest' i' prev', rest = nm ++ ">"%char :: rest' /\ forallb is_word nm = true
  /\ ok prev' nodes (group_begin :: Act (make_capture (Some (chars ++ nm))) :: r)
  /\ parse_from i' prev' rest' nodes (group_begin :: Act (make_capture (Some (chars ++ nm))) :: r) = P_stuck.
Proof.
  induction rest as [|c rest IH]; intros chars i prev nodes r Hok A.
  - now rewrite parse_reject in A.
  - destruct (c == ">") eqn:E.
    + exists [], rest, (S i), (Some c). rewrite app_nil_r. apply Ascii.eqb_eq in E. subst c.
      split; [reflexivity|]. split; [reflexivity|].
      erewrite parse_advance in A by reflexivity. split; [|exact A].
      exact (ok_advance _ _ _ _ ">"%char [group_begin; Act (make_capture (Some chars))] Hok eq_refl).
    + destruct (is_word c) eqn:W.
      2:{ rewrite parse_reject in A; [discriminate|reflexivity|]. cbn [hd_error rule]. rewrite E. unfold continue_name. now rewrite W. }
      assert (Ad : rule (capture_name_seq chars) (Some c) = Advance [capture_name_seq (chars ++ [c])]).
      { cbn [rule]. rewrite E. unfold continue_name. now rewrite W. }
      erewrite parse_advance in A; [|reflexivity|exact Ad].
      destruct (IH (chars ++ [c]) (S i) (Some c) nodes r (ok_advance _ _ _ _ _ _ Hok Ad) A) as (nm & rest' & i' & p' & -> & Hw & H1 & H2).
      exists (c :: nm), rest', i', p'. rewrite <- app_assoc in H1, H2. cbn [app] in H1, H2.
      split; [reflexivity|]. split; [cbn; now rewrite W|]. auto.
Qed.

(** What follows when nothing was built yet. *)
Definition remains (s : symbol) (r : list symbol) (rest : text) : Prop :=
  (rest = [] /\ s = group_begin /\ exists a r', r = Act a :: r') \/
  openings rest \/
  (s = group_begin_or_mod /\ exists o F rest', opening o F /\ o <> [] /\ rest = o ++ rest' /\
     (rest' = [] /\ o <> str "?:" \/ openings rest')).

Lemma atom_wet tail c r : c <> "("%char -> exists l, atom tail c = Advance l /\ wet [] (l ++ r).
Proof.
  intros N. unfold atom. apply Ascii.eqb_neq in N. rewrite N.
  repeat match goal with |- context [if ?b then _ else _] => destruct b end; eexists; (split; [reflexivity|]); right; reflexivity || exact I.
Qed.

Lemma dry m : forall rest i prev s r, length rest < m -> ok prev [] (s :: r) ->
  (s = s_begin \/ s = group_begin \/ s = group_begin_or_mod) ->
  parse_from i prev rest [] (s :: r) = P_stuck -> remains s r rest.
Proof.
  induction m as [|m IH]; intros rest i prev s r Hm Hok Hs A; [lia|].
  destruct rest as [|c rest].
  - pose proof (ok_head _ _ _ Hok) as Hh. destruct Hs as [->|[->| ->]].
    + destruct (ok_only_begin _ _ _ Hok) as [-> _]. rewrite parse_ignore in A by reflexivity. now rewrite parse_end in A.
    + cbn [head_ok] in Hh. destruct Hh as (acts & r' & -> & _). rewrite parse_ignore in A by reflexivity.
      destruct acts as [|a acts]; cbn [map app] in A; [now rewrite parse_reject in A|]. left. split; [reflexivity|]. split; [reflexivity|].
      cbn [map app]. eauto.
    + cbn [head_ok] in Hh. destruct Hh as (r' & ->). rewrite parse_ignore in A by reflexivity.
      now rewrite parse_reject in A.
  - cbn [length] in Hm.
    assert (Hc : (exists tail, rule s (Some c) = atom tail c) \/ rule s (Some c) = Reject \/
      (c = "?"%char /\ s = group_begin_or_mod) \/ exists l, rule s (Some c) = Push (Act make_empty :: l)).
    { destruct Hs as [->|[->| ->]]; cbn [rule].
      - destruct (_ || _); eauto.
      - destruct (c == ")"); [right; right; right; now exists []|]. destruct (_ || _); eauto.
      - destruct (c == ")"); [right; right; right; eauto|]. destruct (_ || _); [auto|]. destruct (c == "?") eqn:E; [|eauto].
        apply Ascii.eqb_eq in E. auto 6. }
    assert (As : is_act s = false) by (destruct Hs as [->|[->| ->]]; reflexivity).
    destruct Hc as [(tail & Hc)|[Hc|[[-> ->]|(l & Hc)]]].
    + destruct (Ascii.ascii_dec c "(") as [->|C].
      * cbn [atom Ascii.eqb] in Hc. pose proof (ok_advance _ _ _ _ _ _ Hok Hc) as Hok'.
        erewrite parse_advance in A; [|exact As|exact Hc].
        destruct (IH rest _ _ _ _ ltac:(lia) Hok' ltac:(auto) A) as [(_ & [=] & _)|[Ho|(_ & o & F & rest' & Ho & Hne & -> & [[-> Hp]|Ht])]].
        -- right. left. exact (openings_more [] _ rest open_capture Ho).
        -- right. left. rewrite app_nil_r. exact (openings_last o F Ho Hne Hp).
        -- right. left. exact (openings_more o F rest' Ho Ht).
      * destruct (atom_wet tail c r C) as (l & E & Hw). rewrite E in Hc. exfalso.
        erewrite parse_advance in A; [|exact As|exact Hc].
        eapply wet_not_stuck; [eapply ok_advance; eauto|exact Hw|exact A].
    + now rewrite parse_reject in A.
    + right. right. split; [reflexivity|].
      pose proof (ok_advance _ _ _ _ "?"%char _ Hok eq_refl) as Hok'. cbn [app] in Hok'.
      erewrite parse_advance in A by reflexivity. cbn [app] in A.
      destruct rest as [|c rest]; [now rewrite parse_reject in A|]. cbn [length] in Hm.
      assert (G : forall o F acts, opening ("?"%char :: o :: []) F -> c = o ->
        rule group_mod (Some o) = Advance (group_begin :: acts) ->
        (o <> ":"%char \/ acts = []) ->
        exists o F rest', opening o F /\ o <> [] /\ "?"%char :: c :: rest = o ++ rest' /\
          (rest' = [] /\ o <> str "?:" \/ openings rest')).
      { intros o F acts Ho -> Hr Hx. erewrite parse_advance in A; [|reflexivity|exact Hr]. cbn [app] in A.
        pose proof (ok_advance _ _ _ _ _ _ Hok' Hr) as Hk. cbn [app] in Hk.
        exists ["?"%char; o], F, rest. split; [exact Ho|]. split; [discriminate|]. split; [reflexivity|].
        destruct (IH rest _ _ _ _ ltac:(lia) Hk ltac:(auto) A) as [(-> & _ & a & r' & E)|[Hq|([=] & _)]]; [left|now right].
        split; [reflexivity|]. destruct Hx as [Hx| ->]; [cbn; congruence|].
        pose proof (ok_head _ _ _ Hok) as Hh. cbn [head_ok] in Hh. destruct Hh as (r2 & ->). discriminate E. }
      destruct (Ascii.ascii_dec c ":") as [->|C1]; [eapply (G ":"%char); [exact open_plain|reflexivity|reflexivity|now right]|].
      destruct (Ascii.ascii_dec c ">") as [->|C2]; [eapply (G ">"%char); [exact open_atomic|reflexivity|reflexivity|now left]|].
      destruct (Ascii.ascii_dec c "=") as [->|C3]; [eapply (G "="%char); [exact open_ahead|reflexivity|reflexivity|now left]|].
      destruct (Ascii.ascii_dec c "!") as [->|C4]; [eapply (G "!"%char); [exact open_not_ahead|reflexivity|reflexivity|now left]|].
      destruct (Ascii.ascii_dec c "<") as [->|C5].
      2:{ rewrite parse_reject in A; [discriminate|reflexivity|]. cbn [hd_error rule].
          apply Ascii.eqb_neq in C1, C2, C3, C4, C5. now rewrite C1, C2, C3, C4, C5. }
      clear G C1 C2 C3 C4. pose proof (ok_advance _ _ _ _ "<"%char _ Hok' eq_refl) as Hok2. cbn [app] in Hok2.
      erewrite parse_advance in A by reflexivity. cbn [app] in A.
      destruct rest as [|c rest]; [now rewrite parse_reject in A|]. cbn [length] in Hm.
      assert (G : forall o F acts, opening ("?"%char :: "<"%char :: o :: []) F -> c = o ->
        rule group_mod_less_than (Some o) = Advance (group_begin :: acts) ->
        exists o F rest', opening o F /\ o <> [] /\ "?"%char :: "<"%char :: c :: rest = o ++ rest' /\
          (rest' = [] /\ o <> str "?:" \/ openings rest')).
      { intros o F acts Ho -> Hr. erewrite parse_advance in A; [|reflexivity|exact Hr]. cbn [app] in A.
        pose proof (ok_advance _ _ _ _ _ _ Hok2 Hr) as Hk. cbn [app] in Hk.
        exists ["?"%char; "<"%char; o], F, rest. split; [exact Ho|]. split; [discriminate|]. split; [reflexivity|].
        destruct (IH rest _ _ _ _ ltac:(lia) Hk ltac:(auto) A) as [(-> & _ & a & r' & E)|[Hq|([=] & _)]]; [left|now right].
        now split. }
      destruct (Ascii.ascii_dec c "=") as [->|C1]; [eapply (G "="%char); [exact open_behind|reflexivity|reflexivity]|].
      destruct (Ascii.ascii_dec c "!") as [->|C2]; [eapply (G "!"%char); [exact open_not_behind|reflexivity|reflexivity]|].
      clear G. apply Ascii.eqb_neq in C1, C2.
      destruct (first_inv capture_name_seq c) as [F|(F & W & D)].
      { rewrite parse_reject in A; [discriminate|reflexivity|]. cbn [hd_error rule]. now rewrite C1, C2. }
      assert (Hr : rule group_mod_less_than (Some c) = Advance [capture_name_seq [c]]) by (cbn [rule]; now rewrite C1, C2).
      pose proof (ok_advance _ _ _ _ _ _ Hok2 Hr) as Hk. cbn [app] in Hk.
      erewrite parse_advance in A; [|reflexivity|exact Hr]. cbn [app] in A.
      destruct (name_stuck _ _ _ _ _ _ Hk A) as (nm & rest' & i' & p' & -> & Hw & Hok3 & A'). cbn [app] in Hok3, A'.
      rewrite app_length in Hm. cbn [length] in Hm.
      exists (str "?<" ++ (c :: nm) ++ str ">"), (Cap 0 (Some (c :: nm))), rest'.
      split; [apply open_name; cbn; now rewrite D, W, Hw|]. split; [discriminate|].
      split; [texts; now rewrite <- app_assoc|].
      destruct (IH rest' _ _ _ _ ltac:(lia) Hok3 ltac:(auto) A') as [(-> & _ & a & r' & E)|[Hq|([=] & _)]]; [left|now right].
      split; [reflexivity|]. intros E2. apply (f_equal (@length ascii)) in E2. cbn in E2. rewrite app_length in E2. cbn in E2. lia.
    + exfalso. erewrite parse_push in A; [|exact As|exact Hc].
      eapply wet_not_stuck; [eapply ok_push; eauto| |exact A]. right. reflexivity.
Qed.

(** The patterns at whose end the parser is stuck. *)
Theorem stuck_exact p : parse p = P_stuck <-> openings p.
Proof.
  split; [|intros H; exact (openings_stuck p H _ _ _ _ _ starts_begin)].
  intros H. unfold parse in H. destruct (dry _ _ _ _ _ _ (Nat.lt_succ_diag_r _) ok_begin ltac:(auto) H) as [(_ & [=] & _)|[Ho|([=] & _)]].
  exact Ho.
Qed.

(** ** The verdict, by the grammar alone *)

(** The text can be continued to a pattern of the grammar. *)
Definition completable (p : text) : Prop := exists t x, body (p ++ t) x.

Lemma completable_viable p : completable p <-> viable p.
Proof.
  split.
  - intros (t & x & B). exists t, (index_captures x). apply parse_is_grammar. eauto.
  - intros (t & n & H). apply parse_is_grammar in H. destruct H as (x & B & _). now exists t, x.
Qed.

Theorem error_exact p i :
  parse p = P_error i <->
  i <= length p /\ completable (firstn i p) /\ (i < length p -> ~ completable (firstn (S i) p))
  /\ (i = length p -> ~ openings p /\ ~ exists x, body p x).
Proof.
  rewrite parse_error_exact, <- stuck_exact, !completable_viable.
  split; intros (H1 & H2 & H3 & H4); (split; [exact H1|split; [exact H2|split; [exact H3|]]]); intros Hi;
    destruct (H4 Hi) as [Ha Hb]; (split; [exact Ha|]).
  - intros (x & B). apply (Hb (index_captures x)), parse_is_grammar. eauto.
  - intros n E. apply parse_is_grammar in E. destruct E as (x & B & _). eauto.
Qed.
