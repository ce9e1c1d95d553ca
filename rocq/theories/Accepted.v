(** Every accepted pattern is a text of the grammar: the grammar of Syntax.v is
    exactly the language of the parser. *)
From Verif Require Import Parser Basics Normal Syntax Steps Typing Shape Reading.
From Coq Require Import Lia.

Definition accepted (v : parse_result) : Prop := exists n, v = P_ok n.

Lemma not_error i : ~ accepted (P_error i).
Proof. intros [n H]. discriminate. Qed.
Lemma not_stuck : ~ accepted P_stuck.
Proof. intros [n H]. discriminate. Qed.

Ltac refuse A :=
  exfalso; revert A; rewrite parse_reject; [apply not_error|reflexivity|try reflexivity].

Local Opaque parse_from.

(** ** Escapes *)

Lemma hexdigit_nibble h : is_hexdigit h = true -> In (h, hex_value h) nibbles.
Proof.
  assert (E : forall h, is_hexdigit h = true ->
    existsb (fun p => Ascii.eqb h (fst p) && N.eqb (hex_value h) (snd p)) nibbles = true) by (intros c; sweep c).
  intros H. apply E, existsb_exists in H. destruct H as ([a v] & H1 & H2). cbn in H2.
  apply andb_prop in H2. destruct H2 as [A B]. apply Ascii.eqb_eq in A. apply N.eqb_eq in B. congruence.
Qed.

Lemma hex_inv i prev rest nodes r : accepted (parse_from i prev rest nodes (hex_esc_seq [] :: r)) ->
  exists h1 h2 a b rest' i' prev', rest = h1 :: h2 :: rest' /\ In (h1, a) nibbles /\ In (h2, b) nibbles
  /\ parse_from i prev rest nodes (hex_esc_seq [] :: r)
     = parse_from i' prev' rest' (Lit (ascii_of_N (16 * a + b)) :: nodes) r.
Proof.
  intros A. destruct rest as [|h1 rest]; [refuse A|].
  destruct (is_hexdigit h1) eqn:H1.
  2:{ refuse A. cbn [hd_error rule continue_hex_escape_sequence length Nat.ltb Nat.leb andb]. now rewrite H1. }
  destruct rest as [|h2 rest].
  { exfalso. revert A. erewrite parse_advance; [|reflexivity|cbn [rule continue_hex_escape_sequence length Nat.ltb Nat.leb andb]; rewrite H1; reflexivity].
    cbn [app]. rewrite parse_reject by reflexivity. apply not_error. }
  destruct (is_hexdigit h2) eqn:H2.
  2:{ exfalso. revert A. erewrite parse_advance; [|reflexivity|cbn [rule continue_hex_escape_sequence length Nat.ltb Nat.leb andb]; rewrite H1; reflexivity].
    cbn [app]. rewrite parse_reject; [apply not_error|reflexivity|].
    cbn [hd_error rule continue_hex_escape_sequence length Nat.ltb Nat.leb andb]. now rewrite H2. }
  apply hexdigit_nibble in H1, H2.
  destruct (hex_reads h1 h2 _ _ i prev rest nodes r H1 H2) as (i' & p' & E).
  exists h1, h2, (hex_value h1), (hex_value h2), rest, i', p'. auto.
Qed.

(** What [\c] does. *)
Inductive escape_case (c : ascii) : Prop :=
| case_name : c = "k"%char -> escape_case c
| case_hex : c = "x"%char -> escape_case c
| case_digit : is_digit c = true -> c <> "0"%char -> escape_case c
| case_char v : escape ["\"%char; c] v -> escape_case c
| case_class n : class_escape ["\"%char; c] n -> escape_case c
| case_anchor n : In (["\"%char; c], n) anchors -> escape_case c.

Lemma escape_cases c : escape_case c.
Proof.
  destruct (among c (str "kx0123456789nrtfvaedDwWsSRNbBAZ")) eqn:E; [|now apply (case_char c c), ce_self].
  unfold among in E. apply existsb_exists in E. destruct E as (d & H & E). apply Ascii.eqb_eq in E. subst d.
  repeat (destruct H as [<-|H]; [|]); [..|destruct H];
    try (now apply case_name); try (now apply case_hex); try (now (apply case_digit));
    try (eapply case_char, ce_named; cbn; tauto);
    try (eapply case_class; constructor; cbn; tauto);
    try (eapply case_anchor; cbn; tauto).
Qed.

Lemma name_inv (name : list ascii -> symbol) (last : list ascii -> list symbol)
  (Hn : forall chars, is_act (name chars) = false)
  (Hr : forall chars token, rule (name chars) token = match token with
     | Some c => if c == ">" then Advance (last chars) else continue_name name chars c
     | None => Reject end) : forall rest chars i prev nodes r,
  accepted (parse_from i prev rest nodes (name chars :: r)) ->
  exists nm rest' i' prev', rest = nm ++ ">"%char :: rest' /\ forallb is_word nm = true
  /\ parse_from i prev rest nodes (name chars :: r)
     = parse_from i' prev' rest' nodes (last (chars ++ nm) ++ r).
Proof.
  induction rest as [|c rest IH]; intros chars i prev nodes r A.
  - exfalso. revert A. rewrite parse_reject; [apply not_error|apply Hn|now rewrite Hr].
  - destruct (c == ">") eqn:E.
    + exists [], rest, (S i), (Some c). rewrite app_nil_r. apply Ascii.eqb_eq in E. subst c.
      split; [reflexivity|]. split; [reflexivity|].
      now erewrite parse_advance; [|apply Hn|rewrite Hr; reflexivity].
    + destruct (is_word c) eqn:W.
      2:{ exfalso. revert A. rewrite parse_reject; [apply not_error|apply Hn|].
          cbn [hd_error]. rewrite Hr, E. unfold continue_name. now rewrite W. }
      assert (Ad : rule (name chars) (Some c) = Advance [name (chars ++ [c])]).
      { rewrite Hr, E. unfold continue_name. now rewrite W. }
      erewrite parse_advance in A; [|apply Hn|exact Ad].
      destruct (IH (chars ++ [c]) (S i) (Some c) nodes r A) as (nm & rest' & i' & p' & -> & Hw & Eq).
      exists (c :: nm), rest', i', p'. split; [reflexivity|]. split; [cbn; now rewrite W|].
      erewrite parse_advance; [|apply Hn|exact Ad]. cbn [app] in *. now rewrite Eq, <- app_assoc.
Qed.

Lemma first_inv name c : begin_name name c = Reject \/
  (begin_name name c = Advance [name [c]] /\ is_word c = true /\ is_digit c = false).
Proof. unfold begin_name. destruct (is_word c), (is_digit c); cbn; auto. Qed.

Lemma id_inv rest : forall i prev nodes n r, exists ds rest' i' prev',
  rest = ds ++ rest' /\ forallb is_digit ds = true /\ not_digit rest'
  /\ parse_from i prev rest nodes (backref_id n :: r)
     = parse_from i' prev' rest' (Backref (fold_left push_digit ds n) :: nodes) r.
Proof.
  induction rest as [|c rest IH]; intros i prev nodes n r.
  - exists [], [], i, prev. repeat split. 
    erewrite (parse_push _ _ _ _ _ _ [Act (make_backref n)]) by reflexivity. cbn [app]. now erewrite parse_act by reflexivity.
  - destruct (is_digit c) eqn:D.
    + destruct (IH (S i) (Some c) nodes (push_digit n c) r) as (ds & rest' & i' & p' & -> & Hd & Hn & E).
      exists (c :: ds), rest', i', p'. split; [reflexivity|]. split; [cbn; now rewrite D|]. split; [exact Hn|].
      erewrite parse_advance; [|reflexivity|cbn [rule]; rewrite D; reflexivity]. exact E.
    + exists [], (c :: rest), i, prev. repeat split; [exact D|].
      erewrite (parse_push _ _ _ _ _ _ [Act (make_backref n)]); [|reflexivity|cbn; now rewrite D].
      cbn [app]. now erewrite parse_act by reflexivity.
Qed.

(** A backslash outside of sets. *)
Inductive escaped (i : nat) (prev : option ascii) (rest : text) (nodes : list node) (r : list symbol) : Prop :=
| escaped_piece f t n rest' i' prev' : piece f ("\"%char :: t) n -> same n n -> f <> GroupEnd -> allows f rest' ->
    rest = t ++ rest' ->
    parse_from i prev rest nodes (s_esc :: r) = parse_from i' prev' rest' (n :: nodes) r ->
    escaped i prev rest nodes r
| escaped_anchor t n rest' i' prev' : In ("\"%char :: t, n) anchors -> rest = t ++ rest' ->
    parse_from i prev rest nodes (s_esc :: r) = parse_from i' prev' rest' (n :: nodes) (unquantifiable :: r) ->
    escaped i prev rest nodes r.

Lemma escape_inv i prev rest nodes r : accepted (parse_from i prev rest nodes (s_esc :: r)) ->
  escaped i prev rest nodes r.
Proof.
  intros A. destruct rest as [|c rest]; [refuse A|].
  destruct (escape_cases c) as [->| ->|Hd Hz|v H|n H|n H].
  - erewrite parse_advance in A by reflexivity. cbn [app] in A.
    destruct rest as [|d rest]; [refuse A|].
    destruct (d == "<") eqn:D; [|refuse A; cbn; now rewrite D].
    apply Ascii.eqb_eq in D. subst d. erewrite parse_advance in A by reflexivity. cbn [app] in A.
    destruct rest as [|c rest]; [refuse A|].
    destruct (first_inv backref_name_seq c) as [F|(F & W & D)]; [refuse A; exact F|].
    erewrite parse_advance in A; [|reflexivity|exact F]. cbn [app] in A.
    destruct (name_inv backref_name_seq (fun l => [Act (make_named_backref l)]) (fun _ => eq_refl)) with (2 := A)
      as (nm & rest' & i' & p' & -> & Hw & E); [reflexivity|].
    apply (escaped_piece _ _ _ _ _ Anything (str "k<" ++ (c :: nm) ++ str ">") (NBackref (c :: nm)) rest' i' p').
    + apply (u_named (c :: nm)). cbn. now rewrite D, W, Hw.
    + apply same_refl.
    + discriminate.
    + exact I.
    + texts. now rewrite <- app_assoc.
    + do 2 advance.
      erewrite parse_advance; [|reflexivity|exact F]. cbn [app]. rewrite E. cbn [app].
      now erewrite parse_act by reflexivity.
  - erewrite parse_advance in A by reflexivity. cbn [app] in A.
    destruct (hex_inv _ _ _ _ _ A) as (h1 & h2 & a & b & rest' & i' & p' & -> & H1 & H2 & E).
    apply (escaped_piece _ _ _ _ _ Anything ["x"%char; h1; h2] (Lit (ascii_of_N (16 * a + b))) rest' i' p');
      [now apply u_escape, ce_hex|apply same_refl|discriminate|exact I|reflexivity|].
    erewrite parse_advance by reflexivity. exact E.
  - destruct (digit_not_escape c Hd) as [E1 E2].
    assert (Ad : rule s_esc (Some c) = Advance [backref_id (digit_value c)]).
    { cbn [rule]. unfold handle_escape_sequence. apply Ascii.eqb_neq in Hz. now rewrite E1, E2, Hz, Hd. }
    destruct (id_inv rest (S i) (Some c) nodes (digit_value c) r) as (ds & rest' & i' & p' & -> & Hds & Hn & E).
    apply (escaped_piece _ _ _ _ _ NoDigit (c :: ds) (Backref (size_t (decimal (c :: ds)))) rest' i' p');
      [now apply u_backref|apply same_refl|discriminate|exact Hn|reflexivity|].
    erewrite parse_advance; [|reflexivity|exact Ad]. cbn [app]. now rewrite E, digits_value.
  - destruct (escape_reads _ _ i prev rest nodes r H) as (i' & p' & E). cbn [tl app] in E.
    apply (escaped_piece _ _ _ _ _ Anything [c] (Lit v) rest i' p');
      [now apply u_escape|apply same_refl|discriminate|exact I|reflexivity|exact E].
  - destruct (class_reads _ _ i prev rest nodes r H) as (i' & p' & E). cbn [tl app] in E.
    apply (escaped_piece _ _ _ _ _ Anything [c] n rest i' p');
      [now apply u_class|apply same_refl|discriminate|exact I|reflexivity|exact E].
  - apply (escaped_anchor _ _ _ _ _ [c] n rest (S i) (Some c)); [exact H|reflexivity|].
    unfold anchors in H. cbn [In] in H.
    repeat (destruct H as [H|H]; [try discriminate H; injection H as <- <-|]); [..|destruct H];
      erewrite parse_advance by reflexivity; cbn [app]; repeat (erewrite parse_act by reflexivity); reflexivity.
Qed.

(** ** Sets *)

Lemma set_escape_cases c : c = "x"%char \/ (exists v, set_escape ["\"%char; c] v)
  \/ (exists n, class_escape ["\"%char; c] n /\ rule set_range_esc (Some c) = Reject).
Proof.
  destruct (among c (str "x0nrtfvaedDwWsSRNb")) eqn:E; [|right; left; exists c; now apply ce_self].
  unfold among in E. apply existsb_exists in E. destruct E as (d & H & E). apply Ascii.eqb_eq in E. subst d.
  repeat (destruct H as [<-|H]; [|]); [..|destruct H]; try (now left);
    try (right; left; eexists; apply ce_named; cbn; tauto);
    right; right; eexists; (split; [constructor; cbn; tauto|reflexivity]).
Qed.

Lemma set_escape_inv s i prev rest nodes r : s = set_esc \/ s = set_range_esc ->
  accepted (parse_from i prev rest nodes (s :: r)) ->
  (exists t c rest' i' prev', set_escape ("\"%char :: t) c /\ rest = t ++ rest' /\ t <> []
    /\ parse_from i prev rest nodes (s :: r) = parse_from i' prev' rest' (Lit c :: nodes) r)
  \/ (s = set_esc /\ exists t n rest' i' prev', class_escape ("\"%char :: t) n /\ rest = t ++ rest' /\ t <> []
    /\ parse_from i prev rest nodes (s :: r) = parse_from i' prev' rest' (n :: nodes) r).
Proof.
  intros S A. destruct rest as [|c rest].
  { exfalso. revert A. rewrite parse_reject; [apply not_error| |]; destruct S as [-> | ->]; reflexivity. }
  destruct (set_escape_cases c) as [->|[[v H]|(n & H & Hr)]].
  - left. assert (Ad : rule s (Some "x"%char) = Advance [hex_esc_seq []]) by (destruct S as [-> | ->]; reflexivity).
    erewrite parse_advance in A; [|destruct S as [-> | ->]; reflexivity|exact Ad]. cbn [app] in A.
    destruct (hex_inv _ _ _ _ _ A) as (h1 & h2 & a & b & rest' & i' & p' & -> & H1 & H2 & E).
    exists ["x"%char; h1; h2], (ascii_of_N (16 * a + b)), rest', i', p'. split; [now apply ce_hex|].
    split; [reflexivity|]. split; [discriminate|].
    erewrite parse_advance; [|destruct S as [-> | ->]; reflexivity|exact Ad]. exact E.
  - left. destruct (set_escape_reads s _ _ i prev rest nodes r H S) as (i' & p' & E). cbn [tl app] in E.
    exists [c], v, rest, i', p'. split; [exact H|]. split; [reflexivity|]. split; [discriminate|exact E].
  - destruct S as [-> | ->].
    + right. split; [reflexivity|]. destruct (set_class_reads _ _ i prev rest nodes r H) as (i' & p' & E). cbn [tl app] in E.
      exists [c], n, rest, i', p'. split; [exact H|]. split; [reflexivity|]. split; [discriminate|exact E].
    + refuse A. exact Hr.
Qed.

Lemma elements_class t n l : class_escape t n -> elements n ++ l <> [].
Proof. intros [c n' H]. unfold class_escapes in H. table H; discriminate. Qed.

Lemma slash_not t c : slash t -> hd_error t = Some c -> c = "\"%char.
Proof. destruct t; cbn; congruence. Qed.

Lemma element_step i prev rest n l nodes r :
  parse_from i prev rest (n :: CSet l :: nodes) (Act make_set_from_stack :: r)
  = parse_from i prev rest (CSet (elements n ++ l) :: nodes) r.
Proof. erewrite parse_act by apply build_element. reflexivity. Qed.

Lemma set_inv m : forall rest, length rest <= m -> forall fresh s k i prev l nodes r,
  set_state fresh s -> (fresh = false -> l <> []) ->
  (s = set_begin_or_neg -> hd_error rest <> Some "^"%char) ->
  accepted (parse_from i prev rest (CSet l :: nodes) (s :: repeat set_seq k ++ r)) ->
  exists t l' rest' i' prev', set_body fresh l t l' /\ rest = t ++ "]"%char :: rest'
  /\ parse_from i prev rest (CSet l :: nodes) (s :: repeat set_seq k ++ r)
     = parse_from i' prev' ("]"%char :: rest') (CSet l' :: nodes) r.
Proof.
  induction m as [|m IH]; intros rest Hm fresh s k i prev l nodes r Hs Hl Hh A;
    (destruct rest as [|c rest];
     [exfalso; revert A; rewrite parse_reject; [apply not_error|now destruct s|now destruct s]|]);
    [cbn in Hm; lia|]. cbn [length] in Hm.
  destruct (Ascii.ascii_dec c "]") as [->|Hc].
  { exists [], l, rest, i, prev. split; [apply set_end|]. split; [reflexivity|].
    now erewrite set_stops by exact Hs. }
  destruct (Ascii.ascii_dec c "\") as [->|Hc2].
  { pose proof (set_slash fresh s ["\"%char] i prev rest (CSet l :: nodes) (repeat set_seq k ++ r) Hs eq_refl) as E.
    cbn [tl app] in E. rewrite E in *. clear E.
    destruct (set_escape_inv set_esc _ _ _ _ _ (or_introl eq_refl) A)
      as [(t & v & rest' & i' & p' & He & -> & Ht & E)|(_ & t & n & rest' & i' & p' & He & -> & Ht & E)];
      rewrite E in A |- *; rewrite app_length in Hm; (destruct t as [|t0 t]; [easy|]); cbn [length] in Hm;
      rewrite element_step in A |- *.
    - change (elements (Lit v) ++ l) with (Lit v :: l) in A |- *.
      destruct (IH rest' ltac:(lia) false set_seq k _ _ _ _ _ eq_refl (fun _ H => nil_cons (eq_sym H)) ltac:(easy) A)
        as (u & l' & rest2 & i2 & p2 & B & -> & E2).
      exists ("\"%char :: (t0 :: t) ++ u), l', rest2, i2, p2. split; [|split; [cbn; now rewrite <- app_assoc|exact E2]].
      apply (set_escaped fresh l ("\"%char :: t0 :: t) v u l'); auto.
    - destruct (IH rest' ltac:(lia) false set_seq k _ _ _ _ _ eq_refl (fun _ => elements_class _ _ _ He) ltac:(easy) A)
        as (u & l' & rest2 & i2 & p2 & B & -> & E2).
      exists ("\"%char :: (t0 :: t) ++ u), l', rest2, i2, p2. split; [|split; [cbn; now rewrite <- app_assoc|exact E2]].
      apply (set_class fresh l ("\"%char :: t0 :: t) n u l'); auto. }
  assert (Hp : among c (str "\]") = false).
  { cbn. apply Ascii.eqb_neq in Hc, Hc2. now rewrite Hc, Hc2. }
  destruct (Ascii.ascii_dec c "-") as [->|Hd].
  - destruct fresh.
    + rewrite (set_current true s "-") in A |- * by easy.
      destruct (IH rest ltac:(lia) false set_seq k _ _ _ _ _ eq_refl (fun _ H => nil_cons (eq_sym H)) ltac:(easy) A)
        as (u & l' & rest2 & i2 & p2 & B & -> & E2).
      exists ("-"%char :: u), l', rest2, i2, p2. split; [now apply set_dash|]. split; [reflexivity|exact E2].
    + destruct s; try easy. erewrite parse_advance in A |- * by reflexivity. cbn [app] in *.
      destruct rest as [|d rest]; [refuse A|].
      specialize (Hl eq_refl). destruct l as [|x l]; [easy|].
      destruct (Ascii.ascii_dec d "]") as [->|Hd].
      * exists (str "-"), (Lit "-" :: x :: l), rest, (S i), (Some "-"%char).
        split; [apply set_last_dash|]. split; [reflexivity|].
        erewrite (parse_push _ _ _ _ _ _ [Act (push_literal "-"); Act make_set_from_stack]) by reflexivity. cbn [app].
        erewrite parse_act by reflexivity. erewrite parse_act by reflexivity.
        now rewrite (set_stops false set_seq k) by reflexivity.
      * assert (Q : exists e b rest', range_end e b /\ d :: rest = e ++ rest' /\ e <> []).
        { destruct (Ascii.ascii_dec d "\") as [->|Hd2].
          - erewrite parse_advance in A by reflexivity. cbn [app] in A.
            destruct (set_escape_inv set_range_esc _ _ _ _ _ (or_intror eq_refl) A)
              as [(t & v & rest' & i' & p' & He & -> & Ht & E)|(F & _)]; [|discriminate].
            exists ("\"%char :: t), v, rest'. split; [now apply range_escape|]. split; [reflexivity|discriminate].
          - exists [d], d, rest. split; [|split; [reflexivity|discriminate]]. apply range_plain.
            cbn. apply Ascii.eqb_neq in Hd, Hd2. now rewrite Hd, Hd2. }
        destruct Q as (e & b & rest' & He & Er & Hne).
        assert (Hlen : length rest' <= m).
        { apply (f_equal (@length ascii)) in Er. rewrite app_length in Er. destruct e; [easy|]. cbn [length] in *. lia. }
        rewrite Er in *.
        edestruct (range_end_reads e b) as (i1 & p1 & E1); [exact He|]. rewrite E1 in A |- *.
        destruct (IH rest' Hlen true set_range_seq (S k) _ _ _ _ _ eq_refl ltac:(discriminate) ltac:(easy) A)
        as (u & l' & rest2 & i2 & p2 & B & -> & E2).
        exists ("-"%char :: e ++ u), l', rest2, i2, p2. split; [|split; [cbn; now rewrite <- app_assoc|exact E2]].
        destruct x; try (apply set_class_dash with (b := b); [reflexivity|exact He|exact B]).
        now apply set_range with (b := b).
  - rewrite (set_current fresh s c) in A |- * by (auto; intros E ->; now apply Hh).
    destruct (IH rest ltac:(lia) false set_seq k _ _ _ _ _ eq_refl (fun _ H => nil_cons (eq_sym H)) ltac:(easy) A)
        as (u & l' & rest2 & i2 & p2 & B & -> & E2).
    exists (c :: u), l', rest2, i2, p2. split; [|split; [reflexivity|exact E2]].
    apply set_char; [|exact B]. cbn. apply Ascii.eqb_neq in Hc, Hc2, Hd. now rewrite Hc, Hc2, Hd.
Qed.

(** ** Quantifiers *)

Lemma digit_span (rest : text) : exists ds rest', rest = ds ++ rest' /\ forallb is_digit ds = true /\ not_digit rest'.
Proof.
  induction rest as [|c rest (ds & rest' & -> & Hd & Hn)]; [now exists [], []|].
  destruct (is_digit c) eqn:D; [exists (c :: ds), rest'|exists [], (c :: ds ++ rest')]; cbn; rewrite ?D; auto.
Qed.

Lemma brace_inv i prev rest nodes r : ~ not_digit rest ->
  accepted (parse_from i prev ("{"%char :: rest) nodes (s_mod :: r)) ->
  exists q lo hi rest' i' prev', bounds q lo hi /\ "{"%char :: rest = q ++ rest' /\ q <> []
  /\ parse_from i prev ("{"%char :: rest) nodes (s_mod :: r)
     = parse_from i' prev' rest' nodes (quantifier_mod Greedy lo hi :: r).
Proof.
  intros Hd A. destruct (digit_span rest) as (ds & rest' & -> & Hds & Hn).
  assert (Hne : ds <> []) by (intros ->; now apply Hd).
  destruct (lower_reads ds Hne Hds i prev rest' nodes r) as (i1 & p1 & E1). rewrite E1 in A.
  destruct rest' as [|c rest']; [refuse A|].
  destruct (Ascii.ascii_dec c "}") as [->|C1].
  - pose proof (bounds_exact ds (conj Hne Hds)) as B.
    exists (str "{" ++ ds ++ str "}"), (size_t (decimal ds)), (Fin (size_t (decimal ds))), rest'.
    destruct (bounds_read _ _ _ B i prev rest' nodes r) as (i' & p' & E). exists i', p'.
    split; [exact B|]. split; [texts; now rewrite <- app_assoc|]. split; [discriminate|].
    rewrite <- E. texts. now rewrite <- app_assoc.
  - destruct (Ascii.ascii_dec c ",") as [->|C2].
    + erewrite parse_advance in A by reflexivity. cbn [app] in A.
      destruct (digit_span rest') as (es & rest2 & -> & Hes & Hn2). destruct es as [|e es].
      * cbn [app] in *. destruct rest2 as [|c rest2]; [refuse A|].
        destruct (Ascii.ascii_dec c "}") as [->|C3].
        2:{ refuse A. cbn [hd_error rule]. apply Ascii.eqb_neq in C3. rewrite C3.
            unfold continue_quantifier_range. cbn in Hn2. now rewrite Hn2. }
        pose proof (bounds_least ds (conj Hne Hds)) as B.
        exists (str "{" ++ ds ++ str ",}"), (size_t (decimal ds)), Inf, rest2.
        destruct (bounds_read _ _ _ B i prev rest2 nodes r) as (i' & p' & E). exists i', p'.
        split; [exact B|]. split; [texts; now rewrite <- app_assoc|]. split; [discriminate|].
        rewrite <- E. texts. now rewrite <- app_assoc.
      * assert (Hne2 : e :: es <> []) by discriminate.
        destruct (upper_reads (e :: es) Hne2 Hes (size_t (decimal ds)) (S i1) (Some ","%char) rest2 nodes r) as (i2 & p2 & E2).
        rewrite E2 in A. destruct rest2 as [|c rest2]; [refuse A|].
        destruct (Ascii.ascii_dec c "}") as [->|C3].
        2:{ refuse A. cbn [hd_error rule]. apply Ascii.eqb_neq in C3. rewrite C3.
            unfold continue_quantifier_range. cbn in Hn2. now rewrite Hn2. }
        pose proof (bounds_range ds (e :: es) (conj Hne Hds) (conj Hne2 Hes)) as B.
        eexists _, _, _, rest2.
        destruct (bounds_read _ _ _ B i prev rest2 nodes r) as (i' & p' & E). exists i', p'.
        split; [exact B|]. split; [texts; rewrite <- app_assoc; texts; now rewrite <- app_assoc|]. split; [discriminate|].
        rewrite <- E. texts. rewrite <- app_assoc. texts. now rewrite <- app_assoc.
    + refuse A. cbn [hd_error rule]. apply Ascii.eqb_neq in C1, C2. rewrite C1, C2.
      unfold continue_quantifier_value. cbn in Hn. now rewrite Hn.
Qed.

Lemma mode_inv i prev rest x nodes lo hi r : exists md rest' i' prev', rest = mode_text md ++ rest'
  /\ parse_from i prev rest (x :: nodes) (quantifier_mod Greedy lo hi :: r)
     = parse_from i' prev' rest' (Rep md lo hi x :: nodes) r.
Proof.
  assert (G : forall rest, (hd_error rest <> Some "?"%char) -> hd_error rest <> Some "+"%char ->
    parse_from i prev rest (x :: nodes) (quantifier_mod Greedy lo hi :: r)
    = parse_from i prev rest (Rep Greedy lo hi x :: nodes) r).
  { clear rest. intros rest H1 H2.
    erewrite (parse_push _ _ _ _ _ _ [Act (make_repetition Greedy lo hi)]); [|reflexivity|].
    - cbn [app]. now erewrite parse_act by reflexivity.
    - destruct rest as [|c rest]; [reflexivity|]. cbn [hd_error rule] in *.
      assert (E1 : (c == "?") = false) by (apply Ascii.eqb_neq; congruence).
      assert (E2 : (c == "+") = false) by (apply Ascii.eqb_neq; congruence). now rewrite E1, E2. }
  destruct rest as [|c rest].
  { exists Greedy, [], i, prev. split; [reflexivity|]. now apply G. }
  destruct (Ascii.ascii_dec c "?") as [->|C1].
  { exists Lazy, rest, (S i), (Some "?"%char). split; [reflexivity|]. advance. now erewrite parse_act by reflexivity. }
  destruct (Ascii.ascii_dec c "+") as [->|C2].
  { exists Possessive, rest, (S i), (Some "+"%char). split; [reflexivity|]. advance. now erewrite parse_act by reflexivity. }
  exists Greedy, (c :: rest), i, prev. split; [reflexivity|]. apply G; cbn; congruence.
Qed.

(** ** Patterns *)

Definition item_inv (m : nat) : Prop := forall rest, length rest < m -> forall s tail, starts s tail ->
  forall i prev nodes r, begins rest -> accepted (parse_from i prev rest nodes (s :: r)) ->
  exists f t n rest' i' prev' x, item f t n /\ t <> [] /\ rest = t ++ rest' /\ same x n /\ allows f rest'
  /\ parse_from i prev rest nodes (s :: r) = parse_from i' prev' rest' (x :: nodes) (tail ++ r).

Definition suffix_inv (m : nat) : Prop := forall rest, length rest < m ->
  forall f n x i prev nodes r, same x n -> allows f rest ->
  accepted (parse_from i prev rest (x :: nodes) (s_mod :: r)) ->
  exists t f' n' rest' i' prev' x', suffix f n t f' n' /\ rest = t ++ rest' /\ same x' n' /\ allows f' rest'
  /\ parse_from i prev rest (x :: nodes) (s_mod :: r) = parse_from i' prev' rest' (x' :: nodes) r.

Definition items_inv (m : nat) : Prop := forall rest, length rest < m ->
  forall f n x i prev nodes r, same x n -> allows f rest ->
  accepted (parse_from i prev rest (x :: nodes) (s_seq :: r)) ->
  exists t f' n' rest' i' prev' x', more_items f n t f' n' /\ rest = t ++ rest' /\ same x' n' /\ allows f' rest'
  /\ ends_seq rest'
  /\ parse_from i prev rest (x :: nodes) (s_seq :: r) = parse_from i' prev' rest' (x' :: nodes) r.

Definition branches_inv (m : nat) : Prop := forall rest, length rest < m ->
  forall f n x i prev nodes r, same x n -> allows f rest -> ends_seq rest ->
  accepted (parse_from i prev rest (x :: nodes) (s_alt :: r)) ->
  exists t f' n' rest' i' prev' x', more_branches f n t f' n' /\ rest = t ++ rest' /\ same x' n'
  /\ ends_alt rest'
  /\ parse_from i prev rest (x :: nodes) (s_alt :: r) = parse_from i' prev' rest' (x' :: nodes) r.

Definition all_inv (m : nat) : Prop := item_inv m /\ suffix_inv m /\ items_inv m /\ branches_inv m.

Lemma branch_inv m rest s tail i prev nodes r : all_inv m -> length rest < m -> starts s (s_seq :: tail) ->
  begins rest -> accepted (parse_from i prev rest nodes (s :: r)) ->
  exists f t n rest' i' prev' x, branch f t n /\ rest = t ++ rest' /\ same x n /\ allows f rest' /\ ends_seq rest'
  /\ parse_from i prev rest nodes (s :: r) = parse_from i' prev' rest' (x :: nodes) (tail ++ r).
Proof.
  intros (II & _ & IS & _) Hm Hs B A.
  destruct (II rest Hm s _ Hs i prev nodes r B A) as (f & t & n & rest' & i' & p' & x & It & Ht & -> & Sx & Al & E).
  rewrite E in A. cbn [app] in A. rewrite app_length in Hm.
  destruct (IS rest' ltac:(lia) f n x i' p' nodes (tail ++ r) Sx Al A)
    as (t2 & f2 & n2 & rest2 & i2 & p2 & x2 & M & -> & S2 & A2 & E2 & Eq).
  exists f2, (t ++ t2), n2, rest2, i2, p2, x2. split; [eapply b_items; eauto|].
  split; [now rewrite <- app_assoc|]. split; [exact S2|]. split; [exact A2|]. split; [exact E2|].
  rewrite E. exact Eq.
Qed.

Lemma body_inv m rest s tail i prev nodes r : all_inv m -> length rest < m -> starts s (s_seq :: s_alt :: tail) ->
  begins rest -> accepted (parse_from i prev rest nodes (s :: r)) ->
  exists t n rest' i' prev' x, body t n /\ rest = t ++ rest' /\ same x n /\ ends_alt rest'
  /\ parse_from i prev rest nodes (s :: r) = parse_from i' prev' rest' (x :: nodes) (tail ++ r).
Proof.
  intros H Hm Hs B A.
  destruct (branch_inv m rest s _ i prev nodes r H Hm Hs B A) as (f & t & n & rest' & i' & p' & x & Br & -> & Sx & Al & En & E).
  rewrite E in A. cbn [app] in A. rewrite app_length in Hm.
  destruct H as (_ & _ & _ & IB).
  destruct (IB rest' ltac:(lia) f n x i' p' nodes (tail ++ r) Sx Al En A)
    as (t2 & f2 & n2 & rest2 & i2 & p2 & x2 & M & -> & S2 & E2 & Eq).
  exists (t ++ t2), n2, rest2, i2, p2, x2. split; [eapply y_branches; eauto|].
  split; [now rewrite <- app_assoc|]. split; [exact S2|]. split; [exact E2|].
  rewrite E. exact Eq.
Qed.

(** At the end of the pattern an open group cannot be closed. *)
Lemma open_end acts : Forall (fun s => is_act s = true) acts -> forall i prev nodes r,
  ~ accepted (parse_from i prev [] nodes (acts ++ expect ")" :: r)).
Proof.
  induction 1 as [|s acts Hs _ IH]; intros i prev nodes r A; cbn [app] in A; [refuse A|].
  destruct s; try discriminate. destruct (build a prev nodes) as [nodes'|] eqn:B.
  - erewrite parse_act in A by exact B. eapply IH; eauto.
  - rewrite parse_act_stuck in A by exact B. now apply not_stuck in A.
Qed.

Lemma group_body_inv m rest acts i prev nodes r : all_inv m -> length rest < m ->
  Forall (fun s => is_act s = true) acts ->
  accepted (parse_from i prev rest nodes (group_begin :: acts ++ expect ")" :: r)) ->
  exists t n rest', body t n /\ rest = t ++ ")"%char :: rest'.
Proof.
  intros H Hm Ha A. destruct rest as [|c rest].
  { rewrite parse_ignore in A by reflexivity. now apply open_end in A. }
  destruct (Ascii.ascii_dec c ")") as [->|C].
  { exists [], Empty, rest. split; [apply y_empty|reflexivity]. }
  destruct (starter c) eqn:S.
  - destruct (body_inv m (c :: rest) group_begin [] i prev nodes _ H Hm starts_group S A)
      as (t & n & rest' & i' & p' & x & B & E & Sx & En & Eq).
    rewrite Eq in A. cbn [app] in A. exists t, n. destruct rest' as [|d rest'].
    + now apply open_end in A.
    + cbn in En. subst d. exists rest'. auto.
  - refuse A. revert C S. cbn [hd_error]. sweep c; congruence.
Qed.

Lemma capture_body_inv m rest i prev nodes r : all_inv m -> length rest < m -> hd_error rest <> Some "?"%char ->
  accepted (parse_from i prev rest nodes (group_begin_or_mod :: expect ")" :: r)) ->
  exists t n rest', body t n /\ rest = t ++ ")"%char :: rest'.
Proof.
  intros H Hm Hq A. destruct rest as [|c rest].
  { rewrite parse_ignore in A by reflexivity. now apply (open_end []) in A. }
  destruct (Ascii.ascii_dec c ")") as [->|C].
  { exists [], Empty, rest. split; [apply y_empty|reflexivity]. }
  destruct (starter c) eqn:S.
  - destruct (body_inv m (c :: rest) group_begin_or_mod _ i prev nodes _ H Hm starts_group_or_mod S A)
      as (t & n & rest' & i' & p' & x & B & E & Sx & En & Eq).
    rewrite Eq in A. exists t, n. destruct rest' as [|d rest'].
    + now apply (open_end [Act (make_capture None)]) in A; [|repeat constructor].
    + cbn in En. subst d. exists rest'. auto.
  - refuse A. revert C S Hq. cbn [hd_error]. sweep c; congruence.
Qed.

Lemma group_inv m rest i prev nodes r : all_inv m -> length rest < m ->
  accepted (parse_from i prev rest nodes (group_begin_or_mod :: expect ")" :: r)) ->
  exists o F t n rest', opening o F /\ body t n /\ rest = o ++ t ++ ")"%char :: rest'.
Proof.
  intros H Hm A. assert (D : hd_error rest = Some "?"%char \/ hd_error rest <> Some "?"%char).
  { destruct rest as [|c rest]; [now right|]. destruct (Ascii.ascii_dec c "?") as [->|C]; [now left|].
    right. cbn. congruence. }
  destruct D as [Hq|Hq].
  2:{ destruct (capture_body_inv m rest i prev nodes r H Hm Hq A) as (t & n & rest' & B & ->).
      exists [], (Cap 0 None), t, n, rest'. repeat split; [constructor|exact B]. }
  destruct rest as [|c rest]; [discriminate|]. cbn in Hq. injection Hq as ->.
  erewrite parse_advance in A by reflexivity. cbn [app length] in *.
  destruct rest as [|c rest]; [refuse A|]. cbn [length] in Hm.
  assert (G : forall o F acts, opening ("?"%char :: o :: []) F -> c = o -> rule group_mod (Some o) = Advance (group_begin :: acts) ->
    Forall (fun s => is_act s = true) acts ->
    exists o F t n rest', opening o F /\ body t n /\ "?"%char :: c :: rest = o ++ t ++ ")"%char :: rest').
  { intros o F acts Ho -> Hr Ha. erewrite parse_advance in A; [|reflexivity|exact Hr]. cbn [app] in A.
    destruct (group_body_inv m rest acts _ _ _ _ H ltac:(lia) Ha A) as (t & n & rest' & B & ->).
    exists ["?"%char; o], F, t, n, rest'. auto. }
  destruct (Ascii.ascii_dec c ":") as [->|C1]; [eapply (G ":"%char); [exact open_plain|reflexivity|reflexivity|repeat constructor]|].
  destruct (Ascii.ascii_dec c ">") as [->|C2]; [eapply (G ">"%char); [exact open_atomic|reflexivity|reflexivity|repeat constructor]|].
  destruct (Ascii.ascii_dec c "=") as [->|C3]; [eapply (G "="%char); [exact open_ahead|reflexivity|reflexivity|repeat constructor]|].
  destruct (Ascii.ascii_dec c "!") as [->|C4]; [eapply (G "!"%char); [exact open_not_ahead|reflexivity|reflexivity|repeat constructor]|].
  destruct (Ascii.ascii_dec c "<") as [->|C5].
  2:{ refuse A. cbn [hd_error rule]. apply Ascii.eqb_neq in C1, C2, C3, C4, C5. now rewrite C1, C2, C3, C4, C5. }
  clear G C1 C2 C3 C4. erewrite parse_advance in A by reflexivity. cbn [app] in A.
  destruct rest as [|c rest]; [refuse A|]. cbn [length] in Hm.
  assert (G : forall o F acts, opening ("?"%char :: "<"%char :: o :: []) F -> c = o ->
    rule group_mod_less_than (Some o) = Advance (group_begin :: acts) ->
    Forall (fun s => is_act s = true) acts ->
    exists o F t n rest', opening o F /\ body t n /\ "?"%char :: "<"%char :: c :: rest = o ++ t ++ ")"%char :: rest').
  { intros o F acts Ho -> Hr Ha. erewrite parse_advance in A; [|reflexivity|exact Hr]. cbn [app] in A.
    destruct (group_body_inv m rest acts _ _ _ _ H ltac:(lia) Ha A) as (t & n & rest' & B & ->).
    exists ["?"%char; "<"%char; o], F, t, n, rest'. auto. }
  destruct (Ascii.ascii_dec c "=") as [->|C1]; [eapply (G "="%char); [exact open_behind|reflexivity|reflexivity|repeat constructor]|].
  destruct (Ascii.ascii_dec c "!") as [->|C2]; [eapply (G "!"%char); [exact open_not_behind|reflexivity|reflexivity|repeat constructor]|].
  clear G. apply Ascii.eqb_neq in C1, C2.
  destruct (first_inv capture_name_seq c) as [F|(F & W & D)]; [refuse A; cbn [hd_error rule]; now rewrite C1, C2|].
  erewrite parse_advance in A; [|reflexivity|cbn [rule]; rewrite C1, C2; exact F]. cbn [app] in A.
  destruct (name_inv capture_name_seq (fun l => [group_begin; Act (make_capture (Some l))]) (fun _ => eq_refl)) with (2 := A)
    as (nm & rest' & i' & p' & -> & Hw & E); [reflexivity|]. rewrite E in A. cbn [app] in A.
  rewrite app_length in Hm. cbn [length] in Hm.
  destruct (group_body_inv m rest' [Act (make_capture (Some (c :: nm)))] _ _ _ _ H ltac:(lia) ltac:(repeat constructor) A)
    as (t & n & rest2 & B & ->).
  exists (str "?<" ++ (c :: nm) ++ str ">"), (Cap 0 (Some (c :: nm))), t, n, rest2.
  split; [apply open_name; cbn; now rewrite D, W, Hw|]. split; [exact B|].
  texts. now rewrite <- app_assoc.
Qed.

(** A piece, once its text is known, is read by [syntax_reads]. *)
Lemma piece_inv m rest s tail i prev nodes r : all_inv m -> length rest <= m -> starts s tail ->
  begins rest -> hd_error rest <> Some "^"%char -> hd_error rest <> Some "$"%char ->
  accepted (parse_from i prev rest nodes (s :: r)) ->
  (exists f t n rest' i' prev' x, piece f t n /\ t <> [] /\ f <> GroupEnd /\ rest = t ++ rest' /\ same x n /\ allows f rest'
    /\ parse_from i prev rest nodes (s :: r) = parse_from i' prev' rest' (x :: nodes) (s_mod :: tail ++ r))
  \/ (exists t n rest' i' prev', In (t, n) anchors /\ t <> [] /\ rest = t ++ rest'
    /\ parse_from i prev rest nodes (s :: r) = parse_from i' prev' rest' (n :: nodes) (unquantifiable :: s_mod :: tail ++ r)).
Proof.
  intros H Hm Hs B N1 N2 A. destruct rest as [|c rest]; [easy|]. cbn in B. cbn [length] in Hm.
  pose proof Hs as [As Rs]. specialize (Rs c B).
  assert (P : forall f t n rest', piece f t n -> f <> GroupEnd -> t <> [] -> c :: rest = t ++ rest' -> allows f rest' ->
    (exists f t n rest' i' prev' x, piece f t n /\ t <> [] /\ f <> GroupEnd /\ c :: rest = t ++ rest' /\ same x n /\ allows f rest'
    /\ parse_from i prev (c :: rest) nodes (s :: r) = parse_from i' prev' rest' (x :: nodes) (s_mod :: tail ++ r))).
  { intros f t n rest' Hp Hf Ht -> Al. apply syntax_reads in Hp as Hr. destruct Hr as (_ & _ & Hr).
    destruct (Hr s tail Hs i prev rest' nodes r Al) as (i' & p' & x & Sx & E).
    exists f, t, n, rest', i', p', x. repeat split; auto. }
  destruct (Ascii.ascii_dec c "[") as [->|C1].
  { left. erewrite parse_advance in A; [|exact As|exact Rs]. cbn [app] in A. erewrite parse_act in A by reflexivity.
    assert (D : hd_error rest = Some "^"%char \/ hd_error rest <> Some "^"%char).
    { destruct rest as [|c rest]; [now right|]. destruct (Ascii.ascii_dec c "^") as [->|C]; [now left|].
      right. cbn. congruence. }
    destruct D as [D|D].
    - destruct rest as [|c rest]; [discriminate|]. cbn in D. injection D as ->.
      erewrite parse_advance in A by reflexivity. cbn [app] in A. cbn [length] in Hm.
      destruct (set_inv m rest ltac:(lia) true set_begin 0 _ _ [] nodes _ eq_refl ltac:(easy) ltac:(easy) A)
        as (t & l' & rest' & i' & p' & Sb & -> & E).
      apply (P Anything (str "[^" ++ t ++ str "]") (Neg (CSet l')) rest'); [now apply u_not_set|discriminate|discriminate| |exact I].
      texts. now rewrite <- app_assoc.
    - destruct (set_inv m rest ltac:(lia) true set_begin_or_neg 0 _ _ [] nodes _ eq_refl ltac:(easy) ltac:(auto) A)
        as (t & l' & rest' & i' & p' & Sb & -> & E).
      apply (P Anything (str "[" ++ t ++ str "]") (CSet l') rest'); [|discriminate|discriminate| |exact I].
      + apply u_set; [|exact Sb]. destruct t; [discriminate|exact D].
      + texts. now rewrite <- app_assoc. }
  destruct (Ascii.ascii_dec c "(") as [->|C2].
  { left. erewrite parse_advance in A; [|exact As|exact Rs]. cbn [app] in A.
    destruct (group_inv m rest _ _ _ _ H ltac:(lia) A) as (o & F & t & n & rest' & Ho & Hb & ->).
    apply (P Anything (str "(" ++ o ++ t ++ str ")") (F n) rest'); [now apply u_group|discriminate|discriminate| |exact I].
    texts. now rewrite <- !app_assoc. }
  destruct (Ascii.ascii_dec c "\") as [->|C3].
  { erewrite parse_advance in A; [|exact As|exact Rs]. cbn [app] in A.
    destruct (escape_inv _ _ _ _ _ A) as [f t n rest' i' p' Hp _ Hf Al -> E|t n rest' i' p' Ha -> E].
    - left. apply (P f ("\"%char :: t) n rest'); auto. discriminate.
    - right. exists ("\"%char :: t), n, rest', i', p'. repeat split; auto; [discriminate|].
      erewrite parse_advance; [|exact As|exact Rs]. exact E. }
  left. destruct (Ascii.ascii_dec c ".") as [->|C4].
  { apply (P Anything (str ".") Wild rest); [apply u_dot|discriminate|discriminate|reflexivity|exact I]. }
  apply (P Anything [c] (Lit c) rest); [|discriminate|discriminate|reflexivity|exact I].
  apply u_char. cbn [hd_error] in N1, N2. clear - B C1 C2 C3 C4 N1 N2. revert B C1 C2 C3 C4 N1 N2. sweep c; congruence.
Qed.

Lemma anchor_ends rest i prev nodes r : accepted (parse_from i prev rest nodes (unquantifiable :: s_mod :: r)) ->
  parse_from i prev rest nodes (unquantifiable :: s_mod :: r) = parse_from i prev rest nodes r.
Proof.
  intros A. destruct rest as [|c rest].
  { rewrite parse_ignore by reflexivity. now rewrite parse_ignore by reflexivity. }
  destruct (among c (str "*+?{")) eqn:Q.
  - refuse A. revert Q. sweep c.
  - rewrite parse_ignore; [now apply mod_stops|reflexivity|]. revert Q. sweep c.
Qed.

Lemma allows_begin f t rest : t <> [] -> allows f (t ++ rest) -> allows f t.
Proof. destruct t; [easy|]. now destruct f. Qed.

Lemma all_inv_step m : all_inv m -> all_inv (S m).
Proof.
  intros H.
  assert (II : item_inv (S m)).
  { intros rest Hm s tail Hs i prev nodes r B A. pose proof Hs as [As Rs].
    destruct rest as [|c rest]; [easy|].
    destruct (Ascii.ascii_dec c "^") as [->|C1].
    { exists Anything, (str "^"), BeginLine, rest, (S i), (Some "^"%char), BeginLine.
      split; [apply i_anchor; cbn; auto|]. repeat split; [discriminate|].
      erewrite parse_advance; [|exact As|rewrite Rs by reflexivity; reflexivity]. cbn [app]. now erewrite parse_act by reflexivity. }
    destruct (Ascii.ascii_dec c "$") as [->|C2].
    { exists Anything, (str "$"), EndLine, rest, (S i), (Some "$"%char), EndLine.
      split; [apply i_anchor; cbn; auto|]. repeat split; [discriminate|].
      erewrite parse_advance; [|exact As|rewrite Rs by reflexivity; reflexivity]. cbn [app]. now erewrite parse_act by reflexivity. }
    destruct (piece_inv m (c :: rest) s tail i prev nodes r H) as
      [(f & t & n & rest' & i' & p' & x & Hp & Ht & Hf & E & Sx & Al & Eq)|(t & n & rest' & i' & p' & Ha & Ht & E & Eq)];
      auto; try (cbn; congruence); [lia|..].
    - rewrite Eq in A. rewrite E in Hm. rewrite app_length in Hm. destruct t as [|t0 t]; [easy|]. cbn [length] in Hm.
      destruct H as (_ & IS & _).
      destruct (IS rest' ltac:(lia) f n x i' p' nodes (tail ++ r) Sx Al A)
        as (t2 & f2 & n2 & rest2 & i2 & p2 & x2 & Sf & -> & S2 & A2 & E2).
      exists f2, ((t0 :: t) ++ t2), n2, rest2, i2, p2, x2. split; [eapply i_unit; eauto|].
      split; [discriminate|]. split; [now rewrite <- app_assoc|]. split; [exact S2|]. split; [exact A2|].
      now rewrite Eq.
    - rewrite Eq in A. exists Anything, t, n, rest', i', p', n. split; [now apply i_anchor|].
      repeat split; auto. rewrite Eq. now apply anchor_ends. }
  assert (IX : suffix_inv (S m)).
  { intros rest Hm f n x i prev nodes r Sx Al A.
    assert (Q0 : quiet rest -> exists t f' n' rest' i' prev' x',
      suffix f n t f' n' /\ rest = t ++ rest' /\ same x' n' /\ allows f' rest' /\
      parse_from i prev rest (x :: nodes) (s_mod :: r) = parse_from i' prev' rest' (x' :: nodes) r).
    { intros Hq. exists [], f, n, rest, i, prev, x. split; [apply q_none|]. repeat split; auto. now apply mod_stops. }
    assert (Qr : forall q lo hi rest1 i1 p1, bounds q lo hi -> rest = q ++ rest1 ->
      parse_from i prev rest (x :: nodes) (s_mod :: r) = parse_from i1 p1 rest1 (x :: nodes) (quantifier_mod Greedy lo hi :: r) ->
      exists t f' n' rest' i' prev' x',
      suffix f n t f' n' /\ rest = t ++ rest' /\ same x' n' /\ allows f' rest' /\
      parse_from i prev rest (x :: nodes) (s_mod :: r) = parse_from i' prev' rest' (x' :: nodes) r).
    { intros q lo hi rest1 i1 p1 Hb -> E1.
      destruct (mode_inv i1 p1 rest1 x nodes lo hi r) as (md & rest2 & i2 & p2 & -> & E2).
      exists (q ++ mode_text md), Anything, (Rep md lo hi n), rest2, i2, p2, (Rep md lo hi x).
      split; [now apply q_rep|]. split; [now rewrite <- app_assoc|]. split; [now apply same_rep|]. split; [exact I|].
      now rewrite E1. }
    destruct rest as [|c rest]; [now apply Q0|].
    destruct (Ascii.ascii_dec c "*") as [->|C1].
    { eapply (Qr (str "*")); [constructor|reflexivity|]. now erewrite parse_advance by reflexivity. }
    destruct (Ascii.ascii_dec c "+") as [->|C2].
    { eapply (Qr (str "+")); [constructor|reflexivity|]. now erewrite parse_advance by reflexivity. }
    destruct (Ascii.ascii_dec c "?") as [->|C3].
    { eapply (Qr (str "?")); [constructor|reflexivity|]. now erewrite parse_advance by reflexivity. }
    destruct (Ascii.ascii_dec c "{") as [->|C4].
    2:{ apply Q0. cbn [quiet]. revert C1 C2 C3 C4. clear. sweep c; congruence. }
    assert (D : not_digit rest \/ ~ not_digit rest).
    { destruct rest as [|d rest]; [now left|]. cbn. destruct (is_digit d); [now right|now left]. }
    destruct D as [D|D].
    2:{ destruct (brace_inv i prev rest (x :: nodes) r D A) as (q & lo & hi & rest' & i' & p' & Hb & E & _ & Eq).
        eapply Qr; eauto. }
    clear Q0 Qr. cbn [length] in Hm.
    assert (E0 : parse_from i prev ("{"%char :: rest) (x :: nodes) (s_mod :: r)
      = parse_from (S i) (Some "{"%char) rest (Lit "{" :: x :: nodes) (s_mod :: Act make_sequence :: s_seq :: s_alt :: r)).
    { advance. erewrite (parse_push _ _ _ _ _ _ [Act (push_literal "{"); s_mod; Act make_sequence; s_seq; s_alt]); [|reflexivity|].
      - cbn [app]. now erewrite parse_act by reflexivity.
      - destruct rest as [|d rest]; [reflexivity|]. cbn [hd_error rule not_digit] in *.
        unfold begin_quantifier_value. now rewrite D. }
    rewrite E0 in A |- *. destruct H as (_ & IX & IS & IB).
    destruct (IX rest ltac:(lia) Anything (Lit "{") (Lit "{") (S i) (Some "{"%char) (x :: nodes) _ (same_refl _) I A)
      as (t1 & f1 & n1 & rest1 & i1 & p1 & x1 & Sf & E1 & S1 & A1 & Eq1).
    rewrite Eq1 in A |- *. erewrite parse_act in A by apply build_cat. erewrite parse_act by apply build_cat.
    assert (L1 : length rest1 < m).
    { subst rest. rewrite app_length in Hm. lia. }
    destruct (IS rest1 L1 f1 (cat n n1) (cat x x1) i1 p1 nodes _ (same_cat _ _ _ _ Sx S1) A1 A)
      as (t2 & f2 & n2 & rest2 & i2 & p2 & x2 & M2 & E2 & S2 & A2 & En2 & Eq2).
    rewrite Eq2 in A |- *.
    assert (L2 : length rest2 < m).
    { subst rest1. rewrite app_length in L1. lia. }
    destruct (IB rest2 L2 f2 n2 x2 i2 p2 nodes _ S2 A2 En2 A)
      as (t3 & f3 & n3 & rest3 & i3 & p3 & x3 & M3 & E3 & S3 & En3 & Eq3).
    exists (str "{" ++ t1 ++ t2 ++ t3), GroupEnd, n3, rest3, i3, p3, x3.
    split; [|repeat split; auto].
    - eapply q_brace; eauto. subst rest rest1 rest2. rewrite !app_assoc, <- (app_assoc t1) in D.
      destruct (t1 ++ t2 ++ t3); [exact I|exact D].
    - subst rest rest1 rest2. texts. now rewrite <- !app_assoc. }
  assert (IS : items_inv (S m)).
  { intros rest Hm f n x i prev nodes r Sx Al A. destruct rest as [|c rest].
    { exists [], f, n, [], i, prev, x. split; [apply m_none|]. repeat split; auto. now rewrite parse_ignore. }
    destruct (Ascii.ascii_dec c ")") as [->|C1].
    { exists [], f, n, (")"%char :: rest), i, prev, x. split; [apply m_none|]. repeat split; cbn; auto. now rewrite parse_ignore. }
    destruct (Ascii.ascii_dec c "|") as [->|C2].
    { exists [], f, n, ("|"%char :: rest), i, prev, x. split; [apply m_none|]. repeat split; cbn; auto. now rewrite parse_ignore. }
    destruct (starter c) eqn:S.
    2:{ refuse A. revert C1 C2 S. clear. cbn [hd_error]. sweep c; congruence. }
    destruct (II (c :: rest) Hm s_seq _ starts_seq i prev (x :: nodes) r S A)
      as (f1 & t1 & n1 & rest1 & i1 & p1 & x1 & It & Ht & E1 & S1 & A1 & Eq1).
    rewrite Eq1 in A |- *. cbn [app] in A |- *. erewrite parse_act in A by apply build_cat. erewrite parse_act by apply build_cat.
    rewrite E1 in *. rewrite app_length in Hm. destruct t1 as [|t0 t1]; [easy|]. cbn [length] in Hm.
    destruct H as (_ & _ & IS & _).
    destruct (IS rest1 ltac:(lia) f1 (cat n n1) (cat x x1) i1 p1 nodes r (same_cat _ _ _ _ Sx S1) A1 A)
      as (t2 & f2 & n2 & rest2 & i2 & p2 & x2 & M2 & -> & S2 & A2 & En2 & Eq2).
    exists ((t0 :: t1) ++ t2), f2, n2, rest2, i2, p2, x2. split.
    - eapply m_item; eauto using allows_begin.
    - split; [now rewrite <- app_assoc|]. repeat split; auto. }
  split; [exact II|]. split; [exact IX|]. split; [exact IS|].
  intros rest Hm f n x i prev nodes r Sx Al En A. destruct rest as [|c rest].
  { exists [], f, n, [], i, prev, x. split; [apply o_none|]. repeat split; auto. now rewrite parse_ignore. }
  cbn in En. destruct En as [->| ->].
  { exists [], f, n, (")"%char :: rest), i, prev, x. split; [apply o_none|]. repeat split; cbn; auto. now rewrite parse_ignore. }
  assert (E0 : parse_from i prev ("|"%char :: rest) (x :: nodes) (s_alt :: r)
    = parse_from (S i) (Some "|"%char) rest (x :: nodes) (s_alt_seq :: Act make_alternation :: s_alt :: r)) by now advance.
  rewrite E0 in A |- *. cbn [length] in Hm.
  destruct rest as [|c rest]; [refuse A|]. destruct (starter c) eqn:S.
  2:{ refuse A. revert S. clear. cbn [hd_error]. sweep c; congruence. }
  destruct (branch_inv m (c :: rest) s_alt_seq [] _ _ _ _ H ltac:(lia) starts_alt_seq S A)
    as (f1 & t1 & n1 & rest1 & i1 & p1 & x1 & Br & E1 & S1 & A1 & En1 & Eq1).
  rewrite Eq1 in A |- *. cbn [app] in A |- *. erewrite parse_act in A by apply build_or. erewrite parse_act by apply build_or.
  rewrite E1 in *. rewrite app_length in Hm. destruct H as (_ & _ & _ & IB).
  destruct (IB rest1 ltac:(lia) f1 (or n n1) (or x x1) i1 p1 nodes r (same_or _ _ _ _ Sx S1) A1 En1 A)
    as (t2 & f2 & n2 & rest2 & i2 & p2 & x2 & M2 & -> & S2 & En2 & Eq2).
  exists (str "|" ++ t1 ++ t2), f2, n2, rest2, i2, p2, x2. split.
  - eapply o_branch; eauto. intros ->. discriminate Al.
  - split; [texts; now rewrite <- app_assoc|]. repeat split; auto.
Qed.

Lemma all_inv_holds m : all_inv m.
Proof.
  induction m as [|m IH]; [|now apply all_inv_step].
  repeat split; intros rest Hm; lia.
Qed.

Theorem accepted_pattern p n : parse p = P_ok n -> exists x, body p x /\ n = index_captures x.
Proof.
  intros A. unfold parse in A. destruct p as [|c p].
  { exists Empty. split; [apply y_empty|]. rewrite parse_ignore in A by reflexivity. rewrite parse_end in A. now injection A as <-. }
  destruct (starter c) eqn:St.
  - destruct (body_inv (S (S (length p))) (c :: p) s_begin [] 0 None [] [] (all_inv_holds _) ltac:(cbn; lia) starts_begin St)
      as (t & x0 & rest & i & prev & x & B & E & Sx & En & Eq); [now exists n|].
    rewrite Eq in A. cbn [app] in A. destruct rest as [|d rest].
    + rewrite app_nil_r in E. subst t. exists x0. split; [exact B|]. rewrite parse_end in A. injection A as <-.
      unfold accepted_tree, index_captures. now apply same_index.
    + rewrite parse_trailing in A. discriminate.
  - rewrite parse_reject in A; [discriminate|reflexivity|]. revert St. clear. cbn [hd_error]. sweep c.
Qed.

(** The parser accepts exactly the texts of the grammar, with their trees. *)
Theorem parse_is_grammar p n : parse p = P_ok n <-> exists x, body p x /\ n = index_captures x.
Proof.
  split; [apply accepted_pattern|]. intros (x & B & ->). now apply pattern_parses.
Qed.
