(** Writing trees as patterns, and reading them back (C35). *)
From Verif Require Import Parser Basics Normal Syntax Steps Typing Shape Reading Accepted.
From Coq Require Import Lia.

(** ** The printer *)

(** Characters that are written as they are; all others as [\xHH]. *)
Definition plain (c : ascii) : bool :=
  negb (existsb (Ascii.eqb c)
    ["\"; "["; "]"; "("; ")"; "{"; "}"; "|"; "*"; "+"; "?"; "."; "^"; "$"; "-"]%char)
  && negb (is_digit c).

Definition hex_digit (n : N) : ascii :=
  if N.ltb n 10 then ascii_of_N (48 + n) else ascii_of_N (87 + n).

Definition hex (c : ascii) : list ascii :=
  ["\"; "x"; hex_digit (code c / 16); hex_digit (code c mod 16)]%char.

Definition print_char (c : ascii) : list ascii := if plain c then [c] else hex c.

(** Decimal numerals. *)
Definition digit_char (d : N) : ascii := ascii_of_N (48 + d).

Fixpoint digits (fuel : nat) (n : N) : list ascii :=
  match fuel with
  | 0 => []
  | S f => if N.ltb n 10 then [digit_char n] else digits f (n / 10) ++ [digit_char (n mod 10)]
  end.

Definition numeral (n : N) : list ascii := digits (S (N.to_nat (N.log2 n))) n.

Definition print_bounds (lo : N) (hi : quantifier) : list ascii :=
  match hi with
  | Inf => if N.eqb lo 0 then str "*" else if N.eqb lo 1 then str "+"
           else str "{" ++ numeral lo ++ str ",}"
  | Fin h => if N.eqb lo 0 && N.eqb h 1 then str "?"
             else if N.eqb lo h then str "{" ++ numeral lo ++ str "}"
             else str "{" ++ numeral lo ++ str "," ++ numeral h ++ str "}"
  end.

Definition print_set_item (i : set_item) : list ascii :=
  match i with
  | ILit c => hex c
  | IRange a b => hex a ++ str "-" ++ hex b
  | ISpace => str "\s"
  | INotDigit => str "\D"
  | INotWord => str "\W"
  | INotBreak => str "\N"
  | INotSpace => str "\S"
  end.

(** The elements of a set are in the reverse order of its items. *)
Definition print_items (l : list set_item) : list ascii := flat_map print_set_item (rev l).

Definition print_set (l : list node) : list ascii :=
  match items_of l with Some is => print_items is | None => [] end.

Fixpoint join (ts : list (list ascii)) : list ascii :=
  match ts with
  | [] => []
  | [t] => t
  | t :: r => t ++ str "|" ++ join r
  end.

(** Nodes that can take a quantifier without brackets. *)
Definition simple (n : node) : bool :=
  match n with
  | Wild | Lit _ | Range _ _ | CSet _ | Cap _ _ _ => true
  | Neg (CSet _) | Neg (Range _ _) => true
  | _ => false
  end.

Definition is_atomic (md : match_mode) (lo : N) (hi : quantifier) : bool :=
  match md, hi with Possessive, Fin h => N.eqb lo 1 && N.eqb h 1 | _, _ => false end.

(** The pattern of a tree, as an alternative list (level 0), a concatenation (1)
    or a single item (2). *)
Fixpoint print (lv : nat) (n : node) : list ascii :=
  match n with
  | Empty => str "(?:)"
  | BeginLine => str "^"
  | BeginInput => str "\A"
  | EndLine => str "$"
  | EndInput => str "\Z"
  | WordB => str "\b"
  | Wild => str "."
  | Lit c => print_char c
  | Range _ _ => str "\d"
  | CSet l => str "[" ++ print_set l ++ str "]"
  | Neg x =>
      match x with
      | CSet l => str "[^" ++ print_set l ++ str "]"
      | Range _ _ => str "\D"
      | Look Ahead y => str "(?!" ++ print 0 y ++ str ")"
      | Look Behind y => str "(?<!" ++ print 0 y ++ str ")"
      | _ => str "\B"
      end
  | Seq l =>
      let t := flat_map (print 2) l in
      match lv with 0 | 1 => t | _ => str "(?:" ++ t ++ str ")" end
  | Alt l =>
      let t := join (map (print 1) l) in
      match lv with 0 => t | _ => str "(?:" ++ t ++ str ")" end
  | Cap _ None x => str "(" ++ print 0 x ++ str ")"
  | Cap _ (Some nm) x => str "(?<" ++ nm ++ str ">" ++ print 0 x ++ str ")"
  | Rep md lo hi x =>
      if is_atomic md lo hi then str "(?>" ++ print 0 x ++ str ")"
      else (if simple x then print 2 x else str "(?:" ++ print 0 x ++ str ")")
           ++ print_bounds lo hi ++ mode_text md
  | Backref id => str "\" ++ numeral (if N.eqb id 0 then 2 ^ 64 else id)
  | NBackref nm => str "\k<" ++ nm ++ str ">"
  | Look Ahead x => str "(?=" ++ print 0 x ++ str ")"
  | Look Behind x => str "(?<=" ++ print 0 x ++ str ")"
  end.

(** ** Numerals *)

Lemma decimal_app ds d : decimal (ds ++ [d]) = (10 * decimal ds + (code d - 48))%N.
Proof. unfold decimal. now rewrite fold_left_app. Qed.

Lemma digit_char_ok d : (d < 10)%N ->
  is_digit (digit_char d) = true /\ (code (digit_char d) - 48 = d)%N /\ (d <> 0%N -> digit_char d == "0" = false).
Proof.
  intros H. assert (D : In d [0; 1; 2; 3; 4; 5; 6; 7; 8; 9]%N) by (cbn; lia).
  repeat destruct D as [<-|D]; vm_compute; auto; try tauto. destruct D.
Qed.

Lemma digits_ok f : forall n, (n < 10 * 2 ^ N.of_nat f)%N ->
  let ds := digits (S f) n in
  exists d r, ds = d :: r /\ forallb is_digit ds = true /\ decimal ds = n
    /\ (n <> 0%N -> d == "0" = false).
Proof.
  induction f as [|f IH]; intros n Hn; cbn [digits]; destruct (N.ltb_spec n 10) as [L|L].
  1,3: destruct (digit_char_ok n L) as (D1 & D2 & D3); exists (digit_char n), []; cbn [forallb];
    rewrite D1; repeat split; auto; unfold decimal; cbn [fold_left]; lia.
  - cbn in Hn. lia.
  - destruct (IH (n / 10)%N) as (d & r & E & Hd & Hv & Hz).
    { apply N.div_lt_upper_bound; [lia|]. rewrite Nnat.Nat2N.inj_succ, N.pow_succ_r' in Hn. lia. }
    cbn [digits] in E, Hd, Hv. destruct (digit_char_ok (n mod 10)) as (D1 & D2 & _); [apply N.mod_lt; lia|].
    rewrite E in *. exists d, (r ++ [digit_char (n mod 10)]). split; [reflexivity|].
    split; [|split].
    + rewrite forallb_app, Hd. cbn. now rewrite D1.
    + rewrite decimal_app, Hv, D2. rewrite (N.div_mod n 10) at 3 by lia. reflexivity.
    + intros _. apply Hz. intros Z. apply N.div_small_iff in Z; lia.
Qed.

Lemma numeral_ok n : exists d r, numeral n = d :: r
  /\ is_digit d = true /\ forallb is_digit r = true /\ decimal (d :: r) = n
  /\ (n <> 0%N -> d == "0" = false).
Proof.
  destruct (digits_ok (N.to_nat (N.log2 n)) n) as (d & r & E & Hd & Hv & Hz).
  - rewrite Nnat.N2Nat.id. destruct (N.eq_dec n 0) as [->|Hn]; [reflexivity|].
    pose proof (proj2 (N.log2_spec n ltac:(lia))) as L. rewrite N.pow_succ_r' in L. lia.
  - exists d, r. unfold numeral. rewrite E in *. cbn [forallb] in Hd. apply andb_prop in Hd. tauto.
Qed.

Lemma numeral_spec n : numeral_text (numeral n) /\ decimal (numeral n) = n.
Proof.
  destruct (numeral_ok n) as (d & r & -> & Hd & Hr & Hv & _). split; [split; [discriminate|]|exact Hv].
  cbn [forallb]. now rewrite Hd.
Qed.

Lemma print_bounds_ok lo hi : (lo < 2 ^ 64)%N -> match hi with Fin h => (h < 2 ^ 64)%N | Inf => True end ->
  bounds (print_bounds lo hi) lo hi.
Proof.
  intros Hl Hh. pose proof (numeral_spec lo) as (L1 & L3).
  assert (EL : size_t (decimal (numeral lo)) = lo) by (rewrite L3; now apply size_t_small).
  destruct hi as [h|]; unfold print_bounds.
  - pose proof (numeral_spec h) as (H1 & H3).
    assert (EH : size_t (decimal (numeral h)) = h) by (rewrite H3; now apply size_t_small).
    destruct (N.eqb lo 0 && N.eqb h 1)%bool eqn:B.
    { apply andb_prop in B. destruct B as [B1 B2]. apply N.eqb_eq in B1, B2. subst. constructor. }
    destruct (N.eqb_spec lo h) as [<-|Q].
    + pose proof (bounds_exact _ L1) as S. rewrite EL in S. exact S.
    + pose proof (bounds_range _ _ L1 H1) as S. rewrite EL, EH in S. exact S.
  - destruct (N.eqb_spec lo 0) as [->|Z]; [constructor|].
    destruct (N.eqb_spec lo 1) as [->|O]; [constructor|].
    pose proof (bounds_least _ L1) as S. rewrite EL in S. exact S.
Qed.

(** ** Characters and sets *)

Lemma plain_ordinary c : plain c = true -> ordinary c = true /\ is_digit c = false.
Proof. sweep c. Qed.

Lemma nibble_in x : (x < 16)%N -> In (hex_digit x, x) nibbles.
Proof.
  intros H. rewrite <- (N2Nat.id x) in *. set (n := N.to_nat x) in *. clearbody n.
  assert (B : (n < 16)%nat) by lia. clear H.
  do 16 (destruct n as [|n]; [cbn; tauto|]). lia.
Qed.

Lemma hex_nibbles c : In (hex_digit (code c / 16), (code c / 16)%N) nibbles
  /\ In (hex_digit (code c mod 16), (code c mod 16)%N) nibbles
  /\ ascii_of_N (16 * (code c / 16) + code c mod 16) = c.
Proof.
  split; [|split].
  - apply nibble_in. destruct c as [[] [] [] [] [] [] [] []]; reflexivity.
  - apply nibble_in. now apply N.mod_lt.
  - rewrite <- N.div_mod by discriminate. apply ascii_N_embedding.
Qed.

Lemma hex_escape named special c : char_escape named special (hex c) c.
Proof.
  destruct (hex_nibbles c) as (H1 & H2 & H3). unfold hex. rewrite <- H3 at 3. now apply ce_hex.
Qed.

Lemma char_piece c : piece Anything (print_char c) (Lit c).
Proof.
  unfold print_char. destruct (plain c) eqn:P; [now apply u_char, plain_ordinary|apply u_escape, hex_escape].
Qed.

(** One printed item. *)
Lemma item_body it fresh l t l' :
  (forall fresh, set_body fresh (item_nodes it ++ l) t l') -> set_body fresh l (print_set_item it ++ t) l'.
Proof.
  intros H. destruct it as [c|a b| | | | |]; cbn [print_set_item].
  - apply set_escaped with (c := c); [apply hex_escape|exact (H _)].
  - rewrite <- !app_assoc. apply set_escaped with (c := a); [apply hex_escape|]. texts.
    apply set_range with (b := b); [apply range_escape, hex_escape|exact (H _)].
  - apply (set_class fresh l (str "\s") n_whitespace); [constructor; cbn; tauto|exact (H _)].
  - apply (set_class fresh l (str "\D") (Neg n_digit)); [constructor; cbn; tauto|exact (H _)].
  - apply (set_class fresh l (str "\W") (Neg n_word)); [constructor; cbn; tauto|exact (H _)].
  - apply (set_class fresh l (str "\N") (Neg n_linebreak)); [constructor; cbn; tauto|exact (H _)].
  - apply (set_class fresh l (str "\S") (Neg n_whitespace)); [constructor; cbn; tauto|exact (H _)].
Qed.

Lemma items_body its : forall fresh l,
  set_body fresh l (flat_map print_set_item its) (flat_map item_nodes (rev its) ++ l).
Proof.
  induction its as [|it its IH]; intros fresh l; [apply set_end|].
  cbn [flat_map rev]. apply item_body. intros fresh'.
  rewrite flat_map_app, <- app_assoc. cbn [flat_map]. rewrite app_nil_r. apply IH.
Qed.

Lemma print_set_body l : set_ok l = true -> set_body true [] (print_set l) l /\ hd_error (print_set l) <> Some "^"%char.
Proof.
  unfold set_ok, print_set, print_items. destruct (items_of l) as [its|] eqn:E; [|discriminate]. intros _.
  apply items_of_spec in E. subst l. split.
  - pose proof (items_body (rev its) true []) as B. rewrite rev_involutive, app_nil_r in B. exact B.
  - destruct (rev its) as [|it r]; [discriminate|]. destruct it; discriminate.
Qed.

(** ** All trees *)

Lemma strip_set l : set_ok l = true -> map strip l = l.
Proof.
  unfold set_ok. destruct (items_of l) as [its|] eqn:E; [|discriminate]. intros _.
  apply items_of_spec in E. subst l. induction its as [|i is IH]; [reflexivity|].
  cbn [flat_map]. rewrite map_app, IH. now destruct i.
Qed.

Lemma strip_is_seq n : is_seq (strip n) = is_seq n.
Proof. now destruct n. Qed.
Lemma strip_is_alt n : is_alt (strip n) = is_alt n.
Proof. now destruct n. Qed.

(** Printed trees do not begin with a digit. *)
Definition apart (t : text) : Prop := t <> [] /\ not_digit t.

Lemma apart_app t t' : apart t -> apart (t ++ t').
Proof. intros [H1 H2]. destruct t; [easy|]. now split. Qed.

Lemma apart_allows f t : apart t -> f <> GroupEnd -> allows f t.
Proof. intros [H1 H2] Hf. now destruct f. Qed.

Record derives (n : node) : Prop := {
  as_piece : simple n = true -> exists f, f <> GroupEnd /\ piece f (print 2 n) (strip n);
  as_item : exists f, f <> GroupEnd /\ item f (print 2 n) (strip n);
  as_branch : exists f, f <> GroupEnd /\ branch f (print 1 n) (strip n);
  as_body : body (print 0 n) (strip n);
  as_text : forall lv, apart (print lv n)
}.

Lemma item_branch f t n : item f t n -> branch f t n.
Proof. intros H. rewrite <- (app_nil_r t). eapply b_items; [exact H|constructor]. Qed.
Lemma branch_body f t n : branch f t n -> body t n.
Proof. intros H. rewrite <- (app_nil_r t). eapply y_branches; [exact H|constructor]. Qed.
Lemma piece_item f t n : piece f t n -> item f t n.
Proof. intros H. rewrite <- (app_nil_r t). eapply i_unit; [exact H|constructor]. Qed.

Lemma print_same n : is_seq n = false -> is_alt n = false -> forall lv, print lv n = print 2 n.
Proof. intros H1 H2 lv. now destruct n. Qed.

Lemma piece_derives f n : f <> GroupEnd -> is_seq n = false -> is_alt n = false ->
  piece f (print 2 n) (strip n) -> apart (print 2 n) -> derives n.
Proof.
  intros Hf H1 H2 P A. pose proof (print_same n H1 H2) as E. split; intros; rewrite ?E; eauto using piece_item, item_branch, branch_body.
Qed.

Lemma item_derives f n : f <> GroupEnd -> is_seq n = false -> is_alt n = false -> simple n = false ->
  item f (print 2 n) (strip n) -> apart (print 2 n) -> derives n.
Proof.
  intros Hf H1 H2 H3 P A. pose proof (print_same n H1 H2) as E.
  split; intros; rewrite ?E; eauto using item_branch, branch_body. congruence.
Qed.

Lemma wrap_piece t n : body t n -> piece Anything (str "(?:" ++ t ++ str ")") n.
Proof. intros H. exact (u_group (str "?:") (fun n => n) t n open_plain H). Qed.

Lemma items_derive l : forallb (fun x => negb (is_seq x)) l = true -> Forall derives l ->
  forall f n, f <> GroupEnd -> l <> [] -> exists f', f' <> GroupEnd /\
    more_items f n (flat_map (print 2) l) f' (Seq (parts n ++ map strip l)).
Proof.
  intros Hs Hl. revert Hs. induction Hl as [|x l Hx Hl IH]; intros Hs f n Hf Hne; [easy|].
  cbn [forallb] in Hs. apply andb_prop in Hs. destruct Hs as [Hx1 Hs]. rewrite Bool.negb_true_iff in Hx1.
  destruct (as_item x Hx) as (fx & Hfx & Ix).
  assert (P : parts (strip x) = [strip x]) by (destruct x; try discriminate; reflexivity).
  destruct l as [|y l].
  - exists fx. split; [exact Hfx|]. cbn [flat_map map]. eapply m_item; [exact Ix|apply apart_allows; [apply (as_text x Hx)|exact Hf]|].
    unfold cat. rewrite P. constructor.
  - destruct (IH Hs fx (cat n (strip x)) Hfx ltac:(discriminate)) as (f' & Hf' & M). exists f'. split; [exact Hf'|].
    cbn [flat_map map] in *. eapply m_item; [exact Ix|apply apart_allows; [apply (as_text x Hx)|exact Hf]|].
    unfold cat in *. cbn [parts] in M. rewrite P in *. rewrite <- app_assoc in M. exact M.
Qed.

Lemma branches_derive l : Forall derives l -> forall f n, f <> GroupEnd -> l <> [] -> exists f', f' <> GroupEnd /\
  more_branches f n (flat_map (fun t => str "|" ++ t) (map (print 1) l)) f' (Alt (branches n ++ map strip l)).
Proof.
  induction 1 as [|x l Hx Hl IH]; intros f n Hf Hne; [easy|].
  destruct (as_branch x Hx) as (fx & Hfx & Bx). cbn [map flat_map]. rewrite <- app_assoc.
  destruct l as [|y l].
  - exists fx. split; [exact Hfx|]. cbn [flat_map map].
    eapply o_branch; [exact Bx|exact Hf|]. unfold or. constructor.
  - destruct (IH fx (or n (strip x)) Hfx ltac:(discriminate)) as (f' & Hf' & M). exists f'. split; [exact Hf'|].
    eapply o_branch; [exact Bx|exact Hf|]. unfold or in *. cbn [branches] in M. rewrite <- app_assoc in M. exact M.
Qed.

Lemma join_bars t ts : join (t :: ts) = t ++ flat_map (fun t => str "|" ++ t) ts.
Proof.
  revert t. induction ts as [|t' ts IH]; intros t; [cbn; now rewrite app_nil_r|].
  cbn [join] in *. now rewrite IH.
Qed.

Lemma digit_range_ok a b : digit_range a b = true -> Range a b = n_digit.
Proof. intros H. apply andb_prop in H. destruct H as [H1 H2]. apply Ascii.eqb_eq in H1, H2. now subst. Qed.

Ltac begin_apart := split; [discriminate|reflexivity].
Ltac by_table := cbn; tauto.

Theorem printable_derives n : printable n = true -> derives n.
Proof.
  assert (G : forall m n, size n <= m -> printable n = true -> derives n); [|now apply (G (size n))].
  clear n. induction m as [|m IH]; intros n Hm Hp; [pose proof (size_pos n); lia|].
  assert (L : forall l, list_sum (map size l) <= m -> forallb printable l = true -> Forall derives l).
  { intros l Hl Hf. apply Forall_forall. intros x Hx. rewrite forallb_forall in Hf.
    pose proof (size_in_sum _ _ Hx). apply IH; auto. lia. }
  destruct n; cbn [printable] in Hp.
  - apply (piece_derives Anything); try discriminate; auto; [|begin_apart].
    exact (u_group (str "?:") (fun n => n) [] Empty open_plain y_empty).
  - apply (item_derives Anything); try discriminate; auto; [|begin_apart]. apply i_anchor. by_table.
  - apply (item_derives Anything); try discriminate; auto; [|begin_apart]. apply i_anchor. by_table.
  - apply (item_derives Anything); try discriminate; auto; [|begin_apart]. apply i_anchor. by_table.
  - apply (item_derives Anything); try discriminate; auto; [|begin_apart]. apply i_anchor. by_table.
  - apply (item_derives Anything); try discriminate; auto; [|begin_apart]. apply i_anchor. by_table.
  - apply (piece_derives Anything); try discriminate; auto; [|begin_apart]. apply u_dot.
  - apply (piece_derives Anything); try discriminate; auto; [apply char_piece|].
    cbn [print]. unfold print_char. destruct (plain c) eqn:P; [|begin_apart].
    split; [discriminate|]. now apply plain_ordinary.
  - rewrite (digit_range_ok _ _ Hp). apply (piece_derives Anything); try discriminate; auto; [|begin_apart].
    apply u_class. constructor. by_table.
  - apply (piece_derives Anything); try discriminate; auto; [|begin_apart].
    destruct (print_set_body l Hp) as [B1 B2]. cbn [print strip]. rewrite strip_set by exact Hp. now apply u_set.
  - destruct n; try discriminate Hp.
    + apply (item_derives Anything); try discriminate; auto; [|begin_apart]. apply i_anchor. by_table.
    + cbn [strip]. rewrite (digit_range_ok _ _ Hp). apply (piece_derives Anything); try discriminate; auto; [|begin_apart].
      apply u_class. constructor. by_table.
    + apply (piece_derives Anything); try discriminate; auto; [|begin_apart].
      destruct (print_set_body l Hp) as [B1 B2]. cbn [print strip]. rewrite strip_set by exact Hp. now apply u_not_set.
    + cbn [size] in Hm. pose proof (as_body n (IH n ltac:(lia) Hp)) as B.
      apply (piece_derives Anything); try discriminate; auto; [|now destruct d; begin_apart].
      destruct d.
      * exact (u_group (str "?!") _ _ _ open_not_ahead B).
      * exact (u_group (str "?<!") _ _ _ open_not_behind B).
  - rewrite size_Seq in Hm. rewrite !Bool.andb_true_iff in Hp. destruct Hp as [[H1 H2] H3].
    apply Nat.leb_le in H1. specialize (L l ltac:(lia) H3).
    destruct L as [|x l Hx L]; [cbn in H1; lia|]. cbn [length forallb] in *.
    apply andb_prop in H2. destruct H2 as [Hx1 H2]. rewrite Bool.negb_true_iff in Hx1.
    destruct (as_item x Hx) as (fx & Hfx & Ix).
    destruct (items_derive l H2 L fx (strip x) Hfx) as (f' & Hf' & M); [destruct l; [cbn in H1; lia|discriminate]|].
    assert (P : parts (strip x) = [strip x]) by (destruct x; try discriminate; reflexivity).
    rewrite P in M.
    assert (B : branch f' (flat_map (print 2) (x :: l)) (Seq (map strip (x :: l)))).
    { cbn [flat_map map]. eapply b_items; [exact Ix|exact M]. }
    assert (A : apart (flat_map (print 2) (x :: l))) by (cbn [flat_map]; apply apart_app, (as_text x Hx)).
    split; [discriminate|..].
    + exists Anything. split; [discriminate|]. apply piece_item, wrap_piece. eapply branch_body, B.
    + exists f'. split; [exact Hf'|exact B].
    + eapply branch_body, B.
    + intros [|[|lv]]; [exact A|exact A|begin_apart].
  - rewrite size_Alt in Hm. rewrite !Bool.andb_true_iff in Hp. destruct Hp as [[H1 H2] H3].
    apply Nat.leb_le in H1. rewrite Bool.negb_true_iff in H2. specialize (L l ltac:(lia) H3).
    destruct L as [|x l Hx L]; [cbn in H1; lia|]. cbn [length hd] in *.
    destruct (as_branch x Hx) as (fx & Hfx & Bx).
    destruct (branches_derive l L fx (strip x) Hfx) as (f' & Hf' & M); [destruct l; [cbn in H1; lia|discriminate]|].
    assert (P : branches (strip x) = [strip x]) by (destruct x; try discriminate; reflexivity).
    rewrite P in M.
    assert (B : body (join (map (print 1) (x :: l))) (Alt (map strip (x :: l)))).
    { cbn [map]. rewrite join_bars. eapply y_branches; [exact Bx|exact M]. }
    assert (A : apart (join (map (print 1) (x :: l)))) by (cbn [map]; rewrite join_bars; apply apart_app, (as_text x Hx)).
    split; [discriminate|..].
    + exists Anything. split; [discriminate|]. apply piece_item, wrap_piece, B.
    + exists Anything. split; [discriminate|]. apply item_branch, piece_item, wrap_piece, B.
    + exact B.
    + intros [|lv]; [exact A|begin_apart].
  - cbn [size] in Hm. apply andb_prop in Hp. destruct Hp as [H1 H2].
    pose proof (as_body n (IH n ltac:(lia) H2)) as B.
    apply (piece_derives Anything); try discriminate; auto; [|destruct name; begin_apart].
    destruct name as [nm|]; cbn [print strip].
    + pose proof (u_group _ _ _ _ (open_name nm H1) B) as P. rewrite <- !app_assoc in P. exact P.
    + exact (u_group [] _ _ _ open_capture B).
  - cbn [size] in Hm. rewrite !Bool.andb_true_iff in Hp. destruct Hp as [[H1 H2] H3].
    pose proof (IH n ltac:(lia) H3) as D. pose proof (as_body n D) as B.
    destruct (is_atomic mode lo hi) eqn:At.
    + apply (item_derives Anything); try discriminate; auto; cbn [print strip]; rewrite At; [|begin_apart].
      unfold is_atomic in At. destruct mode, hi as [h|]; try discriminate. apply andb_prop in At.
      destruct At as [E1 E2]. apply N.eqb_eq in E1, E2. subst.
      apply piece_item. exact (u_group (str "?>") _ _ _ open_atomic B).
    + apply N.ltb_lt in H1.
      assert (Q : bounds (print_bounds lo hi) lo hi).
      { apply print_bounds_ok; [exact H1|]. destruct hi; [now apply N.ltb_lt|exact I]. }
      apply (item_derives Anything); try discriminate; auto; cbn [print strip]; rewrite At.
      * destruct (simple n) eqn:Sn.
        -- destruct (as_piece n D Sn) as (f & Hf & P). eapply i_unit; [exact P|now apply q_rep].
        -- eapply i_unit; [apply wrap_piece, B|now apply q_rep].
      * apply apart_app. destruct (simple n); [apply (as_text n D)|begin_apart].
  - apply N.ltb_lt in Hp. cbn [print].
    destruct (numeral_ok (if N.eqb id 0 then 2 ^ 64 else id)) as (d & r & E & Hd & Hr & Hv & Hz).
    assert (V : size_t (decimal (d :: r)) = id).
    { rewrite Hv. destruct (N.eqb_spec id 0) as [->|Z]; [reflexivity|now apply size_t_small]. }
    apply (item_derives NoDigit); try discriminate; auto; cbn [print]; rewrite E; [|begin_apart].
    apply piece_item. cbn [strip]. rewrite <- V. apply u_backref; auto. apply Ascii.eqb_neq, Hz.
    destruct (N.eqb_spec id 0) as [->|Z]; [discriminate|exact Z].
  - apply (item_derives Anything); try discriminate; auto; [|begin_apart]. apply piece_item. now apply u_named.
  - cbn [size] in Hm. pose proof (as_body n (IH n ltac:(lia) Hp)) as B.
    apply (item_derives Anything); try discriminate; auto; [|destruct d; begin_apart]. apply piece_item.
    destruct d.
    + exact (u_group (str "?=") _ _ _ open_ahead B).
    + exact (u_group (str "?<=") _ _ _ open_behind B).
Qed.

(** C35. *)
Theorem parse_print n : printable n = true -> parse (print 0 n) = P_ok (index_captures n).
Proof.
  intros H. rewrite (pattern_parses _ _ (as_body n (printable_derives n H))).
  unfold index_captures. now rewrite index_strip.
Qed.

(** ** The trees of the grammar are exactly the trees of accepted patterns *)

Lemma is_seq_index off n : is_seq (index off n) = is_seq n.
Proof. now destruct n. Qed.
Lemma is_alt_index off n : is_alt (index off n) = is_alt n.
Proof. now destruct n. Qed.

Lemma items_of_index off l its : items_of l = Some its -> map (index off) l = l.
Proof.
  intros E. apply items_of_spec in E. subst l. induction its as [|i is IH]; [reflexivity|].
  cbn [flat_map]. rewrite map_app, IH. now destruct i.
Qed.

Lemma set_ok_index off l : set_ok l = true -> map (index off) l = l.
Proof. unfold set_ok. destruct (items_of l) eqn:E; [|discriminate]. intros _. eapply items_of_index; eauto. Qed.

Lemma printable_index n : forall off, printable n = true -> printable (index off n) = true.
Proof.
  induction n using node_ind'; intros off Hp; try exact Hp.
  - cbn [printable index] in *. now rewrite set_ok_index.
  - destruct n; try discriminate Hp; cbn [printable index] in *; auto.
  - rewrite index_Seq. cbn [printable] in *. rewrite !Bool.andb_true_iff in *. destruct Hp as [[H1 H2] H3].
    rewrite index_list_length. split; [split; [exact H1|]|].
    + clear - H2. revert off. induction l as [|x l IH]; intros off; [reflexivity|]. cbn [index_list forallb] in *.
      rewrite is_seq_index. apply andb_prop in H2. destruct H2 as [-> H2]. cbn. now apply IH.
    + clear H1 H2. revert off. induction H as [|x l Hx Hl IH]; intros off; [reflexivity|].
      cbn [index_list forallb] in *. apply andb_prop in H3. destruct H3 as [H3 H4].
      rewrite Hx by exact H3. cbn. now apply IH.
  - cbn [index printable] in *. rewrite !Bool.andb_true_iff in *. destruct Hp as [[H1 H2] H3].
    rewrite map_length. split; [split; [exact H1|]|].
    + destruct l as [|x l]; [exact H2|]. cbn [map hd] in *. now rewrite is_alt_index.
    + rewrite forallb_map. rewrite forallb_forall in *. rewrite Forall_forall in H. auto.
  - cbn [index printable] in *. apply andb_prop in Hp. destruct Hp as [-> Hp]. now apply IHn.
  - cbn [index printable] in *. apply andb_prop in Hp. destruct Hp as [-> Hp]. now apply IHn.
  - cbn [index printable] in *. auto.
Qed.

Lemma index_idem n : forall off, index off (index off n) = index off n.
Proof.
  induction n using node_ind'; intros off; try reflexivity.
  - cbn [index]. f_equal. rewrite map_map. apply map_ext_Forall. eapply Forall_impl; [|exact H]. auto.
  - cbn [index]. now rewrite IHn.
  - rewrite !index_Seq. f_equal. revert off. induction H as [|x l Hx Hl IH]; intros off; [reflexivity|].
    cbn [index_list]. rewrite Hx, capture_count_index. f_equal. apply IH.
  - cbn [index]. f_equal. rewrite map_map. apply map_ext_Forall. eapply Forall_impl; [|exact H]. auto.
  - cbn [index]. now rewrite IHn.
  - cbn [index]. now rewrite IHn.
  - cbn [index]. now rewrite IHn.
Qed.

Theorem parse_print_parse p n : parse p = P_ok n -> parse (print 0 n) = P_ok n.
Proof.
  intros H. destruct (parse_normal p n H) as (x & -> & Hx).
  rewrite parse_print by (now apply printable_index). unfold index_captures. now rewrite index_idem.
Qed.

Theorem parse_image n : (exists p, parse p = P_ok n) <-> printable n = true /\ index_captures n = n.
Proof.
  split.
  - intros [p H]. destruct (parse_normal p n H) as (x & -> & Hx).
    split; [now apply printable_index|apply index_idem].
  - intros [H E]. exists (print 0 n). now rewrite parse_print, E.
Qed.
