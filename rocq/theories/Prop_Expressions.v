(** Property C43: the expression interface. *)
From Verif Require Import Examples.
From Verif Require Import Xpr Basics Equiv Regroup Pairs Syntax Reading Accepted Print Literal Expressions.

(** C43.  [operand p n]: the pattern [p] without capturing groups, and its tree.
    [grouped p]: the pattern in brackets.  [indistinguishable] (Pairs.v): all
    calls agree.

    Full statement: for all texts.  The code has no regex for the empty text. *)
Theorem C43_str_partial : forall t fl ct s,
  t <> [] -> ~ In F_icase fl ->
  returns (regex_match (mk_regex (x_str t) fl) ct s) (fun res => matched res = true <-> s = t).
Proof.
  intros t fl ct s Hne Hi. destruct (str_match t fl ct s Hne) as (res & E & H). exists res. split; [exact E|].
  apply flag_test_not_In in Hi. rewrite H, Hi, same_text. split; congruence.
Qed.
Print Assumptions C43_str_partial.

Theorem C43_str_refuted : forall fl ct, compilable (config_of fl ct) (x_str []) = false.
Proof. reflexivity. Qed.
Print Assumptions C43_str_refuted.

Theorem C43_concat : forall ps ns,
  Forall2 operand ps ns -> ps <> [] -> parse (flat_map grouped ps) = P_ok (x_concat ns).
Proof. exact concat_parses. Qed.
Print Assumptions C43_concat.

(** Full statement: with backreferences in the operands.  See
    C21_regrouping_refuted for why they are excluded. *)
Theorem C43_either_partial : forall ps ns fl ct s,
  Forall2 operand ps ns -> ps <> [] -> forallb backref_free ns = true ->
  exists n, parse (join (map grouped ps)) = P_ok n /\ indistinguishable n (x_either ns) fl ct s.
Proof. exact either_agree. Qed.
Print Assumptions C43_either_partial.

(** With backreferences too, if no character fits two of the single characters where an
    operand that is an alternation meets the following ones ([separate], Regroup.v). *)
Theorem C43_either_apart_partial : forall ps ns fl ct s,
  Forall2 operand ps ns -> ps <> [] ->
  (forall pre l post, ns = pre ++ Alt l :: post -> pre <> [] -> separate l post) ->
  exists n, parse (join (map grouped ps)) = P_ok n /\ indistinguishable n (x_either ns) fl ct s.
Proof. exact either_agree_apart. Qed.
Print Assumptions C43_either_apart_partial.

Example C43_either_apart_example :
  let ps := [str "a|b"; str "\1c|d"; str "[e-f]|\1"; str "g|g"] in
  let ns := map tree ["a|b"; "\1c|d"; "[e-f]|\1"; "g|g"]%string in
  Forall2 operand ps ns /\ ps <> [] /\ forallb backref_free ns = false
  /\ (forall pre l post, ns = pre ++ Alt l :: post -> pre <> [] -> separate l post).
Proof.
  split; [repeat constructor; vm_compute; reflexivity|]. split; [discriminate|]. split; [vm_compute; reflexivity|].
  intros pre l post E Hp.
  destruct pre as [|? [|? [|? [|? [|? ?]]]]]; try (now elim Hp); vm_compute in E; try discriminate E; injection E as; subst.
  - right. repeat split; discriminate.
  - right. repeat split; discriminate.
  - left. reflexivity.
Qed.

Theorem C43_repetitions : forall ps ns md fl ct s,
  Forall2 operand ps ns -> ps <> [] ->
  let like q x := exists n, parse (grouped (flat_map grouped ps) ++ q ++ mode_text md) = P_ok n
                    /\ indistinguishable n x fl ct s in
  like (str "*") (x_zero_or_more md ns)
  /\ like (str "+") (x_one_or_more md ns)
  /\ like (str "?") (x_maybe md ns)
  /\ forall ds, numeral_text ds -> (decimal ds < 2 ^ 64)%N ->
       like (str "{" ++ ds ++ str "}") (x_exactly (decimal ds) md ns)
       /\ like (str "{" ++ ds ++ str ",}") (x_at_least (decimal ds) md ns)
       /\ forall es, numeral_text es -> (decimal es < 2 ^ 64)%N ->
            like (str "{" ++ ds ++ str "," ++ es ++ str "}") (x_between (decimal ds) (decimal es) md ns).
Proof.
  intros ps ns md fl ct s H Hne like.
  assert (K : forall q lo hi, bounds q lo hi -> like q (Rep md lo hi (packed ns))).
  { intros q lo hi B. exact (repeat_agree ps ns q lo hi md fl ct s H Hne B). }
  repeat split; try (apply K; constructor).
  - intros. pose proof (bounds_exact ds H0) as B. rewrite size_t_small in B by assumption. exact (K _ _ _ B).
  - pose proof (bounds_least ds H0) as B. rewrite size_t_small in B by assumption. exact (K _ _ _ B).
  - intros es He Hs. pose proof (bounds_range ds es H0 He) as B. rewrite !size_t_small in B by assumption. exact (K _ _ _ B).
Qed.
Print Assumptions C43_repetitions.

Theorem C43_groups : forall ps ns fl ct s,
  Forall2 operand ps ns -> ps <> [] ->
  let like o x := exists n, parse (str "(" ++ o ++ flat_map grouped ps ++ str ")") = P_ok n
                    /\ indistinguishable n x fl ct s in
  like (str "?>") (x_atomic ns)
  /\ like (str "?=") (x_ahead ns)
  /\ like (str "?<=") (x_behind ns)
  /\ like (str "?!") (x_negate (x_ahead ns))
  /\ like (str "?<!") (x_negate (x_behind ns))
  /\ like (str "") (x_capture 1 None ns)
  /\ forall nm, valid_name nm = true -> like (str "?<" ++ nm ++ str ">") (x_capture 1 (Some nm) ns).
Proof.
  intros ps ns fl ct s H Hne like.
  assert (K : forall o F C, opening o F ->
    (forall x, capture_count x = 0 -> index_captures (F x) = plug C x) -> like o (plug C (packed ns))).
  { intros o F C Ho HC. exact (group_agree o F C ps ns fl ct s H Hne Ho HC). }
  assert (I : forall x, capture_count x = 0 -> forall off, index off x = x) by (intros; now apply index_free).
  split; [apply (K _ _ (CRep Possessive 1 (Fin 1) Hole) open_atomic)|].
  { intros x Hx. unfold index_captures, atomic. cbn [index plug]. now rewrite I. }
  split; [apply (K _ _ (CLook Ahead Hole) open_ahead)|].
  { intros x Hx. unfold index_captures. cbn [index plug]. now rewrite I. }
  split; [apply (K _ _ (CLook Behind Hole) open_behind)|].
  { intros x Hx. unfold index_captures. cbn [index plug]. now rewrite I. }
  split; [apply (K _ _ (CNegLook Ahead Hole) open_not_ahead)|].
  { intros x Hx. unfold index_captures. cbn [index plug]. now rewrite I. }
  split; [apply (K _ _ (CNegLook Behind Hole) open_not_behind)|].
  { intros x Hx. unfold index_captures. cbn [index plug]. now rewrite I. }
  split; [apply (K _ _ (CCap 1 None Hole) open_capture)|].
  { intros x Hx. unfold index_captures. cbn [index plug]. now rewrite I. }
  intros nm Hnm. apply (K _ _ (CCap 1 (Some nm) Hole) (open_name nm Hnm)).
  intros x Hx. unfold index_captures. cbn [index plug]. now rewrite I.
Qed.
Print Assumptions C43_groups.

(** The negation of a class accepts the other characters. *)
Theorem C43_negate_class : forall n fl ct s,
  is_class n = true -> usable (mk_regex n fl) ct -> usable (mk_regex (x_negate n) fl) ct ->
  returns (regex_match (mk_regex n fl) ct s) (fun r1 =>
    returns (regex_match (mk_regex (x_negate n) fl) ct s) (fun r2 =>
      matched r2 = (Nat.eqb (length s) 1 && negb (matched r1)))).
Proof. exact negate_class. Qed.
Print Assumptions C43_negate_class.

(** concat, either, maybe and negate of "ab|c" and "[^d-f]*". *)
Example C43_example :
  let ps := [str "ab|c"; str "[^d-f]*"] in
  let ns := [tree "ab|c"; tree "[^d-f]*"] in
  Forall2 operand ps ns /\ ps <> [] /\ forallb backref_free ns = true
  /\ flat_map grouped ps = str "(?:ab|c)(?:[^d-f]*)"
  /\ usable (mk_regex (x_negate (tree "[^d-f]")) []) RandomAccessIt
  /\ (exists res, regex_match (mk_regex (x_one_or_more Greedy ns) []) RandomAccessIt (str "abxcy") = Returned res
       /\ matched res = true).
Proof.
  split; [repeat constructor; vm_compute; reflexivity|]. split; [discriminate|]. split; [reflexivity|].
  split; [reflexivity|]. split; [show_usable|]. eexists. split; vm_compute; reflexivity.
Qed.
