(** Property C81: listing the lines that match.  Each theorem is followed by its
    assumptions and by a concrete instance. *)
From Verif Require Import Matcher Api Parser Spec Calls Lift Examples Syntax Records Contained Surrounded Lines.

(** C81.  [divided x more]: the text [lines_text x more] cut at every character that
    ends a line, [x] being its first line; [is_word]: the whole text matches;
    [listed word 0 lines l]: [l] has the places of the lines that are words, one
    after the other, up to the first that is empty ([find_all()] stops at an empty
    match).  The condition is on the words of [p], see below. *)
Theorem C81_lists_lines : forall fl ct p n, parse p = P_ok n -> usable (mk_regex n fl) ct ->
  self_contained n = true -> In F_multiline fl ->
  (forall u, is_word (mk_regex n fl) ct u -> one_line u) ->
  exists a, parse (str "^(?:" ++ p ++ str ")$") = P_ok a /\
    (usable (mk_regex a fl) ct -> forall x more, divided x more ->
       exists l, finds (mk_regex a fl) ct (lines_text x more) l
         /\ listed (is_word (mk_regex n fl) ct) 0 (x :: map snd more) l).
Proof. exact lists_lines. Qed.
Print Assumptions C81_lists_lines.

(** The list is determined by the lines. *)
Theorem C81_list_unique : forall word i ls l l',
  listed word i ls l -> listed word i ls l' -> l = l'.
Proof. exact listed_unique. Qed.
Print Assumptions C81_list_unique.

(** A pattern of which no part reads [\n] or [\r] has words of one line only. *)
Theorem C81_words_of_one_line : forall n fl ct, usable (mk_regex n fl) ct -> self_contained n = true ->
  stays_between (config_of fl ct) "010" n = true -> stays_between (config_of fl ct) "013" n = true ->
  forall u, is_word (mk_regex n fl) ct u -> one_line u.
Proof. exact stays_on_line. Qed.
Print Assumptions C81_words_of_one_line.

(** A pattern, its lines in a text and the places that are listed. *)
Example C81_example :
  let p := str "\w+(?: \w+)*|#.*" in
  let n := tree "\w+(?: \w+)*|#.*" in
  let a := tree "^(?:\w+(?: \w+)*|#.*)$" in
  let fl := [F_multiline] in
  let more := [("010"%char, str "#x, y"); ("013"%char, str "a, b"); ("010"%char, str ""); ("010"%char, str "z")] in
  parse p = P_ok n /\ usable (mk_regex n fl) RandomAccessIt /\ self_contained n = true /\ In F_multiline fl
  /\ (forall u, is_word (mk_regex n fl) RandomAccessIt u -> one_line u)
  /\ parse (str "^(?:" ++ p ++ str ")$") = P_ok a /\ usable (mk_regex a fl) RandomAccessIt
  /\ divided (str "one two") more
  /\ finds (mk_regex a fl) RandomAccessIt (lines_text (str "one two") more) [(0, 7); (8, 13); (20, 21)].
Proof.
  assert (U : usable (mk_regex (tree "\w+(?: \w+)*|#.*") [F_multiline]) RandomAccessIt) by show_usable.
  split; [vm_compute; reflexivity|]. split; [exact U|]. split; [vm_compute; reflexivity|].
  split; [now left|]. split.
  - apply (C81_words_of_one_line _ _ _ U); vm_compute; reflexivity.
  - split; [vm_compute; reflexivity|]. split; [show_usable|]. split.
    + split; [|repeat apply Forall_cons; try apply Forall_nil];
        repeat match goal with |- _ /\ _ => split end; try (now left); try (now right);
        intros c Hc [-> | ->]; cbn in Hc; intuition discriminate.
    + eexists. split; [vm_compute; reflexivity|]. split; [repeat constructor|reflexivity].
Qed.

(** An empty line that matches is the last one listed. *)
Example C81_empty_line_example :
  let a := tree "^(?:\d*)$" in
  usable (mk_regex a [F_multiline]) BidirectionalIt
  /\ finds (mk_regex a [F_multiline]) BidirectionalIt (lines_text (str "12") [("010"%char, str "x"); ("010"%char, []); ("010"%char, str "3")])
       [(0, 2); (5, 5)].
Proof.
  split; [show_usable|]. eexists. split; [vm_compute; reflexivity|]. split; [repeat constructor|reflexivity].
Qed.

(** The condition is needed: [[^,]+] reads on beyond the end of the line, and the
    result is not a list of lines. *)
Theorem C81_condition_needed : exists fl ct p n a x more l,
  parse p = P_ok n /\ usable (mk_regex n fl) ct /\ self_contained n = true /\ In F_multiline fl
  /\ parse (str "^(?:" ++ p ++ str ")$") = P_ok a /\ usable (mk_regex a fl) ct
  /\ divided x more /\ finds (mk_regex a fl) ct (lines_text x more) l
  /\ ~ listed (is_word (mk_regex n fl) ct) 0 (x :: map snd more) l.
Proof.
  exists [F_multiline], RandomAccessIt, (str "[^,]+"), (tree "[^,]+"), (tree "^(?:[^,]+)$"),
    (str "a"), [("010"%char, str "b")], [(0, 3)].
  split; [vm_compute; reflexivity|]. split; [show_usable|]. split; [vm_compute; reflexivity|].
  split; [now left|]. split; [vm_compute; reflexivity|]. split; [show_usable|]. split.
  - split; [|repeat apply Forall_cons; try apply Forall_nil];
      repeat match goal with |- _ /\ _ => split end; try (now left);
      intros c Hc [-> | ->]; cbn in Hc; intuition discriminate.
  - split; [eexists; split; [vm_compute; reflexivity|]; (split; [repeat constructor|reflexivity])|].
    generalize (is_word (mk_regex (tree "[^,]+") [F_multiline]) RandomAccessIt). intros w H.
    inversion H as [| i u r l N H1 | | i u r l N N1 H1]; subst.
    inversion H1 as [| i u r l N2 H2 | | ]; subst. inversion H2.
Qed.
Print Assumptions C81_condition_needed.
