(** Searching for words by what stands around them.
    Each theorem is followed by its assumptions and by a concrete instance. *)
From Verif Require Import Matcher Api Parser Spec Calls Lift Syntax Examples Expressions Surrounded Contained.

(** C77.  The pattern "(?:p)" with demands in front of it and behind it: [^], [$],
    [\A], [\Z], [\b], [\B] and lookarounds ([demand_text], Surrounded.v).  [holds]
    says what each means for the text before and the text behind a place;
    [found l1 l2 n x u y]: [u] is a text of the pattern and the places around it meet
    the demands.  A search succeeds exactly when there is such a text and finds the
    leftmost. *)
Theorem C77_surrounded_search : forall fl ct l1 p n l2,
  parse p = P_ok n -> usable (mk_regex n fl) ct -> self_contained n = true ->
  Forall (sound_demand fl ct) l1 -> Forall (sound_demand fl ct) l2 ->
  exists a, parse (surrounded_text l1 p l2) = P_ok a
    /\ (usable (mk_regex a fl) ct -> forall s, returns (regex_search (mk_regex a fl) ct s) (fun res =>
          let place x u y := s = x ++ u ++ y /\ found fl ct l1 l2 n x u y in
          (matched res = true <-> exists x u y, place x u y)
          /\ (matched res = true -> exists x u y, place x u y
                /\ group0 (groups res) = Some (length x, length x + length u)
                /\ forall x' u' y', place x' u' y' -> length x <= length x'))).
Proof. exact surrounded_search. Qed.
Print Assumptions C77_surrounded_search.

(** Whole lines: with the flag [multiline] "^(?:p)$" finds the lines that match [p]. *)
Theorem C77_whole_lines : forall fl ct p n,
  parse p = P_ok n -> usable (mk_regex n fl) ct -> self_contained n = true -> In F_multiline fl ->
  exists a, parse (str "^(?:" ++ p ++ str ")$") = P_ok a
    /\ (usable (mk_regex a fl) ct -> forall s, returns (regex_search (mk_regex a fl) ct s) (fun res =>
          matched res = true
          <-> exists x u y, s = x ++ u ++ y /\ is_word (mk_regex n fl) ct u
                /\ (x = [] \/ exists x' c, x = x' ++ [c] /\ breaks_line c)
                /\ (y = [] \/ exists c y', y = c :: y' /\ breaks_line c))).
Proof. exact whole_lines. Qed.
Print Assumptions C77_whole_lines.

(** All demands at once: a word in angle brackets at the end of a line, not behind
    a "!" and not in front of a digit. *)
Example C77_example :
  let l1 := [LineStart; Last false (str "!") (tree "!"); Edge] in
  let l2 := [Edge; Next true (str "\s*>|;") (tree "\s*>|;"); NoEdge; Next false (str "\d") (tree "\d")] in
  let l3 := [TextStart; Last true (str "ab?") (tree "ab?"); Edge] in
  let p := str "(a|b)+?c" in
  parse p = P_ok (tree "(a|b)+?c")
  /\ usable (mk_regex (tree "(a|b)+?c") [F_multiline]) BidirectionalIt
  /\ self_contained (tree "(a|b)+?c") = true
  /\ Forall (sound_demand [F_multiline] BidirectionalIt) l1
  /\ Forall (sound_demand [F_multiline] BidirectionalIt) l2
  /\ Forall (sound_demand [F_multiline] BidirectionalIt) l3
  /\ surrounded_text l1 p l2 = str "^(?<!!)\b(?:(a|b)+?c)\b(?=\s*>|;)\B(?!\d)"
  /\ surrounded_text l3 p [LineEnd; TextEnd] = str "\A(?<=ab?)\b(?:(a|b)+?c)$\Z".
Proof.
  intros l1 l2 l3 p. split; [vm_compute; reflexivity|]. split; [show_usable|]. split; [vm_compute; reflexivity|].
  assert (A : forall d q m, d = Next true q m \/ d = Next false q m \/ d = Last true q m \/ d = Last false q m ->
            parse q = P_ok m -> usable (mk_regex m [F_multiline]) BidirectionalIt -> self_contained m = true ->
            sound_demand [F_multiline] BidirectionalIt d).
  { intros d q m [->|[->|[->| ->]]] H1 H2 H3; exact (conj H1 (conj H2 H3)). }
  split; [|split; [|split; [|split; vm_compute; reflexivity]]]; repeat apply Forall_cons; try apply Forall_nil; try exact I;
    (eapply A; [eauto|vm_compute; reflexivity|show_usable|vm_compute; reflexivity]).
Qed.

(** What a search for whole lines and for whole words finds. *)
Example C77_found :
  (exists a res, parse (surrounded_text [LineStart] (str "b+|c") [LineEnd]) = P_ok a
     /\ usable (mk_regex a [F_multiline]) BidirectionalIt
     /\ regex_search (mk_regex a [F_multiline]) BidirectionalIt (str "abb" ++ ["010"%char] ++ str "bb" ++ ["013"%char] ++ str "c") = Returned res
     /\ group0 (groups res) = Some (4, 6))
  /\ (exists a res, parse (surrounded_text [Edge] (str "b+|c") [Edge]) = P_ok a
     /\ usable (mk_regex a []) BidirectionalIt
     /\ regex_search (mk_regex a []) BidirectionalIt (str "abb b_ (c)") = Returned res
     /\ group0 (groups res) = Some (8, 9)).
Proof. split; do 2 eexists; (split; [vm_compute; reflexivity|]); (split; [show_usable|]); split; vm_compute; reflexivity. Qed.

(** Without the parentheses the demands belong to the first and last alternative, and
    with forward iterators [^] of a multiline pattern has undefined behaviour
    (finding F12), so the conditions matter. *)
Theorem C77_parentheses_needed : exists n s res,
  parse (str "^b|c$") = P_ok n /\ usable (mk_regex n []) RandomAccessIt
  /\ regex_search (mk_regex n []) RandomAccessIt s = Returned res /\ matched res = true
  /\ ~ exists x u y, s = x ++ u ++ y /\ found [] RandomAccessIt [LineStart] [LineEnd] (tree "b|c") x u y.
Proof.
  exists (tree "^b|c$"), (str "bx"). eexists. split; [vm_compute; reflexivity|]. split; [show_usable|].
  split; [vm_compute; reflexivity|]. split; [vm_compute; reflexivity|].
  intros (x & u & y & E & Hw & H1 & H2). inversion_clear H1. inversion_clear H2. cbn [holds] in *.
  destruct H as [->|[[] _]]. destruct H1 as [->|[[] _]]. rewrite app_nil_r in E. cbn [app] in E. subst u.
  destruct Hw as (res & E & Hm). vm_compute in E. injection E as <-. discriminate Hm.
Qed.
Print Assumptions C77_parentheses_needed.
