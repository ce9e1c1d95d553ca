(** Property C73: the words of patterns composed of other patterns.  Each theorem is
    followed by its assumptions and by a concrete instance. *)
From Verif Require Import Matcher Api Parser Spec Calls Syntax Expressions Laws Examples Compose Contained.
From Coq Require Import Lia.

(** C73.  [grouped p] is the text "(?:p)".  [self_contained]: without assertions,
    backreferences and possessive parts (Contained.v).  [is_word r ct w]: the call of
    [match] with [w] returns a match.  Two patterns one after the other match the
    texts that split into a text of the first and a text of the second one. *)
Theorem C73_concatenation : forall fl ct p q n m, parse p = P_ok n -> parse q = P_ok m ->
  usable (mk_regex n fl) ct -> self_contained n = true ->
  usable (mk_regex m fl) ct -> self_contained m = true ->
  exists a, parse (grouped p ++ grouped q) = P_ok a
    /\ (usable (mk_regex a fl) ct -> forall w,
         is_word (mk_regex a fl) ct w
         <-> exists u v, w = u ++ v /\ is_word (mk_regex n fl) ct u /\ is_word (mk_regex m fl) ct v)
    /\ (capture_count n = 0 -> capture_count m = 0 -> usable (mk_regex a fl) ct).
Proof. exact concatenated_patterns. Qed.
Print Assumptions C73_concatenation.

(** Alternatives match the texts of either. *)
Theorem C73_alternatives : forall fl ct p q n m, parse p = P_ok n -> parse q = P_ok m ->
  usable (mk_regex n fl) ct -> self_contained n = true ->
  usable (mk_regex m fl) ct -> self_contained m = true ->
  exists a, parse (grouped p ++ str "|" ++ grouped q) = P_ok a
    /\ (usable (mk_regex a fl) ct -> forall w,
         is_word (mk_regex a fl) ct w <-> is_word (mk_regex n fl) ct w \/ is_word (mk_regex m fl) ct w)
    /\ (capture_count n = 0 -> capture_count m = 0 -> usable (mk_regex a fl) ct).
Proof. exact alternative_patterns. Qed.
Print Assumptions C73_alternatives.

(** A quantifier, greedy or lazy, matches the texts that split into an allowed number
    of texts of the pattern.  [bounds q lo hi] (Syntax.v): the text of a quantifier
    and its bounds. *)
Theorem C73_repetition : forall fl ct p n q lo hi md, parse p = P_ok n ->
  usable (mk_regex n fl) ct -> self_contained n = true ->
  bounds q lo hi -> bound_ok lo hi -> (lo < 2 ^ 63)%N -> md <> Possessive ->
  exists a, parse (grouped p ++ q ++ mode_text md) = P_ok a /\ usable (mk_regex a fl) ct
    /\ forall w, is_word (mk_regex a fl) ct w
        <-> exists ws, allowed lo hi (length ws) /\ w = concat ws /\ Forall (is_word (mk_regex n fl) ct) ws.
Proof. exact repeated_pattern. Qed.
Print Assumptions C73_repetition.

(** A capturing group around a pattern matches the same texts. *)
Theorem C73_group : forall fl ct p n, parse p = P_ok n ->
  usable (mk_regex n fl) ct -> self_contained n = true ->
  exists a, parse (str "(" ++ p ++ str ")") = P_ok a
    /\ (usable (mk_regex a fl) ct -> forall w, is_word (mk_regex a fl) ct w <-> is_word (mk_regex n fl) ct w).
Proof. exact captured_pattern. Qed.
Print Assumptions C73_group.

(** The hypotheses for two patterns with alternatives, sets, lazy loops and groups. *)
Example C73_example :
  let p := str "a|[b-d]+?x{" in let q := str "(\d{2,3}(?<n>_))|\W*" in
  exists n m a b, parse p = P_ok n /\ parse q = P_ok m
    /\ usable (mk_regex n [F_icase]) ForwardIt /\ self_contained n = true
    /\ usable (mk_regex m [F_icase]) ForwardIt /\ self_contained m = true
    /\ parse (grouped p ++ grouped q) = P_ok a /\ usable (mk_regex a [F_icase]) ForwardIt
    /\ parse (grouped p ++ str "|" ++ grouped q) = P_ok b /\ usable (mk_regex b [F_icase]) ForwardIt
    /\ parse (str "(" ++ p ++ str ")") <> P_error 0
    /\ bounds (str "{2,7}") 2 (Fin 7) /\ bound_ok 2 (Fin 7).
Proof.
  do 4 eexists. split; [vm_compute; reflexivity|]. split; [vm_compute; reflexivity|].
  split; [show_usable|]. split; [reflexivity|]. split; [show_usable|]. split; [reflexivity|].
  split; [vm_compute; reflexivity|]. split; [show_usable|].
  split; [vm_compute; reflexivity|]. split; [show_usable|]. split; [vm_compute; discriminate|].
  split; [|cbn; lia]. apply (bounds_range (str "2") (str "7")); split; vm_compute; congruence.
Qed.

(** Backreferences keep their numbers: a second pattern that refers to its own first
    group refers to the first group of the first pattern after the composition. *)
Theorem C73_references_needed : exists p q n m a u v,
  parse p = P_ok n /\ parse q = P_ok m /\ parse (grouped p ++ grouped q) = P_ok a
  /\ usable (mk_regex n []) RandomAccessIt /\ usable (mk_regex m []) RandomAccessIt
  /\ usable (mk_regex a []) RandomAccessIt
  /\ is_word (mk_regex n []) RandomAccessIt u /\ is_word (mk_regex m []) RandomAccessIt v
  /\ ~ is_word (mk_regex a []) RandomAccessIt (u ++ v).
Proof.
  exists (str "(a)"), (str "(b)\1"). do 3 eexists. exists (str "a"), (str "bb").
  split; [vm_compute; reflexivity|]. split; [vm_compute; reflexivity|]. split; [vm_compute; reflexivity|].
  split; [show_usable|]. split; [show_usable|]. split; [show_usable|].
  split; [eexists; split; vm_compute; reflexivity|]. split; [eexists; split; vm_compute; reflexivity|].
  intros (x & E & H). vm_compute in E. injection E as <-. discriminate H.
Qed.
Print Assumptions C73_references_needed.

(** The parentheses are needed: behind a "{" that stands for itself the alternatives
    belong to the piece in front of it (finding F7), so that putting the texts together
    without parentheses matches more than either. *)
Theorem C73_parentheses_needed : exists p q n m a w,
  parse p = P_ok n /\ parse q = P_ok m /\ self_contained n = true /\ self_contained m = true
  /\ usable (mk_regex n []) RandomAccessIt /\ usable (mk_regex m []) RandomAccessIt
  /\ parse (p ++ str "|" ++ q) = P_ok a /\ usable (mk_regex a []) RandomAccessIt
  /\ is_word (mk_regex a []) RandomAccessIt w
  /\ ~ is_word (mk_regex n []) RandomAccessIt w /\ ~ is_word (mk_regex m []) RandomAccessIt w.
Proof.
  exists (str "xa{"), (str "c"). do 3 eexists. exists (str "xc").
  split; [vm_compute; reflexivity|]. split; [vm_compute; reflexivity|].
  split; [reflexivity|]. split; [reflexivity|]. split; [show_usable|]. split; [show_usable|].
  split; [vm_compute; reflexivity|]. split; [show_usable|].
  split; [eexists; split; vm_compute; reflexivity|].
  split; intros (x & E & H); vm_compute in E; injection E as <-; discriminate H.
Qed.
Print Assumptions C73_parentheses_needed.
