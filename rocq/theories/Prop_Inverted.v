(** Property C74: the inversion of trees.  Each theorem is followed by its assumptions
    and by a concrete instance. *)
From Verif Require Import Matcher Api Traits Spec Walk Calls Laws Examples Inverted InvertedExact.
From Coq Require Import Lia.

(** C74.  Inverting twice gives the tree back, and inversion keeps the size, the
    number of groups and the traits. *)
Theorem C74_shape : forall n,
  invert (invert n) = n /\ size (invert n) = size n /\ capture_count (invert n) = capture_count n
  /\ trivial (invert n) = trivial n /\ zlm (invert n) = zlm n /\ is_assertion (invert n) = is_assertion n.
Proof. exact inverted_shape. Qed.
Print Assumptions C74_shape.

(** The inverted tree matches the reversed texts.  Full statement: for all trees
    without backreferences.  False of the code for line and input anchors and for
    lookarounds over more than a character, which are not inverted (findings F5, F6);
    [reversible] (Spec.v) excludes those. *)
Theorem C74_reversed_texts_partial : forall n fl ct,
  let r1 := mk_regex n fl in let r2 := mk_regex (invert n) fl in
  usable r1 ct -> usable r2 ct -> reversible n = true -> forall s,
  verdicts (regex_match r1 ct s) (regex_match r2 ct (rev s)).
Proof. exact inverted_match. Qed.
Print Assumptions C74_reversed_texts_partial.

(** Its leftmost match in the reversed text is a match of the tree with the last end
    ([last_ending], Inverted.v). *)
Theorem C74_reversed_search_partial : forall n fl ct,
  let r1 := mk_regex n fl in let r2 := mk_regex (invert n) fl in
  usable r1 ct -> usable r2 ct -> reversible n = true -> forall s,
  last_ending n fl ct (regex_search r2 ct (rev s)) s.
Proof. exact inverted_search. Qed.
Print Assumptions C74_reversed_search_partial.

(** A tree with alternatives, a lazy loop, groups, a word boundary and a lookahead,
    and what it finds in a text and in the reversed text. *)
Example C74_example :
  let n := tree "(ab|c)\b(?=x|y).{2,4}?(de)*" in
  let r1 := mk_regex n [F_icase] in let r2 := mk_regex (invert n) [F_icase] in
  usable r1 BidirectionalIt /\ usable r2 BidirectionalIt /\ reversible n = true /\ n <> invert n
  /\ exists x y,
       regex_search r1 BidirectionalIt (str "1C") = Returned x /\ matched x = false
       /\ regex_search r2 BidirectionalIt (rev (str "1C")) = Returned y /\ matched y = false.
Proof.
  split; [show_usable|]. split; [show_usable|]. split; [reflexivity|]. split; [discriminate|].
  do 2 eexists. repeat split; vm_compute; reflexivity.
Qed.

Example C74_found :
  let n := tree "(ab|c)-.{1,4}?(de)*" in
  let r1 := mk_regex n [F_icase] in let r2 := mk_regex (invert n) [F_icase] in
  usable r1 RandomAccessIt /\ usable r2 RandomAccessIt /\ reversible n = true
  /\ exists x y,
       regex_search r1 RandomAccessIt (str "--aB-xdedee") = Returned x
       /\ group0 (groups x) = Some (2, 10)
       /\ regex_search r2 RandomAccessIt (rev (str "--aB-xdedee")) = Returned y
       /\ group0 (groups y) = Some (11 - 10, 11 - 2).
Proof.
  split; [show_usable|]. split; [show_usable|]. split; [reflexivity|].
  do 2 eexists. repeat split; vm_compute; reflexivity.
Qed.

(** Anchors keep their direction, lookarounds their bodies. *)
Theorem C74_reversed_texts_refuted :
  (exists n s x y, usable (mk_regex n []) RandomAccessIt /\ usable (mk_regex (invert n) []) RandomAccessIt
     /\ n = tree "^ab"
     /\ regex_match (mk_regex n []) RandomAccessIt s = Returned x /\ matched x = true
     /\ regex_match (mk_regex (invert n) []) RandomAccessIt (rev s) = Returned y /\ matched y = false)
  /\ (exists n s x y, usable (mk_regex n []) RandomAccessIt /\ usable (mk_regex (invert n) []) RandomAccessIt
     /\ n = tree "(?=ab)a."
     /\ regex_match (mk_regex n []) RandomAccessIt s = Returned x /\ matched x = true
     /\ regex_match (mk_regex (invert n) []) RandomAccessIt (rev s) = Returned y /\ matched y = false).
Proof.
  split; [exists (tree "^ab"), (str "ab")|exists (tree "(?=ab)a."), (str "ab")]; do 2 eexists;
    (split; [show_usable|]); (split; [show_usable|]); repeat split; vm_compute; reflexivity.
Qed.
Print Assumptions C74_reversed_texts_refuted.

(** What the inverted tree does with the reversed text, for every tree without
    backreferences.  [walk cf s true true n] (Walk.v) reads the tree towards the
    beginning of the text, the parts of a concatenation from the last to the first;
    it says exactly what becomes of anchors and lookarounds. *)
Theorem C74_reversed_match_exact : forall n fl ct,
  usable (mk_regex (invert n) fl) ct -> backref_free n = true -> forall s,
  exists res, regex_match (mk_regex (invert n) fl) ct (rev s) = Returned res
    /\ (matched res = true <-> In 0 (walk (config_of fl ct) s true true n (length s))).
Proof. exact inverted_match_exact. Qed.
Print Assumptions C74_reversed_match_exact.

Theorem C74_reversed_prefix_exact : forall n fl ct,
  usable (mk_regex (invert n) fl) ct -> backref_free n = true -> forall s,
  exists res, regex_match_prefix (mk_regex (invert n) fl) ct (rev s) = Returned res
    /\ match hd_error (walk (config_of fl ct) s true true n (length s)) with
       | Some e => matched res = true /\ group0 (groups res) = Some (0, length s - e)
       | None => matched res = false
       end.
Proof. exact inverted_prefix_exact. Qed.
Print Assumptions C74_reversed_prefix_exact.

Theorem C74_reversed_search_exact : forall n fl ct,
  usable (mk_regex (invert n) fl) ct -> backref_free n = true -> forall s,
  exists res, regex_search (mk_regex (invert n) fl) ct (rev s) = Returned res
    /\ (matched res = true -> exists i j, i <= j <= length s
          /\ group0 (groups res) = Some (length s - j, length s - i)
          /\ hd_error (walk (config_of fl ct) s true true n j) = Some i
          /\ forall j', j < j' <= length s -> walk (config_of fl ct) s true true n j' = [])
    /\ (matched res = false -> forall j, j <= length s -> walk (config_of fl ct) s true true n j = []).
Proof. exact inverted_search_exact. Qed.
Print Assumptions C74_reversed_search_exact.

(** Anchors, a lookahead and a possessive loop. *)
Example C74_exact_example :
  let n := tree "(?=ba)a(b|c)*+$" in
  usable (mk_regex (invert n) []) BidirectionalIt /\ backref_free n = true /\ reversible n = false
  /\ walk (config_of [] BidirectionalIt) (str "abcc") true true n 4 = []
  /\ walk (config_of [] BidirectionalIt) (str "abcc") true true n 0 = []
  /\ walk (config_of [] BidirectionalIt) (str "abcc") true true (tree "(?=ba)a(b|c)*+") 4 = [0].
Proof. split; [show_usable|]. repeat split; vm_compute; reflexivity. Qed.
