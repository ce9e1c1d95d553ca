(** Property C85: searches are matches with gaps.  Each theorem is followed by its
    assumptions and by a concrete instance. *)
From Verif Require Import Matcher Api Parser Spec Walk Calls Syntax Expressions Examples Gaps GapTokens.
From Coq Require Import Lia.

(** C85.  [gap_text md] is "[^]*", "[^]*?" or "[^]*+"; [lazily cf] is the mode that takes
    as few characters as possible, lazy unless the flag ungreedy is given.  [gapped x y]
    (Gaps.v): the same verdict, or the same failure to compile or undefined behaviour;
    the same groups from 1 on; on success the same end, and the match behind the gap
    begins at 0.  For every accepted pattern, with backreferences and of any kind. *)
Theorem C85_search_behind_gap : forall p n fl ct, parse p = P_ok n ->
  exists a, parse (gap_text (lazily (config_of fl ct)) ++ str "(?:" ++ p ++ str ")") = P_ok a
    /\ forall s, gapped (regex_search (mk_regex n fl) ct s) (regex_match_prefix (mk_regex a fl) ct s).
Proof. exact search_behind_gap. Qed.
Print Assumptions C85_search_behind_gap.

(** A gap that takes as many characters as possible finds the last place instead.
    [actual cf s n i] (Walk.v): the end of the match at [i], if there is one. *)
Theorem C85_last_place : forall p n fl ct, parse p = P_ok n ->
  usable (mk_regex n fl) ct -> backref_free n = true ->
  let cf := config_of fl ct in
  exists a, parse (gap_text (if ungreedy cf then Lazy else Greedy) ++ str "(?:" ++ p ++ str ")") = P_ok a
    /\ forall s, exists res, regex_match_prefix (mk_regex a fl) ct s = Returned res
      /\ (matched res = true -> exists i e, i <= length s /\ group0 (groups res) = Some (0, e)
            /\ actual cf s n i = Some e /\ forall i', i < i' <= length s -> actual cf s n i' = None)
      /\ (matched res = false -> forall i, i <= length s -> actual cf s n i = None).
Proof. exact last_place_pattern. Qed.
Print Assumptions C85_last_place.

(** With gaps on both sides a match of the whole text tells whether a search succeeds,
    whatever the modes, unless the first gap is possessive. *)
Theorem C85_contains : forall p n fl ct m1 m2, parse p = P_ok n ->
  usable (mk_regex n fl) ct -> backref_free n = true -> m1 <> Possessive ->
  exists a, parse (gap_text m1 ++ (str "(?:" ++ p ++ str ")") ++ gap_text m2) = P_ok a
    /\ forall s, exists x y, regex_search (mk_regex n fl) ct s = Returned x
      /\ regex_match (mk_regex a fl) ct s = Returned y /\ matched x = matched y.
Proof. exact containing_pattern. Qed.
Print Assumptions C85_contains.

(** The occurrences and the tokens behind the gap that takes few characters: when no
    occurrence is empty there are as many tokens as occurrences, each begins where the
    one before it ends and ends where its occurrence ends; [ending_there 0]
    (GapTokens.v) spells these ranges out. *)
Theorem C85_tokens : forall p n fl ct, parse p = P_ok n ->
  usable (mk_regex n fl) ct -> backref_free n = true ->
  exists a, parse (gap_text (lazily (config_of fl ct)) ++ str "(?:" ++ p ++ str ")") = P_ok a
    /\ forall s, exists k l bs, find_all (mk_regex n fl) ct s = Returned k
      /\ tokenize (mk_regex a fl) ct s = Returned l
      /\ map (fun x => group0 (groups x)) k = map Some bs
      /\ (Forall (fun be => fst be < snd be) bs ->
          map (fun x => group0 (groups x)) l = map Some (ending_there 0 bs)).
Proof. exact gap_tokens_pattern. Qed.
Print Assumptions C85_tokens.

Example C85_tokens_example :
  let p := str "[a-c]+|(?<=x)\d" in let s := str "--ab+x7 c-" in
  exists n a k l, parse p = P_ok n /\ usable (mk_regex n []) BidirectionalIt /\ backref_free n = true
    /\ parse (gap_text Lazy ++ str "(?:" ++ p ++ str ")") = P_ok a
    /\ find_all (mk_regex n []) BidirectionalIt s = Returned k
    /\ map (fun x => group0 (groups x)) k = map Some [(2, 4); (6, 7); (8, 9)]
    /\ ending_there 0 [(2, 4); (6, 7); (8, 9)] = [(0, 4); (4, 7); (7, 9)]
    /\ tokenize (mk_regex a []) BidirectionalIt s = Returned l
    /\ map (fun x => group0 (groups x)) l = map Some [(0, 4); (4, 7); (7, 9)].
Proof.
  intros p s. do 4 eexists. split; [vm_compute; reflexivity|]. split; [show_usable|]. split; [reflexivity|].
  split; [vm_compute; reflexivity|]. split; [vm_compute; reflexivity|]. split; [vm_compute; reflexivity|].
  split; [reflexivity|]. split; [vm_compute; reflexivity|]. vm_compute. reflexivity.
Qed.

(** A pattern with groups, a backreference and a lookbehind. *)
Example C85_search_example :
  let p := str "(?<=-)(b+)a\1|(c)" in let s := str "ab-bbabbc" in
  exists n a x y, parse p = P_ok n /\ parse (gap_text Lazy ++ str "(?:" ++ p ++ str ")") = P_ok a
    /\ lazily (config_of [] BidirectionalIt) = Lazy
    /\ regex_search (mk_regex n []) BidirectionalIt s = Returned x
    /\ groups x = [Some (3, 8); Some (3, 5); None]
    /\ regex_match_prefix (mk_regex a []) BidirectionalIt s = Returned y
    /\ groups y = [Some (0, 8); Some (3, 5); None].
Proof.
  intros p s. do 4 eexists. split; [vm_compute; reflexivity|]. split; [vm_compute; reflexivity|].
  split; [reflexivity|]. split; [vm_compute; reflexivity|]. split; [vm_compute; reflexivity|].
  split; [vm_compute; reflexivity|]. vm_compute. reflexivity.
Qed.

(** The hypotheses of the others; the last place under ungreedy. *)
Example C85_example :
  let p := str "(?<=\d|^)[a-c]++\b" in
  exists n, parse p = P_ok n /\ usable (mk_regex n [F_ungreedy]) BidirectionalIt /\ backref_free n = true
    /\ ungreedy (config_of [F_ungreedy] BidirectionalIt) = true
    /\ exists a res, parse (gap_text Lazy ++ str "(?:" ++ p ++ str ")") = P_ok a
       /\ regex_match_prefix (mk_regex a [F_ungreedy]) BidirectionalIt (str "a 1ab 2abc+3d") = Returned res
       /\ group0 (groups res) = Some (0, 10)
       /\ actual (config_of [F_ungreedy] BidirectionalIt) (str "a 1ab 2abc+3d") n 7 = Some 10
       /\ actual (config_of [F_ungreedy] BidirectionalIt) (str "a 1ab 2abc+3d") n 3 = Some 5.
Proof.
  intros p. eexists. split; [vm_compute; reflexivity|]. split; [show_usable|]. split; [reflexivity|].
  split; [reflexivity|]. do 2 eexists. split; [vm_compute; reflexivity|]. split; [vm_compute; reflexivity|].
  split; [reflexivity|]. split; vm_compute; reflexivity.
Qed.

(** A possessive gap takes the whole text and leaves no place. *)
Theorem C85_condition_needed : exists p n a s x y,
  parse p = P_ok n /\ usable (mk_regex n []) RandomAccessIt /\ backref_free n = true
  /\ parse (gap_text Possessive ++ (str "(?:" ++ p ++ str ")") ++ gap_text Greedy) = P_ok a
  /\ regex_search (mk_regex n []) RandomAccessIt s = Returned x /\ matched x = true
  /\ regex_match (mk_regex a []) RandomAccessIt s = Returned y /\ matched y = false.
Proof.
  exists (str "a"). do 2 eexists. exists (str "a"). do 2 eexists.
  split; [vm_compute; reflexivity|]. split; [show_usable|]. split; [reflexivity|].
  split; [vm_compute; reflexivity|]. repeat split; vm_compute; reflexivity.
Qed.
Print Assumptions C85_condition_needed.
