(** Property C65: whole and prefix matches are searches for an anchored pattern.
    Each theorem is followed by its assumptions and by a concrete instance. *)
From Verif Require Import Matcher Api Parser Spec Calls Lift Syntax Examples Anchored.

(** C65 for patterns.  [agree] requires the same verdict (or the same failure to
    compile or undefined behaviour), the same groups from 1 on, and on success
    the same group 0. *)
Theorem C65_anchored_patterns : forall p n fl ct s, parse p = P_ok n ->
  let r x := mk_regex x fl in
  exists n1 n2 n3,
    parse (str "\A(?:" ++ p ++ str ")\Z") = P_ok n1
    /\ parse (str "\A(?:" ++ p ++ str ")") = P_ok n2
    /\ parse (str "(?:" ++ p ++ str ")\Z") = P_ok n3
    /\ agree (regex_match (r n) ct s) (regex_search (r n1) ct s)
    /\ agree (regex_match_prefix (r n) ct s) (regex_search (r n2) ct s)
    /\ agree (regex_match (r n) ct s) (regex_match_prefix (r n3) ct s).
Proof. exact anchored_patterns. Qed.
Print Assumptions C65_anchored_patterns.

(** C65 for trees. *)
Theorem C65_anchored_trees : forall n fl ct s,
  let r x := mk_regex x fl in
  agree (regex_match (r n) ct s) (regex_search (r (Seq [BeginInput; n; EndInput])) ct s)
  /\ agree (regex_match_prefix (r n) ct s) (regex_search (r (Seq [BeginInput; n])) ct s)
  /\ regex_match (r n) ct s = regex_match_prefix (r (Seq [n; EndInput])) ct s.
Proof.
  intros n fl ct s. split; [apply match_is_anchored_search|].
  split; [apply prefix_is_anchored_search|apply match_is_anchored_prefix].
Qed.
Print Assumptions C65_anchored_trees.

(** A pattern with alternatives, so that the brackets matter, groups, a
    backreference and a lookbehind; a match and a failure. *)
Example C65_example :
  (exists n, parse (str "(a+)b\1|(?<=x)c|(a)") = P_ok n
     /\ usable (mk_regex n []) RandomAccessIt
     /\ (exists res, regex_match (mk_regex n []) RandomAccessIt (str "aabaa") = Returned res /\ matched res = true)
     /\ (exists res, regex_match (mk_regex n []) RandomAccessIt (str "aabaax") = Returned res /\ matched res = false)
     /\ (exists res, regex_match_prefix (mk_regex n []) RandomAccessIt (str "aabaax") = Returned res
           /\ group0 (groups res) = Some (0, 5))).
Proof.
  eexists. split; [vm_compute; reflexivity|]. split; [show_usable|].
  repeat split; eexists; split; vm_compute; reflexivity.
Qed.
