(** Property C67: a search finds the words that are matched as a whole.  Each
    theorem is followed by its assumptions and by a concrete instance. *)
From Verif Require Import Matcher Api Spec Calls Examples Contained.

(** C67.  [is_word r ct u]: [match] of the text [u] succeeds.  [self_contained]:
    no anchors, lookarounds, backreferences, possessive repetitions, atomic
    groups. *)
Theorem C67_search_finds_words : forall r ct s, usable r ct -> self_contained (ast r) = true ->
  exists res, regex_search r ct s = Returned res
  /\ (matched res = true <-> exists x u y, s = x ++ u ++ y /\ is_word r ct u)
  /\ (matched res = true -> exists x u y, s = x ++ u ++ y /\ is_word r ct u
        /\ group0 (groups res) = Some (length x, length x + length u)
        /\ forall x' u' y', s = x' ++ u' ++ y' -> is_word r ct u' -> length x <= length x').
Proof. exact search_finds_words. Qed.
Print Assumptions C67_search_finds_words.

Theorem C67_prefix_finds_words : forall r ct s, usable r ct -> self_contained (ast r) = true ->
  exists res, regex_match_prefix r ct s = Returned res
  /\ (matched res = true <-> exists u y, s = u ++ y /\ is_word r ct u)
  /\ (matched res = true -> exists u y, s = u ++ y /\ is_word r ct u
        /\ group0 (groups res) = Some (0, length u)).
Proof. exact prefix_finds_words. Qed.
Print Assumptions C67_prefix_finds_words.

Example C67_example :
  let r := rx "(a|b[^x-z]?)*?c{2,3}|\d+" [F_icase] in
  usable r ForwardIt /\ self_contained (ast r) = true
  /\ is_word r ForwardIt (str "aBqCC")
  /\ (exists res, regex_search r ForwardIt (str "zzaBqCCd") = Returned res
        /\ group0 (groups res) = Some (2, 7)).
Proof.
  split; [show_usable|]. split; [reflexivity|].
  split; eexists; split; vm_compute; reflexivity.
Qed.

(** Both conditions matter: anchors see the text around a word, and an atomic
    group that could go on behind the word does not come back. *)
Theorem C67_conditions_needed :
  (exists r x u y res, usable r RandomAccessIt /\ regular (ast r) = true
     /\ possessive_free (ast r) = true /\ is_word r RandomAccessIt u
     /\ regex_search r RandomAccessIt (x ++ u ++ y) = Returned res /\ matched res = false)
  /\ (exists r u y res, usable r RandomAccessIt /\ regular (ast r) = true
     /\ is_word r RandomAccessIt u
     /\ regex_search r RandomAccessIt (u ++ y) = Returned res /\ matched res = false).
Proof.
  split.
  - exists (rx "a\b" []), [], (str "a"), (str "b"). eexists. split; [show_usable|].
    split; [reflexivity|]. split; [reflexivity|]. split; [eexists; split; vm_compute; reflexivity|].
    split; vm_compute; reflexivity.
  - exists (rx "(?>acb|a)c" []), (str "ac"), (str "b"). eexists. split; [show_usable|].
    split; [reflexivity|]. split; [eexists; split; vm_compute; reflexivity|].
    split; vm_compute; reflexivity.
Qed.
Print Assumptions C67_conditions_needed.
