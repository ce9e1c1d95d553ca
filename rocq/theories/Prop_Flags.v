(** Property C64: a flag can be written out in the tree.  Each theorem is
    followed by its assumptions and by a concrete instance. *)
From Coq Require Import String.
From Verif Require Import Matcher Api Spec Lift Examples Flags.

(** C64, partial: [spelled] (Flags.v) is the tree in which every flag has been
    written out.  With [icase] a character stands for the set of both of its
    cases, with [dotall] the wildcard is the complement of the empty set and
    otherwise the complement of the line breaks, with [multiline] an anchor is a
    negated test of the neighbouring character and otherwise an anchor of the
    input, with [ungreedy] the modes are exchanged.  All calls answer the same
    for the tree with the flags and for the rewritten tree with no flag at all.
    Missing: backreferences under [icase], and under [multiline] line anchors
    inside lookbehinds and iterators that cannot go back.  The three refutations
    below show that none of these conditions can be dropped. *)
Theorem C64_flags_are_rewritings_partial : forall n fl ct s,
  (In F_icase fl -> backref_free n = true) ->
  (In F_multiline fl -> ct <> ForwardIt /\ lines_outside n = true) ->
  let r := mk_regex n fl in
  let r' := mk_regex (spelled (config_of fl ct) n) [] in
  regex_match r ct s = regex_match r' ct s
  /\ regex_match_prefix r ct s = regex_match_prefix r' ct s
  /\ regex_search r ct s = regex_search r' ct s
  /\ tokenize r ct s = tokenize r' ct s
  /\ find_all r ct s = find_all r' ct s
  /\ (forall k, tokenizer r ct s k = tokenizer r' ct s k)
  /\ (forall k, searcher r ct s k = searcher r' ct s k).
Proof. exact flags_spelled. Qed.
Print Assumptions C64_flags_are_rewritings_partial.

(** A pattern that uses every flag; the rewritten tree is the tree of another
    pattern where such a pattern exists. *)
Example C64_example :
  let fl := [F_icase; F_dotall; F_multiline; F_ungreedy; F_unroll] in
  let n := tree "^(a[b-d]+?).*(?!x$)" in
  backref_free n = true /\ lines_outside n = true
  /\ (exists res, regex_search (mk_regex n fl) RandomAccessIt (str ("-" ++ String "010" "ACd!")) = Returned res
        /\ matched res = true /\ groups res = [Some (2, 5); Some (2, 5)])
  /\ spelled (config_of [F_icase; F_ungreedy] RandomAccessIt) (tree "ab+|^c*?") = tree "[aA][bB]+?|\A[cC]*".
Proof.
  split; [reflexivity|]. split; [reflexivity|]. split; [|reflexivity].
  eexists. repeat split; vm_compute; reflexivity.
Qed.

(** The conditions matter: a backreference compares without case, which no tree
    without flags does; *)
Theorem C64_backreferences_refuted : exists n fl ct s,
  usable (mk_regex n fl) ct /\ In F_icase fl /\ ~ In F_multiline fl
  /\ regex_match (mk_regex n fl) ct s <> regex_match (mk_regex (spelled (config_of fl ct) n) []) ct s.
Proof.
  exists (tree "(a)\1"), [F_icase], RandomAccessIt, (str "aA").
  split; [show_usable|]. split; [now left|]. split; [intros [E|[]]; discriminate|].
  vm_compute. discriminate.
Qed.
Print Assumptions C64_backreferences_refuted.

(** inside a lookbehind the anchors are not exchanged when the text is read
    backwards (finding F5); *)
Theorem C64_lookbehind_refuted : exists n fl ct s,
  usable (mk_regex n fl) ct /\ ~ In F_icase fl /\ ct = RandomAccessIt
  /\ regex_search (mk_regex n fl) ct s <> regex_search (mk_regex (spelled (config_of fl ct) n) []) ct s.
Proof.
  exists (tree "(?<=^a)b"), [F_multiline], RandomAccessIt, (str "ab").
  split; [show_usable|]. split; [intros [E|[]]; discriminate|]. split; [reflexivity|].
  vm_compute. discriminate.
Qed.
Print Assumptions C64_lookbehind_refuted.

(** and on a forward iterator [^] steps back although it cannot (finding F12). *)
Theorem C64_forward_refuted : exists n fl s,
  lines_outside n = true /\ backref_free n = true
  /\ regex_search (mk_regex n fl) ForwardIt s
     <> regex_search (mk_regex (spelled (config_of fl ForwardIt) n) []) ForwardIt s.
Proof.
  exists (tree "^b"), [F_multiline], (str "ab").
  split; [reflexivity|]. split; [reflexivity|]. vm_compute. discriminate.
Qed.
Print Assumptions C64_forward_refuted.
