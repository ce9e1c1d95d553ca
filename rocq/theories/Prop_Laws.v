(** Property C70: the laws of regular expressions.  Each theorem is followed by its
    assumptions and by a concrete instance. *)
From Verif Require Import Matcher Api Spec Calls Examples Laws.
From Coq Require Import Permutation Lia.

(** C70.  [law] (Laws.v) is the equational theory: the laws of Kleene algebras and
    of counted repetitions, used anywhere in a tree, any number of times.
    [verdicts]: both calls return, with the same verdict; [starts]: and, if it is
    positive, with matches that start at the same offset. *)
Theorem C70_laws_keep_verdicts : forall n1 n2 fl ct s, law n1 n2 ->
  let r1 := mk_regex n1 fl in let r2 := mk_regex n2 fl in
  usable r1 ct -> regular n1 = true -> possessive_free n1 = true ->
  usable r2 ct -> regular n2 = true -> possessive_free n2 = true ->
  verdicts (regex_match r1 ct s) (regex_match r2 ct s)
  /\ verdicts (regex_match_prefix r1 ct s) (regex_match_prefix r2 ct s)
  /\ starts (regex_search r1 ct s) (regex_search r2 ct s).
Proof. exact laws_keep_verdicts. Qed.
Print Assumptions C70_laws_keep_verdicts.

(** A star of an alternation inside a lookahead, a lazy loop and a group. *)
Example C70_example :
  let r1 := rx "(?=(?:a|b)*c)(x|y{2}y{1,3}?)+" [F_icase] in
  let r2 := rx "(?=(?:a*b)*a*c)(y{3,5}|x)+?" [F_icase] in
  law (ast r1) (ast r2)
  /\ usable r1 RandomAccessIt /\ regular (ast r1) = true /\ possessive_free (ast r1) = true
  /\ usable r2 RandomAccessIt /\ regular (ast r2) = true /\ possessive_free (ast r2) = true.
Proof.
  split.
  - cbv beta. change (ast (rx "(?=(?:a|b)*c)(x|y{2}y{1,3}?)+" [F_icase]))
      with (Seq [Look Ahead (Seq [star (Alt [Lit "a"; Lit "b"]); Lit "c"]);
                 Rep Greedy 1 Inf (Cap 1 None (Alt [Lit "x"; Seq [Rep Greedy 2 (Fin 2) (Lit "y");
                                                                  Rep Lazy 1 (Fin 3) (Lit "y")]]))])%char.
    change (ast (rx "(?=(?:a*b)*a*c)(y{3,5}|x)+?" [F_icase]))
      with (Seq [Look Ahead (Seq [star (Seq [star (Lit "a"); Lit "b"]); star (Lit "a"); Lit "c"]);
                 Rep Lazy 1 Inf (Cap 1 None (Alt [Rep Greedy 3 (Fin 5) (Lit "y"); Lit "x"]))])%char.
    eapply law_trans.
    + apply (law_seq []), law_look. eapply law_trans; [apply (law_seq []), law_star_alt|].
      apply (law_seq_flat [] [_; _]).
    + apply (law_seq [_]). eapply law_trans; [apply (law_mode _ Lazy)|]. apply law_rep, law_cap.
      eapply law_trans; [apply law_alt_order, perm_swap|]. apply (law_alt []).
      eapply law_trans; [apply (law_seq [_] []), (law_mode _ Greedy)|].
      apply (law_times_add Greedy 2 (Fin 2) 1 (Fin 3)); cbn; lia.
  - split; [show_usable|]. split; [reflexivity|]. split; [reflexivity|].
    split; [show_usable|]. split; reflexivity.
Qed.

(** Only the verdict and the start are kept: the laws do not respect the order of
    alternatives, which decides where a match ends. *)
Theorem C70_ends_differ : exists r1 r2 s x y,
  law (ast r1) (ast r2)
  /\ usable r1 RandomAccessIt /\ regular (ast r1) = true /\ possessive_free (ast r1) = true
  /\ usable r2 RandomAccessIt /\ regular (ast r2) = true /\ possessive_free (ast r2) = true
  /\ regex_search r1 RandomAccessIt s = Returned x /\ group0 (groups x) = Some (0, 1)
  /\ regex_search r2 RandomAccessIt s = Returned y /\ group0 (groups y) = Some (0, 2).
Proof.
  exists (rx "a|ab" []), (rx "ab|a" []), (str "ab"). do 2 eexists.
  split; [apply law_alt_order, perm_swap|].
  split; [show_usable|]. split; [reflexivity|]. split; [reflexivity|].
  split; [show_usable|]. split; [reflexivity|]. split; [reflexivity|].
  repeat split; vm_compute; reflexivity.
Qed.
Print Assumptions C70_ends_differ.
