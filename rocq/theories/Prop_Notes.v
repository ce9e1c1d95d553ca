(** The notes of README.md on the syntax: C51, C52. *)
From Verif Require Import Examples Scan Compile Escapes Notes Explore DeadBodies.
From Verif Require Lift.

(** C51.  [here p]: where a character after [p] stands (in a set, in the text
    outside, after a backslash); [meaningless]: the character has no special
    meaning there, with or without a backslash. *)
Theorem C51_meaningless_escapes : forall p c q n,
  meaningless (here p) c = true ->
  (parse (p ++ "\"%char :: c :: q) = P_ok n -> parse (p ++ c :: q) = P_ok n)
  /\ ((exists t m, parse (p ++ "."%char :: t) = P_ok m) ->
      parse (p ++ c :: q) = P_ok n -> parse (p ++ "\"%char :: c :: q) = P_ok n).
Proof. exact unescape. Qed.
Print Assumptions C51_meaningless_escapes.

Example C51_escapes_example :
  (meaningless (here (str "(a|")) "c" = true /\ meaningless (here (str "a[^\")) "1" = false
   /\ meaningless (here (str "a[^")) "1" = true /\ meaningless (here (str "a[^]")) "1" = false
   /\ meaningless (here (str "a[^]")) "]" = true /\ meaningless (here (str "x")) "/" = true)
  /\ parse (str "(a|\c*)d") = P_ok (tree "(a|c*)d")
  /\ parse (str "[\12]") = P_ok (tree "[12]")
  /\ tree "[12]" = CSet [Lit "2"; Lit "1"]
  /\ (exists t m, parse (str "a[^" ++ "."%char :: t) = P_ok m).
Proof.
  split; [vm_compute; tauto|]. split; [vm_compute; reflexivity|]. split; [vm_compute; reflexivity|].
  split; [vm_compute; reflexivity|]. exists (str "]"). eexists. vm_compute. reflexivity.
Qed.

(** The empty set and its complement, under all flags. *)
Theorem C51_empty_sets : forall fl ct s,
  exists none any, parse (str "[]") = P_ok none /\ parse (str "[^]") = P_ok any
  /\ returns (regex_search (mk_regex none fl) ct s) (fun r => matched r = false)
  /\ returns (regex_match (mk_regex any fl) ct s) (fun r => matched r = true <-> length s = 1).
Proof. exact empty_sets. Qed.
Print Assumptions C51_empty_sets.

(** Inside any tree: the empty set never calls what follows, its complement
    takes exactly one character. *)
Theorem C51_empty_sets_in_context : forall cf names s cur c k,
  cur <= length s ->
  (exists e, node_match cf names s 0 (CSet []) cur c k = Res c e false)
  /\ node_match cf names s 0 (Neg (CSet [])) cur c k
     = if Nat.eqb cur (length s) then Res c cur false else k (S cur) c.
Proof.
  intros. split; [now apply empty_set_fails|now apply full_set_steps].
Qed.
Print Assumptions C51_empty_sets_in_context.

(** The remaining examples of the notes. *)
Example C51_notes :
  parse (str "(a)(?:\1)0") = P_ok (Seq [Cap 1 None (Lit "a"); Backref 1; Lit "0"])
  /\ parse (str "(a)\1[0]") = P_ok (Seq [Cap 1 None (Lit "a"); Backref 1; CSet [Lit "0"]])
  /\ parse (str "(a)\10") = P_ok (Seq [Cap 1 None (Lit "a"); Backref 10])
  /\ parse (str "a{") = P_ok (Seq [Lit "a"; Lit "{"])
  /\ parse (str "a{+") = P_ok (Seq [Lit "a"; Rep Greedy 1 Inf (Lit "{")])
  /\ parse (str "a{1+") = P_error 3.
Proof. repeat split; vm_compute; reflexivity. Qed.

(** C52.  A backreference to a group the pattern does not define, anywhere but
    in the body of a repetition without iterations ([part]), is a compile-time
    error of every call.  [scan InText p]: the groups of the text, in order.
    Full statement: without the exception (finding F22). *)
Theorem C52_undefined_number_partial : forall p n k rev id fl ct s mt K,
  parse p = P_ok n -> part 0 false n k rev (Backref id) -> length (scan InText p) < N.to_nat id ->
  invoke mt (mk_regex n fl) ct s = DoesNotCompile
  /\ range_of mt (mk_regex n fl) ct s = DoesNotCompile
  /\ generator_results mt (mk_regex n fl) ct s K = DoesNotCompile.
Proof. exact undefined_number. Qed.
Print Assumptions C52_undefined_number_partial.

Theorem C52_undefined_name_partial : forall p n k rev nm fl ct s mt K,
  parse p = P_ok n -> part 0 false n k rev (NBackref nm) -> ~ In (Some nm) (scan InText p) ->
  invoke mt (mk_regex n fl) ct s = DoesNotCompile
  /\ range_of mt (mk_regex n fl) ct s = DoesNotCompile
  /\ generator_results mt (mk_regex n fl) ct s K = DoesNotCompile.
Proof. exact undefined_name. Qed.
Print Assumptions C52_undefined_name_partial.

Example C52_example :
  (exists k rev, part 0 false (tree "(a)(?<=b(?!\2)c)") k rev (Backref 2))
  /\ scan InText (str "(a)(?<=b(?!\2)c)") = [None]
  /\ (exists k rev, part 0 false (tree "(?<x>a)|\k<y>{2}") k rev (NBackref (str "y")))
  /\ scan InText (str "(?<x>a)|\k<y>{2}") = [Some (str "x")].
Proof.
  split; [|split; [vm_compute; reflexivity|split; [|vm_compute; reflexivity]]].
  - vm_compute (tree _). do 2 eexists.
    apply part_seq with (y := Look Behind (Seq [Lit "b"; Neg (Look Ahead (Backref 2)); Lit "c"])%char); [cbn; auto|].
    apply part_back; [reflexivity|]. eapply part_seq; [right; left; reflexivity|].
    apply part_neg. apply part_back; [reflexivity|]. apply part_self.
  - vm_compute (tree _). do 2 eexists. eapply part_alt; [right; left; reflexivity|].
    apply part_rep; [discriminate|]. apply part_self.
Qed.

(** [(a)\2{0}] has no group 2 and compiles. *)
Theorem C52_undefined_group_refuted :
  exists p n id r, parse p = P_ok n /\ length (scan InText p) < N.to_nat id
  /\ p = str "(a)\2{0}" /\ id = 2%N
  /\ regex_match (mk_regex n []) RandomAccessIt (str "a") = Returned r /\ matched r = true.
Proof.
  exists (str "(a)\2{0}"). eexists. exists 2%N. eexists. split; [vm_compute; reflexivity|].
  split; [vm_compute; repeat constructor|]. split; [reflexivity|]. split; [reflexivity|].
  split; vm_compute; reflexivity.
Qed.
Print Assumptions C52_undefined_group_refuted.

(** C52, the exception in full: the body of a repetition without iterations, as in
    "(?:...){0}", has no influence.  [swapped x y] (DeadBodies.v): one such body, anywhere
    in the tree, is replaced by another one; [all_names]: the groups are the same.  The
    calls compile for both or for neither, and give the same results: the same verdicts
    and groups ([Lift.agree]: group 0 after a failure of [match] and [match_prefix] may
    differ). *)
Theorem C52_unused_body_exact : forall x y fl ct, swapped x y -> all_names x = all_names y ->
  ((forall mt s, invoke mt (mk_regex x fl) ct s = DoesNotCompile)
   <-> (forall mt s, invoke mt (mk_regex y fl) ct s = DoesNotCompile))
  /\ (usable (mk_regex x fl) ct -> usable (mk_regex y fl) ct -> forall s,
      Lift.agree (regex_match (mk_regex x fl) ct s) (regex_match (mk_regex y fl) ct s)
      /\ Lift.agree (regex_match_prefix (mk_regex x fl) ct s) (regex_match_prefix (mk_regex y fl) ct s)
      /\ regex_search (mk_regex x fl) ct s = regex_search (mk_regex y fl) ct s
      /\ tokenize (mk_regex x fl) ct s = tokenize (mk_regex y fl) ct s
      /\ find_all (mk_regex x fl) ct s = find_all (mk_regex y fl) ct s).
Proof. exact swapped_calls. Qed.
Print Assumptions C52_unused_body_exact.

(** An undefined reference and an undefined name inside a lookahead, and an inverted
    range, which would not compile elsewhere. *)
Example C52_unused_body_example :
  let r1 := rx "(a)(?=b(?:\7\k<x>[z-a]){0}c)" [] in
  let r2 := rx "(a)(?=b(?:d){0}c)" [] in
  swapped (ast r1) (ast r2) /\ all_names (ast r1) = all_names (ast r2)
  /\ usable r1 ForwardIt /\ usable r2 ForwardIt
  /\ regex_search r1 ForwardIt (str "xabc") = Returned (mk_res [Some (1, 2); Some (1, 2)] true)
  /\ regex_search (rx "(a)(?=b(?:\7\k<x>[z-a]){1}c)" []) ForwardIt (str "xabc") = DoesNotCompile.
Proof.
  intros r1 r2. split.
  - vm_compute.
    apply (sw_seq [_] _ _ []), sw_look, (sw_seq [_] _ _ [_]), sw_body.
  - split; [vm_compute; reflexivity|]. split; [show_usable|]. split; [show_usable|].
    split; vm_compute; reflexivity.
Qed.
