(** Property C72: enlarging a part enlarges what is matched.  Each theorem is
    followed by its assumptions and by a concrete instance. *)
From Verif Require Import Matcher Api Spec Calls Examples Widening.
From Coq Require Import Lia.

(** C72.  [wider] (Widening.v): the second pattern is the first one with parts
    enlarged (more characters, more alternatives, looser counts, assertions left out,
    optional parts added, and the opposite under a negation).  Then a whole match, a
    prefix match and a search succeed with the second one whenever they do with the
    first one, and the search does not start later. *)
Theorem C72_wider_patterns : forall r1 r2 ct s,
  wider (config_of (flags r1) ct) (config_of (flags r2) ct) (ast r1) (ast r2) ->
  usable r1 ct -> regular (ast r1) = true -> possessive_free (ast r1) = true ->
  usable r2 ct -> regular (ast r2) = true -> possessive_free (ast r2) = true ->
  implies (regex_match r1 ct s) (regex_match r2 ct s)
  /\ implies (regex_match_prefix r1 ct s) (regex_match_prefix r2 ct s)
  /\ no_later (regex_search r1 ct s) (regex_search r2 ct s).
Proof. exact wider_verdicts. Qed.
Print Assumptions C72_wider_patterns.

(** A digit more excluded, an assertion more, a smaller class and a tighter count,
    against a larger class with case ignored, a looser count and an alternative. *)
Example C72_example :
  let r1 := rx "(?![0-9])(?=a)[ab]{2,3}" [] in
  let r2 := rx "(?![0-8])(?:[a-f]{1,5}?|q)" [F_icase] in
  wider (config_of (flags r1) RandomAccessIt) (config_of (flags r2) RandomAccessIt) (ast r1) (ast r2)
  /\ usable r1 RandomAccessIt /\ regular (ast r1) = true /\ possessive_free (ast r1) = true
  /\ usable r2 RandomAccessIt /\ regular (ast r2) = true /\ possessive_free (ast r2) = true.
Proof.
  split.
  - cbv zeta.
    change (ast (rx "(?![0-9])(?=a)[ab]{2,3}" []))
      with (Seq [Neg (Look Ahead (CSet [Range "0" "9"])); Look Ahead (Lit "a");
                 Rep Greedy 2 (Fin 3) (CSet [Lit "b"; Lit "a"])])%char.
    change (ast (rx "(?![0-8])(?:[a-f]{1,5}?|q)" [F_icase]))
      with (Seq [Neg (Look Ahead (CSet [Range "0" "8"]));
                 Alt [Rep Lazy 1 (Fin 5) (CSet [Range "a" "f"]); Lit "q"]])%char.
    apply wider_seq.
    + apply wider_not; [reflexivity|reflexivity|]. apply wider_look, wider_class; [reflexivity|reflexivity|].
      intros [[] [] [] [] [] [] [] []]; vm_compute; congruence.
    + apply wider_drop; [reflexivity|]. apply wider_seq; [|apply wider_seq_nil].
      eapply wider_choice; [now left|]. apply wider_rep; [split; cbn; lia|].
      apply wider_class; [reflexivity|reflexivity|].
      intros [[] [] [] [] [] [] [] []]; vm_compute; congruence.
  - split; [show_usable|]. split; [reflexivity|]. split; [reflexivity|].
    split; [show_usable|]. split; reflexivity.
Qed.

(** The flags only add matches: for a pattern without negation ([positive]) a call
    that succeeds with some flags succeeds with more flags. *)
Theorem C72_flags_only_add : forall n fl fl' ct s, incl fl fl' -> positive n = true ->
  let r1 := mk_regex n fl in let r2 := mk_regex n fl' in
  usable r1 ct -> usable r2 ct -> regular n = true -> possessive_free n = true ->
  implies (regex_match r1 ct s) (regex_match r2 ct s)
  /\ implies (regex_match_prefix r1 ct s) (regex_match_prefix r2 ct s)
  /\ no_later (regex_search r1 ct s) (regex_search r2 ct s).
Proof. exact flags_only_add. Qed.
Print Assumptions C72_flags_only_add.

(** A search that finds a match late, an earlier one with [multiline], and the
    earliest one with [icase] as well. *)
Example C72_flags_example :
  let n := tree "^(b.)+?$" in
  positive n = true /\ regular n = true /\ possessive_free n = true
  /\ usable (mk_regex n [F_dotall]) RandomAccessIt
  /\ usable (mk_regex n [F_multiline; F_dotall; F_icase]) RandomAccessIt
  /\ incl [F_dotall] [F_multiline; F_dotall; F_icase]
  /\ incl [F_multiline; F_dotall] [F_multiline; F_dotall; F_icase]
  /\ (let text := (str "Bx" ++ "010" :: str "bx")%char in
      exists x y z,
        regex_search (mk_regex n [F_dotall]) RandomAccessIt text = Returned x
        /\ regex_search (mk_regex n [F_multiline; F_dotall]) RandomAccessIt text = Returned y
        /\ regex_search (mk_regex n [F_multiline; F_dotall; F_icase]) RandomAccessIt text = Returned z
        /\ matched x = false /\ group0 (groups y) = Some (3, 5) /\ group0 (groups z) = Some (0, 2)).
Proof.
  split; [reflexivity|]. split; [reflexivity|]. split; [reflexivity|].
  split; [show_usable|]. split; [show_usable|].
  split; [intros x; cbn; intuition|]. split; [intros x; cbn; intuition|].
  do 3 eexists. repeat split; vm_compute; reflexivity.
Qed.

(** With a negation a flag can take matches away. *)
Theorem C72_negation_needed : exists n fl fl' s x y, incl fl fl'
  /\ usable (mk_regex n fl) RandomAccessIt /\ usable (mk_regex n fl') RandomAccessIt
  /\ regular n = true /\ possessive_free n = true
  /\ regex_match (mk_regex n fl) RandomAccessIt s = Returned x /\ matched x = true
  /\ regex_match (mk_regex n fl') RandomAccessIt s = Returned y /\ matched y = false.
Proof.
  exists (tree "[^a]b"), [], [F_icase], (str "Ab"). do 2 eexists.
  split; [easy|]. split; [show_usable|]. split; [show_usable|].
  repeat split; vm_compute; reflexivity.
Qed.
Print Assumptions C72_negation_needed.

(** With possessive repetitions a wider part can take matches away: the larger
    class consumes what has to follow. *)
Theorem C72_possessive_needed : exists r1 r2 s x y,
  wider (config_of (flags r1) RandomAccessIt) (config_of (flags r2) RandomAccessIt) (ast r1) (ast r2)
  /\ usable r1 RandomAccessIt /\ regular (ast r1) = true
  /\ usable r2 RandomAccessIt /\ regular (ast r2) = true
  /\ regex_match r1 RandomAccessIt s = Returned x /\ matched x = true
  /\ regex_match r2 RandomAccessIt s = Returned y /\ matched y = false.
Proof.
  exists (rx "[a]*+b" []), (rx "[ab]*+b" []), (str "aab"). do 2 eexists.
  split.
  - change (ast (rx "[a]*+b" [])) with (Seq [Rep Possessive 0 Inf (CSet [Lit "a"]); Lit "b"])%char.
    change (ast (rx "[ab]*+b" [])) with (Seq [Rep Possessive 0 Inf (CSet [Lit "b"; Lit "a"]); Lit "b"])%char.
    apply wider_seq; [|apply wider_seq; [|apply wider_seq_nil]].
    + apply wider_rep; [split; cbn; [lia|exact I]|]. apply wider_class; [reflexivity|reflexivity|].
      intros [[] [] [] [] [] [] [] []]; vm_compute; congruence.
    + apply wider_class; [reflexivity|reflexivity|auto].
  - split; [show_usable|]. split; [reflexivity|]. split; [show_usable|]. split; [reflexivity|].
    repeat split; vm_compute; reflexivity.
Qed.
Print Assumptions C72_possessive_needed.
