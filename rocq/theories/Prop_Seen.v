(** Property of the arguments: C80. *)
From Verif Require Import Examples Adapter Basics Utilities Seen.

(** C80.  [holds a memory text]: the argument, with these characters in memory,
    is meant as this text.  Every call sees this text, except of a string literal
    with a NUL in it. *)
Theorem C80_same_characters_partial : forall t rvalue a memory text, holds a memory text ->
  (a = A_literal -> ~ In nul text) -> text_seen t rvalue a memory = Returned text.
Proof. exact seen_held. Qed.
Print Assumptions C80_same_characters_partial.

(** Without the condition: views and objects are seen whole; arrays and pointers
    up to the first NUL, and without one the call reads outside of them. *)
Theorem C80_characters_seen : forall t rvalue a memory,
  (in_memory a = false -> text_seen t rvalue a memory = Returned memory)
  /\ (in_memory a = true ->
       (forall text, text_seen t rvalue a memory = Returned text <->
          ~ In nul text /\ exists rest, memory = text ++ nul :: rest)
       /\ (text_seen t rvalue a memory = UndefinedBehaviour <-> ~ In nul memory)).
Proof. exact seen_exactly. Qed.
Print Assumptions C80_characters_seen.

Example C80_example :
  holds A_literal (str "ab" ++ [nul]) (str "ab") /\ ~ In nul (str "ab")
  /\ text_seen T_match false A_literal (str "ab" ++ [nul]) = Returned (str "ab")
  /\ holds A_pointer (str "ab" ++ nul :: str "cd") (str "ab")
  /\ text_seen T_find_all true A_pointer (str "ab" ++ nul :: str "cd") = Returned (str "ab")
  /\ text_seen T_search true (A_object false true) (str "a" ++ nul :: str "b") = Returned (str "a" ++ nul :: str "b")
  /\ text_seen T_search false (A_object true true) (str "ab") = Returned (str "ab")
  /\ text_seen T_search false A_literal (str "ab") = UndefinedBehaviour.
Proof.
  assert (N : ~ In nul (str "ab")) by (cbn; intros [H|[H|[]]]; discriminate).
  split; [reflexivity|]. split; [exact N|]. split; [reflexivity|].
  split; [split; [exact N|now exists (str "cd")]|]. repeat split.
Qed.

(** [regex<"a\\0b">] matches an object with the three characters a, NUL, b, but not
    the literal with them; [regex<"a">] matches the literal, but not the object. *)
Theorem C80_same_characters_refuted : exists text p1 p2 seen,
  holds A_literal (text ++ [nul]) text /\ holds (A_object false true) text text
  /\ text_seen T_match false (A_object false true) text = Returned text
  /\ text_seen T_match false A_literal (text ++ [nul]) = Returned seen
  /\ returns (regex_match (rx p1 []) RandomAccessIt text) (fun res => matched res = true)
  /\ returns (regex_match (rx p1 []) RandomAccessIt seen) (fun res => matched res = false)
  /\ returns (regex_match (rx p2 []) RandomAccessIt text) (fun res => matched res = false)
  /\ returns (regex_match (rx p2 []) RandomAccessIt seen) (fun res => matched res = true).
Proof.
  exists (str "a" ++ nul :: str "b"), "a\0b"%string, "a"%string, (str "a").
  do 4 (split; [reflexivity|]).
  split; [eexists; split; vm_compute; reflexivity|]. split; [eexists; split; vm_compute; reflexivity|].
  split; eexists; split; vm_compute; reflexivity.
Qed.
Print Assumptions C80_same_characters_refuted.
