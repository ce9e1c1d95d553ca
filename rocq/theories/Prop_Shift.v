(** Property C66: what is matched does not depend on the text before it.  Each
    theorem is followed by its assumptions and by a concrete instance. *)
From Verif Require Import Matcher Api Spec Calls Lift Examples Shift.

(** C66.  [looks_ahead]: no [^], [\A], [\b], [\B] and no lookbehind.  [later e]
    adds [e] to all positions.  The generators and the ranges repeat the call on
    what follows the last match, as if the text before it had been cut off. *)
Theorem C66_tokens : forall r ct s, usable r ct -> looks_ahead (ast r) = true ->
  let none := mk_res (initial_captures (ast r)) false in
  exists a, regex_match_prefix r ct s = Returned a
  /\ (matched a = false ->
        tokenize r ct s = Returned []
        /\ forall k, tokenizer r ct s (S k) = Returned (a :: repeat none k))
  /\ (matched a = true -> exists b e, group0 (groups a) = Some (b, e) /\ b <= e <= length s
        /\ (b = e -> tokenize r ct s = Returned [a]
              /\ forall k, tokenizer r ct s (S k) = Returned (a :: repeat none k))
        /\ (b < e ->
              (exists l, tokenize r ct (skipn e s) = Returned l
                 /\ tokenize r ct s = Returned (a :: map (later e) l))
              /\ forall k, exists l, tokenizer r ct (skipn e s) k = Returned l
                 /\ tokenizer r ct s (S k) = Returned (a :: map (later e) l))).
Proof. intros r ct s. apply rest_of_results. constructor. Qed.
Print Assumptions C66_tokens.

Theorem C66_occurrences : forall r ct s, usable r ct -> looks_ahead (ast r) = true ->
  let none := mk_res (initial_captures (ast r)) false in
  exists a, regex_search r ct s = Returned a
  /\ (matched a = false ->
        find_all r ct s = Returned []
        /\ forall k, searcher r ct s (S k) = Returned (a :: repeat none k))
  /\ (matched a = true -> exists b e, group0 (groups a) = Some (b, e) /\ b <= e <= length s
        /\ (b = e -> find_all r ct s = Returned [a]
              /\ forall k, searcher r ct s (S k) = Returned (a :: repeat none k))
        /\ (b < e ->
              (exists l, find_all r ct (skipn e s) = Returned l
                 /\ find_all r ct s = Returned (a :: map (later e) l))
              /\ forall k, exists l, searcher r ct (skipn e s) k = Returned l
                 /\ searcher r ct s (S k) = Returned (a :: map (later e) l))).
Proof. intros r ct s. apply rest_of_results. constructor. Qed.
Print Assumptions C66_occurrences.

(** Groups, a backreference, a lookahead and the end of the input. *)
Example C66_example :
  let r := rx "(a+)b\1(?=x|$)" [] in
  usable r RandomAccessIt /\ looks_ahead (ast r) = true
  /\ find_all r RandomAccessIt (str "abax aabaa")
     = Returned [mk_res [Some (0, 3); Some (0, 1)] true; mk_res [Some (5, 10); Some (5, 7)] true]
  /\ find_all r RandomAccessIt (str "x aabaa") = Returned [mk_res [Some (2, 7); Some (2, 4)] true].
Proof. split; [show_usable|]. repeat split; vm_compute; reflexivity. Qed.

(** The condition matters: [\b] looks at the character before. *)
Theorem C66_condition_needed : exists r ct s a l,
  usable r ct /\ regex_search r ct s = Returned a /\ group0 (groups a) = Some (0, 1)
  /\ find_all r ct s = Returned [a] /\ find_all r ct (skipn 1 s) = Returned l /\ l <> [].
Proof.
  exists (rx "\b\w" []), RandomAccessIt, (str "ab"). do 2 eexists.
  split; [show_usable|]. repeat split; try (vm_compute; reflexivity). discriminate.
Qed.
Print Assumptions C66_condition_needed.
