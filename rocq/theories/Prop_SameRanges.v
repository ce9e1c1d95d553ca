(** Whether two patterns find the same ranges in all texts can be decided: C95. *)
From Verif Require Import Examples Spec Calls Passes SameRanges.

(** C95.  [spans]: the ranges of the results of a call, in their order.  For any two patterns
    without backreferences, with any flags and for any ranges, it can be decided whether
    [find_all] (or [tokenize], or [search]) finds the same ranges in all texts. *)
Theorem C95_same_ranges_decidable : forall r1 ct1 r2 ct2,
  usable r1 ct1 -> usable r2 ct2 -> backref_free (ast r1) = true -> backref_free (ast r2) = true ->
  ({forall s, spans (find_all r1 ct1 s) = spans (find_all r2 ct2 s)}
    + {exists s, spans (find_all r1 ct1 s) <> spans (find_all r2 ct2 s)})
  * ({forall s, spans (tokenize r1 ct1 s) = spans (tokenize r2 ct2 s)}
    + {exists s, spans (tokenize r1 ct1 s) <> spans (tokenize r2 ct2 s)})
  * ({forall s, spans (found (regex_search r1 ct1 s)) = spans (found (regex_search r2 ct2 s))}
    + {exists s, spans (found (regex_search r1 ct1 s)) <> spans (found (regex_search r2 ct2 s))}).
Proof.
  intros r1 ct1 r2 ct2 U1 U2 B1 B2.
  exact (find_all_decidable r1 r2 ct1 ct2 U1 U2 B1 B2, tokenize_decidable r1 r2 ct1 ct2 U1 U2 B1 B2,
         search_decidable r1 r2 ct1 ct2 U1 U2 B1 B2).
Qed.
Print Assumptions C95_same_ranges_decidable.

(** It is enough to compare the ranges in all texts up to a length computed from the patterns. *)
Theorem C95_short_texts_settle : forall r1 ct1 r2 ct2,
  usable r1 ct1 -> usable r2 ct2 -> backref_free (ast r1) = true -> backref_free (ast r2) = true ->
  {m : nat | (forall s, List.length s <= m -> spans (find_all r1 ct1 s) = spans (find_all r2 ct2 s)) ->
    forall s, spans (find_all r1 ct1 s) = spans (find_all r2 ct2 s)}.
Proof. exact find_all_settled. Qed.
Print Assumptions C95_short_texts_settle.

(** The same answers but not the same ranges: [a+] and [a+?] match the same texts and are found
    in the same texts, but cover different ranges. *)
Example C95_example :
  let r1 := rx "a+" [] in let r2 := rx "a+?" [] in
  (usable r1 ForwardIt /\ backref_free (ast r1) = true)
  /\ (usable r2 BidirectionalIt /\ backref_free (ast r2) = true)
  /\ spans (find_all r1 ForwardIt (str "aab")) = Some [Some (0, 2)]
  /\ spans (find_all r2 BidirectionalIt (str "aab")) = Some [Some (0, 1); Some (1, 2)].
Proof.
  split; [split; [show_usable|vm_compute; reflexivity]|].
  split; [split; [show_usable|vm_compute; reflexivity]|].
  split; vm_compute; reflexivity.
Qed.
