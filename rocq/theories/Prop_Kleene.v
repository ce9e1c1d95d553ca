(** Patterns express exactly what machines with finite memory decide: C96. *)
From Verif Require Import Examples Spec Calls Classical Memory Kleene Prop_Memory.

(** C96.  Every machine with finitely many states is a classical expression (characters,
    concatenation, alternatives and stars), whose pattern the parser accepts and [match]
    answers like the machine.  C93_finite_memory is the converse. *)
Theorem C96_machines_are_patterns : forall size start step good,
  (forall s, fold_left step s start < size) ->
  {e : re | exists n, parse (written e) = P_ok n
    /\ forall ct s, verdict (regex_match (mk_regex n []) ct s) = Some (good (fold_left step s start))}.
Proof. exact machine_pattern. Qed.
Print Assumptions C96_machines_are_patterns.

(** Lookarounds, anchors, atomic groups, possessive and lazy loops and flags can be written
    without them as far as the answers are concerned, for all three calls. *)
Theorem C96_classical_patterns_suffice : forall r ct,
  usable r ct -> backref_free (ast r) = true ->
  {e : re | exists n, parse (written e) = P_ok n
     /\ forall ct' s, verdict (regex_match (mk_regex n []) ct' s) = verdict (regex_match r ct s)}
  * {e : re | exists n, parse (written e) = P_ok n
     /\ forall ct' s, verdict (regex_match (mk_regex n []) ct' s) = verdict (regex_match_prefix r ct s)}
  * {e : re | exists n, parse (written e) = P_ok n
     /\ forall ct' s, verdict (regex_match (mk_regex n []) ct' s) = verdict (regex_search r ct s)}.
Proof.
  intros r ct Hu Hb.
  exact (memory_pattern _ (match_memory r ct Hu Hb), memory_pattern _ (match_prefix_memory r ct Hu Hb),
         memory_pattern _ (search_memory r ct Hu Hb)).
Qed.
Print Assumptions C96_classical_patterns_suffice.

(** The texts that a pattern does not match are those of a classical pattern, and so are
    those that two patterns match together, one of them only, or in any other combination. *)
Theorem C96_complement : forall r ct,
  usable r ct -> backref_free (ast r) = true ->
  {e : re | exists n, parse (written e) = P_ok n
     /\ forall ct' s, verdict (regex_match (mk_regex n []) ct' s) = option_map negb (verdict (regex_match r ct s))}.
Proof. intros r ct Hu Hb. exact (complement_pattern _ (match_memory r ct Hu Hb)). Qed.
Print Assumptions C96_complement.

Theorem C96_combinations : forall (f : bool -> bool -> bool) r1 ct1 r2 ct2,
  usable r1 ct1 -> usable r2 ct2 -> backref_free (ast r1) = true -> backref_free (ast r2) = true ->
  {e : re | exists n, parse (written e) = P_ok n
     /\ forall ct s, exists b1 b2, verdict (regex_match r1 ct1 s) = Some b1 /\ verdict (regex_match r2 ct2 s) = Some b2
          /\ verdict (regex_match (mk_regex n []) ct s) = Some (f b1 b2)}.
Proof.
  intros f r1 ct1 r2 ct2 U1 U2 B1 B2. exact (combined_pattern f _ _ (match_memory r1 ct1 U1 B1) (match_memory r2 ct2 U2 B2)).
Qed.
Print Assumptions C96_combinations.

(** It can be decided whether two patterns match a text together ([andb]), whether one matches
    a text the other does not ([fun b1 b2 => b1 && negb b2]), and so on; if so, one is found. *)
Theorem C96_relations_decidable : forall (f : bool -> bool -> bool) r1 ct1 r2 ct2,
  usable r1 ct1 -> usable r2 ct2 -> backref_free (ast r1) = true -> backref_free (ast r2) = true ->
  {s | exists b1 b2, verdict (regex_match r1 ct1 s) = Some b1 /\ verdict (regex_match r2 ct2 s) = Some b2 /\ f b1 b2 = true}
  + {forall s b1 b2, verdict (regex_match r1 ct1 s) = Some b1 -> verdict (regex_match r2 ct2 s) = Some b2 -> f b1 b2 = false}.
Proof.
  intros f r1 ct1 r2 ct2 U1 U2 B1 B2. exact (combined_decidable f _ _ (match_memory r1 ct1 U1 B1) (match_memory r2 ct2 U2 B2)).
Qed.
Print Assumptions C96_relations_decidable.

(** [\w+] and [\d+(?!\d)] match [1] together; the second matches nothing that the first does
    not match, but not the other way round. *)
Example C96_relations_example :
  let r1 := rx "\w+" [] in let r2 := rx "\d+(?!\d)" [] in
  (usable r1 ForwardIt /\ backref_free (ast r1) = true) /\ (usable r2 ForwardIt /\ backref_free (ast r2) = true)
  /\ verdict (regex_match r1 ForwardIt (str "1")) = Some true /\ verdict (regex_match r2 ForwardIt (str "1")) = Some true
  /\ verdict (regex_match r1 ForwardIt (str "a1")) = Some true /\ verdict (regex_match r2 ForwardIt (str "a1")) = Some false.
Proof.
  split; [split; [show_usable|vm_compute; reflexivity]|]. split; [split; [show_usable|vm_compute; reflexivity]|].
  repeat (split; [vm_compute; reflexivity|]). vm_compute; reflexivity.
Qed.

(** With a backreference there is none. *)
Theorem C96_backreference_needs_more :
  let r := rx "(a*)b\1" [] in
  usable r BidirectionalIt
  /\ forall e, ~ exists n, parse (written e) = P_ok n
       /\ forall ct s, verdict (regex_match (mk_regex n []) ct s) = verdict (regex_match r BidirectionalIt s).
Proof.
  split; [exact (proj1 C93_backreference_needs_more)|]. intros e (n & Hn & H).
  apply (proj2 C93_backreference_needs_more). apply (expression_memory e n); [exact Hn|]. intros s. symmetry. apply H.
Qed.
Print Assumptions C96_backreference_needs_more.

(** [(?!a)[ab]*+] as a classical pattern. *)
Example C96_example :
  let r := rx "(?!a)[ab]*+" [] in
  let e := Union Epsilon (Concat (Symbol "b") (Star (Union (Symbol "a") (Symbol "b")))) in
  usable r ForwardIt /\ backref_free (ast r) = true
  /\ written e = str "(?:)|(?:(?:b)(?:(?:(?:a)|(?:b))*))"
  /\ forallb (fun s => match verdict (regex_match r ForwardIt (str s)),
                             verdict (regex_match (mk_regex (as_tree e) []) ForwardIt (str s)) with
       | Some x, Some y => Bool.eqb x y
       | _, _ => false
       end) [""; "a"; "b"; "ab"; "ba"; "bb"; "bab"; "baa"; "bc"; "c"; "abb"; "bbab"]%string = true.
Proof. split; [show_usable|]. split; [vm_compute; reflexivity|]. split; vm_compute; reflexivity. Qed.

(** The machine that counts letters modulo two: its states stay below 2. *)
Example C96_machine_example :
  let step := fun q (_ : ascii) => 1 - q in
  (forall s, fold_left step s 0 < 2) /\ fold_left step (str "abc") 0 = 1
  /\ forall s, lang (leading step 0 0 1) s <-> List.length s = 1.
Proof.
  cbv zeta. split; [|split; [reflexivity|]].
  - intros s. assert (G : forall q, q < 2 -> fold_left (fun q (_ : ascii) => 1 - q) s q < 2); [|apply G; repeat constructor].
    induction s as [|c s IH]; intros q Hq; cbn [fold_left]; [exact Hq|]. apply IH.
    destruct q as [|[|q]]; cbn; repeat constructor.
  - intros s. split.
    + intros H. cbn [leading] in H. apply union_lang in H as [H|H]; [inversion H|].
      apply one_of_lang in H as (c & _ & ->). reflexivity.
    + destruct s as [|c [|d s]]; try discriminate. intros _. apply leading_complete. constructor.
Qed.
