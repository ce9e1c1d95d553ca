(** Patterns without backreferences are matched with finite memory: C93. *)
From Verif Require Import Examples Spec Calls Memory.
From Verif Require Tracks Tracking.

(** C93.  [finite_memory]: a machine with finitely many states that reads the text once from
    left to right decides whether the call matches.  All trees without backreferences,
    with lookarounds nested in any way, possessive loops, atomic groups and anchors. *)
Theorem C93_finite_memory : forall r ct,
  usable r ct -> backref_free (ast r) = true ->
  finite_memory (regex_match r ct)
  /\ finite_memory (regex_match_prefix r ct)
  /\ finite_memory (regex_search r ct).
Proof.
  intros r ct Hu Hb.
  exact (conj (memory_finite _ (match_memory r ct Hu Hb))
    (conj (memory_finite _ (match_prefix_memory r ct Hu Hb)) (memory_finite _ (search_memory r ct Hu Hb)))).
Qed.
Print Assumptions C93_finite_memory.

(** The words with a lookbehind in a lookahead in a possessive loop in a lookbehind. *)
Example C93_example :
  let r := rx "(?<!(?:a|(?=b(?<=ab|c)))*+x)\b(\w*?)$" [F_multiline] in
  usable r BidirectionalIt /\ backref_free (ast r) = true
  /\ regex_search r BidirectionalIt (str "xab c") = Returned (mk_res [Some (4, 5); Some (4, 5)] true).
Proof. split; [show_usable|]. split; vm_compute; reflexivity. Qed.

(** A machine with four states for the pattern [(?=a)(?:ab)*]: it answers like match. *)
Example C93_machine_example :
  let r := rx "(?=a)(?:ab)*" [] in
  let step q c := match q with
    | 0 | 2 => if Ascii.eqb c "a" then 1 else 3
    | 1 => if Ascii.eqb c "b" then 2 else 3
    | _ => 3
    end in
  forallb (fun s => match regex_match r BidirectionalIt (str s) with
     | Returned res => Bool.eqb (matched res) (Nat.eqb 2 (fold_left step (str s) 0))
     | _ => false
     end) [""; "a"; "ab"; "b"; "aba"; "abab"; "abb"; "ababab"; "abaab"]%string = true.
Proof. vm_compute. reflexivity. Qed.

(** Without the condition it is false: no such machine decides whether letters
    [a] followed by [b] are followed by as many letters [a]. *)
Theorem C93_backreference_needs_more :
  let r := rx "(a*)b\1" [] in
  usable r BidirectionalIt /\ ~ finite_memory (regex_match r BidirectionalIt).
Proof.
  cbv zeta. assert (Hu : usable (rx "(a*)b\1" []) BidirectionalIt) by show_usable.
  split; [exact Hu|]. apply (compares_no_memory _ "a"%char "b"%char). intros n m.
  assert (Hf : Tracking.followed (rx "(a*)b\1" [])) by (split; vm_compute; reflexivity).
  assert (Hs : Tracks.scoped (ast (rx "(a*)b\1" [])) = true) by (vm_compute; reflexivity).
  destruct (Tracking.match_backrefs _ _ (repeat "a"%char n ++ "b"%char :: repeat "a"%char m) Hu Hf Hs)
    as (res & E & M).
  exists res. split; [exact E|]. rewrite M.
  assert (Ea : ast (rx "(a*)b\1" []) = copies) by (vm_compute; reflexivity).
  assert (Ef : flags (rx "(a*)b\1" []) = []) by (vm_compute; reflexivity).
  rewrite Ea, Ef. apply copies_ends; [|reflexivity].
  intros a c. cbn. unfold either_case. cbn. rewrite ?orb_false_r. apply Ascii.eqb_eq.
Qed.
Print Assumptions C93_backreference_needs_more.

(** A long text has a part among its first [m] characters that can be left out or repeated
    without changing the answer of match (and in the same way of the other calls). *)
Theorem C93_repeatable_part : forall r ct,
  usable r ct -> backref_free (ast r) = true ->
  exists m, forall s res, m <= List.length s -> regex_match r ct s = Returned res ->
    exists x y z, s = x ++ y ++ z /\ y <> [] /\ List.length (x ++ y) <= m
      /\ forall k, exists res',
           regex_match r ct (x ++ List.concat (repeat y k) ++ z) = Returned res' /\ matched res' = matched res.
Proof. intros r ct Hu Hb. exact (pumping _ (memory_finite _ (match_memory r ct Hu Hb))). Qed.
Print Assumptions C93_repeatable_part.

(** Two patterns that give the same answers for all texts up to some length, which can be
    computed from the patterns, give the same answers for all texts. *)
Theorem C93_short_texts_suffice : forall r1 ct1 r2 ct2,
  usable r1 ct1 -> usable r2 ct2 -> backref_free (ast r1) = true -> backref_free (ast r2) = true ->
  {m : nat | (forall s, List.length s <= m -> verdict (regex_match r1 ct1 s) = verdict (regex_match r2 ct2 s)) ->
    forall s, verdict (regex_match r1 ct1 s) = verdict (regex_match r2 ct2 s)}.
Proof.
  intros r1 ct1 r2 ct2 U1 U2 B1 B2.
  exact (short_texts_suffice _ _ (match_memory r1 ct1 U1 B1) (match_memory r2 ct2 U2 B2)).
Qed.
Print Assumptions C93_short_texts_suffice.

Theorem C93_short_texts_suffice_search : forall r1 ct1 r2 ct2,
  usable r1 ct1 -> usable r2 ct2 -> backref_free (ast r1) = true -> backref_free (ast r2) = true ->
  {m : nat | (forall s, List.length s <= m -> verdict (regex_search r1 ct1 s) = verdict (regex_search r2 ct2 s)) ->
    forall s, verdict (regex_search r1 ct1 s) = verdict (regex_search r2 ct2 s)}.
Proof.
  intros r1 ct1 r2 ct2 U1 U2 B1 B2.
  exact (short_texts_suffice _ _ (search_memory r1 ct1 U1 B1) (search_memory r2 ct2 U2 B2)).
Qed.
Print Assumptions C93_short_texts_suffice_search.

(** It can be decided whether two patterns give the same answers for all texts. *)
Theorem C93_agreement_decidable : forall r1 ct1 r2 ct2,
  usable r1 ct1 -> usable r2 ct2 -> backref_free (ast r1) = true -> backref_free (ast r2) = true ->
  ({forall s, verdict (regex_match r1 ct1 s) = verdict (regex_match r2 ct2 s)}
    + {exists s, verdict (regex_match r1 ct1 s) <> verdict (regex_match r2 ct2 s)})
  * ({forall s, verdict (regex_search r1 ct1 s) = verdict (regex_search r2 ct2 s)}
    + {exists s, verdict (regex_search r1 ct1 s) <> verdict (regex_search r2 ct2 s)}).
Proof.
  intros r1 ct1 r2 ct2 U1 U2 B1 B2.
  exact (agreement_decidable _ _ (match_memory r1 ct1 U1 B1) (match_memory r2 ct2 U2 B2),
         agreement_decidable _ _ (search_memory r1 ct1 U1 B1) (search_memory r2 ct2 U2 B2)).
Qed.
Print Assumptions C93_agreement_decidable.

(** It can be decided whether a pattern matches any text at all; if so, one is found. *)
Theorem C93_matching_decidable : forall r ct,
  usable r ct -> backref_free (ast r) = true ->
  ({s | verdict (regex_match r ct s) = Some true} + {forall s, verdict (regex_match r ct s) = Some false})
  * ({s | verdict (regex_search r ct s) = Some true} + {forall s, verdict (regex_search r ct s) = Some false}).
Proof.
  intros r ct Hu Hb.
  exact (matching_decidable _ (match_memory r ct Hu Hb), matching_decidable _ (search_memory r ct Hu Hb)).
Qed.
Print Assumptions C93_matching_decidable.

(** Both outcomes occur: [a(?=b)] matches no whole text, but is found in [ab]; the
    difference between [a+b] and [a*b] shows in [b]. *)
Example C93_decidable_example :
  let r := rx "a(?=b)" [] in let r1 := rx "a+b" [] in let r2 := rx "a*b" [] in
  (usable r ForwardIt /\ backref_free (ast r) = true)
  /\ (usable r1 ForwardIt /\ backref_free (ast r1) = true)
  /\ (usable r2 ForwardIt /\ backref_free (ast r2) = true)
  /\ verdict (regex_match r ForwardIt (str "a")) = Some false
  /\ verdict (regex_search r ForwardIt (str "ab")) = Some true
  /\ verdict (regex_match r1 ForwardIt (str "b")) <> verdict (regex_match r2 ForwardIt (str "b")).
Proof.
  split; [split; [show_usable|vm_compute; reflexivity]|].
  split; [split; [show_usable|vm_compute; reflexivity]|].
  split; [split; [show_usable|vm_compute; reflexivity]|].
  split; [vm_compute; reflexivity|]. split; [vm_compute; reflexivity|]. vm_compute. discriminate.
Qed.

(** The part [ab] in the middle. *)
Example C93_parts_example :
  let r := rx "(?=a)(?:ab)*" [] in
  usable r BidirectionalIt /\ backref_free (ast r) = true
  /\ forall k, In k [0; 1; 2; 3] ->
       regex_match r BidirectionalIt (str "ab" ++ List.concat (repeat (str "ab") k) ++ str "ab")
       = Returned (mk_res [Some (0, 4 + 2 * k)] true).
Proof.
  split; [show_usable|]. split; [vm_compute; reflexivity|].
  intros k [<-|[<-|[<-|[<-|[]]]]]; vm_compute; reflexivity.
Qed.
