(** Property C83: loops that need not give anything back.  Each theorem is followed
    by its assumptions and by a concrete instance. *)
From Coq Require Import String.
From Verif Require Import Matcher Api Spec Calls Examples Equiv Linear Harden.
Local Open Scope nat_scope.
Local Open Scope list_scope.

(** C83.  A loop over single characters may be made possessive (greedy and lazy
    alike) where no character of the loop may come behind it: the calls give the
    same verdicts and the same matched ranges. *)
Theorem C83_possessive_for_free : forall n1 n2 fl ct s,
  hardened (config_of fl ct) anything n1 n2 ->
  usable (mk_regex n1 fl) ct -> usable (mk_regex n2 fl) ct ->
  regular n1 = true -> regular n2 = true ->
  same_answers (mk_regex n1 fl) (mk_regex n2 fl) ct s.
Proof. exact hardened_answers. Qed.
Print Assumptions C83_possessive_for_free.

(** For [match], nothing comes behind the expression, so the last loop may be made
    possessive, too. *)
Theorem C83_possessive_for_free_in_match : forall n1 n2 fl ct s,
  hardened (config_of fl ct) nothing n1 n2 ->
  usable (mk_regex n1 fl) ct -> usable (mk_regex n2 fl) ct ->
  regular n1 = true -> regular n2 = true ->
  same_answer (regex_match (mk_regex n1 fl) ct s) (regex_match (mk_regex n2 fl) ct s).
Proof. exact hardened_match. Qed.
Print Assumptions C83_possessive_for_free_in_match.

(** The step at the given position of a sequence. *)
Ltac harden_at n :=
  match goal with
  | |- hardened ?cf ?F (Seq ?l) (Seq ?m) =>
      let l1 := eval cbn in (firstn n l) in
      let r := eval cbn in (skipn n l) in
      let r' := eval cbn in (skipn n m) in
      match r with ?x :: ?l2 => match r' with ?y :: _ => apply (hd_seq cf F l1 x y l2) end end
  end.

Example C83_example :
  let r0 := rx "(\w+)\s*?=\s*""([^""]*)""" [] in
  let r1 := rx "(\w++)\s*?=\s*""([^""]*)""" [] in
  let r2 := rx "(\w++)\s*+=\s*""([^""]*)""" [] in
  let r3 := rx "(\w++)\s*+=\s*+""([^""]*)""" [] in
  let r4 := rx "(\w++)\s*+=\s*+""([^""]*+)""" [] in
  hardened (config_of [] RandomAccessIt) anything (ast r0) (ast r4)
  /\ usable r0 RandomAccessIt /\ usable r4 RandomAccessIt
  /\ regular (ast r0) = true /\ regular (ast r4) = true.
Proof.
  intros r0 r1 r2 r3 r4. split.
  - apply (hd_trans _ _ _ (ast r1)); [|apply (hd_trans _ _ _ (ast r2)); [|apply (hd_trans _ _ _ (ast r3))]];
      vm_compute.
    + harden_at 0. apply hd_cap, hd_loop; vm_compute; reflexivity.
    + harden_at 1. apply hd_loop; vm_compute; reflexivity.
    + harden_at 3. apply hd_loop; vm_compute; reflexivity.
    + harden_at 5. apply hd_cap, hd_loop; vm_compute; reflexivity.
  - split; [show_usable|]. split; [show_usable|]. split; vm_compute; reflexivity.
Qed.

(** The last loop, inside another one. *)
Example C83_match_example :
  let r1 := rx "(?:,\d+)*" [] in
  let r2 := rx "(?:,\d++)*" [] in
  hardened (config_of [] ForwardIt) nothing (ast r1) (ast r2)
  /\ usable r1 ForwardIt /\ usable r2 ForwardIt
  /\ regular (ast r1) = true /\ regular (ast r2) = true.
Proof.
  intros r1 r2. split.
  - vm_compute. apply hd_rep; [discriminate|]. harden_at 1. apply hd_loop; vm_compute; reflexivity.
  - split; [show_usable|]. split; [show_usable|]. split; vm_compute; reflexivity.
Qed.

(** The condition is needed: an a may come behind the loop of "a*a". *)
Theorem C83_condition_needed : exists lo hi x y s a b,
  let r1 := mk_regex (Seq [Rep Greedy lo hi x; y]) [] in
  let r2 := mk_regex (Seq [Rep Possessive lo hi x; y]) [] in
  is_set x = true /\ usable r1 RandomAccessIt /\ usable r2 RandomAccessIt
  /\ regex_match r1 RandomAccessIt s = Returned a /\ matched a = true
  /\ regex_match r2 RandomAccessIt s = Returned b /\ matched b = false.
Proof.
  exists 0%N, Inf, (Lit "a"), (Lit "a"), (str "aa"). do 2 eexists. intros r1 r2.
  split; [reflexivity|]. split; [show_usable|]. split; [show_usable|].
  split; [vm_compute; reflexivity|]. split; [reflexivity|]. split; [vm_compute; reflexivity|]. reflexivity.
Qed.
Print Assumptions C83_condition_needed.

(** What counts as a single set. *)
Example C83_sets_example :
  is_set (tree "[^""\\]") = true /\ is_set (tree "\w") = true /\ is_set (tree ".") = true
  /\ is_set (tree "a|a") = false.
Proof. vm_compute. auto. Qed.
