(** Property C69: memory that runs out is reported by an exception.  Each theorem
    is followed by its assumptions and by a concrete instance. *)
From Coq Require Import String.
From Verif Require Import Exceptions Raised Examples.
Local Open Scope list_scope.

(** C69.  [fails t]: there is no memory for a copy of [t].  As long as there is
    memory for the texts that are copied, no exception occurs and the results are
    those of C40. *)
Theorem C69_enough_memory : forall fails s r ly v q o,
  Forall (fun v => fails (cell_content s v) = false) (v :: groups r) ->
  Forall (fun t => fails t = false) (owned_groups o) ->
  as_memory_owner_call fails s r = Done (as_memory_owner s r)
  /\ content_call fails ly s v = Done (cell_content s v)
  /\ view_as_optional q r = Done (as_optional r)
  /\ owned_as_optional fails q o = Done (if owned_matched o then Some o else None).
Proof.
  intros fails s r ly v q o H1 H2. inversion_clear H1 as [|? ? Hv Hg].
  assert (E1 : existsb (fun v => fails (cell_content s v)) (groups r) = false).
  { induction Hg as [|x l Hx _ IH]; cbn; [reflexivity|]. now rewrite Hx. }
  assert (E2 : existsb fails (owned_groups o) = false).
  { induction H2 as [|x l Hx _ IH]; cbn; [reflexivity|]. now rewrite Hx. }
  rewrite memory_owner_exact, owned_optional_exact, E1, E2.
  repeat split; try (now destruct q); [|now destruct (owned_matched o), q].
  unfold content_call, copy_text. destruct ly; cbn; now rewrite ?Hv.
Qed.
Print Assumptions C69_enough_memory.

(** C69 for [content], for [as_optional] of views, and for [as_optional] of owners
    but constant expiring ones: the program is never terminated, and what is
    declared [noexcept] does not throw.  Missing are [as_memory_owner], on which
    the calls for temporaries rely, and constant expiring owners. *)
Theorem C69_reported_partial : forall fails s ly v q r o,
  content_call fails ly s v <> Terminates
  /\ (ly = Contiguous -> content_call fails ly s v <> Throws)
  /\ view_as_optional q r = Done (as_optional r)
  /\ (q <> ConstExpiring -> owned_as_optional fails q o <> Terminates)
  /\ (q = Expiring -> owned_as_optional fails q o <> Throws).
Proof.
  intros fails s ly v q r o. rewrite owned_optional_exact. unfold content_call, copy_text.
  repeat split.
  - destruct ly; cbn; try discriminate; now destruct (fails _).
  - intros ->. discriminate.
  - now destruct q.
  - intros Hq. destruct (owned_matched o), q; try congruence; try discriminate; now destruct (existsb _ _).
  - intros ->. now destruct (owned_matched o).
Qed.
Print Assumptions C69_reported_partial.

Example C69_example :
  let fails t := Nat.ltb 3 (List.length t) in
  content_call fails Linked (str "abcdef") (Some (0, 5)) = Throws
  /\ content_call fails Contiguous (str "abcdef") (Some (0, 5)) = Done (str "abcde")
  /\ owned_as_optional fails ConstLvalue (mk_owned [str "abcd"; str "a"] true) = Throws
  /\ owned_as_optional fails Expiring (mk_owned [str "abcd"; str "a"] true)
     = Done (Some (mk_owned [str "abcd"; str "a"] true))
  /\ as_memory_owner_call fails (str "abcdef") (mk_res [Some (1, 4); None] true)
     = Done (mk_owned [str "bcd"; []] true).
Proof. repeat split. Qed.

(** Findings F30 and F31: [as_memory_owner] and with it [match] of a temporary end
    the program, and so does [as_optional] of a constant expiring owner. *)
Theorem C69_reported_refuted : exists fails r s res,
  expiring_call fails match_method r RandomAccessIt s = Returned Terminates
  /\ regex_match r RandomAccessIt s = Returned res
  /\ as_memory_owner_call fails s res = Terminates
  /\ owned_as_optional fails ConstExpiring (as_memory_owner s res) = Terminates.
Proof.
  exists (fun t => Nat.ltb 3 (List.length t)), (rx "a+" []), (str "aaaa"). eexists.
  repeat split; vm_compute; reflexivity.
Qed.
Print Assumptions C69_reported_refuted.

(** Exactly when: one of the texts cannot be copied. *)
Theorem C69_memory_owner_exact : forall fails s r,
  as_memory_owner_call fails s r
  = if existsb (fun v => fails (cell_content s v)) (groups r) then Terminates
    else Done (as_memory_owner s r).
Proof. exact memory_owner_exact. Qed.
Print Assumptions C69_memory_owner_exact.
