(** Property C68: the effort of going through all results of a range.  Each
    theorem is followed by its assumptions and by a concrete instance. *)
From Coq Require Import String.
From Verif Require Import RangeCosts Effort Calls Examples Budget RangeEffort.
Local Open Scope nat_scope.

(** C68.  The counters do not change the results. *)
Theorem C68_same_results : forall r ct s,
  value (c_tokenize r ct s) = tokenize r ct s /\ value (c_find_all r ct s) = find_all r ct s.
Proof. exact same_ranges. Qed.
Print Assumptions C68_same_results.

(** Every result is counted: there are more steps than results. *)
Theorem C68_results_are_counted : forall r ct s l,
  (tokenize r ct s = Returned l -> List.length l < total (c_tokenize r ct s))
  /\ (find_all r ct s = Returned l -> List.length l < total (c_find_all r ct s)).
Proof.
  intros r ct s l. destruct (same_ranges r ct s) as [<- <-]. apply results_counted.
Qed.
Print Assumptions C68_results_are_counted.

(** If each attempt takes at most [B] steps, all results together take at most
    [B] and a constant for each start, however many results there are.  (An
    attempt at an offset is what [match_prefix] does from there.) *)
Theorem C68_one_attempt_for_each_start : forall r ct s B, usable r ct ->
  (forall cur c, cur <= List.length s ->
     steps (c_match_prefix_method (config_of (flags r) ct) (ast r) s cur c) <= B) ->
  total (c_tokenize r ct s) <= S (List.length s) * S (S B) + 1
  /\ total (c_find_all r ct s) <= S (List.length s) * S (S B) + 1.
Proof. exact range_bound. Qed.
Print Assumptions C68_one_attempt_for_each_start.

(** For the expressions of C62_polynomial_steps_partial this is of the same order
    as the bound for a single search. *)
Theorem C68_polynomial_steps : forall r ct, usable r ct -> tame (ast r) = true ->
  exists C, forall s,
    total (c_tokenize r ct s) <= C * S (List.length s) ^ S (degree (ast r))
    /\ total (c_find_all r ct s) <= C * S (List.length s) ^ S (degree (ast r)).
Proof. exact range_polynomial. Qed.
Print Assumptions C68_polynomial_steps.

Theorem C68_exponential_steps : forall r ct, usable r ct ->
  exists B, forall s,
    total (c_tokenize r ct s) <= B ^ S (List.length s)
    /\ total (c_find_all r ct s) <= B ^ S (List.length s).
Proof. exact range_exponential. Qed.
Print Assumptions C68_exponential_steps.

(** The depth is that of the deepest call. *)
Theorem C68_linear_depth : forall r ct, usable r ct ->
  exists A a, forall s,
    deepest (c_tokenize r ct s) <= A + a * List.length s
    /\ deepest (c_find_all r ct s) <= A + a * List.length s.
Proof. exact range_depth. Qed.
Print Assumptions C68_linear_depth.

(** Many results and a single one in texts of the same lengths. *)
Example C68_example :
  let r := rx "a|\d+;" [] in
  usable r RandomAccessIt /\ tame (ast r) = true /\ degree (ast r) = 1
  /\ map (fun n => total (c_find_all r RandomAccessIt (letters n))) [1; 10; 100]
     = [11; 47; 407]
  /\ map (fun n => total (c_find_all r RandomAccessIt (repeat "b"%char n))) [1; 10; 100]
     = [13; 67; 607].
Proof. split; [show_usable|]. repeat split; vm_compute; reflexivity. Qed.
