(** How deep the calls nest (C61) and how many steps they take (C62). *)
From Coq Require Import String.
From Verif Require Import Costs Costing Depth Effort Exponential Basics Examples Budget Tight AtomicCosts.
From Coq Require Import Factorial.
Local Open Scope nat_scope.
Local Open Scope list_scope.

(** The counting functions give the outcomes of the functions of the model. *)
Theorem C61_same_outcomes : forall cf n s cur c,
  out (c_match_method cf n s cur c) = match_method cf n s cur c
  /\ out (c_match_prefix_method cf n s cur c) = match_prefix_method cf n s cur c
  /\ out (c_search_method cf n s cur c) = search_method cf n s cur c.
Proof.
  intros. split; [|split];
    [apply same_match|apply same_match_prefix|apply same_search].
Qed.
Print Assumptions C61_same_outcomes.

Example C61_outcomes_example :
  out (cost_of c_search_method (rx "(a|b)*c" []) RandomAccessIt (str "xxabac"))
  = Res [Some (2, 6); Some (4, 4)] 6 true.
Proof. vm_compute. reflexivity. Qed.

(** The depth is bounded by a linear function of the length of the text, which
    depends on the regex and the category alone. *)
Theorem C61_linear_depth : forall cf n, exists A a, forall mt s cur c,
  mt = c_match_method \/ mt = c_match_prefix_method \/ mt = c_search_method ->
  cur <= List.length s -> depth (mt cf n s cur c) <= A + a * List.length s.
Proof.
  intros cf n. destruct (method_depth cf n) as (A & a & _ & H). exists A, a. exact H.
Qed.
Print Assumptions C61_linear_depth.

(** The depth does not depend on the text for bidirectional iterators when only
    single characters are repeated without a bound, other than possessively. *)
Theorem C61_constant_depth : forall cf n,
  is_bidirectional cf = true -> flat n = true ->
  exists A, forall mt s cur c,
    mt = c_match_method \/ mt = c_match_prefix_method \/ mt = c_search_method ->
    cur <= List.length s -> depth (mt cf n s cur c) <= A.
Proof.
  intros cf n B F. destruct (method_depth cf n) as (A & a & H & D). exists A.
  intros mt s cur c M Hc. specialize (D mt s cur c M Hc). rewrite (H B F) in D. lia.
Qed.
Print Assumptions C61_constant_depth.

Example C61_flat_example :
  flat (tree "(?<k>\w+)\s*=\s*([""'])(.*?)\2(?:ab|c){2,5}(?:de)*+$") = true
  /\ is_bidirectional (config_of [F_icase] BidirectionalIt) = true
  /\ map (fun n => depth (cost_of c_search_method (rx "x*(a*)b" []) RandomAccessIt (letters n))) [1; 10; 20]
     = [6; 6; 6].
Proof. vm_compute. auto. Qed.

(** Without these conditions it does (finding F28): a group under a star nests a
    call for each character of the text. *)
Theorem C61_depth_grows :
  exists r ct, forall A, exists s, A < depth (cost_of c_match_method r ct s).
Proof.
  exists (rx "(a)*" []), RandomAccessIt. intros A. exists (letters (S A)).
  apply (nesting (S A)).
Qed.
Print Assumptions C61_depth_grows.

(** Forward iterators: a star on a single character nests, too. *)
Example C61_forward_example :
  map (fun n => depth (cost_of c_match_method (rx "a*" []) ForwardIt (letters n))) [1; 10; 20]
  = [5; 23; 43]
  /\ flat (tree "a*") = true.
Proof. vm_compute. auto. Qed.

(** Full statement: the number of steps is bounded by a polynomial in the length
    of the text.  That is false in general (finding F27).  It holds when what is
    repeated without a bound, other than possessively, leaves no alternatives
    behind. *)
Theorem C62_polynomial_steps_partial : forall cf n, tame n = true ->
  exists C, forall s cur c, cur <= List.length s ->
    steps (c_match_method cf n s cur c) <= C * S (List.length s) ^ degree n
    /\ steps (c_match_prefix_method cf n s cur c) <= C * S (List.length s) ^ degree n
    /\ steps (c_search_method cf n s cur c) <= C * S (List.length s) ^ S (degree n).
Proof. exact method_steps. Qed.
Print Assumptions C62_polynomial_steps_partial.

Example C62_tame_example :
  let n := tree "(?<k>\w+)\s*=\s*(?:(\d\d)+|""[^""]*"")(?!;)(?:a|b)*+" in
  tame n = true /\ degree n = 5.
Proof. vm_compute. auto. Qed.

(** The exponents are the right ones: for every number there is a pattern of that
    degree and texts of every length on which [match] and [search] take that many
    steps, up to a constant factor. *)
Theorem C62_degree_attained : forall k, exists r, tame (ast r) = true /\ degree (ast r) = k
  /\ (exists p, parse p = P_ok (ast r))
  /\ forall n, exists s, List.length s = n
       /\ S n ^ k <= fact k * steps (cost_of c_match_method r RandomAccessIt s)
       /\ S n ^ S k <= fact (S k) * steps (cost_of c_search_method r RandomAccessIt s).
Proof. exact degree_attained. Qed.
Print Assumptions C62_degree_attained.

Example C62_attained_example :
  tame (tree "a*a*a*b") = true /\ degree (tree "a*a*a*b") = 3
  /\ map (fun n => steps (cost_of c_match_method (rx "a*a*a*b" []) RandomAccessIt (letters n))) [0; 4; 9]
     = [10; 166; 856].
Proof. vm_compute. auto. Qed.

(** A star in a star: the number of steps doubles with each character. *)
Theorem C62_polynomial_steps_refuted :
  exists r ct, forall n, exists s, List.length s = n /\ 2 ^ n <= steps (cost_of c_match_method r ct s).
Proof.
  exists (rx "(?:a*)*b" []), RandomAccessIt. intros n. exists (letters n).
  split; [apply letters_length|apply explosion].
Qed.
Print Assumptions C62_polynomial_steps_refuted.

Example C62_explosion_example :
  map (fun n => steps (cost_of c_match_method (rx "(?:a*)*b" []) RandomAccessIt (letters n))) [2; 4; 6; 8]
  = [24; 96; 384; 1536]
  /\ tame (tree "(?:a*)*b") = false.
Proof. vm_compute. auto. Qed.

(** Nothing is saved by an atomic group, and a lookahead takes more than what it looks for:
    the steps inside are counted. *)
Theorem C62_atomic_costs : forall cf x s cur c,
  steps (c_match_prefix_method cf x s cur c)
    <= steps (c_match_prefix_method cf (Rep Possessive 1 (Fin 1) x) s cur c)
  /\ depth (c_match_prefix_method cf x s cur c)
    <= depth (c_match_prefix_method cf (Rep Possessive 1 (Fin 1) x) s cur c)
  /\ (trivial x = false ->
      steps (c_match_prefix_method cf x s cur c) < steps (c_match_prefix_method cf (Look Ahead x) s cur c)
      /\ depth (c_match_prefix_method cf x s cur c) < depth (c_match_prefix_method cf (Look Ahead x) s cur c)).
Proof. exact atomic_costs. Qed.
Print Assumptions C62_atomic_costs.

Example C62_atomic_example :
  tree "(?>(?:a|b)*c)" = Rep Possessive 1 (Fin 1) (tree "(?:a|b)*c")
  /\ tree "(?=(a|b)*c)" = Look Ahead (tree "(a|b)*c") /\ trivial (tree "(a|b)*c") = false
  /\ map (fun p => steps (cost_of c_match_prefix_method (rx p []) RandomAccessIt (str "abbac")))
       ["(a|b)*c"; "(?>(a|b)*c)"; "(?=(a|b)*c)"]%string = [18; 19; 19].
Proof. split; [vm_compute; reflexivity|]. split; [vm_compute; reflexivity|]. split; vm_compute; reflexivity. Qed.

(** Whatever the expression is, the number of steps is at most exponential in the
    length of the text: nested stars do not make it worse than that. *)
Theorem C62_exponential_steps : forall cf n, exists B, forall s cur c, cur <= List.length s ->
  steps (c_match_method cf n s cur c) <= B ^ S (List.length s)
  /\ steps (c_match_prefix_method cf n s cur c) <= B ^ S (List.length s)
  /\ steps (c_search_method cf n s cur c) <= B ^ S (List.length s).
Proof.
  intros cf n. destruct (method_exponential cf n) as (B & _ & H). exists B. intros s cur c Hc.
  split; [|split]; apply H; unfold is_method; auto.
Qed.
Print Assumptions C62_exponential_steps.

(** Three stars deep; each letter makes it three times as long. *)
Example C62_exponential_example :
  map (fun n => steps (cost_of c_match_method (rx "(?:(?:a*)*)*b" []) RandomAccessIt (letters n))) [0; 1; 2; 3; 4; 5; 6]
  = [8; 19; 52; 151; 448; 1339; 4012].
Proof. vm_compute. auto. Qed.
