(** Property C82: expressions whose next character decides how to go on.  Each
    theorem is followed by its assumptions and by a concrete instance. *)
From Coq Require Import String Lia.
From Verif Require Import Costs RangeCosts Basics Effort Budget RangeEffort Tight Examples Linear Linear2.
Local Open Scope nat_scope.
Local Open Scope list_scope.

(** C82.  If at every choice the next character excludes all but one of the ways to
    go on, and nothing comes behind the expression, then an attempt takes at most a
    constant number of steps for each character from where it begins, whatever the
    iterators and the flags are.  A search makes an attempt at each position. *)
Theorem C82_linear_steps : forall cf n, determined cf n (fun _ => false) = true ->
  exists C, forall s cur c, cur <= List.length s ->
    steps (c_match_method cf n s cur c) <= C * S (List.length s - cur)
    /\ steps (c_match_prefix_method cf n s cur c) <= C * S (List.length s - cur)
    /\ steps (c_search_method cf n s cur c) <= C * S (List.length s - cur) ^ 2.
Proof. exact calls_linear. Qed.
Print Assumptions C82_linear_steps.

(** Fields of a line, numbers, quoted text with escapes, a line of a settings file:
    loops in loops, for which C62_polynomial_steps_partial gives no bound or one of
    a higher degree. *)
Example C82_example :
  let cf := config_of [] RandomAccessIt in
  forallb (fun p => determined cf (tree p) (fun _ => false))
    ["[^,]*(?:,[^,]*)*"; "([+-])?\d+(?:\.\d+)?(?:e[+-]?\d+)?"; """(?:[^""\\]|\\.)*""";
     "^\w+\s*=\s*(?:\d+|'[^']*')$"; "(?:(?:a|bc)+;)*"; "\d{1,3}(?:,\d{3})*(?!\d)"; "[^,;]*(?:,[^,;]*)*;"]%string = true
  /\ map (fun p => tame (tree p)) ["[^,]*(?:,[^,]*)*"; """(?:[^""\\]|\\.)*"""; "(?:(?:a|bc)+;)*"]%string
     = [false; false; false]
  /\ map (fun n => steps (cost_of c_match_method (rx "[^,;]*(?:,[^,;]*)*;" []) RandomAccessIt
       (List.concat (repeat (str "ab,") n)))) [0; 1; 2; 10; 100]
     = [9; 31; 49; 193; 1813].
Proof. vm_compute. auto. Qed.

(** All results of a text together take no more than one search. *)
Theorem C82_ranges : forall r ct, usable r ct ->
  determined (config_of (flags r) ct) (ast r) (fun _ => false) = true ->
  exists C, forall s,
    total (c_tokenize r ct s) <= C * S (List.length s) ^ 2
    /\ total (c_find_all r ct s) <= C * S (List.length s) ^ 2.
Proof. exact ranges_linear. Qed.
Print Assumptions C82_ranges.

Example C82_ranges_example :
  let r := rx "\d+(?:\.\d+)?" [] in
  usable r ForwardIt /\ determined (config_of (flags r) ForwardIt) (ast r) (fun _ => false) = true
  /\ map (fun n => total (c_find_all r ForwardIt (List.concat (repeat (str "1.5 ") n)))) [1; 10; 20]
     = [25; 205; 405].
Proof. split; [show_usable|]. vm_compute. auto. Qed.

(** The square is needed for a search: "a*b" in a text of letters a. *)
Theorem C82_search_attained : exists r,
  determined (config_of (flags r) RandomAccessIt) (ast r) (fun _ => false) = true
  /\ forall n, exists s, List.length s = n
       /\ S n ^ 2 <= 2 * steps (cost_of c_search_method r RandomAccessIt s).
Proof. exact search_attained. Qed.
Print Assumptions C82_search_attained.

(** The condition is needed: "a*a*b", where the letter a may belong to either star,
    takes a number of steps that is quadratic, and more than any multiple of the
    length. *)
Theorem C82_condition_needed : exists r,
  determined (config_of (flags r) RandomAccessIt) (ast r) (fun _ => false) = false
  /\ (exists p, parse p = P_ok (ast r))
  /\ forall C, exists s, C * S (List.length s) < steps (cost_of c_match_method r RandomAccessIt s).
Proof. exact condition_needed. Qed.
Print Assumptions C82_condition_needed.

(** The same length, one star and two. *)
Example C82_condition_example :
  map (fun n => (steps (cost_of c_match_method (rx "a*b" []) RandomAccessIt (letters n)),
                 steps (cost_of c_match_method (rx "a*a*b" []) RandomAccessIt (letters n)))) [10; 20; 40]
  = [(34, 232); (64, 757); (124, 2707)].
Proof. vm_compute. auto. Qed.
