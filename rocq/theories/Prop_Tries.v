(** C92: every end that a search tries costs a step; loops over what can be matched
    in two ways take exponentially many steps to fail. *)
From Coq Require Import String.
From Verif Require Import Costs Matcher Safe Calls Lift Matching Api Examples Walk Explore Tries Ambiguities Spec Ast Xpr Parser.

(** [match] pays for every end of the whole expression that it tries. *)
Theorem C92_ends_cost : forall r ct s, usable r ct ->
  ends_tried (fun j g => (if Nat.eqb (List.length s) j then Some j else None, g))
    (explore (config_of (flags r) ct) (all_names (ast r)) s 0 false (ast r) 0 (no_groups (ast r)))
  <= steps (cost_of c_match_method r ct s).
Proof. intros r ct s Hu. exact (ends_cost r ct s Hu). Qed.
Print Assumptions C92_ends_cost.

Example C92_ends_example :
  let r := rx "(?:a|aa)*" [] in
  usable r RandomAccessIt
  /\ ends_tried (fun j g => (if Nat.eqb 6 j then Some j else None, g))
       (explore (config_of (flags r) RandomAccessIt) (all_names (ast r)) (str "aaaaa!") 0 false (ast r) 0 (no_groups (ast r))) = 20
  /\ steps (cost_of c_match_method r RandomAccessIt (str "aaaaa!")) = 105.
Proof. cbv zeta. split; [show_usable|]. split; vm_compute; reflexivity. Qed.

(** In a concatenation, all calls pay for every end of the first parts that they
    try the other parts with; [search] does so at every offset. *)
Theorem C92_parts_cost : forall r ct s l1 l2, usable r ct -> ast r = Seq (l1 ++ l2) -> l1 <> [] -> l2 <> [] ->
  tried_at (config_of (flags r) ct) (all_names (ast r)) s (Nat.eqb (List.length s)) l1 l2 0 (no_groups (ast r))
    <= steps (cost_of c_match_method r ct s)
  /\ tried_at (config_of (flags r) ct) (all_names (ast r)) s (fun _ => true) l1 l2 0 (no_groups (ast r))
    <= steps (cost_of c_match_prefix_method r ct s)
  /\ tried_from (config_of (flags r) ct) (all_names (ast r)) s l1 l2 (List.length s) 0 (no_groups (ast r))
    <= steps (cost_of c_search_method r ct s).
Proof. intros r ct s l1 l2 Hu. exact (parts_cost r ct s Hu l1 l2). Qed.
Print Assumptions C92_parts_cost.

Example C92_parts_example :
  let r := rx "\w*(\w+)\d" [] in let s := str "abcdef" in
  usable r RandomAccessIt
  /\ (exists x y z, ast r = Seq ([x; y] ++ [z])
      /\ tried_at (config_of (flags r) RandomAccessIt) (all_names (ast r)) s (fun _ => true) [x; y] [z] 0 (no_groups (ast r)) = 21
      /\ tried_from (config_of (flags r) RandomAccessIt) (all_names (ast r)) s [x; y] [z] 6 0 (no_groups (ast r)) = 56)
  /\ steps (cost_of c_match_prefix_method r RandomAccessIt s) = 100
  /\ steps (cost_of c_search_method r RandomAccessIt s) = 329.
Proof.
  cbv zeta. split; [show_usable|]. split.
  - eexists _, _, _. split; [vm_compute; reflexivity|]. split; vm_compute; reflexivity.
  - split; vm_compute; reflexivity.
Qed.

(** A loop without an upper bound, not possessive, over something that can match
    the first [top] characters of the text in two ways piece by piece ([ambiguous]);
    in front of it something that matches at most [b] characters; behind it
    anything.  A call that finds nothing has tried 2^q ends. *)
Theorem C92_loop_explodes : forall r ct s l1 md lo x l2 top d b q, usable r ct ->
  ast r = Seq (l1 ++ Rep md lo Inf x :: l2) -> l2 <> [] -> md <> Possessive ->
  top <= List.length s -> 0 < d ->
  ambiguous (config_of (flags r) ct) (all_names (ast r)) s top d x ->
  finds (fun j => Nat.leb j b) 1 (in_order (config_of (flags r) ct) (all_names (ast r)) s l1 0 (no_groups (ast r))) ->
  b + (N.to_nat lo + q) * d <= top ->
  (fails (regex_match r ct s) -> 2 ^ q <= steps (cost_of c_match_method r ct s))
  /\ (fails (regex_match_prefix r ct s) -> 2 ^ q <= steps (cost_of c_match_prefix_method r ct s))
  /\ (fails (regex_search r ct s) -> 2 ^ q <= steps (cost_of c_search_method r ct s)).
Proof. intros r ct s l1 md lo x l2 top d b q Hu. exact (loop_explodes r ct s Hu l1 md lo x l2 top d b q). Qed.
Print Assumptions C92_loop_explodes.

(** The same for [match] when the loop is the whole expression. *)
Theorem C92_whole_explodes : forall r ct s md lo x top d q, usable r ct ->
  ast r = Rep md lo Inf x -> md <> Possessive -> top <= List.length s -> 0 < d ->
  ambiguous (config_of (flags r) ct) (all_names (ast r)) s top d x ->
  (N.to_nat lo + q) * d <= top ->
  fails (regex_match r ct s) -> 2 ^ q <= steps (cost_of c_match_method r ct s).
Proof. intros r ct s md lo x top d q Hu. exact (whole_explodes r ct s Hu md lo x top d q). Qed.
Print Assumptions C92_whole_explodes.

(** Two alternatives that both can match some of the next [d] characters. *)
Theorem C92_alternatives_ambiguous : forall cf names s top d x y, is_class (Alt [x; y]) = false ->
  advances cf names s top d x -> advances cf names s top d y -> ambiguous cf names s top d (Alt [x; y]).
Proof. intros cf names s top d x y. apply either_ambiguous. Qed.
Print Assumptions C92_alternatives_ambiguous.

Example C92_loop_example :
  let r := rx "^(?:\w|\w\w)+$" [] in let s := str "abcdefghijklmn!" in let cf := config_of (flags r) RandomAccessIt in
  usable r RandomAccessIt
  /\ (exists a x b, ast r = Seq ([a] ++ Rep Greedy 1 Inf x :: [b])
      /\ ambiguous cf (all_names (ast r)) s 14 2 x
      /\ finds (fun j => Nat.leb j 0) 1 (in_order cf (all_names (ast r)) s [a] 0 (no_groups (ast r))))
  /\ fails (regex_match r RandomAccessIt s) /\ fails (regex_search r RandomAccessIt s)
  /\ 2 ^ 6 <= steps (cost_of c_match_method r RandomAccessIt s).
Proof.
  cbv zeta. split; [show_usable|]. split; [|split; [|split]].
  - assert (E : exists w, ast (rx "^(?:\w|\w\w)+$" []) = Seq ([BeginLine] ++ Rep Greedy 1 Inf (Alt [w; Seq [w; w]]) :: [EndLine])
       /\ made_of (config_of [] RandomAccessIt) (str "abcdefghijklmn!") 14 w).
    { eexists. split; [vm_compute; reflexivity|]. split; [reflexivity|]. repeat constructor. }
    destruct E as (w & E & Hw). exists BeginLine, (Alt [w; Seq [w; w]]), EndLine. split; [exact E|].
    split; [|vm_compute; auto].
    assert (T : 14 <= List.length (str "abcdefghijklmn!")) by (vm_compute; auto).
    assert (A : forall names, ambiguous (config_of [] RandomAccessIt) names (str "abcdefghijklmn!") 14 2 (Alt [w; Seq [w; w]])).
    { intros names. apply either_ambiguous; [|apply class_advances; auto|].
      - destruct Hw as [Hc _]. cbn [is_class forallb]. now rewrite andb_comm.
      - apply (both_advance _ _ _ _ T w w 1 1); apply class_advances; auto. }
    exact (A _).
  - eexists. split; vm_compute; reflexivity.
  - eexists. split; vm_compute; reflexivity.
  - apply Nat.leb_le. vm_compute. reflexivity.
Qed.

(** In particular a loop over a star or a plus of any class of characters, on a
    text that starts with [top] such characters. *)
Theorem C92_nested_loops : forall r ct s top md lo md' lo' x y l q, usable r ct -> top <= List.length s ->
  ast r = Seq (Rep md lo Inf (Rep md' lo' Inf x) :: y :: l) -> md <> Possessive -> md' <> Possessive -> (lo' <= 1)%N ->
  made_of (config_of (flags r) ct) s top x -> (N.to_nat lo + q) * 2 <= top ->
  (fails (regex_match r ct s) -> 2 ^ q <= steps (cost_of c_match_method r ct s))
  /\ (fails (regex_match_prefix r ct s) -> 2 ^ q <= steps (cost_of c_match_prefix_method r ct s))
  /\ (fails (regex_search r ct s) -> 2 ^ q <= steps (cost_of c_search_method r ct s)).
Proof. exact nested_explodes. Qed.
Print Assumptions C92_nested_loops.

Example C92_nested_example :
  let r := rx "(?:[a-z]+?)*;" [] in let s := str "abcdefghij" in
  usable r ForwardIt
  /\ (exists x y, ast r = Seq (Rep Greedy 0 Inf (Rep Lazy 1 Inf x) :: [y]) /\ made_of (config_of (flags r) ForwardIt) s 10 x)
  /\ fails (regex_search r ForwardIt s)
  /\ 2 ^ 5 <= steps (cost_of c_search_method r ForwardIt s).
Proof.
  cbv zeta. split; [show_usable|]. split; [|split].
  - eexists _, _. split; [vm_compute; reflexivity|]. split; [reflexivity|]. vm_compute. repeat constructor.
  - eexists. split; vm_compute; reflexivity.
  - apply Nat.leb_le. vm_compute. reflexivity.
Qed.

(** Both conditions matter: the possessive loop, and the call that finds a match
    at once, need few steps. *)
Example C92_conditions_example :
  fails (regex_match (rx "(?:a*)*+b" []) RandomAccessIt (str "aaaaaaaaa"))
  /\ steps (cost_of c_match_method (rx "(?:a*)*+b" []) RandomAccessIt (str "aaaaaaaaa")) = 18
  /\ steps (cost_of c_match_method (rx "(?:a*)*b" []) RandomAccessIt (str "aaaaaaaaab")) = 18
  /\ steps (cost_of c_match_method (rx "(?:a*)*b" []) RandomAccessIt (str "aaaaaaaaa")) = 3072.
Proof. split; [eexists; split; vm_compute; reflexivity|]. split; [|split]; vm_compute; reflexivity. Qed.
