(** Properties of the helper containers, the range objects and the lifetime of
    results: C47-C50. *)
From Verif Require Import Examples Containers Adapter Basics Safe Generators Results Utilities.

(** C47.  Type sequences: a stack, and concatenation and reversal of lists. *)
Theorem C47_type_sequences : forall (A : Type) (l : list A) (ls : list (list A)) (x : A) (t : list A),
  ts_concat ls = Some (concat ls)
  /\ reverse_pack l = rev l
  /\ ts_front (ts_push l (inl x)) = Some x /\ ts_pop (ts_push l (inl x)) = l
  /\ ts_push l (inr t) = fold_right (fun y acc => ts_push acc (inl y)) l t
  /\ (ts_is_empty l = true <-> ts_front l = None).
Proof. exact type_sequences. Qed.
Print Assumptions C47_type_sequences.

(** A pattern reaches the parser unchanged, whatever its characters are, and the
    lexer reads its characters one by one up to the end. *)
Theorem C47_pattern_text : forall t i,
  static_string_of (literal_array t) = t /\ make_static_string t = t
  /\ lexer_token (static_string_of (literal_array t)) i = nth_error t i.
Proof. exact pattern_text. Qed.
Print Assumptions C47_pattern_text.

(** The reversed view of lookbehinds and both ways of measuring the rest. *)
Theorem C47_reversed_view : forall (A : Type) (l : list A), reversed_elements l = Some (rev l).
Proof. exact @reversed_elements_rev. Qed.
Print Assumptions C47_reversed_view.

Theorem C47_distance : forall cf n len cur, cur <= len ->
  (distance_less_than cf n len cur = true <-> len < cur + N.to_nat n).
Proof. exact distance_any. Qed.
Print Assumptions C47_distance.

(** The group numbers of the parts of a sequence start at the prefix sums. *)
Theorem C47_index_offsets : forall offset l i x, nth_error l i = Some x ->
  exists before, before = firstn i l
    /\ index offset (Seq l) = Seq (index_all offset l)
    /\ nth_error (index_all offset l) i
       = Some (index (offset + N.of_nat (list_sum (map capture_count before))) x).
Proof. exact index_offsets_parts. Qed.
Print Assumptions C47_index_offsets.

Example C47_example :
  ts_concat [[1]; [2; 3]; []; [4]; [5]; [6; 7]; [8]] = Some [1; 2; 3; 4; 5; 6; 7; 8]
  /\ reverse_pack [1; 2; 3; 4; 5; 6] = [6; 5; 4; 3; 2; 1]
  /\ static_string_of (literal_array ["a"; "000"; "b"]%char) = ["a"; "000"; "b"]%char
  /\ lexer_token (str "ab") 1 = Some "b"%char /\ lexer_token (str "ab") 2 = None
  /\ reversed_elements (str "abc") = Some (str "cba")
  /\ distance_less_than (config_of [] ForwardIt) 3 5 3 = true /\ distance_less_than (config_of [] RandomAccessIt) 2 5 3 = false
  /\ index_all 1 [tree "(a)"; tree "(b)(c)"; tree "(d)"]
     = [Cap 1 None (Lit "a"); Seq [Cap 2 None (Lit "b"); Cap 3 None (Lit "c")]; Cap 4 None (Lit "d")].
Proof. repeat split. Qed.

(** C48.  [l] are the elements of the generator up to the first failure
    (C36_ranges_cut_generators).  A loop over the range object sees [l]; a loop
    that is left behind element [k] sees the elements up to it; the next loop
    goes on with the same element again, because [begin()] does not restart. *)
Theorem C48_range_loops : forall mt r ct s l, range_of mt r ct s = Returned l ->
  exists a, range_object mt r ct s = Returned a
    /\ (exists a', loop_over mt r ct s never a = Returned (l, a')
          /\ exists a'', loop_over mt r ct s never a' = Returned ([], a''))
    /\ forall k, exists a', loop_over mt r ct s (at_element k) a = Returned (firstn (S k) l, a')
          /\ exists a'', loop_over mt r ct s never a' = Returned (skipn k l, a'').
Proof. exact range_object_loops. Qed.
Print Assumptions C48_range_loops.

(** At most one element is empty, and it is the last one. *)
Theorem C48_at_most_one_empty : forall r ct s, usable r ct ->
  let last_only l := forall i x, nth_error l i = Some x -> result_length x = 0 -> S i = length l in
  returns (tokenize r ct s) last_only /\ returns (find_all r ct s) last_only.
Proof. exact range_last_empty. Qed.
Print Assumptions C48_at_most_one_empty.

Example C48_example :
  let r := rx "a|b*" [] in
  usable r RandomAccessIt
  /\ exists l, tokenize r RandomAccessIt (str "abbc") = Returned l
       /\ map (fun t => group0 (groups t)) l = [Some (0, 1); Some (1, 3); Some (3, 3)]
       /\ exists a, range_object match_prefix_method r RandomAccessIt (str "abbc") = Returned a
       /\ exists a', loop_over match_prefix_method r RandomAccessIt (str "abbc") (at_element 1) a
            = Returned (firstn 2 l, a')
       /\ exists a'', loop_over match_prefix_method r RandomAccessIt (str "abbc") never a' = Returned (skipn 1 l, a'').
Proof.
  split; [show_usable|]. eexists. split; [vm_compute; reflexivity|]. split; [reflexivity|].
  eexists. split; [vm_compute; reflexivity|]. eexists. split; [vm_compute; reflexivity|].
  eexists. vm_compute; reflexivity.
Qed.

(** The documentation of [tokenize()] promises non-empty tokens. *)
Theorem C48_tokens_not_empty_refuted : exists p s l x,
  usable (rx p []) RandomAccessIt /\ tokenize (rx p []) RandomAccessIt s = Returned l
  /\ In x l /\ matched x = true /\ group0 (groups x) = Some (1, 1).
Proof.
  exists "a*"%string, (str "ab"). do 2 eexists. split; [show_usable|]. split; [vm_compute; reflexivity|].
  split; [right; left; reflexivity|]. split; reflexivity.
Qed.
Print Assumptions C48_tokens_not_empty_refuted.

(** C49.  [outlives t rvalue a s res]: every group of the result of call [t] has
    the same content behind the full expression as in it.  All arguments except
    temporaries of a trivially destructible class that holds the characters. *)
Theorem C49_results_outlive_partial : forall t mt rvalue a r ct s res,
  method_of t = Some mt -> invoke mt r ct s = Returned res ->
  (forall trivial, a = A_object trivial true -> rvalue = true -> trivial = false) ->
  outlives t rvalue a s res.
Proof. exact call_results_outlive. Qed.
Print Assumptions C49_results_outlive_partial.

Example C49_example :
  let r := rx "a(b)c" [] in
  (exists res, regex_match r RandomAccessIt (str "abc") = Returned res /\ matched res = true
     /\ text_expires true (A_object false true) = true
     /\ read_group false (str "abc") (result_of (overload_of T_match true (A_object false true)) (str "abc") res) 1
        = Some (Returned (str "b")))
  /\ overload_of T_search false (A_object false true) = By_reference
  /\ overload_of T_search true A_string_view = By_view
  /\ overload_of T_search true A_literal = By_view.
Proof. repeat split. eexists. split; [vm_compute; reflexivity|]. repeat split. Qed.

(** Exactly when the results do not outlive the text: it is a temporary of such a
    class and some group is not empty. *)
Theorem C49_results_outlive_exact : forall t mt rvalue a r ct s res,
  method_of t = Some mt -> invoke mt r ct s = Returned res ->
  (outlives t rvalue a s res
   <-> ~ (rvalue = true /\ a = A_object true true
          /\ exists i v, group res i = Some v /\ cell_is_empty v = false)).
Proof. exact results_outlive_exactly. Qed.
Print Assumptions C49_results_outlive_exact.

(** A temporary [std::array] is not recognised: the result refers to it. *)
Theorem C49_temporary_array_refuted : exists r ct s res,
  regex_match r ct s = Returned res /\ matched res = true
  /\ text_expires true (A_object true true) = true
  /\ ~ outlives T_match true (A_object true true) s res.
Proof.
  exists (rx "ab" []), RandomAccessIt, (str "ab"). eexists. split; [vm_compute; reflexivity|].
  split; [reflexivity|]. split; [reflexivity|]. intros H. discriminate (H 0).
Qed.
Print Assumptions C49_temporary_array_refuted.

(** The generator and range calls accept every temporary and keep iterators into
    it: the first element after the full expression is undefined behaviour. *)
Theorem C49_temporary_generator_refuted : exists r s x g,
  let cf := config_of (flags r) RandomAccessIt in
  let text := A_object false true in
  Forall (fun t => overload_of t true text = By_reference) [T_tokenizer; T_searcher; T_tokenize; T_find_all]
  /\ generator_next true search_method cf (ast r) s new_generator = Returned (x, g) /\ matched x = true
  /\ generator_next (negb (text_expires true text)) search_method cf (ast r) s new_generator = UndefinedBehaviour.
Proof.
  exists (rx "b" []), (str "ab"). do 2 eexists. split; [repeat constructor|]. split; [vm_compute; reflexivity|].
  split; reflexivity.
Qed.
Print Assumptions C49_temporary_generator_refuted.

(** A generator that has given a failure or an empty match does not read the
    text any more. *)
Theorem C49_finished_generator : forall mt cf n s g x g',
  next mt cf n s g = Returned (x, g') ->
  matched x = false \/ cell_is_empty (group0 (groups x)) = true ->
  exists y, generator_next false mt cf n s g' = Returned (y, g') /\ matched y = false.
Proof. exact finished_generator. Qed.
Print Assumptions C49_finished_generator.

Example C49_finished_example :
  let r := rx "a*" [] in
  let cf := config_of (flags r) RandomAccessIt in
  exists x g y, next search_method cf (ast r) (str "ba") new_generator = Returned (x, g)
    /\ matched x = true /\ cell_is_empty (group0 (groups x)) = true
    /\ generator_next false search_method cf (ast r) (str "ba") g = Returned (y, g).
Proof. do 3 eexists. repeat split; vm_compute; reflexivity. Qed.

(** C50.  For functions that return no pair or tuple, or results with more than
    one group. *)
Theorem C50_transform_groups_partial : forall mt r ct s res (f : cell -> value),
  invoke mt r ct s = Returned res ->
  group_count res <> 1 \/ (forall x, match f x with V_other _ => True | _ => False end) ->
  forall i, nth_error (transform_tuple f (groups res)) i = option_map f (group res i).
Proof. exact transform_groups_each. Qed.
Print Assumptions C50_transform_groups_partial.

(** Exactly when it holds: unless there is only group 0 and the function makes a
    pair or a tuple of it. *)
Theorem C50_transform_groups_exact : forall res (f : cell -> value),
  (forall i, nth_error (transform_tuple f (groups res)) i = option_map f (group res i))
  <-> ~ (group_count res = 1 /\ exists v, group res 0 = Some v
         /\ ((exists l, f v = V_tuple l) \/ exists a b, f v = V_pair a b)).
Proof. exact transform_groups_exact. Qed.
Print Assumptions C50_transform_groups_exact.

(** Each group is visited once, in the order of the numbers. *)
Theorem C50_for_each_group : forall (S : Type) (f : cell -> S -> S) res st,
  iterate_tuple (fun v log => log ++ [v]) (groups res) [] = groups res
  /\ iterate_tuple f (groups res) st
     = fold_left (fun st i => match group res i with Some v => f v st | None => st end)
         (seq 0 (group_count res)) st.
Proof. exact for_each_group_visits. Qed.
Print Assumptions C50_for_each_group.

Example C50_example :
  let res := mk_res [Some (0, 3); Some (1, 2); None] true in
  transform_tuple (fun v => V_pair (V_other (cell_length v)) (V_other 7)) (groups res)
    = [V_pair (V_other 3) (V_other 7); V_pair (V_other 1) (V_other 7); V_pair (V_other 0) (V_other 7)]
  /\ iterate_tuple (fun v n => 10 * n + cell_length v) (groups res) 0 = 310.
Proof. split; reflexivity. Qed.

(** With group 0 only, a pair is taken apart. *)
Theorem C50_single_pair_refuted : exists r ct s res (f : cell -> value),
  regex_match r ct s = Returned res /\ matched res = true
  /\ length (transform_tuple f (groups res)) <> group_count res
  /\ nth_error (transform_tuple f (groups res)) 0 <> option_map f (group res 0).
Proof.
  exists (rx "ab" []), RandomAccessIt, (str "ab"). eexists. exists (fun v => V_pair (V_other (cell_length v)) (V_other 7)).
  split; [vm_compute; reflexivity|]. split; [reflexivity|]. split; vm_compute; discriminate.
Qed.
Print Assumptions C50_single_pair_refuted.
