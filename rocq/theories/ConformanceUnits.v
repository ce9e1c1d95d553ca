(** The assertions of /repo/test about the parts that are not regexes: the
    containers, the symbols, the arguments of the calls, the trees of the
    expression interface and the members of results.  Like Conformance.v, every
    case is a [static_assert] of the project. *)
From Verif Require Import Api Xpr Parser Equality Containers Adapter Conformance.

(** test/xpr_ast_tests.cpp: 19 assertions. *)
Definition xpr_tests_cases : list (node * node) :=
  [(x_nothing, n_nothing);
   (x_chr "a", Lit "a");
   (x_concat [x_chr "a"], Lit "a");
   (x_concat [x_chr "a"; x_chr "b"], Seq [Lit "a"; Lit "b"]);
   (x_concat [x_concat [x_chr "a"; x_chr "b"]; x_chr "c"], Seq [Lit "a"; Lit "b"; Lit "c"]);
   (x_concat [x_chr "a"; x_chr "b"; x_chr "c"], Seq [Lit "a"; Lit "b"; Lit "c"]);
   (x_concat [x_chr "a"; x_str (str "bcd"); x_chr "e"; x_concat [x_wildcard; x_word];
              x_either [x_lower; x_upper]; x_concat [x_chr "f"; x_chr "g"]; x_regex (str "hi")],
    Seq [Lit "a"; Lit "b"; Lit "c"; Lit "d"; Lit "e"; Wild; n_word; Alt [n_lower; n_upper];
         Lit "f"; Lit "g"; Lit "h"; Lit "i"]);
   (x_str (str "abc"), Seq [Lit "a"; Lit "b"; Lit "c"]);
   (x_concat [x_negate x_word; x_str (str "abc")], Seq [Neg n_word; Lit "a"; Lit "b"; Lit "c"]);
   (x_concat [x_concat [x_str (str "ab"); x_zero_or_more Greedy [x_negate x_digit]]; x_str (str "xy")],
    Seq [Lit "a"; Lit "b"; star Greedy (Neg n_digit); Lit "x"; Lit "y"]);
   (x_concat [x_regex (str "ab?c+"); x_regex (str ".*")],
    Seq [Lit "a"; optional Greedy (Lit "b"); plus Greedy (Lit "c"); star Greedy Wild]);
   (x_either [x_chr "a"; x_chr "b"], Alt [Lit "a"; Lit "b"]);
   (x_either [x_either [x_chr "a"; x_chr "b"]; x_chr "c"], Alt [Lit "a"; Lit "b"; Lit "c"]);
   (x_either [x_chr "a"; x_chr "b"; x_chr "c"], Alt [Lit "a"; Lit "b"; Lit "c"]);
   (x_atomic [x_chr "a"; x_chr "b"; x_chr "c"], atomic (Seq [Lit "a"; Lit "b"; Lit "c"]));
   (x_concat [x_str (str "ab"); x_either [x_chr "c"; x_chr "d"]],
    Seq [Lit "a"; Lit "b"; Alt [Lit "c"; Lit "d"]]);
   (x_concat [x_concat [x_concat [x_begin_line; x_str (str "ab")];
                        x_one_or_more Greedy [x_either [x_chr "c"; x_chr "d"]]]; x_end_line],
    Seq [BeginLine; Lit "a"; Lit "b"; plus Greedy (Alt [Lit "c"; Lit "d"]); EndLine]);
   (x_exactly 5 Greedy [x_either [x_begin_line; x_concat [x_chr "a"; x_maybe Greedy [x_chr "b"]];
                                  x_atomic [x_zero_or_more Greedy [x_str (str "cd")]]; x_end_line]],
    Rep Greedy 5 (Fin 5) (Alt [BeginLine; Seq [Lit "a"; optional Greedy (Lit "b")];
                               atomic (star Greedy (Seq [Lit "c"; Lit "d"])); EndLine]));
   (x_concat [x_ahead [x_one_or_more Lazy [x_word]]; x_capture 1 (Some (str "test")) [x_wildcard];
              x_capture 2 None [x_word]; x_negate (x_behind [x_regex (str "ab{2}c")])],
    Seq [Look Ahead (plus Lazy n_word); Cap 1 (Some (str "test")) Wild; Cap 2 None n_word;
         Neg (Look Behind (Seq [Lit "a"; Rep Greedy 2 (Fin 2) (Lit "b"); Lit "c"]))])].
Example xpr_tests : forallb (fun c => node_eqb (fst c) (snd c)) xpr_tests_cases = true.
Proof. vm_compute. reflexivity. Qed.

(** test/type_sequence_tests.cpp: types are numbered. *)
Example type_sequence_tests :
  ts_front (@nil nat) = None
  /\ ts_front [1; 2; 3] = Some 1
  /\ ts_pop (@nil nat) = []
  /\ ts_pop (ts_push [] (inl 1)) = []
  /\ ts_push (@nil nat) (inr []) = []
  /\ ts_push [] (inl 1) = [1]
  /\ ts_push (ts_push (ts_push [] (inl 3)) (inl 2)) (inl 1) = [1; 2; 3]
  /\ ts_pop (ts_pop (ts_push (ts_push (ts_push [] (inl 3)) (inl 2)) (inl 1))) = [3]
  /\ ts_push [1; 2] (inr [3; 4]) = [3; 4; 1; 2]
  /\ ts_concat [[0]; [1; 2]; [3; 4; 5]; [6; 7; 8]; [9; 9; 9; 9; 9]]
     = Some [0; 1; 2; 3; 4; 5; 6; 7; 8; 9; 9; 9; 9; 9]
  /\ map reverse_pack [[]; [1]; [1; 2]; [1; 2; 3]; [1; 2; 3; 4]; [1; 2; 3; 4; 5; 6; 7; 8]]
     = [[]; [1]; [2; 1]; [3; 2; 1]; [4; 3; 2; 1]; [8; 7; 6; 5; 4; 3; 2; 1]].
Proof. repeat split. Qed.

(** test/static_string_tests.cpp: lengths, the conversion to a view and
    [make_static_string], with zero characters inside and at the end. *)
Example static_string_tests :
  let nul := "000"%char in
  let texts := [[]; ["a"]; ["a"; "b"; "c"]; ["a"; "b"; "c"; nul]; ["a"; "b"; "c"; nul; "d"]]%char in
  map (fun t => static_length (static_string_of (literal_array t))) texts = [0; 1; 3; 4; 5]
  /\ map (fun t => static_string_of (literal_array t)) texts = texts
  /\ map make_static_string texts = texts.
Proof. repeat split. Qed.

(** test/type_traits_tests.cpp: only a [std::string &&] is an owner that goes
    away; a type that is no reference is not ([T] without [&&]). *)
Example type_traits_tests :
  let string_ := A_object false true in
  is_expiring_memory_owner false string_ = false
  /\ is_expiring_memory_owner true string_ = true
  /\ is_expiring_memory_owner false A_string_view = false
  /\ is_expiring_memory_owner true A_string_view = false.
Proof. repeat split. Qed.

(** test/symbol_tests.cpp: bounds of repetitions. *)
Example symbol_tests :
  bound_is_zero (Fin 0) = true /\ bound_is_zero (Fin 1) = false /\ bound_is_zero Inf = false
  /\ is_infinity Inf = true /\ is_infinity (Fin 0) = false /\ is_infinity (Fin 1) = false
  /\ bound_decrement (Fin 2) = Fin 1 /\ bound_decrement (Fin 1) = Fin 0 /\ bound_decrement Inf = Inf
  /\ bound_subtract (Fin 2) 2 = Fin 0 /\ bound_subtract (Fin 2) 1 = Fin 1 /\ bound_subtract Inf 2 = Inf.
Proof. repeat split. Qed.

(** test/match_result_tests.cpp:12-18. *)
Definition is_expected_match (s : list ascii) (res : call match_res) : bool :=
  match res with
  | Returned r => matched r && Nat.eqb (result_length r) 4 && negb (cell_is_empty (group0 (groups r)))
                  && chars_eqb (match group0 (groups r) with Some (b, e) => firstn (e - b) (skipn b s) | None => [] end) (str "test")
                  && Nat.eqb (group_count r) 1
  | _ => false
  end.
(** test/match_result_tests.cpp:20-25. *)
Definition is_expected_non_match (res : call match_res) : bool :=
  match res with
  | Returned r => negb (matched r) && Nat.eqb (result_length r) 0 && cell_is_empty (group0 (groups r))
  | _ => false
  end.
Example match_result_tests :
  with_regex (str "test") [] (fun r =>
    is_expected_match (str "test") (regex_match r RandomAccessIt (str "test"))
    && is_expected_non_match (regex_match r RandomAccessIt (str "xxx"))
    && is_expected_match (str "test___") (regex_match_prefix r RandomAccessIt (str "test___"))
    && is_expected_non_match (regex_match_prefix r RandomAccessIt (str "_test"))
    && is_expected_match (str "___test___") (regex_search r RandomAccessIt (str "___test___"))
    && is_expected_non_match (regex_search r RandomAccessIt (str "xxx"))) = true.
Proof. vm_compute. reflexivity. Qed.

(** test/regex_traits_tests.cpp:19-30: flags and the names of groups. *)
Example regex_traits_tests :
  with_regex [] [] (fun r =>
    let r' := add_flags r [F_icase; F_dotall] in
    let cf := config_of (flags r') RandomAccessIt in
    dotall cf && icase cf && negb (multiline cf) && negb (ungreedy cf)
    && node_eqb (ast r) Empty) = true
  /\ check_names ([], []) = true
  /\ check_names (str "([a-zA-Z][a-zA-Z0-9]*)://([^ /]+)(/[^ ]*)?", [None; None; None]) = true
  /\ check_names (str "(?<test>[^ @]+)@([^ @]+)", [Some (str "test"); None]) = true.
Proof. repeat split; vm_compute; reflexivity. Qed.
