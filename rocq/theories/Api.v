(** The public matching interface: /repo/include/mregex/regex_methods.hpp,
    regex.hpp, match_result.hpp, regex_capture.hpp, match_result_generator.hpp,
    utility/input_range_adapter.hpp, regex_flags.hpp. *)
From Verif Require Export Matcher.

(** regex_flags.hpp:8-20 [regex_flag]. *)
Inductive regex_flag := F_icase | F_dotall | F_multiline | F_ungreedy | F_unroll.

(** Equality of flags (regex_flags.hpp:29). *)
Definition flag_eqb (a b : regex_flag) : bool :=
  match a, b with
  | F_icase, F_icase | F_dotall, F_dotall | F_multiline, F_multiline
  | F_ungreedy, F_ungreedy | F_unroll, F_unroll => true
  | _, _ => false
  end.

(** regex_flags.hpp:28-29 [test]. *)
Definition flag_test (fl : list regex_flag) (f : regex_flag) : bool :=
  existsb (flag_eqb f) fl.
(** regex_flags.hpp:31-35; the iterator category comes from the call. *)
Definition config_of (fl : list regex_flag) (ct : category) : config :=
  mk_config (flag_test fl F_icase) (flag_test fl F_dotall)
    (flag_test fl F_multiline) (flag_test fl F_ungreedy) (flag_test fl F_unroll) ct.

(** regex.hpp:28-33 [regex_adapter<AST, Flags...>]. *)
Record regex := mk_regex { ast : node; flags : list regex_flag }.

(** regex.hpp:56-57 [add_flags], xpr/flags.hpp:11-12. *)
Definition add_flags (r : regex) (extra : list regex_flag) : regex :=
  mk_regex (ast r) (flags r ++ extra).

(** regex.hpp:62 [clear_flags], xpr/flags.hpp:17-18. *)
Definition clear_flags (r : regex) : regex := mk_regex (ast r) [].

(** Assignment [std::get<0>(ctx.captures) = regex_capture_view{current, end}]
    (regex_methods.hpp:23, 41, 62).  The tuple always has element 0. *)
Definition set_group0 (b e : nat) (c : caps) : caps :=
  match c with [] => [] | _ :: r => Some (b, e) :: r end.

(** A regex method (regex_methods.hpp:20, 38, 56 [invoke]): from a start offset and
    captures to an outcome. *)
Definition method := config -> node -> list ascii -> nat -> caps -> outcome.

(** regex_methods.hpp:19-25 [regex_match_method::invoke]. *)
Definition match_method : method := fun cf n s cur c =>
  match node_match cf (group_names n) s 0 n cur c (equals (length s)) with
  | Res c' e b => Res (set_group0 cur e c') e b
  | o => o
  end.

(** regex_methods.hpp:37-43 [regex_match_prefix_method::invoke]. *)
Definition match_prefix_method : method := fun cf n s cur c =>
  match node_match cf (group_names n) s 0 n cur c success with
  | Res c' e b => Res (set_group0 cur e c') e b
  | o => o
  end.

(** regex_methods.hpp:55-69 [regex_search_method::invoke]; [fuel] counts the
    remaining start offsets ([Diverge] if [current] could pass [end]). *)
Fixpoint search_loop (fuel : nat) (cf : config) (n : node) (s : list ascii)
  (cur : nat) (c : caps) : outcome :=
  match fuel with
  | 0 => Diverge
  | S f =>
      match node_match cf (group_names n) s 0 n cur c success with
      | Res c' e true => Res (set_group0 cur e c') e true
      | Res c' _ false =>
          if Nat.eqb cur (length s) then non_match cur c'
          else search_loop f cf n s (S cur) c'
      | o => o
      end
  end.
(** regex_methods.hpp:55-69: the loop with enough fuel. *)
Definition search_method : method := fun cf n s cur c =>
  search_loop (S (length s - cur)) cf n s cur c.

(** match_result.hpp:41-55, 300-301: the captures and the verdict. *)
Record match_res := mk_res { groups : caps; matched : bool }.

(** Outcome of a call of the public interface (regex.hpp:76-271). *)
Inductive call (A : Type) :=
| Returned (a : A)
| UndefinedBehaviour
| DoesNotCompile
| DoesNotReturn.
Arguments Returned {A}. Arguments UndefinedBehaviour {A}.
Arguments DoesNotCompile {A}. Arguments DoesNotReturn {A}.

(** Translation of the outcome of [Method::invoke] (regex.hpp:278). *)
Definition to_call {A} (o : outcome) (f : caps -> nat -> bool -> A) : call A :=
  match o with
  | Res c e b => Returned (f c e b)
  | Undef => UndefinedBehaviour
  | IllFormed => DoesNotCompile
  | Diverge => DoesNotReturn
  end.

(** regex.hpp:273-280 [invoke]: fresh captures, start at [begin]. *)
Definition invoke (mt : method) (r : regex) (ct : category) (s : list ascii)
  : call match_res :=
  let cf := config_of (flags r) ct in
  if compilable cf (ast r) then
    to_call (mt cf (ast r) s 0 (initial_captures (ast r)))
      (fun c _ b => mk_res c b)
  else DoesNotCompile.

(** regex.hpp:76-80, 175-184 [match]. *)
Definition regex_match := invoke match_method.
(** regex.hpp:90-94, 193-202 [match_prefix]. *)
Definition regex_match_prefix := invoke match_prefix_method.
(** regex.hpp:104-108, 211-220 [search]. *)
Definition regex_search := invoke search_method.

(** match_result_generator.hpp:50-54: the state ([_begin] and [_end] are the
    ends of the text). *)
Record generator := mk_gen { current : nat; active : bool }.

(** match_result_generator.hpp:24-26: the constructor. *)
Definition new_generator : generator := mk_gen 0 true.

(** regex_capture.hpp:62-65 [is_empty]; for value-initialised iterators the two
    are equal. *)
Definition cell_is_empty (v : cell) : bool :=
  match v with Some (b, e) => Nat.eqb b e | None => true end.

(** [std::get<0>(captures)] (match_result.hpp:64, match_result_generator.hpp:40). *)
Definition group0 (c : caps) : cell := hd None c.

(** match_result_generator.hpp:33-43 [next]. *)
Definition next (mt : method) (cf : config) (n : node) (s : list ascii)
  (g : generator) : call (match_res * generator) :=
  let c0 := initial_captures n in
  if active g then
    to_call (mt cf n s (current g) c0)
      (fun c e b => (mk_res c b, mk_gen e (b && negb (cell_is_empty (group0 c)))))
  else Returned (mk_res c0 false, g).

(** The first [k] results of calling the generator repeatedly
    (match_result_generator.hpp:28-31). *)
Fixpoint generate (mt : method) (cf : config) (n : node) (s : list ascii)
  (k : nat) (g : generator) : call (list match_res) :=
  match k with
  | 0 => Returned []
  | S k' =>
      match next mt cf n s g with
      | Returned (r, g') =>
          match generate mt cf n s k' g' with
          | Returned l => Returned (r :: l)
          | UndefinedBehaviour => UndefinedBehaviour
          | DoesNotCompile => DoesNotCompile
          | DoesNotReturn => DoesNotReturn
          end
      | UndefinedBehaviour => UndefinedBehaviour
      | DoesNotCompile => DoesNotCompile
      | DoesNotReturn => DoesNotReturn
      end
  end.

(** input_range_adapter.hpp:24-28 (the constructor calls the generator once),
    60-64 and 135-138 (increment calls it), 78-81 and 110-113 (the range ends
    when the current result is false): the elements seen by a range-for loop.
    [fuel] bounds the number of elements; [DoesNotReturn] when exceeded. *)
Fixpoint range_elements (fuel : nat) (mt : method) (cf : config) (n : node)
  (s : list ascii) (g : generator) : call (list match_res) :=
  match fuel with
  | 0 => DoesNotReturn
  | S f =>
      match next mt cf n s g with
      | Returned (r, g') =>
          if matched r then
            match range_elements f mt cf n s g' with
            | Returned l => Returned (r :: l)
            | o => o
            end
          else Returned []
      | UndefinedBehaviour => UndefinedBehaviour
      | DoesNotCompile => DoesNotCompile
      | DoesNotReturn => DoesNotReturn
      end
  end.

(** regex.hpp:151-169: a range adapter around a generator. *)
Definition range_of (mt : method) (r : regex) (ct : category) (s : list ascii)
  : call (list match_res) :=
  let cf := config_of (flags r) ct in
  if compilable cf (ast r)
  then range_elements (S (S (length s))) mt cf (ast r) s new_generator
  else DoesNotCompile.
(** regex.hpp:151-155, 251-260 [tokenize]. *)
Definition tokenize := range_of match_prefix_method.
(** regex.hpp:165-169, 262-271 [find_all]. *)
Definition find_all := range_of search_method.

(** The first [k] results of a generator (match_result_generator.hpp:28-43). *)
Definition generator_results (mt : method) (r : regex) (ct : category)
  (s : list ascii) (k : nat) : call (list match_res) :=
  let cf := config_of (flags r) ct in
  if compilable cf (ast r)
  then generate mt cf (ast r) s k new_generator
  else DoesNotCompile.
(** regex.hpp:120-124, 229-238 [tokenizer]. *)
Definition tokenizer := generator_results match_prefix_method.
(** regex.hpp:136-140, 240-249 [searcher]. *)
Definition searcher := generator_results search_method.

(** regex_capture.hpp:67-70 [length]. *)
Definition cell_length (v : cell) : nat :=
  match v with Some (b, e) => e - b | None => 0 end.

(** regex_capture.hpp:82-88 [content]: the characters in [_begin, _end). *)
Definition cell_content (s : list ascii) (v : cell) : list ascii :=
  match v with Some (b, e) => firstn (e - b) (skipn b s) | None => [] end.

(** regex_capture.hpp:102-105 (view) and 193-196 (owner) [operator bool]. *)
Definition cell_to_bool (v : cell) : bool := cell_is_empty v.

(** match_result.hpp:47 [group_count]. *)
Definition group_count (r : match_res) : nat := length (groups r).

(** match_result.hpp:62-65 [length()]. *)
Definition result_length (r : match_res) : nat := cell_length (group0 (groups r)).

(** match_result.hpp:136-140, 286-291 [group<ID>()]: [None] does not compile. *)
Definition group (r : match_res) (id : nat) : option cell := nth_error (groups r) id.

(** match_result.hpp:150-154, 293-298 [group<Name>()]: [std::get] by type needs
    exactly one group of that name. *)
Definition group_named (n : node) (r : match_res) (nm : list ascii) : option cell :=
  match unique_position (Some nm) (group_names n) with
  | Some i => nth_error (groups r) i
  | None => None
  end.

(** match_result.hpp:276-284 [as_optional]. *)
Definition as_optional (r : match_res) : option match_res :=
  if matched r then Some r else None.

(** match_result.hpp:37-38 and regex_capture.hpp:123-205: a result that owns
    copies of the captured strings. *)
Record owned_res := mk_owned { owned_groups : list (list ascii); owned_matched : bool }.

(** match_result.hpp:83-92 [as_memory_owner] through tuple.hpp:11-15. *)
Definition as_memory_owner (s : list ascii) (r : match_res) : owned_res :=
  mk_owned (map (cell_content s) (groups r)) (matched r).

(** regex_capture.hpp:133-136, 193-196 for the owning capture. *)
Definition owned_to_bool (content : list ascii) : bool :=
  match content with [] => true | _ => false end.
