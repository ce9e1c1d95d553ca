(** The grammar of patterns: symbols (/repo/include/mregex/symbols) and the
    rules of /repo/include/mregex/grammar. *)
From Verif Require Export Traits.

(** symbols/actions.hpp:18-66: symbols that stand for a semantic action.  The
    aliases [make_star], [make_plus], [make_optional] and [make_atomic] (48-57)
    are instances of [make_repetition]. *)
Inductive action :=
| make_sequence | make_alternation
| make_set | make_set_from_current_char | make_set_from_stack
| make_range | make_range_from_stack
| make_digit | make_word | make_linebreak | make_negated | make_empty
| make_beginning_of_line | make_beginning_of_input
| make_end_of_line | make_end_of_input
| make_word_boundary | make_whitespace | make_wildcard | make_literal
| push_literal (c : ascii)
| make_capture (nm : group_name)
| make_repetition (mode : match_mode) (lo : N) (hi : quantifier)
| make_backref (id : N)
| make_named_backref (nm : list ascii)
| make_lookaround (d : direction).

(** symbols/core.hpp:12-59 and symbols/quantifiers.hpp:12-21, 146-148: the other
    stack symbols.  [symbol::empty] is the front of an empty stack
    (type_sequence.hpp [front]), so it needs no constructor. *)
Inductive symbol :=
| Act (a : action)
| expect (c : ascii)
| s_begin | s_esc | s_seq | s_alt | s_alt_seq | s_mod
| group_begin_or_mod | group_mod | group_mod_less_than | group_begin
| set_begin_or_neg | set_begin | set_seq | set_esc
| set_range_begin | set_range_seq | set_range_esc
| backref_name_begin
| backref_id (id : N)
| backref_name_seq (chars : list ascii)
| capture_name_seq (chars : list ascii)
| hex_esc_seq (digits : list N)
| quantifier_begin
| quantifier_value (n : N)
| quantifier_range (lo : N) (hi : quantifier)
| quantifier_mod (mode : match_mode) (lo : N) (hi : quantifier)
| unquantifiable.

(** grammar/actions.hpp:8-17 and the shapes of [rule_t] results used by
    parser.hpp:73-113: [Push] puts symbols on the stack without reading,
    [Advance] reads the token and puts symbols on the stack. *)
Inductive step :=
| Ignore
| Push (l : list symbol)
| Advance (l : list symbol)
| Reject
| Accept.

(** Character equality, as template specialisation on [symbol::character<C>]. *)
Notation "a == b" := (Ascii.eqb a b) (at level 70, no associativity).

(** A [std::size_t] value: reduction modulo 2^64 (used by grammar/backrefs.hpp:60,
    grammar/quantifiers.hpp:81, 93). *)
Definition size_t (n : N) : N := N.modulo n (2 ^ 64).

(** [C - '0'] for a digit (grammar/backrefs.hpp:22, grammar/quantifiers.hpp:54, 105). *)
Definition digit_value (c : ascii) : N := (code c - 48)%N.

(** [10 * N + C - '0'] in [std::size_t] (grammar/backrefs.hpp:60,
    grammar/quantifiers.hpp:81, 93). *)
Definition push_digit (n : N) (c : ascii) : N := size_t (10 * n + digit_value c).

(** grammar/hexadecimal.hpp:22: value of a hexadecimal digit. *)
Definition hex_value (c : ascii) : N :=
  if is_digit c then (code c - 48)%N else (10 + code (set_lowercase_bit c) - 97)%N.

(** grammar/escapes.hpp:14-252 [handle_escaped_char]. *)
Definition handle_escaped_char (c : ascii) : step :=
  if c == "0" then Advance [Act (push_literal "000")]
  else if c == "n" then Advance [Act (push_literal "010")]
  else if c == "r" then Advance [Act (push_literal "013")]
  else if c == "t" then Advance [Act (push_literal "009")]
  else if c == "f" then Advance [Act (push_literal "012")]
  else if c == "v" then Advance [Act (push_literal "011")]
  else if c == "a" then Advance [Act (push_literal "007")]
  else if c == "e" then Advance [Act (push_literal "027")]
  else if c == "d" then Advance [Act make_digit]
  else if c == "D" then Advance [Act make_digit; Act make_negated]
  else if c == "w" then Advance [Act make_word]
  else if c == "W" then Advance [Act make_word; Act make_negated]
  else if c == "s" then Advance [Act make_whitespace]
  else if c == "S" then Advance [Act make_whitespace; Act make_negated]
  else if c == "R" then Advance [Act make_linebreak]
  else if c == "N" then Advance [Act make_linebreak; Act make_negated]
  else if c == "b" then Advance [Act make_word_boundary; unquantifiable]
  else if c == "B" then Advance [Act make_word_boundary; Act make_negated; unquantifiable]
  else if c == "A" then Advance [Act make_beginning_of_input; unquantifiable]
  else if c == "Z" then Advance [Act make_end_of_input; unquantifiable]
  else Advance [Act make_literal].

(** grammar/escapes.hpp:259-273 [handle_escape_sequence] with
    grammar/backrefs.hpp:15-38 and grammar/hexadecimal.hpp:39-47. *)
Definition handle_escape_sequence (c : ascii) : step :=
  if c == "k" then Advance [expect "<"; backref_name_begin]
  else if c == "x" then Advance [hex_esc_seq []]
  else if negb (c == "0") && is_digit c then Advance [backref_id (digit_value c)]
  else handle_escaped_char c.

(** grammar/escapes.hpp:282-333 [handle_set_escape_sequence]. *)
Definition handle_set_escape_sequence (c : ascii) : step :=
  if c == "x" then Advance [hex_esc_seq []]
  else if c == "A" then Advance [Act make_literal]
  else if c == "Z" then Advance [Act make_literal]
  else if c == "B" then Advance [Act make_literal]
  else if c == "b" then Advance [Act (push_literal "008")]
  else handle_escaped_char c.

(** grammar/escapes.hpp:341-394 [handle_set_range_escape_sequence]. *)
Definition handle_set_range_escape_sequence (c : ascii) : step :=
  if (c == "d") || (c == "D") || (c == "w") || (c == "W") || (c == "s")
     || (c == "S") || (c == "R") || (c == "N") then Reject
  else handle_set_escape_sequence c.

(** grammar/hexadecimal.hpp:12-33 and 55-76 [continue_hex_escape_sequence]. *)
Definition continue_hex_escape_sequence (digits : list N) (token : option ascii) : step :=
  match digits with
  | [a; b] => Push [Act (push_literal (ascii_of_N (a * 16 + b)))]
  | _ =>
      match token with
      | Some c =>
          if Nat.ltb (length digits) 2 && is_hexdigit c
          then Advance [hex_esc_seq (digits ++ [hex_value c])]
          else Reject
      | None => Reject
      end
  end.

(** grammar/names.hpp:16-35 [begin_name]. *)
Definition begin_name (name : list ascii -> symbol) (c : ascii) : step :=
  if is_word c && negb (is_digit c) then Advance [name [c]] else Reject.

(** grammar/names.hpp:43-62 [continue_name]. *)
Definition continue_name (name : list ascii -> symbol) (chars : list ascii) (c : ascii)
  : step :=
  if is_word c then Advance [name (chars ++ [c])] else Reject.

(** grammar/quantifiers.hpp:17-32 [abort_quantifier_parsing]. *)
Definition abort_quantifier_parsing (c : ascii) : step :=
  Push [Act (push_literal c); s_mod; Act make_sequence; s_seq; s_alt].

(** grammar/quantifiers.hpp:40-59 [begin_quantifier_value]. *)
Definition begin_quantifier_value (c : ascii) : step :=
  if is_digit c then Advance [quantifier_value (digit_value c)]
  else abort_quantifier_parsing "{".

(** grammar/quantifiers.hpp:67-110 [continue_quantifier_value] for a value. *)
Definition continue_quantifier_value (n : N) (c : ascii) : step :=
  if is_digit c then Advance [quantifier_value (push_digit n c)] else Reject.
(** grammar/quantifiers.hpp:67-110 [continue_quantifier_value] for a range. *)
Definition continue_quantifier_range (lo : N) (hi : quantifier) (c : ascii) : step :=
  if is_digit c then
    Advance [quantifier_range lo
               (Fin (match hi with Fin n => push_digit n c | Inf => digit_value c end))]
  else Reject.

(** The rules of grammar.hpp that read one atom are the same for [begin]
    (26-54, 87-158), [group_begin_or_mod] (167-197, 229-241, 250-305),
    [group_begin] (439-467, 500-511, 520-571), [alt_seq] (789-815, 848-914) and
    [seq] (923-951, 984-1055), up to the symbols that follow the atom: [tail].
    Simplification: one function for the five groups of rules. *)
Definition atom (tail : list symbol) (c : ascii) : step :=
  if c == "[" then
    Advance (Act make_set :: set_begin_or_neg :: expect "]" :: s_mod :: tail)
  else if c == "(" then Advance (group_begin_or_mod :: expect ")" :: s_mod :: tail)
  else if c == "\" then Advance (s_esc :: s_mod :: tail)
  else if c == "." then Advance (Act make_wildcard :: s_mod :: tail)
  else if c == "^" then Advance (Act make_beginning_of_line :: tail)
  else if c == "$" then Advance (Act make_end_of_line :: tail)
  else Advance (Act make_literal :: s_mod :: tail).

(** Characters that cannot begin an atom: [*], [+], [{] (grammar/grammar.hpp:63-73, 81-85
    and the same rules for the other symbols). *)
Definition is_star_plus_brace (c : ascii) : bool :=
  (c == "*") || (c == "+") || (c == "{").

(** grammar/grammar.hpp:20-24 and the specialisations in the order of the file;
    [None] is the token [symbol::empty] (the end of the pattern).  [expect],
    1305-1309. *)
Definition rule (s : symbol) (token : option ascii) : step :=
  match s with
  | s_begin =>                                                   (* 26-165 *)
      match token with
      | Some c =>
          if (c == ")") || is_star_plus_brace c || (c == "?") || (c == "|")
          then Reject else atom [s_seq; s_alt] c
      | None => Ignore
      end
  | group_begin_or_mod =>                                      (* 167-323 *)
      match token with
      | Some c =>
          if c == ")" then Push [Act make_empty; Act (make_capture None)]
          else if is_star_plus_brace c || (c == "|") then Reject
          else if c == "?" then Advance [group_mod]
          else atom [s_seq; s_alt; Act (make_capture None)] c
      | None => Ignore
      end
  | group_mod =>                                               (* 325-388 *)
      match token with
      | Some c =>
          if c == ":" then Advance [group_begin]
          else if c == "<" then Advance [group_mod_less_than]
          else if c == ">" then
            Advance [group_begin; Act (make_repetition Possessive 1 (Fin 1))]
          else if c == "=" then Advance [group_begin; Act (make_lookaround Ahead)]
          else if c == "!" then
            Advance [group_begin; Act (make_lookaround Ahead); Act make_negated]
          else Reject
      | None => Reject
      end
  | group_mod_less_than =>                                     (* 390-419 *)
      match token with
      | Some c =>
          if c == "=" then Advance [group_begin; Act (make_lookaround Behind)]
          else if c == "!" then
            Advance [group_begin; Act (make_lookaround Behind); Act make_negated]
          else begin_name capture_name_seq c
      | None => Reject
      end
  | capture_name_seq chars =>                                  (* 421-437 *)
      match token with
      | Some c =>
          if c == ">" then Advance [group_begin; Act (make_capture (Some chars))]
          else continue_name capture_name_seq chars c
      | None => Reject
      end
  | group_begin =>                                             (* 439-578 *)
      match token with
      | Some c =>
          if c == ")" then Push [Act make_empty]
          else if (c == "?") || is_star_plus_brace c || (c == "|") then Reject
          else atom [s_seq; s_alt] c
      | None => Ignore
      end
  | s_alt =>                                                     (* 580-609 *)
      match token with
      | Some c =>
          if c == ")" then Ignore
          else if c == "|" then Advance [s_alt_seq; Act make_alternation; s_alt]
          else Reject
      | None => Ignore
      end
  | s_esc =>                                                     (* 611-615 *)
      match token with Some c => handle_escape_sequence c | None => Reject end
  | hex_esc_seq digits =>                                      (* 617-621 *)
      continue_hex_escape_sequence digits token
  | s_mod =>                                                     (* 623-671 *)
      match token with
      | Some c =>
          if c == "*" then Advance [quantifier_mod Greedy 0 Inf]
          else if c == "+" then Advance [quantifier_mod Greedy 1 Inf]
          else if c == "?" then Advance [quantifier_mod Greedy 0 (Fin 1)]
          else if c == "{" then Advance [quantifier_begin]
          else Ignore
      | None => Ignore
      end
  | unquantifiable =>                                          (* 673-701 *)
      match token with
      | Some c => if is_star_plus_brace c || (c == "?") then Reject else Ignore
      | None => Ignore
      end
  | quantifier_begin =>                                        (* 703-713 *)
      match token with
      | Some c => begin_quantifier_value c
      | None => abort_quantifier_parsing "{"
      end
  | quantifier_value n =>                                      (* 715-742 *)
      match token with
      | Some c =>
          if c == "}" then Advance [quantifier_mod Greedy n (Fin n)]
          else if c == "," then Advance [quantifier_range n Inf]
          else continue_quantifier_value n c
      | None => Reject
      end
  | quantifier_range lo hi =>                                  (* 744-759 *)
      match token with
      | Some c =>
          if c == "}" then Advance [quantifier_mod Greedy lo hi]
          else continue_quantifier_range lo hi c
      | None => Reject
      end
  | quantifier_mod mode lo hi =>                               (* 761-787 *)
      match token with
      | Some c =>
          if c == "?" then Advance [Act (make_repetition Lazy lo hi)]
          else if c == "+" then Advance [Act (make_repetition Possessive lo hi)]
          else Push [Act (make_repetition mode lo hi)]
      | None => Push [Act (make_repetition mode lo hi)]
      end
  | s_alt_seq =>                                                 (* 789-921 *)
      match token with
      | Some c =>
          if (c == ")") || is_star_plus_brace c || (c == "?") || (c == "|")
          then Reject else atom [s_seq] c
      | None => Reject
      end
  | s_seq =>                                                     (* 923-1062 *)
      match token with
      | Some c =>
          if (c == ")") || (c == "|") then Ignore
          else if is_star_plus_brace c || (c == "?") then Reject
          else atom [Act make_sequence; s_seq] c
      | None => Ignore
      end
  | set_begin_or_neg =>                                        (* 1065-1106 *)
      match token with
      | Some c =>
          if c == "^" then Advance [set_begin; Act make_negated]
          else if c == "\" then Advance [set_esc; Act make_set_from_stack; set_seq]
          else if c == "]" then Ignore
          else Advance [Act make_set_from_current_char; set_seq]
      | None => Reject
      end
  | set_begin =>                                               (* 1108-1137 *)
      match token with
      | Some c =>
          if c == "]" then Ignore
          else if c == "\" then Advance [set_esc; Act make_set_from_stack; set_seq]
          else Advance [Act make_set_from_current_char; set_seq]
      | None => Reject
      end
  | set_seq =>                                                 (* 1139-1180 *)
      match token with
      | Some c =>
          if c == "]" then Ignore
          else if c == "\" then Advance [set_esc; Act make_set_from_stack; set_seq]
          else if c == "-" then Advance [set_range_begin; set_seq]
          else Advance [Act make_set_from_current_char; set_seq]
      | None => Reject
      end
  | set_esc =>                                                 (* 1182-1186 *)
      match token with Some c => handle_set_escape_sequence c | None => Reject end
  | set_range_begin =>                                         (* 1188-1223 *)
      match token with
      | Some c =>
          if c == "]" then Push [Act (push_literal "-"); Act make_set_from_stack]
          else if c == "\" then
            Advance [set_range_esc; Act make_set_from_stack;
                     Act make_range_from_stack; set_range_seq]
          else Advance [Act make_range; set_range_seq]
      | None => Reject
      end
  | set_range_seq =>                                           (* 1225-1254 *)
      match token with
      | Some c =>
          if c == "\" then Advance [set_esc; Act make_set_from_stack; set_seq]
          else if c == "]" then Ignore
          else Advance [Act make_set_from_current_char; set_seq]
      | None => Reject
      end
  | set_range_esc =>                                           (* 1256-1266 *)
      match token with
      | Some c => handle_set_range_escape_sequence c
      | None => Reject
      end
  | backref_id id =>                                           (* 1269-1279, backrefs.hpp:46-65 *)
      match token with
      | Some c =>
          if is_digit c then Advance [backref_id (push_digit id c)]
          else Push [Act (make_backref id)]
      | None => Push [Act (make_backref id)]
      end
  | backref_name_begin =>                                      (* 1282-1286 *)
      match token with
      | Some c => begin_name backref_name_seq c
      | None => Reject
      end
  | backref_name_seq chars =>                                  (* 1288-1303 *)
      match token with
      | Some c =>
          if c == ">" then Advance [Act (make_named_backref chars)]
          else continue_name backref_name_seq chars c
      | None => Reject
      end
  | expect x =>                                                (* 1305-1309 *)
      match token with
      | Some c => if c == x then Advance [] else Reject
      | None => Reject
      end
  | Act _ => Reject      (* never looked up: parser.hpp:65-71 handles actions *)
  end.

(** grammar/grammar.hpp:1311-1315 and 20-24: the rule of [symbol::empty], the
    front of an empty symbol stack. *)
Definition rule_empty (token : option ascii) : step :=
  match token with None => Accept | Some _ => Reject end.
