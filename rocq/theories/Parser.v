(** The parser: /repo/include/mregex/parser and /repo/include/mregex/ast/build.hpp. *)
From Verif Require Export Grammar.

(** ast/build.hpp:25-244 [build<Symbol, Token, Nodes>]: the effect of a semantic
    action on the node stack (front = head); [token] is the token read last.
    [None]: no specialisation matches, which is a hard compile error. *)
Definition build (a : action) (token : option ascii) (nodes : list node)
  : option (list node) :=
  match a with
  | make_literal =>                                             (* 25-29 *)
      match token with Some c => Some (Lit c :: nodes) | None => None end
  | push_literal c => Some (Lit c :: nodes)                     (* 31-35 *)
  | make_empty => Some (Empty :: nodes)                         (* 37-41 *)
  | make_digit => Some (n_digit :: nodes)                       (* 43-47 *)
  | make_word => Some (n_word :: nodes)                         (* 49-53 *)
  | make_word_boundary => Some (WordB :: nodes)                 (* 55-59 *)
  | make_whitespace => Some (n_whitespace :: nodes)             (* 61-65 *)
  | make_linebreak => Some (n_linebreak :: nodes)               (* 67-71 *)
  | make_wildcard => Some (Wild :: nodes)                       (* 73-77 *)
  | make_beginning_of_line => Some (BeginLine :: nodes)         (* 79-83 *)
  | make_end_of_line => Some (EndLine :: nodes)                 (* 85-89 *)
  | make_beginning_of_input => Some (BeginInput :: nodes)       (* 91-95 *)
  | make_end_of_input => Some (EndInput :: nodes)               (* 97-101 *)
  | make_lookaround d =>                                        (* 103-107 *)
      match nodes with x :: r => Some (Look d x :: r) | [] => None end
  | make_negated =>                                             (* 109-113 *)
      match nodes with x :: r => Some (Neg x :: r) | [] => None end
  | make_sequence =>                                            (* 115-141 *)
      match nodes with
      | Seq l1 :: Seq l2 :: r => Some (Seq (l2 ++ l1) :: r)
      | Seq l1 :: y :: r => Some (Seq (y :: l1) :: r)
      | x :: Seq l2 :: r => Some (Seq (l2 ++ [x]) :: r)
      | x :: y :: r => Some (Seq [y; x] :: r)
      | _ => None
      end
  | make_alternation =>                                         (* 143-153 *)
      match nodes with
      | x :: Alt l2 :: r => Some (Alt (l2 ++ [x]) :: r)
      | x :: y :: r => Some (Alt [y; x] :: r)
      | _ => None
      end
  | make_capture nm =>                                          (* 155-161 *)
      match nodes with
      | x :: r =>
          Some (Cap (N.of_nat (list_sum (map capture_count nodes)) + 1) nm x :: r)
      | [] => None
      end
  | make_backref id => Some (Backref id :: nodes)               (* 163-167 *)
  | make_named_backref nm => Some (NBackref nm :: nodes)        (* 169-173 *)
  | make_repetition mode lo hi =>                               (* 175-179 *)
      match nodes with x :: r => Some (Rep mode lo hi x :: r) | [] => None end
  | make_set => Some (CSet [] :: nodes)                         (* 182-186 *)
  | make_set_from_current_char =>                               (* 188-199 *)
      match token with
      | Some c =>
          match nodes with
          | CSet l :: r => Some (CSet (Lit c :: l) :: r)
          | _ => Some (CSet [Lit c] :: nodes)
          end
      | None => None
      end
  | make_set_from_stack =>                                      (* 201-218 *)
      match nodes with
      | CSet l1 :: CSet l2 :: r => Some (CSet (l1 ++ l2) :: r)
      | x :: CSet l2 :: r => Some (CSet (x :: l2) :: r)
      | x :: r => Some (CSet [x] :: r)
      | [] => None
      end
  | make_range =>                                               (* 220-231 *)
      match token with
      | Some c =>
          match nodes with
          | CSet (Lit b :: l) :: r => Some (CSet (Range b c :: l) :: r)
          | CSet (x :: l) :: r => Some (CSet (Lit c :: Lit "-" :: x :: l) :: r)
          | _ => None
          end
      | None => None
      end
  | make_range_from_stack =>                                    (* 233-244 *)
      match nodes with
      | CSet (Lit a :: Lit b :: l) :: r => Some (CSet (Range b a :: l) :: r)
      | CSet (Lit c :: x :: l) :: r => Some (CSet (Lit c :: Lit "-" :: x :: l) :: r)
      | _ => None
      end
  end.

(** parser/state.hpp:14-18: the verdict, with the tree of an accepted pattern
    (state.hpp:27-39).  [P_stuck]: a semantic action has no [build]; [P_loop]:
    the template recursion does not end. *)
Inductive parse_result :=
| P_ok (n : node)
| P_error (position : nat)
| P_stuck
| P_loop.

(** parser/parser.hpp:109-113 and state.hpp:34-39: the tree of an accepted
    pattern; an empty node stack gives [ast::empty]. *)
Definition accepted_tree (nodes : list node) : node :=
  match nodes with [] => Empty | x :: _ => index_captures x end.

(** What [parse_t] arrives at: the next state (parser.hpp:88-99) or a result. *)
Inductive parser_state :=
| P_state (nodes : list node) (symbols : list symbol)
| P_result (r : parse_result).

(** parser/parser.hpp:55-113: [parse] and [transition] at position [i] with the
    current token and the previous one.  [fuel] bounds the template recursion. *)
Fixpoint parse_token (fuel : nat) (i : nat) (prev token : option ascii)
  (nodes : list node) (symbols : list symbol) : parser_state :=
  match fuel with
  | 0 => P_result P_loop
  | S f =>
      match symbols with
      | [] =>
          match rule_empty token with
          | Accept => P_result (P_ok (accepted_tree nodes))
          | _ => P_result (P_error i)
          end
      | Act a :: r =>                                                (* 65-71 *)
          match build a prev nodes with
          | Some nodes' => parse_token f i prev token nodes' r
          | None => P_result P_stuck
          end
      | s :: r =>
          match rule s token with
          | Ignore => parse_token f i prev token nodes r             (* 80-85 *)
          | Push l => parse_token f i prev token nodes (l ++ r)      (* 73-78 *)
          | Advance l => P_state nodes (l ++ r)                      (* 87-99 *)
          | Reject => P_result (P_error i)                           (* 101-106 *)
          | Accept => P_result (P_ok (accepted_tree nodes))          (* 108-113 *)
          end
      end
  end.

(** Fuel for one token (parser/parser.hpp:55-113): every stack symbol is replaced at most
    by a bounded number of symbols before the next token is read (device of the model). *)
Definition token_fuel (symbols : list symbol) : nat := 8 * S (length symbols).

(** parser/state.hpp:59-76 [advance_parser_state] over [length + 1] steps
    (85-86), with the tokens of parser/lexer.hpp:17-31.  A state left after the
    last step has no verdict ([P_stuck]). *)
Fixpoint parse_from (i : nat) (prev : option ascii) (rest : list ascii)
  (nodes : list node) (symbols : list symbol) : parse_result :=
  let token := hd_error rest in
  match parse_token (token_fuel symbols) i prev token nodes symbols with
  | P_result r => r
  | P_state nodes' symbols' =>
      match rest with
      | [] => P_stuck
      | c :: rest' => parse_from (S i) (Some c) rest' nodes' symbols'
      end
  end.

(** parser/parser.hpp:115-118. *)
Definition parse (pattern : list ascii) : parse_result :=
  parse_from 0 None pattern [] [s_begin].

From Coq Require String.
Export String.StringSyntax.
(** Strings as patterns and texts in examples (the literal of regex.hpp:24, given to
    utility/static_string.hpp:27-31). *)
Definition str (s : String.string) : list ascii := String.list_ascii_of_string s.
Declare Scope string_scope.
Delimit Scope string_scope with string.
Bind Scope string_scope with String.string.
Arguments str s%string.
