(** What parsing costs: the instantiations of [parser::parse].

    The functions repeat those of Parser.v line by line; [ParserDepth.v] proves
    that they have the same outcomes.  Counted are the instantiations of
    [parse] (parser/parser.hpp:55-71) for each step of the
    fold of parser/state.hpp:59-76; each instantiates the next one inside itself,
    so the number is also the depth of the template recursion.  Simplification:
    what [rule_t], [build_t] and [index_captures_t] instantiate is not counted. *)
From Verif Require Export Parser.

(** parser/parser.hpp:55-113: the next state with the number of instantiations
    of [parse] on the way. *)
Fixpoint c_parse_token (fuel : nat) (i : nat) (prev token : option ascii)
  (nodes : list node) (symbols : list symbol) : parser_state * nat :=
  match fuel with
  | 0 => (P_result P_loop, 0)
  | S f =>
      let again nodes symbols :=
        let (st, k) := c_parse_token f i prev token nodes symbols in (st, S k) in
      match symbols with
      | [] =>
          match rule_empty token with
          | Accept => (P_result (P_ok (accepted_tree nodes)), 1)
          | _ => (P_result (P_error i), 1)
          end
      | Act a :: r =>
          match build a prev nodes with
          | Some nodes' => again nodes' r
          | None => (P_result P_stuck, 1)
          end
      | s :: r =>
          match rule s token with
          | Ignore => again nodes r
          | Push l => again nodes (l ++ r)
          | Advance l => (P_state nodes (l ++ r), 1)
          | Reject => (P_result (P_error i), 1)
          | Accept => (P_result (P_ok (accepted_tree nodes)), 1)
          end
      end
  end.

(** parser/state.hpp:59-76: the result with the numbers for the steps of the
    fold. *)
Fixpoint c_parse_from (i : nat) (prev : option ascii) (rest : list ascii)
  (nodes : list node) (symbols : list symbol) : parse_result * list nat :=
  let (st, k) := c_parse_token (token_fuel symbols) i prev (hd_error rest) nodes symbols in
  match st with
  | P_result r => (r, [k])
  | P_state nodes' symbols' =>
      match rest with
      | [] => (P_stuck, [k])
      | c :: rest' =>
          let (r, ks) := c_parse_from (S i) (Some c) rest' nodes' symbols' in (r, k :: ks)
      end
  end.

(** parser/parser.hpp:115-118. *)
Definition c_parse (pattern : list ascii) : parse_result * list nat :=
  c_parse_from 0 None pattern [] [s_begin].
