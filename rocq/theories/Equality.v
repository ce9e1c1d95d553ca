(** Boolean equality of trees, used by examples (no counterpart in /repo: in
    C++ it is equality of types). *)
From Verif Require Import Matcher.

(** Equality of the modes of utility/enums.hpp:10-15. *)
Definition mode_eqb (a b : match_mode) : bool :=
  match a, b with
  | Greedy, Greedy | Lazy, Lazy | Possessive, Possessive => true
  | _, _ => false
  end.
(** Equality of the directions, utility/enums.hpp:31-35 (an enumeration there; parameter
    of ast/predicates/lookaround_predicate.hpp:11-52). *)
Definition direction_eqb (a b : direction) : bool :=
  match a, b with Ahead, Ahead | Behind, Behind => true | _, _ => false end.
(** Equality of quantifiers, symbols/quantifiers.hpp:18-21 (types there). *)
Definition quantifier_eqb (a b : quantifier) : bool :=
  match a, b with
  | Fin x, Fin y => N.eqb x y
  | Inf, Inf => true
  | _, _ => false
  end.
(** Equality of argument lists (no counterpart: equality of parameter packs such as that
    of ast/astfwd.hpp:10-14). *)
Fixpoint list_eqb {A} (f : A -> A -> bool) (l1 l2 : list A) : bool :=
  match l1, l2 with
  | [], [] => true
  | x :: r1, y :: r2 => f x y && list_eqb f r1 r2
  | _, _ => false
  end.
(** Equality of lists of group names (no counterpart: symbols/names.hpp:12-18 are types). *)
Definition names_eqb : list group_name -> list group_name -> bool := list_eqb name_eqb.
(** Equality of the node types of ast/astfwd.hpp:10-143 (no counterpart: equality of types). *)
Fixpoint node_eqb (a b : node) {struct a} : bool :=
  let nodes_eqb := fix go (l1 l2 : list node) : bool :=
    match l1, l2 with
    | [], [] => true
    | x :: r1, y :: r2 => node_eqb x y && go r1 r2
    | _, _ => false
    end in
  match a, b with
  | Empty, Empty | BeginLine, BeginLine | BeginInput, BeginInput
  | EndLine, EndLine | EndInput, EndInput | WordB, WordB | Wild, Wild => true
  | Lit x, Lit y => Ascii.eqb x y
  | Range x y, Range x' y' => Ascii.eqb x x' && Ascii.eqb y y'
  | CSet l1, CSet l2 | Seq l1, Seq l2 | Alt l1, Alt l2 => nodes_eqb l1 l2
  | Neg x, Neg y => node_eqb x y
  | Cap i n x, Cap j n' y => N.eqb i j && name_eqb n n' && node_eqb x y
  | Rep m lo hi x, Rep m' lo' hi' y =>
      mode_eqb m m' && N.eqb lo lo' && quantifier_eqb hi hi' && node_eqb x y
  | Backref i, Backref j => N.eqb i j
  | NBackref x, NBackref y => chars_eqb x y
  | Look d x, Look d' y => direction_eqb d d' && node_eqb x y
  | _, _ => false
  end.
