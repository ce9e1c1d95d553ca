(** Syntax trees: one constructor per node template declared in
    /repo/include/mregex/ast/astfwd.hpp.  A template instantiation in C++ is a
    value here. *)
From Verif Require Export Chars.

(** utility/enums.hpp:10-15 [match_mode]. *)
Inductive match_mode := Greedy | Lazy | Possessive.

(** utility/enums.hpp:31-35 [lookaround_direction]. *)
Inductive direction := Ahead | Behind.

(** symbols/quantifiers.hpp:18-21: [quantifier_value<N>] and [infinity].
    Values are [std::size_t]; the wrap-around is modelled where values are
    computed (Grammar.v), here they are plain [N]. *)
Inductive quantifier := Fin (n : N) | Inf.

(** symbols/names.hpp:12-18: [name<Name>] is [Some name], [unnamed] is [None]. *)
Definition group_name := option (list ascii).

(** ast/astfwd.hpp:10-143: the AST node templates.  [Rep mode lo hi x] is
    [basic_repetition<mode, quantifier_value<lo>, hi, x>] (the lower bound is a
    [finite_quantifier]); [Look d x] is [lookaround<d, x>]; [Neg x] is
    [negated<x>]. *)
Inductive node : Type :=
| Empty                                     (* empty              :100 *)
| BeginLine                                 (* beginning_of_line  :101 *)
| BeginInput                                (* beginning_of_input :102 *)
| EndLine                                   (* end_of_line        :103 *)
| EndInput                                  (* end_of_input       :104 *)
| WordB                                     (* word_boundary      :105 *)
| Wild                                      (* wildcard           :106 *)
| Lit (c : ascii)                           (* literal<C>         :108-109 *)
| Range (a b : ascii)                       (* range<A, B>        :111-112 *)
| CSet (l : list node)                      (* set<Nodes...>      :93-94 *)
| Neg (x : node)                            (* negated<Inner>     :96-97 *)
| Seq (l : list node)                       (* sequence<...>      :10-11 *)
| Alt (l : list node)                       (* alternation<...>   :13-14 *)
| Cap (id : N) (name : group_name) (x : node)   (* capture        :16-17 *)
| Rep (mode : match_mode) (lo : N) (hi : quantifier) (x : node) (* :26-27 *)
| Backref (id : N)                          (* backref<ID>        :123-124 *)
| NBackref (name : list ascii)              (* named_backref<Name>:126-127 *)
| Look (d : direction) (x : node).          (* lookaround         :130-131 *)

(** ast/astfwd.hpp:114. *)
Definition n_lower : node := Range "a" "z".
(** ast/astfwd.hpp:115. *)
Definition n_upper : node := Range "A" "Z".
(** ast/astfwd.hpp:116. *)
Definition n_digit : node := Range "0" "9".
(** ast/astfwd.hpp:118. *)
Definition n_nothing : node := CSet [].
(** ast/astfwd.hpp:119. *)
Definition n_word : node := CSet [n_lower; n_upper; n_digit; Lit "_"].
(** ast/astfwd.hpp:120. *)
Definition n_linebreak : node := CSet [Lit "010"; Lit "013"].
(** ast/astfwd.hpp:121. *)
Definition n_whitespace : node :=
  CSet [n_linebreak; Lit " "; Lit "009"; Lit "011"; Lit "012"].

(** ast/astfwd.hpp:51-52 [atomic<Inner>] = possessive_fixed_repetition<1, Inner>. *)
Definition atomic (x : node) : node := Rep Possessive 1 (Fin 1) x.

(** ast/astfwd.hpp:55-56 [basic_star]. *)
Definition star (m : match_mode) (x : node) : node := Rep m 0 Inf x.
(** ast/astfwd.hpp:68-69 [basic_plus]. *)
Definition plus (m : match_mode) (x : node) : node := Rep m 1 Inf x.
(** ast/astfwd.hpp:81-82 [basic_optional]. *)
Definition optional (m : match_mode) (x : node) : node := Rep m 0 (Fin 1) x.

(** Number of constructors of a tree: the fuel used by the tree-recursive
    functions of the model (a device of the model; the tree types are those of
    ast/astfwd.hpp:10-143). *)
Fixpoint size (n : node) : nat :=
  let sizes := fix sizes (l : list node) : nat :=
    match l with [] => 0 | x :: r => size x + sizes r end in
  match n with
  | CSet l | Seq l | Alt l => S (sizes l)
  | Neg x | Cap _ _ x | Rep _ _ _ x | Look _ x => S (size x)
  | _ => 1
  end.
