(** The expression interface: /repo/include/mregex/xpr. *)
From Verif Require Export Api Parser.

(** xpr/adapters.hpp:11-15, 36-40 [to_sequence]. *)
Definition to_sequence (str : list ascii) : node := Seq (map Lit str).

(** xpr/adapters.hpp:17-27 [flatten] for [Wrapper = sequence]: the two-element
    sequence of [a] and [b]. *)
Definition flatten_seq (a b : node) : node :=
  match a, b with
  | Seq l1, Seq l2 => Seq (l1 ++ l2)
  | Seq l1, _ => Seq (l1 ++ [b])
  | _, Seq l2 => Seq (a :: l2)
  | _, _ => Seq [a; b]
  end.

(** xpr/adapters.hpp:17-27 [flatten] for [Wrapper = alternation]. *)
Definition flatten_alt (a b : node) : node :=
  match a, b with
  | Alt l1, Alt l2 => Alt (l1 ++ l2)
  | Alt l1, _ => Alt (l1 ++ [b])
  | _, Alt l2 => Alt (a :: l2)
  | _, _ => Alt [a; b]
  end.

(** xpr/adapters.hpp:75-89 [flat_wrap_sequence]; [Wrapper<>] for no operand is
    the ill-formed [Seq []] / [Alt []]. *)
Definition flat_wrap (empty_wrapper : node) (fl : node -> node -> node)
  (l : list node) : node :=
  match l with
  | [] => empty_wrapper
  | x :: r => fold_left fl r x
  end.

(** xpr/components.hpp:15-19 [concat], xpr/operators.hpp:8-12 [>>]. *)
Definition x_concat (l : list node) : node := flat_wrap (Seq []) flatten_seq l.

(** xpr/components.hpp:22-26 [either], xpr/operators.hpp:14-18 [|]. *)
Definition x_either (l : list node) : node := flat_wrap (Alt []) flatten_alt l.

(** xpr/adapters.hpp:59-63 [pack_sequence]: a single operand is not wrapped. *)
Definition packed (l : list node) : node :=
  match l with [x] => x | _ => Seq l end.

(** xpr/components.hpp:29-33 [atomic]. *)
Definition x_atomic (l : list node) : node := atomic (packed l).

(** xpr/components.hpp:36-48 [capture<ID, Name>] and [capture<ID>],
    xpr/providers.hpp:12-17. *)
Definition x_capture (id : N) (nm : group_name) (l : list node) : node :=
  Cap id nm (packed l).

(** xpr/components.hpp:51-62 [between], xpr/providers.hpp:19-24. *)
Definition x_between (a b : N) (mode : match_mode) (l : list node) : node :=
  Rep mode a (Fin b) (packed l).

(** xpr/components.hpp:64-75 [at_least]. *)
Definition x_at_least (a : N) (mode : match_mode) (l : list node) : node :=
  Rep mode a Inf (packed l).

(** xpr/components.hpp:78-88 [exactly]. *)
Definition x_exactly (a : N) (mode : match_mode) (l : list node) : node :=
  x_between a a mode l.

(** xpr/components.hpp:91-101 [zero_or_more], xpr/operators.hpp:26-30 [*]. *)
Definition x_zero_or_more (mode : match_mode) (l : list node) : node :=
  x_at_least 0 mode l.

(** xpr/components.hpp:104-114 [one_or_more], xpr/operators.hpp:32-36 [+]. *)
Definition x_one_or_more (mode : match_mode) (l : list node) : node :=
  x_at_least 1 mode l.

(** xpr/components.hpp:117-127 [maybe]. *)
Definition x_maybe (mode : match_mode) (l : list node) : node :=
  x_between 0 1 mode l.

(** xpr/components.hpp:148-149 [str]. *)
Definition x_str (s : list ascii) : node := to_sequence s.

(** xpr/components.hpp:160-161 [negate], xpr/operators.hpp:20-24 [!]. *)
Definition x_negate (x : node) : node := Neg x.

(** xpr/components.hpp:164-168 [ahead]. *)
Definition x_ahead (l : list node) : node := Look Ahead (packed l).
(** xpr/components.hpp:170-174 [behind]. *)
Definition x_behind (l : list node) : node := Look Behind (packed l).

(** xpr/components.hpp:130 [empty]. *)
Definition x_empty : node := Empty.
(** xpr/components.hpp:131 [nothing]. *)
Definition x_nothing : node := n_nothing.
(** xpr/components.hpp:132 [begin_line]. *)
Definition x_begin_line : node := BeginLine.
(** xpr/components.hpp:133 [end_line]. *)
Definition x_end_line : node := EndLine.
(** xpr/components.hpp:134 [begin_input]. *)
Definition x_begin_input : node := BeginInput.
(** xpr/components.hpp:135 [end_input]. *)
Definition x_end_input : node := EndInput.
(** xpr/components.hpp:136 [word_boundary]. *)
Definition x_word_boundary : node := WordB.
(** xpr/components.hpp:137 [whitespace]. *)
Definition x_whitespace : node := n_whitespace.
(** xpr/components.hpp:138 [wildcard]. *)
Definition x_wildcard : node := Wild.
(** xpr/components.hpp:139 [lower]. *)
Definition x_lower : node := n_lower.
(** xpr/components.hpp:140 [upper]. *)
Definition x_upper : node := n_upper.
(** xpr/components.hpp:141 [digit]. *)
Definition x_digit : node := n_digit.
(** xpr/components.hpp:142 [word]. *)
Definition x_word : node := n_word.
(** xpr/components.hpp:143 [linebreak]. *)
Definition x_linebreak : node := n_linebreak.

(** xpr/components.hpp:145-146 [chr]. *)
Definition x_chr (c : ascii) : node := Lit c.
(** xpr/components.hpp:151-152 [range]. *)
Definition x_range (a b : ascii) : node := Range a b.
(** xpr/components.hpp:154-155 [group]. *)
Definition x_group (id : N) : node := Backref id.
(** xpr/components.hpp:157-158 [group_named]. *)
Definition x_group_named (nm : list ascii) : node := NBackref nm.

(** xpr/components.hpp:176-177 [regex]: the tree of the pattern, which keeps the
    numbers of its groups.  A rejected pattern is ill-formed (regex.hpp:24-26),
    which [Empty] stands for here. *)
Definition x_regex (p : list ascii) : node :=
  match parse p with P_ok n => n | _ => Empty end.
