(** The helper containers: /repo/include/mregex/utility/type_sequence.hpp,
    static_string.hpp, reversed_range_view.hpp, tuple.hpp and parser/lexer.hpp. *)
From Verif Require Export Traits.

(** utility/type_sequence.hpp:11-12 [type_sequence<Elems...>] is a list.
    17-21 [is_empty]. *)
Definition ts_is_empty {A : Type} (l : list A) : bool :=
  match l with [] => true | _ => false end.

(** utility/type_sequence.hpp:23-43 [front]; [None] is [symbol::empty]. *)
Definition ts_front {A : Type} (l : list A) : option A :=
  match l with [] => None | x :: _ => Some x end.

(** utility/type_sequence.hpp:45-65 [push]: the argument is a type or a
    sequence whose elements are pushed. *)
Definition ts_push {A : Type} (l : list A) (x : A + list A) : list A :=
  match x with inl t => t :: l | inr ts => ts ++ l end.

(** utility/type_sequence.hpp:67-87 [pop]. *)
Definition ts_pop {A : Type} (l : list A) : list A :=
  match l with [] => [] | _ :: r => r end.

(** utility/type_sequence.hpp:89-126 [concat]: by hand for up to three
    sequences; four are put together and the result stands before the rest.
    [fuel]: the number of sequences; every step removes three. *)
Fixpoint ts_concat_with {A : Type} (fuel : nat) (ls : list (list A)) : option (list A) :=
  match fuel with
  | 0 => None
  | S f =>
      match ls with
      | [] => Some []
      | [a] => Some a
      | [a; b] => Some (a ++ b)
      | [a; b; c] => Some (a ++ b ++ c)
      | a :: b :: c :: d :: r => ts_concat_with f ((a ++ b ++ c ++ d) :: r)
      end
  end.
(** utility/type_sequence.hpp:122-126 [concat_t]: with enough fuel. *)
Definition ts_concat {A : Type} (ls : list (list A)) : option (list A) :=
  ts_concat_with (S (length ls)) ls.

(** utility/static_string.hpp:27-31: from an array of [N + 1] characters, whose
    last one (the terminator) is not copied. *)
Definition static_string_of (array : list ascii) : list ascii :=
  firstn (length array - 1) array.

(** The array of a string literal: its characters and a terminator (the argument of
    utility/static_string.hpp:27). *)
Definition literal_array (t : list ascii) : list ascii := t ++ ["000"%char].

(** utility/static_string.hpp:77-81 [make_static_string<Chars...>]: the array of
    [N + 1] elements is initialised with [N] characters, the rest is zero. *)
Definition make_static_string (chars : list ascii) : list ascii :=
  static_string_of (chars ++ repeat "000"%char (S (length chars) - length chars)).

(** utility/static_string.hpp:33-36 [length]. *)
Definition static_length (t : list ascii) : nat := length t.
(** utility/static_string.hpp:63-66 [operator[]]. *)
Definition static_at (t : list ascii) (i : nat) : option ascii := nth_error t i.

(** parser/lexer.hpp:17-28 [token<I>]: [None] is [symbol::empty]. *)
Definition lexer_token (pattern : list ascii) (i : nat) : option ascii :=
  if Nat.ltb i (static_length pattern) then static_at pattern i else None.

(** utility/reversed_range_view.hpp:17-39: [std::reverse_iterator]s of both ends.
    A reverse iterator holds a position; it refers to the element before it, and
    increment moves it back.  [None]: access before the first element. *)
Definition reverse_deref {A : Type} (l : list A) (p : nat) : option A :=
  match p with 0 => None | S q => nth_error l q end.
(** utility/reversed_range_view.hpp:21, 25-28 [begin]. *)
Definition reversed_begin {A : Type} (l : list A) : nat := length l.
(** utility/reversed_range_view.hpp:22, 30-33 [end]. *)
Definition reversed_end {A : Type} (l : list A) : nat := 0.

(** A range-for loop over the view, as in ast/nodes/terminals/backref.hpp:52-57;
    [fuel] counts the elements. *)
Fixpoint reversed_loop {A : Type} (fuel : nat) (l : list A) (p : nat) : option (list A) :=
  if Nat.eqb p (reversed_end l) then Some []
  else
    match fuel with
    | 0 => None
    | S f =>
        match reverse_deref l p, reversed_loop f l (p - 1) with
        | Some x, Some r => Some (x :: r)
        | _, _ => None
        end
    end.
(** utility/reversed_range_view.hpp:15-38: the elements that such a loop visits. *)
Definition reversed_elements {A : Type} (l : list A) : option (list A) :=
  reversed_loop (length l) l (reversed_begin l).

(** Values that a function of the user returns to utility/tuple.hpp:14: the ones for
    which [std::tuple{x}] is not the tuple with the only element [x]. *)
Inductive value :=
| V_other (n : nat)
| V_pair (a b : value)
| V_tuple (l : list value).

(** [std::tuple{x ...}] of utility/tuple.hpp:14 with deduced arguments: a single
    [std::tuple] is copied and a single [std::pair] converted ([tuple.cnstr],
    [over.match.class.deduct] of the C++ standard). *)
Definition deduced_tuple (l : list value) : list value :=
  match l with
  | [V_tuple t] => t
  | [V_pair a b] => [a; b]
  | _ => l
  end.

(** utility/tuple.hpp:11-15, 32-40 [transform_tuple]; match_result.hpp:111-115
    [transform_groups]. *)
Definition transform_tuple {A : Type} (f : A -> value) (l : list A) : list value :=
  deduced_tuple (map f l).

(** utility/tuple.hpp:17-21, 48-56 [iterate_tuple]; match_result.hpp:122-126
    [for_each_group]: a fold over the comma operator, with the effect of one
    call on a state. *)
Definition iterate_tuple {A S : Type} (f : A -> S -> S) (l : list A) (st : S) : S :=
  fold_left (fun s x => f x s) l st.

(** ast/indexing.hpp:13-32 [capture_index_offsets]. *)
Fixpoint index_offsets (offset : N) (counts : list N) : list N :=
  match counts with
  | [] => []
  | c :: r => offset :: index_offsets (offset + c) r
  end.
