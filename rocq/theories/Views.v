(** Reading a result: /repo/include/mregex/regex_capture.hpp and
    match_result.hpp; texts of other character types: utility/concepts.hpp.
    [None] is undefined behaviour. *)
From Verif Require Export Api.
From Coq Require Import ZArith.

(** What [if constexpr] and overload resolution look at: contiguous iterators
    (regex_capture.hpp:49), other random access iterators, all others. *)
Inductive layout := Contiguous | RandomAccess | Linked.

(** Reading [first, last) one by one ([std::copy] of regex_capture.hpp:247, the
    constructor of [std::string] from two iterators in 87 and 130); [fuel]: more steps
    than the text has. *)
Fixpoint copy_range (fuel : nat) (s : list ascii) (b e : nat) : option (list ascii) :=
  if Nat.eqb b e then Some []
  else match fuel with
       | 0 => None
       | S f =>
           match nth_error s b with
           | Some a => option_map (cons a) (copy_range f s (S b) e)
           | None => None
           end
       end.

(** [std::string_view{first, last}] (regex_capture.hpp:85, 110): the characters of a
    valid range. *)
Definition string_view_of (s : list ascii) (b e : nat) : option (list ascii) :=
  if Nat.leb b e && Nat.leb e (length s) then Some (firstn (e - b) (skipn b s)) else None.

(** The iterators of a capture that was never set are value-initialised
    (regex_capture.hpp:114-115): an empty range that reads nothing. *)
Definition over_range {A} (v : cell) (empty : A) (f : nat -> nat -> option A) : option A :=
  match v with Some (b, e) => f b e | None => Some empty end.

(** regex_capture.hpp:82-88 [regex_capture_view::content]. *)
Definition capture_content (ly : layout) (s : list ascii) (v : cell) : option (list ascii) :=
  over_range v [] (fun b e =>
    match ly with
    | Contiguous => string_view_of s b e
    | _ => copy_range (length s) s b e
    end).

(** regex_capture.hpp:107-111: the conversion to [std::string_view], for
    contiguous iterators only. *)
Definition capture_string_view (s : list ascii) (v : cell) : option (list ascii) :=
  over_range v [] (string_view_of s).

(** Counting from [b] to [e] by increments ([std::distance] of regex_capture.hpp:69). *)
Fixpoint count_range (fuel len b e : nat) : option Z :=
  if Nat.eqb b e then Some 0%Z
  else match fuel with
       | 0 => None
       | S f => if Nat.ltb b len then option_map Z.succ (count_range f len (S b) e) else None
       end.

(** Conversion to [std::size_t] (the result of regex_capture.hpp:67-70). *)
Definition to_size (z : Z) : N := Z.to_N (z mod 2 ^ 64).

(** regex_capture.hpp:67-70 [length]: [std::distance] converted to [std::size_t]. *)
Definition capture_length (ly : layout) (s : list ascii) (v : cell) : option N :=
  over_range v 0%N (fun b e =>
    option_map to_size
      match ly with
      | Linked => count_range (length s) (length s) b e
      | _ => Some (Z.of_nat e - Z.of_nat b)%Z
      end).

(** regex_capture.hpp:90-100 [operator[]]: no check against the end. *)
Definition capture_index (s : list ascii) (v : cell) (i : nat) : option ascii :=
  match v with Some (b, _) => nth_error s (b + i) | None => None end.

(** regex_capture.hpp:244-249 [operator<<] of captures: what is written. *)
Definition capture_stream (s : list ascii) (v : cell) : option (list ascii) :=
  over_range v [] (copy_range (length s) s).

(** regex_capture.hpp:128-131: the owning capture copies the range; its
    accessors (133-200) are those of [std::string]. *)
Definition owned_copy (s : list ascii) (v : cell) : option (list ascii) :=
  over_range v [] (copy_range (length s) s).

(** regex_capture.hpp:183-191 [operator[]] of the owning capture: the terminating
    zero can be read. *)
Definition owned_index (t : list ascii) (i : nat) : option ascii :=
  nth_error (t ++ ["000"%char]) i.

(** regex_capture.hpp:27-30 [has_name]. *)
Definition has_name (nm : group_name) : bool := match nm with Some _ => true | None => false end.
(** regex_capture.hpp:32-37 [name]. *)
Definition capture_name (nm : group_name) : list ascii := match nm with Some t => t | None => [] end.

(** match_result.hpp:319-323 [operator<<] of results. *)
Definition result_stream (s : list ascii) (r : match_res) : option (list ascii) :=
  capture_stream s (group0 (groups r)).

(** match_result.hpp:269-273: the conversion of a result to [std::string_view]. *)
Definition result_string_view (s : list ascii) (r : match_res) : option (list ascii) :=
  match group r 0 with Some v => capture_string_view s v | None => None end.

(** match_result.hpp:235-257 [get<ID>()] and 308-311 [get_group<ID>]: the elements
    of a structured binding, as many as [std::tuple_size] says (325-329). *)
Definition structured_binding (r : match_res) : list (option cell) :=
  map (group r) (seq 0 (group_count r)).

(** match_result.hpp:259-267: [operator==(bool)] and [operator bool]. *)
Definition result_equals (r : match_res) (b : bool) : bool := Bool.eqb (matched r) b.

(** ** Other character types *)

(** utility/concepts.hpp:11-15 [char_range] admits every element type that
    converts to [char32_t].  The value of such an element, and its conversion to
    [char] (modulo 2^8). *)
Definition narrow (x : N) : ascii := ascii_of_N (x mod 256).

(** Every read of the matcher passes through a parameter of type [char]:
    [match_one] (literal.hpp:13, range.hpp:42, set.hpp, negated.hpp,
    wildcard.hpp) and backref.hpp:71-74 [equals].  So the matcher sees the
    converted elements.  The concept [captured_content] (regex_capture.hpp:14-22)
    instantiates [content], which builds a [std::string_view] from contiguous
    iterators: ill-formed for other element types (82-88). *)
Definition wide_invoke (mt : method) (r : regex) (contiguous : bool) (ct : category) (w : list N)
  : call match_res :=
  if contiguous then DoesNotCompile else invoke mt r ct (map narrow w).
