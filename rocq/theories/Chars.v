(** Model of /repo/include/mregex/utility/char_traits.hpp.

    A C++ [char] is an [ascii] (8 bits).  The library converts to
    [std::uint8_t] before comparing, so the numeric value of a character is
    [N_of_ascii c], between 0 and 255. *)
From Coq Require Export List Bool Arith NArith Ascii Lia.
Export ListNotations.

(** Numeric value of a character after conversion to [std::uint8_t]
    (char_traits.hpp:15-20: the parameter type of [is_in_ascii_range]). *)
Definition code (c : ascii) : N := N_of_ascii c.

(** char_traits.hpp:19-23 [is_in_ascii_range<A, B>(input)]. *)
Definition is_in_ascii_range (a b : ascii) (input : ascii) : bool :=
  N.leb (code a) (code input) && N.leb (code input) (code b).

(** char_traits.hpp:25-28 [flip_lowercase_bit]: xor with 0x20 (bit 5, constant
    at char_traits.hpp:12).  The first boolean of [Ascii] is bit 0. *)
Definition flip_lowercase_bit (c : ascii) : ascii :=
  match c with
  | Ascii b0 b1 b2 b3 b4 b5 b6 b7 => Ascii b0 b1 b2 b3 b4 (negb b5) b6 b7
  end.

(** char_traits.hpp:30-33 [set_lowercase_bit]: or with 0x20. *)
Definition set_lowercase_bit (c : ascii) : ascii :=
  match c with
  | Ascii b0 b1 b2 b3 b4 _ b6 b7 => Ascii b0 b1 b2 b3 b4 true b6 b7
  end.

(** char_traits.hpp:35-38 [is_digit]. *)
Definition is_digit (c : ascii) : bool := is_in_ascii_range "0" "9" c.

(** char_traits.hpp:40-43 [is_hexdigit]. *)
Definition is_hexdigit (c : ascii) : bool :=
  is_digit c || is_in_ascii_range "a" "f" (set_lowercase_bit c).

(** char_traits.hpp:45-48 [is_lower]. *)
Definition is_lower (c : ascii) : bool := is_in_ascii_range "a" "z" c.

(** char_traits.hpp:50-53 [is_upper]. *)
Definition is_upper (c : ascii) : bool := is_in_ascii_range "A" "Z" c.

(** char_traits.hpp:55-58 [is_alpha]. *)
Definition is_alpha (c : ascii) : bool := is_lower (set_lowercase_bit c).

(** char_traits.hpp:60-63 [is_word]. *)
Definition is_word (c : ascii) : bool :=
  is_alpha c || is_digit c || Ascii.eqb c "_".

(** char_traits.hpp:65-68 [to_lower]. *)
Definition to_lower (c : ascii) : ascii :=
  if is_upper c then flip_lowercase_bit c else c.

(** char_traits.hpp:70-73 [to_upper]. *)
Definition to_upper (c : ascii) : ascii :=
  if is_lower c then flip_lowercase_bit c else c.

(** char_traits.hpp:75-78 [invert_case]. *)
Definition invert_case (c : ascii) : ascii :=
  if is_alpha c then flip_lowercase_bit c else c.
