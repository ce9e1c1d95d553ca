(** The range object returned by [tokenize] and [find_all]
    (/repo/include/mregex/utility/input_range_adapter.hpp) and the lifetime of
    the text behind a result (regex.hpp, utility/type_traits.hpp,
    utility/concepts.hpp). *)
From Verif Require Export Api.

(** input_range_adapter.hpp:17-19, 141-142: the generator (a base class) and the
    current result. *)
Record adapter := mk_adapter { source : generator; current_result : match_res }.

Section Adapter.
  Variable mt : method.
  Variable cf : config.
  Variable n : node.
  Variable s : list ascii.

  (** input_range_adapter.hpp:24-28: the constructor calls the generator once. *)
  Definition construct (g : generator) : call adapter :=
    match next mt cf n s g with
    | Returned (r, g') => Returned (mk_adapter g' r)
    | UndefinedBehaviour => UndefinedBehaviour
    | DoesNotCompile => DoesNotCompile
    | DoesNotReturn => DoesNotReturn
    end.

  (** input_range_adapter.hpp:135-138 [compute_next], called by [operator++]
      (60-64). *)
  Definition compute_next (a : adapter) : call adapter := construct (source a).

  (** input_range_adapter.hpp:110-113 [active]: [operator bool] of the result
      (match_result.hpp:264-267).  78-81: the iterator equals the sentinel when
      this is false. *)
  Definition adapter_active (a : adapter) : bool := matched (current_result a).

  (** input_range_adapter.hpp:94-97 [begin] gives an iterator that points to the
      adapter, 50-53 [operator*] its current result; the state of a loop is the
      state of the adapter.  A range-for loop that stops behind the element for
      which [stop] is true; the elements seen and the adapter left behind.
      [fuel]: bound on the number of elements. *)
  Fixpoint range_for (fuel : nat) (stop : nat -> match_res -> bool) (k : nat) (a : adapter)
    : call (list match_res * adapter) :=
    match fuel with
    | 0 => DoesNotReturn
    | S f =>
        if negb (adapter_active a) then Returned ([], a)
        else if stop k (current_result a) then Returned ([current_result a], a)
        else
          match compute_next a with
          | Returned a' =>
              match range_for f stop (S k) a' with
              | Returned (l, a'') => Returned (current_result a :: l, a'')
              | o => o
              end
          | UndefinedBehaviour => UndefinedBehaviour
          | DoesNotCompile => DoesNotCompile
          | DoesNotReturn => DoesNotReturn
          end
    end.
End Adapter.

(** input_range_adapter.hpp:66-71 [operator++(int)]: [iterator old_iter{_target}]
    passes a pointer; the constructors (44-48) take nothing or a reference, so
    the body is ill-formed when instantiated. *)
Definition post_increment : call unit := DoesNotCompile.

(** ** Lifetime *)

(** What a caller can pass as the text (regex.hpp:175-271): a string literal or other
    array, a pointer, a [std::string_view] or an object of class type; for the latter,
    whether its type is trivially destructible and whether the characters live in it. *)
Inductive argument :=
| A_literal
| A_pointer
| A_string_view
| A_object (trivially_destructible : bool) (owns_text : bool).

(** The overloads of regex.hpp:175-271, in the order of the file. *)
Inductive overload := By_view | By_reference | By_expiring.

(** utility/concepts.hpp:11-15 [char_range]: [requires (Range range)] turns an
    array type into a pointer, so arrays and pointers are not ranges. *)
Definition is_char_range (a : argument) : bool :=
  match a with A_literal | A_pointer => false | A_string_view | A_object _ _ => true end.

(** utility/type_traits.hpp:16-17 [is_expiring_memory_owner]. *)
Definition is_expiring_memory_owner (rvalue : bool) (a : argument) : bool :=
  rvalue && match a with A_object trivial _ => negb trivial | _ => false end.

(** The seven calls that take a text (regex.hpp:175-271). *)
Inductive text_call := T_match | T_match_prefix | T_search | T_tokenizer | T_searcher | T_tokenize | T_find_all.

(** regex.hpp:186-191, 204-209, 222-227: only these have an overload for
    [Range &&]. *)
Definition has_expiring (t : text_call) : bool :=
  match t with T_match | T_match_prefix | T_search => true | _ => false end.

(** Overload resolution among regex.hpp:175-271: the rvalue reference is preferred where
    viable, a non-template (175, 193, 211, 229, 240, 251, 262) for a
    [std::string_view], and it is the only one for arrays and pointers. *)
Definition overload_of (t : text_call) (rvalue : bool) (a : argument) : overload :=
  if negb (is_char_range a) then By_view
  else if has_expiring t && is_expiring_memory_owner rvalue a then By_expiring
  else match a with A_string_view => By_view | _ => By_reference end.

(** The constructor of [std::string_view] from a pointer, used by the overloads
    of regex.hpp:175, 193, 211, 229, 240, 251, 262 for arrays and pointers: the
    characters up to the first NUL.  [memory] is what may be read from the
    pointer on. *)
Fixpoint up_to_nul (memory : list ascii) : call (list ascii) :=
  match memory with
  | [] => UndefinedBehaviour
  | c :: rest =>
      if Ascii.eqb c "000" then Returned []
      else match up_to_nul rest with Returned t => Returned (c :: t) | e => e end
  end.

(** The text between [std::cbegin(input)] and [std::cend(input)] in the overload
    (regex.hpp:177, 183, 190 and so on).  [memory]: the elements of the array,
    what lies behind the pointer, or the elements of the object; [std::cend] of
    an array would be behind its last element. *)
Definition text_seen (t : text_call) (rvalue : bool) (a : argument) (memory : list ascii) : call (list ascii) :=
  match overload_of t rvalue a, a with
  | By_view, (A_literal | A_pointer) => up_to_nul memory
  | _, _ => Returned memory
  end.

(** A result: views into the text, or copies (match_result.hpp:26-38). *)
Inductive held_result := Views (r : match_res) | Copies (r : owned_res).

(** regex.hpp:175-220: the third overload converts the result. *)
Definition result_of (o : overload) (s : list ascii) (r : match_res) : held_result :=
  match o with By_expiring => Copies (as_memory_owner s r) | _ => Views r end.

(** The characters die with the argument of regex.hpp:175-271 at the end of the full
    expression. *)
Definition text_expires (rvalue : bool) (a : argument) : bool :=
  rvalue && match a with A_object _ owns => owns | _ => false end.

(** The content of a group (regex_capture.hpp:82-88, 163-181), read when the
    text is still [alive] or not; [UndefinedBehaviour] through a dangling view
    unless it is empty.  [None]: no such group. *)
Definition read_group (alive : bool) (s : list ascii) (h : held_result) (i : nat) : option (call (list ascii)) :=
  match h with
  | Views r =>
      match group r i with
      | Some v => Some (if alive || cell_is_empty v then Returned (cell_content s v) else UndefinedBehaviour)
      | None => None
      end
  | Copies r => match nth_error (owned_groups r) i with Some t => Some (Returned t) | None => None end
  end.

(** The elements of a generator or range hold views in all cases
    (match_result_generator.hpp:37, 42); [next] itself reads the text. *)
Definition generator_next (alive : bool) (mt : method) (cf : config) (n : node) (s : list ascii)
  (g : generator) : call (match_res * generator) :=
  if active g && negb alive then UndefinedBehaviour else next mt cf n s g.
