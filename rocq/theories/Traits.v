(** Static (compile-time) functions over syntax trees:
    /repo/include/mregex/ast/traits.hpp, ast/inversion.hpp, ast/indexing.hpp,
    ast/transform.hpp and the parts of utility/type_sequence.hpp they use. *)
From Verif Require Export Ast.

(** ast/traits.hpp:25-32 [is_trivially_matchable]: the node has a member
    [match_one], declared by literal.hpp:12-19, range.hpp:41-48 and 61-62,
    wildcard.hpp:10-16, set.hpp:14-18, negated.hpp:16-20 (for a trivially
    matchable inner node), or inherited: sequence.hpp:62-63,
    alternation.hpp:24-29, fixed_repetition.hpp:151-152.  The possessive
    single repetition of a trivial node uses the last one too
    (fixed_repetition.hpp:137-139 requires a non-trivial inner node). *)
Fixpoint trivial (n : node) : bool :=
  match n with
  | Wild | Lit _ | Range _ _ => true
  | CSet _ => true
  | Neg x => trivial x
  | Seq [x] => trivial x
  | Alt (x :: r) => trivial x && forallb trivial r
  | Rep _ lo hi x =>
      match lo, hi with
      | 1%N, Fin 1%N => trivial x
      | _, _ => false
      end
  | _ => false
  end.

(** ast/traits.hpp:39-52 [capture_count]. *)
Fixpoint capture_count (n : node) : nat :=
  match n with
  | CSet l | Seq l | Alt l => list_sum (map capture_count l)
  | Neg x | Rep _ _ _ x | Look _ x => capture_count x
  | Cap _ _ x => capture_count x + 1
  | _ => 0
  end.

(** ast/traits.hpp:60-91 [capture_name_spec]: names in preorder. *)
Fixpoint capture_name_spec (n : node) : list group_name :=
  match n with
  | CSet l | Seq l | Alt l => flat_map capture_name_spec l
  | Neg x | Rep _ _ _ x | Look _ x => capture_name_spec x
  | Cap _ name x => name :: capture_name_spec x
  | _ => []
  end.

(** symbols/quantifiers.hpp:59-63 [is_zero] for a finite lower bound. *)
Definition is_zero (n : N) : bool := N.eqb n 0.

(** ast/traits.hpp:104-117 [is_zero_length_matcher].  The base type
    [zero_length_matcher] is inherited by empty.hpp:11, assertion.hpp:18 (so by
    anchors.hpp:10-14, lookaround.hpp:12 and by negated.hpp:23-25, whose inner
    node is an assertion) and backref.hpp:39. *)
Fixpoint zlm (n : node) : bool :=
  match n with
  | Empty | BeginLine | BeginInput | EndLine | EndInput | WordB => true
  | Backref _ | NBackref _ | Look _ _ => true
  | Neg x => negb (trivial x)
  | Cap _ _ x => zlm x
  | Rep _ lo _ x => is_zero lo || zlm x
  | Seq l => forallb zlm l
  | Alt l => existsb zlm l
  | Wild | Lit _ | Range _ _ | CSet _ => false
  end.

(** ast/traits.hpp:124-129 [is_assertion]: zero-length and has a
    [predicate_type]; inherited through sequence.hpp:62-63,
    alternation.hpp:28-29 and fixed_repetition.hpp:151-152 (the possessive
    specialisation at 137-149 has no [predicate_type]). *)
Fixpoint is_assertion (n : node) : bool :=
  match n with
  | BeginLine | BeginInput | EndLine | EndInput | WordB | Look _ _ => true
  | Neg x => is_assertion x
  | Seq [x] => is_assertion x
  | Alt [x] => is_assertion x
  | Rep mode lo hi x =>
      match mode, lo, hi with
      | Possessive, _, _ => false
      | _, 1%N, Fin 1%N => is_assertion x
      | _, _, _ => false
      end
  | _ => false
  end.

(** lookaround directions, exchanged by ast/inversion.hpp:34-56. *)
Definition flip (d : direction) : direction :=
  match d with Ahead => Behind | Behind => Ahead end.

(** utility/type_sequence.hpp:128-150 [reverse_type_pack]: packs of up to three
    types are reversed by hand, longer ones in chunks of four. *)
Fixpoint reverse_pack {A : Type} (l : list A) : list A :=
  match l with
  | [t0; t1] => [t1; t0]
  | [t0; t1; t2] => [t2; t1; t0]
  | t0 :: t1 :: t2 :: t3 :: r => reverse_pack r ++ [t3; t2; t1; t0]
  | _ => l
  end.

(** ast/inversion.hpp:22-56 [invert], default cases through
    ast/transform.hpp:15-43.  The body of a lookaround is not inverted
    (inversion.hpp:34-56); [negative_lookahead<X>] is
    [negated<lookaround<ahead, X>>] (astfwd.hpp:136-143), so the four
    specialisations amount to [Look] below [Neg].  [reverse_t] is
    utility/type_sequence.hpp:158-171. *)
Fixpoint invert (n : node) : node :=
  match n with
  | Seq l => Seq (reverse_pack (map invert l))
  | Look d x => Look (flip d) x
  | CSet l => CSet (map invert l)
  | Alt l => Alt (map invert l)
  | Neg x => Neg (invert x)
  | Cap id name x => Cap id name (invert x)
  | Rep m lo hi x => Rep m lo hi (invert x)
  | _ => n
  end.

(** ast/indexing.hpp:34-65 [capture_indexer<Offset>::index] and the prefix
    sums of indexing.hpp:13-32.  Offsets are [std::size_t]; a tree has fewer
    than 2^64 captures, so no wrap-around is modelled.  The specialisation for
    nodes without captures (40-45) returns the node unchanged, which the
    generic traversal does as well. *)
Fixpoint index (offset : N) (n : node) : node :=
  match n with
  | Cap _ name x => Cap offset name (index (offset + 1) x)
  | Seq l =>
      Seq ((fix go (off : N) (l : list node) : list node :=
              match l with
              | [] => []
              | x :: r => index off x :: go (off + N.of_nat (capture_count x))%N r
              end) offset l)
  | Alt l => Alt (map (index offset) l)
  | CSet l => CSet (map (index offset) l)
  | Neg x => Neg (index offset x)
  | Rep m lo hi x => Rep m lo hi (index offset x)
  | Look d x => Look d (index offset x)
  | _ => n
  end.

(** ast/indexing.hpp:76-77 [index_captures_t]. *)
Definition index_captures (n : node) : node := index 1 n.
