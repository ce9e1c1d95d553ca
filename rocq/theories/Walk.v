(** What the code does with every tree without backreferences, as lists of ends
    in the order of trial.  Like [paths] in Spec.v, which says what it should
    do, this mentions no continuations, captures, reversed texts or inverted
    trees.  It differs from [paths] in two clauses:

    - an unbounded possessive loop stops before an iteration whose first match
      is empty (finding F13);
    - a lookbehind reads its body towards the beginning of the text, where all
      anchors test the opposite end (finding F5) and nested lookarounds read
      their own body in the wrong order (finding F6). *)
From Verif Require Import Ast Matcher Spec.

Section Walk.
  Variable cf : config.
  Variable s : list ascii.

  (** One character, read rightwards or leftwards. *)
  Definition read_char (left : bool) (p : ascii -> bool) (i : nat) : list nat :=
    if left then if char_before s p i then [i - 1] else []
    else if char_at s p i then [S i] else [].

  (** At most [b] further iterations, each by its first match; in an unbounded
      loop an empty first match ends the loop. *)
  Fixpoint commit (f : nat -> list nat) (fuel : nat) (b : quantifier) (i : nat) : nat :=
    match fuel with
    | 0 => i
    | S fu =>
        match b, f i with
        | Fin n, j :: _ => if N.eqb n 0 then i else commit f fu (Fin (n - 1)) j
        | Inf, j :: _ => if Nat.eqb i j then i else commit f fu Inf j
        | _, [] => i
        end
    end.

  (** Enough for a loop from any offset. *)
  Definition any_fuel (b : quantifier) : nat :=
    match b with Fin n => S (N.to_nat n) | Inf => S (length s) end.

  (** [left]: the reading direction.  [back]: the parts of a concatenation are
      read from the last to the first. *)
  Fixpoint walk (left back : bool) (n : node) (i : nat) {struct n} : list nat :=
    match n with
    | Empty => [i]
    | BeginLine => if (if left then at_line_end cf s i else at_line_start cf s i) then [i] else []
    | EndLine => if (if left then at_line_start cf s i else at_line_end cf s i) then [i] else []
    | BeginInput => if Nat.eqb i (if left then length s else 0) then [i] else []
    | EndInput => if Nat.eqb i (if left then 0 else length s) then [i] else []
    | WordB => if at_word_boundary s i then [i] else []
    | Wild | Lit _ | Range _ _ | CSet _ => read_char left (accepts cf n) i
    | Neg x =>
        if is_class x then read_char left (accepts cf n) i
        else match walk left back x i with [] => [i] | _ => [] end
    | Seq l =>
        if back
        then (fix last_first (l : list node) (i : nat) : list nat :=
                match l with
                | [] => [i]
                | x :: r => flat_map (walk left back x) (last_first r i)
                end) l i
        else (fix first_first (l : list node) (i : nat) : list nat :=
                match l with
                | [] => [i]
                | x :: r => flat_map (first_first r) (walk left back x i)
                end) l i
    | Alt l => flat_map (fun x => walk left back x i) l
    | Cap _ _ x => walk left back x i
    | Rep mode lo hi x =>
        let f := walk left back x in
        let b := remaining hi lo in
        let start := times f (N.to_nat lo) i in
        let more := flat_map (more_first f (any_fuel b) b) start in
        let fewer := flat_map (fewer_first f (any_fuel b) b) start in
        match mode with
        | Greedy => if ungreedy cf then fewer else more
        | Lazy => if ungreedy cf then more else fewer
        | Possessive => map (commit f (any_fuel b) b) (firstn 1 start)
        end
    | Backref _ | NBackref _ => []
    | Look d x =>
        let behind := xorb back (match d with Ahead => false | Behind => true end) in
        match (if behind then walk (negb left) true x i else walk left false x i) with
        | [] => []
        | _ => [i]
        end
    end.

  (** The end of the match at an offset. *)
  Definition actual (n : node) (i : nat) : option nat := hd_error (walk false false n i).
End Walk.

(** ** What a tree is taken for *)

(** The tree whose textbook meaning is what the code computes for a tree it reads
    in a direction ([left]) and part order ([back]).  Outside of lookbehinds
    nothing changes.  In the body of a lookbehind the anchors are exchanged; the
    parts of the body of a lookaround inside a lookbehind are reversed. *)
Fixpoint as_read (left back : bool) (n : node) : node :=
  match n with
  | BeginLine => if left then EndLine else BeginLine
  | EndLine => if left then BeginLine else EndLine
  | BeginInput => if left then EndInput else BeginInput
  | EndInput => if left then BeginInput else EndInput
  | Neg x => Neg (as_read left back x)
  | Seq l => let l' := map (as_read left back) l in Seq (if xorb left back then rev l' else l')
  | Alt l => Alt (map (as_read left back) l)
  | Cap id nm x => Cap id nm (as_read left back x)
  | Rep md lo hi x => Rep md lo hi (as_read left back x)
  | Look d x =>
      let behind := xorb back (match d with Ahead => false | Behind => true end) in
      let left' := if behind then negb left else left in
      Look (if left' then Behind else Ahead) (as_read left' behind x)
  | _ => n
  end.

(** Lookbehind bodies contain no possessive repetition and no atomic group
    (except around a class). *)
Fixpoint lookbehind_plain (n : node) : bool :=
  match n with
  | Look Behind x => possessive_free x
  | Seq l | Alt l => forallb lookbehind_plain l
  | Neg x | Cap _ _ x | Rep _ _ _ x | Look Ahead x => lookbehind_plain x
  | _ => true
  end.

(** ** Backreferences whose text is known *)

(** The text itself, as a tree. *)
Definition text_node (t : list ascii) : node := Seq (map Lit t ++ [Empty]).

(** Every backreference [b] replaced by the text [said b]. *)
Fixpoint fill (said : node -> list ascii) (n : node) : node :=
  match n with
  | Backref _ | NBackref _ => text_node (said n)
  | Neg x => Neg (fill said x)
  | Seq l => Seq (map (fill said) l)
  | Alt l => Alt (map (fill said) l)
  | Cap id nm x => Cap id nm (fill said x)
  | Rep md lo hi x => Rep md lo hi (fill said x)
  | Look d x => Look d (fill said x)
  | _ => n
  end.
