(** The specification of matching, independent of the model of the code (only
    the syntax trees and the flags are shared).

    [accepts]  the characters of a class;
    [matches]  the textbook language of a tree, as a relation between offsets;
    [paths]    the ends of all matches from an offset, in priority order. *)
From Verif Require Import Ast Matcher.

(** ** Characters *)

(** The letter of the other case; other characters are unchanged. *)
Definition other_case (a : ascii) : ascii :=
  let n := N_of_ascii a in
  if N.leb 97 n && N.leb n 122 then ascii_of_N (n - 32)
  else if N.leb 65 n && N.leb n 90 then ascii_of_N (n + 32)
  else a.

Definition between (a b x : ascii) : bool :=
  N.leb (N_of_ascii a) (N_of_ascii x) && N.leb (N_of_ascii x) (N_of_ascii b).

(** [p] holds of the character, or of its other case when case is ignored. *)
Definition either_case (cf : config) (p : ascii -> bool) (a : ascii) : bool :=
  p a || (icase cf && p (other_case a)).

Definition is_newline (a : ascii) : bool := Ascii.eqb a "010" || Ascii.eqb a "013".

Definition is_word_char (a : ascii) : bool :=
  between "a" "z" a || between "A" "Z" a || between "0" "9" a || Ascii.eqb a "_".

(** The characters accepted by a class (a tree that always matches one
    character). *)
Fixpoint accepts (cf : config) (n : node) (a : ascii) : bool :=
  match n with
  | Lit c => either_case cf (Ascii.eqb c) a
  | Range x y => either_case cf (between x y) a
  | Wild => dotall cf || negb (is_newline a)
  | CSet l | Alt l => existsb (fun x => accepts cf x a) l
  | Neg x => negb (accepts cf x a)
  | Seq [x] => accepts cf x a
  | Rep _ _ _ x => accepts cf x a
  | _ => false
  end.

(** Trees that are classes; the negation of a class is a class, the negation of
    anything else is a zero-width test. *)
Fixpoint is_class (n : node) : bool :=
  match n with
  | Wild | Lit _ | Range _ _ | CSet _ => true
  | Neg x | Seq [x] => is_class x
  | Alt (x :: r) => is_class x && forallb is_class r
  | Rep _ lo (Fin hi) x => N.eqb lo 1 && N.eqb hi 1 && is_class x
  | _ => false
  end.

Section Text.
  Variable cf : config.
  Variable s : list ascii.

  Definition char_at (p : ascii -> bool) (i : nat) : bool :=
    match nth_error s i with Some a => p a | None => false end.
  Definition char_before (p : ascii -> bool) (i : nat) : bool :=
    match i with 0 => false | S i' => char_at p i' end.

  Definition at_line_start (i : nat) : bool :=
    Nat.eqb i 0 || (multiline cf && char_before is_newline i).
  Definition at_line_end (i : nat) : bool :=
    Nat.eqb i (length s) || (multiline cf && char_at is_newline i).
  Definition at_word_boundary (i : nat) : bool :=
    xorb (char_before is_word_char i) (char_at is_word_char i).

  (** ** The textbook language *)

  (** [n] consecutive steps of a relation. *)
  Fixpoint iterate (r : nat -> nat -> Prop) (n : nat) (i j : nat) : Prop :=
    match n with
    | 0 => i = j
    | S n' => exists k, r i k /\ iterate r n' k j
    end.

  (** A count within the bounds of a repetition. *)
  Definition allowed (lo : N) (hi : quantifier) (n : nat) : Prop :=
    (lo <= N.of_nat n)%N /\ match hi with Fin h => (N.of_nat n <= h)%N | Inf => True end.

  (** [matches n i j]: the text from offset [i] to [j] is matched by [n].
      Repetition modes play no role.  Backreferences are not part of the
      textbook language. *)
  Fixpoint matches (n : node) (i j : nat) {struct n} : Prop :=
    match n with
    | Empty => i = j
    | BeginLine => i = j /\ at_line_start i = true
    | BeginInput => i = j /\ i = 0
    | EndLine => i = j /\ at_line_end i = true
    | EndInput => i = j /\ i = length s
    | WordB => i = j /\ at_word_boundary i = true
    | Wild | Lit _ | Range _ _ | CSet _ => j = S i /\ char_at (accepts cf n) i = true
    | Neg x =>
        if is_class x then j = S i /\ char_at (accepts cf n) i = true
        else i = j /\ ~ exists k, matches x i k
    | Seq l =>
        (fix all (l : list node) (i : nat) : Prop :=
           match l with
           | [] => i = j
           | x :: r => exists k, matches x i k /\ all r k
           end) l i
    | Alt l =>
        (fix any (l : list node) : Prop :=
           match l with
           | [] => False
           | x :: r => matches x i j \/ any r
           end) l
    | Cap _ _ x => matches x i j
    | Rep _ lo hi x => exists n, allowed lo hi n /\ iterate (matches x) n i j
    | Backref _ | NBackref _ => False
    | Look Ahead x => i = j /\ exists k, matches x i k
    | Look Behind x => i = j /\ exists k, k <= i /\ matches x k i
    end.

  (** ** Priority order *)

  Section Loops.
    Variable f : nat -> list nat.   (* the paths of the repeated tree *)

    (** Exactly [n] repetitions. *)
    Fixpoint times (n : nat) (i : nat) : list nat :=
      match n with
      | 0 => [i]
      | S n' => flat_map (times n') (f i)
      end.

    (** Up to [b] further repetitions, more first.  In an unbounded loop a
        repetition that consumes nothing is not continued.  [fuel] only makes
        the definition structural (see [greedy_paths_unfold] in Paths.v). *)
    Fixpoint more_first (fuel : nat) (b : quantifier) (i : nat) : list nat :=
      match fuel with
      | 0 => []
      | S fu =>
          match b with
          | Fin n =>
              if N.eqb n 0 then [i]
              else flat_map (more_first fu (Fin (n - 1))) (f i) ++ [i]
          | Inf =>
              flat_map (fun j => if Nat.eqb i j then [] else more_first fu Inf j) (f i)
              ++ [i]
          end
      end.

    (** The same, fewer first. *)
    Fixpoint fewer_first (fuel : nat) (b : quantifier) (i : nat) : list nat :=
      match fuel with
      | 0 => []
      | S fu =>
          match b with
          | Fin n =>
              if N.eqb n 0 then [i]
              else i :: flat_map (fewer_first fu (Fin (n - 1))) (f i)
          | Inf =>
              i :: flat_map (fun j => if Nat.eqb i j then [] else fewer_first fu Inf j) (f i)
          end
      end.

    Definition bound_fuel (b : quantifier) (i : nat) : nat :=
      match b with Fin n => S (N.to_nat n) | Inf => S (length s - i) end.
    Definition greedy_paths (b : quantifier) (i : nat) : list nat :=
      more_first (bound_fuel b i) b i.
    Definition lazy_paths (b : quantifier) (i : nat) : list nat :=
      fewer_first (bound_fuel b i) b i.
  End Loops.

  Definition remaining (hi : quantifier) (lo : N) : quantifier :=
    match hi with Fin h => Fin (h - lo) | Inf => Inf end.

  (** The ends of the matches from an offset in the order in which a
      backtracking matcher must try them.  Possessive repetitions (and atomic
      groups, which are possessive single repetitions) commit to the first
      path of the greedy repetition. *)
  Fixpoint paths (n : node) (i : nat) {struct n} : list nat :=
    match n with
    | Empty => [i]
    | BeginLine => if at_line_start i then [i] else []
    | BeginInput => if Nat.eqb i 0 then [i] else []
    | EndLine => if at_line_end i then [i] else []
    | EndInput => if Nat.eqb i (length s) then [i] else []
    | WordB => if at_word_boundary i then [i] else []
    | Wild | Lit _ | Range _ _ | CSet _ =>
        if char_at (accepts cf n) i then [S i] else []
    | Neg x =>
        if is_class x then if char_at (accepts cf n) i then [S i] else []
        else match paths x i with [] => [i] | _ => [] end
    | Seq l =>
        (fix all (l : list node) (i : nat) : list nat :=
           match l with
           | [] => [i]
           | x :: r => flat_map (all r) (paths x i)
           end) l i
    | Alt l => flat_map (fun x => paths x i) l
    | Cap _ _ x => paths x i
    | Rep mode lo hi x =>
        let greedy := flat_map (greedy_paths (paths x) (remaining hi lo))
                        (times (paths x) (N.to_nat lo) i) in
        let lzy := flat_map (lazy_paths (paths x) (remaining hi lo))
                     (times (paths x) (N.to_nat lo) i) in
        match mode with
        | Greedy => if ungreedy cf then lzy else greedy
        | Lazy => if ungreedy cf then greedy else lzy
        | Possessive => firstn 1 greedy
        end
    | Backref _ | NBackref _ => []
    | Look Ahead x => match paths x i with [] => [] | _ => [i] end
    | Look Behind x =>
        if existsb (fun k => existsb (Nat.eqb i) (paths x k)) (List.seq 0 (S i))
        then [i] else []
    end.
End Text.

(** ** Fragments *)

(** No backreference. *)
Fixpoint backref_free (n : node) : bool :=
  match n with
  | Backref _ | NBackref _ => false
  | Seq l | Alt l => forallb backref_free l
  | Neg x | Cap _ _ x | Rep _ _ _ x | Look _ x => backref_free x
  | _ => true
  end.

(** No possessive repetition and no atomic group, except around a single
    character class, where there is nothing to backtrack into. *)
Fixpoint possessive_free (n : node) : bool :=
  match n with
  | Rep Possessive _ _ _ => is_class n
  | Seq l | Alt l => forallb possessive_free l
  | Neg x | Cap _ _ x | Rep _ _ _ x | Look _ x => possessive_free x
  | _ => true
  end.

(** Can the tree match the empty string?  (Upper approximation, used to exclude
    unbounded possessive loops over such trees, finding F13.) *)
Fixpoint may_be_empty (n : node) : bool :=
  match n with
  | Wild | Lit _ | Range _ _ | CSet _ => false
  | Neg x => negb (is_class x)
  | Seq l => forallb may_be_empty l
  | Alt l => existsb may_be_empty l
  | Cap _ _ x => may_be_empty x
  | Rep _ lo _ x => N.eqb lo 0 || may_be_empty x
  | _ => true
  end.

(** Unbounded possessive loops consume something in every iteration. *)
Fixpoint possessive_ok (n : node) : bool :=
  match n with
  | Rep Possessive _ Inf x => negb (may_be_empty x) && possessive_ok x
  | Seq l | Alt l => forallb possessive_ok l
  | Neg x | Cap _ _ x | Rep _ _ _ x | Look _ x => possessive_ok x
  | _ => true
  end.

(** What the code evaluates correctly inside a lookbehind (findings F5, F6): no
    line or input anchor, no possessive repetition (except around a class),
    lookarounds only over classes. *)
Fixpoint reversible (n : node) : bool :=
  match n with
  | BeginLine | BeginInput | EndLine | EndInput => false
  | Rep Possessive _ _ _ => is_class n
  | Backref _ | NBackref _ => false
  | Look _ x => is_class x
  | Seq l | Alt l => forallb reversible l
  | Neg x | Cap _ _ x | Rep _ _ _ x => reversible x
  | _ => true
  end.

(** All lookbehind bodies are of that kind. *)
Fixpoint lookbehind_ok (n : node) : bool :=
  match n with
  | Look Behind x => reversible x
  | Seq l | Alt l => forallb lookbehind_ok l
  | Neg x | Cap _ _ x | Rep _ _ _ x | Look Ahead x => lookbehind_ok x
  | _ => true
  end.

(** The trees for which matching follows the priority order. *)
Definition regular (n : node) : bool :=
  backref_free n && possessive_ok n && lookbehind_ok n.

(** Trees all of whose matches are empty. *)
Fixpoint zero_width (n : node) : bool :=
  match n with
  | Empty | BeginLine | BeginInput | EndLine | EndInput | WordB | Look _ _ => true
  | Neg x => negb (is_class x)
  | Seq l | Alt l => forallb zero_width l
  | Cap _ _ x => zero_width x
  | Rep _ _ (Fin h) x => N.eqb h 0 || zero_width x
  | Rep _ _ Inf x => zero_width x
  | _ => false
  end.

(** The static conditions on a tree (the [static_assert]s of the node
    templates). *)
Fixpoint well_formed (n : node) : bool :=
  match n with
  | Range a b => N.leb (N_of_ascii a) (N_of_ascii b)
  | CSet l => forallb (fun x => is_class x && well_formed x) l
  | Neg x => (is_class x || zero_width x) && well_formed x
  | Seq l | Alt l => match l with [] => false | _ => forallb well_formed l end
  | Cap _ _ x | Look _ x => well_formed x
  | Rep _ lo (Fin h) x => N.leb lo h && (N.eqb h 0 || well_formed x)
  | Rep _ _ Inf x => well_formed x
  | _ => true
  end.
