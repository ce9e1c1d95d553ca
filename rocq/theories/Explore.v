(** What the code does with every tree, groups and backreferences included, as
    the sequence of its attempts.  Unlike [paths], [walk] and [tracks] this also
    says what every group holds at every point of the search, in particular what
    abandoned attempts leave in the groups.  It mentions no continuations, no
    reversed texts, no inverted trees, no iterator categories and no unrolling.
    A class of characters is one attempt, and so are the last alternatives of an
    alternation when they are all classes. *)
From Verif Require Import Ast Matcher Spec Walk Tracks.

(** A search: it has come to an end with these groups, or it has found a match
    ending at [i]; [more g] is the rest of the search if what comes after the
    match fails and leaves the groups [g]. *)
Inductive search :=
| Stop (g : caps)
| Found (i : nat) (g : caps) (more : caps -> search).

(** A search that finds one end. *)
Definition one (i : nat) (g : caps) : search := Found i g Stop.

Definition test (b : bool) (i : nat) (g : caps) : search := if b then one i g else Stop g.

(** Only the first end. *)
Definition first_only (t : search) : search :=
  match t with Found i g _ => one i g | Stop g => Stop g end.

(** The search [t], and when it is exhausted [h]. *)
Fixpoint otherwise (t : search) (h : caps -> search) : search :=
  match t with
  | Stop g => h g
  | Found i g more => Found i g (fun g' => otherwise (more g') h)
  end.

(** From every end that [t] finds on with [f]. *)
Fixpoint followed_by (t : search) (f : nat -> caps -> search) : search :=
  match t with
  | Stop g => Stop g
  | Found i g more => otherwise (f i g) (fun g' => followed_by (more g') f)
  end.

(** The cell of a group changed. *)
Fixpoint update (id : nat) (h : cell -> cell) (g : caps) : caps :=
  match g, id with
  | [], _ => []
  | v :: r, 0 => h v :: r
  | v :: r, S id' => v :: update id' h r
  end.

(** The group is set to the text matched by every end of the search, and emptied
    when the search is exhausted. *)
Fixpoint captured (id : nat) (range : nat -> nat * nat) (t : search) : search :=
  match t with
  | Stop g => Stop (update id (option_map (fun v => (fst v, fst v))) g)
  | Found j g more =>
      Found j (update id (fun _ => Some (range j)) g) (fun g' => captured id range (more g'))
  end.

(** Loops. *)
Section Loops.
  Variable f : nat -> caps -> search.

  Fixpoint exactly (n : nat) (i : nat) (g : caps) : search :=
    match n with
    | 0 => one i g
    | S n' => followed_by (f i g) (exactly n')
    end.

  Definition none_left (b : quantifier) : bool :=
    match b with Fin n => N.eqb n 0 | Inf => false end.
  Definition one_less (b : quantifier) : quantifier :=
    match b with Fin n => Fin (n - 1) | Inf => Inf end.
  (** An iteration of an unbounded loop that consumes nothing. *)
  Definition idle (b : quantifier) (i j : nat) : bool :=
    match b with Fin _ => false | Inf => Nat.eqb i j end.

  Fixpoint trying_more (fuel : nat) (b : quantifier) (i : nat) (g : caps) : search :=
    match fuel with
    | 0 => Stop g
    | S fu =>
        if none_left b then one i g
        else otherwise
               (followed_by (f i g) (fun j g' =>
                  if idle b i j then Stop g' else trying_more fu (one_less b) j g'))
               (one i)
    end.

  Fixpoint trying_fewer (fuel : nat) (b : quantifier) (i : nat) (g : caps) : search :=
    match fuel with
    | 0 => Stop g
    | S fu =>
        if none_left b then one i g
        else Found i g (fun g0 =>
               followed_by (f i g0) (fun j g' =>
                 if idle b i j then Stop g' else trying_fewer fu (one_less b) j g'))
    end.

  Fixpoint committing (fuel : nat) (b : quantifier) (i : nat) (g : caps) : search :=
    match fuel with
    | 0 => Stop g
    | S fu =>
        if none_left b then one i g
        else match f i g with
             | Stop g' => one i g'
             | Found j g' _ =>
                 if idle b i j then one i g' else committing fu (one_less b) j g'
             end
    end.
End Loops.

(** The place of a name in a list of names. *)
Fixpoint place (nm : list ascii) (names : list group_name) : nat :=
  match names with
  | [] => 0
  | Some x :: r => if same_text nm x then 0 else S (place nm r)
  | None :: r => S (place nm r)
  end.

Section Explore.
  Variable cf : config.
  Variable names : list group_name.   (* the names of the groups, by number *)
  Variable s : list ascii.

  (** The text in a group; a group that was not captured is taken as empty. *)
  Definition text_in (g : caps) (id : nat) : list ascii :=
    match nth id g None with
    | Some (b, e) => firstn (e - b) (skipn b s)
    | None => []
    end.

  (** A text read at an offset: to the right or to the left; two or more
      lookbehinds deep a reading to the right takes the text backwards. *)
  Definition read_text (depth : nat) (t : list ascii) (i : nat) (g : caps) : search :=
    let n := length t in
    if Nat.odd depth then test (Nat.leb n i && occurs cf s t (i - n)) (i - n) g
    else test (occurs cf s (if Nat.eqb depth 0 then t else rev t) i) (i + n) g.

  (** [depth]: the number of changes of direction, even when reading to the
      right.  [back]: the parts of a concatenation are read from the last to the
      first (see [walk]). *)
  Fixpoint explore (depth : nat) (back : bool) (n : node) (i : nat) (g : caps) {struct n} : search :=
    let left := Nat.odd depth in
    if is_class n then
      match read_char s left (accepts cf n) i with j :: _ => one j g | [] => Stop g end
    else
    match n with
    | Empty => one i g
    | BeginLine => test (if left then at_line_end cf s i else at_line_start cf s i) i g
    | EndLine => test (if left then at_line_start cf s i else at_line_end cf s i) i g
    | BeginInput => test (Nat.eqb i (if left then length s else 0)) i g
    | EndInput => test (Nat.eqb i (if left then 0 else length s)) i g
    | WordB => test (at_word_boundary s i) i g
    | Wild | Lit _ | Range _ _ | CSet _ => Stop g    (* classes, see above *)
    | Neg x =>
        match explore depth back x i g with
        | Stop g' => one i g'
        | Found _ g' _ => Stop g'
        end
    | Seq l =>
        if back
        then (fix last_first (l : list node) (after : nat -> caps -> search) : nat -> caps -> search :=
                match l with
                | [] => after
                | x :: r => last_first r (fun i g => followed_by (explore depth back x i g) after)
                end) l one i g
        else (fix first_first (l : list node) (i : nat) (g : caps) : search :=
                match l with
                | [] => one i g
                | x :: r => followed_by (explore depth back x i g) (first_first r)
                end) l i g
    | Alt l =>
        (fix any (l : list node) (g : caps) : search :=
           if is_class (Alt l) then
             match read_char s left (accepts cf (Alt l)) i with j :: _ => one j g | [] => Stop g end
           else
           match l with
           | [] => Stop g
           | x :: r => otherwise (explore depth back x i g) (any r)
           end) l g
    | Cap id _ x =>
        captured (N.to_nat id) (fun j => if left then (j, i) else (i, j)) (explore depth back x i g)
    | Rep mode lo hi x =>
        let f := explore depth back x in
        let b := remaining hi lo in
        let fuel := any_fuel s b in
        let start := exactly f (N.to_nat lo) i g in
        let more := followed_by start (trying_more f fuel b) in
        let fewer := followed_by start (trying_fewer f fuel b) in
        match mode with
        | Greedy => if ungreedy cf then fewer else more
        | Lazy => if ungreedy cf then more else fewer
        | Possessive => followed_by (first_only start) (committing f fuel b)
        end
    | Backref id => read_text depth (text_in g (N.to_nat id)) i g
    | NBackref nm => read_text depth (text_in g (place nm names)) i g
    | Look d x =>
        let behind := xorb back (match d with Ahead => false | Behind => true end) in
        match (if behind then explore (S depth) true x i g else explore depth false x i g) with
        | Stop g' => Stop g'
        | Found _ g' _ => one i g'
        end
    end.

  (** The first end with a property, and the groups at that point; or the groups
      when the search is exhausted. *)
  Fixpoint first_end (p : nat -> bool) (t : search) : option nat * caps :=
    match t with
    | Stop g => (None, g)
    | Found i g more => if p i then (Some i, g) else first_end p (more g)
    end.

  (** The searches at [count] consecutive offsets from [i]; every one starts with
      the groups left by the one before. *)
  Fixpoint first_match (n : node) (count : nat) (i : nat) (g : caps) : option (nat * nat) * caps :=
    match first_end (fun _ => true) (explore 0 false n i g) with
    | (Some j, g') => (Some (i, j), g')
    | (None, g') =>
        match count with
        | 0 => (None, g')
        | S count' => first_match n count' (S i) g'
        end
    end.

  (** Matches one after the other, up to and including the first empty one: the
      groups of each. *)
  Fixpoint repeated (step : nat -> option (nat * nat) * caps) (fuel : nat) (i : nat) : list caps :=
    match fuel with
    | 0 => []
    | S fu =>
        match step i with
        | (Some (b, e), g) => (Some (b, e) :: tl g) :: (if Nat.eqb b e then [] else repeated step fu e)
        | (None, _) => []
        end
    end.
End Explore.

(** The names of the groups in the order of their opening parentheses, and the
    groups before a match; group 0 is the whole match. *)
Fixpoint names_in (n : node) : list group_name :=
  match n with
  | CSet l | Seq l | Alt l => flat_map names_in l
  | Neg x | Rep _ _ _ x | Look _ x => names_in x
  | Cap _ name x => name :: names_in x
  | _ => []
  end.
Definition all_names (n : node) : list group_name := None :: names_in n.
Definition no_groups (n : node) : caps := map (fun _ => None) (all_names n).

(** The answers of the calls for a tree: the first end that is the end of the
    text; the first end; the first offset with an end; the matches of a scan. *)
Section Answers.
  Variable cf : config.
  Variable n : node.
  Variable s : list ascii.

  Definition full_match : option nat * caps :=
    first_end (Nat.eqb (length s)) (explore cf (all_names n) s 0 false n 0 (no_groups n)).
  Definition prefix_match (i : nat) : option (nat * nat) * caps :=
    first_match cf (all_names n) s n 0 i (no_groups n).
  Definition search_match (i : nat) : option (nat * nat) * caps :=
    first_match cf (all_names n) s n (length s - i) i (no_groups n).
  Definition all_tokens : list caps := repeated prefix_match (S (length s)) 0.
  Definition all_matches : list caps := repeated search_match (S (length s)) 0.
End Answers.
