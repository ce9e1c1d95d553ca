(** The specification of matching with backreferences.  Like [paths] in Spec.v,
    but every path also remembers what each group has captured last on it.  The
    captures of abandoned paths play no role. *)
From Verif Require Import Ast Matcher Spec.

(** What the backreferences stand for: the range captured last by the group
    with that number or name. *)
Definition env : Type := node -> option (nat * nat).
Definition no_groups : env := fun _ => None.

Definition same_text (a b : list ascii) : bool :=
  if list_eq_dec ascii_dec a b then true else false.

(** Does the backreference [b] call the group with this number and name? *)
Definition calls (b : node) (id : N) (nm : group_name) : bool :=
  match b, nm with
  | Backref i, _ => N.eqb i id
  | NBackref x, Some y => same_text x y
  | _, _ => false
  end.

Definition with_group (e : env) (id : N) (nm : group_name) (v : nat * nat) : env :=
  fun b => if calls b id nm then Some v else e b.

(** An offset and what was captured on the way to it. *)
Definition state : Type := nat * env.

Section Tracks.
  Variable cf : config.
  Variable s : list ascii.

  (** The text a backreference stands for; a group that was not captured is
      taken as empty. *)
  Definition text_of (e : env) (b : node) : list ascii :=
    match e b with
    | Some (i, j) => firstn (j - i) (skipn i s)
    | None => []
    end.

  (** The text occurs at an offset, letter case ignored if configured so. *)
  Fixpoint occurs (t : list ascii) (i : nat) : bool :=
    match t with
    | [] => true
    | a :: r => char_at s (accepts cf (Lit a)) i && occurs r (S i)
    end.

  (** The loops of Spec.v, on states. *)
  Section Loops.
    Variable f : state -> list state.

    Fixpoint times_on (n : nat) (x : state) : list state :=
      match n with
      | 0 => [x]
      | S n' => flat_map (times_on n') (f x)
      end.

    Fixpoint more_on (fuel : nat) (b : quantifier) (x : state) : list state :=
      match fuel with
      | 0 => []
      | S fu =>
          match b with
          | Fin n =>
              if N.eqb n 0 then [x]
              else flat_map (more_on fu (Fin (n - 1))) (f x) ++ [x]
          | Inf =>
              flat_map (fun y => if Nat.eqb (fst x) (fst y) then [] else more_on fu Inf y) (f x)
              ++ [x]
          end
      end.

    Fixpoint fewer_on (fuel : nat) (b : quantifier) (x : state) : list state :=
      match fuel with
      | 0 => []
      | S fu =>
          match b with
          | Fin n =>
              if N.eqb n 0 then [x]
              else x :: flat_map (fewer_on fu (Fin (n - 1))) (f x)
          | Inf =>
              x :: flat_map (fun y => if Nat.eqb (fst x) (fst y) then [] else fewer_on fu Inf y) (f x)
          end
      end.
  End Loops.

  (** The states after a match of a tree, in the order in which they must be
      tried.  What a negation or a lookbehind captures is forgotten. *)
  Fixpoint tracks (n : node) (x : state) {struct n} : list state :=
    let (i, e) := x in
    let test (b : bool) := if b then [x] else [] in
    let char (p : ascii -> bool) := if char_at s p i then [(S i, e)] else [] in
    match n with
    | Empty => [x]
    | BeginLine => test (at_line_start cf s i)
    | BeginInput => test (Nat.eqb i 0)
    | EndLine => test (at_line_end cf s i)
    | EndInput => test (Nat.eqb i (length s))
    | WordB => test (at_word_boundary s i)
    | Wild | Lit _ | Range _ _ | CSet _ => char (accepts cf n)
    | Neg y =>
        if is_class y then char (accepts cf n)
        else match tracks y x with [] => [x] | _ => [] end
    | Seq l =>
        (fix all (l : list node) (x : state) : list state :=
           match l with
           | [] => [x]
           | y :: r => flat_map (all r) (tracks y x)
           end) l x
    | Alt l => flat_map (fun y => tracks y x) l
    | Cap id nm y => map (fun z => (fst z, with_group (snd z) id nm (i, fst z))) (tracks y x)
    | Rep mode lo hi y =>
        let b := remaining hi lo in
        let start := times_on (tracks y) (N.to_nat lo) x in
        let more := flat_map (fun z => more_on (tracks y) (bound_fuel s b (fst z)) b z) start in
        let fewer := flat_map (fun z => fewer_on (tracks y) (bound_fuel s b (fst z)) b z) start in
        match mode with
        | Greedy => if ungreedy cf then fewer else more
        | Lazy => if ungreedy cf then more else fewer
        | Possessive => firstn 1 more
        end
    | Backref _ | NBackref _ =>
        let t := text_of e n in if occurs t i then [(i + length t, e)] else []
    | Look Ahead y => match tracks y x with [] => [] | z :: _ => [(i, snd z)] end
    | Look Behind y =>
        test (existsb (fun k => existsb (fun z => Nat.eqb i (fst z)) (tracks y (k, e)))
                (List.seq 0 (S i)))
    end.

  (** The ends of the matches from an offset, and the first of them. *)
  Definition ends_with_groups (n : node) (i : nat) : list nat :=
    map fst (tracks n (i, no_groups)).
  Definition preferred_with_groups (n : node) (i : nat) : option nat :=
    hd_error (ends_with_groups n i).

  (** The state reached first, and the first one at the end of the text. *)
  Definition first_state (n : node) (i : nat) : option state := hd_error (tracks n (i, no_groups)).
  Definition first_whole (n : node) : option state :=
    find (fun y => Nat.eqb (fst y) (length s)) (tracks n (0, no_groups)).
End Tracks.

(** The range captured last by the group with this number. *)
Definition group_of (y : state) (id : N) : option (nat * nat) := snd y (Backref id).

(** ** Where the code agrees *)

(** The backreferences and the groups of a tree. *)
Fixpoint refs_of (n : node) : list node :=
  match n with
  | Backref _ | NBackref _ => [n]
  | Seq l | Alt l => flat_map refs_of l
  | Neg x | Cap _ _ x | Rep _ _ _ x | Look _ x => refs_of x
  | _ => []
  end.

Fixpoint groups_of (n : node) : list (N * group_name) :=
  match n with
  | Cap id nm x => (id, nm) :: groups_of x
  | Seq l | Alt l => flat_map groups_of l
  | Neg x | Rep _ _ _ x | Look _ x => groups_of x
  | _ => []
  end.

Definition same_ref (a b : node) : bool :=
  match a, b with
  | Backref i, Backref j => N.eqb i j
  | NBackref x, NBackref y => same_text x y
  | _, _ => false
  end.

Definition listed (l : list node) (b : node) : bool := existsb (same_ref b) l.

Section Scope.
  (** All backreferences of the regex. *)
  Variable refs : list node.

  (** Those calling a group. *)
  Definition callers (id : N) (nm : group_name) : list node :=
    filter (fun b => calls b id nm) refs.

  (** The tree captures no group that is called anywhere, and calls only groups
      that are [set]. *)
  Definition closed (set : list node) (n : node) : bool :=
    forallb (listed set) (refs_of n)
    && forallb (fun g => match callers (fst g) (snd g) with [] => true | _ => false end) (groups_of n).

  (** [set]: the backreferences whose group has certainly been captured before;
      [seen]: those whose group may have been.  The result are the two lists
      after the tree; [None] if a backreference may precede its group, if a
      group that is called may be captured twice, or is captured inside a
      repetition, a negation or a lookbehind. *)
  Fixpoint scope (set seen : list node) (n : node) : option (list node * list node) :=
    if closed set n then Some (set, seen)
    else
      match n with
      | Cap id nm x =>
          match scope set seen x with
          | Some (set', seen') =>
              let new := callers id nm in
              if existsb (listed seen') new then None else Some (new ++ set', new ++ seen')
          | None => None
          end
      | Seq l =>
          (fix all (set seen : list node) (l : list node) :=
             match l with
             | [] => Some (set, seen)
             | x :: r =>
                 match scope set seen x with
                 | Some (set', seen') => all set' seen' r
                 | None => None
                 end
             end) set seen l
      | Alt l =>
          (fix all (seen' : list node) (l : list node) :=
             match l with
             | [] => Some (set, seen')
             | x :: r =>
                 match scope set seen x with
                 | Some (_, seen2) => all (seen2 ++ seen') r
                 | None => None
                 end
             end) seen l
      | Look Ahead x | Rep Possessive 1 (Fin 1) x => scope set seen x
      | _ => None
      end.
End Scope.

(** Every backreference is preceded by its group, which is captured at most once
    on every path; the same holds of the groups with the given numbers. *)
Definition traceable (ids : list N) (n : node) : bool :=
  match scope (map Backref ids ++ refs_of n) [] [] n with Some _ => true | None => false end.

Definition scoped (n : node) : bool := traceable [] n.
