(** The matching algorithm: [match_one] and [match] of every AST node
    (/repo/include/mregex/ast/nodes, ast/predicates), continuations
    (utility/continuations.hpp) and distances (utility/distance.hpp).

    [Node::match(begin, end, current, ctx, cont)] becomes [m fuel rd n cur c k]:
    - [begin] and [end] never change during a match, so they are offsets 0 and
      [length] of the text seen by the iterator type;
    - [rd] is the number of [std::reverse_iterator] layers around the base
      iterator type (0 outside lookbehinds);
    - [cur] is the offset of [current] in the text as seen by that type;
    - [c] is [ctx.captures]; the reference is threaded as a state;
    - [k] is the continuation, a function of the next offset and the state. *)
From Verif Require Export Traits.

(** The std iterator concept satisfied by the iterator type used for matching
    (selected on by sequence.hpp:34, 41, fixed_repetition.hpp:85, 107,
    repetition.hpp:93, lookaround_predicate.hpp:31, 45, anchor_predicates.hpp:45,
    distance.hpp:20, 38 and regex_capture.hpp:91, 97).  [std::reverse_iterator] keeps the category. *)
Inductive category := ForwardIt | BidirectionalIt | RandomAccessIt.

(** regex_flags.hpp:25-36 [regex_flag_sequence] plus the iterator category. *)
Record config := mk_config {
  icase : bool;
  dotall : bool;
  multiline : bool;
  ungreedy : bool;
  unroll : bool;
  cat : category
}.

(** [std::random_access_iterator] (ast/nodes/sequence.hpp:34, utility/distance.hpp:20,
    38, ast/nodes/quantifiers/fixed_repetition.hpp:85, 107). *)
Definition is_random (cf : config) : bool :=
  match cat cf with RandomAccessIt => true | _ => false end.
(** [std::bidirectional_iterator] (ast/nodes/quantifiers/repetition.hpp:93,
    ast/predicates/anchor_predicates.hpp:45, ast/predicates/lookaround_predicate.hpp:31, 45). *)
Definition is_bidirectional (cf : config) : bool :=
  match cat cf with ForwardIt => false | _ => true end.

(** regex_capture.hpp:113-115: [_begin], [_end] of a capture view as offsets in
    the text of the base iterator; [None] is the value-initialised pair. *)
Definition cell := option (nat * nat).

(** regex_match_context.hpp:24 [captures]: cell [i] is [std::get<i>]. *)
Definition caps := list cell.

(** What a call of [match] does: [Res c e b] returns [match_result{e, b}]
    (ast/match_result.hpp:12-26) leaving captures [c]; [Undef] is undefined
    behaviour; [IllFormed] does not compile; [Diverge] does not return. *)
Inductive outcome :=
| Res (c : caps) (e : nat) (matched : bool)
| Undef
| IllFormed
| Diverge.

(** A match continuation (utility/continuations.hpp:8-12). *)
Definition cont := nat -> caps -> outcome.

(** ast/match_result.hpp:28-32 [non_match]. *)
Definition non_match (cur : nat) (c : caps) : outcome := Res c cur false.

(** utility/continuations.hpp:22-24 [success]. *)
Definition success : cont := fun next c => Res c next true.

(** utility/continuations.hpp:26-30 [equals(target)]. *)
Definition equals (target : nat) : cont :=
  fun next c => Res c next (Nat.eqb next target).

(** [if (auto r = o) return r; return f();] — used by alternation.hpp:18-20,
    repetition.hpp:87-90, 116-125: a match is returned, otherwise go on with the
    captures left by the failed attempt. *)
Definition or_else (o : outcome) (f : caps -> outcome) : outcome :=
  match o with
  | Res _ _ true => o
  | Res c _ false => f c
  | _ => o
  end.

(** [if (auto r = o) return f(r.end); return g();]
    (ast/nodes/quantifiers/fixed_repetition.hpp:145-147). *)
Definition on_result (o : outcome) (f : nat -> caps -> outcome)
  (g : caps -> outcome) : outcome :=
  match o with
  | Res c e true => f e c
  | Res c _ false => g c
  | _ => o
  end.

(** Reading [*it] for the iterator at offset [i]
    (ast/nodes/trivially_matchable.hpp:21): outside the text it is undefined
    behaviour. *)
Definition deref (s : list ascii) (i : nat) (f : ascii -> outcome) : outcome :=
  match nth_error s i with Some a => f a | None => Undef end.

(** ast/nodes/terminals/literal.hpp:12-19 [literal<C>::match_one]. *)
Definition literal_match_one (cf : config) (c input : ascii) : bool :=
  Ascii.eqb c input
  || (icase cf && is_alpha c && Ascii.eqb (flip_lowercase_bit c) input).

(** ast/nodes/terminals/range.hpp:13-30 [range_intersection::contains] with the
    bounds of [range<A, B>] and [range<X, Y>]. *)
Definition intersection_contains (a b x y input : ascii) : bool :=
  let start := N.max (code a) (code x) in
  let stop := N.min (code b) (code y) in
  if N.ltb stop start then false
  else N.leb start (code input) && N.leb (code input) stop.

(** ast/nodes/terminals/range.hpp:41-58 [range<A, B>::match_one] for A < B and
    61-62 for A = B ([range<C, C>] is [literal<C>]). *)
Definition range_match_one (cf : config) (a b input : ascii) : bool :=
  if Ascii.eqb a b then literal_match_one cf a input
  else
    is_in_ascii_range a b input
    || (icase cf
        && (intersection_contains a b "a" "z" (flip_lowercase_bit input)
            || intersection_contains a b "A" "Z" (flip_lowercase_bit input))).

(** [match_one] of the trivially matchable nodes: literal.hpp:12-19,
    range.hpp:41-62, wildcard.hpp:10-16, set.hpp:14-18, negated.hpp:16-20;
    inherited in sequence.hpp:62-63, alternation.hpp:24-29,
    fixed_repetition.hpp:151-152.  Only used for nodes with [trivial n = true];
    other nodes have no [match_one] (the value [false] below is never used). *)
Fixpoint match_one (cf : config) (n : node) (input : ascii) : bool :=
  match n with
  | Lit c => literal_match_one cf c input
  | Range a b => range_match_one cf a b input
  | Wild =>
      if dotall cf then true
      else negb (literal_match_one cf "010" input || literal_match_one cf "013" input)
  | CSet l => existsb (fun x => match_one cf x input) l
  | Neg x => negb (match_one cf x input)
  | Seq [x] => match_one cf x input
  | Alt l => existsb (fun x => match_one cf x input) l
  | Rep _ _ _ x => match_one cf x input
  | _ => false
  end.

(** ast/nodes/trivially_matchable.hpp:17-24 [match]. *)
Definition match_trivial (s : list ascii) (p : ascii -> bool)
  (cur : nat) (c : caps) (k : cont) : outcome :=
  if Nat.eqb cur (length s) then non_match cur c
  else deref s cur (fun a => if p a then k (S cur) c else non_match cur c).

(** utility/distance.hpp:8-18 and 26-36: forward overload, a counting loop. *)
Fixpoint distance_loop (n : nat) (len cur : nat) : bool :=
  match n with
  | 0 => false
  | S n' => if Nat.eqb cur len then true else distance_loop n' len (S cur)
  end.

(** utility/distance.hpp [distance_less_than]: random access overloads at
    20-24 and 38-42 compare [std::distance(begin, end)] with [n]. *)
Definition distance_less_than (cf : config) (n : N) (len cur : nat) : bool :=
  if is_random cf then N.ltb (N.of_nat (len - cur)) n
  else distance_loop (N.to_nat n) len cur.

(** The fold [First::match_one( *current) && (Rest::match_one( *next(current, I)) && ...)]
    of sequence.hpp:47 and fixed_repetition.hpp:91: tests [ps] at consecutive offsets from [cur], stops at the first failure.
    [None] is undefined behaviour. *)
Fixpoint all_at (s : list ascii) (ps : list (ascii -> bool)) (cur : nat)
  : option bool :=
  match ps with
  | [] => Some true
  | p :: r =>
      match nth_error s cur with
      | Some a => if p a then all_at s r (S cur) else Some false
      | None => None
      end
  end.

(** sequence.hpp:41-50 and fixed_repetition.hpp:85-94: the random access
    versions report failure at the initial offset. *)
Definition trivial_block_random (s : list ascii) (ps : list (ascii -> bool))
  (cur : nat) (c : caps) (k : cont) : outcome :=
  match all_at s ps cur with
  | Some true => k (cur + length ps) c
  | Some false => non_match cur c
  | None => Undef
  end.

(** sequence.hpp:52-59: the forward version increments [current] between the
    tests ([*++current]) and reports failure at the offset of the failed test. *)
Fixpoint sequence_block_forward (s : list ascii) (ps : list (ascii -> bool))
  (cur : nat) (c : caps) (k : cont) : outcome :=
  match ps with
  | [] => IllFormed
  | [p] => deref s cur (fun a => if p a then k (S cur) c else non_match cur c)
  | p :: r =>
      deref s cur (fun a =>
        if p a then sequence_block_forward s r (S cur) c k else non_match cur c)
  end.

(** fixed_repetition.hpp:107-117 [non_unrolled_trivial_match], random access:
    [todo] iterations are left, [offset] have been done. *)
Fixpoint repetition_loop_random (s : list ascii) (p : ascii -> bool)
  (todo offset : nat) (cur : nat) (c : caps) (k : cont) : outcome :=
  match todo with
  | 0 => k (cur + offset) c
  | S t =>
      deref s (cur + offset) (fun a =>
        if negb (p a) then non_match cur c
        else repetition_loop_random s p t (S offset) cur c k)
  end.

(** fixed_repetition.hpp:96-105 and 119-129: the forward versions read
    [*current++], so a failure is reported one past the failed test. *)
Fixpoint repetition_block_forward (s : list ascii) (p : ascii -> bool) (n : nat)
  (cur : nat) (c : caps) (k : cont) : outcome :=
  match n with
  | 0 => k cur c
  | S n' =>
      deref s cur (fun a =>
        if p a then repetition_block_forward s p n' (S cur) c k
        else non_match (S cur) c)
  end.

(** symbols/quantifiers.hpp:59-63 [is_zero], for an upper bound at run time. *)
Definition bound_is_zero (b : quantifier) : bool :=
  match b with Fin n => N.eqb n 0 | Inf => false end.
(** symbols/quantifiers.hpp:101-118 [decrement]. *)
Definition bound_decrement (b : quantifier) : quantifier :=
  match b with Fin n => Fin (n - 1) | Inf => Inf end.
(** symbols/quantifiers.hpp:123-140 [subtract]. *)
Definition bound_subtract (b : quantifier) (n : N) : quantifier :=
  match b with Fin a => Fin (a - n) | Inf => Inf end.
(** symbols/quantifiers.hpp:45-49 [is_infinity]. *)
Definition is_infinity (b : quantifier) : bool :=
  match b with Fin _ => false | Inf => true end.

(** Fuel of a bounded loop (ast/nodes/quantifiers/repetition.hpp:64-141): a finite
    bound counts itself down, an infinite one can make at most [len - cur] steps
    that advance (device of the model: running out is reported as [Diverge]). *)
Definition loop_fuel (b : quantifier) (len cur : nat) : nat :=
  match b with Fin n => S (N.to_nat n) | Inf => S (len - cur) end.

(** repetition.hpp:64-76, trivially matchable inner node.  The loop counts
    [match_count] up to the bound; here the bound is counted down. *)
Fixpoint possessive_trivial (fuel : nat) (s : list ascii) (p : ascii -> bool)
  (b : quantifier) (cur : nat) (c : caps) (k : cont) : outcome :=
  match fuel with
  | 0 => Diverge
  | S f =>
      if bound_is_zero b then k cur c
      else if Nat.eqb cur (length s) then k cur c
      else deref s cur (fun a =>
        if p a then possessive_trivial f s p (bound_decrement b) (S cur) c k
        else k cur c)
  end.

(** repetition.hpp:98-108: the continuation that gives back one character at a
    time; [d] is [next - initial]. *)
Fixpoint step_back (initial d : nat) (c : caps) (k : cont) : outcome :=
  or_else (k (initial + d) c)
    (fun c' =>
       match d with
       | 0 => non_match initial c'
       | S d' => step_back initial d' c' k
       end).

(** repetition.hpp:128-141, lazy loop over a trivially matchable inner node. *)
Fixpoint lazy_trivial (fuel : nat) (s : list ascii) (p : ascii -> bool)
  (b : quantifier) (cur : nat) (c : caps) (k : cont) : outcome :=
  match fuel with
  | 0 => Diverge
  | S f =>
      or_else (k cur c) (fun c' =>
        if bound_is_zero b then non_match cur c'
        else if Nat.eqb cur (length s) then non_match cur c'
        else deref s cur (fun a =>
          if p a then lazy_trivial f s p (bound_decrement b) (S cur) c' k
          else non_match cur c'))
  end.

(** The matcher of an inner node at a fixed iterator type: [Inner::match], e.g.
    ast/nodes/quantifiers/repetition.hpp:87. *)
Definition matcher := nat -> caps -> cont -> outcome.

(** fixed_repetition.hpp:60-68 [unrolled_backtracking_match]: one step runs
    [Inner] and continues with [fixed_repetition<N - 1, Inner>::match], which is
    [Inner] itself for 1 (151-152), [empty] for 0 (154-155) and comes back to
    [unrolled_backtracking_match] for more (17-24, 41-42). *)
Fixpoint unrolled_backtracking (mx : matcher) (n : nat) (cur : nat) (c : caps)
  (k : cont) : outcome :=
  match n with
  | 0 => k cur c
  | S n' =>
      match n' with
      | 0 => mx cur c k
      | _ => mx cur c (fun next c' => unrolled_backtracking mx n' next c' k)
      end
  end.

(** fixed_repetition.hpp:70-83 [non_unrolled_backtracking_match] with the
    parameter [repeats]; it is called with [repeats = N > 1], so the counter
    never reaches 0 (there the C++ counter would wrap around: [Diverge]). *)
Fixpoint non_unrolled_backtracking (mx : matcher) (repeats : nat) (cur : nat)
  (c : caps) (k : cont) : outcome :=
  match repeats with
  | 0 => Diverge
  | S r =>
      if Nat.eqb repeats 1 then mx cur c k
      else mx cur c (fun next c' => non_unrolled_backtracking mx r next c' k)
  end.

(** repetition.hpp:143-164 [continue_unless_infinite_loop]: [w] is the
    compile-time condition of the overload at 159-164. *)
Definition continue_unless_infinite_loop (w : bool) (cur : nat) (k : cont) : cont :=
  fun next c => if w && Nat.eqb cur next then non_match cur c else k next c.

(** repetition.hpp:50-62, generic inner node. *)
Fixpoint possessive_generic (fuel : nat) (mx : matcher) (w : bool) (b : quantifier)
  (cur : nat) (c : caps) (k : cont) : outcome :=
  match fuel with
  | 0 => Diverge
  | S f =>
      if bound_is_zero b then k cur c
      else on_result (mx cur c success)
             (fun e c' =>
                if w && Nat.eqb cur e then k cur c'
                else possessive_generic f mx w (bound_decrement b) e c' k)
             (fun c' => k cur c')
  end.

(** repetition.hpp:78-91, generic greedy loop. *)
Fixpoint greedy_generic (fuel : nat) (mx : matcher) (w : bool) (b : quantifier)
  (cur : nat) (c : caps) (k : cont) : outcome :=
  match fuel with
  | 0 => Diverge
  | S f =>
      if bound_is_zero b then k cur c
      else or_else
             (mx cur c (continue_unless_infinite_loop w cur
                (fun next c' => greedy_generic f mx w (bound_decrement b) next c' k)))
             (fun c' => k cur c')
  end.

(** repetition.hpp:112-126, generic lazy loop. *)
Fixpoint lazy_generic (fuel : nat) (mx : matcher) (w : bool) (b : quantifier)
  (cur : nat) (c : caps) (k : cont) : outcome :=
  match fuel with
  | 0 => Diverge
  | S f =>
      or_else (k cur c) (fun c' =>
        if bound_is_zero b then non_match cur c'
        else mx cur c' (continue_unless_infinite_loop w cur
               (fun next c'' => lazy_generic f mx w (bound_decrement b) next c'' k)))
  end.

(** Equality of names as values (symbols/names.hpp:12-16; equality of types in C++). *)
Fixpoint chars_eqb (a b : list ascii) : bool :=
  match a, b with
  | [], [] => true
  | x :: a', y :: b' => Ascii.eqb x y && chars_eqb a' b'
  | _, _ => false
  end.
(** Equality of the types [symbol::name<N>] and [symbol::unnamed]
    (symbols/names.hpp:12-18). *)
Definition name_eqb (a b : group_name) : bool :=
  match a, b with
  | None, None => true
  | Some x, Some y => chars_eqb x y
  | _, _ => false
  end.

(** Assignment to [std::get<ID>(ctx.captures)] (ast/nodes/capture.hpp:41-43); [None]
    when there is no such element. *)
Fixpoint set_cell (i : nat) (v : cell) (c : caps) : option caps :=
  match c, i with
  | [], _ => None
  | _ :: r, 0 => Some (v :: r)
  | x :: r, S i' => option_map (cons x) (set_cell i' v r)
  end.

(** regex_capture.hpp:57-60 [clear]: [_end = _begin]. *)
Definition clear_value (v : cell) : cell :=
  match v with Some (b, _) => Some (b, b) | None => None end.

(** [std::get<id>(captures).clear()], capture.hpp:28. *)
Definition clear_cell (i : nat) (c : caps) : option caps :=
  match nth_error c i with
  | Some v => set_cell i (clear_value v) c
  | None => None
  end.

(** Lookup of the only element of the given name: [std::get<capture_type>] of
    backref.hpp:28-35 needs exactly one element of that type. *)
Fixpoint positions_of (nm : group_name) (names : list group_name) (i : nat)
  : list nat :=
  match names with
  | [] => []
  | x :: r => (if name_eqb nm x then [i] else []) ++ positions_of nm r (S i)
  end.
(** ast/nodes/terminals/backref.hpp:33 and match_result.hpp:297
    [std::get<capture_type>]: ill-formed unless there is exactly one. *)
Definition unique_position (nm : group_name) (names : list group_name) : option nat :=
  match positions_of nm names 0 with [i] => Some i | _ => None end.

(** backref.hpp:72-75 [equals<IgnoreCase>]. *)
Definition backref_char_eq (cf : config) (a b : ascii) : bool :=
  Ascii.eqb a b || (icase cf && Ascii.eqb (invert_case a) b).

(** backref.hpp:52-57: compares the captured characters with the input. *)
Fixpoint backref_loop (cf : config) (s : list ascii) (target : list ascii)
  (cur : nat) (c : caps) (k : cont) : outcome :=
  match target with
  | [] => k cur c
  | t :: r =>
      deref s cur (fun a =>
        if backref_char_eq cf t a then backref_loop cf s r (S cur) c k
        else non_match cur c)
  end.

Section Matching.
  Variable cf : config.
  Variable names : list group_name.   (* regex_capture_storage.hpp:11-15 *)
  Variable base : list ascii.         (* the text of the base iterator type *)

  (** The text as seen through [rd] reverse_iterator layers
    (ast/predicates/lookaround_predicate.hpp:28-52). *)
  Definition view (rd : nat) : list ascii :=
    if Nat.even rd then base else rev base.
  (** The distance from [begin] to [end] (regex_methods.hpp:20). *)
  Definition len : nat := length base.

  (** sequence.hpp:12-63; the tail [sequence<Rest...>] is again tested for
      being all trivially matchable (27-38).  [sequence<>] does not exist. *)
  Fixpoint seq_match (s : list ascii) (mm : node -> matcher) (l : list node)
    (cur : nat) (c : caps) (k : cont) : outcome :=
    match l with
    | [] => IllFormed
    | x :: r =>
        match r with
        | [] => mm x cur c k
        | _ =>
            if forallb trivial l then
              if distance_less_than cf (N.of_nat (length l)) (length s) cur
              then non_match cur c
              else if is_random cf
              then trivial_block_random s (map (match_one cf) l) cur c k
              else sequence_block_forward s (map (match_one cf) l) cur c k
            else mm x cur c (fun next c' => seq_match s mm r next c' k)
        end
    end.

  (** alternation.hpp:11-29; all-trivial alternations are sets. *)
  Fixpoint alt_match (s : list ascii) (mm : node -> matcher) (l : list node)
    (cur : nat) (c : caps) (k : cont) : outcome :=
    match l with
    | [] => IllFormed
    | x :: r =>
        match r with
        | [] => mm x cur c k
        | _ =>
            if forallb trivial l
            then match_trivial s (fun a => existsb (fun y => match_one cf y a) l) cur c k
            else or_else (mm x cur c k) (fun c' => alt_match s mm r cur c' k)
        end
    end.

  (** fixed_repetition.hpp:37-58 [backtracking_match] for N > 1. *)
  Definition fixed_backtracking (s : list ascii) (x : node) (mx : matcher) (n : N)
    (cur : nat) (c : caps) (k : cont) : outcome :=
    let p := match_one cf x in
    if trivial x then                                              (* 47-58 *)
      if distance_less_than cf n (length s) cur then non_match cur c
      else if is_random cf then
        if unroll cf then trivial_block_random s (repeat p (N.to_nat n)) cur c k
        else repetition_loop_random s p (N.to_nat n) 0 cur c k
      else repetition_block_forward s p (N.to_nat n) cur c k
    else if unroll cf then unrolled_backtracking mx (N.to_nat n) cur c k  (* 41-42 *)
    else non_unrolled_backtracking mx (N.to_nat n) cur c k.               (* 43-44 *)

  (** fixed_repetition.hpp:12-155 [basic_fixed_repetition<Mode, N, Inner>::match]. *)
  Definition fixed_match (s : list ascii) (mode : match_mode) (n : N) (x : node)
    (mx : matcher) (cur : nat) (c : caps) (k : cont) : outcome :=
    if N.eqb n 0 then k cur c                                    (* 154-155 *)
    else if N.eqb n 1 then
      match mode with
      | Possessive =>
          if trivial x then mx cur c k                           (* 151-152 *)
          else on_result (mx cur c success) (fun e c' => k e c')
                 (fun c' => non_match cur c')                    (* 137-149 *)
      | _ => mx cur c k                                          (* 151-152 *)
      end
    else
      match mode with
      | Possessive =>                                            (* 28-35 *)
          on_result (fixed_backtracking s x mx n cur c success)
            (fun e c' => k e c') (fun c' => non_match cur c')
      | _ => fixed_backtracking s x mx n cur c k                 (* 24 *)
      end.

  (** repetition.hpp:36-48 [match_between_bounds]. *)
  Definition between_bounds (s : list ascii) (mode : match_mode) (b : quantifier)
    (w : bool) (x : node) (mx : matcher) (cur : nat) (c : caps) (k : cont) : outcome :=
    let fuel := loop_fuel b (length s) cur in
    match mode with
    | Possessive =>
        if trivial x then possessive_trivial fuel s (match_one cf x) b cur c k
        else possessive_generic fuel mx w b cur c k
    | _ =>
        if xorb (match mode with Greedy => true | _ => false end) (ungreedy cf) then
          if trivial x && is_bidirectional cf then                (* 93-110 *)
            possessive_trivial fuel s (match_one cf x) b cur c
              (fun next c' => step_back cur (next - cur) c' k)
          else greedy_generic fuel mx w b cur c k
        else if trivial x then lazy_trivial fuel s (match_one cf x) b cur c k
        else lazy_generic fuel mx w b cur c k
    end.

  (** [basic_repetition::match]: repetition.hpp:17-33 for different bounds,
      fixed_repetition.hpp for equal ones. *)
  Definition rep_match (s : list ascii) (mode : match_mode) (lo : N) (hi : quantifier)
    (x : node) (mx : matcher) (cur : nat) (c : caps) (k : cont) : outcome :=
    let fixed := match hi with Fin h => N.eqb lo h | Inf => false end in
    let w := is_infinity hi && zlm x in
    if fixed then fixed_match s mode lo x mx cur c k
    else if is_zero lo then
      between_bounds s mode (bound_subtract hi lo) w x mx cur c k
    else
      fixed_match s mode lo x mx cur c (fun next c' =>
        between_bounds s mode (bound_subtract hi lo) w x mx next c' k).

  (** capture.hpp:33-44 [capture_matched_range] for an inner match from offset
      [b] to [e] of the current iterator type.  Layer 0 stores the iterators,
      layer 1 stores [{end.base(), begin.base()}]; from layer 2 on [base()] is
      again a reverse iterator and the assignment does not compile.  The name
      of the tuple element must be the name of the node. *)
  Definition store (rd : nat) (id : N) (nm : group_name) (b e : nat) (c : caps)
    : option caps :=
    match nth_error names (N.to_nat id) with
    | Some nm' =>
        if name_eqb nm nm' then
          match rd with
          | 0 => set_cell (N.to_nat id) (Some (b, e)) c
          | 1 => set_cell (N.to_nat id) (Some (len - e, len - b)) c
          | _ => None
          end
        else None
    | None => None
    end.

  (** backref.hpp:42-59 [backref_base::match].  The captured text is a range of
      the base text; with a different iterator type ([rd <> 0]) it is compared
      from its end (50-52). *)
  Definition backref_match (rd : nat) (i : nat) (cur : nat) (c : caps) (k : cont)
    : outcome :=
    let s := view rd in
    match nth_error c i with
    | None => IllFormed
    | Some v =>
        let (b, e) := match v with Some p => p | None => (0, 0) end in
        if distance_less_than cf (N.of_nat (e - b)) (length s) cur
        then non_match cur c
        else if Nat.ltb e b || Nat.ltb len e then Undef
        else
          let captured := firstn (e - b) (skipn b base) in
          backref_loop cf s (match rd with 0 => captured | _ => rev captured end)
            cur c k
    end.

  (** [Predicate::is_match] used as an assertion: assertion.hpp:22-29. *)
  Definition assert_that (b : bool) (cur : nat) (c : caps) (k : cont) : outcome :=
    if b then k cur c else non_match cur c.

  (** Node::match; the lines are given at each case (e.g. ast/nodes/terminals/empty.hpp:13-18).
      Running out of fuel is [Diverge]; fuel [size n] suffices. *)
  Fixpoint m (fuel : nat) (rd : nat) (n : node) (cur : nat) (c : caps) (k : cont)
    {struct fuel} : outcome :=
    match fuel with
    | 0 => Diverge
    | S f =>
        let s := view rd in
        match n with
        | Empty => k cur c                                  (* empty.hpp:13-18 *)
        | Lit _ | Range _ _ | Wild | CSet _ =>
            match_trivial s (match_one cf n) cur c k  (* trivially_matchable.hpp:17-24 *)
        | BeginInput =>                           (* anchor_predicates.hpp:9-24 *)
            assert_that (Nat.eqb cur 0) cur c k
        | BeginLine =>                            (* anchor_predicates.hpp:9-24 *)
            if Nat.eqb cur 0 then k cur c
            else if multiline cf then
              (* std::prev on an iterator that cannot go back is undefined *)
              if is_bidirectional cf then
                deref s (cur - 1) (fun a => assert_that (match_one cf n_linebreak a) cur c k)
              else Undef
            else non_match cur c
        | EndInput =>                            (* anchor_predicates.hpp:26-41 *)
            assert_that (Nat.eqb cur (length s)) cur c k
        | EndLine =>                             (* anchor_predicates.hpp:26-41 *)
            if Nat.eqb cur (length s) then k cur c
            else if multiline cf then
              deref s cur (fun a => assert_that (match_one cf n_linebreak a) cur c k)
            else non_match cur c
        | WordB =>                               (* anchor_predicates.hpp:43-52 *)
            if negb (is_bidirectional cf) then IllFormed else
            let ahead (b : bool) :=
              if Nat.eqb cur (length s) then assert_that (xorb b false) cur c k
              else deref s cur (fun a =>
                     assert_that (xorb b (match_one cf n_word a)) cur c k) in
            if Nat.eqb cur 0 then ahead false
            else deref s (cur - 1) (fun a => ahead (match_one cf n_word a))
        | Neg x =>
            if is_assertion x then
              (* negated.hpp:23-25, negate.hpp:8-16: the predicate of [x] is the
                 verdict of [x] with the trivial continuation *)
              on_result (m f rd x cur c success)
                (fun _ c' => non_match cur c') (fun c' => k cur c')
            else match_trivial s (match_one cf n) cur c k     (* negated.hpp:11-21 *)
        | Seq l => seq_match s (m f rd) l cur c k
        | Alt l => alt_match s (m f rd) l cur c k
        | Cap id nm x =>                                       (* capture.hpp:18-30 *)
            or_else
              (m f rd x cur c (fun next c' =>
                 match store rd id nm cur next c' with
                 | Some c'' => k next c''
                 | None => IllFormed
                 end))
              (fun c' => match clear_cell (N.to_nat id) c' with
                         | Some c'' => non_match cur c''
                         | None => IllFormed
                         end)
        | Rep mode lo hi x => rep_match s mode lo hi x (m f rd x) cur c k
        | Backref id => backref_match rd (N.to_nat id) cur c k (* backref.hpp:16-24, 42-59 *)
        | NBackref nm =>                                       (* backref.hpp:26-36, 42-59 *)
            match unique_position (Some nm) names with
            | Some i => backref_match rd i cur c k
            | None => IllFormed
            end
        | Look Ahead x =>                        (* lookaround_predicate.hpp:10-26 *)
            if trivial x then
              if Nat.eqb cur (length s) then non_match cur c
              else deref s cur (fun a => assert_that (match_one cf x a) cur c k)
            else on_result (m f rd x cur c success)
                   (fun _ c' => k cur c') (fun c' => non_match cur c')
        | Look Behind x =>                       (* lookaround_predicate.hpp:28-52 *)
            if negb (is_bidirectional cf) then IllFormed
            else if trivial x then
              if Nat.eqb cur 0 then non_match cur c
              else deref s (cur - 1) (fun a => assert_that (match_one cf x a) cur c k)
            else on_result (m f (S rd) (invert x) (length s - cur) c success)
                   (fun _ c' => k cur c') (fun c' => non_match cur c')
        end
    end.

  (** [AST::match] (regex_methods.hpp:22, 40, 60) with enough fuel. *)
  Definition node_match (rd : nat) (n : node) (cur : nat) (c : caps) (k : cont)
    : outcome := m (size n) rd n cur c k.

  (** Compile-time conditions met when [match] of a node is instantiated at
      iterator layer [rd]:
      - range.hpp:39 (start < stop, or equal by 61-62), repetition.hpp:14,
        set.hpp:12, negated.hpp:14;
      - distance.hpp:8 takes the count as [std::ptrdiff_t], so a fixed
        repetition of a trivially matchable node needs N < 2^63;
      - anchor_predicates.hpp:45, lookaround_predicate.hpp:31, 45 and
        backref.hpp:62-69 need bidirectional iterators;
      - backref.hpp:22 and 33 need an existing, for names unique, element;
      - capture.hpp:41-43 needs an element of the same name and at most one
        reverse_iterator layer;
      - [sequence] and [alternation] have at least one element.
      fixed_repetition.hpp:154-155 does not instantiate its inner node. *)
  Fixpoint compiles (fuel : nat) (rd : nat) (n : node) {struct fuel} : bool :=
    match fuel with
    | 0 => false
    | S f =>
        match n with
        | Empty | BeginInput | EndInput | BeginLine | EndLine | Wild | Lit _ => true
        | WordB => is_bidirectional cf
        | Range a b => N.leb (code a) (code b)
        | CSet l => forallb (fun x => trivial x && compiles f rd x) l
        | Neg x => (trivial x || is_assertion x) && compiles f rd x
        | Seq l | Alt l =>
            match l with [] => false | _ => forallb (compiles f rd) l end
        | Cap id nm x =>
            match nth_error names (N.to_nat id) with
            | Some nm' => name_eqb nm nm'
            | None => false
            end && Nat.leb rd 1 && compiles f rd x
        | Rep _ lo hi x =>
            match hi with
            | Fin h =>
                N.leb lo h && (N.eqb h 0 || compiles f rd x)
            | Inf => compiles f rd x
            end
            && (negb (trivial x) || N.ltb lo (2 ^ 63))
        | Backref id =>
            is_bidirectional cf && Nat.ltb (N.to_nat id) (length names)
        | NBackref nm =>
            is_bidirectional cf
            && match unique_position (Some nm) names with Some _ => true | None => false end
        | Look Ahead x => compiles f rd x
        | Look Behind x =>
            is_bidirectional cf
            && (if trivial x then compiles f rd x else compiles f (S rd) (invert x))
        end
    end.
End Matching.

(** A regex over a given text: regex_traits.hpp:28-30 [regex_capture_name_spec_t]
    puts the unnamed whole match before the names of the groups. *)
Definition group_names (n : node) : list group_name :=
  None :: capture_name_spec n.

(** regex_match_context.hpp:24 and regex_capture_storage.hpp:11-15: all cells
    value-initialised. *)
Definition initial_captures (n : node) : caps :=
  map (fun _ => None) (group_names n).

(** Does [regex_adapter<AST, flags>::match(begin, end)] (regex.hpp:76-80) compile? *)
Definition compilable (cf : config) (n : node) : bool :=
  compiles cf (group_names n) (size n) 0 n.
