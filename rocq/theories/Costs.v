(** What a call costs: how deep the calls nest and how many steps are made.

    The functions repeat those of Matcher.v and Api.v line by line; [Costing.v]
    proves that they have the same outcomes.  Counted as calls are the [match]
    functions of the nodes (/repo/include/mregex/ast/nodes) and the loops that
    call themselves through a continuation (fixed_repetition.hpp:70-83,
    repetition.hpp:78-91, 112-126).  Simplification: helper functions that are
    called once by each of them (e.g. repetition.hpp:36-48), lambdas and
    [match_one] are not counted; they multiply the depth by at most a constant.
    A node that inherits [match] (sequence.hpp:62-63, alternation.hpp:28-29,
    fixed_repetition.hpp:151-155) is not a call of its own.  Counted as steps are
    the calls, the rounds of loops, also of those in utility/distance.hpp, and the
    tests of unrolled blocks; not counted is how the standard library's [std::distance]
    measures a capture (regex_capture.hpp:67-70). *)
From Verif Require Export Api.

(** The outcome (ast/match_result.hpp:12-26) with the depth of nested calls and the
    number of steps. *)
Record costed := mk_costed { out : outcome; depth : nat; steps : nat }.

(** No further call: a [return] of a result (e.g. ast/match_result.hpp:31). *)
Definition leaf (o : outcome) : costed := mk_costed o 0 0.
(** A call of [match] or of a continuation (utility/continuations.hpp:8-12). *)
Definition called (x : costed) : costed := mk_costed (out x) (S (depth x)) (S (steps x)).
(** A round of a loop (e.g. ast/nodes/quantifiers/repetition.hpp:64-76). *)
Definition round (x : costed) : costed := mk_costed (out x) (depth x) (S (steps x)).

(** A number of rounds before (the loops of utility/distance.hpp:12-16, 30-34). *)
Definition paid (d : nat) (x : costed) : costed := mk_costed (out x) (depth x) (d + steps x).

(** utility/distance.hpp:11-17, 29-35: the rounds of the loop of the forward
    overloads, which ends after [n] rounds or at the end of the text; the overloads
    for random access (20-24, 38-42) have no loop. *)
Definition distance_rounds (cf : config) (n : N) (len cur : nat) : nat :=
  if is_random cf then 0 else N.to_nat (N.min n (N.of_nat (len - cur))).

(** Continuations (utility/continuations.hpp:8-12). *)
Definition ccont := nat -> caps -> costed.
(** [Inner::match] with its costs, e.g. ast/nodes/quantifiers/repetition.hpp:87. *)
Definition cmatcher := nat -> caps -> ccont -> costed.

(** ast/match_result.hpp:28-32 [non_match]. *)
Definition c_non_match (cur : nat) (c : caps) : costed := leaf (non_match cur c).
(** utility/continuations.hpp:22-24 [success]. *)
Definition c_success : ccont := fun next c => leaf (success next c).
(** utility/continuations.hpp:26-30 [equals]. *)
Definition c_equals (target : nat) : ccont := fun next c => leaf (equals target next c).

(** One call after the other (the two [return]s of ast/nodes/alternation.hpp:18-20). *)
Definition after (o r : costed) : costed :=
  mk_costed (out r) (Nat.max (depth o) (depth r)) (steps o + steps r).
(** [or_else] (Matcher.v): ast/nodes/alternation.hpp:18-20. *)
Definition c_or_else (o : costed) (f : caps -> costed) : costed :=
  match out o with
  | Res c _ false => after o (f c)
  | _ => o
  end.
(** [on_result] (Matcher.v): ast/nodes/quantifiers/fixed_repetition.hpp:145-147. *)
Definition c_on_result (o : costed) (f : nat -> caps -> costed) (g : caps -> costed) : costed :=
  match out o with
  | Res c e true => after o (f e c)
  | Res c _ false => after o (g c)
  | _ => o
  end.

(** [deref] (Matcher.v): ast/nodes/trivially_matchable.hpp:21. *)
Definition c_deref (s : list ascii) (i : nat) (f : ascii -> costed) : costed :=
  match nth_error s i with Some a => f a | None => leaf Undef end.

(** ast/nodes/trivially_matchable.hpp:17-24. *)
Definition c_match_trivial (s : list ascii) (p : ascii -> bool) : cmatcher := fun cur c k =>
  if Nat.eqb cur (length s) then c_non_match cur c
  else c_deref s cur (fun a => if p a then k (S cur) c else c_non_match cur c).

(** The tests that the fold of ast/nodes/sequence.hpp:47 and
    ast/nodes/quantifiers/fixed_repetition.hpp:91 makes: up to the first that fails. *)
Fixpoint tests_at (s : list ascii) (ps : list (ascii -> bool)) (cur : nat) : nat :=
  match ps with
  | [] => 0
  | p :: r =>
      match nth_error s cur with
      | Some a => S (if p a then tests_at s r (S cur) else 0)
      | None => 0
      end
  end.

(** sequence.hpp:41-50, fixed_repetition.hpp:85-94. *)
Definition c_trivial_block_random (s : list ascii) (ps : list (ascii -> bool)) : cmatcher := fun cur c k =>
  paid (tests_at s ps cur)
    match all_at s ps cur with
    | Some true => k (cur + length ps) c
    | Some false => c_non_match cur c
    | None => leaf Undef
    end.

(** sequence.hpp:52-59. *)
Fixpoint c_sequence_block_forward (s : list ascii) (ps : list (ascii -> bool))
  (cur : nat) (c : caps) (k : ccont) : costed :=
  match ps with
  | [] => leaf IllFormed
  | [p] => round (c_deref s cur (fun a => if p a then k (S cur) c else c_non_match cur c))
  | p :: r =>
      round (c_deref s cur (fun a =>
        if p a then c_sequence_block_forward s r (S cur) c k else c_non_match cur c))
  end.

(** fixed_repetition.hpp:107-117. *)
Fixpoint c_repetition_loop_random (s : list ascii) (p : ascii -> bool)
  (todo offset : nat) (cur : nat) (c : caps) (k : ccont) : costed :=
  match todo with
  | 0 => k (cur + offset) c
  | S t =>
      round (c_deref s (cur + offset) (fun a =>
        if negb (p a) then c_non_match cur c
        else c_repetition_loop_random s p t (S offset) cur c k))
  end.

(** fixed_repetition.hpp:96-105, 119-129. *)
Fixpoint c_repetition_block_forward (s : list ascii) (p : ascii -> bool) (n : nat)
  (cur : nat) (c : caps) (k : ccont) : costed :=
  match n with
  | 0 => k cur c
  | S n' =>
      round (c_deref s cur (fun a =>
        if p a then c_repetition_block_forward s p n' (S cur) c k
        else c_non_match (S cur) c))
  end.

(** repetition.hpp:64-76. *)
Fixpoint c_possessive_trivial (fuel : nat) (s : list ascii) (p : ascii -> bool)
  (b : quantifier) (cur : nat) (c : caps) (k : ccont) : costed :=
  match fuel with
  | 0 => leaf Diverge
  | S f =>
      if bound_is_zero b then k cur c
      else if Nat.eqb cur (length s) then k cur c
      else c_deref s cur (fun a =>
        if p a then round (c_possessive_trivial f s p (bound_decrement b) (S cur) c k)
        else k cur c)
  end.

(** repetition.hpp:98-108. *)
Fixpoint c_step_back (initial d : nat) (c : caps) (k : ccont) : costed :=
  c_or_else (round (k (initial + d) c))
    (fun c' =>
       match d with
       | 0 => c_non_match initial c'
       | S d' => c_step_back initial d' c' k
       end).

(** repetition.hpp:128-141. *)
Fixpoint c_lazy_trivial (fuel : nat) (s : list ascii) (p : ascii -> bool)
  (b : quantifier) (cur : nat) (c : caps) (k : ccont) : costed :=
  match fuel with
  | 0 => leaf Diverge
  | S f =>
      c_or_else (round (k cur c)) (fun c' =>
        if bound_is_zero b then c_non_match cur c'
        else if Nat.eqb cur (length s) then c_non_match cur c'
        else c_deref s cur (fun a =>
          if p a then c_lazy_trivial f s p (bound_decrement b) (S cur) c' k
          else c_non_match cur c'))
  end.

(** fixed_repetition.hpp:60-68; [fixed_repetition<N - 1, Inner>::match] is a
    call for N - 1 > 1. *)
Fixpoint c_unrolled_backtracking (mx : cmatcher) (n : nat) (cur : nat) (c : caps)
  (k : ccont) : costed :=
  match n with
  | 0 => k cur c
  | S n' =>
      match n' with
      | 0 => mx cur c k
      | _ => called (mx cur c (fun next c' => c_unrolled_backtracking mx n' next c' k))
      end
  end.

(** fixed_repetition.hpp:70-83. *)
Fixpoint c_non_unrolled_backtracking (mx : cmatcher) (repeats : nat) (cur : nat)
  (c : caps) (k : ccont) : costed :=
  match repeats with
  | 0 => leaf Diverge
  | S r =>
      called
        (if Nat.eqb repeats 1 then mx cur c k
         else mx cur c (fun next c' => c_non_unrolled_backtracking mx r next c' k))
  end.

(** repetition.hpp:143-164. *)
Definition c_continue_unless_infinite_loop (w : bool) (cur : nat) (k : ccont) : ccont :=
  fun next c => if w && Nat.eqb cur next then c_non_match cur c else k next c.

(** repetition.hpp:50-62. *)
Fixpoint c_possessive_generic (fuel : nat) (mx : cmatcher) (w : bool) (b : quantifier)
  (cur : nat) (c : caps) (k : ccont) : costed :=
  match fuel with
  | 0 => leaf Diverge
  | S f =>
      if bound_is_zero b then k cur c
      else c_on_result (round (mx cur c c_success))
             (fun e c' =>
                if w && Nat.eqb cur e then k cur c'
                else c_possessive_generic f mx w (bound_decrement b) e c' k)
             (fun c' => k cur c')
  end.

(** repetition.hpp:78-91. *)
Fixpoint c_greedy_generic (fuel : nat) (mx : cmatcher) (w : bool) (b : quantifier)
  (cur : nat) (c : caps) (k : ccont) : costed :=
  match fuel with
  | 0 => leaf Diverge
  | S f =>
      called
        (if bound_is_zero b then k cur c
         else c_or_else
                (mx cur c (c_continue_unless_infinite_loop w cur
                   (fun next c' => c_greedy_generic f mx w (bound_decrement b) next c' k)))
                (fun c' => k cur c'))
  end.

(** repetition.hpp:112-126. *)
Fixpoint c_lazy_generic (fuel : nat) (mx : cmatcher) (w : bool) (b : quantifier)
  (cur : nat) (c : caps) (k : ccont) : costed :=
  match fuel with
  | 0 => leaf Diverge
  | S f =>
      called
        (c_or_else (k cur c) (fun c' =>
          if bound_is_zero b then c_non_match cur c'
          else mx cur c' (c_continue_unless_infinite_loop w cur
                 (fun next c'' => c_lazy_generic f mx w (bound_decrement b) next c'' k))))
  end.

(** backref.hpp:52-57. *)
Fixpoint c_backref_loop (cf : config) (s : list ascii) (target : list ascii)
  (cur : nat) (c : caps) (k : ccont) : costed :=
  match target with
  | [] => k cur c
  | t :: r =>
      round (c_deref s cur (fun a =>
        if backref_char_eq cf t a then c_backref_loop cf s r (S cur) c k
        else c_non_match cur c))
  end.

Section Costs.
  Variable cf : config.
  Variable names : list group_name.
  Variable base : list ascii.

  (** sequence.hpp:12-63. *)
  Fixpoint c_seq_match (s : list ascii) (mm : node -> cmatcher) (l : list node)
    (cur : nat) (c : caps) (k : ccont) : costed :=
    match l with
    | [] => leaf IllFormed
    | x :: r =>
        match r with
        | [] => mm x cur c k
        | _ =>
            called
              (if forallb trivial l then
                 paid (distance_rounds cf (N.of_nat (length l)) (length s) cur)
                   (if distance_less_than cf (N.of_nat (length l)) (length s) cur
                    then c_non_match cur c
                    else if is_random cf
                    then c_trivial_block_random s (map (match_one cf) l) cur c k
                    else c_sequence_block_forward s (map (match_one cf) l) cur c k)
               else mm x cur c (fun next c' => c_seq_match s mm r next c' k))
        end
    end.

  (** alternation.hpp:11-29. *)
  Fixpoint c_alt_match (s : list ascii) (mm : node -> cmatcher) (l : list node)
    (cur : nat) (c : caps) (k : ccont) : costed :=
    match l with
    | [] => leaf IllFormed
    | x :: r =>
        match r with
        | [] => mm x cur c k
        | _ =>
            called
              (if forallb trivial l
               then c_match_trivial s (fun a => existsb (fun y => match_one cf y a) l) cur c k
               else c_or_else (mm x cur c k) (fun c' => c_alt_match s mm r cur c' k))
        end
    end.

  (** fixed_repetition.hpp:37-58. *)
  Definition c_fixed_backtracking (s : list ascii) (x : node) (mx : cmatcher) (n : N) : cmatcher :=
    fun cur c k =>
    let p := match_one cf x in
    if trivial x then
      paid (distance_rounds cf n (length s) cur)
        (if distance_less_than cf n (length s) cur then c_non_match cur c
         else if is_random cf then
           if unroll cf then c_trivial_block_random s (repeat p (N.to_nat n)) cur c k
           else c_repetition_loop_random s p (N.to_nat n) 0 cur c k
         else c_repetition_block_forward s p (N.to_nat n) cur c k)
    else if unroll cf then c_unrolled_backtracking mx (N.to_nat n) cur c k
    else c_non_unrolled_backtracking mx (N.to_nat n) cur c k.

  (** fixed_repetition.hpp:12-155; 154-155 inherits empty.hpp:13-18. *)
  Definition c_fixed_match (s : list ascii) (mode : match_mode) (n : N) (x : node)
    (mx : cmatcher) : cmatcher := fun cur c k =>
    if N.eqb n 0 then called (k cur c)
    else if N.eqb n 1 then
      match mode with
      | Possessive =>
          if trivial x then mx cur c k
          else called (c_on_result (mx cur c c_success) (fun e c' => k e c')
                 (fun c' => c_non_match cur c'))
      | _ => mx cur c k
      end
    else
      called
        match mode with
        | Possessive =>
            c_on_result (c_fixed_backtracking s x mx n cur c c_success)
              (fun e c' => k e c') (fun c' => c_non_match cur c')
        | _ => c_fixed_backtracking s x mx n cur c k
        end.

  (** repetition.hpp:36-48. *)
  Definition c_between_bounds (s : list ascii) (mode : match_mode) (b : quantifier)
    (w : bool) (x : node) (mx : cmatcher) : cmatcher := fun cur c k =>
    let fuel := loop_fuel b (length s) cur in
    match mode with
    | Possessive =>
        if trivial x then c_possessive_trivial fuel s (match_one cf x) b cur c k
        else c_possessive_generic fuel mx w b cur c k
    | _ =>
        if xorb (match mode with Greedy => true | _ => false end) (ungreedy cf) then
          if trivial x && is_bidirectional cf then
            c_possessive_trivial fuel s (match_one cf x) b cur c
              (fun next c' => c_step_back cur (next - cur) c' k)
          else c_greedy_generic fuel mx w b cur c k
        else if trivial x then c_lazy_trivial fuel s (match_one cf x) b cur c k
        else c_lazy_generic fuel mx w b cur c k
    end.

  (** repetition.hpp:17-33, fixed_repetition.hpp. *)
  Definition c_rep_match (s : list ascii) (mode : match_mode) (lo : N) (hi : quantifier)
    (x : node) (mx : cmatcher) : cmatcher := fun cur c k =>
    let fixed := match hi with Fin h => N.eqb lo h | Inf => false end in
    let w := is_infinity hi && zlm x in
    if fixed then c_fixed_match s mode lo x mx cur c k
    else
      called
        (if is_zero lo then
           c_between_bounds s mode (bound_subtract hi lo) w x mx cur c k
         else
           c_fixed_match s mode lo x mx cur c (fun next c' =>
             c_between_bounds s mode (bound_subtract hi lo) w x mx next c' k)).

  (** backref.hpp:42-59. *)
  Definition c_backref_match (rd : nat) (i : nat) : cmatcher := fun cur c k =>
    let s := view base rd in
    match nth_error c i with
    | None => leaf IllFormed
    | Some v =>
        let (b, e) := match v with Some p => p | None => (0, 0) end in
        paid (distance_rounds cf (N.of_nat (e - b)) (length s) cur)
          (if distance_less_than cf (N.of_nat (e - b)) (length s) cur
           then c_non_match cur c
           else if Nat.ltb e b || Nat.ltb (len base) e then leaf Undef
           else
             let captured := firstn (e - b) (skipn b base) in
             c_backref_loop cf s (match rd with 0 => captured | _ => rev captured end)
               cur c k)
    end.

  (** assertion.hpp:22-29. *)
  Definition c_assert_that (b : bool) (cur : nat) (c : caps) (k : ccont) : costed :=
    if b then k cur c else c_non_match cur c.

  (** Node::match, see [m] in Matcher.v for the lines (e.g. ast/nodes/terminals/empty.hpp:13-18). *)
  Fixpoint c_m (fuel : nat) (rd : nat) (n : node) (cur : nat) (c : caps) (k : ccont)
    {struct fuel} : costed :=
    match fuel with
    | 0 => leaf Diverge
    | S f =>
        let s := view base rd in
        match n with
        | Empty => called (k cur c)
        | Lit _ | Range _ _ | Wild | CSet _ =>
            called (c_match_trivial s (match_one cf n) cur c k)
        | BeginInput => called (c_assert_that (Nat.eqb cur 0) cur c k)
        | BeginLine =>
            called
              (if Nat.eqb cur 0 then k cur c
               else if multiline cf then
                 if is_bidirectional cf then
                   c_deref s (cur - 1) (fun a => c_assert_that (match_one cf n_linebreak a) cur c k)
                 else leaf Undef
               else c_non_match cur c)
        | EndInput => called (c_assert_that (Nat.eqb cur (length s)) cur c k)
        | EndLine =>
            called
              (if Nat.eqb cur (length s) then k cur c
               else if multiline cf then
                 c_deref s cur (fun a => c_assert_that (match_one cf n_linebreak a) cur c k)
               else c_non_match cur c)
        | WordB =>
            if negb (is_bidirectional cf) then leaf IllFormed else
            let ahead (b : bool) :=
              if Nat.eqb cur (length s) then c_assert_that (xorb b false) cur c k
              else c_deref s cur (fun a =>
                     c_assert_that (xorb b (match_one cf n_word a)) cur c k) in
            called
              (if Nat.eqb cur 0 then ahead false
               else c_deref s (cur - 1) (fun a => ahead (match_one cf n_word a)))
        | Neg x =>
            called
              (if is_assertion x then
                 c_on_result (c_m f rd x cur c c_success)
                   (fun _ c' => c_non_match cur c') (fun c' => k cur c')
               else c_match_trivial s (match_one cf n) cur c k)
        | Seq l => c_seq_match s (c_m f rd) l cur c k
        | Alt l => c_alt_match s (c_m f rd) l cur c k
        | Cap id nm x =>
            called
              (c_or_else
                (c_m f rd x cur c (fun next c' =>
                   match store names base rd id nm cur next c' with
                   | Some c'' => k next c''
                   | None => leaf IllFormed
                   end))
                (fun c' => match clear_cell (N.to_nat id) c' with
                           | Some c'' => c_non_match cur c''
                           | None => leaf IllFormed
                           end))
        | Rep mode lo hi x => c_rep_match s mode lo hi x (c_m f rd x) cur c k
        | Backref id => called (c_backref_match rd (N.to_nat id) cur c k)
        | NBackref nm =>
            match unique_position (Some nm) names with
            | Some i => called (c_backref_match rd i cur c k)
            | None => leaf IllFormed
            end
        | Look Ahead x =>
            called
              (if trivial x then
                 if Nat.eqb cur (length s) then c_non_match cur c
                 else c_deref s cur (fun a => c_assert_that (match_one cf x a) cur c k)
               else c_on_result (c_m f rd x cur c c_success)
                      (fun _ c' => k cur c') (fun c' => c_non_match cur c'))
        | Look Behind x =>
            if negb (is_bidirectional cf) then leaf IllFormed
            else
              called
                (if trivial x then
                   if Nat.eqb cur 0 then c_non_match cur c
                   else c_deref s (cur - 1) (fun a => c_assert_that (match_one cf x a) cur c k)
                 else c_on_result (c_m f (S rd) (invert x) (length s - cur) c c_success)
                        (fun _ c' => k cur c') (fun c' => c_non_match cur c'))
        end
    end.

  (** [AST::match] (regex_methods.hpp:22, 40, 60). *)
  Definition c_node_match (rd : nat) (n : node) : cmatcher := c_m (size n) rd n.
End Costs.

(** The methods (regex_methods.hpp:20, 38, 56 [invoke]) with their costs. *)
Definition cmethod := config -> node -> list ascii -> nat -> caps -> costed.

(** Replaces the outcome (regex_methods.hpp:23, 41, 62 store group 0 in it). *)
Definition with_out (x : costed) (o : outcome) : costed := mk_costed o (depth x) (steps x).

(** regex_methods.hpp:19-25. *)
Definition c_match_method : cmethod := fun cf n s cur c =>
  let x := c_node_match cf (group_names n) s 0 n cur c (c_equals (length s)) in
  match out x with
  | Res c' e b => with_out x (Res (set_group0 cur e c') e b)
  | _ => x
  end.

(** regex_methods.hpp:37-43. *)
Definition c_match_prefix_method : cmethod := fun cf n s cur c =>
  let x := c_node_match cf (group_names n) s 0 n cur c c_success in
  match out x with
  | Res c' e b => with_out x (Res (set_group0 cur e c') e b)
  | _ => x
  end.

(** regex_methods.hpp:55-69. *)
Fixpoint c_search_loop (fuel : nat) (cf : config) (n : node) (s : list ascii)
  (cur : nat) (c : caps) : costed :=
  match fuel with
  | 0 => leaf Diverge
  | S f =>
      let x := round (c_node_match cf (group_names n) s 0 n cur c c_success) in
      match out x with
      | Res c' e true => with_out x (Res (set_group0 cur e c') e true)
      | Res c' _ false =>
          after x (if Nat.eqb cur (length s) then c_non_match cur c'
                   else c_search_loop f cf n s (S cur) c')
      | _ => x
      end
  end.
(** regex_methods.hpp:55-69: the loop with enough fuel. *)
Definition c_search_method : cmethod := fun cf n s cur c =>
  c_search_loop (S (length s - cur)) cf n s cur c.

(** regex.hpp:273-280: the cost of a call with fresh captures. *)
Definition cost_of (mt : cmethod) (r : regex) (ct : category) (s : list ascii) : costed :=
  mt (config_of (flags r) ct) (ast r) s 0 (initial_captures (ast r)).
