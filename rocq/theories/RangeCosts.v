(** What it costs to go through all results of [tokenize] and [find_all].

    The functions repeat [next], [range_elements] and [range_of] of Api.v with the
    counters of Costs.v; each call of the generator counts as one step more. *)
From Verif Require Export Costs.

(** The outcome of several calls (match_result_generator.hpp:28-43) with the depth of the
    deepest and the number of steps of all of them. *)
Record tally (A : Type) := mk_tally { value : call A; deepest : nat; total : nat }.
Arguments mk_tally {A}. Arguments value {A}. Arguments deepest {A}. Arguments total {A}.

(** match_result_generator.hpp:33-43 [next]. *)
Definition c_next (mt : cmethod) (cf : config) (n : node) (s : list ascii) (g : generator)
  : tally (match_res * generator) :=
  let c0 := initial_captures n in
  if active g then
    let x := mt cf n s (current g) c0 in
    mk_tally
      (to_call (out x)
         (fun c e b => (mk_res c b, mk_gen e (b && negb (cell_is_empty (group0 c))))))
      (S (depth x)) (S (steps x))
  else mk_tally (Returned (mk_res c0 false, g)) 1 1.

(** input_range_adapter.hpp:24-28, 60-64, 78-81, 110-113, 135-138: a range-for
    loop over the range. *)
Fixpoint c_range_elements (fuel : nat) (mt : cmethod) (cf : config) (n : node)
  (s : list ascii) (g : generator) : tally (list match_res) :=
  match fuel with
  | 0 => mk_tally DoesNotReturn 0 0
  | S f =>
      let x := c_next mt cf n s g in
      match value x with
      | Returned (r, g') =>
          if matched r then
            let y := c_range_elements f mt cf n s g' in
            mk_tally
              (match value y with Returned l => Returned (r :: l) | o => o end)
              (Nat.max (deepest x) (deepest y)) (total x + total y)
          else mk_tally (Returned []) (deepest x) (total x)
      | UndefinedBehaviour => mk_tally UndefinedBehaviour (deepest x) (total x)
      | DoesNotCompile => mk_tally DoesNotCompile (deepest x) (total x)
      | DoesNotReturn => mk_tally DoesNotReturn (deepest x) (total x)
      end
  end.

(** regex.hpp:151-155, 251-260 [tokenize] and 165-169, 262-271 [find_all]. *)
Definition c_range_of (mt : cmethod) (r : regex) (ct : category) (s : list ascii)
  : tally (list match_res) :=
  let cf := config_of (flags r) ct in
  if compilable cf (ast r)
  then c_range_elements (S (S (length s))) mt cf (ast r) s new_generator
  else mk_tally DoesNotCompile 0 0.
(** regex.hpp:151-155, 251-260 [tokenize]. *)
Definition c_tokenize := c_range_of c_match_prefix_method.
(** regex.hpp:165-169, 262-271 [find_all]. *)
Definition c_find_all := c_range_of c_search_method.
