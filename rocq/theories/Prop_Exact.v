(** The whole result of every call, for every regex: C55; loops anywhere: C27. *)
From Verif Require Import Examples Explore Searches Safe Last Iterations.

(** C55.  [explore] (Explore.v): the attempts at an offset in order, with what
    every group holds at each of them; a backreference reads what its group holds
    at that moment.  [full_match]: the first attempt that ends with the text;
    [prefix_match]: the first attempt at the start; [search_match]: the first one
    at the first offset that has one, every offset starting with the groups left
    by the one before. *)
Theorem C55_match : forall r ct s, usable r ct ->
  exists res, regex_match r ct s = Returned res
    /\ match full_match (config_of (flags r) ct) (ast r) s with
       | (Some e, g) => matched res = true /\ groups res = Some (0, e) :: tl g
       | (None, g) => matched res = false /\ tl (groups res) = tl g
       end.
Proof. exact match_explored. Qed.
Print Assumptions C55_match.

Theorem C55_match_prefix : forall r ct s, usable r ct ->
  exists res, regex_match_prefix r ct s = Returned res
    /\ match prefix_match (config_of (flags r) ct) (ast r) s 0 with
       | (Some be, g) => matched res = true /\ groups res = Some be :: tl g
       | (None, g) => matched res = false /\ tl (groups res) = tl g
       end.
Proof. exact match_prefix_explored. Qed.
Print Assumptions C55_match_prefix.

Theorem C55_search : forall r ct s, usable r ct ->
  exists res, regex_search r ct s = Returned res
    /\ match search_match (config_of (flags r) ct) (ast r) s 0 with
       | (Some be, g) => matched res = true /\ groups res = Some be :: tl g
       | (None, g) => matched res = false /\ groups res = g
       end.
Proof. exact search_explored. Qed.
Print Assumptions C55_search.

(** The ranges: the groups of every element. *)
Theorem C55_tokenize : forall r ct s, usable r ct ->
  exists l, tokenize r ct s = Returned l /\ Forall (fun x => matched x = true) l
    /\ map groups l = all_tokens (config_of (flags r) ct) (ast r) s.
Proof. exact tokenize_explored. Qed.
Print Assumptions C55_tokenize.

Theorem C55_find_all : forall r ct s, usable r ct ->
  exists l, find_all r ct s = Returned l /\ Forall (fun x => matched x = true) l
    /\ map groups l = all_matches (config_of (flags r) ct) (ast r) s.
Proof. exact find_all_explored. Qed.
Print Assumptions C55_find_all.

(** The attempt of a fourth iteration fails and empties the group, so that the
    backreference reads nothing (findings F2 and F19).  The lazy loop stops before
    that attempt. *)
Example C55_match_example :
  let r := rx "(a|b)+\1" [] in
  let r' := rx "(a|b)+?\1" [] in
  usable r RandomAccessIt /\ usable r' RandomAccessIt
  /\ full_match (config_of (flags r) RandomAccessIt) (ast r) (str "abb") = (Some 3, [None; Some (2, 2)])
  /\ full_match (config_of (flags r') RandomAccessIt) (ast r') (str "abb") = (Some 3, [None; Some (1, 2)])
  /\ full_match (config_of (flags r') RandomAccessIt) (ast r') (str "aba") = (None, [None; Some (2, 2)])
  /\ regex_match r' RandomAccessIt (str "abb") = Returned (mk_res [Some (0, 3); Some (1, 2)] true).
Proof. intros r r'. split; [show_usable|]. split; [show_usable|]. repeat split; vm_compute; reflexivity. Qed.

(** An abandoned alternative leaves its group set and empty. *)
Example C55_match_prefix_example :
  let r := rx "(?:(ab)d|a)(b)\2" [] in
  usable r BidirectionalIt
  /\ prefix_match (config_of (flags r) BidirectionalIt) (ast r) (str "abbc") 0
     = (Some (0, 3), [None; Some (0, 0); Some (1, 2)])
  /\ regex_match_prefix r BidirectionalIt (str "abbc")
     = Returned (mk_res [Some (0, 3); Some (0, 0); Some (1, 2)] true).
Proof. intros r. split; [show_usable|]. repeat split; vm_compute; reflexivity. Qed.

(** A named group in a lookbehind, captured from right to left; the groups of the
    offsets before are not reset. *)
Example C55_search_example :
  let r := rx "(?<=(?<q>.))(x)\k<q>" [] in
  usable r BidirectionalIt
  /\ search_match (config_of (flags r) BidirectionalIt) (ast r) (str "cbxbxb") 0
     = (Some (2, 4), [None; Some (1, 2); Some (2, 3)])
  /\ search_match (config_of (flags r) BidirectionalIt) (ast r) (str "cax") 0
     = (None, [None; Some (2, 3); Some (2, 2)]).
Proof. intros r. split; [show_usable|]. repeat split; vm_compute; reflexivity. Qed.

Example C55_ranges_example :
  let r := rx "(.)\1|-" [] in
  usable r BidirectionalIt
  /\ all_tokens (config_of (flags r) BidirectionalIt) (ast r) (str "aa-bbc")
     = [[Some (0, 2); Some (0, 1)]; [Some (2, 3); Some (2, 2)]; [Some (3, 5); Some (3, 4)]]
  /\ all_matches (config_of (flags r) BidirectionalIt) (ast r) (str "xaac-")
     = [[Some (1, 3); Some (1, 2)]; [Some (4, 5); Some (4, 4)]].
Proof. intros r. split; [show_usable|]. repeat split; vm_compute; reflexivity. Qed.

(** C27 for a loop in any place of a tree: at every end of its search (the
    searches are those of C55) a whole number [q] of iterations has been made
    within the bounds.  The group holds the last of them, or what it held before
    if there was none; but after a loop that tries more first and has not reached
    its bound it is empty.  [depth] and [back] are the number of changes of
    direction and the order of reading around the loop, [good] says that groups
    lie in the text. *)
Theorem C27_every_loop_partial : forall cf names s depth back md lo hi id nm x i g,
  N.to_nat id < length names -> match hi with Fin h => (lo <= h)%N | Inf => True end ->
  i <= length s -> good names s g ->
  leaves_with names s
    (left_loop (iteration cf names s depth back x)
       (fun i j => if Nat.odd depth then (j, i) else (i, j)) (N.to_nat id)
       (tries_more cf md) lo hi i g)
    (explore cf names s depth back (Rep md lo hi (Cap id nm x)) i g).
Proof. exact loop_left. Qed.
Print Assumptions C27_every_loop_partial.

(** From left to right and from right to left, the first end of a lazy loop that
    reaches 3 (or 1), and of a greedy one; text "abab". *)
Example C27_every_loop_example :
  let cf := config_of [] RandomAccessIt in
  let names := [None; None] in
  let loop md := Rep md 1 Inf (Cap 1 None (Alt [Lit "a"; Lit "b"])) in
  good names (str "abab") [None; None]
  /\ first_end (Nat.eqb 3) (explore cf names (str "abab") 0 false (loop Lazy) 0 [None; None])
     = (Some 3, [None; Some (2, 3)])
  /\ first_end (Nat.eqb 1) (explore cf names (str "abab") 1 true (loop Lazy) 4 [None; None])
     = (Some 1, [None; Some (1, 2)])
  /\ first_end (Nat.eqb 3) (explore cf names (str "abab") 0 false (loop Greedy) 0 [None; None])
     = (Some 3, [None; Some (3, 3)]).
Proof.
  cbv zeta. split; [split; [reflexivity|repeat constructor]|].
  split; [vm_compute; reflexivity|]. split; vm_compute; reflexivity.
Qed.
