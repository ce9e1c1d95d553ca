(** Properties of matching with backreferences: C46, and the groups of the
    preferred match (C26). *)
From Verif Require Import Examples.
From Verif Require Import Tracks Tracking.

(** C46, full statement: with [followed r] as only condition, matching follows
    [tracks] (Tracks.v), in which every path carries its own captures.  It is
    refuted below; proved for the trees that are [scoped]: every backreference
    is preceded by its group, which is captured at most once on every path and
    outside of repetitions, negations and lookbehinds. *)
Theorem C46_match_partial : forall r ct s,
  usable r ct -> followed r -> scoped (ast r) = true ->
  exists res, regex_match r ct s = Returned res
    /\ (matched res = true
        <-> In (length s) (ends_with_groups (config_of (flags r) ct) s (ast r) 0)).
Proof. exact match_backrefs. Qed.
Print Assumptions C46_match_partial.

Theorem C46_match_prefix_partial : forall r ct s,
  usable r ct -> followed r -> scoped (ast r) = true ->
  exists res, regex_match_prefix r ct s = Returned res
    /\ match preferred_with_groups (config_of (flags r) ct) s (ast r) 0 with
       | Some e => matched res = true /\ group0 (groups res) = Some (0, e)
       | None => matched res = false
       end.
Proof. exact match_prefix_backrefs. Qed.
Print Assumptions C46_match_prefix_partial.

Theorem C46_search_partial : forall r ct s,
  usable r ct -> followed r -> scoped (ast r) = true ->
  let p := preferred_with_groups (config_of (flags r) ct) s (ast r) in
  exists res, regex_search r ct s = Returned res
    /\ (matched res = true -> exists i e, i <= length s /\ group0 (groups res) = Some (i, e)
          /\ p i = Some e /\ forall i', i' < i -> p i' = None)
    /\ (matched res = false -> forall i, i <= length s -> p i = None).
Proof. exact search_backrefs. Qed.
Print Assumptions C46_search_partial.

(** Without backreferences this order of ends is the one of C02. *)
Theorem C46_order_without_backrefs : forall cf s n i,
  backref_free n = true -> ends_with_groups cf s n i = paths cf s n i.
Proof. exact tracks_paths. Qed.
Print Assumptions C46_order_without_backrefs.

(** The first [b] tries [a+] with two characters before the one that matches;
    the named group and the numbered ones are called out of order. *)
Example C46_example :
  let r := rx "(a+)(b+)\1(?<n>[xy])-\2\k<n>" [] in
  usable r BidirectionalIt /\ followed r /\ scoped (ast r) = true
  /\ ends_with_groups (config_of [] BidirectionalIt) (str "aabaax-bx") (ast r) 0 = [9]
  /\ ends_with_groups (config_of [] BidirectionalIt) (str "aabaax-by") (ast r) 0 = [].
Proof. split; [show_usable|]. repeat split; vm_compute; reflexivity. Qed.

(** Groups in a lookahead, in an alternative, and a loop over the calls. *)
Example C46_lookahead_example :
  let r := rx "(?=(a+))(?>(b+)|a)*(?:(x)y\3|z)(?:\1|c)*" [F_icase] in
  usable r RandomAccessIt /\ followed r /\ scoped (ast r) = true
  /\ ends_with_groups (config_of [F_icase] RandomAccessIt) (str "aaxyXaacAA") (ast r) 0 = [10; 8; 7; 5].
Proof. split; [show_usable|]. repeat split; vm_compute; reflexivity. Qed.

(** Finding F19.  A group in a loop: giving up the second iteration leaves the
    empty range in the group, so [\1] no longer repeats [a].  Textbook: a
    match. *)
Theorem C46_loop_misses_match_refuted :
  exists r ct s res, usable r ct /\ followed r
    /\ In (length s) (ends_with_groups (config_of (flags r) ct) s (ast r) 0)
    /\ regex_match r ct s = Returned res /\ matched res = false.
Proof.
  exists (rx "(?:(a)(?:b|bab)\1)*d" []), RandomAccessIt, (str "ababad"). eexists.
  split; [show_usable|]. split; [split; reflexivity|]. split; [vm_compute; auto|].
  split; vm_compute; reflexivity.
Qed.
Print Assumptions C46_loop_misses_match_refuted.

(** And the empty range makes [\1] match where it must not: the iteration that
    fails at the end of the text empties the group. *)
Theorem C46_loop_accepts_nonmatch_refuted :
  exists r ct s res, usable r ct /\ followed r
    /\ ends_with_groups (config_of (flags r) ct) s (ast r) 0 = []
    /\ regex_match r ct s = Returned res /\ matched res = true.
Proof.
  exists (rx "(a|b)+\1" []), RandomAccessIt, (str "ab"). eexists.
  split; [show_usable|]. split; [split; reflexivity|]. split; [vm_compute; reflexivity|].
  split; vm_compute; reflexivity.
Qed.
Print Assumptions C46_loop_accepts_nonmatch_refuted.

(** What an abandoned branch captured inside an atomic group is still there:
    [\1] repeats [a] although the group is not on the path. *)
Theorem C46_abandoned_branch_refuted :
  exists r ct s1 s2 res1 res2, usable r ct /\ followed r
    /\ ends_with_groups (config_of (flags r) ct) s1 (ast r) 0 = []
    /\ regex_match r ct s1 = Returned res1 /\ matched res1 = true
    /\ In (length s2) (ends_with_groups (config_of (flags r) ct) s2 (ast r) 0)
    /\ regex_match r ct s2 = Returned res2 /\ matched res2 = false.
Proof.
  exists (rx "(?:(?>(a))b|a)\1c" []), RandomAccessIt, (str "aac"), (str "ac"). do 2 eexists.
  split; [show_usable|]. split; [split; reflexivity|]. split; [vm_compute; reflexivity|].
  split; [vm_compute; reflexivity|]. split; [reflexivity|]. split; [vm_compute; auto|].
  split; vm_compute; reflexivity.
Qed.
Print Assumptions C46_abandoned_branch_refuted.

(** C26, for groups captured at most once on every path, also inside lookaheads
    and atomic groups: if the group is captured on the preferred match then it
    holds exactly that range.  [group_of y id]: what the group [id] captured
    last on the path to the state [y]. *)
Theorem C26_group_of_match_partial : forall r ct s id,
  usable r ct -> followed r -> traceable [id] (ast r) = true -> id <> 0%N ->
  exists res, regex_match r ct s = Returned res
    /\ (matched res = true ->
        exists y, first_whole (config_of (flags r) ct) s (ast r) = Some y
          /\ forall v, group_of y id = Some v -> nth (N.to_nat id) (groups res) None = Some v).
Proof. exact groups_of_match. Qed.
Print Assumptions C26_group_of_match_partial.

Theorem C26_group_of_match_prefix_partial : forall r ct s id,
  usable r ct -> followed r -> traceable [id] (ast r) = true -> id <> 0%N ->
  exists res, regex_match_prefix r ct s = Returned res
    /\ (matched res = true ->
        exists y, first_state (config_of (flags r) ct) s (ast r) 0 = Some y
          /\ forall v, group_of y id = Some v -> nth (N.to_nat id) (groups res) None = Some v).
Proof. exact groups_of_match_prefix. Qed.
Print Assumptions C26_group_of_match_prefix_partial.

Theorem C26_group_of_search_partial : forall r ct s id,
  usable r ct -> followed r -> traceable [id] (ast r) = true -> id <> 0%N ->
  exists res, regex_search r ct s = Returned res
    /\ (matched res = true ->
        exists b y, group0 (groups res) = Some (b, fst y)
          /\ first_state (config_of (flags r) ct) s (ast r) b = Some y
          /\ forall v, group_of y id = Some v -> nth (N.to_nat id) (groups res) None = Some v).
Proof. exact groups_of_search. Qed.
Print Assumptions C26_group_of_search_partial.

Example C26_preferred_example :
  let r := rx "(?=a*(b))(?>(a|ab)(?:c|b))(c?)" [] in
  let cf := config_of [] RandomAccessIt in
  usable r RandomAccessIt /\ followed r
  /\ forallb (fun id => traceable [id] (ast r)) [1; 2; 3]%N = true
  /\ exists y, first_state cf (str "abc") (ast r) 0 = Some y
       /\ map (group_of y) [1; 2; 3]%N = [Some (1, 2); Some (0, 1); Some (2, 3)].
Proof.
  split; [show_usable|]. split; [split; reflexivity|]. split; [reflexivity|].
  eexists. split; [vm_compute; reflexivity|]. vm_compute. reflexivity.
Qed.
