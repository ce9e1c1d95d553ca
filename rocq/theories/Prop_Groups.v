(** Properties of the captured groups: C25, C26, C27, C28. *)
From Verif Require Import Examples.
From Verif Require Import Groups Keeps Held Last Failed.

(** C25.  [group_in n i x]: the tree [n] contains a group number [i] with body
    [x].  [holds R s n i v]: if the cell [v] holds a non-empty text then it lies
    in [s] and [R] holds between the body of some group [i] and its ends. *)
Theorem C25_captured_text_in_language : forall r ct s,
  usable r ct -> regular (ast r) = true -> possessive_free (ast r) = true ->
  forall call, call = regex_match \/ call = regex_match_prefix \/ call = regex_search ->
  returns (call r ct s) (fun res =>
    forall i v, nth_error (groups res) (S i) = Some v ->
    holds (matches (config_of (flags r) ct) s) s (ast r) (S i) v).
Proof. exact captured_texts_language. Qed.
Print Assumptions C25_captured_text_in_language.

(** With possessive repetitions: a text that the group takes by its priority
    order. *)
Theorem C25_captured_text_on_path : forall r ct s,
  usable r ct -> regular (ast r) = true ->
  forall call, call = regex_match \/ call = regex_match_prefix \/ call = regex_search ->
  returns (call r ct s) (fun res =>
    forall i v, nth_error (groups res) (S i) = Some v ->
    holds (fun x b e => In e (paths (config_of (flags r) ct) s x b)) s (ast r) (S i) v).
Proof. exact captured_texts_paths. Qed.
Print Assumptions C25_captured_text_on_path.

Example C25_example :
  let r := rx "(?<=(b+))(a|ab)(c|bcd)(?=(d*))" [] in
  usable r RandomAccessIt /\ regular (ast r) = true /\ possessive_free (ast r) = true
  /\ exists res, regex_search r RandomAccessIt (str "bbabcdd") = Returned res
       /\ groups res = [Some (2, 6); Some (0, 2); Some (2, 3); Some (3, 6); Some (6, 7)].
Proof.
  split; [show_usable|]. repeat split; try (vm_compute; reflexivity).
  eexists. split; vm_compute; reflexivity.
Qed.

(** C26, full statement: after a successful call every group holds no text, or
    the text it took last on the match that is reported.  [takes cf s n b e t]:
    [n] matches from [b] to [e] with the captures [t] (Held.v).  Not proved for
    groups inside lookarounds, atomic groups and possessive repetitions
    ([committed]), of which it is false (finding F3). *)
Theorem C26_group_on_match_partial : forall r ct s call res,
  call = regex_match \/ call = regex_match_prefix \/ call = regex_search ->
  call r ct s = Returned res -> matched res = true ->
  exists b e t, group0 (groups res) = Some (b, e)
    /\ takes (config_of (flags r) ct) s (ast r) b e t
    /\ forall id, id <> 0%N -> ~ committed (ast r) id ->
         held t id (nth (N.to_nat id) (groups res) None).
Proof. exact groups_belong_to_match. Qed.
Print Assumptions C26_group_on_match_partial.

(** A group off every match between the reported ends holds no text. *)
Theorem C26_group_off_match_partial : forall r ct s call res,
  call = regex_match \/ call = regex_match_prefix \/ call = regex_search ->
  call r ct s = Returned res -> matched res = true ->
  forall id, id <> 0%N -> ~ committed (ast r) id ->
  (forall b e t, group0 (groups res) = Some (b, e) ->
     takes (config_of (flags r) ct) s (ast r) b e t -> latest id t = None) ->
  cell_is_empty (nth (N.to_nat id) (groups res) None) = true.
Proof. exact off_match_empty. Qed.
Print Assumptions C26_group_off_match_partial.

(** The group is tried and given up; another branch succeeds. *)
Example C26_example :
  let r := rx "(?:(a)x|ab)c" [] in
  exists res, regex_match r RandomAccessIt (str "abc") = Returned res /\ matched res = true
    /\ ~ committed (ast r) 1
    /\ (forall b e t, group0 (groups res) = Some (b, e) ->
          takes (config_of (flags r) RandomAccessIt) (str "abc") (ast r) b e t -> latest 1 t = None)
    /\ nth 1 (groups res) None = Some (0, 0).
Proof.
  eexists. split; [vm_compute; reflexivity|]. split; [reflexivity|]. split; [show_uncommitted|].
  split; [|reflexivity]. intros b e t E. injection E as <- <-.
  intros H. show_takes H.
Qed.

(** Finding F3: the text of an abandoned branch, and of an earlier position. *)
Theorem C26_abandoned_branch_refuted :
  exists r ct s res, usable r ct /\ regex_match r ct s = Returned res /\ matched res = true
    /\ (forall b e t, group0 (groups res) = Some (b, e) ->
          takes (config_of (flags r) ct) s (ast r) b e t -> latest 1 t = None)
    /\ nth 1 (groups res) None = Some (0, 1).
Proof.
  exists (rx "(?>(a))b|ac" []), RandomAccessIt, (str "ac"). eexists.
  split; [show_usable|]. split; [vm_compute; reflexivity|]. split; [reflexivity|].
  split; [|reflexivity]. intros b e t E. injection E as <- <-.
  intros H. show_takes H.
Qed.
Print Assumptions C26_abandoned_branch_refuted.

Theorem C26_earlier_position_refuted :
  exists r ct s res, usable r ct /\ regex_search r ct s = Returned res /\ matched res = true
    /\ (forall b e t, group0 (groups res) = Some (b, e) ->
          takes (config_of (flags r) ct) s (ast r) b e t -> latest 1 t = None)
    /\ nth 1 (groups res) None = Some (0, 1).
Proof.
  exists (rx "(?:^(?=(a))b|c)" []), RandomAccessIt, (str "ac"). eexists.
  split; [show_usable|]. split; [vm_compute; reflexivity|]. split; [reflexivity|].
  split; [|reflexivity]. intros b e t E. injection E as <- <-.
  intros H. show_takes H.
Qed.
Print Assumptions C26_earlier_position_refuted.

(** C27, full statement: after [(x)*], [(x)+] or [(x){n,m}] has taken at least
    one iteration the group holds the text of the last one.  False of greedy
    and possessive loops that stop before their upper bound (finding F2): the
    attempt that fails empties the group.  Exact result for a loop that is the
    whole pattern or an element of a sequence, if what follows has no group of
    this number: [b..i] is the text before the loop, [i..j] its [q] iterations,
    [j..e] the rest. *)
Theorem C27_repeated_group_partial : forall r ct s call res md lo hi id nm x pre post,
  call = regex_match \/ call = regex_match_prefix \/ call = regex_search ->
  call r ct s = Returned res -> matched res = true ->
  loop_in (ast r) pre (Rep md lo hi (Cap id nm x)) post ->
  id <> 0%N -> (forall y z, In y post -> ~ group_in y id z) ->
  let cf := config_of (flags r) ct in
  let v := nth (N.to_nat id) (groups res) None in
  exists b i j e q t1 t t2, group0 (groups res) = Some (b, e)
    /\ takes_all cf s pre b i t1
    /\ allowed lo hi q /\ takes_all cf s (repeat x q) i j t
    /\ takes_all cf s post j e t2
    /\ (tries_more cf md = false \/ hi = Fin (N.of_nat q) -> 0 < q ->
        exists p, v = Some p /\ last_iteration cf s x q i j p)
    /\ (tries_more cf md = true -> hi <> Fin (N.of_nat q) -> cell_is_empty v = true).
Proof. exact repeated_group_holds. Qed.
Print Assumptions C27_repeated_group_partial.

(** A lazy loop between other elements, and a counted one. *)
Example C27_example :
  let r := rx "x(a|b)+?(y)" [] in
  loop_in (ast r) [Lit "x"] (Rep Lazy 1 Inf (Cap 1 None (Alt [Lit "a"; Lit "b"])))
    [Cap 2 None (Lit "y")]
  /\ tries_more (config_of (flags r) RandomAccessIt) Lazy = false
  /\ exists res, regex_search r RandomAccessIt (str "xxabay") = Returned res
       /\ matched res = true /\ groups res = [Some (1, 6); Some (4, 5); Some (5, 6)].
Proof.
  split; [right; reflexivity|]. split; [reflexivity|].
  eexists. split; [vm_compute; reflexivity|]. split; reflexivity.
Qed.

Example C27_counted_example :
  exists res, regex_match (rx "(a|b){2,3}" []) RandomAccessIt (str "aba") = Returned res
    /\ matched res = true /\ groups res = [Some (0, 3); Some (2, 3)].
Proof. eexists. split; [vm_compute; reflexivity|]. split; reflexivity. Qed.

(** Finding F2 in general: after a greedy or possessive loop without upper bound
    the group is always empty. *)
Theorem C27_unbounded_loop_empties : forall r ct s call res md lo id nm x pre post,
  call = regex_match \/ call = regex_match_prefix \/ call = regex_search ->
  call r ct s = Returned res -> matched res = true ->
  loop_in (ast r) pre (Rep md lo Inf (Cap id nm x)) post ->
  id <> 0%N -> (forall y z, In y post -> ~ group_in y id z) ->
  tries_more (config_of (flags r) ct) md = true ->
  cell_is_empty (nth (N.to_nat id) (groups res) None) = true.
Proof. exact unbounded_loop_empties. Qed.
Print Assumptions C27_unbounded_loop_empties.

(** Every match of [(a)*] on this text makes a capture, yet the group is empty. *)
Theorem C27_last_iteration_refuted :
  exists r ct s res, usable r ct
    /\ loop_in (ast r) [] (Rep Greedy 0 Inf (Cap 1 None (Lit "a"))) []
    /\ regex_match r ct s = Returned res /\ matched res = true
    /\ group0 (groups res) = Some (0, 2)
    /\ last_iteration (config_of (flags r) ct) s (Lit "a") 2 0 2 (1, 2)
    /\ cell_is_empty (nth 1 (groups res) None) = true.
Proof.
  exists (rx "(a)*" []), RandomAccessIt, (str "aa"). eexists.
  split; [show_usable|]. split; [left; repeat split|]. split; [vm_compute; reflexivity|].
  split; [reflexivity|]. split; [reflexivity|]. split; [|reflexivity].
  split; [reflexivity|]. split.
  - exists ([] ++ []). cbn [repeat]. apply ta_cons with 1; [|constructor].
    apply tk_class; reflexivity.
  - exists []. apply tk_class; reflexivity.
Qed.
Print Assumptions C27_last_iteration_refuted.

(** C28, full statement: a call that reports no match leaves group 0 and all other
    groups empty.  False of group 0 for [match] (finding F4); true of it for
    [search], for every accepted pattern. *)
Theorem C28_failed_match_refuted :
  exists r ct s res, usable r ct /\ regex_match r ct s = Returned res
    /\ matched res = false /\ group0 (groups res) = Some (0, 4).
Proof.
  exists (rx "test" []), RandomAccessIt, (str "testx"). eexists.
  split; [show_usable|]. split; [vm_compute; reflexivity|]. split; reflexivity.
Qed.
Print Assumptions C28_failed_match_refuted.

Theorem C28_failed_prefix_refuted :
  exists r ct s res, usable r ct /\ regex_match_prefix r ct s = Returned res
    /\ matched res = false /\ group0 (groups res) = Some (0, 1).
Proof.
  exists (rx "a(x)" []), RandomAccessIt, (str "ay"). eexists.
  split; [show_usable|]. split; [vm_compute; reflexivity|]. split; reflexivity.
Qed.
Print Assumptions C28_failed_prefix_refuted.

Theorem C28_failed_search_partial : forall p n fl ct s res,
  parse p = P_ok n -> regex_search (mk_regex n fl) ct s = Returned res ->
  matched res = false -> group0 (groups res) = None.
Proof. exact failed_search_of_pattern. Qed.
Print Assumptions C28_failed_search_partial.

Example C28_example :
  exists n res, parse (str "(a+)\1b") = P_ok n
    /\ regex_search (mk_regex n []) RandomAccessIt (str "caaac") = Returned res
    /\ matched res = false.
Proof. eexists. eexists. repeat split; vm_compute; reflexivity. Qed.

(** The other groups: after a failed call every group outside lookarounds,
    possessive repetitions and atomic groups is empty, for every accepted regex
    and all three calls.  A group inside them may keep what it captured on an
    attempt that failed later (finding F4), also after [search]. *)
Theorem C28_failed_other_groups_partial : forall r ct s call res,
  call = regex_match \/ call = regex_match_prefix \/ call = regex_search ->
  call r ct s = Returned res -> matched res = false ->
  forall id, id <> 0%N -> ~ committed (ast r) id ->
  cell_is_empty (nth (N.to_nat id) (groups res) None) = true.
Proof. exact failed_groups_empty. Qed.
Print Assumptions C28_failed_other_groups_partial.

Example C28_other_groups_example :
  exists res, regex_search (rx "(a)(b)*c" []) RandomAccessIt (str "abbd") = Returned res
    /\ matched res = false /\ groups res = [None; Some (0, 0); Some (2, 2)]
    /\ ~ committed (ast (rx "(a)(b)*c" [])) 1 /\ ~ committed (ast (rx "(a)(b)*c" [])) 2.
Proof.
  eexists. split; [vm_compute; reflexivity|]. do 2 (split; [reflexivity|]).
  split; show_uncommitted.
Qed.

Theorem C28_failed_search_groups_refuted :
  exists r ct s res, usable r ct /\ regex_search r ct s = Returned res
    /\ matched res = false /\ nth 1 (groups res) None = Some (1, 2).
Proof.
  exists (rx "c(?=(a))b" []), RandomAccessIt, (str "ca"). eexists.
  split; [show_usable|]. split; [vm_compute; reflexivity|]. split; reflexivity.
Qed.
Print Assumptions C28_failed_search_groups_refuted.
