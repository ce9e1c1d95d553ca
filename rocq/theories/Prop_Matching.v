(** Properties of matching: C01-C14, C19, C20, C45. *)
From Verif Require Import Examples.
From Verif Require Import Safe Uniform Walk Actual.

(** C01.  [matches] (Spec.v) is the textbook language: a relation between the
    offsets of the text, defined by recursion on the tree without looking at
    repetition modes.  [regular] and [possessive_free] delimit the fragment: no
    backreferences, no atomic groups or possessive quantifiers, lookbehinds only
    as in C14. *)
Theorem C01_match_decides_language : forall r ct s,
  usable r ct -> regular (ast r) = true -> possessive_free (ast r) = true ->
  exists res, regex_match r ct s = Returned res
    /\ (matched res = true <-> matches (config_of (flags r) ct) s (ast r) 0 (length s)).
Proof. exact match_language. Qed.
Print Assumptions C01_match_decides_language.

Example C01_example :
  let r := rx "(?:ab|c(?=d))*?(d|\b\w{2,3})" [F_icase] in
  usable r RandomAccessIt /\ regular (ast r) = true /\ possessive_free (ast r) = true
  /\ (exists res, regex_match r RandomAccessIt (str "ABcd") = Returned res /\ matched res = true)
  /\ (exists res, regex_match r RandomAccessIt (str "abce") = Returned res /\ matched res = false).
Proof.
  split; [show_usable|]. split; [reflexivity|]. split; [reflexivity|].
  split; eexists; split; vm_compute; reflexivity.
Qed.

(** C01 for every tree without backreferences.  [walk] (Walk.v) is what the code
    tries, in order; C15_match_as_read gives it a textbook meaning. *)
Theorem C01_match_exact : forall r ct s,
  usable r ct -> backref_free (ast r) = true ->
  exists res, regex_match r ct s = Returned res
    /\ (matched res = true
        <-> In (length s) (walk (config_of (flags r) ct) s false false (ast r) 0)).
Proof. exact match_exact. Qed.
Print Assumptions C01_match_exact.

Example C01_exact_example :
  let r := rx "(?:(?:)|a)*+a?+(?<=$(?>ba|a))" [] in
  usable r RandomAccessIt /\ backref_free (ast r) = true /\ regular (ast r) = false
  /\ walk (config_of [] RandomAccessIt) (str "a") false false (ast r) 0 = [1].
Proof. split; [show_usable|]. repeat split; vm_compute; reflexivity. Qed.

(** C02.  [paths] (Spec.v) lists the ends of all matches in priority order,
    [preferred] is the first one.  The full claim, for all trees without
    backreferences, is refuted below. *)
Theorem C02_match_prefix_priority_partial : forall r ct s,
  usable r ct -> regular (ast r) = true ->
  exists res, regex_match_prefix r ct s = Returned res
    /\ match preferred (config_of (flags r) ct) s (ast r) 0 with
       | Some e => matched res = true /\ group0 (groups res) = Some (0, e)
       | None => matched res = false
       end.
Proof. exact match_prefix_priority. Qed.
Print Assumptions C02_match_prefix_priority_partial.

Example C02_example :
  let r := rx "(?>a|ab)(?:c|bc?+)|a*?bcd" [] in
  usable r BidirectionalIt /\ regular (ast r) = true
  /\ preferred (config_of [] BidirectionalIt) (str "abcd") (ast r) 0 = Some 3.
Proof. split; [show_usable|]. split; reflexivity. Qed.

(** Findings F5, F6 and F13: the code takes another end than the preferred one. *)
Theorem C02_match_prefix_priority_refuted : exists p s e res,
  let r := rx p [] in
  parse (str p) = P_ok (ast r) /\ usable r RandomAccessIt /\ backref_free (ast r) = true
  /\ preferred (config_of [] RandomAccessIt) s (ast r) 0 = Some e
  /\ regex_match_prefix r RandomAccessIt s = Returned res
  /\ matched res = true /\ group0 (groups res) <> Some (0, e).
Proof.
  exists "(?:(?:)|a)*+"%string, (str "aa"), 2. eexists. cbv zeta.
  split; [reflexivity|]. split; [show_usable|]. split; [reflexivity|]. split; [reflexivity|].
  split; [vm_compute; reflexivity|]. split; [reflexivity|]. discriminate.
Qed.
Print Assumptions C02_match_prefix_priority_refuted.

(** What the code computes for every tree without backreferences: the first end
    of [walk] (Walk.v), which differs from [paths] in an unbounded possessive
    loop over a body that can be empty and inside lookbehinds. *)
Theorem C02_match_prefix_exact : forall r ct s,
  usable r ct -> backref_free (ast r) = true ->
  exists res, regex_match_prefix r ct s = Returned res
    /\ match actual (config_of (flags r) ct) s (ast r) 0 with
       | Some e => matched res = true /\ group0 (groups res) = Some (0, e)
       | None => matched res = false
       end.
Proof. exact match_prefix_exact. Qed.
Print Assumptions C02_match_prefix_exact.

Example C02_exact_example :
  let r := rx "(?:(?:)|a)*+(?:b|(?:a|(?<=$(?>a|ba)))*+)" [] in
  usable r BidirectionalIt /\ backref_free (ast r) = true /\ regular (ast r) = false
  /\ actual (config_of [] BidirectionalIt) (str "aab") (ast r) 0 = Some 2.
Proof. split; [show_usable|]. repeat split; vm_compute; reflexivity. Qed.

(** The two specifications agree where both apply: the offsets in [paths] are
    exactly the ends of the matches. *)
Theorem C02_paths_are_the_matches : forall cf s n i j,
  possessive_free n = true -> well_formed n = true -> i <= length s ->
  (In j (paths cf s n i) <-> matches cf s n i j).
Proof. intros. now apply Paths.in_paths. Qed.
Print Assumptions C02_paths_are_the_matches.

(** C03. *)
Theorem C03_search_leftmost : forall r ct s,
  usable r ct -> regular (ast r) = true ->
  let cf := config_of (flags r) ct in
  exists res, regex_search r ct s = Returned res
    /\ (matched res = true -> exists i e,
          i <= length s /\ preferred cf s (ast r) i = Some e
          /\ (forall i', i' < i -> preferred cf s (ast r) i' = None)
          /\ group0 (groups res) = Some (i, e))
    /\ (matched res = false -> forall i, i <= length s -> preferred cf s (ast r) i = None).
Proof. exact search_leftmost. Qed.
Print Assumptions C03_search_leftmost.

(** The same against [match_prefix] itself, for every regex without
    backreferences: [prefix_from … i] is what [match_prefix] answers when it is
    started at offset [i] with fresh captures ([Some (Some e)]: a match up to
    [e], [Some None]: no match). *)
Theorem C03_search_first_offset : forall r ct s,
  usable r ct -> backref_free (ast r) = true ->
  let from := prefix_from (config_of (flags r) ct) (ast r) s in
  exists res, regex_search r ct s = Returned res
    /\ (matched res = true -> exists i e,
          i <= length s /\ from i = Some (Some e)
          /\ (forall i', i' < i -> from i' = Some None)
          /\ group0 (groups res) = Some (i, e))
    /\ (matched res = false -> forall i, i <= length s -> from i = Some None).
Proof. exact free_search_first. Qed.
Print Assumptions C03_search_first_offset.

(** The same against the specification of what the code tries. *)
Theorem C03_search_exact : forall r ct s,
  usable r ct -> backref_free (ast r) = true ->
  let p := actual (config_of (flags r) ct) s (ast r) in
  exists res, regex_search r ct s = Returned res
    /\ (matched res = true -> exists i e, i <= length s /\ group0 (groups res) = Some (i, e)
          /\ p i = Some e /\ forall i', i' < i -> p i' = None)
    /\ (matched res = false -> forall i, i <= length s -> p i = None).
Proof. exact search_exact. Qed.
Print Assumptions C03_search_exact.

Example C03_first_offset_example :
  let r := rx "(?<=(?<=^a)b)c|(?:(?:)|d)*+(?=e)e" [] in
  usable r RandomAccessIt /\ backref_free (ast r) = true /\ regular (ast r) = false
  /\ exists res, regex_search r RandomAccessIt (str "abce") = Returned res
       /\ matched res = true /\ group0 (groups res) = Some (3, 4).
Proof.
  split; [show_usable|]. split; [reflexivity|]. split; [reflexivity|].
  eexists; split; [vm_compute; reflexivity|]. split; reflexivity.
Qed.

Example C03_example :
  let r := rx "(?<=b)a+|ca" [] in
  usable r RandomAccessIt /\ regular (ast r) = true
  /\ exists res, regex_search r RandomAccessIt (str "aabaaca") = Returned res
       /\ matched res = true /\ group0 (groups res) = Some (3, 5).
Proof.
  split; [show_usable|]. split; [reflexivity|].
  eexists; split; [vm_compute; reflexivity|]. split; reflexivity.
Qed.

(** C04.  [Res] is the outcome of a call that returns; the others are [Diverge]
    (recursion or loop without end), [Undef] and [IllFormed]. *)
Theorem C04_matching_terminates : forall cf n s,
  runs cf n ->
  forall mt, mt = match_method \/ mt = match_prefix_method \/ mt = search_method ->
  forall cur c, cur <= length s -> length c = length (group_names n) ->
  Forall (valid_range s) c ->
  exists c' e b, mt cf n s cur c = Res c' e b.
Proof.
  intros cf n s Hr mt Hm. destruct (methods_return cf n s Hr) as (A & B & C).
  destruct Hm as [->|[->| ->]]; assumption.
Qed.
Print Assumptions C04_matching_terminates.

Theorem C04_calls_terminate : forall r ct s,
  usable r ct ->
  (exists res, regex_match r ct s = Returned res)
  /\ (exists res, regex_match_prefix r ct s = Returned res)
  /\ (exists res, regex_search r ct s = Returned res)
  /\ (exists l, tokenize r ct s = Returned l)
  /\ (exists l, find_all r ct s = Returned l)
  /\ (forall k, exists l, tokenizer r ct s k = Returned l)
  /\ (forall k, exists l, searcher r ct s k = Returned l).
Proof.
  intros r ct s Hu. destruct (calls_return r ct s Hu) as ((a1 & A & _) & (a2 & B & _) & (a3 & C & _)
    & (a4 & D & _) & (a5 & E & _) & F & G).
  repeat split; eauto; intros k.
  - destruct (F k) as (l & H & _). eauto.
  - destruct (G k) as (l & H & _). eauto.
Qed.
Print Assumptions C04_calls_terminate.

Example C04_example :
  let r := rx "((?:a*)*(b|\1)+)*(?:(?=a*)|\2)*?" [F_unroll] in
  parse (str "((?:a*)*(b|\1)+)*(?:(?=a*)|\2)*?") = P_ok (ast r)
  /\ usable r RandomAccessIt.
Proof. split; [reflexivity|show_usable]. Qed.

(** C05.  Every read of the model goes through [deref], [all_at] or
    [backref_match], which give [Undef] outside the text; [Undef] is passed on
    by every combinator.  The conclusion repeats C04 with the reading that
    interests here. *)
Theorem C05_no_out_of_bounds : forall r ct s,
  usable r ct ->
  regex_match r ct s <> UndefinedBehaviour
  /\ regex_match_prefix r ct s <> UndefinedBehaviour
  /\ regex_search r ct s <> UndefinedBehaviour
  /\ tokenize r ct s <> UndefinedBehaviour
  /\ find_all r ct s <> UndefinedBehaviour
  /\ (forall k, tokenizer r ct s k <> UndefinedBehaviour)
  /\ (forall k, searcher r ct s k <> UndefinedBehaviour).
Proof.
  intros r ct s Hu. destruct (C04_calls_terminate r ct s Hu) as ((a1 & A) & (a2 & B) & (a3 & C)
    & (a4 & D) & (a5 & E) & F & G).
  repeat split; try congruence; intros k.
  - destruct (F k). congruence.
  - destruct (G k). congruence.
Qed.
Print Assumptions C05_no_out_of_bounds.

Example C05_example :
  usable (rx "(?<=a{2}b)(\w)x{3,}?\1$" [F_multiline]) BidirectionalIt
  /\ usable (rx "[a-c]{3}(?:x+y)*" [F_dotall]) ForwardIt.
Proof. split; show_usable. Qed.

(** Without the restriction on multiline [^] for forward iterators (finding F12):
    [std::prev] moves a forward iterator backwards. *)
Theorem C05_forward_multiline_refuted : exists r s,
  compilable (config_of (flags r) ForwardIt) (ast r) = true
  /\ regex_search r ForwardIt s = UndefinedBehaviour.
Proof. exists (rx "^b" [F_multiline]), (str "ab"). split; vm_compute; reflexivity. Qed.
Print Assumptions C05_forward_multiline_refuted.

(** C06. *)
Theorem C06_groups_valid : forall r ct s,
  usable r ct ->
  let fine res := group_count res = S (capture_count (ast r)) /\ Forall (valid_range s) (groups res) in
  (exists res, regex_match r ct s = Returned res /\ fine res
      /\ exists e, group0 (groups res) = Some (0, e) /\ (matched res = true -> e = length s))
  /\ (exists res, regex_match_prefix r ct s = Returned res /\ fine res
      /\ exists e, group0 (groups res) = Some (0, e))
  /\ (exists res, regex_search r ct s = Returned res /\ fine res
      /\ (matched res = true -> exists i e, i <= e /\ group0 (groups res) = Some (i, e)))
  /\ (exists l, tokenize r ct s = Returned l /\ Forall fine l)
  /\ (exists l, find_all r ct s = Returned l /\ Forall fine l)
  /\ (forall k, exists l, tokenizer r ct s k = Returned l /\ Forall fine l)
  /\ (forall k, exists l, searcher r ct s k = Returned l /\ Forall fine l).
Proof. exact groups_valid. Qed.
Print Assumptions C06_groups_valid.

Example C06_example :
  let r := rx "(?<=(a+))b(c|(d))*" [] in
  usable r RandomAccessIt
  /\ exists res, regex_search r RandomAccessIt (str "aabcd") = Returned res
       /\ groups res = [Some (2, 5); Some (0, 2); Some (4, 4); Some (4, 4)].
Proof. split; [show_usable|]. eexists; split; vm_compute; reflexivity. Qed.

(** C07. *)
Theorem C07_calls_agree : forall r ct s,
  usable r ct -> backref_free (ast r) = true ->
  exists a b c,
    regex_match r ct s = Returned a
    /\ regex_match_prefix r ct s = Returned b
    /\ regex_search r ct s = Returned c
    /\ (matched a = true -> group0 (groups a) = Some (0, length s)
          /\ matched b = true /\ matched c = true
          /\ exists e, group0 (groups b) = Some (0, e) /\ group0 (groups c) = Some (0, e))
    /\ (matched b = true -> group0 (groups b) = Some (0, length s) -> matched a = true).
Proof. exact free_calls_agree. Qed.
Print Assumptions C07_calls_agree.

Example C07_example :
  let r := rx "a+?b?|(?>c+)|(?:(?:)|d)*+" [] in
  usable r ForwardIt /\ backref_free (ast r) = true
  /\ (exists a, regex_match r ForwardIt (str "aab") = Returned a /\ matched a = true)
  /\ (exists b, regex_match_prefix r ForwardIt (str "aab") = Returned b
        /\ group0 (groups b) = Some (0, 1)).
Proof.
  split; [show_usable|]. split; [reflexivity|].
  split; eexists; split; vm_compute; reflexivity.
Qed.

(** C08.  No hypothesis: the answers are equal even when a call does not
    compile or is undefined. *)
Theorem C08_unroll_irrelevant : forall r ct s,
  regex_match (add_flags r [F_unroll]) ct s = regex_match r ct s
  /\ regex_match_prefix (add_flags r [F_unroll]) ct s = regex_match_prefix r ct s
  /\ regex_search (add_flags r [F_unroll]) ct s = regex_search r ct s
  /\ tokenize (add_flags r [F_unroll]) ct s = tokenize r ct s
  /\ find_all (add_flags r [F_unroll]) ct s = find_all r ct s
  /\ (forall k, tokenizer (add_flags r [F_unroll]) ct s k = tokenizer r ct s k)
  /\ (forall k, searcher (add_flags r [F_unroll]) ct s k = searcher r ct s k).
Proof. exact unroll_irrelevant. Qed.
Print Assumptions C08_unroll_irrelevant.

Example C08_example :
  let r := rx "(a|b){3}\1{2}c{4}" [] in
  usable r RandomAccessIt /\ usable (add_flags r [F_unroll]) RandomAccessIt
  /\ exists res, regex_match r RandomAccessIt (str "abaaacccc") = Returned res /\ matched res = true.
Proof. split; [show_usable|]. split; [show_usable|]. eexists; split; vm_compute; reflexivity. Qed.

(** C09.  [agree] requires the same verdict, the same groups from 1 on, and on
    success the same group 0; group 0 of a failed [match] or [match_prefix] does
    depend on the category (finding F15 below). *)
Theorem C09_category_irrelevant : forall r ct s,
  usable r ForwardIt ->
  agree (regex_match r ForwardIt s) (regex_match r ct s)
  /\ agree (regex_match_prefix r ForwardIt s) (regex_match_prefix r ct s)
  /\ regex_search r ForwardIt s = regex_search r ct s
  /\ (forall k, agree_lists (tokenizer r ForwardIt s k) (tokenizer r ct s k))
  /\ (forall k, searcher r ForwardIt s k = searcher r ct s k).
Proof. exact forward_agrees. Qed.
Print Assumptions C09_category_irrelevant.

Theorem C09_bidirectional_like_random_access : forall r s,
  agree (regex_match r BidirectionalIt s) (regex_match r RandomAccessIt s)
  /\ agree (regex_match_prefix r BidirectionalIt s) (regex_match_prefix r RandomAccessIt s)
  /\ regex_search r BidirectionalIt s = regex_search r RandomAccessIt s
  /\ (forall k, agree_lists (tokenizer r BidirectionalIt s k) (tokenizer r RandomAccessIt s k))
  /\ (forall k, searcher r BidirectionalIt s k = searcher r RandomAccessIt s k).
Proof. exact bidirectional_agrees. Qed.
Print Assumptions C09_bidirectional_like_random_access.

Example C09_example :
  let r := rx "(a|b)*(?=cc)c{2}d+?e" [F_icase] in
  usable r ForwardIt
  /\ exists res, regex_match r ForwardIt (str "abCcdde") = Returned res /\ matched res = true.
Proof. split; [show_usable|]. eexists; split; vm_compute; reflexivity. Qed.

(** Finding F15: equality of the whole result fails for failed calls. *)
Theorem C09_failed_group0_refuted : exists r s a b,
  usable r ForwardIt
  /\ regex_match r ForwardIt s = Returned a /\ regex_match r RandomAccessIt s = Returned b
  /\ groups a <> groups b.
Proof.
  exists (rx "ab" []), (str "ax"). do 2 eexists.
  split; [show_usable|]. split; [vm_compute; reflexivity|]. split; [vm_compute; reflexivity|].
  discriminate.
Qed.
Print Assumptions C09_failed_group0_refuted.

(** C10. *)
Theorem C10_ungreedy_swaps_modes : forall n fl ct s,
  ~ In F_ungreedy fl ->
  let r1 := mk_regex n (F_ungreedy :: fl) in
  let r2 := mk_regex (swap_modes n) fl in
  regex_match r1 ct s = regex_match r2 ct s
  /\ regex_match_prefix r1 ct s = regex_match_prefix r2 ct s
  /\ regex_search r1 ct s = regex_search r2 ct s
  /\ tokenize r1 ct s = tokenize r2 ct s
  /\ find_all r1 ct s = find_all r2 ct s
  /\ (forall k, tokenizer r1 ct s k = tokenizer r2 ct s k)
  /\ (forall k, searcher r1 ct s k = searcher r2 ct s k).
Proof. exact ungreedy_swaps. Qed.
Print Assumptions C10_ungreedy_swaps_modes.

Example C10_example :
  swap_modes (tree "(a+?)(b*)c?+") = tree "(a+)(b*?)c?+"
  /\ (exists res, regex_match_prefix (rx "(a+?)(b*)c?+" [F_ungreedy]) RandomAccessIt (str "aabbc")
        = Returned res /\ groups res = [Some (0, 2); Some (0, 2); Some (2, 2)])
  /\ (exists res, regex_match_prefix (rx "(a+?)(b*)c?+" []) RandomAccessIt (str "aabbc")
        = Returned res /\ groups res = [Some (0, 1); Some (0, 1); Some (1, 1)]).
Proof. split; [reflexivity|]. split; eexists; split; vm_compute; reflexivity. Qed.

(** C11, for every context [C] and every body, except an unbounded repetition of
    a body that can be empty, for which it is refuted below. *)
Theorem C11_possessive_is_atomic_greedy_partial : forall C lo hi x fl ct s,
  ~ In F_ungreedy fl -> hi <> Inf \/ may_be_empty x = false ->
  let r1 := mk_regex (plug C (Rep Possessive lo hi x)) fl in
  let r2 := mk_regex (plug C (atomic (Rep Greedy lo hi x))) fl in
  usable r1 ct -> usable r2 ct -> backref_free (ast r1) = true ->
  same_answer (regex_match r1 ct s) (regex_match r2 ct s)
  /\ same_answer (regex_match_prefix r1 ct s) (regex_match_prefix r2 ct s)
  /\ same_answer (regex_search r1 ct s) (regex_search r2 ct s).
Proof. exact possessive_atomic_any. Qed.
Print Assumptions C11_possessive_is_atomic_greedy_partial.

Example C11_example :
  let x := Alt [Lit "a"; Seq [Lit "a"; Lit "b"]] in
  let r1 := mk_regex (plug (CSeq [] Hole [Lit "c"]) (Rep Possessive 1 Inf x)) [] in
  let r2 := mk_regex (plug (CSeq [] Hole [Lit "c"]) (atomic (Rep Greedy 1 Inf x))) [] in
  ast r1 = tree "(?:a|ab)++c" /\ ast r2 = tree "(?>(?:a|ab)+)c" /\ may_be_empty x = false
  /\ usable r1 RandomAccessIt /\ usable r2 RandomAccessIt /\ backref_free (ast r1) = true
  /\ (exists res, regex_search r1 RandomAccessIt (str "aabcac") = Returned res
        /\ group0 (groups res) = Some (4, 6)).
Proof.
  repeat split; try reflexivity; try (vm_compute; auto; fail).
  eexists; split; vm_compute; reflexivity.
Qed.

(** Finding F13: [(?:(?:)|a)*+] stops at the first empty iteration, the atomic
    greedy loop backtracks into the body and consumes the [a]. *)
Theorem C11_possessive_is_atomic_greedy_refuted : exists x s a b,
  let r1 := mk_regex (Rep Possessive 0 Inf x) [] in
  let r2 := mk_regex (atomic (Rep Greedy 0 Inf x)) [] in
  usable r1 RandomAccessIt /\ usable r2 RandomAccessIt
  /\ regex_match_prefix r1 RandomAccessIt s = Returned a
  /\ regex_match_prefix r2 RandomAccessIt s = Returned b
  /\ group0 (groups a) = Some (0, 0) /\ group0 (groups b) = Some (0, 1).
Proof.
  exists (Alt [Empty; Lit "a"]), (str "a"). do 2 eexists. cbv zeta.
  split; [show_usable|]. split; [show_usable|].
  do 2 (split; [vm_compute; reflexivity|]). split; reflexivity.
Qed.
Print Assumptions C11_possessive_is_atomic_greedy_refuted.

(** C12.  [k] is any continuation: whatever follows the group in the regex. *)
Theorem C12_atomic_commits : forall cf names s x cur c k,
  part_ok cf names x -> cur <= length s -> length c = length names ->
  match preferred cf s x cur with
  | Some j => exists c', length c' = length names
                /\ node_match cf names s 0 (atomic x) cur c k = k j c'
  | None => exists c' e, node_match cf names s 0 (atomic x) cur c k = Res c' e false
  end.
Proof. exact atomic_commits. Qed.
Print Assumptions C12_atomic_commits.

Example C12_example :
  let x := tree "a|(ab)" in
  let names := group_names x in
  part_ok (config_of [] RandomAccessIt) names x
  /\ preferred (config_of [] RandomAccessIt) (str "abc") x 0 = Some 1
  /\ exists res, regex_match_prefix (rx "(?>a|(ab))c" []) RandomAccessIt (str "abc") = Returned res
       /\ matched res = false.
Proof.
  split; [split; [vm_compute; reflexivity|split; [left; reflexivity|reflexivity]]|].
  split; [reflexivity|]. eexists; split; vm_compute; reflexivity.
Qed.

(** The same around any tree [x], backreferences included: the group goes on
    from the one match that [x] reports when nothing follows it, with the
    captures of that match, and fails when [x] on its own fails. *)
Theorem C12_atomic_commits_any : forall cf names s x cur c k c' j,
  (node_match cf names s 0 x cur c success = Res c' j true ->
     node_match cf names s 0 (atomic x) cur c k = k j c')
  /\ (node_match cf names s 0 x cur c success = Res c' j false ->
     node_match cf names s 0 (atomic x) cur c k = Res c' cur false).
Proof. exact atomic_own. Qed.
Print Assumptions C12_atomic_commits_any.

Example C12_any_example :
  let x := tree "(a+)b\1" in
  let cf := config_of [] RandomAccessIt in
  node_match cf (group_names x) (str "aabaa") 0 x 0 [None; None] success
    = Res [None; Some (0, 2)] 5 true
  /\ node_match cf (group_names x) (str "aabc") 0 x 0 [None; None] success
    = Res [None; Some (0, 0)] 0 false.
Proof. split; vm_compute; reflexivity. Qed.

(** C13. *)
Theorem C13_lookahead : forall cf names s x cur c k,
  part_ok cf names x -> possessive_free x = true ->
  cur <= length s -> length c = length names ->
  ((exists j, matches cf s x cur j) ->
     (exists c', length c' = length names
        /\ node_match cf names s 0 (Look Ahead x) cur c k = k cur c')
     /\ exists c', node_match cf names s 0 (Neg (Look Ahead x)) cur c k = Res c' cur false)
  /\ ((~ exists j, matches cf s x cur j) ->
     (exists c', node_match cf names s 0 (Look Ahead x) cur c k = Res c' cur false)
     /\ exists c', length c' = length names
        /\ node_match cf names s 0 (Neg (Look Ahead x)) cur c k = k cur c').
Proof. exact lookahead_zero_width. Qed.
Print Assumptions C13_lookahead.

Example C13_example :
  let cf := config_of [] RandomAccessIt in
  let x := tree "a+(b)" in
  part_ok cf (group_names x) x /\ possessive_free x = true
  /\ Look Ahead x = tree "(?=a+(b))" /\ Neg (Look Ahead x) = tree "(?!a+(b))"
  /\ matches cf (str "aab") x 0 3.
Proof.
  split; [split; [vm_compute; reflexivity|split; [left; reflexivity|reflexivity]]|].
  repeat split; try reflexivity. cbn. exists 2. split.
  - exists 2. split; [split; [vm_compute; discriminate|exact I]|]. cbn. exists 1. split; [auto|].
    exists 2. auto.
  - exists 3. auto.
Qed.

(** The same around any tree [x]. *)
Theorem C13_lookahead_any : forall cf names s x cur c k c' j,
  (node_match cf names s 0 x cur c success = Res c' j true ->
     node_match cf names s 0 (Look Ahead x) cur c k = k cur c'
     /\ node_match cf names s 0 (Neg (Look Ahead x)) cur c k = Res c' cur false)
  /\ (node_match cf names s 0 x cur c success = Res c' j false ->
     node_match cf names s 0 (Look Ahead x) cur c k = Res c' cur false
     /\ node_match cf names s 0 (Neg (Look Ahead x)) cur c k = k cur c').
Proof. exact lookahead_own. Qed.
Print Assumptions C13_lookahead_any.

Example C13_any_example :
  let x := tree "(a+)b\1" in
  Look Ahead x = tree "(?=(a+)b\1)"
  /\ node_match (config_of [] RandomAccessIt) (group_names x) (str "aabaa") 0 x 0 [None; None] success
    = Res [None; Some (0, 2)] 5 true.
Proof. split; vm_compute; reflexivity. Qed.

(** C14.  [behind_ok] contains the conditions on the body: it compiles behind
    one reverse iterator and is [reversible] (no [^ $ \A \Z], no possessive
    quantifier, lookarounds only over classes; see C15 for what happens
    otherwise). *)
Theorem C14_lookbehind : forall cf names s x cur c k,
  behind_ok cf names x -> cur <= length s -> length c = length names ->
  ((exists i, i <= cur /\ matches cf s x i cur) ->
     (exists c', length c' = length names
        /\ node_match cf names s 0 (Look Behind x) cur c k = k cur c')
     /\ exists c', node_match cf names s 0 (Neg (Look Behind x)) cur c k = Res c' cur false)
  /\ ((~ exists i, i <= cur /\ matches cf s x i cur) ->
     (exists c', node_match cf names s 0 (Look Behind x) cur c k = Res c' cur false)
     /\ exists c', length c' = length names
        /\ node_match cf names s 0 (Neg (Look Behind x)) cur c k = k cur c').
Proof. exact lookbehind_before. Qed.
Print Assumptions C14_lookbehind.

Example C14_example :
  let x := tree "\b(a|bc)+?d{2,}" in
  behind_ok (config_of [] BidirectionalIt) (group_names x) x
  /\ Look Behind x = tree "(?<=\b(a|bc)+?d{2,})"
  /\ exists res, regex_search (rx "(?<=\b(a|bc)+?d{2,})x" []) BidirectionalIt (str "ax bcaddx")
       = Returned res /\ group0 (groups res) = Some (8, 9).
Proof.
  split; [split; [vm_compute; reflexivity|split; [left; reflexivity|reflexivity]]|].
  split; [reflexivity|]. eexists; split; vm_compute; reflexivity.
Qed.

(** C15 is false: findings F5 and F6. *)
Theorem C15_anchor_in_lookbehind_refuted : exists p s res,
  let r := rx p [] in
  parse (str p) = P_ok (ast r) /\ usable r RandomAccessIt
  /\ matches (config_of [] RandomAccessIt) s (ast r) 1 2
  /\ regex_search r RandomAccessIt s = Returned res /\ matched res = false.
Proof.
  exists "(?<=^a)b"%string, (str "ab"). eexists. cbv zeta.
  split; [reflexivity|]. split; [show_usable|]. split.
  - cbn. exists 1. split.
    + split; [reflexivity|]. exists 0. split; [lia|]. exists 0. split; [auto|]. exists 1. auto.
    + exists 2. auto.
  - split; [vm_compute; reflexivity|reflexivity].
Qed.
Print Assumptions C15_anchor_in_lookbehind_refuted.

Theorem C15_lookaround_in_lookbehind_refuted : exists p s res,
  let r := rx p [] in
  parse (str p) = P_ok (ast r) /\ usable r RandomAccessIt
  /\ matches (config_of [] RandomAccessIt) s (ast r) 1 2
  /\ regex_search r RandomAccessIt s = Returned res /\ matched res = false.
Proof.
  exists "(?<=a(?=bc))b"%string, (str "abc"). eexists. cbv zeta.
  split; [reflexivity|]. split; [show_usable|]. split.
  - cbn. exists 1. split.
    + split; [reflexivity|]. exists 0. split; [lia|]. exists 1. split; [auto|]. exists 1.
      split; [|reflexivity]. split; [reflexivity|]. exists 3. exists 2. split; [auto|]. exists 3. auto.
    + exists 2. auto.
  - split; [vm_compute; reflexivity|reflexivity].
Qed.
Print Assumptions C15_lookaround_in_lookbehind_refuted.

(** What the code does instead: it matches the tree [as_read] (Walk.v), in which
    the anchors of lookbehind bodies are exchanged and the bodies of lookarounds
    inside lookbehinds are reversed, by its textbook meaning.  (Possessive
    repetitions are excluded in C15_match_as_read because the textbook language
    has none, and inside lookbehinds in the other two because priority order
    says nothing about reading backwards.) *)
Theorem C15_match_as_read : forall r ct s,
  usable r ct -> backref_free (ast r) = true -> possessive_free (ast r) = true ->
  exists res, regex_match r ct s = Returned res
    /\ (matched res = true
        <-> matches (config_of (flags r) ct) s (as_read false false (ast r)) 0 (length s)).
Proof. exact match_as_read. Qed.
Print Assumptions C15_match_as_read.

Theorem C15_match_prefix_as_read : forall r ct s,
  usable r ct -> backref_free (ast r) = true ->
  possessive_ok (ast r) = true -> lookbehind_plain (ast r) = true ->
  exists res, regex_match_prefix r ct s = Returned res
    /\ match preferred (config_of (flags r) ct) s (as_read false false (ast r)) 0 with
       | Some e => matched res = true /\ group0 (groups res) = Some (0, e)
       | None => matched res = false
       end.
Proof. exact match_prefix_as_read. Qed.
Print Assumptions C15_match_prefix_as_read.

Theorem C15_search_as_read : forall r ct s,
  usable r ct -> backref_free (ast r) = true ->
  possessive_ok (ast r) = true -> lookbehind_plain (ast r) = true ->
  let p := preferred (config_of (flags r) ct) s (as_read false false (ast r)) in
  exists res, regex_search r ct s = Returned res
    /\ (matched res = true -> exists i e, i <= length s /\ group0 (groups res) = Some (i, e)
          /\ p i = Some e /\ forall i', i' < i -> p i' = None)
    /\ (matched res = false -> forall i, i <= length s -> p i = None).
Proof. exact search_as_read. Qed.
Print Assumptions C15_search_as_read.

(** Everything else is read as written: only lookbehind bodies with anchors or
    with lookarounds (over more than a class) are affected. *)
Theorem C15_read_as_written : forall n, lookbehind_ok n = true -> as_read false false n = n.
Proof. exact as_read_same. Qed.
Print Assumptions C15_read_as_written.

Example C15_as_read_example :
  as_read false false (tree "^(?<=^a(?=bc|\Z))b$") = tree "^(?<=$a(?=cb|\Z))b$"
  /\ as_read false false (tree "(?<=(?<=bc(?!d\A))$)b") = tree "(?<=(?<=(?<!\Zd)cb)^)b"
  /\ let r := rx "(?<=a(?=bc)|$)b" [] in
     usable r RandomAccessIt /\ backref_free (ast r) = true /\ possessive_free (ast r) = true
     /\ possessive_ok (ast r) = true /\ lookbehind_plain (ast r) = true
     /\ lookbehind_ok (ast r) = false
     /\ exists res, regex_search r RandomAccessIt (str "bac") = Returned res
          /\ matched res = true /\ group0 (groups res) = Some (0, 1).
Proof.
  split; [reflexivity|]. split; [reflexivity|]. split; [show_usable|].
  do 5 (split; [reflexivity|]). eexists. split; [vm_compute; reflexivity|]. split; reflexivity.
Qed.

(** C16. *)
Theorem C16_documented_classes : forall p test fl ct s,
  In (p, test) documented_classes ->
  exists n, parse p = P_ok n
    /\ exists res, regex_match (mk_regex n fl) ct s = Returned res
    /\ matched res = match s with [a] => test (flag_test fl F_dotall) a | _ => false end.
Proof. exact documented_classes_match. Qed.
Print Assumptions C16_documented_classes.

Theorem C16_sets_and_ranges : forall l fl ct s,
  ~ In F_icase fl -> Forall (fun '(a, b) => (N_of_ascii a <= N_of_ascii b)%N) l ->
  (exists res, regex_match (mk_regex (CSet (range_items l)) fl) ct s = Returned res
    /\ matched res = match s with [c] => in_ranges l c | _ => false end)
  /\ (exists res, regex_match (mk_regex (Neg (CSet (range_items l))) fl) ct s = Returned res
    /\ matched res = match s with [c] => negb (in_ranges l c) | _ => false end).
Proof. exact set_match. Qed.
Print Assumptions C16_sets_and_ranges.

Example C16_example :
  let l := [("a", "f"); ("0", "9"); ("128", "255")]%char in
  Forall (fun '(a, b) => (N_of_ascii a <= N_of_ascii b)%N) l
  /\ tree "[\x80-\xff0-9a-f]" = CSet (range_items [("a", "f"); ("0", "9"); ("128", "255")]%char)
  /\ in_ranges l "200" = true /\ in_ranges l "g" = false.
Proof. repeat split; repeat constructor; vm_compute; discriminate. Qed.

(** C17. *)
Theorem C17_icase_class : forall n fl ct a,
  ~ In F_icase fl -> positive_class n = true -> usable (mk_regex n fl) ct ->
  exists b1 b2,
    says (regex_match (mk_regex n fl) ct [a]) b1
    /\ says (regex_match (mk_regex n fl) ct [other_case a]) b2
    /\ says (regex_match (mk_regex n (F_icase :: fl)) ct [a]) (b1 || b2).
Proof. exact icase_class. Qed.
Print Assumptions C17_icase_class.

Theorem C17_icase_negated_class : forall n fl ct a,
  ~ In F_icase fl -> positive_class n = true ->
  usable (mk_regex n fl) ct -> usable (mk_regex (Neg n) fl) ct ->
  exists b,
    says (regex_match (mk_regex n (F_icase :: fl)) ct [a]) b
    /\ says (regex_match (mk_regex (Neg n) (F_icase :: fl)) ct [a]) (negb b).
Proof. exact icase_negated_class. Qed.
Print Assumptions C17_icase_negated_class.

Example C17_example :
  let n := tree "[X-c_]" in
  positive_class n = true /\ usable (mk_regex n []) RandomAccessIt
  /\ usable (mk_regex (Neg n) []) RandomAccessIt
  /\ (exists res, regex_match (mk_regex n [F_icase]) RandomAccessIt (str "C") = Returned res
        /\ matched res = true)
  /\ (exists res, regex_match (mk_regex n []) RandomAccessIt (str "C") = Returned res
        /\ matched res = false).
Proof.
  split; [reflexivity|]. split; [show_usable|]. split; [show_usable|].
  split; eexists; split; vm_compute; reflexivity.
Qed.

(** C18. *)
Theorem C18_icase_input_case_irrelevant : forall r ct s1 s2,
  In F_icase (flags r) -> Forall2 (fun a b => a = b \/ a = other_case b) s1 s2 ->
  regex_match r ct s1 = regex_match r ct s2
  /\ regex_match_prefix r ct s1 = regex_match_prefix r ct s2
  /\ regex_search r ct s1 = regex_search r ct s2
  /\ tokenize r ct s1 = tokenize r ct s2
  /\ find_all r ct s1 = find_all r ct s2
  /\ (forall k, tokenizer r ct s1 k = tokenizer r ct s2 k)
  /\ (forall k, searcher r ct s1 k = searcher r ct s2 k).
Proof. exact icase_input. Qed.
Print Assumptions C18_icase_input_case_irrelevant.

Example C18_example :
  Forall2 (fun a b => a = b \/ a = other_case b) (str "xAbaB-") (str "XAbAb-")
  /\ exists res, regex_search (rx "([a-y]b)\1" [F_icase]) RandomAccessIt (str "xAbaB-") = Returned res
       /\ groups res = [Some (1, 5); Some (1, 3)].
Proof.
  split; [repeat (apply Forall2_cons; [first [left; reflexivity|right; reflexivity]|]); apply Forall2_nil|]. eexists; split; vm_compute; reflexivity.
Qed.

(** C19. *)
Theorem C19_anchors : forall cf names s cur,
  cur <= length s ->
  let tests n (b : bool) := forall c k,
    node_match cf names s 0 n cur c k = if b then k cur c else Res c cur false in
  (is_bidirectional cf = true \/ multiline cf = false -> tests BeginLine (at_line_start cf s cur))
  /\ tests EndLine (at_line_end cf s cur)
  /\ tests BeginInput (Nat.eqb cur 0)
  /\ tests EndInput (Nat.eqb cur (length s))
  /\ (is_bidirectional cf = true ->
        tests WordB (at_word_boundary s cur)
        /\ tests (Neg WordB) (negb (at_word_boundary s cur))).
Proof. exact anchors_tests. Qed.
Print Assumptions C19_anchors.

Example C19_example :
  let cf := config_of [F_multiline] RandomAccessIt in
  let s := str "a
b" in
  length s = 3 /\ at_line_start cf s 2 = true /\ at_line_start cf s 1 = false
  /\ at_line_end cf s 1 = true /\ at_word_boundary s 1 = true
  /\ tree "^" = BeginLine /\ tree "$" = EndLine /\ tree "\A" = BeginInput /\ tree "\Z" = EndInput
  /\ tree "\b" = WordB /\ tree "\B" = Neg WordB.
Proof. repeat split; reflexivity. Qed.

(** C20, in every context. *)
Theorem C20_quantifier_shorthands : forall C x y fl ct s,
  shorthand x y ->
  let r1 := mk_regex (plug C x) fl in
  let r2 := mk_regex (plug C y) fl in
  usable r1 ct -> usable r2 ct -> regular (ast r1) = true -> regular (ast r2) = true ->
  same_answer (regex_match r1 ct s) (regex_match r2 ct s)
  /\ same_answer (regex_match_prefix r1 ct s) (regex_match_prefix r2 ct s)
  /\ same_answer (regex_search r1 ct s) (regex_search r2 ct s).
Proof. exact shorthands. Qed.
Print Assumptions C20_quantifier_shorthands.

Example C20_example :
  let x := tree "a|(?=b)" in
  let l := Seq [Rep Greedy 2 (Fin 2) x; Rep Greedy 0 (Fin 3) x] in
  let r := Rep Greedy 2 (Fin (2 + 3)) x in
  let C := CSeq [] (CRep Lazy 0 Inf Hole) [Lit "b"] in
  shorthand l r
  /\ plug C l = tree "(?:(?:a|(?=b)){2}(?:a|(?=b)){0,3})*?b"
  /\ plug C r = tree "(?:(?:a|(?=b)){2,5})*?b"
  /\ usable (mk_regex (plug C l) []) RandomAccessIt /\ usable (mk_regex (plug C r) []) RandomAccessIt
  /\ regular (plug C l) = true /\ regular (plug C r) = true.
Proof.
  split; [constructor; discriminate|]. do 2 (split; [reflexivity|]).
  do 2 (split; [show_usable|]). split; reflexivity.
Qed.

(** C45. *)
Theorem C45_captures_irrelevant : forall cf n s,
  runs cf n -> backref_free n = true ->
  forall mt, mt = match_method \/ mt = match_prefix_method \/ mt = search_method ->
  forall cur c1 c2, cur <= length s ->
  length c1 = length (group_names n) -> length c2 = length (group_names n) ->
  verdict (mt cf n s cur c1) = verdict (mt cf n s cur c2)
  /\ verdict (mt cf n s cur c1) <> None.
Proof. intros cf n s H1 H2 mt Hm. exact (free_captures_irrelevant cf n s H1 H2 mt Hm). Qed.
Print Assumptions C45_captures_irrelevant.

Example C45_example :
  let n := tree "(a+)(b|(c))*?(?:(?:)|d)*+" in
  runs (config_of [] RandomAccessIt) n /\ backref_free n = true
  /\ length [None; Some (0, 1); Some (7, 3); None] = length (group_names n).
Proof. split; [show_usable|]. split; reflexivity. Qed.
