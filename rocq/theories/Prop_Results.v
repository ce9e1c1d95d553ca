(** Properties of generators, backreferences, flags and results: C22, C36-C42. *)
From Verif Require Import Examples.
From Verif Require Import Safe Uniform Generators Scans Results.

(** C22.  [repeats cf s i t]: the characters of [t] stand at offset [i] of [s],
    letter case ignored with icase.  The matcher of a backreference either goes
    on behind the repeated text with unchanged captures or fails without
    touching them. *)
Theorem C22_backref_repeats_group : forall cf names s id cur c k v,
  cur <= length s -> nth_error c (N.to_nat id) = Some v -> valid_range s v ->
  let t := cell_content s v in
  (repeats cf s cur t -> node_match cf names s 0 (Backref id) cur c k = k (cur + length t) c)
  /\ (~ repeats cf s cur t -> exists e, node_match cf names s 0 (Backref id) cur c k = Res c e false).
Proof. exact backref_repeats. Qed.
Print Assumptions C22_backref_repeats_group.

Theorem C22_named_backref_repeats_group : forall cf names s nm i cur c k v,
  cur <= length s ->
  nth_error names i = Some (Some nm) ->
  (forall j, nth_error names j = Some (Some nm) -> j = i) ->
  nth_error c i = Some v -> valid_range s v ->
  let t := cell_content s v in
  (repeats cf s cur t -> node_match cf names s 0 (NBackref nm) cur c k = k (cur + length t) c)
  /\ (~ repeats cf s cur t -> exists e, node_match cf names s 0 (NBackref nm) cur c k = Res c e false).
Proof. exact named_backref_repeats. Qed.
Print Assumptions C22_named_backref_repeats_group.

(** In a lookbehind (reverse depth 1) offset [cur] of the reversed text is the
    position [length s - cur] of the text. *)
Theorem C22_backref_in_lookbehind : forall cf names s id cur c k v,
  cur <= length s -> nth_error c (N.to_nat id) = Some v -> valid_range s v ->
  let t := cell_content s v in
  let p := length s - cur in
  (length t <= p /\ repeats cf s (p - length t) t ->
     node_match cf names s 1 (Backref id) cur c k = k (cur + length t) c)
  /\ (~ (length t <= p /\ repeats cf s (p - length t) t) ->
     exists e, node_match cf names s 1 (Backref id) cur c k = Res c e false).
Proof. exact backref_repeats_behind. Qed.
Print Assumptions C22_backref_in_lookbehind.

Example C22_example :
  let s := str "abxAB" in
  let c := [None; Some (0, 2)] in
  valid_range s (Some (0, 2)) /\ repeats (config_of [F_icase] RandomAccessIt) s 3 (cell_content s (Some (0, 2)))
  /\ ~ repeats (config_of [] RandomAccessIt) s 3 (cell_content s (Some (0, 2)))
  /\ repeats (config_of [] RandomAccessIt) s 3 (cell_content s None).
Proof.
  split; [cbn; lia|]. split; [|split].
  - repeat constructor; right; split; reflexivity.
  - intros H. inversion H as [|? ? ? ? [E|[E _]]]; discriminate.
  - constructor.
Qed.

Example C22_pattern_example :
  (exists res, regex_match (rx "(?:(a+)b)*x\1" []) RandomAccessIt (str "xa") = Returned res /\ matched res = false)
  /\ (exists res, regex_match (rx "(a+)x\1" []) RandomAccessIt (str "aaxaa") = Returned res /\ matched res = true)
  /\ (exists res, regex_match (rx "(ab)c(?<=\1c)d" []) RandomAccessIt (str "abcd") = Returned res /\ matched res = true).
Proof. repeat split; eexists; split; vm_compute; reflexivity. Qed.

(** C36. *)
Theorem C36_tokens_contiguous : forall r ct s k,
  usable r ct ->
  returns (tokenizer r ct s k) (fun l => length l = k
    /\ (forall t, nth_error l 0 = Some t -> matched t = true -> exists e, group0 (groups t) = Some (0, e))
    /\ (forall i t u, nth_error l i = Some t -> nth_error l (S i) = Some u -> matched u = true ->
          exists x y z, group0 (groups t) = Some (x, y) /\ group0 (groups u) = Some (y, z))
    /\ exists e, e <= length s
         /\ concat (map (fun t => cell_content s (group0 (groups t))) (filter matched l)) = firstn e s).
Proof. exact tokens_contiguous. Qed.
Print Assumptions C36_tokens_contiguous.

Theorem C36_tokens_preferred : forall r ct s k,
  usable r ct -> regular (ast r) = true ->
  let cf := config_of (flags r) ct in
  returns (tokenizer r ct s k) (fun l => forall i t, nth_error l i = Some t -> matched t = true ->
    exists b e, group0 (groups t) = Some (b, e) /\ preferred cf s (ast r) b = Some e).
Proof. exact tokens_preferred. Qed.
Print Assumptions C36_tokens_preferred.

(** [tokenize()] and [find_all()] are the generators cut at the first failure. *)
Theorem C36_ranges_cut_generators : forall r ct s,
  (forall l, tokenize r ct s = Returned l ->
     Forall (fun x => matched x = true) l
     /\ exists x, matched x = false /\ tokenizer r ct s (S (length l)) = Returned (l ++ [x]))
  /\ (forall l, find_all r ct s = Returned l ->
     Forall (fun x => matched x = true) l
     /\ exists x, matched x = false /\ searcher r ct s (S (length l)) = Returned (l ++ [x])).
Proof. exact range_cuts_generator. Qed.
Print Assumptions C36_ranges_cut_generators.

Example C36_example :
  let r := rx "[a-z]+|[0-9]" [] in
  usable r RandomAccessIt /\ regular (ast r) = true
  /\ exists l, tokenizer r RandomAccessIt (str "ab12!c") 5 = Returned l
       /\ map (fun t => (matched t, group0 (groups t))) l
          = [(true, Some (0, 2)); (true, Some (2, 3)); (true, Some (3, 4)); (false, Some (4, 4)); (false, None)].
Proof.
  split; [show_usable|]. split; [reflexivity|]. eexists. split; vm_compute; reflexivity.
Qed.

(** For every regex, backreferences included, [tokenize()] yields exactly the
    chain of matches that [match_prefix] finds ([prefix_from … i]: its answer at
    offset [i]): each at the end of the one before, up to the first failure or
    the first empty match. *)
Theorem C36_tokenize_exact : forall r ct s,
  usable r ct ->
  returns (tokenize r ct s) (fun l =>
    Forall (fun x => matched x = true) l
    /\ exists bounds, map (fun x => group0 (groups x)) l = map Some bounds
         /\ adjacent_scan (prefix_from (config_of (flags r) ct) (ast r) s) (length s) 0 bounds).
Proof. exact tokenize_scan. Qed.
Print Assumptions C36_tokenize_exact.

Example C36_exact_example :
  let r := rx "(a|b)\1|c*" [] in
  usable r RandomAccessIt
  /\ exists l, tokenize r RandomAccessIt (str "aabbccab") = Returned l
       /\ map (fun t => group0 (groups t)) l = map Some [(0, 2); (2, 4); (4, 6); (6, 6)].
Proof. split; [show_usable|]. eexists. split; vm_compute; reflexivity. Qed.

(** C37. *)
Theorem C37_searcher_ordered : forall r ct s k,
  usable r ct ->
  returns (searcher r ct s k) (fun l =>
    (forall i j a b, nth_error l i = Some a -> nth_error l j = Some b -> i < j -> matched b = true ->
       matched a = true /\ exists x y z t, group0 (groups a) = Some (x, y)
         /\ group0 (groups b) = Some (z, t) /\ x < y <= z /\ z <= t <= length s)
    /\ length (filter matched l) <= S (length s)).
Proof. exact searcher_ordered. Qed.
Print Assumptions C37_searcher_ordered.

Example C37_example :
  let r := rx "b*" [] in
  usable r ForwardIt
  /\ exists l, searcher r ForwardIt (str "bbab") 3 = Returned l
       /\ map (fun t => (matched t, group0 (groups t))) l
          = [(true, Some (0, 2)); (true, Some (2, 2)); (false, None)].
Proof. split; [show_usable|]. eexists. split; vm_compute; reflexivity. Qed.

(** C38.  Where no match is empty. *)
Theorem C38_find_all_complete_partial : forall r ct s,
  usable r ct -> regular (ast r) = true ->
  let cf := config_of (flags r) ct in
  (forall i, i <= length s -> preferred cf s (ast r) i <> Some i) ->
  returns (find_all r ct s) (fun l =>
    (forall x, In x l -> matched x = true /\ exists b e, group0 (groups x) = Some (b, e)
       /\ b < e /\ preferred cf s (ast r) b = Some e)
    /\ (forall i, i <= length s -> preferred cf s (ast r) i <> None ->
          exists x b e, In x l /\ group0 (groups x) = Some (b, e) /\ b <= i < e)).
Proof. exact find_all_complete. Qed.
Print Assumptions C38_find_all_complete_partial.

Example C38_example :
  let r := rx "ab?" [] in
  usable r RandomAccessIt /\ regular (ast r) = true
  /\ (forall i, i <= 5 -> preferred (config_of [] RandomAccessIt) (str "abcaa") (ast r) i <> Some i)
  /\ exists l, find_all r RandomAccessIt (str "abcaa") = Returned l
       /\ map (fun t => group0 (groups t)) l = [Some (0, 2); Some (3, 4); Some (4, 5)].
Proof.
  split; [show_usable|]. split; [reflexivity|]. split.
  - intros i Hi. do 6 (destruct i as [|i]; [vm_compute; discriminate|]). lia.
  - eexists. split; vm_compute; reflexivity.
Qed.

(** The same for every regex without backreferences. *)
Theorem C38_find_all_covers_partial : forall r ct s,
  usable r ct -> backref_free (ast r) = true ->
  let from := prefix_from (config_of (flags r) ct) (ast r) s in
  (forall i, i <= length s -> from i <> Some (Some i)) ->
  returns (find_all r ct s) (fun l =>
    (forall x, In x l -> matched x = true /\ exists b e, group0 (groups x) = Some (b, e)
       /\ from b = Some (Some e))
    /\ (forall i e, i <= length s -> from i = Some (Some e) ->
          exists x b f, In x l /\ group0 (groups x) = Some (b, f) /\ b <= i < f)).
Proof. exact find_all_covers. Qed.
Print Assumptions C38_find_all_covers_partial.

(** What [find_all()] yields in all cases: the leftmost matches one after the
    other, up to and including the first empty one. *)
Theorem C38_find_all_exact : forall r ct s,
  usable r ct -> backref_free (ast r) = true ->
  returns (find_all r ct s) (fun l =>
    Forall (fun x => matched x = true) l
    /\ exists bounds, map (fun x => group0 (groups x)) l = map Some bounds
         /\ leftmost_scan (prefix_from (config_of (flags r) ct) (ast r) s) (length s) 0 bounds).
Proof. exact find_all_scan. Qed.
Print Assumptions C38_find_all_exact.

Example C38_exact_example :
  let r := rx "^.|(?=c)" [] in
  usable r RandomAccessIt /\ backref_free (ast r) = true
  /\ (exists l, find_all r RandomAccessIt (str "abcd") = Returned l
       /\ map (fun t => group0 (groups t)) l = map Some [(0, 1); (2, 2)])
  /\ let q := rx "(?<=a)b++|c" [] in
     usable q RandomAccessIt /\ backref_free (ast q) = true
     /\ forall i, i <= 4 -> prefix_from (config_of [] RandomAccessIt) (ast q) (str "abbc") i <> Some (Some i).
Proof.
  split; [show_usable|]. split; [reflexivity|]. split.
  - eexists. split; vm_compute; reflexivity.
  - split; [show_usable|]. split; [reflexivity|].
    intros i Hi. do 5 (destruct i as [|i]; [vm_compute; discriminate|]). lia.
Qed.

(** The full claim is false (finding F10): an empty match is yielded and ends
    the iteration, although a non-empty match follows. *)
Theorem C38_find_all_refuted : exists r s l,
  usable r RandomAccessIt /\ regular (ast r) = true
  /\ find_all r RandomAccessIt s = Returned l
  /\ (exists x, In x l /\ result_length x = 0)
  /\ (exists i e, preferred (config_of (flags r) RandomAccessIt) s (ast r) i = Some e /\ i < e
        /\ forall x b e', In x l -> group0 (groups x) = Some (b, e') -> ~ b <= i < e').
Proof.
  exists (rx "a*" []), (str "baaa"). eexists.
  split; [show_usable|]. split; [reflexivity|]. split; [vm_compute; reflexivity|]. split.
  - eexists. split; [left; reflexivity|reflexivity].
  - exists 1, 4. split; [reflexivity|]. split; [lia|]. intros x b e' [<-|[]] [= <- <-]. lia.
Qed.
Print Assumptions C38_find_all_refuted.

(** C39. *)
Theorem C39_exhausted_stays : forall r ct s k,
  usable r ct ->
  let stays l := forall i j a b, nth_error l i = Some a -> nth_error l j = Some b -> i < j ->
    matched a = false \/ result_length a = 0 ->
    matched b = false /\ Forall (eq None) (groups b) in
  returns (tokenizer r ct s k) stays /\ returns (searcher r ct s k) stays.
Proof. exact exhausted_stays. Qed.
Print Assumptions C39_exhausted_stays.

Example C39_example :
  let r := rx "(a)|b*" [] in
  usable r RandomAccessIt
  /\ exists l, searcher r RandomAccessIt (str "aca") 4 = Returned l
       /\ map (fun t => (matched t, groups t)) l
          = [(true, [Some (0, 1); Some (0, 1)]); (true, [Some (1, 1); None]);
             (false, [None; None]); (false, [None; None])].
Proof. split; [show_usable|]. eexists. split; vm_compute; reflexivity. Qed.

(** C40. *)
Theorem C40_owned_text : forall s r i b e,
  Forall (valid_range s) (groups r) -> group r i = Some (Some (b, e)) ->
  exists t, nth_error (owned_groups (as_memory_owner s r)) i = Some t
    /\ length t = e - b
    /\ forall j, j < e - b -> nth_error t j = nth_error s (b + j).
Proof. exact owned_text. Qed.
Print Assumptions C40_owned_text.

Theorem C40_group_by_name : forall n r nm v,
  length (groups r) = length (group_names n) ->
  (group_named n r nm = Some v <->
   exists i, nth_error (group_names n) i = Some (Some nm)
     /\ (forall j, nth_error (group_names n) j = Some (Some nm) -> j = i)
     /\ group r i = Some v).
Proof. exact group_by_name. Qed.
Print Assumptions C40_group_by_name.

Theorem C40_verdict_kept : forall s r,
  owned_matched (as_memory_owner s r) = matched r
  /\ length (owned_groups (as_memory_owner s r)) = group_count r
  /\ (forall r', as_optional r = Some r' <-> matched r = true /\ r' = r).
Proof. exact verdict_kept. Qed.
Print Assumptions C40_verdict_kept.

Example C40_example :
  let r := rx "(?<year>[0-9]+)-(x)?" [] in
  let s := str "19-" in
  exists res, regex_match r RandomAccessIt s = Returned res
    /\ Forall (valid_range s) (groups res)
    /\ length (groups res) = length (group_names (ast r))
    /\ group res 1 = Some (Some (0, 2)) /\ group_named (ast r) res (str "year") = Some (Some (0, 2))
    /\ nth_error (owned_groups (as_memory_owner s res)) 1 = Some (str "19").
Proof.
  eexists. split; [vm_compute; reflexivity|]. split; [|vm_compute; auto 6].
  repeat constructor.
Qed.

(** C41.  False of the code (finding F11): the conversion says the opposite, for
    views and for owned captures. *)
Theorem C41_capture_bool_refuted : exists s v,
  valid_range s v /\ cell_content s v <> [] /\ cell_to_bool v = false.
Proof. exists (str "a"), (Some (0, 1)). repeat split; vm_compute; auto; discriminate. Qed.
Print Assumptions C41_capture_bool_refuted.

Theorem C41_capture_bool_means_empty : forall s v,
  valid_range s v ->
  (cell_to_bool v = true <-> cell_content s v = [])
  /\ owned_to_bool (cell_content s v) = cell_to_bool v.
Proof. exact capture_bool_is_empty. Qed.
Print Assumptions C41_capture_bool_means_empty.

Example C41_example : valid_range (str "abc") (Some (1, 3)) /\ cell_content (str "abc") (Some (1, 3)) = str "bc".
Proof. split; [cbn; lia|reflexivity]. Qed.

(** C42. *)
Theorem C42_flags_are_a_set : forall n fl1 fl2 ct s,
  (forall f, In f fl1 <-> In f fl2) ->
  same_calls (mk_regex n fl1) (mk_regex n fl2) ct s s.
Proof. exact flags_are_a_set. Qed.
Print Assumptions C42_flags_are_a_set.

Theorem C42_adding_flags : forall r extra1 extra2 ct s,
  (forall f, In f (flags r) \/ In f extra1 <-> In f extra2) ->
  same_calls (add_flags r extra1) (mk_regex (ast r) extra2) ct s s.
Proof. exact adding_flags. Qed.
Print Assumptions C42_adding_flags.

Example C42_example :
  (forall f, In f [F_icase; F_dotall; F_icase] <-> In f [F_dotall; F_icase])
  /\ regex_match (mk_regex (Lit "a") [F_icase; F_dotall; F_icase]) RandomAccessIt (str "A")
     <> regex_match (mk_regex (Lit "a") []) RandomAccessIt (str "A").
Proof. split; [intros f; cbn; intuition|vm_compute; discriminate]. Qed.
