(** Property C86: what is found in the first part of a text.  Each theorem is
    followed by its assumptions and by a concrete instance. *)
From Verif Require Import Matcher Api Spec Calls Lift Examples Appended.

(** C86.  [open_ended]: nothing looks at what comes behind a match and no decision
    is final (no [$], [\Z], [\b], lookahead, atomic group, possessive repetition
    or backreference).  A text that is matched is still matched as a prefix when
    text is appended. *)
Theorem C86_match : forall r ct s t, usable r ct -> open_ended (ast r) = true ->
  exists a b, regex_match r ct s = Returned a /\ regex_match_prefix r ct (s ++ t) = Returned b
    /\ (matched a = true -> matched b = true).
Proof. exact match_appended. Qed.
Print Assumptions C86_match.

(** A prefix match is not lost; one that ends in the first part is found there. *)
Theorem C86_match_prefix : forall r ct s t, usable r ct -> open_ended (ast r) = true ->
  exists a b, regex_match_prefix r ct s = Returned a
    /\ regex_match_prefix r ct (s ++ t) = Returned b
    /\ (matched a = true -> matched b = true)
    /\ (forall e, matched b = true -> group0 (groups b) = Some (0, e) -> e <= length s ->
        matched a = true /\ group0 (groups a) = Some (0, e)).
Proof. exact prefix_appended. Qed.
Print Assumptions C86_match_prefix.

Theorem C86_search : forall r ct s t, usable r ct -> open_ended (ast r) = true ->
  exists a b, regex_search r ct s = Returned a
    /\ regex_search r ct (s ++ t) = Returned b
    /\ (matched a = true -> matched b = true
        /\ exists i e i' e', group0 (groups a) = Some (i, e) /\ group0 (groups b) = Some (i', e') /\ i' <= i)
    /\ (forall i e, matched b = true -> group0 (groups b) = Some (i, e) -> e <= length s ->
        matched a = true /\ group0 (groups a) = Some (i, e)).
Proof. exact search_appended. Qed.
Print Assumptions C86_search.

(** The results for the first part begin with those for the whole text that end in
    the first part. *)
Theorem C86_tokenize : forall r ct s t, usable r ct -> open_ended (ast r) = true ->
  exists k l bs bs', tokenize r ct s = Returned k /\ tokenize r ct (s ++ t) = Returned l
    /\ map (fun x => group0 (groups x)) k = map Some bs /\ map (fun x => group0 (groups x)) l = map Some bs'
    /\ exists rest, bs = filter (fun be => Nat.leb (snd be) (length s)) bs' ++ rest.
Proof. exact tokens_appended. Qed.
Print Assumptions C86_tokenize.

Theorem C86_find_all : forall r ct s t, usable r ct -> open_ended (ast r) = true ->
  exists k l bs bs', find_all r ct s = Returned k /\ find_all r ct (s ++ t) = Returned l
    /\ map (fun x => group0 (groups x)) k = map Some bs /\ map (fun x => group0 (groups x)) l = map Some bs'
    /\ exists rest, bs = filter (fun be => Nat.leb (snd be) (length s)) bs' ++ rest.
Proof. exact found_appended. Qed.
Print Assumptions C86_find_all.

(** Lazy and greedy loops, a group, [^] and lookbehinds.  In "x12 3" the number
    behind the blank is still incomplete. *)
Example C86_example :
  let r := rx "(?:^|(?<=\s|x))(\d+?)(?:\d*)(?<!0)" [] in
  usable r RandomAccessIt /\ open_ended (ast r) = true
  /\ (exists k, find_all r RandomAccessIt (str "x12 3") = Returned k
        /\ map (fun x => group0 (groups x)) k = map Some [(1, 3); (4, 5)])
  /\ (exists l, find_all r RandomAccessIt (str "x12 34 5") = Returned l
        /\ map (fun x => group0 (groups x)) l = map Some [(1, 3); (4, 6); (7, 8)]).
Proof.
  split; [show_usable|]. split; [vm_compute; reflexivity|].
  split; eexists; (split; vm_compute; reflexivity).
Qed.

(** The condition matters: a lookahead and [$] see what comes behind, and an atomic
    group commits itself to more than it would have had. *)
Theorem C86_condition_needed :
  (exists r ct s t a b, usable r ct
     /\ regex_match_prefix r ct s = Returned a /\ regex_match_prefix r ct (s ++ t) = Returned b
     /\ matched b = true /\ group0 (groups b) = Some (0, length s) /\ matched a = false)
  /\ (forall p, p = "a$"%string \/ p = "(?>abc|a)b"%string -> exists ct s t a b, usable (rx p []) ct
     /\ regex_match (rx p []) ct s = Returned a /\ regex_match_prefix (rx p []) ct (s ++ t) = Returned b
     /\ matched a = true /\ matched b = false).
Proof.
  split.
  - exists (rx "a(?=b)" []), RandomAccessIt, (str "a"), (str "b"). do 2 eexists.
    split; [show_usable|]. do 4 (split; [vm_compute; reflexivity|]). reflexivity.
  - intros p [->| ->].
    + exists RandomAccessIt, (str "a"), (str "b"). do 2 eexists.
      split; [show_usable|]. do 3 (split; [vm_compute; reflexivity|]). reflexivity.
    + exists RandomAccessIt, (str "ab"), (str "c"). do 2 eexists.
      split; [show_usable|]. do 3 (split; [vm_compute; reflexivity|]). reflexivity.
Qed.
Print Assumptions C86_condition_needed.
