(** Property C78: a text is searched piece by piece.  Each theorem is followed by
    its assumptions and by a concrete instance. *)
From Verif Require Import Matcher Api Spec Calls Lift Examples Records.

(** C78.  [stays_between cf sep n] (Records.v): no part of the pattern reads [sep],
    and what it asks about places treats [sep] like the border of the text.
    [finds r ct s l]: the matches that [find_all()] lists.  [joined]: the pieces with
    [sep] between them; [in_turn 0]: the matches of the pieces one after the other, at
    their places in the text.  As [find_all()] stops at an empty match, so does the
    list for the text. *)
Theorem C78_pieces : forall r ct sep, usable r ct ->
  stays_between (config_of (flags r) ct) sep (ast r) = true ->
  forall pieces x, exists found, Forall2 (finds r ct) (x :: pieces) found
    /\ finds r ct (joined sep x pieces) (up_to_empty (in_turn 0 (x :: pieces) found)).
Proof. exact finds_pieces. Qed.
Print Assumptions C78_pieces.

(** Without empty matches the results for the text are those for the pieces. *)
Theorem C78_all_pieces : forall r ct sep, usable r ct ->
  stays_between (config_of (flags r) ct) sep (ast r) = true ->
  forall x pieces found, Forall2 (finds r ct) (x :: pieces) found ->
  Forall (Forall (fun p => fst p <> snd p)) found ->
  finds r ct (joined sep x pieces) (in_turn 0 (x :: pieces) found).
Proof. exact finds_pieces_all. Qed.
Print Assumptions C78_all_pieces.

(** Whole lines that consist of words, and words at the end of a line: the lines
    of a text are searched one by one. *)
Example C78_pieces_example :
  let r := rx "^(?:\w+ ?)+$|\b[^\s,]+(?<!e)$" [F_multiline] in
  let lines := [str "one two"; str "a, be"; str ""; str "c, do"] in
  usable r BidirectionalIt
  /\ stays_between (config_of (flags r) BidirectionalIt) "010" (ast r) = true
  /\ joined "010" (hd [] lines) (tl lines) = str "one two
a, be

c, do"
  /\ Forall2 (finds r BidirectionalIt) lines [[(0, 7)]; []; []; [(3, 5)]]
  /\ finds r BidirectionalIt (joined "010" (hd [] lines) (tl lines)) [(0, 7); (18, 20)].
Proof.
  split; [show_usable|]. split; [vm_compute; reflexivity|]. split; [reflexivity|]. split.
  - repeat apply Forall2_cons; try apply Forall2_nil;
      (eexists; split; [vm_compute; reflexivity|]); (split; [repeat constructor|reflexivity]).
  - eexists. split; [vm_compute; reflexivity|]. split; [repeat constructor|reflexivity].
Qed.

(** An empty match ends the list, whatever the later pieces contain. *)
Example C78_empty_example :
  let r := rx "a*$" [F_multiline] in
  usable r RandomAccessIt
  /\ stays_between (config_of (flags r) RandomAccessIt) "010" (ast r) = true
  /\ Forall2 (finds r RandomAccessIt) [str "ba"; str "b"; str "a"] [[(1, 2); (2, 2)]; [(1, 1)]; [(0, 1); (1, 1)]]
  /\ finds r RandomAccessIt (str "ba
b
a") [(1, 2); (2, 2)].
Proof.
  split; [show_usable|]. split; [vm_compute; reflexivity|]. split.
  - repeat apply Forall2_cons; try apply Forall2_nil;
      (eexists; split; [vm_compute; reflexivity|]); (split; [repeat constructor|reflexivity]).
  - eexists. split; [vm_compute; reflexivity|]. split; [repeat constructor|reflexivity].
Qed.

(** A search finds what it finds in the first piece that has a match. *)
Theorem C78_search : forall r ct sep x y, usable r ct ->
  stays_between (config_of (flags r) ct) sep (ast r) = true ->
  exists a b c, regex_search r ct x = Returned a /\ regex_search r ct y = Returned b
    /\ regex_search r ct (x ++ sep :: y) = Returned c
    /\ matched c = (matched a || matched b)%bool
    /\ (matched a = true -> group0 (groups c) = group0 (groups a))
    /\ (matched a = false -> matched b = true -> exists i e, group0 (groups b) = Some (i, e)
          /\ group0 (groups c) = Some (S (length x) + i, S (length x) + e)).
Proof. exact search_pieces. Qed.
Print Assumptions C78_search.

Example C78_search_example :
  let r := rx "(\d+)-(\d+)(?!\d|x)" [] in
  usable r RandomAccessIt
  /\ stays_between (config_of (flags r) RandomAccessIt) ";" (ast r) = true
  /\ (exists a, regex_search r RandomAccessIt (str "12-3x") = Returned a /\ matched a = false)
  /\ (exists b, regex_search r RandomAccessIt (str "n 7-15") = Returned b /\ group0 (groups b) = Some (2, 6))
  /\ (exists c, regex_search r RandomAccessIt (str "12-3x;n 7-15") = Returned c /\ group0 (groups c) = Some (8, 12)).
Proof.
  split; [show_usable|]. split; [vm_compute; reflexivity|].
  repeat split; eexists; (split; [vm_compute; reflexivity|reflexivity]).
Qed.

(** The conditions matter: a class that accepts the separator, [$] without the flag
    [multiline], [\b] at a separator that is a word character, [\A]. *)
Theorem C78_conditions_needed : Forall (fun q =>
    let '(p, sep, x, y) := q in
    let r := rx p [] in
    usable r RandomAccessIt
    /\ stays_between (config_of [] RandomAccessIt) sep (ast r) = false
    /\ exists a b c, regex_search r RandomAccessIt (str x) = Returned a /\ regex_search r RandomAccessIt (str y) = Returned b
         /\ regex_search r RandomAccessIt (str x ++ sep :: str y) = Returned c
         /\ matched c <> (matched a || matched b)%bool)
  [("a\s*b"%string, "010"%char, "a"%string, "b"%string);
   ("a$"%string, "010"%char, "a"%string, "b"%string);
   ("\ba"%string, "_"%char, "b"%string, "a"%string);
   ("\Aa"%string, "010"%char, "b"%string, "a"%string)].
Proof.
  repeat apply Forall_cons; try apply Forall_nil; (split; [show_usable|]); (split; [vm_compute; reflexivity|]);
    do 3 eexists; (split; [vm_compute; reflexivity|]); (split; [vm_compute; reflexivity|]);
    (split; [vm_compute; reflexivity|]); discriminate.
Qed.
Print Assumptions C78_conditions_needed.
