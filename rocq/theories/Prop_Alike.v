(** Property C79: characters matter only through the classes of the pattern.  Each
    theorem is followed by its assumptions and by a concrete instance. *)
From Verif Require Import Matcher Api Spec Calls Lift Examples Alike.

(** C79.  [tells_apart cf n a b] (Alike.v): some class of the pattern accepts one of
    the two characters only, or an anchor treats them differently.  If no test tells
    two texts apart, place by place, and, for patterns with references, the same
    places of both texts hold equal characters, then all seven calls return the same
    results for both: the same verdicts, places and groups, the same compile errors. *)
Theorem C79_only_classes_matter : forall r ct s1 s2,
  alike (config_of (flags r) ct) (ast r) s1 s2 ->
  backref_free (ast r) = true \/ same_repeats (config_of (flags r) ct) s1 s2 ->
  regex_match r ct s1 = regex_match r ct s2
  /\ regex_match_prefix r ct s1 = regex_match_prefix r ct s2
  /\ regex_search r ct s1 = regex_search r ct s2
  /\ tokenize r ct s1 = tokenize r ct s2
  /\ find_all r ct s1 = find_all r ct s2
  /\ (forall k, tokenizer r ct s1 k = tokenizer r ct s2 k)
  /\ (forall k, searcher r ct s1 k = searcher r ct s2 k).
Proof. exact alike_calls. Qed.
Print Assumptions C79_only_classes_matter.

(** A name that is repeated and followed by a digit, with other letters and another
    digit. *)
Example C79_only_classes_matter_example :
  let r := rx "\b([a-z]+)=\1(?= \d)" [] in
  let cf := config_of (flags r) BidirectionalIt in
  let s1 := str "ab=ab 7" in
  let s2 := str "qz=qz 4" in
  alike cf (ast r) s1 s2 /\ same_repeats cf s1 s2
  /\ regex_search r BidirectionalIt s1 = Returned (mk_res [Some (0, 5); Some (0, 2)] true)
  /\ regex_search r BidirectionalIt s2 = Returned (mk_res [Some (0, 5); Some (0, 2)] true)
  /\ ~ alike cf (ast r) s1 (str "ab=ab b") /\ ~ alike cf (ast r) s1 (str "7b=7b 7")
  /\ ~ same_repeats cf s1 (str "qz=qq 4") /\ ~ same_repeats cf s1 (str "qq=qq 4").
Proof.
  assert (Hall : forall cf n u v,
    forallb (fun p => negb (tells_apart cf n (fst p) (snd p))) (combine u v) = true ->
    length u = length v -> alike cf n u v).
  { intros cf n u. induction u as [|a u IH]; intros [|b v] H L; try discriminate; constructor.
    - cbn in H. destruct (tells_apart cf n a b); [discriminate|reflexivity].
    - apply IH; [|now injection L]. cbn in H. apply andb_prop in H. apply H. }
  assert (Hnot : forall cf n u v,
    forallb (fun p => negb (tells_apart cf n (fst p) (snd p))) (combine u v) = false ->
    ~ alike cf n u v).
  { intros cf n u v H A. induction A as [|a b u v Hab A IH]; [discriminate|].
    cbn in H. rewrite Hab in H. auto. }
  split; [apply Hall; vm_compute; reflexivity|].
  split.
  { intros i j a a' b b' H1 H2 H3 H4.
    assert (N : forall x y : ascii,
      equal_chars (config_of [] BidirectionalIt) x y <-> x = y).
    { intros x y. split; [intros [E|[E _]]; [exact E|discriminate]|now left]. }
    change (flags _) with (@nil regex_flag). rewrite !N.
    destruct i as [|[|[|[|[|[|[|i]]]]]]]; cbn in H1, H2; try (destruct i; discriminate);
      injection H1 as <-; injection H2 as <-;
      (destruct j as [|[|[|[|[|[|[|j]]]]]]]; cbn in H3, H4; try (destruct j; discriminate);
       injection H3 as <-; injection H4 as <-);
      split; intros; congruence. }
  do 2 (split; [vm_compute; reflexivity|]).
  do 2 (split; [apply Hnot; vm_compute; reflexivity|]).
  split; intros H.
  - destruct (H 1 4 _ _ _ _ eq_refl eq_refl eq_refl eq_refl) as [H' _].
    destruct (H' (or_introl eq_refl)) as [E|[E _]]; discriminate.
  - destruct (H 0 1 _ _ _ _ eq_refl eq_refl eq_refl eq_refl) as [_ H'].
    destruct (H' (or_introl eq_refl)) as [E|[E _]]; discriminate.
Qed.

(** Rewriting a text character by character, so that no character changes its
    classes (and, with references, equal characters stay equal and others stay
    different), changes no result. *)
Theorem C79_recoded : forall r ct h s,
  (forall a, In a s -> tells_apart (config_of (flags r) ct) (ast r) a (h a) = false) ->
  backref_free (ast r) = true
  \/ (forall a b, In a s -> In b s ->
        (equal_chars (config_of (flags r) ct) a b
         <-> equal_chars (config_of (flags r) ct) (h a) (h b))) ->
  regex_match r ct s = regex_match r ct (map h s)
  /\ regex_match_prefix r ct s = regex_match_prefix r ct (map h s)
  /\ regex_search r ct s = regex_search r ct (map h s)
  /\ tokenize r ct s = tokenize r ct (map h s)
  /\ find_all r ct s = find_all r ct (map h s)
  /\ (forall k, tokenizer r ct s k = tokenizer r ct (map h s) k)
  /\ (forall k, searcher r ct s k = searcher r ct (map h s) k).
Proof. exact recoded_calls. Qed.
Print Assumptions C79_recoded.

(** Every digit masked by 0, every other character kept. *)
Example C79_recoded_example :
  let r := rx "(?:\+\d+ )?(\d{3})[ -](\d+)" [] in
  let mask c := if Chars.is_digit c then "0"%char else c in
  let s := str "call +44 207-9460 now" in
  (forall a, In a s ->
     tells_apart (config_of (flags r) RandomAccessIt) (ast r) a (mask a) = false)
  /\ map mask s = str "call +00 000-0000 now"
  /\ regex_search r RandomAccessIt s
     = Returned (mk_res [Some (5, 17); Some (9, 12); Some (13, 17)] true).
Proof.
  split; [|split; vm_compute; reflexivity].
  intros a Ha. cbv [str String.list_ascii_of_string] in Ha.
  repeat (destruct Ha as [<-|Ha]; [vm_compute; reflexivity|]). destruct Ha.
Qed.

(** Each of the conditions is needed: a class that tells two characters apart, a line
    break for a line anchor, a word character for a word boundary, a repetition for a
    reference; and a class inside a lookaround counts like any other. *)
Theorem C79_conditions_needed :
  (exists r ct s1 s2, usable r ct /\ length s1 = length s2 /\ backref_free (ast r) = true
     /\ regex_match r ct s1 <> regex_match r ct s2)
  /\ (exists r ct a b, usable r ct /\ accepts (config_of (flags r) ct) Wild a = true
      /\ is_newline a <> is_newline b
      /\ regex_search r ct [a; "x"%char] <> regex_search r ct [b; "x"%char])
  /\ (exists r ct a b, usable r ct /\ is_word_char a <> is_word_char b
      /\ regex_search r ct ["x"%char; a] <> regex_search r ct ["x"%char; b])
  /\ (exists r ct s1 s2, usable r ct /\ alike (config_of (flags r) ct) (ast r) s1 s2
      /\ regex_match r ct s1 <> regex_match r ct s2).
Proof.
  split; [|split; [|split]].
  - exists (rx "a(?=[b-d])." []), RandomAccessIt, (str "ab"), (str "ae").
    split; [show_usable|]. do 2 (split; [vm_compute; reflexivity|]).
    vm_compute. discriminate.
  - exists (rx "^x" [F_multiline]), RandomAccessIt, "y"%char, "010"%char.
    split; [show_usable|]. split; [vm_compute; reflexivity|].
    split; vm_compute; discriminate.
  - exists (rx "x\b" []), RandomAccessIt, "y"%char, "-"%char.
    split; [show_usable|]. split; vm_compute; discriminate.
  - exists (rx "(\w)\1" []), RandomAccessIt, (str "aa"), (str "ab").
    split; [show_usable|]. split; [|vm_compute; discriminate].
    unfold alike. repeat constructor; vm_compute; reflexivity.
Qed.
Print Assumptions C79_conditions_needed.
