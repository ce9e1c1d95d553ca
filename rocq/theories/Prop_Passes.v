(** The ranges of all matches are found in two passes with finite memory: C94. *)
From Verif Require Import Examples Spec Calls Passes.

(** C94.  [marked_in_two_passes]: for every offset of every text, the state of a machine
    that has read the text before the offset and the state of a machine that has read the
    text behind it backwards decide together whether a range of the results begins at the
    offset, and whether one ends there. *)
Theorem C94_two_passes : forall r ct,
  usable r ct -> backref_free (ast r) = true ->
  marked_in_two_passes (find_all r ct)
  /\ marked_in_two_passes (tokenize r ct)
  /\ marked_in_two_passes (fun s => found (regex_search r ct s)).
Proof.
  intros r ct Hu Hb.
  exact (conj (marking_two _ (find_all_marked r ct Hu Hb))
    (conj (marking_two _ (tokenize_marked r ct Hu Hb)) (marking_two _ (search_marked r ct Hu Hb)))).
Qed.
Print Assumptions C94_two_passes.

(** The marks for [find_all] in a text with two ranges. *)
Example C94_example :
  let r := rx "(?<=x)a+?(?=b|c++$)" [] in
  usable r BidirectionalIt /\ backref_free (ast r) = true
  /\ exists l, find_all r BidirectionalIt (str "xaabxacxaccd") = Returned l
       /\ begins_in l 1 /\ ends_in l 3 /\ ~ begins_in l 5 /\ ~ begins_in l 8.
Proof.
  split; [show_usable|]. split; [vm_compute; reflexivity|]. eexists.
  split; [vm_compute; reflexivity|].
  split; [do 2 eexists; split; [now left|vm_compute; reflexivity]|].
  split; [do 2 eexists; split; [now left|vm_compute; reflexivity]|].
  split; intros (x & j & [<-|[]] & H); vm_compute in H; discriminate.
Qed.

(** One pass is not enough: what is read before the offset does not tell.  Behind the same
    (empty) text there is a match in one text and none in the other. *)
Example C94_one_pass_example :
  let r := rx "a(?=[^]*b)" [] in
  usable r ForwardIt
  /\ (exists l, find_all r ForwardIt (str "acb") = Returned l /\ begins_in l 0)
  /\ (exists l, find_all r ForwardIt (str "acc") = Returned l /\ ~ begins_in l 0).
Proof.
  split; [show_usable|]. split.
  - eexists. split; [vm_compute; reflexivity|]. do 2 eexists. split; [now left|vm_compute; reflexivity].
  - eexists. split; [vm_compute; reflexivity|]. intros (x & j & [] & _).
Qed.
