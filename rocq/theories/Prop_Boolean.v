(** Property C84: a lookahead in front of a pattern intersects its words with those of
    another pattern, or removes them.  Each theorem is followed by its assumptions and
    by a concrete instance. *)
From Verif Require Import Matcher Api Parser Spec Calls Syntax Examples Boolean Contained.
From Coq Require Import Lia.

(** C84.  [p] and [q] are the texts of accepted patterns without backreferences;
    assertions, lookarounds and possessive parts are allowed.  [is_word r ct w]: the
    call of [match] with [w] returns a match.  "(?=(?:p)\Z)(?:q)" matches the texts
    that both match.  The composed pattern has no backreferences either, so that the
    theorem can be applied to it again. *)
Theorem C84_intersection : forall fl ct p q n m, parse p = P_ok n -> parse q = P_ok m ->
  usable (mk_regex n fl) ct -> backref_free n = true ->
  usable (mk_regex m fl) ct -> backref_free m = true ->
  exists a, parse (str "(?=(?:" ++ p ++ str ")\Z)(?:" ++ q ++ str ")") = P_ok a /\ backref_free a = true
    /\ (usable (mk_regex a fl) ct -> forall w,
         is_word (mk_regex a fl) ct w <-> is_word (mk_regex n fl) ct w /\ is_word (mk_regex m fl) ct w)
    /\ (capture_count n = 0 -> capture_count m = 0 -> usable (mk_regex a fl) ct /\ capture_count a = 0).
Proof. exact common_words. Qed.
Print Assumptions C84_intersection.

(** "(?!(?:p)\Z)(?:q)" matches the texts that [q] matches and [p] does not. *)
Theorem C84_difference : forall fl ct p q n m, parse p = P_ok n -> parse q = P_ok m ->
  usable (mk_regex n fl) ct -> backref_free n = true ->
  usable (mk_regex m fl) ct -> backref_free m = true ->
  exists a, parse (str "(?!(?:" ++ p ++ str ")\Z)(?:" ++ q ++ str ")") = P_ok a /\ backref_free a = true
    /\ (usable (mk_regex a fl) ct -> forall w,
         is_word (mk_regex a fl) ct w <-> ~ is_word (mk_regex n fl) ct w /\ is_word (mk_regex m fl) ct w)
    /\ (capture_count n = 0 -> capture_count m = 0 -> usable (mk_regex a fl) ct /\ capture_count a = 0).
Proof. exact remaining_words. Qed.
Print Assumptions C84_difference.

(** The hypotheses for two patterns with groups, alternatives, a possessive loop and
    assertions, and texts of every kind. *)
Example C84_example :
  let p := str "^(a|b++c)*$" in let q := str "(?!.*bcbc)(?<n>\w{2,3})+?" in
  exists n m a b, parse p = P_ok n /\ parse q = P_ok m
    /\ usable (mk_regex n [F_icase]) ForwardIt /\ backref_free n = true
    /\ usable (mk_regex m [F_icase]) ForwardIt /\ backref_free m = true
    /\ parse (str "(?=(?:" ++ p ++ str ")\Z)(?:" ++ q ++ str ")") = P_ok a /\ usable (mk_regex a [F_icase]) ForwardIt
    /\ parse (str "(?!(?:" ++ p ++ str ")\Z)(?:" ++ q ++ str ")") = P_ok b /\ usable (mk_regex b [F_icase]) ForwardIt
    /\ is_word (mk_regex a [F_icase]) ForwardIt (str "aBBcA")
    /\ is_word (mk_regex b [F_icase]) ForwardIt (str "abb")
    /\ ~ is_word (mk_regex a [F_icase]) ForwardIt (str "abcbc")
    /\ ~ is_word (mk_regex b [F_icase]) ForwardIt (str "abcbc").
Proof.
  intros p q. do 4 eexists.
  split; [vm_compute; reflexivity|]. split; [vm_compute; reflexivity|].
  split; [show_usable|]. split; [vm_compute; reflexivity|].
  split; [show_usable|]. split; [vm_compute; reflexivity|].
  split; [vm_compute; reflexivity|]. split; [show_usable|].
  split; [vm_compute; reflexivity|]. split; [show_usable|].
  split; [eexists; split; vm_compute; reflexivity|].
  split; [eexists; split; vm_compute; reflexivity|].
  split; intros (x & E & M); vm_compute in E; injection E as <-; discriminate M.
Qed.

(** Without captures nothing has to be assumed about the composed pattern. *)
Example C84_usable_example :
  exists n m, parse (str "\bx\B.*+") = P_ok n /\ parse (str "(?<=^)\w+") = P_ok m
    /\ usable (mk_regex n [F_multiline]) BidirectionalIt /\ backref_free n = true /\ capture_count n = 0
    /\ usable (mk_regex m [F_multiline]) BidirectionalIt /\ backref_free m = true /\ capture_count m = 0.
Proof.
  do 2 eexists.
  split; [vm_compute; reflexivity|]. split; [vm_compute; reflexivity|].
  split; [show_usable|]. split; [reflexivity|]. split; [reflexivity|].
  split; [show_usable|]. split; [reflexivity|]. reflexivity.
Qed.

(** Backreferences have to be excluded: in the composed pattern the groups of [p] come
    first, and the backreference of [q] refers to one of them. *)
Theorem C84_condition_needed : exists p q n m a w,
  parse p = P_ok n /\ parse q = P_ok m
  /\ parse (str "(?=(?:" ++ p ++ str ")\Z)(?:" ++ q ++ str ")") = P_ok a
  /\ usable (mk_regex n []) RandomAccessIt /\ backref_free n = true
  /\ usable (mk_regex m []) RandomAccessIt /\ usable (mk_regex a []) RandomAccessIt
  /\ is_word (mk_regex n []) RandomAccessIt w /\ is_word (mk_regex m []) RandomAccessIt w
  /\ ~ is_word (mk_regex a []) RandomAccessIt w.
Proof.
  exists (str "(a)bb"), (str ".(b)\1"). do 3 eexists. exists (str "abb").
  split; [vm_compute; reflexivity|]. split; [vm_compute; reflexivity|]. split; [vm_compute; reflexivity|].
  split; [show_usable|]. split; [reflexivity|]. split; [show_usable|]. split; [show_usable|].
  split; [eexists; split; vm_compute; reflexivity|].
  split; [eexists; split; vm_compute; reflexivity|].
  intros (x & E & M); vm_compute in E; injection E as <-; discriminate M.
Qed.
Print Assumptions C84_condition_needed.
