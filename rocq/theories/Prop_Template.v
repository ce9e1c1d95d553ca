(** Property C75: the groups of a pattern that lists the fields of a text.  Each
    theorem is followed by its assumptions and by a concrete instance. *)
From Verif Require Import Matcher Api Parser Spec Calls Syntax Examples Contained Template Paths Sample.

(** C75.  [template ps]: pieces one behind the other, the fields among them in groups
    with the numbers 1, 2, ….  [simple_pieces]: without assertions, backreferences,
    possessive parts and groups inside a piece.  [divides cf ps w f] (Template.v): [w]
    is one text for every piece, [f] those of the fields.  [match] succeeds exactly on
    the texts that can be divided; the groups are the whole text and the fields of
    one division. *)
Theorem C75_match : forall ps fl ct, usable (mk_regex (template ps) fl) ct -> simple_pieces ps ->
  forall s, returns (regex_match (mk_regex (template ps) fl) ct s) (fun res =>
    let cf := config_of fl ct in
    (matched res = true <-> exists f, divides cf ps s f)
    /\ (matched res = true -> exists f, divides cf ps s f /\ map (cell_content s) (groups res) = s :: f)).
Proof. exact match_fields. Qed.
Print Assumptions C75_match.

(** [match_prefix]: the same of the beginning of the text. *)
Theorem C75_match_prefix : forall ps fl ct, usable (mk_regex (template ps) fl) ct -> simple_pieces ps ->
  forall s, returns (regex_match_prefix (mk_regex (template ps) fl) ct s) (fun res =>
    let cf := config_of fl ct in
    (matched res = true <-> exists u y f, s = u ++ y /\ divides cf ps u f)
    /\ (matched res = true -> exists u y f, s = u ++ y /\ divides cf ps u f
          /\ map (cell_content s) (groups res) = u :: f)).
Proof. exact prefix_fields. Qed.
Print Assumptions C75_match_prefix.

(** [search]: the same of the first place in the text where it is possible. *)
Theorem C75_search : forall ps fl ct, usable (mk_regex (template ps) fl) ct -> simple_pieces ps ->
  forall s, returns (regex_search (mk_regex (template ps) fl) ct s) (fun res =>
    let cf := config_of fl ct in
    (matched res = true <-> exists x u y f, s = x ++ u ++ y /\ divides cf ps u f)
    /\ (matched res = true -> exists x u y f, s = x ++ u ++ y /\ divides cf ps u f
          /\ map (cell_content s) (groups res) = u :: f
          /\ forall x' u' y' f', s = x' ++ u' ++ y' -> divides cf ps u' f' -> length x <= length x')).
Proof. exact search_fields. Qed.
Print Assumptions C75_search.

(** When every piece is followed by a character that it cannot contain, the groups are
    the fields the text was put together from. *)
Theorem C75_delimited : forall ps fl ct, usable (mk_regex (template ps) fl) ct -> simple_pieces ps ->
  forall s f, delimited (config_of fl ct) ps -> divides (config_of fl ct) ps s f ->
  returns (regex_match (mk_regex (template ps) fl) ct s) (fun res =>
    matched res = true /\ map (cell_content s) (groups res) = s :: f).
Proof. exact match_delimited. Qed.
Print Assumptions C75_delimited.

(** A pattern of this form, with an ambiguous and a named field; a text it divides. *)
Definition setting : list piece :=
  [Field None (tree "\w+"); Plain (tree "\s*"); Plain (Lit "="); Field None (tree "(?:\d|x)*?");
   Field (Some (str "rest")) (tree "[^;]*")].

Example C75_example :
  let r := rx "(\w+)\s*=((?:\d|x)*?)(?<rest>[^;]*)" [] in
  let cf := config_of [] ForwardIt in
  r = mk_regex (template setting) [] /\ usable r ForwardIt /\ simple_pieces setting
  /\ divides cf setting (str "a =12") [str "a"; str "1"; str "2"]
  /\ exists res, regex_match r ForwardIt (str "a =12") = Returned res
       /\ map (cell_content (str "a =12")) (groups res) = [str "a =12"; str "a"; []; str "12"].
Proof.
  split; [vm_compute; reflexivity|]. split; [show_usable|].
  split; [repeat constructor|]. split.
  - change (str "a =12") with (str "a" ++ str " " ++ str "=" ++ str "1" ++ str "2" ++ []).
    unfold setting.
    apply div_field; [|apply div_plain; [|apply div_plain; [|apply div_field; [|apply div_field; [|apply div_none]]]]];
      apply in_paths; try (vm_compute; reflexivity); vm_compute; auto.
  - eexists. split; vm_compute; reflexivity.
Qed.

(** Delimited pieces: a key, a sign, a value. *)
Definition assignment : list piece :=
  [Field None (tree "[a-z]+"); Plain (Lit "="); Field None (tree ".*")].

Example C75_delimited_example :
  let cf := config_of [] ForwardIt in
  rx "([a-z]+)=(.*)" [] = mk_regex (template assignment) []
  /\ usable (mk_regex (template assignment) []) ForwardIt /\ simple_pieces assignment
  /\ delimited cf assignment /\ divides cf assignment (str "k=v=w") [str "k"; str "v=w"].
Proof.
  split; [vm_compute; reflexivity|]. split; [show_usable|]. split; [repeat constructor|].
  assert (Hk : forall u, described (config_of [] ForwardIt) (tree "[a-z]+") u
    <-> some (Spec.between "a"%char "z"%char) u).
  { intros u. replace (tree "[a-z]+") with (Rep Greedy 1 Inf (tree "[a-z]")) by (vm_compute; reflexivity).
    exact (described_some _ _ _ _ _ lower_class (accepts_lower ForwardIt)). }
  split.
  - apply delimited_field.
    + split; [exact (conj I I)|]. left. intros u Hu. apply described_lit in Hu as (a & -> & _). reflexivity.
    + intros u Hu. destruct (proj1 (Hk u) Hu) as [_ H]. clear Hu Hk.
      exact (disjoint (config_of [] ForwardIt) "="%char (Spec.between "a"%char "z"%char) u eq_refl eq_refl H).
  - change (str "k=v=w") with (str "k" ++ str "=" ++ str "v=w" ++ []). unfold assignment.
    apply div_field; [|apply div_plain; [|apply div_field; [|apply div_none]]];
      apply in_paths; try (vm_compute; reflexivity); vm_compute; auto 8.
Qed.
