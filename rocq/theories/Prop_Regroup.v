(** Property C21. *)
From Verif Require Import Examples.
From Verif Require Import Basics Regroup Pairs.

(** C21.  [regrouped al x y] (Regroup.v): [y] is [x] with concatenations inside
    concatenations and alternations inside alternations dissolved, singleton
    concatenations and alternations and sets of one character or range unwrapped,
    or the converse, any number of times and anywhere in the tree.  [al = false] dissolves an
    alternation only if it is the last alternative, or if no character fits two of the single
    characters where it meets the following ones ([separate]).  [indistinguishable] (Pairs.v): the five
    calls give the same verdicts, groups and sequences of results; group 0 of a
    failed call aside, see F15.

    Concatenations, alternations nested to the right, and those that are [separate] from what
    follows can be regrouped in every regex, with captures and backreferences anywhere. *)
Theorem C21_regrouping : forall x y fl ct s,
  regrouped false x y -> indistinguishable x y fl ct s.
Proof. exact regrouped_agree. Qed.
Print Assumptions C21_regrouping.

Example C21_example :
  let x := Rep Lazy 0 Inf (Seq [Seq [Lit "a"; Cap 1 None Wild]; Seq [Seq [Backref 1]; Alt [Lit "b"; Alt [Empty; Lit "c"]]]]) in
  let y := Rep Lazy 0 Inf (Seq [Lit "a"; Cap 1 None Wild; Backref 1; Alt [Lit "b"; Empty; Lit "c"]]) in
  regrouped false x y
  /\ exists res, regex_match (mk_regex x []) RandomAccessIt (str "axxbayy") = Returned res /\ matched res = true.
Proof.
  split.
  - eapply rgd_trans.
    { apply (rgd_step false (CRep Lazy 0 Inf Hole) _ _
        (rg_seq false [] [Lit "a"; Cap 1 None Wild] [Seq [Seq [Backref 1]; Alt [Lit "b"; Alt [Empty; Lit "c"]]]] ltac:(discriminate))). }
    eapply rgd_trans.
    { apply (rgd_step false (CRep Lazy 0 Inf Hole) _ _
        (rg_seq false [Lit "a"; Cap 1 None Wild] [Seq [Backref 1]; Alt [Lit "b"; Alt [Empty; Lit "c"]]] [] ltac:(discriminate))). }
    eapply rgd_trans.
    { apply (rgd_step false (CRep Lazy 0 Inf (CSeq [Lit "a"; Cap 1 None Wild] Hole [Alt [Lit "b"; Alt [Empty; Lit "c"]]])) _ _
        (rg_seq_one false (Backref 1))). }
    apply (rgd_step false (CRep Lazy 0 Inf (CSeq [Lit "a"; Cap 1 None Wild; Backref 1] Hole [])) _ _
        (rg_alt_last false [Lit "b"] [Empty; Lit "c"] ltac:(discriminate))).
  - eexists. split; vm_compute; reflexivity.
Qed.

(** An alternation that ends with more than a character; distinct characters before other
    things; an alternation of sets inside one. *)
Example C21_apart_example :
  let x := Seq [Cap 1 None Wild; Alt [Alt [Lit "a"; Backref 1]; Alt [Lit "c"; Range "x" "z"]; Seq [Lit "a"; Lit "b"]]] in
  let y := Seq [Cap 1 None Wild; Alt [Lit "a"; Backref 1; Lit "c"; Range "x" "z"; Seq [Lit "a"; Lit "b"]]] in
  regrouped false x y /\ backref_free x = false
  /\ regroups false (Alt [Alt [Lit "a"; Lit "a"]; Range "a" "c"; Wild]) (Alt [Lit "a"; Lit "a"; Range "a" "c"; Wild])
  /\ exists res, regex_match (mk_regex x []) RandomAccessIt (str "qq") = Returned res /\ matched res = true.
Proof.
  split; [|split; [reflexivity|split]].
  - eapply rgd_trans.
    { apply (rgd_step false (CSeq [Cap 1 None Wild] Hole []) _ _
        (rg_alt_separate false [] [Lit "a"; Backref 1] [Alt [Lit "c"; Range "x" "z"]; Seq [Lit "a"; Lit "b"]]
           ltac:(right; repeat split; discriminate) ltac:(discriminate))). }
    refine (rgd_step false (CSeq [Cap 1 None Wild] Hole []) _ _
        (rg_alt_separate false [Lit "a"; Backref 1] [Lit "c"; Range "x" "z"] [Seq [Lit "a"; Lit "b"]] _ _)); [|discriminate].
    right. repeat split; intros _ cf a; cbn [existsb app forallb trivial andb].
    cbn [match_one literal_match_one range_match_one]. unfold literal_match_one.
    destruct (icase cf) eqn:E; destruct a as [[] [] [] [] [] [] [] []]; cbn; rewrite ?E; cbn; intros; try discriminate; reflexivity.
  - apply (rg_alt_separate false [] [Lit "a"; Lit "a"] [Range "a" "c"; Wild]); [now left|discriminate].
  - eexists. split; vm_compute; reflexivity.
Qed.

(** Alternations nested anywhere, in every regex without backreferences. *)
Theorem C21_regrouping_alternations_partial : forall x y fl ct s,
  backref_free x = true -> regrouped true x y -> indistinguishable x y fl ct s.
Proof. exact regrouped_agree_free. Qed.
Print Assumptions C21_regrouping_alternations_partial.

Example C21_alternations_example :
  let x := Seq [Alt [Alt [Lit "a"; Cap 1 None (Lit "b")]; Lit "c"]; Lit "d"] in
  let y := Seq [Alt [Lit "a"; Cap 1 None (Lit "b"); Lit "c"]; Lit "d"] in
  backref_free x = true /\ regrouped true x y
  /\ exists res, regex_match (mk_regex x []) RandomAccessIt (str "bd") = Returned res
       /\ matched res = true /\ groups res = [Some (0, 2); Some (0, 1)].
Proof.
  split; [reflexivity|]. split.
  - apply (rgd_step true (CSeq [] Hole [Lit "d"]) _ _
      (rg_alt true [] [Lit "a"; Cap 1 None (Lit "b")] [Lit "c"] eq_refl ltac:(discriminate))).
  - eexists. split; [vm_compute; reflexivity|]. split; reflexivity.
Qed.

(** With backreferences the claim is false (finding F16): an alternation of
    single characters is matched as a set, once; dissolved into a larger one
    its equal alternatives are tried one after the other, and the second attempt
    sees the captures that the first has left behind. *)
Theorem C21_regrouping_refuted : exists x y s,
  regrouped true x y /\ compilable (config_of [] RandomAccessIt) x = true
  /\ (exists res, regex_match (mk_regex x []) RandomAccessIt s = Returned res /\ matched res = false)
  /\ (exists res, regex_match (mk_regex y []) RandomAccessIt s = Returned res /\ matched res = true).
Proof.
  set (rest := Alt [Seq [Backref 1; Lit "d"; Lit "!"]; Cap 1 None (CSet [Lit "c"; Lit "d"])]).
  exists (Rep Greedy 0 Inf (Seq [Alt [Alt [Lit "a"; Lit "a"]; Seq [Lit "b"; Lit "b"]]; rest])),
    (Rep Greedy 0 Inf (Seq [Alt [Lit "a"; Lit "a"; Seq [Lit "b"; Lit "b"]]; rest])), (str "acad!").
  split; [|split; [reflexivity|]].
  - apply (rgd_step true (CRep Greedy 0 Inf (CSeq [] Hole [rest])) _ _
      (rg_alt true [] [Lit "a"; Lit "a"] [Seq [Lit "b"; Lit "b"]] eq_refl ltac:(discriminate))).
  - split; eexists; split; vm_compute; reflexivity.
Qed.
Print Assumptions C21_regrouping_refuted.
