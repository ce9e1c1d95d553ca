(** Possessive loops and the atomic loops that mean the same, with all groups and
    backreferences (C11): proofs. *)
From Verif Require Import Matcher Api Basics Spec Matching Equiv Explore Calls Exchange Exchanged.
From Verif Require Lift Gaps.
From Coq Require Import Lia.

Section Contexts.
  Variable cf : config.
  Variables x y : node.
  Hypothesis Hk : forall b, keeps cf b x y.
  Hypothesis Hc : is_class x = is_class y.
  Hypothesis Ha : is_class x = true -> forall c, accepts cf x c = accepts cf y c.

  Lemma forallb_middle (p : node -> bool) l1 (a : node) l2 :
    forallb p (l1 ++ a :: l2) = forallb p l1 && (p a && forallb p l2).
  Proof. rewrite forallb_app. reflexivity. Qed.

  Lemma is_class_Alt l : l <> [] -> is_class (Alt l) = forallb is_class l.
  Proof. destruct l; [easy|reflexivity]. Qed.

  Lemma plug_class C : is_class (plug C x) = is_class (plug C y)
    /\ (is_class (plug C x) = true -> forall c, accepts cf (plug C x) c = accepts cf (plug C y) c).
  Proof.
    induction C as [|l1 C [IC IA] l2|l1 C [IC IA] l2|id nm C [IC IA]|md lo hi C [IC IA]|d C [IC IA]|d C [IC IA]];
      cbn [plug].
    - auto.
    - destruct l1 as [|a [|b l1]]; cbn [app is_class accepts]; [|split; [now destruct l2|destruct l2; discriminate]|split; easy].
      destruct l2; [auto|split; [reflexivity|discriminate]].
    - rewrite !is_class_Alt by (destruct l1; discriminate). rewrite !forallb_middle, IC. split; [reflexivity|].
      intros H c. cbn [accepts]. rewrite !existsb_app. cbn [existsb]. rewrite IA; [reflexivity|].
      rewrite IC. rewrite !andb_true_iff in H. tauto.
    - split; [reflexivity|discriminate].
    - destruct hi as [hi|]; cbn [is_class accepts]; [rewrite IC; split; [reflexivity|]|split; [reflexivity|discriminate]].
      intros H. apply andb_true_iff in H as [_ H]. apply IA. now rewrite IC.
    - split; [reflexivity|discriminate].
    - split; [reflexivity|discriminate].
  Qed.

  Lemma plug_keeps C : forall b, keeps cf b (plug C x) (plug C y).
  Proof.
    induction C as [|l1 C IH l2|l1 C IH l2|id nm C IH|md lo hi C IH|d C IH|d C IH]; intros b; cbn [plug];
      auto using kp_seq, kp_cap, kp_rep, kp_look.
    - destruct (plug_class C) as [IC IA]. destruct (is_class (plug C x)) eqn:K.
      + apply kp_alt_chars; auto.
      + apply kp_alt; auto.
    - apply kp_neg; auto using kp_look.
  Qed.

  Lemma plug_names C : names_in x = names_in y -> names_in (plug C x) = names_in (plug C y).
  Proof.
    intros Hn. induction C as [|l1 C IH l2|l1 C IH l2|id nm C IH|md lo hi C IH|d C IH|d C IH]; cbn [plug names_in]; auto.
    - rewrite !flat_map_app. cbn [flat_map]. now rewrite IH.
    - rewrite !flat_map_app. cbn [flat_map]. now rewrite IH.
    - now rewrite IH.
  Qed.
End Contexts.

Lemma greedy_late fl ct : ~ In F_ungreedy fl -> Gaps.early (config_of fl ct) Greedy = false.
Proof.
  intros H. unfold Gaps.early, config_of. cbn [ungreedy]. apply Bool.not_true_is_false. intros K. apply H.
  unfold flag_test in K. apply existsb_exists in K as (f & Hf & E). destruct f; try discriminate E. exact Hf.
Qed.

Section Results.
  Variables (C : ctx) (lo : N) (hi : quantifier) (x : node) (fl : list regex_flag) (ct : category) (s : list ascii).
  Hypothesis Hu : ~ In F_ungreedy fl.
  Let r1 := mk_regex (plug C (Rep Possessive lo hi x)) fl.

  Definition same_results (r r' : regex) : Prop :=
    Lift.agree (regex_match r ct s) (regex_match r' ct s)
    /\ Lift.agree (regex_match_prefix r ct s) (regex_match_prefix r' ct s)
    /\ regex_search r ct s = regex_search r' ct s
    /\ tokenize r ct s = tokenize r' ct s
    /\ find_all r ct s = find_all r' ct s.

  Theorem possessive_commits :
    hi <> Inf \/ may_be_empty x = false \/ plain x = true ->
    let r2 := mk_regex (plug C (atomic (Rep Greedy lo hi x))) fl in
    usable r1 ct -> usable r2 ct -> same_results r1 r2.
  Proof.
    intros Hq r2 U1 U2. apply kept_results; auto.
    - apply plug_keeps.
      + intros b. apply kp_commit; [discriminate|now apply greedy_late|exact Hq].
      + unfold atomic. cbn [is_class]. now destruct hi.
      + reflexivity.
    - unfold all_names. f_equal. now apply plug_names.
  Qed.

  Theorem possessive_commits_twice :
    (lo <= 1)%N ->
    let r2 := mk_regex (plug C (atomic (Rep Greedy lo hi (atomic x)))) fl in
    usable r1 ct -> usable r2 ct -> same_results r1 r2.
  Proof.
    intros Hl r2 U1 U2. apply kept_results; auto.
    - apply plug_keeps.
      + intros b. eapply kp_trans; [now apply kp_commit_body|].
        apply kp_commit; [discriminate|now apply greedy_late|]. right. right. unfold atomic. cbn [plain]. apply orb_true_r.
      + unfold atomic. cbn [is_class]. now destruct hi.
      + reflexivity.
    - unfold all_names. f_equal. now apply plug_names.
  Qed.
End Results.
