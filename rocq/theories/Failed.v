(** What the groups hold after a call that reports no match: proofs
    (Prop_Groups.v). *)
From Verif Require Import Matcher Api Basics Safe Cong Impl Spec Paths Adequacy Calls Groups Keeps Held.

Section Call.
  Variable cf : config.
  Variable n : node.
  Variable s : list ascii.
  Hypothesis Hc : compilable cf n = true.
  Local Notation names := (group_names n).
  Local Notation after := (Held.after (open_group n)).

  (** The uncommitted groups are empty. *)
  Definition emptied (c : caps) : Prop :=
    forall id, open_group n id -> cell_is_empty (cell_of c id) = true.

  Lemma after_emptied c : after [] c (initial_captures n) -> emptied c.
  Proof.
    intros H id Hi. destruct (H id Hi) as [E|E]; auto.
    change (cell_of c id = cell_of (initial_captures n) id) in E.
    rewrite E, cell_of_initial. reflexivity.
  Qed.

  Lemma emptied_group0 b e c : emptied c -> emptied (set_group0 b e c).
  Proof. intros H id Hi. rewrite cell_of_group0 by apply Hi. now apply H. Qed.

  Lemma block_failed k c e : k = success \/ k = equals (length s) ->
    (match node_match cf names s 0 n 0 (initial_captures n) k with
     | Res c' e b => Res (set_group0 0 e c') e b
     | o => o
     end) = Res c e false -> emptied c.
  Proof.
    intros Hk E. pose proof (run_held cf n s Hc 0 (initial_captures n) k Hk) as H.
    destruct (node_match _ _ _ _ _ _ _ _) as [c' e' [|]| | |] eqn:Em; try discriminate.
    injection E as <- _. apply emptied_group0, after_emptied. exact H.
  Qed.

  Lemma search_failed : forall fuel cur c c' e, after [] c (initial_captures n) ->
    search_loop fuel cf n s cur c = Res c' e false -> emptied c'.
  Proof.
    induction fuel as [|f IH]; intros cur c c' e Ha E; [discriminate|]. cbn [search_loop] in E.
    pose proof (run_held cf n s Hc cur c success (or_introl eq_refl)) as H.
    destruct (node_match cf names s 0 n cur c success) as [c1 e1 [|]| | |] eqn:Em; try discriminate.
    assert (Ha' : after [] c1 (initial_captures n)) by exact (after_nil_l _ _ _ _ _ Ha H).
    destruct (Nat.eqb cur (length s)).
    - injection E as <- _. now apply after_emptied.
    - eapply IH; [exact Ha'|exact E].
  Qed.
End Call.

Theorem failed_groups_empty r ct s call res :
  call = regex_match \/ call = regex_match_prefix \/ call = regex_search ->
  call r ct s = Returned res -> matched res = false ->
  forall id, id <> 0%N -> ~ committed (ast r) id ->
  cell_is_empty (nth (N.to_nat id) (groups res) None) = true.
Proof.
  intros Hcall E Hm id Hi Hn.
  assert (H : emptied (ast r) (groups res)).
  { destruct Hcall as [->|[->| ->]];
      unfold regex_match, regex_match_prefix, regex_search, invoke in E;
      (destruct (compilable (config_of (flags r) ct) (ast r)) eqn:Hc; [|discriminate]).
    - destruct (match_method _ _ _ _ _) as [c e b| | |] eqn:Em; cbn in E; try discriminate.
      injection E as <-. cbn in Hm. subst b. exact (block_failed _ _ _ Hc _ _ _ (or_intror eq_refl) Em).
    - destruct (match_prefix_method _ _ _ _ _) as [c e b| | |] eqn:Em; cbn in E; try discriminate.
      injection E as <-. cbn in Hm. subst b. exact (block_failed _ _ _ Hc _ _ _ (or_introl eq_refl) Em).
    - destruct (search_method _ _ _ _ _) as [c e b| | |] eqn:Em; cbn in E; try discriminate.
      injection E as <-. cbn in Hm. subst b. unfold search_method in Em.
      exact (search_failed _ _ _ Hc _ _ _ _ _ (after_refl _ _) Em). }
  apply (H id). split; auto.
Qed.
