(** The body of a repetition without iterations has no influence (C52). *)
From Verif Require Import Matcher Api Basics Safe Cong Impl Spec Calls Lift Explore Searches Exchange Exchanged.
From Coq Require Import Lia.

(** ** Specification *)

(** [swapped x y]: [y] is [x] with the body of one repetition without iterations replaced
    by another one. *)
Inductive swapped : node -> node -> Prop :=
| sw_body md x y : swapped (Rep md 0 (Fin 0) x) (Rep md 0 (Fin 0) y)
| sw_seq l1 x y l2 : swapped x y -> swapped (Seq (l1 ++ x :: l2)) (Seq (l1 ++ y :: l2))
| sw_alt l1 x y l2 : swapped x y -> swapped (Alt (l1 ++ x :: l2)) (Alt (l1 ++ y :: l2))
| sw_cap id nm x y : swapped x y -> swapped (Cap id nm x) (Cap id nm y)
| sw_rep md lo hi x y : swapped x y -> swapped (Rep md lo hi x) (Rep md lo hi y)
| sw_look d x y : swapped x y -> swapped (Look d x) (Look d y)
| sw_neg x y : swapped x y -> swapped (Neg x) (Neg y).

(** ** Proofs *)

Lemma swapped_sym x y : swapped x y -> swapped y x.
Proof. induction 1; now constructor. Qed.

Lemma swapped_class x y : swapped x y -> is_class x = false.
Proof.
  induction 1; cbn [is_class]; auto.
  - destruct l1 as [|a [|b l1]]; destruct l2 as [|c l2]; cbn; auto.
  - destruct l1 as [|a l1]; cbn; [now rewrite IHswapped|].
    rewrite forallb_app. cbn. rewrite IHswapped. cbn. now rewrite !andb_false_r.
  - destruct hi; auto. rewrite IHswapped. now rewrite !andb_false_r.
Qed.

Lemma swapped_trivial x y : swapped x y -> trivial x = false.
Proof.
  induction 1; cbn [trivial]; auto.
  - destruct l1 as [|a [|b l1]]; destruct l2 as [|c l2]; cbn; auto.
  - destruct l1 as [|a l1]; cbn; [now rewrite IHswapped|].
    rewrite forallb_app. cbn. rewrite IHswapped. cbn. now rewrite !andb_false_r.
  - destruct lo as [|[p|p|]]; auto. destruct hi as [[|[p|p|]]|]; auto.
Qed.

Lemma swapped_assertion x y : swapped x y -> is_assertion x = is_assertion y.
Proof.
  induction 1; cbn [is_assertion]; auto.
  - destruct l1 as [|a [|b l1]]; destruct l2 as [|c l2]; cbn; auto.
  - destruct l1 as [|a [|b l1]]; destruct l2 as [|c l2]; cbn; auto.
  - now rewrite IHswapped.
Qed.

Lemma swapped_invert x y : swapped x y -> swapped (invert x) (invert y).
Proof.
  induction 1; cbn [invert]; try (now constructor).
  - rewrite !reverse_pack_rev, !map_app. cbn [map]. rewrite !rev_app_distr. cbn [rev]. rewrite <- !app_assoc.
    now apply sw_seq.
  - rewrite !map_app. now apply sw_alt.
Qed.

Lemma swapped_compiles cf names : forall f rd x y, swapped x y ->
  compiles cf names f rd x = compiles cf names f rd y.
Proof.
  induction f as [|f IH]; intros rd x y H; [reflexivity|].
  assert (All : forall l1 x y l2, swapped x y ->
    forallb (compiles cf names f rd) (l1 ++ x :: l2) = forallb (compiles cf names f rd) (l1 ++ y :: l2)).
  { intros l1 a b l2 Hab. rewrite !forallb_app. cbn. now rewrite (IH rd a b Hab). }
  destruct H; cbn [compiles].
  - cbn. now rewrite !orb_true_r.
  - specialize (All l1 x y l2 H). destruct l1; exact All.
  - specialize (All l1 x y l2 H). destruct l1; exact All.
  - now rewrite (IH rd x y H).
  - rewrite (swapped_trivial _ _ H), (swapped_trivial _ _ (swapped_sym _ _ H)).
    destruct hi; now rewrite (IH rd x y H).
  - destruct d; [now apply IH|].
    rewrite (swapped_trivial _ _ H), (swapped_trivial _ _ (swapped_sym _ _ H)).
    f_equal. apply IH. now apply swapped_invert.
  - rewrite (swapped_trivial _ _ H), (swapped_trivial _ _ (swapped_sym _ _ H)), (swapped_assertion _ _ H).
    now rewrite (IH rd x y H).
Qed.

Lemma swapped_keeps cf x y : swapped x y -> forall b, keeps cf b x y.
Proof.
  induction 1; intros b.
  - eapply kp_trans; [apply kp_none|]. apply kp_sym, kp_none.
  - now apply kp_seq.
  - apply kp_alt; auto; eapply swapped_class; eauto using swapped_sym.
  - now apply kp_cap.
  - now apply kp_rep.
  - now apply kp_look.
  - apply kp_neg; auto; eapply swapped_class; eauto using swapped_sym.
Qed.

Lemma all_names_groups n : all_names n = group_names n.
Proof. unfold all_names, group_names. now rewrite names_in_spec. Qed.

Lemma swapped_compilable cf x y : swapped x y -> all_names x = all_names y ->
  compilable cf x = compilable cf y.
Proof.
  intros H Hn. unfold compilable. rewrite <- !all_names_groups, Hn.
  rewrite (compiles_fuel _ _ (size x) (size x + size y) 0 x), (compiles_fuel _ _ (size y) (size x + size y) 0 y) by lia.
  now apply swapped_compiles.
Qed.

Lemma never_compiles n fl ct : compilable (config_of fl ct) n = false <->
  forall mt s, invoke mt (mk_regex n fl) ct s = DoesNotCompile.
Proof.
  split; intros H.
  - intros mt s. unfold invoke. cbn [ast flags]. now rewrite H.
  - specialize (H (fun _ _ _ i c => Res c i true) []). unfold invoke in H. cbn [ast flags] in H.
    destruct (compilable _ n); [discriminate H|reflexivity].
Qed.

Theorem swapped_calls x y fl ct : swapped x y -> all_names x = all_names y ->
  ((forall mt s, invoke mt (mk_regex x fl) ct s = DoesNotCompile)
   <-> (forall mt s, invoke mt (mk_regex y fl) ct s = DoesNotCompile))
  /\ (usable (mk_regex x fl) ct -> usable (mk_regex y fl) ct -> forall s,
      Lift.agree (regex_match (mk_regex x fl) ct s) (regex_match (mk_regex y fl) ct s)
      /\ Lift.agree (regex_match_prefix (mk_regex x fl) ct s) (regex_match_prefix (mk_regex y fl) ct s)
      /\ regex_search (mk_regex x fl) ct s = regex_search (mk_regex y fl) ct s
      /\ tokenize (mk_regex x fl) ct s = tokenize (mk_regex y fl) ct s
      /\ find_all (mk_regex x fl) ct s = find_all (mk_regex y fl) ct s).
Proof.
  intros H Hn. split; [rewrite <- !never_compiles; now rewrite (swapped_compilable _ x y)|]. intros Ux Uy s.
  apply kept_results; auto. now apply swapped_keeps.
Qed.
