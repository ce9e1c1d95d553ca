(** Lifting agreement of the matcher to the public interface. *)
From Verif Require Import Matcher Api Basics Safe Cong Impl Spec Paths Adequacy Calls.

(** ** Exact agreement *)

Section Exact.
  Variables cf1 cf2 : config.
  Variables n1 n2 : node.
  Variables s1 s2 : list ascii.
  Hypothesis Hlen : length s1 = length s2.
  Hypothesis Hinit : initial_captures n1 = initial_captures n2.
  Hypothesis Hcomp : compilable cf1 n1 = compilable cf2 n2.
  Hypothesis Hrun : forall k cur c, cur <= length s1 ->
    k = success \/ k = equals (length s1) ->
    node_match cf1 (group_names n1) s1 0 n1 cur c k
    = node_match cf2 (group_names n2) s2 0 n2 cur c k.

  Lemma same_match_method cur c : cur <= length s1 ->
    match_method cf1 n1 s1 cur c = match_method cf2 n2 s2 cur c.
  Proof. intros H. unfold match_method. rewrite <- Hlen, Hrun; auto. Qed.

  Lemma same_match_prefix_method cur c : cur <= length s1 ->
    match_prefix_method cf1 n1 s1 cur c = match_prefix_method cf2 n2 s2 cur c.
  Proof. intros H. unfold match_prefix_method. rewrite Hrun; auto. Qed.

  Lemma same_search_loop : forall fuel cur c, cur <= length s1 ->
    search_loop fuel cf1 n1 s1 cur c = search_loop fuel cf2 n2 s2 cur c.
  Proof.
    induction fuel as [|fuel IH]; intros cur c H; [reflexivity|]. cbn [search_loop].
    rewrite Hrun, <- Hlen by auto.
    destruct (node_match _ _ _ _ _ _ _ _) as [c' e [|]| | |]; auto.
    destruct (Nat.eqb_spec cur (length s1)); auto. apply IH. lia.
  Qed.

  Lemma same_search_method cur c : cur <= length s1 ->
    search_method cf1 n1 s1 cur c = search_method cf2 n2 s2 cur c.
  Proof. intros H. unfold search_method. rewrite <- Hlen. now apply same_search_loop. Qed.
End Exact.

(** A successful run ends inside the text. *)
Lemma run_end_bound cf names s n cur c c' e : cur <= length s ->
  node_match cf names s 0 n cur c success = Res c' e true -> e <= length s.
Proof.
  intros Hc E.
  pose proof (m_rel cf cf names s true false eq_refl eq_refl eq_refl eq_refl (fun _ => eq_refl) ltac:(discriminate)
                (size n) 0 n (le_n _) (or_introl eq_refl) cur c success success Hc
                (rel_success s true false)) as H.
  unfold node_match in E. rewrite E in H. cbn in H. apply H. reflexivity.
Qed.

Lemma prefix_end_bound cf s n cur c c' e : cur <= length s ->
  match_prefix_method cf n s cur c = Res c' e true -> e <= length s.
Proof.
  intros Hc E. unfold match_prefix_method in E.
  destruct (node_match _ _ _ _ _ _ _ _) as [c'' e' b| | |] eqn:E'; try discriminate.
  inversion E; subst. eapply run_end_bound; eauto.
Qed.

Lemma search_loop_end_bound cf s n : forall fuel cur c c' e b, cur <= length s ->
  search_loop fuel cf n s cur c = Res c' e b -> e <= length s.
Proof.
  induction fuel as [|fuel IH]; intros cur c c' e b Hc E; [discriminate|].
  cbn [search_loop] in E.
  destruct (node_match _ _ _ _ _ _ _ _) as [c'' e' [|]| | |] eqn:E'; try discriminate.
  - inversion E; subst. eapply run_end_bound; eauto.
  - destruct (Nat.eqb_spec cur (length s)).
    + inversion E; subst. lia.
    + eapply IH in E; eauto. lia.
Qed.

(** The methods used by generators. *)
Inductive gen_method : method -> Prop :=
| gm_prefix : gen_method match_prefix_method
| gm_search : gen_method search_method.

Lemma gen_end_bound mt cf n s cur c c' e : gen_method mt -> cur <= length s ->
  mt cf n s cur c = Res c' e true -> e <= length s.
Proof.
  intros [|] H E; [eapply prefix_end_bound|eapply search_loop_end_bound]; eauto.
Qed.

(** A generator that will still match stays inside the text. *)
Definition gen_inside (s : list ascii) (g : generator) : Prop :=
  active g = true -> current g <= length s.

Lemma inside_new s : gen_inside s new_generator.
Proof. intros _. cbn. lia. Qed.

Lemma next_inside mt cf n s g r g' : gen_method mt -> gen_inside s g ->
  next mt cf n s g = Returned (r, g') -> gen_inside s g'.
Proof.
  intros Hm Hg E. unfold next in E. destruct (active g) eqn:A.
  - destruct (mt cf n s (current g) (initial_captures n)) as [c e b| | |] eqn:Em; try discriminate.
    inversion E; subst. intros Ha. cbn in *. apply andb_true_iff in Ha as [-> _].
    eapply gen_end_bound; [exact Hm|apply Hg; exact A|exact Em].
  - inversion E; subst. exact Hg.
Qed.

Section ExactCalls.
  Variables r1 r2 : regex.
  Variables ct1 ct2 : category.
  Variables s1 s2 : list ascii.
  Local Notation cf1 := (config_of (flags r1) ct1).
  Local Notation cf2 := (config_of (flags r2) ct2).
  Hypothesis Hlen : length s1 = length s2.
  Hypothesis Hinit : initial_captures (ast r1) = initial_captures (ast r2).
  Hypothesis Hcomp : compilable cf1 (ast r1) = compilable cf2 (ast r2).
  Hypothesis Hrun : forall k cur c, cur <= length s1 ->
    k = success \/ k = equals (length s1) ->
    node_match cf1 (group_names (ast r1)) s1 0 (ast r1) cur c k
    = node_match cf2 (group_names (ast r2)) s2 0 (ast r2) cur c k.

  Lemma same_gen_method mt cur c : gen_method mt -> cur <= length s1 ->
    mt cf1 (ast r1) s1 cur c = mt cf2 (ast r2) s2 cur c.
  Proof.
    intros [|] H; [apply same_match_prefix_method|apply same_search_method]; auto.
  Qed.

  Lemma same_next mt g : gen_method mt -> gen_inside s1 g ->
    next mt cf1 (ast r1) s1 g = next mt cf2 (ast r2) s2 g.
  Proof.
    intros Hm Hg. unfold next. rewrite <- Hinit. destruct (active g) eqn:A; auto.
    rewrite same_gen_method; auto.
  Qed.

  Lemma same_generate mt : gen_method mt -> forall k g, gen_inside s1 g ->
    generate mt cf1 (ast r1) s1 k g = generate mt cf2 (ast r2) s2 k g.
  Proof.
    intros Hm. induction k as [|k IH]; intros g Hg; [reflexivity|]. cbn [generate].
    rewrite <- same_next by assumption.
    destruct (next mt cf1 (ast r1) s1 g) as [[r g']| | |] eqn:E; auto.
    rewrite IH; auto. eapply next_inside; eauto.
  Qed.

  Lemma same_range mt : gen_method mt -> forall k g, gen_inside s1 g ->
    range_elements k mt cf1 (ast r1) s1 g = range_elements k mt cf2 (ast r2) s2 g.
  Proof.
    intros Hm. induction k as [|k IH]; intros g Hg; [reflexivity|]. cbn [range_elements].
    rewrite <- same_next by assumption.
    destruct (next mt cf1 (ast r1) s1 g) as [[r g']| | |] eqn:E; auto.
    destruct (matched r); auto. rewrite IH; auto. eapply next_inside; eauto.
  Qed.

  (** All calls of the public interface give the same answer. *)
  Theorem exact_calls :
    regex_match r1 ct1 s1 = regex_match r2 ct2 s2
    /\ regex_match_prefix r1 ct1 s1 = regex_match_prefix r2 ct2 s2
    /\ regex_search r1 ct1 s1 = regex_search r2 ct2 s2
    /\ tokenize r1 ct1 s1 = tokenize r2 ct2 s2
    /\ find_all r1 ct1 s1 = find_all r2 ct2 s2
    /\ (forall k, tokenizer r1 ct1 s1 k = tokenizer r2 ct2 s2 k)
    /\ (forall k, searcher r1 ct1 s1 k = searcher r2 ct2 s2 k).
  Proof.
    unfold regex_match, regex_match_prefix, regex_search, tokenize, find_all, tokenizer, searcher,
      invoke, range_of, generator_results.
    rewrite <- Hcomp, <- Hinit, <- Hlen.
    destruct (compilable cf1 (ast r1)); [|repeat split; reflexivity].
    repeat split; intros.
    - rewrite (same_match_method cf1 cf2 (ast r1) (ast r2) s1 s2); auto. lia.
    - rewrite (same_match_prefix_method cf1 cf2 (ast r1) (ast r2) s1 s2); auto. lia.
    - rewrite (same_search_method cf1 cf2 (ast r1) (ast r2) s1 s2); auto. lia.
    - apply same_range; [constructor|apply inside_new].
    - apply same_range; [constructor|apply inside_new].
    - apply same_generate; [constructor|apply inside_new].
    - apply same_generate; [constructor|apply inside_new].
  Qed.
End ExactCalls.

(** Every call of the public interface (with any number of calls of a
    generator) answers the same for the two regexes. *)
Definition same_calls (r1 r2 : regex) (ct : category) (s1 s2 : list ascii) : Prop :=
  regex_match r1 ct s1 = regex_match r2 ct s2
  /\ regex_match_prefix r1 ct s1 = regex_match_prefix r2 ct s2
  /\ regex_search r1 ct s1 = regex_search r2 ct s2
  /\ tokenize r1 ct s1 = tokenize r2 ct s2
  /\ find_all r1 ct s1 = find_all r2 ct s2
  /\ (forall k, tokenizer r1 ct s1 k = tokenizer r2 ct s2 k)
  /\ (forall k, searcher r1 ct s1 k = searcher r2 ct s2 k).

(** ** Configurations *)

Lemma flag_test_cons f g fl : flag_test (g :: fl) f = flag_eqb f g || flag_test fl f.
Proof. reflexivity. Qed.

Lemma flag_test_app f l1 l2 : flag_test (l1 ++ l2) f = flag_test l1 f || flag_test l2 f.
Proof. unfold flag_test. apply existsb_app. Qed.

Lemma flag_test_In f fl : flag_test fl f = true <-> In f fl.
Proof.
  unfold flag_test. rewrite existsb_exists. split.
  - intros (x & Hx & E). destruct f, x; try discriminate; auto.
  - intros H. exists f. split; auto. now destruct f.
Qed.

Lemma flag_test_not_In f fl : flag_test fl f = false <-> ~ In f fl.
Proof. rewrite <- flag_test_In. destruct (flag_test fl f); intuition congruence. Qed.

Lemma compilable_same_category cf1 cf2 n :
  is_bidirectional cf1 = is_bidirectional cf2 -> compilable cf1 n = compilable cf2 n.
Proof.
  intros H. unfold compilable.
  rewrite <- (map_mode_id n) at 3. apply compiles_map_mode; auto. tauto.
Qed.

(** [rel] in its strict form is equality. *)
Lemma rel_strict_eq base o1 o2 : rel base true false o1 o2 -> o1 = o2.
Proof.
  destruct o1, o2; cbn; try easy. intros (-> & -> & H & _). rewrite H by auto. reflexivity.
Qed.

Lemma rel_equals base strict lax target : rel_cont base strict lax (equals target) (equals target).
Proof. intros j c Hj. cbn. auto. Qed.

(** ** C08 *)

Theorem unroll_irrelevant r ct s : same_calls (add_flags r [F_unroll]) r ct s s.
Proof.
  assert (Hf : forall f, f <> F_unroll -> flag_test (flags r ++ [F_unroll]) f = flag_test (flags r) f).
  { intros f Hf. rewrite flag_test_app. destruct f; try easy; apply orb_false_r. }
  apply exact_calls; try reflexivity.
  - intros k cur c Hc Hk. apply (rel_strict_eq s). cbn [add_flags ast flags].
    apply m_rel; auto; cbn; try (apply Hf; discriminate); try discriminate.
    + unfold runs_on_both. left. reflexivity.
    + destruct Hk as [->| ->]; [apply rel_success|apply rel_equals].
Qed.

(** ** C10 *)

(** Exchange lazy and greedy quantifiers everywhere. *)
Definition swap_mode (md : match_mode) : match_mode :=
  match md with Greedy => Lazy | Lazy => Greedy | Possessive => Possessive end.
Definition swap_modes : node -> node := map_mode swap_mode.

Lemma swap_possessive md : swap_mode md = Possessive <-> md = Possessive.
Proof. destruct md; cbn; intuition discriminate. Qed.

Lemma eq_Forall2 {A} (l : list A) : Forall2 eq l l.
Proof. induction l; auto. Qed.

Theorem ungreedy_swaps n fl ct s : ~ In F_ungreedy fl ->
  same_calls (mk_regex n (F_ungreedy :: fl)) (mk_regex (swap_modes n) fl) ct s s.
Proof.
  intros Hfl. apply flag_test_not_In in Hfl.
  assert (Hn : group_names (swap_modes n) = group_names n).
  { unfold group_names, swap_modes. now rewrite names_map_mode. }
  apply exact_calls; cbn [ast flags]; auto.
  - unfold initial_captures. now rewrite Hn.
  - unfold compilable. rewrite Hn. unfold swap_modes. rewrite size_map_mode. symmetry.
    apply compiles_map_mode; [apply swap_possessive|reflexivity].
  - intros k cur c Hc Hk. rewrite Hn. unfold node_match.
    eapply (m_cong _ _ (group_names n) s s eq swap_mode) with (ok := fun _ => True);
      auto; try reflexivity.
    + apply swap_possessive.
    + intros md Hmd. cbn. rewrite Hfl. destruct md; try easy.
    + intros x a b _ ->. apply same_match_one; reflexivity.
    + intros a b _ _ ->. apply same_match_one; reflexivity.
    + intros a b _ ->. apply same_match_one; reflexivity.
    + intros a a' b b' _ -> ->. reflexivity.
    + apply eq_Forall2.
    + unfold swap_modes. now rewrite size_map_mode.
    + intros j c'. reflexivity.
Qed.

(** ** C18 *)

Definition same_letter (a b : ascii) : Prop := a = b \/ a = other_case b.

Definition all_bytes : list ascii := map ascii_of_nat (List.seq 0 256).
Lemma all_bytes_in a : In a all_bytes.
Proof.
  unfold all_bytes. apply in_map_iff. exists (nat_of_ascii a). split.
  - apply ascii_nat_embedding.
  - apply in_seq. pose proof (nat_ascii_bounded a). lia.
Qed.

Lemma for_all_bytes (P : ascii -> bool) : forallb P all_bytes = true -> forall a, P a = true.
Proof. intros H a. rewrite forallb_forall in H. apply H, all_bytes_in. Qed.

Lemma other_case_involutive a : other_case (other_case a) = a.
Proof.
  pose proof (for_all_bytes (fun a => Ascii.eqb (other_case (other_case a)) a)) as H.
  apply Ascii.eqb_eq. apply H. vm_compute. reflexivity.
Qed.

Lemma other_case_eqb a b : Ascii.eqb (other_case a) b = Ascii.eqb a (other_case b).
Proof.
  destruct (Ascii.eqb_spec (other_case a) b) as [<-|H].
  - rewrite other_case_involutive. symmetry. apply Ascii.eqb_refl.
  - destruct (Ascii.eqb_spec a (other_case b)) as [->|]; [|reflexivity].
    now rewrite other_case_involutive in H.
Qed.

Lemma same_letter_sym a b : same_letter a b -> same_letter b a.
Proof. intros [->| ->]; [now left|right]. now rewrite other_case_involutive. Qed.

Lemma newline_other_case a : is_newline (other_case a) = is_newline a.
Proof.
  apply Bool.eqb_prop.
  pose proof (for_all_bytes (fun a => Bool.eqb (is_newline (other_case a)) (is_newline a))) as H.
  apply H. vm_compute. reflexivity.
Qed.

Lemma accepts_other_case cf n a : icase cf = true -> accepts cf n (other_case a) = accepts cf n a.
Proof.
  intros Hi.
  assert (He : forall p, either_case cf p (other_case a) = either_case cf p a).
  { intros p. unfold either_case. rewrite Hi, other_case_involutive. cbn. apply orb_comm. }
  induction n using node_ind'; cbn [accepts]; auto.
  - now rewrite newline_other_case.
  - now apply existsb_ext_Forall.
  - now rewrite IHn.
  - destruct l as [|x [|y r]]; auto. now inversion H.
  - now apply existsb_ext_Forall.
Qed.

Lemma invert_case_other a : invert_case a = other_case a.
Proof.
  apply Ascii.eqb_eq.
  pose proof (for_all_bytes (fun a => Ascii.eqb (invert_case a) (other_case a))) as H.
  apply H. vm_compute. reflexivity.
Qed.

Theorem icase_input r ct s1 s2 : In F_icase (flags r) -> Forall2 same_letter s1 s2 ->
  same_calls r r ct s1 s2.
Proof.
  intros Hf H12. apply flag_test_In in Hf.
  assert (Hi : icase (config_of (flags r) ct) = true) by exact Hf.
  apply exact_calls; auto.
  - clear -H12. induction H12; cbn; auto.
  - intros k cur c Hc Hk. unfold node_match.
    pose proof (map_mode_id (ast r)) as Hid.
    transitivity (m (config_of (flags r) ct) (group_names (ast r)) s2 (size (ast r)) 0
                    (map_mode (fun x => x) (ast r)) cur c k); [|now rewrite Hid].
    assert (Hone : forall n a b, same_letter a b ->
      match_one (config_of (flags r) ct) n a = match_one (config_of (flags r) ct) n b).
    { intros n a b Hab. rewrite !match_one_accepts. destruct Hab as [->| ->]; auto.
      now apply accepts_other_case. }
    eapply (m_cong _ _ (group_names (ast r)) s1 s2 same_letter (fun x => x))
      with (ok := fun _ => True); auto; try tauto.
    + intros a a' b b' _ Ha Hb. unfold backref_char_eq. rewrite Hi, !invert_case_other. cbn [andb].
      rewrite !other_case_eqb.
      destruct Ha as [->| ->], Hb as [->| ->];
        rewrite ?other_case_eqb, ?other_case_involutive; auto using orb_comm.
    + intros j c'. reflexivity.
Qed.

(** ** C09 *)

Lemma forward_compiles cf names : is_bidirectional cf = false ->
  forall f rd n, compiles cf names f rd n = true ->
  multiline cf = false \/ has_begin_line n = false ->
  forward_ok (multiline cf) n = true.
Proof.
  intros Hb. induction f as [|f IH]; intros rd n Hc Hl; [discriminate|].
  assert (Hlist : forall l, multiline cf = false \/ existsb has_begin_line l = false ->
                    forallb (compiles cf names f rd) l = true ->
                    forallb (forward_ok (multiline cf)) l = true).
  { intros l Hl' Hc'. apply forallb_forall. intros x Hx. rewrite forallb_forall in Hc'.
    eapply IH; [now apply Hc'|]. destruct Hl' as [|Hl']; [now left|right].
    destruct (has_begin_line x) eqn:E; [|reflexivity].
    rewrite <- Hl'. symmetry. apply existsb_exists. eauto. }
  destruct n; cbn [compiles forward_ok has_begin_line] in *; auto; try congruence.
  - destruct Hl as [->|]; [reflexivity|discriminate].
  - apply Hlist; auto. apply forallb_forall. intros x Hx. rewrite forallb_forall in Hc.
    specialize (Hc x Hx). apply andb_true_iff in Hc. apply Hc.
  - apply andb_true_iff in Hc as [_ Hc]. eauto.
  - destruct l; [reflexivity|]. now apply Hlist.
  - destruct l; [reflexivity|]. now apply Hlist.
  - apply andb_true_iff in Hc as [_ Hc]. eauto.
  - apply andb_true_iff in Hc as [Hc _]. apply orb_true_iff. destruct hi as [h|].
    + apply andb_true_iff in Hc as [H1 H2]. apply orb_true_iff in H2 as [H2|H2].
      * left. rewrite H2. apply N.eqb_eq in H2. subst. apply N.leb_le in H1.
        replace lo with 0%N by lia. reflexivity.
      * right. eauto.
    + right. eauto.
  - destruct d; [eauto|]. rewrite Hb in Hc. discriminate.
Qed.

Lemma compiles_any_category cf1 cf2 names : is_bidirectional cf1 = false ->
  forall f rd n, compiles cf1 names f rd n = true -> compiles cf2 names f rd n = true.
Proof.
  intros Hb. induction f as [|f IH]; intros rd n Hc; [discriminate|].
  assert (Hlist : forall l, forallb (compiles cf1 names f rd) l = true ->
                    forallb (compiles cf2 names f rd) l = true).
  { intros l Hl. apply forallb_forall. intros x Hx. rewrite forallb_forall in Hl. auto. }
  destruct n; cbn [compiles] in *; auto; try congruence; rewrite ?Hb in Hc; try discriminate.
  - apply forallb_forall. intros x Hx. rewrite forallb_forall in Hc. specialize (Hc x Hx).
    apply andb_true_iff in Hc as [-> Hc]. cbn. auto.
  - apply andb_true_iff in Hc as [-> Hc]. cbn. eauto.
  - destruct l; auto.
  - destruct l; auto.
  - apply andb_true_iff in Hc as [-> Hc]. cbn. eauto.
  - apply andb_true_iff in Hc as [Hc ->]. rewrite andb_true_r. destruct hi; eauto.
    apply andb_true_iff in Hc as [-> Hc]. cbn [andb]. apply orb_true_iff in Hc as [->|Hc]; auto.
    rewrite (IH _ _ Hc). apply orb_true_r.
  - destruct d; [eauto|]. discriminate.
Qed.

(** Same answer up to group 0 of a failed call (finding F15). *)
Definition agree (o1 o2 : call match_res) : Prop :=
  match o1, o2 with
  | Returned a, Returned b =>
      matched a = matched b /\ tl (groups a) = tl (groups b)
      /\ (matched a = true -> groups a = groups b)
  | UndefinedBehaviour, UndefinedBehaviour
  | DoesNotCompile, DoesNotCompile
  | DoesNotReturn, DoesNotReturn => True
  | _, _ => False
  end.

Section Category.
  Variable r : regex.
  Variables ct1 ct2 : category.
  Variable s : list ascii.
  Local Notation cf1 := (config_of (flags r) ct1).
  Local Notation cf2 := (config_of (flags r) ct2).
  Hypothesis Hcomp : compilable cf1 (ast r) = compilable cf2 (ast r).
  Hypothesis Hboth : runs_on_both cf1 cf2 false (ast r).

  Lemma category_rel cur c k : cur <= length s -> rel_cont s false false k k ->
    rel s false false (node_match cf1 (group_names (ast r)) s 0 (ast r) cur c k)
      (node_match cf2 (group_names (ast r)) s 0 (ast r) cur c k).
  Proof. intros Hc Hk. apply m_rel; auto; discriminate. Qed.

  (** Agreement of outcomes up to the end and group 0 of a failure. *)
  Definition agree_out (o1 o2 : outcome) : Prop :=
    match o1, o2 with
    | Res c1 e1 b1, Res c2 e2 b2 =>
        b1 = b2 /\ tl c1 = tl c2 /\ (b1 = true -> c1 = c2 /\ e1 = e2)
    | Undef, Undef | IllFormed, IllFormed | Diverge, Diverge => True
    | _, _ => False
    end.

  Lemma tl_set_group0 b e b' e' c : tl (set_group0 b e c) = tl (set_group0 b' e' c).
  Proof. now destruct c. Qed.

  Lemma category_block cur c k : cur <= length s -> rel_cont s false false k k ->
    agree_out
      (match node_match cf1 (group_names (ast r)) s 0 (ast r) cur c k with
       | Res c' e b => Res (set_group0 cur e c') e b | o => o end)
      (match node_match cf2 (group_names (ast r)) s 0 (ast r) cur c k with
       | Res c' e b => Res (set_group0 cur e c') e b | o => o end).
  Proof.
    intros Hc Hk. pose proof (category_rel cur c k Hc Hk) as H.
    destruct (node_match cf1 _ _ _ _ _ _ _) as [c1 e1 b1| | |],
             (node_match cf2 _ _ _ _ _ _ _) as [c2 e2 b2| | |]; cbn in H |- *; try easy.
    destruct H as (-> & -> & He & _). repeat split.
    - now destruct c2.
    - rewrite He by auto. reflexivity.
    - apply He. auto.
  Qed.

  Lemma category_search : forall fuel cur c, cur <= length s ->
    search_loop fuel cf1 (ast r) s cur c = search_loop fuel cf2 (ast r) s cur c.
  Proof.
    induction fuel as [|fuel IH]; intros cur c Hc; [reflexivity|]. cbn [search_loop].
    pose proof (category_rel cur c success Hc (rel_success s false false)) as H.
    destruct (node_match cf1 _ _ _ _ _ _ _) as [c1 e1 b1| | |],
             (node_match cf2 _ _ _ _ _ _ _) as [c2 e2 b2| | |]; cbn in H; try easy.
    destruct H as (-> & -> & He & _). destruct b2; [now rewrite He by auto|].
    destruct (Nat.eqb_spec cur (length s)); auto. apply IH. lia.
  Qed.

  Lemma agree_to_call o1 o2 : agree_out o1 o2 ->
    agree (to_call o1 (fun c _ b => mk_res c b)) (to_call o2 (fun c _ b => mk_res c b)).
  Proof.
    destruct o1, o2; cbn; try easy. intros (-> & H & H'). repeat split; auto.
    intros Hm. now apply H'.
  Qed.

  Lemma agree_refl o : agree o o.
  Proof. destruct o; cbn; auto. Qed.

  Theorem category_calls :
    agree (regex_match r ct1 s) (regex_match r ct2 s)
    /\ agree (regex_match_prefix r ct1 s) (regex_match_prefix r ct2 s)
    /\ regex_search r ct1 s = regex_search r ct2 s.
  Proof.
    unfold regex_match, regex_match_prefix, regex_search, invoke. rewrite <- Hcomp.
    destruct (compilable cf1 (ast r)); [|cbn; auto]. split; [|split].
    - apply agree_to_call. apply category_block; [lia|apply rel_equals].
    - apply agree_to_call. apply category_block; [lia|apply rel_success].
    - unfold search_method. now rewrite category_search by lia.
  Qed.

  Lemma category_next g : gen_inside s g ->
    match next match_prefix_method cf1 (ast r) s g, next match_prefix_method cf2 (ast r) s g with
    | Returned (a, g1), Returned (b, g2) =>
        agree (Returned a) (Returned b) /\ active g1 = active g2
        /\ (active g1 = true -> current g1 = current g2)
    | UndefinedBehaviour, UndefinedBehaviour
    | DoesNotCompile, DoesNotCompile
    | DoesNotReturn, DoesNotReturn => True
    | _, _ => False
    end.
  Proof.
    intros Hg. unfold next. destruct (active g) eqn:A.
    - pose proof (category_block (current g) (initial_captures (ast r)) success (Hg A)
                    (rel_success s false false)) as H.
      unfold match_prefix_method.
      destruct (node_match cf1 _ _ _ _ _ _ _) as [c1 e1 b1| | |],
               (node_match cf2 _ _ _ _ _ _ _) as [c2 e2 b2| | |]; cbn in H |- *; try easy.
      destruct H as (-> & Ht & He). split; [|split].
      + repeat split; auto. intros Hb. now apply He.
      + destruct b2; [|reflexivity]. destruct He as [-> _]; reflexivity.
      + intros Ha. apply andb_true_iff in Ha as [-> _]. now apply He.
    - repeat split; auto.
  Qed.

  Lemma inactive_next mt cf n g : active g = false ->
    next mt cf n s g = Returned (mk_res (initial_captures n) false, g).
  Proof. intros A. unfold next. now rewrite A. Qed.

  Definition agree_lists (o1 o2 : call (list match_res)) : Prop :=
    match o1, o2 with
    | Returned l1, Returned l2 => Forall2 (fun a b => agree (Returned a) (Returned b)) l1 l2
    | UndefinedBehaviour, UndefinedBehaviour
    | DoesNotCompile, DoesNotCompile
    | DoesNotReturn, DoesNotReturn => True
    | _, _ => False
    end.

  Lemma category_generate : forall k g1 g2, active g1 = active g2 ->
    (active g1 = true -> current g1 = current g2) -> gen_inside s g1 ->
    agree_lists (generate match_prefix_method cf1 (ast r) s k g1)
      (generate match_prefix_method cf2 (ast r) s k g2).
  Proof.
    induction k as [|k IH]; intros g1 g2 Ha Hcur Hin; [constructor|]. cbn [generate].
    destruct (active g1) eqn:A.
    - assert (g1 = g2) as <-.
      { destruct g1, g2; cbn in *. rewrite Hcur, <- Ha, A by auto. reflexivity. }
      pose proof (category_next g1 Hin) as H.
      destruct (next match_prefix_method cf1 (ast r) s g1) as [[a h1]| | |] eqn:E1,
               (next match_prefix_method cf2 (ast r) s g1) as [[b h2]| | |] eqn:E2;
        cbn in H |- *; try easy.
      destruct H as (H1 & H2 & H3).
      specialize (IH h1 h2 H2 H3 (next_inside _ _ _ _ _ _ _ gm_prefix Hin E1)).
      destruct (generate match_prefix_method cf1 (ast r) s k h1),
               (generate match_prefix_method cf2 (ast r) s k h2); cbn in IH |- *; try easy.
      constructor; auto.
    - rewrite !inactive_next by auto.
      assert (IH' := IH g1 g2). rewrite A in IH'.
      specialize (IH' Ha Hcur Hin).
      destruct (generate match_prefix_method cf1 (ast r) s k g1),
               (generate match_prefix_method cf2 (ast r) s k g2); cbn in IH' |- *; try easy.
      constructor; cbn; auto.
  Qed.

  Lemma category_searcher : forall k g, gen_inside s g ->
    generate search_method cf1 (ast r) s k g = generate search_method cf2 (ast r) s k g.
  Proof.
    induction k as [|k IH]; intros g Hg; [reflexivity|]. cbn [generate].
    assert (E : next search_method cf1 (ast r) s g = next search_method cf2 (ast r) s g).
    { unfold next. destruct (active g) eqn:A; auto. unfold search_method.
      rewrite category_search by (now apply Hg). reflexivity. }
    rewrite <- E. destruct (next search_method cf1 (ast r) s g) as [[a h]| | |] eqn:E1; auto.
    rewrite IH; auto. eapply next_inside; eauto. constructor.
  Qed.

  Theorem category_generators k :
    agree_lists (tokenizer r ct1 s k) (tokenizer r ct2 s k)
    /\ searcher r ct1 s k = searcher r ct2 s k.
  Proof.
    unfold tokenizer, searcher, generator_results. rewrite <- Hcomp.
    destruct (compilable cf1 (ast r)); [|cbn; auto]. split.
    - apply category_generate; auto. apply inside_new.
    - apply category_searcher. apply inside_new.
  Qed.
End Category.

Theorem forward_agrees r ct s : usable r ForwardIt ->
  agree (regex_match r ForwardIt s) (regex_match r ct s)
  /\ agree (regex_match_prefix r ForwardIt s) (regex_match_prefix r ct s)
  /\ regex_search r ForwardIt s = regex_search r ct s
  /\ (forall k, agree_lists (tokenizer r ForwardIt s k) (tokenizer r ct s k))
  /\ (forall k, searcher r ForwardIt s k = searcher r ct s k).
Proof.
  intros [Hc Hl].
  assert (H1 : compilable (config_of (flags r) ForwardIt) (ast r)
               = compilable (config_of (flags r) ct) (ast r)).
  { rewrite Hc. symmetry. eapply compiles_any_category; [|exact Hc]. reflexivity. }
  assert (H2 : runs_on_both (config_of (flags r) ForwardIt) (config_of (flags r) ct) false (ast r)).
  { right. rewrite andb_true_r. eapply forward_compiles; [reflexivity|exact Hc|]. destruct Hl as [Hl|Hl]; [discriminate|exact Hl]. }
  destruct (category_calls r ForwardIt ct s H1 H2) as (A & B & C).
  repeat split; auto; intros k; now apply (category_generators r ForwardIt ct s H1 H2 k).
Qed.

Theorem bidirectional_agrees r s :
  agree (regex_match r BidirectionalIt s) (regex_match r RandomAccessIt s)
  /\ agree (regex_match_prefix r BidirectionalIt s) (regex_match_prefix r RandomAccessIt s)
  /\ regex_search r BidirectionalIt s = regex_search r RandomAccessIt s
  /\ (forall k, agree_lists (tokenizer r BidirectionalIt s k) (tokenizer r RandomAccessIt s k))
  /\ (forall k, searcher r BidirectionalIt s k = searcher r RandomAccessIt s k).
Proof.
  assert (H1 : compilable (config_of (flags r) BidirectionalIt) (ast r)
               = compilable (config_of (flags r) RandomAccessIt) (ast r)).
  { now apply compilable_same_category. }
  assert (H2 : runs_on_both (config_of (flags r) BidirectionalIt)
                 (config_of (flags r) RandomAccessIt) false (ast r)) by (left; reflexivity).
  destruct (category_calls r _ _ s H1 H2) as (A & B & C).
  repeat split; auto; intros k; now apply (category_generators r _ _ s H1 H2 k).
Qed.
