(** Backreferences, flags and conversions of results: C22, C40-C42. *)
From Verif Require Import Basics Safe Calls Lift Matching Spec Generators.
From Verif Require Export Api.

Lemma Forall2_length {A B} (P : A -> B -> Prop) l1 l2 : Forall2 P l1 l2 -> length l1 = length l2.
Proof. induction 1; cbn; congruence. Qed.

(** ** C22 *)

(** The text [t] occurs at offset [i], letter case ignored if configured so. *)
Definition repeats (cf : config) (s : list ascii) (i : nat) (t : list ascii) : Prop :=
  Forall2 (fun a b => a = b \/ (icase cf = true /\ other_case a = b)) t
    (firstn (length t) (skipn i s)).

Lemma backref_char_spec cf a b :
  backref_char_eq cf a b = true <-> (a = b \/ (icase cf = true /\ other_case a = b)).
Proof.
  unfold backref_char_eq. rewrite invert_case_other, orb_true_iff, andb_true_iff, !Ascii.eqb_eq.
  reflexivity.
Qed.

Lemma skipn_cons_nth {A} (s : list A) i : forall a r, skipn i s = a :: r ->
  nth_error s i = Some a /\ skipn (S i) s = r.
Proof.
  revert s. induction i as [|i IH]; intros [|x s] a r E; cbn in E; try discriminate.
  - injection E as -> ->. auto.
  - cbn. now apply IH.
Qed.

Lemma backref_loop_spec cf s t : forall cur c k, cur + length t <= length s ->
  (repeats cf s cur t -> backref_loop cf s t cur c k = k (cur + length t) c)
  /\ (~ repeats cf s cur t -> exists e, backref_loop cf s t cur c k = Res c e false).
Proof.
  induction t as [|x t IH]; intros cur c k H; cbn [backref_loop length] in *.
  - rewrite Nat.add_0_r. split; [auto|]. intros N. exfalso. apply N. constructor.
  - unfold deref. destruct (skipn cur s) as [|a r] eqn:E.
    { apply (f_equal (@length _)) in E. rewrite skipn_length in E. cbn in E. lia. }
    destruct (skipn_cons_nth s cur a r E) as [-> Er].
    assert (Hc : repeats cf s cur (x :: t) <-> backref_char_eq cf x a = true /\ repeats cf s (S cur) t).
    { unfold repeats. rewrite E, Er. cbn [length firstn]. rewrite backref_char_spec. split.
      - intros F. inversion F; subst. auto.
      - intros [F1 F2]. now constructor. }
    destruct (backref_char_eq cf x a).
    + destruct (IH (S cur) c k ltac:(lia)) as [I1 I2].
      replace (cur + S (length t)) with (S cur + length t) by lia. split; intros F.
      * apply I1. now apply Hc.
      * apply I2. intros F'. apply F. now apply Hc.
    + split; intros F; [apply Hc in F as [F _]; discriminate|]. unfold non_match. eauto.
Qed.

Lemma content_length s v : valid_range s v -> length (cell_content s v) = cell_length v.
Proof.
  destruct v as [[b e]|]; cbn; [|reflexivity]. intros [H1 H2].
  rewrite firstn_length, skipn_length. lia.
Qed.

Lemma repeats_fits cf s i t : repeats cf s i t -> t <> [] -> i + length t <= length s.
Proof.
  intros H Hn. apply Forall2_length in H. rewrite firstn_length, skipn_length in H.
  assert (length t <> 0) by now destruct t. lia.
Qed.

Lemma backref_match_spec cf s rd i cur c k v : cur <= length s ->
  nth_error c i = Some v -> valid_range s v ->
  let t := match rd with 0 => cell_content s v | _ => rev (cell_content s v) end in
  (repeats cf (view s rd) cur t -> backref_match cf s rd i cur c k = k (cur + length t) c)
  /\ (~ repeats cf (view s rd) cur t -> exists e, backref_match cf s rd i cur c k = Res c e false).
Proof.
  intros Hcur Hv Hr t. unfold backref_match. rewrite Hv.
  assert (Hlen : length t = cell_length v).
  { subst t. destruct rd; rewrite ?rev_length; now apply content_length. }
  set (be := match v with Some p => p | None => (0, 0) end).
  assert (Ht : t = match rd with 0 => firstn (snd be - fst be) (skipn (fst be) s)
                            | _ => rev (firstn (snd be - fst be) (skipn (fst be) s)) end).
  { subst t be. destruct v as [[b e]|]; reflexivity. }
  assert (Hl : snd be - fst be = length t).
  { rewrite Hlen. subst be. destruct v as [[b e]|]; reflexivity. }
  assert (Hok : Nat.ltb (snd be) (fst be) || Nat.ltb (len s) (snd be) = false).
  { subst be. unfold len. destruct v as [[b e]|]; cbn [fst snd valid_range] in Hr |- *.
    - apply orb_false_iff. rewrite !Nat.ltb_ge. lia.
    - reflexivity. }
  clearbody be. destruct be as [b e]. cbn [fst snd] in *.
  rewrite (distance_spec cf s (view s rd) (view_length s rd)) by auto.
  rewrite Nat2N.id, Hok, Hl. rewrite <- Hl, <- Ht, Hl.
  destruct (Nat.ltb_spec (length s - cur) (length t)) as [Hlt|Hge].
  - split; intros F; [|unfold non_match; eauto].
    apply repeats_fits in F; [rewrite view_length in F; lia|]. intros ->. cbn in *. lia.
  - apply backref_loop_spec. rewrite view_length. lia.
Qed.

Theorem backref_repeats cf names s id cur c k v : cur <= length s ->
  nth_error c (N.to_nat id) = Some v -> valid_range s v ->
  let t := cell_content s v in
  (repeats cf s cur t -> node_match cf names s 0 (Backref id) cur c k = k (cur + length t) c)
  /\ (~ repeats cf s cur t -> exists e, node_match cf names s 0 (Backref id) cur c k = Res c e false).
Proof. intros Hc Hv Hr. exact (backref_match_spec cf s 0 _ cur c k v Hc Hv Hr). Qed.

Theorem named_backref_repeats cf names s nm i cur c k v : cur <= length s ->
  nth_error names i = Some (Some nm) ->
  (forall j, nth_error names j = Some (Some nm) -> j = i) ->
  nth_error c i = Some v -> valid_range s v ->
  let t := cell_content s v in
  (repeats cf s cur t -> node_match cf names s 0 (NBackref nm) cur c k = k (cur + length t) c)
  /\ (~ repeats cf s cur t -> exists e, node_match cf names s 0 (NBackref nm) cur c k = Res c e false).
Proof.
  intros Hc Hi Hu Hv Hr. cbn.
  assert (E : unique_position (Some nm) names = Some i).
  { assert (Hself : forall l, chars_eqb l l = true).
    { induction l as [|a l IH]; [reflexivity|]. cbn. now rewrite Ascii.eqb_refl. }
    assert (Heq : forall x, name_eqb (Some nm) x = true -> x = Some nm).
    { intros [x|]; [|discriminate]. cbn. intros E. f_equal. revert x E. clear.
      induction nm as [|a l IH]; intros [|y x] E; cbn in E; try discriminate; auto.
      apply andb_true_iff in E as [E1 E2]. apply Ascii.eqb_eq in E1. subst. f_equal. auto. }
    assert (Hp : forall l o, (forall j, nth_error l j = Some (Some nm) -> False) ->
      positions_of (Some nm) l o = []).
    { induction l as [|x l IH]; intros o H; [reflexivity|]. cbn [positions_of].
      destruct (name_eqb (Some nm) x) eqn:Ex.
      - apply Heq in Ex. subst x. exfalso. exact (H 0 eq_refl).
      - cbn. apply IH. intros j. apply (H (S j)). }
    assert (Hq : forall l o i, nth_error l i = Some (Some nm) ->
      (forall j, nth_error l j = Some (Some nm) -> j = i) ->
      positions_of (Some nm) l o = [o + i]).
    { clear - Hself Heq Hp. induction l as [|x l IH]; intros o i Hi Hu; [now destruct i|].
      cbn [positions_of]. destruct i as [|i].
      - injection Hi as ->. cbn [name_eqb]. rewrite Hself, Nat.add_0_r. cbn. f_equal.
        apply Hp. intros j Hj. specialize (Hu (S j) Hj). discriminate.
      - destruct (name_eqb (Some nm) x) eqn:Ex.
        + apply Heq in Ex. subst x. specialize (Hu 0 eq_refl). discriminate.
        + cbn [app]. rewrite (IH (S o) i Hi).
          * f_equal. lia.
          * intros j Hj. specialize (Hu (S j) Hj). congruence. }
    unfold unique_position. now rewrite (Hq names 0 i Hi Hu). }
  rewrite E. exact (backref_match_spec cf s 0 i cur c k v Hc Hv Hr).
Qed.

(** Inside a lookbehind the matcher moves backwards: offset [cur] of the
    reversed text is the position [p = length s - cur], and the text held by
    the group must end there. *)
Theorem backref_repeats_behind cf names s id cur c k v : cur <= length s ->
  nth_error c (N.to_nat id) = Some v -> valid_range s v ->
  let t := cell_content s v in
  let p := length s - cur in
  (length t <= p /\ repeats cf s (p - length t) t ->
     node_match cf names s 1 (Backref id) cur c k = k (cur + length t) c)
  /\ (~ (length t <= p /\ repeats cf s (p - length t) t) ->
     exists e, node_match cf names s 1 (Backref id) cur c k = Res c e false).
Proof.
  intros Hc Hv Hr t p. pose proof (backref_match_spec cf s 1 _ cur c k v Hc Hv Hr) as H.
  cbv beta iota zeta in H. fold t in H. rewrite rev_length in H.
  assert (Hiff : repeats cf (view s 1) cur (rev t)
                 <-> length t <= p /\ repeats cf s (p - length t) t).
  { assert (Hsplit : forall q, length t <= q -> q = p ->
      firstn (length t) (skipn cur (rev s)) = rev (firstn (length t) (skipn (q - length t) s))).
    { intros q Hq ->. rewrite skipn_rev, firstn_rev, firstn_length, skipn_firstn_comm.
      f_equal. fold p. rewrite Nat.min_l by (subst p; lia).
      f_equal. lia. }
    assert (Hrev : forall (P : ascii -> ascii -> Prop) l1 l2, Forall2 P l1 l2 -> Forall2 P (rev l1) (rev l2)).
    { induction 1; cbn; [constructor|]. apply Forall2_app; auto. }
    change (view s 1) with (rev s). unfold repeats. rewrite rev_length. split.
    - intros F. assert (Hlt : length t <= p).
      { apply Forall2_length in F. rewrite rev_length, firstn_length, skipn_length, rev_length in F.
        subst p. lia. }
      split; [exact Hlt|]. rewrite (Hsplit p Hlt eq_refl) in F. apply Hrev in F.
      now rewrite !rev_involutive in F.
    - intros [Hlt F]. rewrite (Hsplit p Hlt eq_refl). now apply Hrev. }
  destruct H as [H1 H2]. split; intros F.
  - apply H1. now apply Hiff.
  - apply H2. intros F'. apply F. now apply Hiff.
Qed.

(** ** C42 *)

Theorem flags_are_a_set n fl1 fl2 ct s : (forall f, In f fl1 <-> In f fl2) ->
  same_calls (mk_regex n fl1) (mk_regex n fl2) ct s s.
Proof.
  intros H. assert (E : config_of fl1 ct = config_of fl2 ct).
  { assert (Ht : forall f, flag_test fl1 f = flag_test fl2 f).
    { intros f. specialize (H f). rewrite <- !flag_test_In in H.
      destruct (flag_test fl1 f), (flag_test fl2 f); intuition congruence. }
    unfold config_of. now rewrite !Ht. }
  unfold same_calls, regex_match, regex_match_prefix, regex_search, tokenize, find_all,
    tokenizer, searcher, invoke, range_of, generator_results. cbn [ast flags]. rewrite E.
  repeat split; reflexivity.
Qed.

Lemma same_calls_In n fl1 fl2 ct s : (forall f, In f fl1 <-> In f fl2) ->
  same_calls (mk_regex n fl1) (mk_regex n fl2) ct s s.
Proof. apply flags_are_a_set. Qed.

Theorem adding_flags r extra1 extra2 ct s :
  (forall f, In f (flags r) \/ In f extra1 <-> In f extra2) ->
  same_calls (add_flags r extra1) (mk_regex (ast r) extra2) ct s s.
Proof.
  intros H. apply flags_are_a_set. intros f. rewrite in_app_iff. apply H.
Qed.

(** ** C40 *)

(** The text of an owned group is, character by character, the captured part of
    the input. *)
Theorem owned_text s r i b e : Forall (valid_range s) (groups r) ->
  group r i = Some (Some (b, e)) ->
  exists t, nth_error (owned_groups (as_memory_owner s r)) i = Some t
    /\ length t = e - b
    /\ forall j, j < e - b -> nth_error t j = nth_error s (b + j).
Proof.
  intros HF Hg. unfold group in Hg. exists (cell_content s (Some (b, e))).
  assert (Hv : valid_range s (Some (b, e))).
  { rewrite Forall_forall in HF. apply HF. eapply nth_error_In; eauto. }
  split; [|split].
  - cbn. now rewrite nth_error_map, Hg.
  - now rewrite content_length.
  - intros j Hj. cbn. clear -Hj. revert s Hj. generalize (e - b) as l. intros l s Hl.
    assert (E : nth_error (skipn b s) j = nth_error s (b + j)).
    { clear. revert s. induction b as [|b IH]; intros s; [reflexivity|].
      destruct s; [now destruct j|]. cbn. apply IH. }
    rewrite <- E. clear E. generalize (skipn b s) as u. clear s. revert j Hl.
    induction l as [|l IH]; intros j Hl u; [lia|]. destruct u; [reflexivity|].
    destruct j; [reflexivity|]. cbn. apply IH. lia.
Qed.

Theorem owned_unset s r i : group r i = Some None ->
  nth_error (owned_groups (as_memory_owner s r)) i = Some [].
Proof. unfold group. intros H. cbn. now rewrite nth_error_map, H. Qed.

Lemma positions_of_spec nm names : forall o i,
  In i (positions_of (Some nm) names o) <->
  exists j, i = o + j /\ nth_error names j = Some (Some nm).
Proof.
  assert (Heq : forall x, name_eqb (Some nm) x = true <-> x = Some nm).
  { intros [x|]; [|split; discriminate]. cbn. split.
    - intros E. f_equal. revert x E.
      induction nm as [|a l IH]; intros [|y x] E; cbn in E; try discriminate; auto.
      apply andb_true_iff in E as [E1 E2]. apply Ascii.eqb_eq in E1. subst. f_equal. auto.
    - intros [= ->]. induction nm as [|a l IH]; [reflexivity|]. cbn. now rewrite Ascii.eqb_refl. }
  induction names as [|x l IH]; intros o i; cbn [positions_of].
  - split; [contradiction|]. intros (j & _ & E). now destruct j.
  - rewrite in_app_iff, IH. split.
    + intros [H|(j & -> & E)].
      * destruct (name_eqb (Some nm) x) eqn:Ex; [|contradiction]. destruct H as [<-|[]].
        apply Heq in Ex. subst. exists 0. split; [lia|reflexivity].
      * exists (S j). split; [lia|exact E].
    + intros ([|j] & -> & E).
      * left. injection E as ->. replace (name_eqb (Some nm) (Some nm)) with true
          by (symmetry; now apply Heq). left. lia.
      * right. exists j. split; [lia|exact E].
Qed.

Lemma positions_of_nodup nm names : forall o, NoDup (positions_of nm names o).
Proof.
  assert (H : forall l o i, In i (positions_of nm l o) -> o <= i).
  { induction l as [|x l IH]; intros o i Hi; cbn in Hi; [contradiction|].
    apply in_app_iff in Hi as [Hi|Hi].
    - destruct (name_eqb nm x); [|contradiction]. destruct Hi as [<-|[]]. lia.
    - apply IH in Hi. lia. }
  induction names as [|x l IH]; intros o; cbn; [constructor|].
  destruct (name_eqb nm x); cbn; [|apply IH]. constructor; [|apply IH].
  intros Hi. apply H in Hi. lia.
Qed.

(** A group by name is the group with the number of the only group of that
    name; for a missing or ambiguous name the access does not compile. *)
Theorem group_by_name n r nm v : length (groups r) = length (group_names n) ->
  (group_named n r nm = Some v <->
   exists i, nth_error (group_names n) i = Some (Some nm)
     /\ (forall j, nth_error (group_names n) j = Some (Some nm) -> j = i)
     /\ group r i = Some v).
Proof.
  intros Hl. unfold group_named, group, unique_position.
  pose proof (positions_of_spec nm (group_names n) 0) as Hp.
  pose proof (positions_of_nodup (Some nm) (group_names n) 0) as Hd.
  destruct (positions_of (Some nm) (group_names n) 0) as [|i [|i' l]].
  - split; [discriminate|]. intros (i & E & _). exfalso.
    apply (proj2 (Hp i)). exists i. auto.
  - split.
    + intros E. exists i. split; [|split; [|exact E]].
      * destruct (proj1 (Hp i) (or_introl eq_refl)) as (j & -> & Ej). exact Ej.
      * intros j Ej. destruct (proj2 (Hp j)) as [<-|[]]; [exists j; auto|reflexivity].
    + intros (j & Ej & _ & E). destruct (proj2 (Hp j)) as [->|[]]; [exists j; auto|exact E].
  - split; [discriminate|]. intros (j & _ & Hu & _). exfalso.
    destruct (proj1 (Hp i) (or_introl eq_refl)) as (x & -> & Ex).
    destruct (proj1 (Hp i') (or_intror (or_introl eq_refl))) as (y & -> & Ey).
    apply Hu in Ex, Ey. subst. inversion Hd as [|? ? Hn _]. apply Hn. now left.
Qed.

(** ** C41 *)

(** The conversion of a capture to [bool] says the opposite. *)
Theorem capture_bool_is_empty s v : valid_range s v ->
  (cell_to_bool v = true <-> cell_content s v = [])
  /\ owned_to_bool (cell_content s v) = cell_to_bool v.
Proof.
  intros Hv. pose proof (content_length s v Hv) as Hl.
  assert (H : cell_to_bool v = true <-> cell_content s v = []).
  { unfold cell_to_bool. destruct v as [[b e]|]; cbn [cell_is_empty]; [|easy].
    rewrite Nat.eqb_eq. cbn [cell_length] in Hl. cbn [valid_range] in Hv. split.
    - intros ->. cbn. now rewrite Nat.sub_diag.
    - intros E. rewrite E in Hl. cbn in Hl. cbn in Hv. lia. }
  split; [exact H|]. destruct (cell_content s v); cbn.
  - symmetry. now apply H.
  - destruct (cell_to_bool v); [|reflexivity]. discriminate (proj1 H eq_refl).
Qed.

Theorem verdict_kept s r :
  owned_matched (as_memory_owner s r) = matched r
  /\ length (owned_groups (as_memory_owner s r)) = group_count r
  /\ (forall r', as_optional r = Some r' <-> matched r = true /\ r' = r).
Proof.
  split; [reflexivity|]. split; [apply map_length|]. intros r'. unfold as_optional.
  destruct (matched r); split.
  - intros [= ->]. auto.
  - intros [_ ->]. reflexivity.
  - discriminate.
  - intros [H _]. discriminate.
Qed.
