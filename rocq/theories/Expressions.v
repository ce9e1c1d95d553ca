(** The expression interface against the pattern syntax (C43). *)
From Verif Require Import Matcher Api Xpr Parser Basics Safe Cong Impl Spec Paths Calls Lift Matching Equiv Classes
  Relate Runs Uniform Regroup Pairs Syntax Typing Shape Reading Accepted Print Literal.
From Coq Require Import Lia.

Definition grouped (p : text) : text := str "(?:" ++ p ++ str ")".

(** The operands: patterns without capturing groups, and their trees. *)
Definition operand (p : text) (n : node) : Prop := parse p = P_ok n /\ capture_count n = 0.

Lemma sum_zero l : list_sum (map capture_count l) = 0 -> Forall (fun n => capture_count n = 0) l.
Proof.
  induction l as [|x l IH]; intros H; [constructor|]. cbn [map] in H.
  change (capture_count x + list_sum (map capture_count l) = 0) in H. constructor; [lia|apply IH; lia].
Qed.

Lemma index_free n : capture_count n = 0 -> forall off, index off n = n.
Proof.
  assert (M : forall l off, Forall (fun n => capture_count n = 0 -> forall off, index off n = n) l ->
    Forall (fun n => capture_count n = 0) l -> map (index off) l = l).
  { intros l off H Hc. rewrite <- (map_id l) at 2. apply map_ext_in. intros x Hx.
    rewrite Forall_forall in *. auto. }
  induction n using node_ind'; intros Hc off; try reflexivity; cbn [capture_count] in Hc.
  - cbn [index]. f_equal. apply M; [exact H|now apply sum_zero].
  - cbn [index]. now rewrite IHn.
  - rewrite index_Seq. f_equal. apply sum_zero in Hc. revert off.
    induction H as [|x l Hx Hl IH]; intros off; [reflexivity|].
    inversion Hc; subst. cbn [index_list]. rewrite Hx by assumption. f_equal. now apply IH.
  - cbn [index]. f_equal. apply M; [exact H|now apply sum_zero].
  - lia.
  - cbn [index]. now rewrite IHn.
  - cbn [index]. now rewrite IHn.
Qed.

Lemma operand_body p n : operand p n -> body p n.
Proof.
  intros [H C]. apply accepted_pattern in H. destruct H as (x & Hx & ->).
  unfold index_captures in *. rewrite capture_count_index in C. now rewrite index_free.
Qed.

Lemma operand_full p n : operand p n -> n <> Seq [] /\ n <> Alt [].
Proof.
  intros [H _]. assert (P : printable n = true) by (apply parse_image; eauto).
  split; intros ->; discriminate P.
Qed.

(** ** Concatenation *)

Lemma flatten_seq_cat a b : flatten_seq a b = cat a b.
Proof. destruct a, b; reflexivity. Qed.

Lemma concat_fold ns x : x_concat (x :: ns) = fold_left cat ns x.
Proof.
  unfold x_concat, flat_wrap. revert x. induction ns as [|y ns IH]; intros x; [reflexivity|].
  cbn [fold_left]. now rewrite flatten_seq_cat, IH.
Qed.

Lemma grouped_items ps ns : Forall2 operand ps ns -> forall n,
  more_items Anything n (flat_map grouped ps) Anything (fold_left cat ns n).
Proof.
  induction 1 as [|p x ps ns H Hs IH]; intros n; [constructor|].
  cbn [flat_map fold_left]. eapply m_item; [|exact I|apply IH].
  apply piece_item, wrap_piece, operand_body, H.
Qed.

Lemma concat_body ps ns : Forall2 operand ps ns -> ps <> [] -> body (flat_map grouped ps) (x_concat ns).
Proof.
  intros H Hne. destruct H as [|p x ps ns H Hs]; [easy|]. rewrite concat_fold.
  cbn [flat_map]. eapply branch_body, b_items; [|now apply grouped_items].
  apply piece_item, wrap_piece, operand_body, H.
Qed.

Lemma cat_count a b : capture_count (cat a b) = capture_count a + capture_count b.
Proof.
  assert (P : forall n, list_sum (map capture_count (parts n)) = capture_count n).
  { intros []; cbn [parts map]; try reflexivity; cbn [list_sum fold_right]; apply Nat.add_0_r. }
  unfold cat. cbn [capture_count]. change (list_sum (map capture_count (parts a ++ parts b)) = capture_count a + capture_count b).
  now rewrite map_app, list_sum_app, !P.
Qed.

Lemma concat_count ps ns : Forall2 operand ps ns -> ps <> [] -> capture_count (x_concat ns) = 0.
Proof.
  intros H Hne. destruct H as [|p x ps ns [_ H] Hs]; [easy|]. rewrite concat_fold. clear Hne p.
  revert x H. induction Hs as [|q y ps ns [_ Hy] Hs IH]; intros x Hx; [exact Hx|].
  cbn [fold_left]. apply IH. rewrite cat_count. lia.
Qed.

Theorem concat_parses ps ns : Forall2 operand ps ns -> ps <> [] ->
  parse (flat_map grouped ps) = P_ok (x_concat ns).
Proof.
  intros H Hne. rewrite (pattern_parses _ _ (concat_body ps ns H Hne)). unfold index_captures.
  now rewrite index_free by (eapply concat_count; eauto).
Qed.

(** The operands one after the other, as the other components pack them. *)
Lemma seq_regrouped r : Forall (fun n => n <> Seq []) r -> forall l1,
  regrouped false (Seq (l1 ++ r)) (Seq (l1 ++ flat_map parts r)).
Proof.
  induction 1 as [|y r Hy Hr IH]; intros l1; [constructor|]. cbn [flat_map].
  assert (E : regrouped false (Seq (l1 ++ y :: r)) (Seq ((l1 ++ parts y) ++ r))).
  { destruct y as [| | | | | | | | | | |l2| | | | | |]; cbn [parts]; try (rewrite <- app_assoc; apply rgd_refl).
    rewrite <- app_assoc. apply (rgd_step false Hole). apply rg_seq. intros ->. congruence. }
  eapply rgd_trans; [exact E|]. rewrite app_assoc. apply IH.
Qed.

Lemma fold_cat_parts ns : forall x, ns <> [] -> fold_left cat ns x = Seq (parts x ++ flat_map parts ns).
Proof.
  induction ns as [|y ns IH]; intros x Hne; [easy|]. cbn [fold_left flat_map].
  destruct ns as [|z ns]; [cbn; now rewrite app_nil_r|]. rewrite IH by discriminate.
  unfold cat. cbn [parts]. now rewrite <- app_assoc.
Qed.

Lemma packed_regrouped ns : ns <> [] -> Forall (fun n => n <> Seq []) ns -> regrouped false (packed ns) (x_concat ns).
Proof.
  intros Hne H. destruct ns as [|x [|y ns]]; [easy|apply rgd_refl|]. rewrite concat_fold, fold_cat_parts by discriminate.
  exact (seq_regrouped (x :: y :: ns) H []).
Qed.

Lemma operands_full ps ns : Forall2 operand ps ns -> Forall (fun n => n <> Seq []) ns /\ Forall (fun n => n <> Alt []) ns.
Proof.
  induction 1 as [|p n ps ns H Hs [IH1 IH2]]; [split; constructor|]. apply operand_full in H. destruct H.
  split; constructor; auto.
Qed.

(** Regrouping in a context. *)
Fixpoint inside (C D : ctx) : ctx :=
  match C with
  | Hole => D
  | CSeq l1 C l2 => CSeq l1 (inside C D) l2
  | CAlt l1 C l2 => CAlt l1 (inside C D) l2
  | CCap id nm C => CCap id nm (inside C D)
  | CRep md lo hi C => CRep md lo hi (inside C D)
  | CLook d C => CLook d (inside C D)
  | CNegLook d C => CNegLook d (inside C D)
  end.

Lemma plug_inside C D x : plug C (plug D x) = plug (inside C D) x.
Proof. induction C; cbn [plug inside]; try rewrite IHC; reflexivity. Qed.

Lemma regrouped_inside al C x y : regrouped al x y -> regrouped al (plug C x) (plug C y).
Proof.
  induction 1 as [D x y H|x|x y _ IH|x y z _ IH1 _ IH2].
  - rewrite !plug_inside. now apply rgd_step.
  - apply rgd_refl.
  - now apply rgd_sym.
  - eapply rgd_trans; eauto.
Qed.

(** ** The other components *)

Lemma opening_parses o F ps ns : opening o F -> Forall2 operand ps ns -> ps <> [] ->
  parse (str "(" ++ o ++ flat_map grouped ps ++ str ")") = P_ok (index_captures (F (x_concat ns))).
Proof.
  intros Ho H Hne. apply pattern_parses. eapply branch_body, item_branch, piece_item, u_group; [exact Ho|].
  now apply concat_body.
Qed.

Lemma context_agree C ns fl ct s : ns <> [] -> Forall (fun n => n <> Seq []) ns ->
  indistinguishable (plug C (x_concat ns)) (plug C (packed ns)) fl ct s.
Proof.
  intros Hne H. apply regrouped_agree, rgd_sym, regrouped_inside. now apply packed_regrouped.
Qed.

Theorem repeat_agree ps ns q lo hi md fl ct s : Forall2 operand ps ns -> ps <> [] -> bounds q lo hi ->
  exists n, parse (grouped (flat_map grouped ps) ++ q ++ mode_text md) = P_ok n
    /\ indistinguishable n (Rep md lo hi (packed ns)) fl ct s.
Proof.
  intros H Hne Hq. exists (Rep md lo hi (x_concat ns)). split.
  - unfold grouped at 1. rewrite <- !app_assoc. apply group_rep_parses; [now apply concat_parses|exact Hq].
  - apply (context_agree (CRep md lo hi Hole)); [|eapply operands_full; eauto].
    intros ->. inversion H. subst. congruence.
Qed.

Theorem group_agree o F C ps ns fl ct s : Forall2 operand ps ns -> ps <> [] -> opening o F ->
  (forall x, capture_count x = 0 -> index_captures (F x) = plug C x) ->
  exists n, parse (str "(" ++ o ++ flat_map grouped ps ++ str ")") = P_ok n
    /\ indistinguishable n (plug C (packed ns)) fl ct s.
Proof.
  intros H Hne Ho HC. exists (plug C (x_concat ns)). split.
  - rewrite (opening_parses o F ps ns) by assumption. f_equal. apply HC. eapply concat_count; eauto.
  - apply context_agree; [|eapply operands_full; eauto]. intros ->. inversion H. subst. congruence.
Qed.

(** ** Alternation *)

Lemma either_fold ns x : ns <> [] -> x_either (x :: ns) = Alt (branches x ++ flat_map branches ns).
Proof.
  assert (E : forall a b, flatten_alt a b = Alt (branches a ++ branches b)) by (intros [] []; reflexivity).
  unfold x_either, flat_wrap. revert x. induction ns as [|y ns IH]; intros x Hne; [easy|].
  cbn [fold_left flat_map]. rewrite E. destruct ns as [|z ns]; [cbn; now rewrite app_nil_r|].
  rewrite IH by discriminate. cbn [branches]. now rewrite <- app_assoc.
Qed.

Lemma or_fold ns : forall x, ns <> [] -> fold_left or ns x = Alt (branches x ++ ns).
Proof.
  induction ns as [|y ns IH]; intros x Hne; [easy|]. cbn [fold_left].
  destruct ns as [|z ns]; [reflexivity|]. rewrite IH by discriminate. unfold or. cbn [branches]. now rewrite <- app_assoc.
Qed.

Lemma grouped_branches ps ns : Forall2 operand ps ns -> forall n,
  more_branches Anything n (flat_map (fun t => str "|" ++ t) (map grouped ps)) Anything (fold_left or ns n).
Proof.
  induction 1 as [|p x ps ns H Hs IH]; intros n; [constructor|].
  cbn [map flat_map fold_left]. rewrite <- app_assoc. eapply o_branch; [|discriminate|apply IH].
  apply item_branch, piece_item, wrap_piece, operand_body, H.
Qed.

Lemma alt_regrouped r : Forall (fun n => n <> Alt []) r -> forall l1,
  regrouped true (Alt (l1 ++ r)) (Alt (l1 ++ flat_map branches r)).
Proof.
  induction 1 as [|y r Hy Hr IH]; intros l1; [constructor|]. cbn [flat_map].
  assert (E : regrouped true (Alt (l1 ++ y :: r)) (Alt ((l1 ++ branches y) ++ r))).
  { destruct y as [| | | | | | | | | | | |l2| | | | |]; cbn [branches]; try (rewrite <- app_assoc; apply rgd_refl).
    rewrite <- app_assoc. apply (rgd_step true Hole). apply rg_alt; [reflexivity|]. intros ->. congruence. }
  eapply rgd_trans; [exact E|]. rewrite app_assoc. apply IH.
Qed.

Lemma alt_regrouped_apart r : Forall (fun n => n <> Alt []) r ->
  (forall pre l post, r = pre ++ Alt l :: post -> separate l post) -> forall l1,
  regrouped false (Alt (l1 ++ r)) (Alt (l1 ++ flat_map branches r)).
Proof.
  induction 1 as [|y r Hy Hr IH]; intros Ha l1; [constructor|]. cbn [flat_map].
  assert (E : regrouped false (Alt (l1 ++ y :: r)) (Alt ((l1 ++ branches y) ++ r))).
  { destruct y as [| | | | | | | | | | | |l2| | | | |]; cbn [branches]; try (rewrite <- app_assoc; apply rgd_refl).
    rewrite <- app_assoc. apply (rgd_step false Hole). apply rg_alt_separate; [now apply (Ha [])|].
    intros ->. congruence. }
  eapply rgd_trans; [exact E|]. rewrite app_assoc. apply IH.
  intros pre l post ->. now apply (Ha (y :: pre)).
Qed.

Lemma alt_count l : Forall (fun n => capture_count n = 0) l -> capture_count (Alt l) = 0.
Proof. induction 1 as [|x l H Hl IH]; [reflexivity|].
  change (capture_count x + capture_count (Alt l) = 0). lia. Qed.

Theorem either_agree ps ns fl ct s : Forall2 operand ps ns -> ps <> [] ->
  forallb backref_free ns = true ->
  exists n, parse (join (map grouped ps)) = P_ok n /\ indistinguishable n (x_either ns) fl ct s.
Proof.
  intros H Hne Hb. destruct (operands_full ps ns H) as [_ Ha].
  assert (Hc : Forall (fun n => capture_count n = 0) ns).
  { clear - H. induction H as [|p n ps ns [_ H] Hs IH]; constructor; auto. }
  destruct H as [|p x ps ns H Hs]; [easy|].
  exists (fold_left or ns x). split.
  - cbn [map]. rewrite join_bars. rewrite (pattern_parses _ (fold_left or ns x)).
    + unfold index_captures. rewrite index_free; [reflexivity|].
      inversion Hc; subst. destruct ns as [|y ns]; [cbn; assumption|]. rewrite or_fold by discriminate.
      apply alt_count. apply Forall_app. split; [|assumption].
      destruct x; cbn [branches]; try (constructor; [assumption|constructor]). now apply sum_zero.
    + eapply y_branches; [|now apply grouped_branches].
      apply item_branch, piece_item, wrap_piece, operand_body, H.
  - destruct ns as [|y ns]; [apply regrouped_agree, rgd_refl|]. rewrite or_fold, either_fold by discriminate.
    apply regrouped_agree_free.
    + change (backref_free x && forallb backref_free (y :: ns) = true) in Hb. apply andb_prop in Hb. destruct Hb as [Hb1 Hb2].
      change (forallb backref_free (branches x ++ y :: ns) = true). rewrite forallb_app, Hb2, andb_true_r.
      destruct x; cbn [branches forallb]; try (rewrite andb_true_r; exact Hb1). exact Hb1.
    + apply alt_regrouped. now inversion Ha.
Qed.

Theorem either_agree_apart ps ns fl ct s : Forall2 operand ps ns -> ps <> [] ->
  (forall pre l post, ns = pre ++ Alt l :: post -> pre <> [] -> separate l post) ->
  exists n, parse (join (map grouped ps)) = P_ok n /\ indistinguishable n (x_either ns) fl ct s.
Proof.
  intros H Hne Hb. destruct (operands_full ps ns H) as [_ Ha].
  assert (Hc : Forall (fun n => capture_count n = 0) ns).
  { clear - H. induction H as [|p n ps ns [_ H] Hs IH]; constructor; auto. }
  destruct H as [|p x ps ns H Hs]; [easy|].
  exists (fold_left or ns x). split.
  - cbn [map]. rewrite join_bars. rewrite (pattern_parses _ (fold_left or ns x)).
    + unfold index_captures. rewrite index_free; [reflexivity|].
      inversion Hc; subst. destruct ns as [|y ns]; [cbn; assumption|]. rewrite or_fold by discriminate.
      apply alt_count. apply Forall_app. split; [|assumption].
      destruct x; cbn [branches]; try (constructor; [assumption|constructor]). now apply sum_zero.
    + eapply y_branches; [|now apply grouped_branches].
      apply item_branch, piece_item, wrap_piece, operand_body, H.
  - destruct ns as [|y ns]; [apply regrouped_agree, rgd_refl|]. rewrite or_fold, either_fold by discriminate.
    apply regrouped_agree. apply alt_regrouped_apart; [now inversion Ha|].
    intros pre l post E. apply (Hb (x :: pre)); [cbn; now rewrite E|discriminate].
Qed.

(** ** Texts *)

Lemma str_usable t fl ct : t <> [] -> usable (mk_regex (x_str t) fl) ct.
Proof.
  intros Hne. unfold x_str, to_sequence. split; cbn [ast flags].
  - unfold compilable. rewrite size_Seq. destruct t as [|c t]; [easy|]. cbn [compiles map].
    change (Lit c :: map Lit t) with (map Lit (c :: t)).
    apply forallb_forall. intros x Hx. apply in_map_iff in Hx. destruct Hx as (y & <- & _). reflexivity.
  - right. right. clear Hne. cbn. induction t; [reflexivity|exact IHt].
Qed.

Theorem str_match t fl ct s : t <> [] ->
  returns (regex_match (mk_regex (x_str t) fl) ct s) (fun res =>
    matched res = true <-> Forall2 (same_letter (flag_test fl F_icase)) t s).
Proof.
  intros Hne.
  assert (R : regular (x_str t) = true /\ possessive_free (x_str t) = true).
  { unfold x_str, to_sequence. clear Hne. split; induction t; try reflexivity; exact IHt. }
  destruct (match_language _ ct s (str_usable t fl ct Hne) (proj1 R) (proj2 R)) as (res & E & H).
  exists res. split; [exact E|]. rewrite H. cbn [ast flags]. rewrite <- (matches_lits (config_of fl ct)).
  unfold x_str, to_sequence. destruct t as [|c [|d t]]; [easy| |reflexivity].
  cbn [map lits]. rewrite matches_Seq. cbn [map chain]. split; [intros (k & Hk & <-); exact Hk|].
  intros K. eexists. split; [exact K|reflexivity].
Qed.

(** ** Negation of classes *)

Theorem negate_class n fl ct s : is_class n = true -> usable (mk_regex n fl) ct -> usable (mk_regex (x_negate n) fl) ct ->
  returns (regex_match (mk_regex n fl) ct s) (fun r1 =>
    returns (regex_match (mk_regex (x_negate n) fl) ct s) (fun r2 =>
      matched r2 = (Nat.eqb (length s) 1 && negb (matched r1)))).
Proof.
  intros Hc U1 U2. destruct (class_match n fl ct s Hc U1) as (r1 & E1 & H1).
  destruct (class_match (x_negate n) fl ct s Hc U2) as (r2 & E2 & H2).
  exists r1. split; [exact E1|]. exists r2. split; [exact E2|]. rewrite H1, H2.
  destruct s as [|a [|b r]]; reflexivity.
Qed.
