(** Regrouping of concatenations and alternations (C21). *)
From Verif Require Import Matcher Api Basics Safe Cong Impl Spec Paths Adequacy Calls Lift Matching
  Equiv Relate Runs.

Definition one_character (n : node) : bool :=
  match n with Lit _ | Range _ _ => true | _ => false end.

(** No character fits two of the single characters at the end of the alternatives [l],
    or one of these and one of [l3] if these all are single characters. *)
Fixpoint separate_run (l l3 : list node) : Prop :=
  match l with
  | [] => True
  | x :: q =>
      separate_run q l3
      /\ (forallb trivial (x :: q) = true -> forall cf a, match_one cf x a = true ->
          existsb (fun y => match_one cf y a) (q ++ if forallb trivial l3 then l3 else []) = false)
  end.

(** So, or all of them are single characters. *)
Definition separate (l l3 : list node) : Prop := forallb trivial (l ++ l3) = true \/ separate_run l l3.

(** One regrouping at the root.  [al] allows to dissolve every alternation that is
    not the last alternative, not only those that are [separate] from the following ones. *)
Inductive regroups (al : bool) : node -> node -> Prop :=
| rg_seq l1 l2 l3 : l2 <> [] -> regroups al (Seq (l1 ++ Seq l2 :: l3)) (Seq (l1 ++ l2 ++ l3))
| rg_seq_one x : regroups al (Seq [x]) x
| rg_alt_last l1 l2 : l2 <> [] -> regroups al (Alt (l1 ++ [Alt l2])) (Alt (l1 ++ l2))
| rg_alt l1 l2 l3 : al = true -> l2 <> [] ->
    regroups al (Alt (l1 ++ Alt l2 :: l3)) (Alt (l1 ++ l2 ++ l3))
| rg_alt_one x : regroups al (Alt [x]) x
| rg_set_one x : one_character x = true -> regroups al (CSet [x]) x
| rg_not_set_one x : one_character x = true -> regroups al (Neg (CSet [x])) (Neg x)
| rg_alt_separate l1 l2 l3 : separate l2 l3 -> l2 <> [] ->
    regroups al (Alt (l1 ++ Alt l2 :: l3)) (Alt (l1 ++ l2 ++ l3)).

Lemma separate_map g l l3 : (forall x, trivial (g x) = trivial x) ->
  (forall cf x a, match_one cf (g x) a = match_one cf x a) -> separate l l3 -> separate (map g l) (map g l3).
Proof.
  intros T M.
  assert (TL : forall l, forallb trivial (map g l) = forallb trivial l).
  { intros k. rewrite forallb_map. apply forallb_ext_Forall, Forall_forall. intros; apply T. }
  assert (ML : forall cf a l, existsb (fun y => match_one cf y a) (map g l) = existsb (fun y => match_one cf y a) l).
  { intros cf a k. rewrite existsb_map. apply existsb_ext_Forall, Forall_forall. intros; apply M. }
  intros [H|H]; [left; now rewrite <- map_app, TL|right].
  induction l as [|x q IH]; [exact I|]. destruct H as [H1 H2]. split; [now apply IH|].
  change (g x :: map g q) with (map g (x :: q)). rewrite !TL. intros Ht cf a Ha. rewrite M in Ha.
  specialize (H2 Ht cf a Ha). rewrite existsb_app in *. rewrite ML.
  destruct (forallb trivial l3); rewrite ?ML; exact H2.
Qed.

(** Any number of regroupings, in both directions, anywhere in the tree. *)
Inductive regrouped (al : bool) : node -> node -> Prop :=
| rgd_step C x y : regroups al x y -> regrouped al (plug C x) (plug C y)
| rgd_refl x : regrouped al x x
| rgd_sym x y : regrouped al x y -> regrouped al y x
| rgd_trans x y z : regrouped al x y -> regrouped al y z -> regrouped al x z.

(** Run matchers one after the other. *)
Fixpoint in_order (l : list matcher) : matcher := fun cur c k =>
  match l with
  | [] => k cur c
  | mx :: r => mx cur c (fun j c' => in_order r j c' k)
  end.

(** Try matchers in order. *)
Fixpoint first_of (l : list matcher) : matcher := fun cur c k =>
  match l with
  | [] => IllFormed
  | mx :: r =>
      match r with
      | [] => mx cur c k
      | _ => or_else (mx cur c k) (fun c' => first_of r cur c' k)
      end
  end.

Section Regroup.
  Variable cf : config.
  Variable names : list group_name.
  Variable base : list ascii.
  Local Notation L := (length names).
  Local Notation N0 := (length base).

  Section Blocks.
    Variable s : list ascii.
    Hypothesis Hs : length s = N0.

    Lemma trivials_pass ps : forall cur c k, all_at s ps cur = Some true ->
      in_order (map (match_trivial s) ps) cur c k = k (cur + length ps) c.
    Proof using Type.
      clear Hs. induction ps as [|p r IH]; intros cur c k E; cbn in *; [now rewrite Nat.add_0_r|].
      unfold match_trivial at 1, deref. destruct (nth_error s cur) as [a|] eqn:En; [|discriminate].
      assert (cur < length s) by (apply nth_error_Some; congruence).
      destruct (Nat.eqb_spec cur (length s)); [lia|].
      destruct (p a); [|discriminate]. rewrite IH by assumption. f_equal. lia.
    Qed.

    Lemma trivials_fail ps : forall cur, cur <= N0 -> all_at s ps cur <> Some true ->
      exists e, forall c k, in_order (map (match_trivial s) ps) cur c k = Res c e false.
    Proof.
      induction ps as [|p r IH]; intros cur Hc E; cbn in *; [congruence|].
      unfold match_trivial at 1, deref. destruct (nth_error s cur) as [a|] eqn:En.
      - assert (cur < length s) by (apply nth_error_Some; congruence).
        destruct (Nat.eqb_spec cur (length s)); [lia|].
        destruct (p a); [|exists cur; reflexivity]. apply IH; auto. lia.
      - apply nth_error_None in En. exists cur. intros c k.
        destruct (Nat.eqb_spec cur (length s)); [reflexivity|lia].
    Qed.

    Lemma forward_block ps : forall cur, ps <> [] ->
      (all_at s ps cur = Some true -> forall c k,
         sequence_block_forward s ps cur c k = k (cur + length ps) c)
      /\ (all_at s ps cur = Some false -> exists e, forall c k,
         sequence_block_forward s ps cur c k = Res c e false).
    Proof using Type.
      clear Hs. induction ps as [|p r IH]; intros cur Hne; [easy|].
      destruct r as [|q r].
      - cbn [sequence_block_forward all_at length]. unfold deref.
        destruct (nth_error s cur); [|split; discriminate].
        destruct (p a); split; try discriminate.
        + intros _ c k. f_equal. lia.
        + intros _. exists cur. reflexivity.
      - destruct (IH (S cur)) as [A B]; [discriminate|].
        change (all_at s (p :: q :: r) cur) with
          (match nth_error s cur with
           | Some a => if p a then all_at s (q :: r) (S cur) else Some false
           | None => None end).
        change (sequence_block_forward s (p :: q :: r) cur) with
          (fun (c : caps) (k : cont) => deref s cur (fun a =>
             if p a then sequence_block_forward s (q :: r) (S cur) c k else non_match cur c)).
        unfold deref. destruct (nth_error s cur); [|split; discriminate].
        destruct (p a); split; try discriminate; auto.
        + intros E c k. rewrite A by assumption. f_equal. cbn. lia.
        + intros _. exists cur. reflexivity.
    Qed.

    Lemma all_at_some ps : forall cur, cur + length ps <= N0 -> all_at s ps cur <> None.
    Proof.
      induction ps as [|p r IH]; intros cur H; cbn in *; [discriminate|].
      destruct (nth_error s cur) eqn:E.
      - destruct (p a); [apply IH; lia|discriminate].
      - apply nth_error_None in E. lia.
    Qed.
  End Blocks.

  Section Closed.
    Variable Q : run -> run -> Prop.
    Hypothesis CQ : closed names base Q Q.
    Hypothesis Qsym : forall F1 F2, Q F1 F2 -> Q F2 F1.
    Hypothesis Qtrans : forall F1 F2 F3, Q F1 F2 -> Q F2 F3 -> Q F1 F3.
    Variable bk : bool.
    Hypothesis Hbk : bk = true -> forall rd i,
      pair_matcher base Q (backref_match cf base rd i) (backref_match cf base rd i).

    Local Notation QC := (pair_cont base Q).
    Local Notation QM := (pair_matcher base Q).
    Local Notation fine n := (bk || backref_free n = true).

    Lemma self f rd n : fine n -> QM (m cf names base f rd n) (m cf names base f rd n).
    Proof. intros H. now apply (self_related cf names base Q bk). Qed.

    Lemma QC_left k1 k2 : QC k1 k2 -> QC k1 k1.
    Proof. intros H j Hj. eapply Qtrans; [|apply Qsym]; now apply H. Qed.

    Lemma QM_trans m1 m2 m3 : QM m1 m2 -> QM m2 m3 -> QM m1 m3.
    Proof.
      intros H1 H2 cur k1 k2 Hc Hk. eapply Qtrans.
      - apply H1; [assumption|]. eapply QC_left. exact Hk.
      - now apply H2.
    Qed.

    Lemma QC_sym k1 k2 : QC k1 k2 -> QC k2 k1.
    Proof. intros H j Hj. now apply Qsym, H. Qed.

    Lemma QM_sym m1 m2 : QM m1 m2 -> QM m2 m1.
    Proof. intros H cur k1 k2 Hc Hk. apply Qsym, H; auto. now apply QC_sym. Qed.

    Lemma QM_ext m1 m2 m1' m2' :
      (forall cur c k, m1 cur c k = m1' cur c k) -> (forall cur c k, m2 cur c k = m2' cur c k) ->
      QM m1 m2 -> QM m1' m2'.
    Proof.
      intros E1 E2 H cur k1 k2 Hc Hk.
      apply (c_ext _ _ _ _ CQ (fun c => m1 cur c k1) (fun c => m2 cur c k2)); auto.
    Qed.

    Lemma m_fuel f1 f2 rd n cur c k : size n <= f1 -> size n <= f2 ->
      m cf names base f1 rd n cur c k = m cf names base f2 rd n cur c k.
    Proof. intros. now apply m_ext. Qed.

    Lemma QM_in_order l1 l2 : Forall2 QM l1 l2 -> QM (in_order l1) (in_order l2).
    Proof.
      induction 1 as [|x y l1 l2 Hx Hl IH]; intros cur k1 k2 Hc Hk; cbn [in_order]; [now apply Hk|].
      apply Hx; auto. intros j Hj. now apply IH.
    Qed.

    Lemma Forall2_self l : Forall2 QM l l -> Forall (fun x => QM x x) l.
    Proof. induction l; inversion 1; auto. Qed.

    Lemma QM_in_order_app l1 l2 : Forall2 QM l1 l1 -> Forall2 QM l2 l2 ->
      QM (in_order (l1 ++ l2)) (fun cur c k => in_order l1 cur c (fun j c' => in_order l2 j c' k)).
    Proof.
      intros H1%Forall2_self H2. induction H1 as [|x l1 Hx Hl IH]; intros cur k1 k2 Hc Hk; cbn [in_order app].
      - now apply QM_in_order.
      - apply (Hx cur (fun j c' => in_order (l1 ++ l2) j c' k1)); auto. intros j Hj.
        now apply IH.
    Qed.

    Lemma QM_in_order_nest l1 l2 l3 : Forall2 QM l1 l1 -> Forall2 QM l2 l2 -> Forall2 QM l3 l3 ->
      QM (in_order (l1 ++ in_order l2 :: l3)) (in_order (l1 ++ l2 ++ l3)).
    Proof.
      intros H1%Forall2_self H2 H3. induction H1 as [|x l1 Hx Hl IH]; cbn [app].
      - apply QM_sym. apply (QM_in_order_app l2 l3); auto.
      - intros cur k1 k2 Hc Hk. cbn [in_order]. apply Hx; auto. intros j Hj. now apply IH.
    Qed.

    (** The matcher of a sequence runs its elements one after the other. *)
    Lemma seq_in_order F rd : forall l, l <> [] ->
      (forall x, In x l -> fine x /\ size x <= F) ->
      QM (seq_match cf (view base rd) (m cf names base F rd) l)
         (in_order (map (m cf names base F rd) l)).
    Proof.
      set (s := view base rd). assert (Hs : length s = N0) by apply view_length.
      induction l as [|x r IH]; intros Hne Hl cur k1 k2 Hc Hk; [easy|].
      destruct r as [|y r].
      - cbn [seq_match in_order map]. apply self; [apply Hl; now left|assumption|].
        intros j Hj. now apply Hk.
      - assert (Hx : fine x /\ size x <= F) by (apply Hl; now left).
        cbn [seq_match]. destruct (forallb trivial (x :: y :: r)) eqn:T.
        + set (l := x :: y :: r) in *. set (ps := map (match_one cf) l).
          assert (Hps : ps <> []) by (unfold ps, l; discriminate).
          assert (Hlen : length ps = length l) by (unfold ps; apply map_length).
          assert (E : forall c, in_order (map (m cf names base F rd) l) cur c k2
                      = in_order (map (match_trivial s) ps) cur c k2).
          { intros c. clear -Hl T. unfold ps. clearbody l. revert cur c k2.
            induction l as [|z l IHl]; intros cur c k2; [reflexivity|]. cbn [map in_order].
            cbn [forallb] in T. apply andb_true_iff in T as [Tz T].
            rewrite (m_trivial cf names base F rd z) by (auto; apply Hl; now left).
            fold s. unfold match_trivial. destruct (Nat.eqb _ _); [reflexivity|].
            unfold deref. destruct (nth_error s cur); [|reflexivity].
            destruct (match_one cf z a); [|reflexivity]. apply IHl; auto.
            intros w Hw. apply Hl. now right. }
          destruct (distance_less_than cf (N.of_nat (length l)) (length s) cur) eqn:D.
          * rewrite (distance_spec cf base s Hs) in D by assumption.
            destruct (trivials_fail s Hs ps cur Hc) as [e He].
            { intros A. apply (all_at_bound base s Hs) in A; [|assumption].
              apply Nat.ltb_lt in D. lia. }
            apply (c_ext _ _ _ _ CQ (fun c => Res c cur false) (fun c => Res c e false)).
            -- reflexivity.
            -- intros c _. now rewrite E, He.
            -- apply (c_fail _ _ _ _ CQ).
          * rewrite (distance_spec cf base s Hs) in D by assumption. apply Nat.ltb_ge in D.
            assert (Hrange : cur + length ps <= N0) by lia.
            pose proof (all_at_some s Hs ps cur Hrange) as Hsome.
            destruct (all_at s ps cur) as [[|]|] eqn:A; [| |easy].
            -- apply (c_ext _ _ _ _ CQ (k1 (cur + length ps)) (k2 (cur + length ps))).
               ++ intros c _. destruct (is_random cf).
                  ** unfold trivial_block_random. fold ps. now rewrite A.
                  ** symmetry. now apply (forward_block s ps cur Hps).
               ++ intros c _. rewrite E. symmetry. now apply (trivials_pass s).
               ++ now apply Hk.
            -- destruct (trivials_fail s Hs ps cur Hc) as [e He]; [rewrite A; discriminate|].
               destruct (proj2 (forward_block s ps cur Hps) A) as [e' He'].
               apply (c_ext _ _ _ _ CQ (fun c => Res c (if is_random cf then cur else e') false)
                        (fun c => Res c e false)).
               ++ intros c _. destruct (is_random cf).
                  ** unfold trivial_block_random. fold ps. now rewrite A.
                  ** symmetry. apply He'.
               ++ intros c _. now rewrite E, He.
               ++ apply (c_fail _ _ _ _ CQ).
        + change (in_order (map (m cf names base F rd) (x :: y :: r)))
            with (fun (cur : nat) (c : caps) (k : cont) => m cf names base F rd x cur c
                 (fun j c' => in_order (map (m cf names base F rd) (y :: r)) j c' k)).
          cbv beta. apply self; [apply Hx|assumption|]. intros j Hj.
          apply IH; auto; [discriminate|]. intros z Hz. apply Hl. now right.
    Qed.

    Lemma seq_runs f F rd l : l <> [] -> size (Seq l) <= f ->
      (forall x, In x l -> fine x /\ size x <= F) ->
      QM (m cf names base f rd (Seq l)) (in_order (map (m cf names base F rd) l)).
    Proof.
      intros Hne Hf Hl. apply QM_ext with
        (m1 := seq_match cf (view base rd) (m cf names base (f + F) rd) l)
        (m2 := in_order (map (m cf names base (f + F) rd) l)).
      - intros cur c k. rewrite (m_fuel f (S (f + F))) by lia. reflexivity.
      - assert (Hb : forall x, In x l -> size x <= F) by (intros; now apply Hl).
        clear -Hb. induction l as [|x r IH]; intros cur c k; [reflexivity|]. cbn [map in_order].
        apply m_ext; [specialize (Hb x (or_introl eq_refl)); lia|apply Hb; now left|].
        intros j c'. apply IH. intros z Hz. apply Hb. now right.
      - apply seq_in_order; auto. intros x Hx. destruct (Hl x Hx). split; auto. lia.
    Qed.

    Lemma fine_in l x : fine (Seq l) -> In x l -> fine x.
    Proof.
      cbn [backref_free]. destruct bk; [reflexivity|]. cbn. intros H Hx.
      now apply (proj1 (forallb_forall _ _) H).
    Qed.
    Lemma fine_in_alt l x : fine (Alt l) -> In x l -> fine x.
    Proof. exact (fine_in l x). Qed.

    Lemma self_list F rd l : (forall x, In x l -> fine x) ->
      Forall2 QM (map (m cf names base F rd) l) (map (m cf names base F rd) l).
    Proof.
      induction l as [|x r IH]; intros H; cbn [map]; constructor.
      - apply self, H. now left.
      - apply IH. intros y Hy. apply H. now right.
    Qed.

    Lemma sum_app l1 l2 : list_sum (map size (l1 ++ l2)) = list_sum (map size l1) + list_sum (map size l2).
    Proof. now rewrite map_app, list_sum_app. Qed.

    Lemma seq_nested f rd l1 l2 l3 : l2 <> [] ->
      size (Seq (l1 ++ Seq l2 :: l3)) <= f -> fine (Seq (l1 ++ Seq l2 :: l3)) ->
      QM (m cf names base f rd (Seq (l1 ++ Seq l2 :: l3)))
         (m cf names base f rd (Seq (l1 ++ l2 ++ l3))).
    Proof.
      intros H2 Hf Hn.
      assert (Hin : forall x, In x (l1 ++ Seq l2 :: l3) -> fine x /\ size x <= f).
      { intros x Hx. split; [exact (fine_in _ _ Hn Hx)|]. rewrite size_Seq in Hf.
        apply size_in_sum in Hx. lia. }
      assert (H1' : forall x, In x l1 -> fine x /\ size x <= f).
      { intros x Hx. apply Hin. apply in_or_app. now left. }
      assert (H3' : forall x, In x l3 -> fine x /\ size x <= f).
      { intros x Hx. apply Hin. apply in_or_app. right. now right. }
      assert (H2' : fine (Seq l2) /\ size (Seq l2) <= f).
      { apply Hin. apply in_or_app. right. now left. }
      assert (H2'' : forall x, In x l2 -> fine x /\ size x <= f).
      { intros x Hx. split; [exact (fine_in _ _ (proj1 H2') Hx)|]. rewrite size_Seq in H2'.
        apply size_in_sum in Hx. lia. }
      apply QM_trans with (in_order (map (m cf names base f rd) (l1 ++ Seq l2 :: l3))).
      { apply seq_runs; auto. now destruct l1. }
      apply QM_trans with (in_order (map (m cf names base f rd) (l1 ++ l2 ++ l3))).
      - rewrite !map_app. cbn [map].
        apply QM_trans with
          (in_order (map (m cf names base f rd) l1 ++ in_order (map (m cf names base f rd) l2)
                     :: map (m cf names base f rd) l3)).
        + apply QM_in_order. apply Forall2_app; [apply self_list; intros; now apply H1'|].
          constructor; [|apply self_list; intros; now apply H3'].
          apply seq_runs; auto. apply H2'.
        + apply QM_in_order_nest; apply self_list; intros; [now apply H1'|now apply H2''|now apply H3'].
      - apply QM_sym. apply seq_runs.
        + destruct l1; [destruct l2; easy|discriminate].
        + rewrite size_Seq in *. rewrite !sum_app in *. cbn [map] in Hf.
          change (list_sum (size (Seq l2) :: map size l3)) with (size (Seq l2) + list_sum (map size l3)) in Hf.
          rewrite size_Seq in Hf. lia.
        + intros x Hx. apply in_app_or in Hx as [Hx|Hx]; auto. apply in_app_or in Hx as [Hx|Hx]; auto.
    Qed.

    (** ** Alternations *)

    Lemma alt_fuel F1 F2 rd l : (forall x, In x l -> size x <= F1 /\ size x <= F2) ->
      forall cur c k, alt_match cf (view base rd) (m cf names base F1 rd) l cur c k
        = alt_match cf (view base rd) (m cf names base F2 rd) l cur c k.
    Proof.
      induction l as [|x r IH]; intros H cur c k; [reflexivity|]. cbn [alt_match].
      assert (Hx : m cf names base F1 rd x cur c k = m cf names base F2 rd x cur c k).
      { destruct (H x (or_introl eq_refl)). now apply m_fuel. }
      rewrite Hx. destruct r as [|y r]; [reflexivity|].
      destruct (forallb trivial _); [reflexivity|].
      destruct (m cf names base F2 rd x cur c k) as [c' e [|]| | |]; cbn [or_else]; auto.
      apply IH. intros z Hz. apply H. now right.
    Qed.

    Lemma alt_self F rd l : (forall x, In x l -> fine x) ->
      QM (alt_match cf (view base rd) (m cf names base F rd) l)
         (alt_match cf (view base rd) (m cf names base F rd) l).
    Proof.
      intros H. apply (r_alt cf names base Q Q CQ (view base rd) (view_length base rd)).
      induction l as [|x r IH]; constructor.
      - split; [apply alike_refl|]. apply self, H. now left.
      - apply IH. intros y Hy. apply H. now right.
    Qed.

    Lemma m_Alt f rd l cur c k : size (Alt l) <= f ->
      m cf names base f rd (Alt l) cur c k = alt_match cf (view base rd) (m cf names base f rd) l cur c k.
    Proof.
      intros Hf. rewrite (m_fuel f (S f)) by lia. reflexivity.
    Qed.

    Lemma alt_nested_last f rd l1 l2 : l2 <> [] ->
      size (Alt (l1 ++ [Alt l2])) <= f -> fine (Alt (l1 ++ [Alt l2])) ->
      QM (m cf names base f rd (Alt (l1 ++ [Alt l2]))) (m cf names base f rd (Alt (l1 ++ l2))).
    Proof.
      intros H2 Hf Hn.
      set (s := view base rd).
      apply QM_ext with (m1 := alt_match cf s (m cf names base f rd) (l1 ++ [Alt l2]))
        (m2 := alt_match cf s (m cf names base f rd) (l1 ++ l2)).
      { intros. now rewrite m_Alt. }
      { intros. rewrite m_Alt; [reflexivity|]. rewrite size_Alt in *. rewrite sum_app in *.
        cbn [map] in Hf. change (list_sum [size (Alt l2)]) with (size (Alt l2) + 0) in Hf.
        rewrite size_Alt in Hf. lia. }
      assert (Hin : forall x, In x (l1 ++ [Alt l2]) -> fine x /\ size x <= f).
      { intros x Hx. split; [exact (fine_in _ _ Hn Hx)|]. rewrite size_Alt in Hf.
        apply size_in_sum in Hx. lia. }
      clear Hf Hn. induction l1 as [|x r IH].
      - cbn [app alt_match]. destruct (Hin (Alt l2)) as [A B]; [now left|].
        apply QM_ext with (m1 := alt_match cf s (m cf names base f rd) l2)
          (m2 := alt_match cf s (m cf names base f rd) l2); auto.
        + intros. now rewrite m_Alt.
        + apply alt_self. intros x Hx. exact (fine_in_alt _ _ A Hx).
      - cbn [app alt_match].
        assert (T : forallb trivial (x :: r ++ [Alt l2]) = forallb trivial (x :: r ++ l2)).
        { cbn [forallb]. rewrite !forallb_app. cbn [forallb]. rewrite trivial_Alt.
          destruct l2; [easy|]. now rewrite andb_true_r. }
        rewrite T. intros cur k1 k2 Hc Hk.
        destruct (r ++ [Alt l2]) as [|y q] eqn:E1; [destruct r; discriminate|].
        destruct (r ++ l2) as [|y' q'] eqn:E2; [apply app_eq_nil in E2 as [_ E2]; now elim H2|].
        destruct (forallb trivial (x :: y' :: q')).
        + apply (r_trivial names base Q Q CQ _ (view_length base rd)); auto.
          intros a. rewrite <- E1, <- E2. cbn [existsb]. rewrite !existsb_app. cbn [existsb match_one].
          now rewrite orb_false_r.
        + apply (c_or _ _ _ _ CQ).
          * apply self; auto. apply Hin. now left.
          * apply IH; auto. intros z Hz. apply Hin. cbn [app]. rewrite E1. now right.
    Qed.

    Hypothesis Qunit : forall F1 F2 e, Q F1 F2 -> Q F1 (fun c => or_else (F2 c) (fun c' => Res c' e false)).

    (** Alternatives that do not fit. *)
    Lemma alt_refuse F rd a : forall r l3 cur c k, l3 <> [] -> forallb trivial l3 = false ->
      (forall x, In x r -> size x <= F) ->
      forallb trivial r = true -> nth_error (view base rd) cur = Some a ->
      existsb (fun y => match_one cf y a) r = false ->
      alt_match cf (view base rd) (m cf names base F rd) (r ++ l3) cur c k
      = alt_match cf (view base rd) (m cf names base F rd) l3 cur c k.
    Proof.
      induction r as [|x r IH]; intros l3 cur c k Hn Hl Hr T En E; [reflexivity|].
      cbn [forallb] in T. apply andb_prop in T as [Tx T]. cbn [existsb] in E. apply orb_false_iff in E as [Ex E].
      cbn [app alt_match]. destruct (r ++ l3) as [|y q] eqn:R.
      { destruct r; [now elim Hn|discriminate R]. }
      replace (forallb trivial (x :: y :: q)) with false.
      2:{ rewrite <- R. cbn [forallb]. now rewrite forallb_app, Hl, !andb_false_r. }
      rewrite (m_trivial cf names base F rd x) by (auto; apply Hr; now left).
      unfold match_trivial, deref. rewrite En, Ex.
      destruct (Nat.eqb cur (length (view base rd))); cbn [or_else non_match];
        rewrite <- R; apply IH; auto; intros z Hz; apply Hr; now right.
    Qed.

    (** A set before other alternatives. *)
    Lemma alt_spread F rd l3 : l3 <> [] -> forallb trivial l3 = false -> (forall x, In x l3 -> fine x) ->
      forall l2, l2 <> [] -> forallb trivial l2 = true -> separate_run l2 l3 -> (forall x, In x l2 -> size x <= F) ->
      QM (fun cur c k => or_else (match_trivial (view base rd) (fun a => existsb (fun y => match_one cf y a) l2) cur c k)
           (fun c' => alt_match cf (view base rd) (m cf names base F rd) l3 cur c' k))
         (alt_match cf (view base rd) (m cf names base F rd) (l2 ++ l3)).
    Proof.
      intros Hn Hl Hf. set (s := view base rd). assert (Hs : length s = N0) by apply view_length.
      intros l2 Hne T A Hz cur k1 k2 Hc Hk.
      destruct (nth_error s cur) as [a|] eqn:En.
      2:{ apply nth_error_None in En. assert (cur = length s) as -> by lia.
          apply (c_ext _ _ _ _ CQ (fun c => alt_match cf s (m cf names base F rd) l3 (length s) c k1)
                   (fun c => alt_match cf s (m cf names base F rd) l3 (length s) c k2)).
          - intros c _. unfold match_trivial. now rewrite Nat.eqb_refl.
          - intros c _. clear A Hne. revert c. induction l2 as [|x r IH]; intros c; [reflexivity|].
            cbn [forallb] in T. apply andb_prop in T as [Tx T]. cbn [app alt_match].
            destruct (r ++ l3) as [|y q] eqn:R; [destruct r; [now elim Hn|discriminate R]|].
            replace (forallb trivial (x :: y :: q)) with false.
            2:{ rewrite <- R. cbn [forallb]. now rewrite forallb_app, Hl, !andb_false_r. }
            rewrite (m_trivial cf names base F rd x) by (auto; apply Hz; now left). fold s.
            unfold match_trivial. rewrite Nat.eqb_refl. cbn [or_else non_match]. apply IH; auto.
            intros z Hz'. apply Hz. now right.
          - apply alt_self; auto. }
      assert (Hlt : Nat.eqb cur (length s) = false).
      { apply Nat.eqb_neq. assert (cur < length s) by (apply nth_error_Some; congruence). lia. }
      assert (Hcur : S cur <= N0) by (assert (cur < length s) by (apply nth_error_Some; congruence); lia).
      apply (c_ext _ _ _ _ CQ
        (fun c => or_else (if existsb (fun y => match_one cf y a) l2 then k1 (S cur) c else Res c cur false)
                    (fun c' => alt_match cf s (m cf names base F rd) l3 cur c' k1))
        (fun c => or_else (if existsb (fun y => match_one cf y a) l2 then k2 (S cur) c else Res c cur false)
                    (fun c' => alt_match cf s (m cf names base F rd) l3 cur c' k2))).
      - intros c _. unfold match_trivial, deref. rewrite Hlt, En. destruct (existsb _ l2); reflexivity.
      - intros c _. clear Hne. revert c. induction l2 as [|x r IH]; intros c; [reflexivity|].
        cbn [forallb] in T. apply andb_prop in T as [Tx T]. destruct A as [A1 A2].
        assert (Hr : forall z, In z r -> size z <= F) by (intros z Hz'; apply Hz; now right).
        assert (E : or_else (m cf names base F rd x cur c k2)
            (fun c' => alt_match cf s (m cf names base F rd) (r ++ l3) cur c' k2)
          = alt_match cf s (m cf names base F rd) ((x :: r) ++ l3) cur c k2).
        { cbn [app alt_match]. destruct (r ++ l3) as [|y q] eqn:R;
            [destruct r; [now elim Hn|discriminate R]|].
          replace (forallb trivial (x :: y :: q)) with false; [reflexivity|].
          rewrite <- R. cbn [forallb]. now rewrite forallb_app, Hl, !andb_false_r. }
        rewrite <- E. rewrite (m_trivial cf names base F rd x) by (auto; apply Hz; now left). fold s.
        unfold match_trivial, deref. rewrite Hlt, En. cbn [existsb].
        destruct (match_one cf x a) eqn:Ex; cbn [orb].
        + assert (Er : existsb (fun y => match_one cf y a) r = false).
          { specialize (A2 ltac:(cbn [forallb]; now rewrite Tx, T) cf a Ex). rewrite existsb_app in A2.
            now apply orb_false_iff in A2 as [A2 _]. }
          destruct (k2 (S cur) c) as [c' e [|]| | |]; cbn [or_else]; auto.
          symmetry. now apply (alt_refuse F rd a).
        + cbn [or_else]. now apply IH.
      - apply (c_or _ _ _ _ CQ); [|now apply alt_self].
        destruct (existsb _ l2); [now apply Hk|apply (c_fail _ _ _ _ CQ)].
    Qed.

    (** Two sets one after the other. *)
    Lemma sets_apart s (p q : ascii -> bool) : length s = N0 -> (forall a, p a = true -> q a = false) ->
      QM (fun cur c k => or_else (match_trivial s p cur c k) (fun c' => match_trivial s q cur c' k))
         (match_trivial s (fun a => p a || q a)).
    Proof.
      intros Hs Hpq cur k1 k2 Hc Hk. unfold match_trivial, deref.
      destruct (Nat.eqb cur (length s)); [apply (c_fail _ _ _ _ CQ)|].
      destruct (nth_error s cur) as [a|] eqn:En; [|apply (c_undef _ _ _ _ CQ)].
      assert (Hcur : S cur <= N0) by (assert (cur < length s) by (apply nth_error_Some; congruence); lia).
      destruct (p a) eqn:Ep; cbn [orb or_else non_match].
      - rewrite (Hpq a Ep). apply Qsym, Qunit, Qsym. now apply Hk.
      - destruct (q a); [now apply Hk|apply (c_fail _ _ _ _ CQ)].
    Qed.

    Lemma alt_cons_cases s mm x l : l <> [] ->
      forall cur c k, alt_match cf s mm (x :: l) cur c k
      = if forallb trivial (x :: l) then match_trivial s (fun a => existsb (fun y => match_one cf y a) (x :: l)) cur c k
        else or_else (mm x cur c k) (fun c' => alt_match cf s mm l cur c' k).
    Proof. intros Hl cur c k. destruct l; [easy|reflexivity]. Qed.

    (** Dissolving the first alternative. *)
    Lemma alt_first_apart f rd l3 : l3 <> [] -> (forall x, In x l3 -> fine x) ->
      (forall x, In x l3 -> size x <= f) ->
      forall l2, l2 <> [] -> separate l2 l3 -> size (Alt l2) <= f -> (forall x, In x l2 -> fine x) ->
      QM (alt_match cf (view base rd) (m cf names base f rd) (Alt l2 :: l3))
         (alt_match cf (view base rd) (m cf names base f rd) (l2 ++ l3)).
    Proof.
      intros Hn Hf Hb3. set (s := view base rd). assert (Hs : length s = N0) by apply view_length.
      induction l2 as [|x r IH]; intros Hne A Hz Hr; [easy|].
      assert (Hz' : size x <= f /\ size (Alt r) <= f).
      { rewrite !size_Alt in *. cbn [map] in Hz.
        change (list_sum (size x :: map size r)) with (size x + list_sum (map size r)) in Hz. lia. }
      assert (Hr3 : r ++ l3 <> []) by (destruct r; [exact Hn|discriminate]).
      assert (T : forallb trivial (Alt (x :: r) :: l3) = forallb trivial (x :: r ++ l3)).
      { change (x :: r ++ l3) with ((x :: r) ++ l3). rewrite forallb_app. cbn [forallb]. now rewrite trivial_Alt. }
      destruct (forallb trivial (x :: r ++ l3)) eqn:TT.
      { apply QM_ext with (m1 := match_trivial s (fun a => existsb (fun y => match_one cf y a) (Alt (x :: r) :: l3)))
          (m2 := match_trivial s (fun a => existsb (fun y => match_one cf y a) (x :: r ++ l3))).
        - intros. now rewrite alt_cons_cases, T by exact Hn.
        - intros. cbn [app]. now rewrite alt_cons_cases, TT by exact Hr3.
        - intros cur k1 k2 Hc Hk. apply (r_trivial names base Q Q CQ _ Hs); auto.
          intros a. cbn [existsb match_one]. now rewrite existsb_app, orb_assoc. }
      destruct A as [A|A]; [change ((x :: r) ++ l3) with (x :: r ++ l3) in A; congruence|].
      destruct (forallb trivial (x :: r)) eqn:TR.
      { assert (T3 : forallb trivial l3 = false).
        { change (x :: r ++ l3) with ((x :: r) ++ l3) in TT. rewrite forallb_app, TR in TT. exact TT. }
        eapply QM_ext; [| |apply (alt_spread f rd l3 Hn T3 Hf (x :: r) Hne TR A)].
        - intros cur c k. rewrite alt_cons_cases, T by exact Hn.
          rewrite (m_trivial cf names base f rd (Alt (x :: r))) by (auto; now rewrite trivial_Alt). reflexivity.
        - reflexivity.
        - intros z Hz0. rewrite size_Alt in Hz. apply size_in_sum in Hz0. lia. }
      destruct r as [|y r].
      { apply QM_ext with (m1 := alt_match cf s (m cf names base f rd) (x :: l3))
          (m2 := alt_match cf s (m cf names base f rd) (x :: l3)).
        - intros cur c k. cbn [app] in TT. rewrite !alt_cons_cases, T, TT by exact Hn. now rewrite (m_Alt f rd [x]).
        - reflexivity.
        - apply alt_self. intros z [<-|Hz0]; [apply Hr; now left|now apply Hf]. }
      set (r' := y :: r) in *. assert (Hr' : r' <> []) by discriminate.
      destruct A as [A1 _].
      apply QM_ext with
        (m1 := fun cur c k => or_else (m cf names base f rd x cur c k)
           (fun c' => or_else (alt_match cf s (m cf names base f rd) r' cur c' k)
              (fun c' => alt_match cf s (m cf names base f rd) l3 cur c' k)))
        (m2 := fun cur c k => or_else (m cf names base f rd x cur c k)
           (fun c' => alt_match cf s (m cf names base f rd) (r' ++ l3) cur c' k)).
      - intros cur c k. rewrite (alt_cons_cases s _ (Alt (x :: r')) l3 Hn), T, m_Alt by exact Hz.
        fold s. rewrite (alt_cons_cases s _ x r' Hr'), TR. now rewrite or_else_assoc.
      - intros cur c k. cbn [app]. now rewrite (alt_cons_cases s _ x (r' ++ l3) Hr3), TT.
      - intros cur k1 k2 Hc Hk. apply (c_or _ _ _ _ CQ); [apply self; auto; apply Hr; now left|].
        revert cur k1 k2 Hc Hk.
        change (QM (fun cur c' k => or_else (alt_match cf s (m cf names base f rd) r' cur c' k)
              (fun c' => alt_match cf s (m cf names base f rd) l3 cur c' k))
            (alt_match cf s (m cf names base f rd) (r' ++ l3))).
        destruct (forallb trivial (r' ++ l3)) eqn:T3.
        + rewrite forallb_app in T3. apply andb_prop in T3 as [T2 T3].
          assert (Set_ : forall l, l <> [] -> forallb trivial l = true -> (forall z, In z l -> size z <= f) ->
            forall cur c k, alt_match cf s (m cf names base f rd) l cur c k
            = match_trivial s (fun a => existsb (fun y => match_one cf y a) l) cur c k).
          { intros l Hl Tl Hb cur c k. destruct l as [|u [|v l]]; [easy| |].
            - cbn [alt_match]. cbn [forallb] in Tl. rewrite andb_true_r in Tl.
              rewrite (m_trivial cf names base f rd u) by (auto; apply Hb; now left). fold s.
              unfold match_trivial, deref. destruct (Nat.eqb _ _); [reflexivity|].
              destruct (nth_error _ _); [|reflexivity]. cbn [existsb]. now rewrite orb_false_r.
            - now rewrite alt_cons_cases, Tl by discriminate. }
          assert (Hb2 : forall z, In z r' -> size z <= f).
          { intros z Hz0. destruct Hz' as [_ Hz']. rewrite size_Alt in Hz'. apply size_in_sum in Hz0. lia. }
          eapply QM_ext; [| |apply (sets_apart s (fun a => existsb (fun y => match_one cf y a) r')
                                    (fun a => existsb (fun y => match_one cf y a) l3) Hs)].
          * intros cur c k. cbv beta. rewrite (Set_ r') by auto.
            destruct (match_trivial s _ cur c k) as [c' e [|]| | |]; cbn [or_else]; auto.
            symmetry. now apply Set_.
          * intros cur c k. rewrite (Set_ (r' ++ l3)); auto.
            -- unfold match_trivial, deref. destruct (Nat.eqb _ _); [reflexivity|].
               destruct (nth_error _ _); [|reflexivity]. now rewrite existsb_app.
            -- now rewrite forallb_app, T2, T3.
            -- intros z Hz0. apply in_app_or in Hz0 as [Hz0|Hz0]; auto.
          * clear - A1 T2 T3. clearbody r'. intros a. induction r' as [|z q IHq]; [discriminate|].
            destruct A1 as [A1 A2]. specialize (A2 T2 cf a). cbn [forallb] in T2. apply andb_prop in T2 as [_ T2].
            cbn [existsb]. intros E. apply orb_prop in E as [E|E]; [|now apply IHq].
            specialize (A2 E). rewrite T3, existsb_app in A2. now apply orb_false_iff in A2 as [_ A2].
        + eapply QM_ext; [| |apply IH; auto].
          * intros cur c k. rewrite alt_cons_cases by exact Hn.
            replace (forallb trivial (Alt r' :: l3)) with (forallb trivial (r' ++ l3))
              by (rewrite forallb_app; cbn [forallb]; now rewrite trivial_Alt).
            rewrite T3. now rewrite m_Alt by apply Hz'.
          * reflexivity.
          * now right.
          * apply Hz'.
          * intros z Hz0. apply Hr. now right.
    Qed.

    Lemma alt_nested_apart f rd l1 l2 l3 : separate l2 l3 -> l2 <> [] ->
      size (Alt (l1 ++ Alt l2 :: l3)) <= f -> fine (Alt (l1 ++ Alt l2 :: l3)) ->
      QM (m cf names base f rd (Alt (l1 ++ Alt l2 :: l3))) (m cf names base f rd (Alt (l1 ++ l2 ++ l3))).
    Proof.
      intros A H2 Hf Hn.
      assert (D : l3 = [] \/ l3 <> []) by (destruct l3; [now left|now right]).
      destruct D as [-> |H3]; [rewrite app_nil_r; now apply alt_nested_last|].
      set (s := view base rd).
      apply QM_ext with (m1 := alt_match cf s (m cf names base f rd) (l1 ++ Alt l2 :: l3))
        (m2 := alt_match cf s (m cf names base f rd) (l1 ++ l2 ++ l3)).
      { intros. now rewrite m_Alt. }
      { intros. rewrite m_Alt; [reflexivity|]. rewrite size_Alt in *. rewrite !sum_app in *.
        cbn [map] in Hf. change (list_sum (size (Alt l2) :: map size l3)) with (size (Alt l2) + list_sum (map size l3)) in Hf.
        rewrite size_Alt in Hf. lia. }
      assert (Hin : forall x, In x (l1 ++ Alt l2 :: l3) -> fine x /\ size x <= f).
      { intros x Hx. split; [exact (fine_in _ _ Hn Hx)|]. rewrite size_Alt in Hf.
        apply size_in_sum in Hx. lia. }
      clear Hf Hn. induction l1 as [|x r IH].
      - cbn [app]. destruct (Hin (Alt l2)) as [Fa Fb]; [now left|].
        apply alt_first_apart; auto.
        + intros z Hz. apply Hin. now right.
        + intros z Hz. apply Hin. now right.
        + intros z Hz. exact (fine_in_alt _ _ Fa Hz).
      - cbn [app].
        assert (T : forallb trivial (x :: r ++ Alt l2 :: l3) = forallb trivial (x :: r ++ l2 ++ l3)).
        { cbn [forallb]. rewrite !forallb_app. cbn [forallb]. rewrite trivial_Alt.
          now destruct l2. }
        assert (N1 : r ++ Alt l2 :: l3 <> []) by (destruct r; discriminate).
        assert (N2 : r ++ l2 ++ l3 <> []) by (destruct r; [destruct l2; [easy|discriminate]|discriminate]).
        intros cur k1 k2 Hc Hk.
        eapply (c_ext _ _ _ _ CQ); [intros c _; symmetry; apply (alt_cons_cases s _ x _ N1)
          |intros c _; symmetry; apply (alt_cons_cases s _ x _ N2)|].
        cbv beta. rewrite T. destruct (forallb trivial (x :: r ++ l2 ++ l3)).
        + apply (r_trivial names base Q Q CQ _ (view_length base rd)); auto.
          intros a. cbn [existsb]. rewrite !existsb_app. cbn [existsb match_one]. reflexivity.
        + apply (c_or _ _ _ _ CQ).
          * apply self; auto. apply Hin. now left.
          * apply IH; auto. intros z Hz. apply Hin. now right.
    Qed.

    Section Duplicates.
      Hypothesis Qdup : forall F1 F2, Q F1 F2 -> Q F1 (fun c => or_else (F2 c) F2).

      Lemma first_of_trivials s F1 F2 cur a : Q F1 F2 -> nth_error s cur = Some a ->
        forall ps k2, (forall c, k2 (S cur) c = F2 c) -> ps <> [] ->
        (existsb (fun p => p a) ps = true ->
           Q F1 (fun c => first_of (map (match_trivial s) ps) cur c k2))
        /\ (existsb (fun p => p a) ps = false -> forall c,
           first_of (map (match_trivial s) ps) cur c k2 = Res c cur false).
      Proof.
        intros HQ Ha ps k2 Hk2.
        assert (Hlt : Nat.eqb cur (length s) = false).
        { apply Nat.eqb_neq. assert (cur < length s) by (apply nth_error_Some; congruence). lia. }
        assert (Ht : forall p c, match_trivial s p cur c k2 = if p a then F2 c else Res c cur false).
        { intros p c. unfold match_trivial, deref. rewrite Hlt, Ha. destruct (p a); auto. }
        induction ps as [|p r IH]; intros Hne; [easy|].
        assert (HF : Q F1 F1) by (eapply Qtrans; [exact HQ|now apply Qsym]).
        destruct r as [|q r].
        - cbn [map first_of existsb]. rewrite orb_false_r. split.
          + intros E. apply (c_ext _ _ _ _ CQ F1 F2); auto. intros c _. now rewrite Ht, E.
          + intros E c. now rewrite Ht, E.
        - specialize (IH ltac:(discriminate)).
          change (existsb (fun p => p a) (p :: q :: r)) with (p a || existsb (fun p => p a) (q :: r)).
          change (first_of (map (match_trivial s) (p :: q :: r)))
            with (fun (cur : nat) (c : caps) (k : cont) => or_else (match_trivial s p cur c k)
                    (fun c' => first_of (map (match_trivial s) (q :: r)) cur c' k)).
          cbv beta. split.
          + intros E. destruct (p a) eqn:Ep.
            * apply (c_ext _ _ _ _ CQ F1 (fun c => or_else (F2 c)
                (fun c' => first_of (map (match_trivial s) (q :: r)) cur c' k2))); auto.
              { intros c _. now rewrite Ht, Ep. }
              destruct (existsb (fun p => p a) (q :: r)).
              -- destruct IH as [IH _]. specialize (IH eq_refl).
                 eapply Qtrans; [apply (Qdup F1 F1 HF)|]. now apply (c_or _ _ _ _ CQ).
              -- destruct IH as [_ IH]. specialize (IH eq_refl).
                 apply (c_ext _ _ _ _ CQ F1 (fun c => or_else (F2 c) (fun c' => Res c' cur false))); auto.
                 intros c _. destruct (F2 c) as [c' e [|]| | |]; cbn [or_else]; auto.
            * cbn in E. apply (c_ext _ _ _ _ CQ F1
                (fun c => first_of (map (match_trivial s) (q :: r)) cur c k2)); auto.
              { intros c _. rewrite Ht, Ep. reflexivity. }
              now apply IH.
          + intros E c. apply orb_false_iff in E as [Ep E]. rewrite Ht, Ep. cbn [or_else].
            now apply IH.
      Qed.

      Lemma first_of_at_end s ps cur k2 : ps <> [] -> cur = length s -> forall c,
        first_of (map (match_trivial s) ps) cur c k2 = Res c cur false.
      Proof.
        intros Hne ->.
        assert (Ht : forall p c, match_trivial s p (length s) c k2 = Res c (length s) false).
        { intros p c. unfold match_trivial. now rewrite Nat.eqb_refl. }
        induction ps as [|p r IH]; intros c; [easy|]. destruct r as [|q r]; [apply Ht|].
        change (first_of (map (match_trivial s) (p :: q :: r)))
          with (fun (cur : nat) (c : caps) (k : cont) => or_else (match_trivial s p cur c k)
                  (fun c' => first_of (map (match_trivial s) (q :: r)) cur c' k)).
        cbv beta. rewrite Ht. cbn [or_else]. apply IH. discriminate.
      Qed.

      Lemma alt_first_of F rd : forall l, l <> [] ->
        (forall x, In x l -> fine x /\ size x <= F) ->
        QM (alt_match cf (view base rd) (m cf names base F rd) l)
           (first_of (map (m cf names base F rd) l)).
      Proof.
        set (s := view base rd). assert (Hs : length s = N0) by apply view_length.
        induction l as [|x r IH]; intros Hne Hl cur k1 k2 Hc Hk; [easy|].
        destruct r as [|y r].
        - cbn [alt_match first_of map]. apply self; [apply Hl; now left|assumption|assumption].
        - assert (Hx : fine x /\ size x <= F) by (apply Hl; now left).
          cbn [alt_match]. destruct (forallb trivial (x :: y :: r)) eqn:T.
          + set (l := x :: y :: r) in *. set (ps := map (match_one cf) l).
            assert (Hps : ps <> []) by (unfold ps, l; discriminate).
            assert (E : forall c, first_of (map (m cf names base F rd) l) cur c k2
                        = first_of (map (match_trivial s) ps) cur c k2).
            { clear -Hl T. unfold ps. clearbody l.
              induction l as [|z l IHl]; intros c; [reflexivity|].
              cbn [forallb] in T. apply andb_true_iff in T as [Tz T].
              cbn [map first_of].
              rewrite (m_trivial cf names base F rd z) by (auto; apply Hl; now left). fold s.
              destruct l as [|w l]; [reflexivity|].
              assert (IH' : forall c, first_of (map (m cf names base F rd) (w :: l)) cur c k2
                = first_of (map (match_trivial s) (map (match_one cf) (w :: l))) cur c k2).
              { apply IHl; auto. intros v Hv. apply Hl. now right. }
              cbn [map] in *. destruct (match_trivial s (match_one cf z) cur c k2) as [c' e [|]| | |];
                cbn [or_else]; auto. }
            assert (X : forall a, existsb (fun z => match_one cf z a) l = existsb (fun p => p a) ps).
            { intros a. unfold ps. now rewrite existsb_map. }
            unfold match_trivial at 1. destruct (Nat.eqb_spec cur (length s)) as [He|He].
            * apply (c_ext _ _ _ _ CQ (fun c => Res c cur false) (fun c => Res c cur false)).
              -- reflexivity.
              -- intros c _. rewrite E. symmetry. now apply first_of_at_end.
              -- apply (c_fail _ _ _ _ CQ).
            * unfold deref. destruct (nth_error s cur) as [a|] eqn:En;
                [|apply nth_error_None in En; lia].
              assert (Hcur : cur < length s) by (apply nth_error_Some; congruence).
              rewrite X.
              destruct (first_of_trivials s (k1 (S cur)) (k2 (S cur)) cur a
                          (Hk (S cur) ltac:(lia)) En ps k2 (fun _ => eq_refl) Hps) as [A B].
              destruct (existsb (fun p => p a) ps).
              -- apply (c_ext _ _ _ _ CQ (k1 (S cur)) (fun c => first_of (map (match_trivial s) ps) cur c k2)); auto.
              -- apply (c_ext _ _ _ _ CQ (fun c => Res c cur false) (fun c => Res c cur false)).
                 ++ reflexivity.
                 ++ intros c _. rewrite E. symmetry. now apply B.
                 ++ apply (c_fail _ _ _ _ CQ).
          + change (first_of (map (m cf names base F rd) (x :: y :: r)))
              with (fun (cur : nat) (c : caps) (k : cont) => or_else (m cf names base F rd x cur c k)
                   (fun c' => first_of (map (m cf names base F rd) (y :: r)) cur c' k)).
            cbv beta. apply (c_or _ _ _ _ CQ).
            * apply self; auto. apply Hx.
            * apply IH; auto; [discriminate|]. intros z Hz. apply Hl. now right.
      Qed.

      Lemma QM_first_of l1 l2 : Forall2 QM l1 l2 -> QM (first_of l1) (first_of l2).
      Proof.
        induction 1 as [|x y l1 l2 Hx Hl IH]; intros cur k1 k2 Hc Hk; cbn [first_of];
          [apply (c_ill _ _ _ _ CQ)|].
        destruct Hl as [|x' y' l1 l2 Hx' Hl]; [now apply Hx|].
        apply (c_or _ _ _ _ CQ); [now apply Hx|now apply IH].
      Qed.

      Lemma first_of_app l1 l2 cur c k : l1 <> [] -> l2 <> [] ->
        first_of (l1 ++ l2) cur c k = or_else (first_of l1 cur c k) (fun c' => first_of l2 cur c' k).
      Proof.
        intros H1 H2. revert c. induction l1 as [|x r IH]; intros c; [easy|].
        destruct r as [|y r].
        - cbn [app first_of]. destruct l2; [easy|]. reflexivity.
        - change ((x :: y :: r) ++ l2) with (x :: ((y :: r) ++ l2)).
          change (first_of (x :: y :: r) cur c k) with
            (or_else (x cur c k) (fun c' => first_of (y :: r) cur c' k)).
          rewrite or_else_assoc.
          change (first_of (x :: (y :: r) ++ l2) cur c k) with
            (or_else (x cur c k) (fun c' => first_of ((y :: r) ++ l2) cur c' k)).
          destruct (x cur c k) as [c' e [|]| | |]; cbn [or_else]; auto.
          apply IH. discriminate.
      Qed.

      Lemma first_of_nest l1 l2 l3 cur c k : l2 <> [] ->
        first_of (l1 ++ first_of l2 :: l3) cur c k = first_of (l1 ++ l2 ++ l3) cur c k.
      Proof.
        intros H2.
        assert (N : l2 ++ l3 <> []) by (destruct l2; easy).
        assert (A : forall c, first_of (first_of l2 :: l3) cur c k = first_of (l2 ++ l3) cur c k).
        { intros c0. destruct l3 as [|y r].
          - rewrite app_nil_r. reflexivity.
          - rewrite (first_of_app l2 (y :: r)) by (auto; discriminate). reflexivity. }
        destruct l1 as [|x r]; [apply A|].
        rewrite !(first_of_app (x :: r)) by (auto; discriminate).
        destruct (first_of (x :: r) cur c k) as [c' e [|]| | |]; cbn [or_else]; auto.
      Qed.

      Lemma alt_runs f F rd l : l <> [] -> size (Alt l) <= f ->
        (forall x, In x l -> fine x /\ size x <= F) ->
        QM (m cf names base f rd (Alt l)) (first_of (map (m cf names base F rd) l)).
      Proof.
        intros Hne Hf Hl. apply QM_ext with
          (m1 := alt_match cf (view base rd) (m cf names base F rd) l)
          (m2 := first_of (map (m cf names base F rd) l)); auto.
        - intros cur c k. rewrite m_Alt by assumption. apply alt_fuel. intros x Hx. split.
          + now apply Hl.
          + rewrite size_Alt in Hf. apply size_in_sum in Hx. lia.
        - now apply alt_first_of.
      Qed.

      Lemma alt_nested f rd l1 l2 l3 : l2 <> [] ->
        size (Alt (l1 ++ Alt l2 :: l3)) <= f -> fine (Alt (l1 ++ Alt l2 :: l3)) ->
        QM (m cf names base f rd (Alt (l1 ++ Alt l2 :: l3)))
           (m cf names base f rd (Alt (l1 ++ l2 ++ l3))).
      Proof.
        intros H2 Hf Hn.
        assert (Hin : forall x, In x (l1 ++ Alt l2 :: l3) -> fine x /\ size x <= f).
        { intros x Hx. split; [exact (fine_in_alt _ _ Hn Hx)|]. rewrite size_Alt in Hf.
          apply size_in_sum in Hx. lia. }
        assert (H1' : forall x, In x l1 -> fine x /\ size x <= f).
        { intros x Hx. apply Hin. apply in_or_app. now left. }
        assert (H3' : forall x, In x l3 -> fine x /\ size x <= f).
        { intros x Hx. apply Hin. apply in_or_app. right. now right. }
        assert (H2' : fine (Alt l2) /\ size (Alt l2) <= f).
        { apply Hin. apply in_or_app. right. now left. }
        assert (H2'' : forall x, In x l2 -> fine x /\ size x <= f).
        { intros x Hx. split; [exact (fine_in_alt _ _ (proj1 H2') Hx)|]. rewrite size_Alt in H2'.
          apply size_in_sum in Hx. lia. }
        apply QM_trans with (first_of (map (m cf names base f rd) (l1 ++ Alt l2 :: l3))).
        { apply alt_runs; auto. now destruct l1. }
        apply QM_trans with (first_of (map (m cf names base f rd) (l1 ++ l2 ++ l3))).
        - rewrite !map_app. cbn [map].
          apply QM_trans with
            (first_of (map (m cf names base f rd) l1 ++ first_of (map (m cf names base f rd) l2)
                       :: map (m cf names base f rd) l3)).
          + apply QM_first_of. apply Forall2_app; [apply self_list; intros; now apply H1'|].
            constructor; [|apply self_list; intros; now apply H3'].
            apply alt_runs; auto. apply H2'.
          + apply QM_ext with
              (m1 := first_of (map (m cf names base f rd) l1 ++ map (m cf names base f rd) l2
                       ++ map (m cf names base f rd) l3))
              (m2 := first_of (map (m cf names base f rd) l1 ++ map (m cf names base f rd) l2
                       ++ map (m cf names base f rd) l3)); auto.
            * intros. symmetry. apply first_of_nest. now destruct l2.
            * apply QM_first_of. rewrite <- !map_app. apply self_list. intros x Hx.
              apply in_app_or in Hx as [Hx|Hx]; [now apply H1'|].
              apply in_app_or in Hx as [Hx|Hx]; [now apply H2''|now apply H3'].
        - apply QM_sym. apply alt_runs.
          + destruct l1; [destruct l2; easy|discriminate].
          + rewrite size_Alt in *. rewrite !sum_app in *. cbn [map] in Hf.
            change (list_sum (size (Alt l2) :: map size l3)) with (size (Alt l2) + list_sum (map size l3)) in Hf.
            rewrite size_Alt in Hf. lia.
          + intros x Hx. apply in_app_or in Hx as [Hx|Hx]; auto. apply in_app_or in Hx as [Hx|Hx]; auto.
      Qed.
    End Duplicates.

    (** ** Anywhere in a tree *)

    Definition equi (x y : node) : Prop :=
      alike cf x y /\
      forall rd f, size x <= f -> size y <= f ->
        compiles cf names f rd x = compiles cf names f rd y
        /\ QM (m cf names base f rd x) (m cf names base f rd y).

    Definition both (x y : node) : Prop := equi x y /\ equi (invert x) (invert y).

    Lemma alike_sym x y : alike cf x y -> alike cf y x.
    Proof. intros (A & B & C & D). repeat split; auto. Qed.
    Lemma alike_trans x y z : alike cf x y -> alike cf y z -> alike cf x z.
    Proof.
      intros (A & B & C & D) (A' & B' & C' & D'). repeat split; try congruence.
    Qed.

    Lemma equi_sym x y : equi x y -> equi y x.
    Proof.
      intros [A H]. split; [now apply alike_sym|]. intros rd f Hx Hy.
      destruct (H rd f Hy Hx) as [B C]. split; [now symmetry|now apply QM_sym].
    Qed.

    Lemma equi_trans x y z : equi x y -> equi y z -> equi x z.
    Proof.
      intros [A H] [A' H']. split; [eapply alike_trans; eauto|]. intros rd f Hx Hz.
      destruct (H rd (f + size y)) as [B C]; try lia.
      destruct (H' rd (f + size y)) as [B' C']; try lia.
      split.
      - rewrite (compiles_fuel cf names f (f + size y) rd x) by lia.
        rewrite (compiles_fuel cf names f (f + size y) rd z) by lia. congruence.
      - apply QM_ext with (m1 := m cf names base (f + size y) rd x)
          (m2 := m cf names base (f + size y) rd z).
        + intros. apply m_fuel; lia.
        + intros. apply m_fuel; lia.
        + eapply QM_trans; eauto.
    Qed.

    Lemma equi_refl x : fine x -> equi x x.
    Proof.
      intros H. split; [apply alike_refl|]. intros. split; [reflexivity|now apply self].
    Qed.

    Lemma both_sym x y : both x y -> both y x.
    Proof. intros [A B]. split; now apply equi_sym. Qed.
    Lemma both_trans x y z : both x y -> both y z -> both x z.
    Proof. intros [A B] [A' B']. split; eapply equi_trans; eauto. Qed.
    Lemma both_refl x : fine x -> both x x.
    Proof. intros H. split; apply equi_refl; rewrite ?backref_free_invert; auto. Qed.

    Lemma related_of f rd x y : equi x y -> size x <= f -> size y <= f ->
      related cf names base Q Q f rd x y.
    Proof. intros [A H] Hx Hy. destruct (H rd f Hx Hy). split; auto. Qed.

    Lemma related_refl f rd x : fine x -> related cf names base Q Q f rd x x.
    Proof. intros H. split; [apply alike_refl|]. split; now apply self. Qed.

    Lemma related_list f rd l : (forall x, In x l -> fine x) ->
      Forall2 (related cf names base Q Q f rd) l l.
    Proof.
      induction l as [|x r IH]; intros H; constructor.
      - apply related_refl, H. now left.
      - apply IH. intros y Hy. apply H. now right.
    Qed.

    Lemma related_S f rd x y :
      same_shape cf names base Q Q bk f rd x y ->
      QM (m cf names base (S f) rd x) (m cf names base (S f) rd y).
    Proof. intros H. now apply (related_m cf names base Q Q CQ CQ bk Hbk). Qed.

    Lemma alike_Seq l1 l2 x y : alike cf x y ->
      alike cf (Seq (l1 ++ x :: l2)) (Seq (l1 ++ y :: l2)).
    Proof.
      intros (A & B & C & D). split; [|split; [|split]].
      - destruct l1 as [|a [|b l1]]; [destruct l2; auto|reflexivity|reflexivity].
      - cbn [zlm]. rewrite !forallb_app. cbn [forallb]. now rewrite B.
      - destruct l1 as [|a [|b l1]]; [destruct l2; auto|reflexivity|reflexivity].
      - intros ch. destruct l1 as [|a [|b l1]]; [destruct l2; cbn; auto|reflexivity|reflexivity].
    Qed.

    Lemma alike_Alt l1 l2 x y : alike cf x y ->
      alike cf (Alt (l1 ++ x :: l2)) (Alt (l1 ++ y :: l2)).
    Proof.
      intros (A & B & C & D). split; [|split; [|split]].
      - rewrite !trivial_Alt, !forallb_app. cbn [forallb]. rewrite A. destruct l1; reflexivity.
      - cbn [zlm]. rewrite !existsb_app. cbn [existsb]. now rewrite B.
      - destruct l1 as [|a [|b l1]]; [destruct l2; auto|reflexivity|reflexivity].
      - intros ch. cbn [match_one]. rewrite !existsb_app. cbn [existsb]. now rewrite D.
    Qed.

    Lemma alike_Rep md lo hi x y : alike cf x y -> alike cf (Rep md lo hi x) (Rep md lo hi y).
    Proof.
      intros (A & B & C & D). split; [|split; [|split]]; cbn [trivial zlm is_assertion match_one]; auto.
      - destruct lo as [|[| |]]; auto. destruct hi as [[|[| |]]|]; auto.
      - now rewrite B.
      - destruct md; auto; destruct lo as [|[| |]]; auto; destruct hi as [[|[| |]]|]; auto.
    Qed.

    Lemma forallb_mid {A} (p : A -> bool) l1 l2 x y :
      p x = p y -> forallb p (l1 ++ x :: l2) = forallb p (l1 ++ y :: l2).
    Proof. intros E. rewrite !forallb_app. cbn [forallb]. now rewrite E. Qed.

    Lemma equi_list (mk : list node -> node) l1 l2 x y :
      (mk = Seq \/ mk = Alt) -> (forall z, In z (l1 ++ l2) -> fine z) -> equi x y ->
      equi (mk (l1 ++ x :: l2)) (mk (l1 ++ y :: l2)).
    Proof.
      intros Hmk Hl E. split.
      - destruct Hmk as [-> | ->]; [apply alike_Seq|apply alike_Alt]; apply E.
      - intros rd [|f] Hx Hy; [pose proof (size_pos (mk (l1 ++ x :: l2))); lia|].
        assert (Sx : size x <= f /\ size y <= f).
        { destruct Hmk as [-> | ->]; rewrite ?size_Seq, ?size_Alt in *;
            rewrite !sum_app in *; cbn [map] in *;
            change (list_sum (size x :: map size l2)) with (size x + list_sum (map size l2)) in *;
            change (list_sum (size y :: map size l2)) with (size y + list_sum (map size l2)) in *; lia. }
        assert (Hr : Forall2 (related cf names base Q Q f rd) (l1 ++ x :: l2) (l1 ++ y :: l2)).
        { apply Forall2_app; [|constructor].
          - apply related_list. intros z Hz. apply Hl, in_or_app. now left.
          - now apply related_of.
          - apply related_list. intros z Hz. apply Hl, in_or_app. now right. }
        assert (Hc : forallb (compiles cf names f rd) (l1 ++ x :: l2)
                     = forallb (compiles cf names f rd) (l1 ++ y :: l2)).
        { apply forallb_mid; auto. apply E; lia. }
        split.
        + destruct Hmk as [-> | ->]; cbn [compiles]; rewrite Hc; destruct l1; reflexivity.
        + apply related_S. destruct Hmk as [-> | ->]; now constructor.
    Qed.

    Lemma equi_Cap id nm x y : equi x y -> equi (Cap id nm x) (Cap id nm y).
    Proof.
      intros E. split.
      - destruct E as [(A & B & C & D) _]. repeat split; auto.
      - intros rd [|f] Hx Hy; cbn [size] in *; [lia|]. split.
        + cbn [compiles]. f_equal. apply E; lia.
        + apply related_S. constructor. apply related_of; auto; lia.
    Qed.

    Lemma equi_Rep md lo hi x y : equi x y -> equi (Rep md lo hi x) (Rep md lo hi y).
    Proof.
      intros E. split; [apply alike_Rep, E|].
      intros rd [|f] Hx Hy; cbn [size] in *; [lia|]. split.
      - cbn [compiles]. destruct E as [(A & _) E]. rewrite A.
        replace (compiles cf names f rd y) with (compiles cf names f rd x); [reflexivity|]. apply E; lia.
      - apply related_S. constructor. apply related_of; auto; lia.
    Qed.

    Lemma equi_Look d x y : both x y -> equi (Look d x) (Look d y).
    Proof.
      intros [E E']. split; [repeat split; auto|].
      intros rd [|f] Hx Hy; cbn [size] in *; [lia|]. destruct d.
      - split; [cbn [compiles]; apply E; lia|].
        apply related_S. constructor. apply related_of; auto; lia.
      - split.
        + cbn [compiles]. f_equal. destruct E as [(A & _) E]. rewrite A.
          destruct (trivial y); [apply E; lia|]. apply E'; rewrite size_invert; lia.
        + apply related_S. constructor; [apply E|].
          apply related_of; auto; rewrite size_invert; lia.
    Qed.

    Lemma equi_Neg x y : equi x y -> equi (Neg x) (Neg y).
    Proof.
      intros [(A & B & C & D) E]. split.
      - repeat split; cbn [trivial zlm is_assertion match_one]; auto; congruence.
      - intros rd [|f] Hx Hy; cbn [size] in *; [lia|]. split.
        + cbn [compiles]. rewrite A, C. f_equal. apply E; lia.
        + apply related_S. constructor. apply related_of; try lia. repeat split; auto; apply E; auto.
    Qed.

    Lemma fine_mid l1 l2 x : fine (Seq (l1 ++ x :: l2)) ->
      fine x /\ forall z, In z (l1 ++ l2) -> fine z.
    Proof.
      intros H. split.
      - apply (fine_in _ _ H). apply in_or_app. right. now left.
      - intros z Hz. apply (fine_in _ _ H). apply in_app_or in Hz as [Hz|Hz]; apply in_or_app;
          [now left|right; now right].
    Qed.

    Lemma both_plug C x y : fine (plug C x) -> (fine x -> both x y) -> both (plug C x) (plug C y).
    Proof.
      intros Hf H. induction C as [|l1 C IH l2|l1 C IH l2|id nm C IH|md lo hi C IH|d C IH|d C IH];
        cbn [plug] in *; auto.
      - destruct (fine_mid _ _ _ Hf) as [A B]. specialize (IH A). split; [apply equi_list; auto; apply IH|].
        rewrite !invert_Seq, !map_app, !rev_app_distr. cbn [map rev]. rewrite <- !app_assoc.
        cbn [app]. apply equi_list; [now left| |apply IH].
        intros z Hz. apply in_app_or in Hz as [Hz|Hz]; apply in_rev, in_map_iff in Hz as (w & <- & Hw);
          rewrite backref_free_invert; apply B; apply in_or_app; auto.
      - destruct (fine_mid _ _ _ Hf) as [A B]. specialize (IH A). split; [apply equi_list; auto; apply IH|].
        cbn [invert]. rewrite !map_app. cbn [map]. apply equi_list; [now right| |apply IH].
        intros z Hz. apply in_app_or in Hz as [Hz|Hz]; apply in_map_iff in Hz as (w & <- & Hw);
          rewrite backref_free_invert; apply B; apply in_or_app; auto.
      - split; cbn [invert]; apply equi_Cap; now apply IH.
      - split; cbn [invert]; apply equi_Rep; now apply IH.
      - split; cbn [invert]; apply equi_Look; now apply IH.
      - split; cbn [invert]; apply equi_Neg, equi_Look; now apply IH.
    Qed.

    (** ** The elementary regroupings *)

    Variable al : bool.
    Hypothesis Hdup : al = true -> forall F1 F2, Q F1 F2 -> Q F1 (fun c => or_else (F2 c) F2).

    Lemma regroups_invert x y : regroups al x y -> regroups al (invert x) (invert y).
    Proof.
      intros []; rewrite ?invert_Seq.
      - rewrite !map_app, !rev_app_distr. cbn [map rev]. rewrite <- !app_assoc, invert_Seq.
        cbn [app]. apply rg_seq. destruct l2 as [|z r]; [easy|]. cbn. destruct (rev (map invert r)); discriminate.
      - apply rg_seq_one.
      - cbn [invert]. rewrite !map_app. cbn [map invert]. apply rg_alt_last. now destruct l2.
      - cbn [invert]. rewrite !map_app. cbn [map invert]. apply rg_alt; auto. now destruct l2.
      - apply rg_alt_one.
      - destruct x0; try discriminate; now apply rg_set_one.
      - destruct x0; try discriminate; now apply rg_not_set_one.
      - cbn [invert]. rewrite !map_app. cbn [map invert]. apply rg_alt_separate; [|now destruct l2].
        apply separate_map; auto; intros; [apply trivial_invert|apply match_one_invert].
    Qed.

    Lemma regroups_alike x y : regroups al x y -> alike cf x y.
    Proof.
      intros [l1 l2 l3 H2|x0|l1 l2 H2|l1 l2 l3 Hal H2|x0|x0 Hx|x0 Hx|l1 l2 l3 Ha H2]; split; try (split; [|split]).
      - rewrite !trivial_Seq. destruct l1 as [|a [|b l1]]; cbn [app].
        + destruct l3; [now rewrite app_nil_r|]. destruct l2 as [|p [|q l2]]; easy.
        + destruct l2; easy.
        + reflexivity.
      - cbn [zlm]. rewrite !forallb_app. cbn [forallb zlm]. reflexivity.
      - destruct l1 as [|a [|b l1]]; cbn [app].
        + destruct l3; [now rewrite app_nil_r|]. destruct l2 as [|p [|q l2]]; easy.
        + destruct l2; easy.
        + reflexivity.
      - intros ch. destruct l1 as [|a [|b l1]]; cbn [app].
        + destruct l3; [now rewrite app_nil_r|]. destruct l2 as [|p [|q l2]]; easy.
        + destruct l2; easy.
        + reflexivity.
      - reflexivity.
      - cbn [zlm forallb]. apply andb_true_r.
      - reflexivity.
      - reflexivity.
      - rewrite !trivial_Alt. rewrite !forallb_app. cbn [forallb]. rewrite trivial_Alt, andb_true_r.
        destruct l2; [easy|]. destruct l1; reflexivity.
      - cbn [zlm]. rewrite !existsb_app. cbn [existsb zlm]. now rewrite orb_false_r.
      - destruct l1 as [|a [|b l1]]; cbn [app]; [reflexivity|now destruct l2|reflexivity].
      - intros ch. cbn [match_one]. rewrite !existsb_app. cbn [existsb match_one].
        now rewrite orb_false_r.
      - rewrite !trivial_Alt. rewrite !forallb_app. cbn [forallb]. rewrite trivial_Alt.
        destruct l2; [easy|]. destruct l1; reflexivity.
      - cbn [zlm]. rewrite !existsb_app. cbn [existsb zlm]. reflexivity.
      - destruct l1 as [|a [|b l1]]; cbn [app]; [|now destruct l2|reflexivity].
        destruct l3; [now rewrite app_nil_r|]. destruct l2 as [|p [|q l2]]; easy.
      - intros ch. cbn [match_one]. rewrite !existsb_app. cbn [existsb match_one]. reflexivity.
      - rewrite trivial_Alt. cbn. apply andb_true_r.
      - cbn [zlm existsb]. apply orb_false_r.
      - reflexivity.
      - intros ch. cbn [match_one existsb]. apply orb_false_r.
      - destruct x0; easy.
      - destruct x0; easy.
      - destruct x0; easy.
      - intros ch. cbn [match_one existsb]. apply orb_false_r.
      - destruct x0; easy.
      - destruct x0; easy.
      - destruct x0; easy.
      - intros ch. cbn [match_one existsb]. now rewrite orb_false_r.
      - rewrite !trivial_Alt. rewrite !forallb_app. cbn [forallb]. rewrite trivial_Alt.
        destruct l2; [easy|]. destruct l1; reflexivity.
      - cbn [zlm]. rewrite !existsb_app. cbn [existsb zlm]. reflexivity.
      - destruct l1 as [|a [|b l1]]; cbn [app]; [|now destruct l2|reflexivity].
        destruct l3; [now rewrite app_nil_r|]. destruct l2 as [|p [|q l2]]; easy.
      - intros ch. cbn [match_one]. rewrite !existsb_app. cbn [existsb match_one]. reflexivity.
    Qed.

    Lemma classes_run f rd x y : trivial x = true -> trivial y = true -> size x <= f -> size y <= f ->
      (forall a, match_one cf x a = match_one cf y a) -> fine y ->
      QM (m cf names base f rd x) (m cf names base f rd y).
    Proof.
      intros Tx Ty Hx Hy E Hf.
      apply QM_ext with (m1 := m cf names base f rd y) (m2 := m cf names base f rd y); [|auto|now apply self].
      intros cur c k. rewrite !(m_trivial cf names base) by assumption.
      unfold match_trivial. destruct (Nat.eqb _ _); [reflexivity|].
      unfold deref. destruct (nth_error _ _); [now rewrite E|reflexivity].
    Qed.

    Lemma compiles_more f rd n : size n <= f -> compiles cf names f rd n = compiles cf names (S f) rd n.
    Proof. intros. apply compiles_fuel; lia. Qed.

    Lemma compiles_Seq f rd l : l <> [] -> size (Seq l) <= f ->
      compiles cf names f rd (Seq l) = forallb (compiles cf names f rd) l.
    Proof. intros Hn Hf. rewrite compiles_more by assumption. cbn [compiles]. now destruct l. Qed.
    Lemma compiles_Alt f rd l : l <> [] -> size (Alt l) <= f ->
      compiles cf names f rd (Alt l) = forallb (compiles cf names f rd) l.
    Proof. intros Hn Hf. rewrite compiles_more by assumption. cbn [compiles]. now destruct l. Qed.

    Lemma mid_size l1 x l3 : size x <= list_sum (map size (l1 ++ x :: l3)).
    Proof. apply size_in_sum, in_or_app. right. now left. Qed.

    Lemma regroups_equi x y : fine x -> regroups al x y -> equi x y.
    Proof.
      intros Hf Hr. split; [now apply regroups_alike|]. intros rd f Hx Hy.
      destruct Hr as [l1 l2 l3 H2|x0|l1 l2 H2|l1 l2 l3 Hal H2|x0|x0 Hx0|x0 Hx0|l1 l2 l3 Ha H2].
      - split; [|now apply seq_nested].
        rewrite !compiles_Seq by (auto; destruct l1, l2; easy). rewrite !forallb_app. cbn [forallb].
        rewrite size_Seq in Hx. pose proof (mid_size l1 (Seq l2) l3).
        now rewrite compiles_Seq by (auto; lia).
      - split.
        + rewrite compiles_Seq by easy. cbn [forallb]. apply andb_true_r.
        + apply QM_ext with (m1 := m cf names base f rd x0) (m2 := m cf names base f rd x0); auto.
          * intros cur c k. rewrite (m_fuel f (S f) rd (Seq [x0])) by lia. reflexivity.
          * apply self. apply (fine_in _ _ Hf). now left.
      - split; [|now apply alt_nested_last].
        rewrite !compiles_Alt by (auto; destruct l1, l2; easy). rewrite !forallb_app. cbn [forallb].
        rewrite size_Alt in Hx. pose proof (mid_size l1 (Alt l2) []).
        rewrite compiles_Alt by (auto; lia). now rewrite andb_true_r.
      - split; [|apply alt_nested; auto].
        rewrite !compiles_Alt by (auto; destruct l1, l2; easy). rewrite !forallb_app. cbn [forallb].
        rewrite size_Alt in Hx. pose proof (mid_size l1 (Alt l2) l3).
        now rewrite compiles_Alt by (auto; lia).
      - split.
        + rewrite compiles_Alt by easy. cbn [forallb]. apply andb_true_r.
        + apply QM_ext with (m1 := m cf names base f rd x0) (m2 := m cf names base f rd x0); auto.
          * intros cur c k. rewrite (m_fuel f (S f) rd (Alt [x0])) by lia. reflexivity.
          * apply self. apply (fine_in _ _ Hf). now left.
      - split.
        + rewrite compiles_more by exact Hx. cbn [compiles forallb]. rewrite andb_true_r.
          destruct x0; try discriminate; reflexivity.
        + apply classes_run; auto; destruct x0; try discriminate; auto; try apply orb_true_r;
            intros a0; cbn [match_one existsb]; apply orb_false_r.
      - split.
        + rewrite !(compiles_more f) by assumption. cbn [size] in Hx, Hy.
          destruct f as [|f]; [lia|]. destruct f as [|f]; [lia|].
          destruct x0; try discriminate; cbn [compiles forallb trivial is_assertion orb andb];
            now rewrite ?andb_true_r.
        + apply classes_run; auto; destruct x0; try discriminate; auto; try apply orb_true_r;
            intros a0; cbn [match_one existsb]; now rewrite orb_false_r.
      - split; [|apply alt_nested_apart; auto].
        rewrite !compiles_Alt by (auto; destruct l1, l2; easy). rewrite !forallb_app. cbn [forallb].
        rewrite size_Alt in Hx. pose proof (mid_size l1 (Alt l2) l3).
        now rewrite compiles_Alt by (auto; lia).
    Qed.

    Lemma regroups_free x y : regroups al x y -> backref_free x = backref_free y.
    Proof.
      intros []; cbn [backref_free]; rewrite ?forallb_app; cbn [forallb backref_free];
        rewrite ?forallb_app, ?andb_true_r; auto;
        match goal with H : one_character ?x = true |- _ => destruct x; easy end.
    Qed.

    Lemma plug_free C x y : backref_free x = backref_free y ->
      backref_free (plug C x) = backref_free (plug C y).
    Proof.
      intros H. induction C; cbn [plug backref_free]; auto; rewrite !forallb_app; cbn [forallb];
        now rewrite IHC.
    Qed.

    Lemma regrouped_free x y : regrouped al x y -> backref_free x = backref_free y.
    Proof.
      induction 1; auto; [|congruence]. apply plug_free. now apply regroups_free.
    Qed.

    Lemma regrouped_both x y : regrouped al x y -> fine x -> both x y.
    Proof.
      intros H. induction H as [C x y H|x|x y H IH|x y z H1 IH1 H2 IH2]; intros Hf.
      - apply both_plug; auto. intros Hx. split; [now apply regroups_equi|].
        apply regroups_equi; [now rewrite backref_free_invert|now apply regroups_invert].
      - now apply both_refl.
      - apply both_sym, IH. now rewrite (regrouped_free _ _ H).
      - eapply both_trans; [now apply IH1|]. apply IH2. now rewrite <- (regrouped_free _ _ H1).
    Qed.
  End Closed.
End Regroup.

Lemma regroups_names al x y : regroups al x y -> capture_name_spec x = capture_name_spec y.
Proof.
  intros []; cbn [capture_name_spec]; rewrite ?flat_map_app; cbn [flat_map capture_name_spec];
    rewrite ?flat_map_app, ?app_nil_r; auto.
Qed.

Lemma plug_names C x y : capture_name_spec x = capture_name_spec y ->
  capture_name_spec (plug C x) = capture_name_spec (plug C y).
Proof.
  intros H. induction C; cbn [plug capture_name_spec]; auto; try (now rewrite IHC);
    rewrite !flat_map_app; cbn [flat_map]; now rewrite IHC.
Qed.

Lemma regrouped_names al x y : regrouped al x y -> capture_name_spec x = capture_name_spec y.
Proof.
  induction 1; auto; [|congruence]. apply plug_names. eapply regroups_names; eauto.
Qed.
