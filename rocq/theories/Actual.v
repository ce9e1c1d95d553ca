(** What the code computes, in textbook terms: [walk] against [matches] and
    [paths] of the tree [as_read]. *)
From Verif Require Import Matcher Api Basics Safe Cong Impl Spec Paths Mirror Adequacy Calls Lift
  Matching Equiv Walk Exact.

(** ** [as_read] keeps the shape of a tree *)

Section Shape.
  Variable cf : config.

  Lemma forallb_if_rev {A} (p : A -> bool) (b : bool) l :
    forallb p (if b then rev l else l) = forallb p l.
  Proof. destruct b; [apply forallb_rev|reflexivity]. Qed.

  Lemma as_read_class n : forall left back, is_class (as_read left back n) = is_class n.
  Proof.
    induction n using node_ind'; intros left back; try reflexivity; try (now destruct left).
    - cbn. auto.
    - destruct l as [|x [|y r]].
      + cbn. now destruct (xorb left back).
      + inversion H; subst. cbn. destruct (xorb left back); cbn; auto.
      + cbn [as_read is_class map]. destruct (xorb left back); [|reflexivity].
        remember (rev _) as k eqn:E. assert (Hk : 2 <= length k).
        { subst k. rewrite rev_length. cbn. lia. }
        destruct k as [|a [|b k]]; cbn in Hk; lia || reflexivity.
    - cbn [as_read is_class]. destruct l as [|x r]; [reflexivity|]. cbn [map].
      inversion H; subst. rewrite H2. f_equal. rewrite forallb_map. apply forallb_ext_Forall.
      eapply Forall_impl; [|exact H3]. cbn. auto.
    - cbn [as_read is_class]. now rewrite IHn.
  Qed.

  Lemma as_read_accepts n : is_class n = true -> forall left back a,
    accepts cf (as_read left back n) a = accepts cf n a.
  Proof.
    induction n using node_ind'; intros Hc left back z; try reflexivity; try discriminate.
    - cbn in Hc |- *. now rewrite IHn.
    - cbn in Hc. destruct l as [|x [|y r]]; try discriminate. inversion H; subst.
      cbn. destruct (xorb left back); cbn; auto.
    - cbn [as_read accepts]. cbn [is_class] in Hc. destruct l as [|x r]; [discriminate|].
      apply andb_true_iff in Hc as [Hx Hr]. rewrite forallb_forall in Hr.
      rewrite Forall_forall in H.
      assert (E : forall l, (forall y, In y l -> In y (x :: r)) ->
                existsb (fun x => accepts cf x z) (map (as_read left back) l)
                = existsb (fun x => accepts cf x z) l).
      { induction l as [|y t IH]; intros Hl; [reflexivity|]. cbn. rewrite IH by (intros; apply Hl; cbn; auto).
        rewrite H; auto; [apply Hl; cbn; auto|]. destruct (Hl y) as [<-|Hy]; cbn; auto. }
      apply E. auto.
    - cbn in Hc |- *. destruct hi; [|discriminate]. apply andb_true_iff in Hc as [_ Hc]. auto.
  Qed.

  Lemma as_read_zero_width n : forall left back, zero_width (as_read left back n) = zero_width n.
  Proof.
    induction n using node_ind'; intros left back; try reflexivity; try (now destruct left).
    - cbn. now rewrite as_read_class.
    - cbn [as_read zero_width]. rewrite forallb_if_rev, forallb_map. apply forallb_ext_Forall.
      eapply Forall_impl; [|exact H]. cbn. auto.
    - cbn [as_read zero_width]. rewrite forallb_map. apply forallb_ext_Forall.
      eapply Forall_impl; [|exact H]. cbn. auto.
    - cbn. auto.
    - cbn. now rewrite IHn.
  Qed.

  Lemma as_read_well_formed n : forall left back, well_formed (as_read left back n) = well_formed n.
  Proof.
    induction n using node_ind'; intros left back; try reflexivity; try (now destruct left).
    - cbn. now rewrite as_read_class, as_read_zero_width, IHn.
    - cbn [as_read well_formed]. destruct l as [|x r]; [now destruct (xorb left back)|].
      set (l := x :: r) in *.
      assert (Hm : forallb well_formed (map (as_read left back) l) = forallb well_formed l).
      { rewrite forallb_map. apply forallb_ext_Forall. eapply Forall_impl; [|exact H]. cbn. auto. }
      destruct (xorb left back).
      + transitivity (forallb well_formed (rev (map (as_read left back) l))).
        * destruct (rev (map (as_read left back) l)) eqn:E; [|reflexivity].
          apply (f_equal (@length _)) in E. rewrite rev_length in E. discriminate.
        * rewrite forallb_rev. exact Hm.
      + rewrite <- Hm. reflexivity.
    - cbn [as_read well_formed]. destruct l as [|x r]; [reflexivity|].
      set (l := x :: r) in *.
      transitivity (forallb well_formed (map (as_read left back) l)); [reflexivity|].
      rewrite forallb_map. apply forallb_ext_Forall. eapply Forall_impl; [|exact H]. cbn. auto.
    - cbn. auto.
    - cbn. now rewrite IHn.
    - cbn. auto.
  Qed.

  Lemma as_read_possessive_free n : forall left back,
    possessive_free (as_read left back n) = possessive_free n.
  Proof.
    induction n using node_ind'; intros left back; try reflexivity; try (now destruct left).
    - cbn. auto.
    - cbn [as_read possessive_free]. rewrite forallb_if_rev, forallb_map. apply forallb_ext_Forall.
      eapply Forall_impl; [|exact H]. cbn. auto.
    - cbn [as_read possessive_free]. rewrite forallb_map. apply forallb_ext_Forall.
      eapply Forall_impl; [|exact H]. cbn. auto.
    - cbn. auto.
    - pose proof (as_read_class (Rep md lo hi n) left back) as E. cbn [as_read] in *.
      cbn [possessive_free]. rewrite E. destruct md; auto.
    - cbn. auto.
  Qed.

  Lemma as_read_may_be_empty n : forall left back,
    may_be_empty (as_read left back n) = may_be_empty n.
  Proof.
    induction n using node_ind'; intros left back; try reflexivity; try (now destruct left).
    - cbn. now rewrite as_read_class.
    - cbn [as_read may_be_empty]. rewrite forallb_if_rev, forallb_map. apply forallb_ext_Forall.
      eapply Forall_impl; [|exact H]. cbn. auto.
    - cbn [as_read may_be_empty]. induction H as [|x r Hx Hr IH]; [reflexivity|].
      cbn. now rewrite Hx, IH.
    - cbn. auto.
    - cbn. now rewrite IHn.
  Qed.
End Shape.

(** ** The language *)

Lemma chain_rev_map {A} (R : A -> nat -> nat -> Prop) (l : list A) k i :
  chain (map R (rev l)) k i <-> chain (map (fun x i k => R x k i) l) i k.
Proof.
  revert i. induction l as [|x r IH]; intros i; cbn; [intuition|].
  rewrite map_app, Mirror.chain_app. cbn. split.
  - intros (m & H1 & (m' & H2 & <-)). exists m. split; auto. now apply IH.
  - intros (m & H1 & H2). exists m. split; [now apply IH|]. eauto.
Qed.

Lemma iterate_flip (R : nat -> nat -> Prop) n i j :
  iterate R n i j <-> iterate (fun i j => R j i) n j i.
Proof.
  revert i. induction n as [|n IH]; intros i; [cbn; intuition|].
  rewrite (iterate_snoc (fun i j => R j i)). cbn [iterate]. split.
  - intros (k & H1 & H2). exists k. split; auto. now apply IH.
  - intros (k & H1 & H2). exists k. split; auto. now apply IH.
Qed.

Lemma in_chain_paths fs i j :
  In j (chain_paths fs i) <-> chain (map (fun f i j => In j (f i)) fs) i j.
Proof.
  revert i. induction fs as [|f r IH]; intros i; cbn; [intuition|].
  rewrite in_flat_map. split; intros (k & H1 & H2); exists k; split; auto; now apply IH.
Qed.

Section Language.
  Variable cf : config.
  Variable s : list ascii.
  Local Notation L := (length s).
  Local Notation walk := (walk cf s).
  Local Notation W := (W cf s).

  Lemma in_W left back n i j : i <= L -> j <= L ->
    In (pos s left j) (W left back n (pos s left i)) <-> In j (walk left back n i).
  Proof.
    intros Hi Hj. unfold Exact.W, seen. rewrite pos_pos by assumption. rewrite in_map_iff. split.
    - intros (k & E & Hk).
      assert (Hk' : k <= L) by (apply (moves_le s left (walk left back n) i k); auto using walk_moves).
      apply (f_equal (pos s left)) in E. rewrite !pos_pos in E by assumption. now subst.
    - intros H. eauto.
  Qed.

  Lemma walk_le left back n i j : i <= L -> In j (walk left back n i) -> j <= L.
  Proof. intros. apply (moves_le s left (walk left back n) i j); auto using walk_moves. Qed.

  Lemma walk_back back n i j : i <= L -> In j (walk true back n i) -> j <= i.
  Proof. intros Hi Hj. apply walk_moves in Hj; auto. Qed.

  (** The text between two offsets, in reading direction. *)
  Definition spans (left : bool) (x : node) (i j : nat) : Prop :=
    if left then matches cf s x j i else matches cf s x i j.

  Lemma walk_class left back n : is_class n = true -> forall i j, i <= L ->
    (In j (walk left back n i) <-> spans left (as_read left back n) i j).
  Proof.
    intros Hn i j Hi.
    assert (Hca : forall k, char_at s (accepts cf (as_read left back n)) k = char_at s (accepts cf n) k).
    { intros k. unfold char_at. destruct (nth_error s k); [now apply as_read_accepts|reflexivity]. }
    assert (Hs : spans left (as_read left back n) i j
                 <-> if left then i = S j /\ char_at s (accepts cf n) j = true
                     else j = S i /\ char_at s (accepts cf n) i = true).
    { unfold spans. destruct left; rewrite matches_class by (now rewrite as_read_class);
        now rewrite Hca. }
    rewrite Hs. clear Hs.
    destruct (Nat.le_gt_cases j L) as [Hj|Hj].
    - rewrite <- in_W by assumption. rewrite W_class by assumption. destruct left; cbn [pos side].
      + split; intros [E H].
        * assert (i = S j) by lia. subst i. split; [reflexivity|].
          rewrite char_at_mirror in H; auto.
        * subst i. split; [lia|]. rewrite char_at_mirror; auto.
      + reflexivity.
    - split; intros H.
      + apply walk_le in H; auto. lia.
      + destruct left; [lia|]. destruct H as [-> H]. apply char_at_lt in H. lia.
  Qed.

  Lemma walk_rep left back md lo hi x i j : md <> Possessive -> i <= L ->
    match hi with Fin h => (lo <= h)%N | Inf => True end ->
    In j (walk left back (Rep md lo hi x) i)
    <-> exists c, allowed lo hi c /\ iterate (fun i j => In j (walk left back x i)) c i j.
  Proof.
    intros Hmd Hi Hlo.
    assert (Hit : forall c i j, i <= L -> j <= L ->
      iterate (fun i j => In j (W left back x i)) c (pos s left i) (pos s left j)
      <-> iterate (fun i j => In j (walk left back x i)) c i j).
    { induction c as [|c IH]; intros i0 j0 Hi0 Hj0; cbn.
      - split; intros E; [|now subst].
        apply (f_equal (pos s left)) in E. now rewrite !pos_pos in E by assumption.
      - split; intros (k & H1 & H2).
        + assert (Hk : k <= L).
          { apply (W_bounded cf s left back x) in H1; rewrite side_length in *; auto using pos_le. lia. }
          rewrite <- (pos_pos s left k) in H1, H2 by assumption.
          exists (pos s left k). rewrite <- in_W by auto using pos_le.
          split; auto. apply IH; auto using pos_le.
        + assert (Hk : k <= L) by (eapply walk_le; [|eassumption]; auto).
          exists (pos s left k). rewrite in_W by assumption. split; auto. apply IH; auto. }
    destruct (Nat.le_gt_cases j L) as [Hj|Hj].
    2:{ split; intros H.
        - apply walk_le in H; auto. lia.
        - exfalso. destruct H as (c & _ & H). clear - H Hi Hj. revert i Hi H.
          induction c as [|c IH]; intros i Hi; cbn; [lia|]. intros (k & H1 & H2).
          apply (IH k); auto. eapply walk_le; [|eassumption]; auto. }
    rewrite <- in_W by assumption. rewrite W_Rep by auto using pos_le.
    assert (Hi' : pos s left i <= length (side s left)) by (rewrite side_length; auto using pos_le).
    pose proof (W_bounded cf s left back x) as Hb.
    assert (Hcount : forall g, (forall i j, i <= length (side s left) -> (In j (g i) <->
              exists c, within (remaining hi lo) c
                        /\ iterate (fun i j => In j (W left back x i)) c i j)) ->
            In (pos s left j) (flat_map g (times (W left back x) (N.to_nat lo) (pos s left i)))
            <-> exists c, allowed lo hi c /\ iterate (fun i j => In j (walk left back x i)) c i j).
    { intros g Hgg. rewrite in_flat_map. split.
      - intros (k & Hk & Hj'). pose proof (times_bounded _ _ (N.to_nat lo) Hb _ _ Hi' Hk).
        apply Hgg in Hj' as (c & Hc & Hj'); [|lia].
        exists (N.to_nat lo + c). split.
        + unfold allowed, within, remaining in *. destruct hi as [h|]; lia.
        + apply Hit; auto. apply iterate_app. exists k. split; auto. now apply in_times.
      - intros (c & Hc & Hj'). unfold allowed in Hc.
        assert (Hle : N.to_nat lo <= c) by lia. apply Hit in Hj'; auto.
        replace c with (N.to_nat lo + (c - N.to_nat lo)) in Hj' by lia.
        apply iterate_app in Hj' as (k & Hk & Hj'). apply in_times in Hk.
        exists k. split; auto. pose proof (times_bounded _ _ (N.to_nat lo) Hb _ _ Hi' Hk).
        apply Hgg; [lia|]. exists (c - N.to_nat lo). split; auto.
        unfold within, remaining. destruct hi; lia. }
    unfold rep_paths, loop_walk, loop_paths. destruct md; [| |easy]; apply Hcount; intros i0 j0 Hi0;
      destruct (ungreedy cf); first [now apply in_greedy|now apply in_lazy].
  Qed.

  Lemma matches_le n : forall i j, matches cf s n i j -> i <= j.
  Proof.
    assert (Hca : forall p i j, j = S i /\ char_at s p i = true -> i <= j) by (intros; lia).
    induction n using node_ind'; intros i j;
      try (cbn [matches]; eauto; intuition lia).
    - cbn [matches]. destruct (is_class n); eauto. intuition lia.
    - rewrite matches_Seq. revert i. induction H as [|x r Hx Hr IH]; intros i; cbn.
      + intros ->. lia.
      + intros (k & Hk & Hj). apply Hx in Hk; auto. apply IH in Hj; lia.
    - rewrite matches_Alt. intros (x & Hx & Hm). rewrite Forall_forall in H. eapply H; eauto.
    - cbn [matches]. intros (c & _ & Hc). revert i Hc.
      induction c as [|c IH]; intros i; cbn; [lia|]. intros (k & Hk & Hc).
      apply IHn in Hk. apply IH in Hc. lia.
    - cbn [matches]. destruct d; intuition lia.
  Qed.

  Lemma spans_le left x i j : i <= L -> spans left x i j -> j <= L.
  Proof.
    unfold spans. destruct left; intros Hi H.
    - apply matches_le in H. lia.
    - apply matches_bounds in H; auto. lia.
  Qed.

  (** Reading a plain tree finds the textbook matches of the tree [as_read]. *)
  Theorem walk_language n : possessive_free n = true -> well_formed n = true ->
    forall left back i j, i <= L ->
    (In j (walk left back n i) <-> spans left (as_read left back n) i j).
  Proof.
    assert (H1 : forall (b : bool) (i j : nat), In j (if b then [i] else []) <-> i = j /\ b = true).
    { intros [|] i j; cbn; intuition congruence. }
    induction n using node_ind'; intros Hp Hw left back i j Hi;
      try (apply walk_class; auto; fail).
    - unfold spans. cbn. destruct left; cbn; intuition.
    - (* BeginLine *) cbn [Walk.walk as_read]. rewrite H1. unfold spans.
      destruct left; cbn [matches]; intuition congruence.
    - (* BeginInput *) cbn [Walk.walk as_read]. rewrite H1. unfold spans.
      destruct left; cbn [matches]; rewrite Nat.eqb_eq; intuition congruence.
    - (* EndLine *) cbn [Walk.walk as_read]. rewrite H1. unfold spans.
      destruct left; cbn [matches]; intuition congruence.
    - (* EndInput *) cbn [Walk.walk as_read]. rewrite H1. unfold spans.
      destruct left; cbn [matches]; rewrite Nat.eqb_eq; intuition congruence.
    - (* WordB *) cbn [Walk.walk as_read]. rewrite H1. unfold spans.
      destruct left; cbn [matches]; intuition congruence.
    - (* Neg *) cbn in Hp, Hw. apply andb_true_iff in Hw as [Hz Hw].
      destruct (is_class n) eqn:Hc; [apply walk_class; auto|]. cbn in Hz.
      assert (E : walk left back n i = [] <-> ~ exists k, matches cf s (as_read left back n) i k).
      { split.
        - intros E (k & Hk). assert (Ek : i = k).
          { eapply zero_width_matches; [|exact Hk]. now rewrite as_read_zero_width. }
          subst k. assert (Hin : In i (walk left back n i)).
          { apply IHn; auto. unfold spans. now destruct left. }
          now rewrite E in Hin.
        - intros Hn. destruct (walk left back n i) as [|k r] eqn:Ew; [reflexivity|]. exfalso.
          assert (Hk : In k (walk left back n i)) by (rewrite Ew; cbn; auto).
          apply IHn in Hk; auto. apply Hn. unfold spans in Hk. destruct left; [|eauto].
          assert (Ek : k = i).
          { eapply zero_width_matches; [|exact Hk]. now rewrite as_read_zero_width. }
          subst k. eauto. }
      cbn [Walk.walk as_read]. rewrite Hc. unfold spans. cbn [matches]. rewrite as_read_class, Hc.
      assert (E2 : In j (match walk left back n i with [] => [i] | _ => [] end)
                   <-> i = j /\ ~ exists k, matches cf s (as_read left back n) i k).
      { rewrite <- E. destruct (walk left back n i); cbn; intuition congruence. }
      rewrite E2. destruct left; [|reflexivity].
      split; intros [-> H]; auto.
    - (* Seq *) rewrite walk_Seq, in_chain_paths, map_map. cbn in Hp.
      assert (Hw' : forallb well_formed l = true) by (cbn in Hw; destruct l; [discriminate|assumption]).
      rewrite forallb_forall in Hp, Hw'. rewrite Forall_forall in H.
      set (e := if back then rev l else l).
      assert (He : forall x, In x e -> In x l).
      { intros x. unfold e. destruct back; [apply in_rev|auto]. }
      assert (Ech : forall e i, (forall x, In x e -> In x l) -> i <= L ->
        (chain (map (fun x i j => In j (walk left back x i)) e) i j
         <-> chain (map (fun x i j => spans left (as_read left back x) i j) e) i j)).
      { clear i Hi e He. induction e as [|x r IHe]; intros i Hel Hi; cbn; [reflexivity|].
        assert (Hx : In x l) by (apply Hel; cbn; auto).
        split; intros (k & A & B).
        - assert (Hk : k <= L) by (eapply walk_le; [|eassumption]; auto).
          exists k. split; [now apply H; auto|]. apply IHe; auto. intros; apply Hel; cbn; auto.
        - assert (Hk : k <= L) by (eapply spans_le; [|eassumption]; auto).
          exists k. split; [now apply H; auto|]. apply IHe; auto. intros; apply Hel; cbn; auto. }
      rewrite (Ech e i He Hi). cbn [as_read]. unfold spans. destruct left.
      + rewrite matches_Seq.
        assert (Erev : (if xorb true back then rev (map (as_read true back) l) else map (as_read true back) l)
                       = rev (map (as_read true back) e)).
        { unfold e. destruct back; cbn; [|reflexivity]. now rewrite map_rev, rev_involutive. }
        rewrite Erev, chain_rev_map, map_map. reflexivity.
      + rewrite matches_Seq.
        assert (Ee : (if xorb false back then rev (map (as_read false back) l) else map (as_read false back) l)
                     = map (as_read false back) e).
        { unfold e. destruct back; [now rewrite map_rev|reflexivity]. }
        rewrite Ee, map_map. reflexivity.
    - (* Alt *) cbn in Hp.
      assert (Hw' : forallb well_formed l = true) by (cbn in Hw; destruct l; [discriminate|assumption]).
      rewrite forallb_forall in Hp, Hw'. rewrite Forall_forall in H.
      cbn [Walk.walk as_read]. rewrite in_flat_map.
      assert (E : spans left (Alt (map (as_read left back) l)) i j
                  <-> exists x, In x l /\ spans left (as_read left back x) i j).
      { unfold spans. destruct left; rewrite matches_Alt;
          (split; [intros (x & Hx & Hm); apply in_map_iff in Hx as (y & <- & Hy); eauto
                  |intros (x & Hx & Hm); eexists; split; [apply in_map; exact Hx|exact Hm]]). }
      rewrite E. split; intros (x & Hx & Hm); exists x; split; auto; now apply H in Hm; auto.
    - (* Cap *) cbn in Hp, Hw. cbn [Walk.walk as_read]. rewrite IHn by auto.
      unfold spans. destruct left; reflexivity.
    - (* Rep *) destruct (is_class (Rep md lo hi n)) eqn:Hc; [now apply walk_class|].
      assert (Hmd : md <> Possessive).
      { intros ->. cbn [possessive_free] in Hp. congruence. }
      assert (Hp' : possessive_free n = true) by (now destruct md).
      rewrite walk_rep; auto.
      2:{ destruct hi; [|exact I]. cbn in Hw. apply andb_true_iff in Hw as [Hlo _]. now apply N.leb_le. }
      assert (Hw' : hi = Fin 0 \/ well_formed n = true).
      { destruct hi; cbn in Hw; auto. apply andb_true_iff in Hw as [_ Hw].
        apply orb_true_iff in Hw as [Hw|Hw]; auto. apply N.eqb_eq in Hw. subst. auto. }
      destruct Hw' as [->|Hw'].
      { assert (E0 : forall c, allowed lo (Fin 0) c -> c = 0) by (unfold allowed; intros; lia).
        cbn [as_read]. unfold spans. destruct left; cbn [matches];
          (split; intros (c & A & B); exists c; (split; [assumption|]);
           rewrite (E0 c A) in *; cbn in *; auto). }
      assert (Eit : forall c i, i <= L ->
        (iterate (fun i j => In j (walk left back n i)) c i j
         <-> iterate (fun i j => spans left (as_read left back n) i j) c i j)).
      { clear i Hi. induction c as [|c IHc]; intros i Hi; cbn; [reflexivity|].
        split; intros (k & A & B).
        - assert (Hk : k <= L) by (eapply walk_le; [|eassumption]; auto).
          exists k. split; [now apply IHn|]. now apply IHc.
        - assert (Hk : k <= L) by (eapply spans_le; [|eassumption]; auto).
          exists k. split; [now apply IHn|]. now apply IHc. }
      cbn [as_read]. unfold spans in *. destruct left; cbn [matches].
      + split; intros (c & A & B); exists c; (split; [assumption|]).
        * rewrite iterate_flip. now apply Eit.
        * apply Eit; auto. now rewrite iterate_flip in B.
      + split; intros (c & A & B); exists c; (split; [assumption|]); now apply Eit.
    - (* Backref *) discriminate || (unfold spans; cbn; destruct left; tauto).
    - (* NBackref *) discriminate || (unfold spans; cbn; destruct left; tauto).
    - (* Look *) cbn in Hp, Hw. cbn [Walk.walk as_read].
      set (behind := xorb back (match d with Ahead => false | Behind => true end)).
      set (left' := if behind then negb left else left).
      assert (Ew : (if behind then walk (negb left) true n i else walk left false n i)
                   = walk left' behind n i) by (unfold left'; now destruct behind).
      rewrite Ew. clear Ew.
      assert (E : In j (match walk left' behind n i with [] => [] | _ => [i] end)
                  <-> i = j /\ exists k, spans left' (as_read left' behind n) i k).
      { split.
        - intros Hin. destruct (walk left' behind n i) as [|k r] eqn:Ek; [easy|].
          destruct Hin as [<-|[]]. split; [reflexivity|]. exists k. apply IHn; auto. rewrite Ek. cbn. auto.
        - intros (<- & k & Hk). apply IHn in Hk; auto.
          destruct (walk left' behind n i); [easy|cbn; auto]. }
      rewrite E. clear E.
      assert (E : (exists k, spans left' (as_read left' behind n) i k)
                  <-> if left' then exists k, k <= i /\ matches cf s (as_read left' behind n) k i
                      else exists k, matches cf s (as_read left' behind n) i k).
      { unfold spans. destruct left'; [|reflexivity].
        split; intros (k & Hk); exists k; intuition. now apply matches_le in Hk. }
      rewrite E. unfold spans. destruct left'; cbn [matches]; destruct left; split;
        intros [-> H]; (split; [reflexivity|exact H]).
  Qed.
End Language.

(** ** The order of trial *)

Section Order.
  Variable cf : config.
  Variable s : list ascii.
  Local Notation L := (length s).
  Local Notation walk := (walk cf s).

  Section Same.
    Variables f g : nat -> list nat.
    Hypothesis Hb : bounded s f.
    Hypothesis E : forall i, i <= L -> f i = g i.

    Lemma same_times n : forall i, i <= L -> times f n i = times g n i.
    Proof.
      induction n as [|n IH]; intros i Hi; cbn; [reflexivity|]. rewrite <- E by assumption.
      apply flat_map_ext_in. intros j Hj. apply IH. apply Hb in Hj; lia.
    Qed.

    Lemma same_more fu : forall b i, i <= L -> more_first f fu b i = more_first g fu b i.
    Proof.
      induction fu as [|fu IH]; intros b i Hi; cbn; [reflexivity|]. rewrite <- E by assumption.
      assert (Hj : forall j, In j (f i) -> j <= L) by (intros j Hj; apply Hb in Hj; lia).
      destruct b as [h|].
      - destruct (N.eqb h 0); [reflexivity|]. f_equal. apply flat_map_ext_in. auto.
      - f_equal. apply flat_map_ext_in. intros j Hin. destruct (Nat.eqb i j); auto.
    Qed.

    Lemma same_fewer fu : forall b i, i <= L -> fewer_first f fu b i = fewer_first g fu b i.
    Proof.
      induction fu as [|fu IH]; intros b i Hi; cbn; [reflexivity|]. rewrite <- E by assumption.
      assert (Hj : forall j, In j (f i) -> j <= L) by (intros j Hj; apply Hb in Hj; lia).
      destruct b as [h|].
      - destruct (N.eqb h 0); [reflexivity|]. f_equal. apply flat_map_ext_in. auto.
      - f_equal. apply flat_map_ext_in. intros j Hin. destruct (Nat.eqb i j); auto.
    Qed.
  End Same.

  Lemma first_flat_map {A B} (g : A -> list B) l : (forall x, In x l -> g x <> []) ->
    firstn 1 (flat_map g l) = flat_map (fun x => firstn 1 (g x)) (firstn 1 l).
  Proof.
    destruct l as [|x r]; [reflexivity|]. intros H. cbn.
    destruct (g x) eqn:Ex; [exfalso; eapply H; cbn; eauto|]. reflexivity.
  Qed.

  Lemma more_nonempty f fu b i : more_first f (S fu) b i <> [].
  Proof.
    cbn. destruct b as [h|]; [destruct (N.eqb h 0); [easy|]|];
      intros E; apply (f_equal (@length _)) in E; rewrite app_length in E; cbn in E; lia.
  Qed.

  (** The committed end is the first end of the greedy loop. *)
  Lemma commit_first f fu : forall b i, bounded s f ->
    (b = Inf -> consuming s f) -> i <= L -> fuel_ok s fu b i ->
    firstn 1 (more_first f fu b i) = [commit f fu b i].
  Proof.
    induction fu as [|fu IH]; intros b i Hb Hc Hi Hf.
    { unfold fuel_ok in Hf. destruct b; lia. }
    cbn [more_first commit]. destruct b as [h|].
    - destruct (N.eqb_spec h 0) as [Eh|Eh].
      { destruct (f i); reflexivity. }
      destruct (f i) as [|j r] eqn:Ef; [reflexivity|].
      assert (Hj : i <= j <= L) by (apply Hb; auto; rewrite Ef; cbn; auto).
      assert (Hfu : fuel_ok s fu (Fin (h - 1)) j) by (cbn in Hf |- *; lia).
      assert (Hne : more_first f fu (Fin (h - 1)) j <> []).
      { destruct fu; [cbn in Hfu; lia|apply more_nonempty]. }
      cbn [flat_map]. rewrite <- (IH (Fin (h - 1)) j) by (auto; try discriminate; lia).
      destruct (more_first f fu (Fin (h - 1)) j); [easy|reflexivity].
    - destruct (f i) as [|j r] eqn:Ef; [reflexivity|].
      assert (Hin : In j (f i)) by (rewrite Ef; cbn; auto).
      assert (Hj : i <= j <= L) by (apply Hb; auto).
      assert (Hlt : i < j) by (apply (Hc eq_refl); auto).
      assert (Hfu : fuel_ok s fu Inf j) by (cbn in Hf |- *; lia).
      assert (Hne : more_first f fu Inf j <> []).
      { destruct fu; [cbn in Hfu; lia|apply more_nonempty]. }
      cbn [flat_map]. destruct (Nat.eqb_spec i j); [lia|].
      rewrite <- (IH Inf j) by (auto; lia).
      destruct (more_first f fu Inf j); [easy|reflexivity].
  Qed.

  Lemma W_right back n i : W cf s false back n i = walk false back n i.
  Proof. unfold W, seen. cbn. apply map_id. Qed.

  Lemma walk_bounded back n : bounded s (walk false back n).
  Proof.
    intros i j Hi Hj. apply (W_bounded cf s false back n); auto. now rewrite W_right.
  Qed.

  Theorem walk_order n : possessive_ok n = true -> lookbehind_plain n = true ->
    well_formed n = true -> forall i, i <= L ->
    walk false false n i = paths cf s (as_read false false n) i.
  Proof.
    induction n using node_ind'; intros Hp Hl Hw i Hi; try reflexivity.
    - (* Neg *) cbn in Hp, Hl, Hw. apply andb_true_iff in Hw as [_ Hw].
      cbn [Walk.walk as_read paths]. rewrite as_read_class. destruct (is_class n) eqn:Hc.
      + unfold read_char, char_at. destruct (nth_error s i); [|reflexivity].
        cbn [accepts]. now rewrite as_read_accepts.
      + now rewrite IHn.
    - (* Seq *) cbn in Hp, Hl.
      assert (Hw' : forallb well_formed l = true) by (cbn in Hw; destruct l; [discriminate|assumption]).
      rewrite walk_Seq. cbn [as_read xorb]. rewrite paths_Seq. clear Hw.
      revert i Hi. induction l as [|x r IH]; intros i Hi; [reflexivity|]. cbn.
      cbn in Hp, Hl, Hw'. rewrite andb_true_iff in Hp, Hl, Hw'. inversion H; subst.
      rewrite <- H2 by tauto. apply flat_map_ext_in. intros j Hj.
      apply IH; try tauto. apply walk_bounded in Hj; lia.
    - (* Alt *) cbn in Hp, Hl.
      assert (Hw' : forallb well_formed l = true) by (cbn in Hw; destruct l; [discriminate|assumption]).
      cbn [Walk.walk as_read]. rewrite paths_Alt. clear Hw. rewrite flat_map_map.
      rewrite forallb_forall in Hp, Hl, Hw'. rewrite Forall_forall in H.
      apply flat_map_ext_in. intros x Hx. apply H; auto.
    - (* Cap *) cbn in Hp, Hl, Hw. cbn. now apply IHn.
    - (* Rep *)
      assert (Hw' : hi = Fin 0 \/ well_formed n = true).
      { destruct hi; cbn in Hw; auto. apply andb_true_iff in Hw as [_ Hw].
        apply orb_true_iff in Hw as [Hw|Hw]; auto. apply N.eqb_eq in Hw. subst. auto. }
      destruct Hw' as [->|Hw'].
      { cbn in Hw. apply andb_true_iff in Hw as [Hw _]. apply N.leb_le in Hw.
        assert (lo = 0%N) by lia. subst lo. cbn.
        destruct md, (ungreedy cf); try reflexivity; cbn; now destruct (walk false false n i). }
      assert (Hp' : possessive_ok n = true).
      { cbn in Hp. destruct md; auto. destruct hi; auto. now apply andb_true_iff in Hp as [_ Hp]. }
      cbn in Hl. specialize (IHn Hp' Hl Hw').
      pose proof (walk_bounded false n) as Hb.
      cbn [Walk.walk as_read paths].
      set (f := walk false false n) in *. set (g := paths cf s (as_read false false n)) in *.
      set (b := remaining hi lo).
      assert (Hbg : bounded s g) by apply paths_bounded.
      assert (Et : times f (N.to_nat lo) i = times g (N.to_nat lo) i) by (now apply same_times).
      assert (Hst : forall j, In j (times g (N.to_nat lo) i) -> j <= L).
      { intros j Hj. eapply times_bounded in Hj; eauto. lia. }
      assert (Eg : forall j, j <= L -> more_first f (any_fuel s b) b j = greedy_paths s g b j).
      { intros j Hj. rewrite (same_more f g) by assumption. unfold greedy_paths.
        apply (more_first_fuel s); auto; [apply any_fuel_ok; reflexivity|apply bound_fuel_ok]. }
      assert (Ez : forall j, j <= L -> fewer_first f (any_fuel s b) b j = lazy_paths s g b j).
      { intros j Hj. rewrite (same_fewer f g) by assumption. unfold lazy_paths.
        apply (fewer_first_fuel s); auto; [apply any_fuel_ok; reflexivity|apply bound_fuel_ok]. }
      assert (EG : flat_map (more_first f (any_fuel s b) b) (times f (N.to_nat lo) i)
                   = flat_map (greedy_paths s g b) (times g (N.to_nat lo) i)).
      { rewrite Et. apply flat_map_ext_in. auto. }
      assert (EZ : flat_map (fewer_first f (any_fuel s b) b) (times f (N.to_nat lo) i)
                   = flat_map (lazy_paths s g b) (times g (N.to_nat lo) i)).
      { rewrite Et. apply flat_map_ext_in. auto. }
      destruct md.
      + now destruct (ungreedy cf).
      + now destruct (ungreedy cf).
      + rewrite <- EG. rewrite first_flat_map.
        2:{ intros x _. destruct b; apply more_nonempty. }
        rewrite Et. 
        assert (Hfirst : forall j, In j (firstn 1 (times g (N.to_nat lo) i)) -> j <= L).
        { intros j Hj. apply in_firstn in Hj. auto. }
        destruct (firstn 1 (times g (N.to_nat lo) i)) as [|j r] eqn:E1; [reflexivity|].
        assert (r = []).
        { destruct (times g (N.to_nat lo) i); [discriminate|]. cbn in E1. congruence. }
        subst r. cbn [map flat_map]. rewrite app_nil_r. symmetry.
        apply commit_first; auto.
        * intros Eb. assert (hi = Inf) by (unfold b in Eb; destruct hi; [discriminate|reflexivity]).
          subst hi. cbn in Hp. apply andb_true_iff in Hp as [Hp _]. apply negb_true_iff in Hp.
          intros i0 j0 Hi0 Hj0. apply (W_consuming cf s false false n Hp); auto.
          rewrite W_right. exact Hj0.
        * apply Hfirst. cbn. auto.
        * apply any_fuel_ok. reflexivity.
    - (* Look *) destruct d.
      + cbn in Hp, Hl, Hw. cbn [Walk.walk as_read xorb paths]. now rewrite IHn.
      + cbn in Hp, Hl, Hw. cbn [Walk.walk as_read xorb paths negb].
        set (t := as_read true true n).
        assert (E : existsb (fun k => existsb (Nat.eqb i) (paths cf s t k)) (List.seq 0 (S i)) = true
                    <-> walk true true n i <> []).
        { rewrite existsb_exists. split.
          - intros (k & Hk & He). apply existsb_exists in He as (e & He1 & He2).
            apply Nat.eqb_eq in He2. subst e. apply in_seq in Hk.
            apply in_paths in He1; [|unfold t; now rewrite as_read_possessive_free
                                    |unfold t; now rewrite as_read_well_formed|lia].
            assert (In k (walk true true n i)) by (apply walk_language; auto).
            intros E0. now rewrite E0 in *.
          - intros Hne. destruct (walk true true n i) as [|k r] eqn:Ek; [easy|].
            assert (Hk : In k (walk true true n i)) by (rewrite Ek; cbn; auto).
            apply walk_language in Hk; auto. unfold spans in Hk. pose proof (matches_le _ _ _ _ _ Hk).
            exists k. split; [apply in_seq; lia|]. apply existsb_exists. exists i.
            split; [|apply Nat.eqb_refl]. apply in_paths; auto; try lia.
            + unfold t; now rewrite as_read_possessive_free.
            + unfold t; now rewrite as_read_well_formed. }
        destruct (existsb _ _).
        * destruct (walk true true n i); [exfalso; apply (proj1 E); auto|reflexivity].
        * destruct (walk true true n i); [reflexivity|]. exfalso.
          assert (false = true) by (apply E; discriminate). discriminate.
  Qed.
End Order.

(** ** Calls *)

Section Runs.
  Variable cf : config.
  Variable n : node.
  Variable s : list ascii.
  Hypothesis Hruns : runs cf n.
  Hypothesis Hbf : backref_free n = true.

  Let inv (c : caps) : Prop := length c = length (group_names n).
  Let ps := walk cf s false false n.

  Lemma node_walk cur c k kp : cur <= length s -> inv c ->
    (forall j c', In j (ps cur) -> inv c' -> adq inv (kept inv) (k j c') (kp j)) ->
    adq inv (kept inv) (node_match cf (group_names n) s 0 n cur c k) (first_some kp (ps cur)).
  Proof.
    intros H1 H2 Hk. destruct Hruns as [Hc Hl]. unfold ps in *.
    assert (E : walk cf s false false n cur = ends cf s (fun _ => []) 0 false n cur)
      by (rewrite ends_top, fill_free; auto).
    rewrite E in *. clear E.
    refine (exact_filled cf (group_names n) s (fun _ => []) inv (fun _ => True) (fun _ _ _ _ => True) _ _ _
              (size n) 0 false n Hc Hl _ _ nat (kept inv) cur c k kp H1 H2 Hk); auto using refs_known_free.
    - intros i c0 c0' _ Hi E. unfold clear_cell in E. destruct (nth_error c0 (N.to_nat i)); [|discriminate].
      apply set_cell_length in E. unfold inv in *. congruence.
    - intros r id nm b e c0 c0' Hi _ _ _ E. unfold store in E.
      destruct (nth_error _ _); [|discriminate]. destruct (name_eqb _ _); [|discriminate].
      destruct r as [|[|r]]; try discriminate; apply set_cell_length in E; unfold inv in *; congruence.
    - intros r v id y _. split; [exact I|]. intros b e _ _. exact I.
  Qed.

  Lemma match_method_walk cur c : cur <= length s -> inv c ->
    result_ok (fun c' e b => inv c' /\ group0 c' = Some (cur, e)
        /\ (b = true <-> In (length s) (ps cur)) /\ (b = true -> e = length s))
      (match_method cf n s cur c).
  Proof. exact (match_method_by cf n s ps node_walk cur c). Qed.

  Lemma match_prefix_method_walk cur c : cur <= length s -> inv c ->
    result_ok (fun c' e b => inv c' /\ group0 c' = Some (cur, e)
        /\ (if b then Some e else None) = actual cf s n cur)
      (match_prefix_method cf n s cur c).
  Proof. exact (match_prefix_method_by cf n s ps node_walk cur c). Qed.

  Lemma search_method_walk cur c : cur <= length s -> inv c ->
    result_ok (fun c' e b => inv c'
        /\ (b = true -> exists i, (cur <= i <= length s /\ actual cf s n i = Some e
              /\ forall i', cur <= i' < i -> actual cf s n i' = None) /\ group0 c' = Some (i, e))
        /\ (b = false -> forall i, cur <= i <= length s -> actual cf s n i = None))
      (search_method cf n s cur c).
  Proof. exact (search_method_by cf n s ps node_walk cur c). Qed.
End Runs.

Theorem match_exact r ct s : usable r ct -> backref_free (ast r) = true ->
  returns (regex_match r ct s) (fun res =>
    matched res = true <-> In (length s) (walk (config_of (flags r) ct) s false false (ast r) 0)).
Proof.
  intros Hu Hb. apply invoke_returns; [apply Hu|].
  eapply result_ok_weaken; [apply match_method_walk; auto; [lia|apply initial_length]|].
  cbn. tauto.
Qed.

Theorem match_prefix_exact r ct s : usable r ct -> backref_free (ast r) = true ->
  returns (regex_match_prefix r ct s) (fun res =>
    match actual (config_of (flags r) ct) s (ast r) 0 with
    | Some e => matched res = true /\ group0 (groups res) = Some (0, e)
    | None => matched res = false
    end).
Proof.
  intros Hu Hb. apply invoke_returns; [apply Hu|].
  eapply result_ok_weaken; [apply match_prefix_method_walk; auto; [lia|apply initial_length]|].
  cbn. intros c e b (_ & G & <-). destruct b; auto.
Qed.

Theorem search_exact r ct s : usable r ct -> backref_free (ast r) = true ->
  returns (regex_search r ct s) (fun res =>
    (matched res = true -> exists i e, i <= length s /\ group0 (groups res) = Some (i, e)
       /\ actual (config_of (flags r) ct) s (ast r) i = Some e
       /\ forall i', i' < i -> actual (config_of (flags r) ct) s (ast r) i' = None)
    /\ (matched res = false ->
        forall i, i <= length s -> actual (config_of (flags r) ct) s (ast r) i = None)).
Proof.
  intros Hu Hb. apply invoke_returns; [apply Hu|].
  eapply result_ok_weaken; [apply search_method_walk; auto; [lia|apply initial_length]|].
  cbn. intros c e b (_ & H1 & H2). split.
  - intros E. destruct (H1 E) as (i & (Hle & Hi & Hm) & G). exists i, e. repeat split; auto; try lia.
    intros i' Hi'. apply Hm. lia.
  - intros E i Hi. apply H2; auto. lia.
Qed.

(** The textbook meaning of the tree [as_read]. *)
Theorem match_as_read r ct s : usable r ct ->
  backref_free (ast r) = true -> possessive_free (ast r) = true ->
  returns (regex_match r ct s) (fun res =>
    matched res = true
    <-> matches (config_of (flags r) ct) s (as_read false false (ast r)) 0 (length s)).
Proof.
  intros Hu Hb Hp. destruct (match_exact r ct s Hu Hb) as (res & E & H).
  exists res. split; auto. rewrite H. rewrite walk_language; auto; [reflexivity| |lia].
  eapply compiles_well_formed. apply Hu.
Qed.

Lemma actual_as_read cf s n i : runs cf n -> possessive_ok n = true -> lookbehind_plain n = true ->
  i <= length s -> actual cf s n i = preferred cf s (as_read false false n) i.
Proof.
  intros Hr Hp Hl Hi. unfold actual, preferred. rewrite walk_order; auto.
  eapply compiles_well_formed. apply Hr.
Qed.

Theorem match_prefix_as_read r ct s : usable r ct -> backref_free (ast r) = true ->
  possessive_ok (ast r) = true -> lookbehind_plain (ast r) = true ->
  returns (regex_match_prefix r ct s) (fun res =>
    match preferred (config_of (flags r) ct) s (as_read false false (ast r)) 0 with
    | Some e => matched res = true /\ group0 (groups res) = Some (0, e)
    | None => matched res = false
    end).
Proof.
  intros Hu Hb Hp Hl. destruct (match_prefix_exact r ct s Hu Hb) as (res & E & H).
  exists res. split; auto. rewrite <- actual_as_read; auto. lia.
Qed.

Theorem search_as_read r ct s : usable r ct -> backref_free (ast r) = true ->
  possessive_ok (ast r) = true -> lookbehind_plain (ast r) = true ->
  let p := preferred (config_of (flags r) ct) s (as_read false false (ast r)) in
  returns (regex_search r ct s) (fun res =>
    (matched res = true -> exists i e, i <= length s /\ group0 (groups res) = Some (i, e)
       /\ p i = Some e /\ forall i', i' < i -> p i' = None)
    /\ (matched res = false -> forall i, i <= length s -> p i = None)).
Proof.
  intros Hu Hb Hp Hl p. destruct (search_exact r ct s Hu Hb) as (res & E & H1 & H2).
  exists res. split; auto. split.
  - intros Em. destruct (H1 Em) as (i & e & Hle & G & Hi & Hm). exists i, e.
    split; auto. split; auto. split.
    + unfold p. now rewrite <- actual_as_read.
    + intros i' Hi'. unfold p. rewrite <- actual_as_read; auto. lia.
  - intros Em i Hi. unfold p. rewrite <- actual_as_read; auto.
Qed.

(** ** Equal walks give equal answers, in every context *)

Lemma same_walk_answers n1 n2 fl ct s :
  usable (mk_regex n1 fl) ct -> usable (mk_regex n2 fl) ct ->
  backref_free n1 = true -> backref_free n2 = true ->
  (forall i, i <= length s -> walk (config_of fl ct) s false false n1 i
                              = walk (config_of fl ct) s false false n2 i) ->
  same_answers (mk_regex n1 fl) (mk_regex n2 fl) ct s.
Proof.
  intros U1 U2 R1 R2 E. unfold same_answers, same_answer.
  set (cf := config_of fl ct) in *.
  assert (P : forall i, i <= length s -> actual cf s n1 i = actual cf s n2 i).
  { intros i Hi. unfold actual. now rewrite E. }
  split; [|split].
  - destruct (groups_valid _ ct s U1) as [(a & Ea & _ & e1 & Ga & Ma) _].
    destruct (groups_valid _ ct s U2) as [(b & Eb & _ & e2 & Gb & Mb) _].
    destruct (match_exact _ ct s U1 R1) as (a' & Ea' & Ha).
    destruct (match_exact _ ct s U2 R2) as (b' & Eb' & Hb).
    rewrite Ea in Ea'. injection Ea' as <-. rewrite Eb in Eb'. injection Eb' as <-.
    cbn [ast flags] in *. fold cf in Ha, Hb. rewrite E in Ha by lia. rewrite <- Hb in Ha.
    exists a, b. do 2 (split; [assumption|]).
    assert (Em : matched a = matched b) by (destruct (matched a), (matched b); intuition congruence).
    split; [exact Em|]. intros H. rewrite Ga, Gb, Ma, Mb; congruence.
  - destruct (match_prefix_exact _ ct s U1 R1) as (a & Ea & Ha).
    destruct (match_prefix_exact _ ct s U2 R2) as (b & Eb & Hb).
    cbn [ast flags] in *. fold cf in Ha, Hb. rewrite P in Ha by lia.
    exists a, b. do 2 (split; [assumption|]).
    destruct (actual cf s n2 0); intuition congruence.
  - destruct (search_exact _ ct s U1 R1) as (a & Ea & A & A').
    destruct (search_exact _ ct s U2 R2) as (b & Eb & B & B').
    cbn [ast flags] in *. fold cf in A, A', B, B'.
    exists a, b. do 2 (split; [assumption|]). destruct (matched a), (matched b).
    + split; auto. intros _.
      destruct (A eq_refl) as (i & e & Li & -> & Hi & Hi'), (B eq_refl) as (j & e' & Lj & -> & Hj & Hj').
      destruct (Nat.lt_trichotomy i j) as [Hlt|[->|Hlt]].
      * rewrite P, (Hj' i) in Hi by lia. discriminate.
      * rewrite P in Hi by lia. congruence.
      * rewrite <- P, (Hi' j) in Hj by lia. discriminate.
    + destruct (A eq_refl) as (i & e & Li & _ & Hi & _). rewrite P, B' in Hi by auto. discriminate.
    + destruct (B eq_refl) as (i & e & Li & _ & Hi & _). rewrite <- P, A' in Hi by auto. discriminate.
    + split; [reflexivity|discriminate].
Qed.

Section Contexts.
  Variable cf : config.
  Variable s : list ascii.
  Local Notation L := (length s).
  Local Notation W := (W cf s).

  (** The trees have the same ends in the same order wherever they are read. *)
  Definition same_walk (x y : node) : Prop :=
    forall left back i, i <= L -> W left back x i = W left back y i.

  Lemma walk_of_W left back x i : i <= L ->
    walk cf s left back x i = map (pos s left) (W left back x (pos s left i)).
  Proof.
    intros Hi. unfold Exact.W, seen. rewrite pos_pos by assumption. rewrite map_map.
    rewrite <- (map_id (walk cf s left back x i)) at 1. apply map_ext_in. intros j Hj.
    symmetry. apply pos_pos. eapply walk_le; [|eassumption]; auto.
  Qed.

  Lemma same_walk_at x y left back i : same_walk x y -> i <= L ->
    walk cf s left back x i = walk cf s left back y i.
  Proof.
    intros H Hi. rewrite !walk_of_W by assumption. rewrite H; auto using pos_le.
  Qed.

  Lemma same_walk_intro x y :
    (forall left back i, i <= L -> walk cf s left back x i = walk cf s left back y i) -> same_walk x y.
  Proof.
    intros H left back i Hi. unfold Exact.W, seen. rewrite H; auto using pos_le.
  Qed.

  Lemma W_le left back x i j : i <= L -> In j (W left back x i) -> j <= L.
  Proof. intros Hi Hj. apply W_bounded in Hj; rewrite side_length in *; auto. lia. Qed.

  Lemma chain_same fs gs : Forall2 (fun f g => forall i, i <= L -> f i = g i) fs gs ->
    Forall (fun f => forall i j, i <= L -> In j (f i) -> j <= L) fs ->
    forall i, i <= L -> chain_paths fs i = chain_paths gs i.
  Proof.
    induction 1 as [|f g fs gs E _ IH]; intros Hb i Hi; [reflexivity|]. inversion Hb; subst. cbn.
    rewrite <- E by assumption. apply flat_map_ext_in. intros j Hj. apply IH; auto. eauto.
  Qed.

  Lemma same_walk_Seq l1 l2 : Forall2 same_walk l1 l2 -> same_walk (Seq l1) (Seq l2).
  Proof.
    intros H left back i Hi. rewrite !W_Seq by assumption.
    assert (H' : Forall2 same_walk (if back then rev l1 else l1) (if back then rev l2 else l2)).
    { destruct back; [|exact H]. clear - H. induction H; cbn; [constructor|].
      apply Forall2_app; auto. }
    apply chain_same; auto.
    - clear - H'. induction H'; cbn; constructor; auto.
    - rewrite Forall_map. apply Forall_forall. intros x _ i0 j. apply W_le.
  Qed.

  Lemma same_walk_refl x : same_walk x x.
  Proof. intros left back i _. reflexivity. Qed.

  Lemma same_walk_refls l : Forall2 same_walk l l.
  Proof. induction l; constructor; auto using same_walk_refl. Qed.

  Lemma same_commit f g : bounded s f -> (forall i, i <= L -> f i = g i) ->
    forall fu b i, i <= L -> commit f fu b i = commit g fu b i.
  Proof.
    intros Hb E. induction fu as [|fu IH]; intros b i Hi; cbn; [reflexivity|].
    rewrite <- E by assumption. destruct (f i) as [|j r] eqn:Ef; [reflexivity|].
    assert (Hj : j <= L) by (apply (Hb i j); auto; rewrite Ef; cbn; auto).
    destruct b as [h|].
    - destruct (N.eqb h 0); auto.
    - destruct (Nat.eqb i j); auto.
  Qed.
End Contexts.

Lemma same_walk_Rep cf s md lo hi x y : same_walk cf s x y -> same_walk cf s (Rep md lo hi x) (Rep md lo hi y).
Proof.
  intros H left back i Hi. rewrite !W_Rep by assumption. unfold rep_paths.
  assert (Hb := W_bounded cf s left back x).
  assert (E : forall i, i <= length (side s left) -> W cf s left back x i = W cf s left back y i).
  { intros j Hj. rewrite side_length in Hj. auto. }
  assert (Hi' : i <= length (side s left)) by (now rewrite side_length).
  assert (Et : forall n, times (W cf s left back x) n i = times (W cf s left back y) n i).
  { intros n. apply (same_times (side s left)); auto. }
  assert (Hlp : forall j, j <= length (side s left) ->
    loop_walk cf s left back md (remaining hi lo) x j = loop_walk cf s left back md (remaining hi lo) y j).
  { intros j Hj. unfold loop_walk, loop_paths, greedy_paths, lazy_paths.
    rewrite (same_more (side s left) _ _ Hb E) by assumption.
    rewrite (same_fewer (side s left) _ _ Hb E) by assumption.
    rewrite (same_commit (side s left) _ _ Hb E) by assumption. reflexivity. }
  assert (Hin : forall n j, In j (times (W cf s left back x) n i) -> j <= length (side s left)).
  { intros n j Hj. apply (times_bounded _ _ n Hb) in Hj; auto. lia. }
  destruct md; rewrite <- Et; apply flat_map_ext_in; intros j Hj; apply Hlp;
    try (apply in_firstn in Hj); eauto.
Qed.

Lemma same_walk_plug cf s C x y : same_walk cf s x y -> same_walk cf s (plug C x) (plug C y).
Proof.
  intros H. induction C; cbn [plug]; auto.
  - apply same_walk_Seq. apply Forall2_app; [apply same_walk_refls|]. constructor; auto using same_walk_refls.
  - intros left back i Hi. rewrite !W_Alt, !flat_map_app. cbn [flat_map]. now rewrite IHC.
  - now apply same_walk_Rep.
  - apply same_walk_intro. intros left back i Hi. cbn [walk].
    now rewrite !(same_walk_at cf s _ _ _ _ _ IHC) by assumption.
  - apply same_walk_intro. intros left back i Hi. cbn [walk is_class].
    now rewrite !(same_walk_at cf s _ _ _ _ _ IHC) by assumption.
Qed.

(** ** Possessive loops *)

Lemma W_possessive cf s left back lo hi x i : i <= length s ->
  hi <> Inf \/ may_be_empty x = false ->
  W cf s left back (Rep Possessive lo hi x) i
  = firstn 1 (flat_map (greedy_paths (side s left) (W cf s left back x) (remaining hi lo))
                (times (W cf s left back x) (N.to_nat lo) i)).
Proof.
  intros Hi Hc. rewrite W_Rep by assumption. unfold rep_paths.
  assert (Hb := W_bounded cf s left back x).
  set (f := W cf s left back x) in *. set (b := remaining hi lo).
  assert (Hi' : i <= length (side s left)) by (now rewrite side_length).
  rewrite (first_flat_map (greedy_paths (side s left) f b)).
  2:{ intros j _. unfold greedy_paths, bound_fuel. destruct b; apply more_nonempty. }
  apply flat_map_ext_in. intros j Hj. cbn [loop_walk]. fold f b.
  assert (Hj' : j <= length (side s left)).
  { apply in_firstn in Hj. apply (times_bounded _ _ _ Hb) in Hj; auto. lia. }
  assert (Hfo : fuel_ok (side s left) (any_fuel s b) b j) by (apply any_fuel_ok, side_length).
  unfold greedy_paths. rewrite (more_first_fuel (side s left) f Hb _ (any_fuel s b)); auto using bound_fuel_ok.
  symmetry. apply (commit_first (side s left)); auto.
  intros Eb. destruct Hc as [Hc|Hc]; [|now apply W_consuming].
  unfold b in Eb. destruct hi; [discriminate|easy].
Qed.

Lemma same_possessive cf s lo hi x : ungreedy cf = false ->
  hi <> Inf \/ may_be_empty x = false ->
  same_walk cf s (Rep Possessive lo hi x) (atomic (Rep Greedy lo hi x)).
Proof.
  intros Hu Hc left back i Hi. unfold atomic. rewrite W_possessive by assumption.
  rewrite (W_possessive cf s left back 1 (Fin 1)) by (auto; left; discriminate).
  change (N.to_nat 1) with 1. change (remaining (Fin 1) 1) with (Fin 0).
  f_equal. rewrite times_one.
  rewrite (flat_map_eq (greedy_paths (side s left) _ (Fin 0)) (fun j => [j])) by reflexivity.
  rewrite Equiv.flat_map_single.
  rewrite W_Rep by assumption. unfold rep_paths, loop_walk, loop_paths. now rewrite Hu.
Qed.

Theorem possessive_atomic_any C lo hi x fl ct s : ~ In F_ungreedy fl ->
  hi <> Inf \/ may_be_empty x = false ->
  usable (mk_regex (plug C (Rep Possessive lo hi x)) fl) ct ->
  usable (mk_regex (plug C (atomic (Rep Greedy lo hi x))) fl) ct ->
  backref_free (plug C (Rep Possessive lo hi x)) = true ->
  same_answers (mk_regex (plug C (Rep Possessive lo hi x)) fl)
    (mk_regex (plug C (atomic (Rep Greedy lo hi x))) fl) ct s.
Proof.
  intros Hf Hc U1 U2 R1. apply same_walk_answers; auto.
  - rewrite <- R1. clear. induction C; cbn [plug backref_free]; auto;
      rewrite !forallb_app; cbn; now rewrite IHC.
  - intros i Hi. apply same_walk_at; auto. apply same_walk_plug, same_possessive; auto.
    cbn. now apply flag_test_not_In.
Qed.

(** ** Trees that are read as written *)

Lemma map_same {A} (f : A -> A) l : (forall x, In x l -> f x = x) -> map f l = l.
Proof. intros H. rewrite <- (map_id l) at 2. now apply map_ext_in. Qed.

Lemma as_read_of_class n : is_class n = true -> forall left back, as_read left back n = n.
Proof.
  induction n using node_ind'; intros Hc left back; try reflexivity; try discriminate.
  - cbn in *. f_equal. auto.
  - cbn in Hc. destruct l as [|x [|y r]]; try discriminate. inversion H; subst. cbn.
    rewrite H2 by assumption. now destruct (xorb left back).
  - cbn in *. f_equal. destruct l as [|x r]; [discriminate|].
    apply andb_true_iff in Hc as [Hx Hr]. rewrite forallb_forall in Hr. rewrite Forall_forall in H.
    apply map_same. intros y Hy. apply H; auto. destruct Hy as [<-|Hy]; auto.
  - cbn in *. destruct hi; [|discriminate]. apply andb_true_iff in Hc as [_ Hc]. f_equal. auto.
Qed.

Lemma as_read_reversible n : reversible n = true -> as_read true true n = n.
Proof.
  induction n using node_ind'; intros Hr; try reflexivity; try discriminate.
  - cbn in *. f_equal. auto.
  - cbn in *. f_equal. rewrite forallb_forall in Hr. rewrite Forall_forall in H.
    apply map_same. auto.
  - cbn in *. f_equal. rewrite forallb_forall in Hr. rewrite Forall_forall in H.
    apply map_same. auto.
  - cbn in *. f_equal. auto.
  - destruct (is_class (Rep md lo hi n)) eqn:Hc; [now apply as_read_of_class|].
    cbn [as_read]. f_equal. apply IHn. cbn [reversible] in Hr. destruct md; auto. congruence.
  - cbn in Hr. cbn [as_read]. destruct d; cbn; f_equal; now apply as_read_of_class.
Qed.

Lemma as_read_same n : lookbehind_ok n = true -> as_read false false n = n.
Proof.
  induction n using node_ind'; intros Hr; try reflexivity; try discriminate.
  - cbn in *. f_equal. auto.
  - cbn in *. f_equal. rewrite forallb_forall in Hr. rewrite Forall_forall in H.
    apply map_same. auto.
  - cbn in *. f_equal. rewrite forallb_forall in Hr. rewrite Forall_forall in H.
    apply map_same. auto.
  - cbn in *. f_equal. auto.
  - cbn in *. f_equal. auto.
  - destruct d; cbn in *; f_equal; auto. now apply as_read_reversible.
Qed.
