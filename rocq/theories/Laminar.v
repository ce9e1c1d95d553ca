(** How the texts of two groups lie to each other after a successful call:
    specification and proofs (C90). *)
From Verif Require Import Matcher Api Basics Spec Groups Held.

(** ** Specification *)

(** The group [j] stands inside the group [i]. *)
Definition inside (n : node) (i j : N) : Prop := exists x y, group_in n i x /\ group_in x j y.

(** The group [i] can be passed before the group [j]: it stands to the left of it in a
    concatenation, or both stand in a loop that can be passed twice. *)
Inductive before : node -> N -> N -> Prop :=
| bf_seq l1 x l2 y i j gi gj : group_in x i gi -> In y l2 -> group_in y j gj ->
    before (Seq (l1 ++ x :: l2)) i j
| bf_loop md lo hi x i j gi gj q : allowed lo hi q -> 2 <= q -> group_in x i gi -> group_in x j gj ->
    before (Rep md lo hi x) i j
| bf_in_cap id nm x i j : before x i j -> before (Cap id nm x) i j
| bf_in_seq l x i j : In x l -> before x i j -> before (Seq l) i j
| bf_in_alt l x i j : In x l -> before x i j -> before (Alt l) i j
| bf_in_rep md lo hi x i j : before x i j -> before (Rep md lo hi x) i j.

(** The texts [v] of the group [i] and [w] of the group [j] follow each other or are
    nested, as the groups do in the tree. *)
Inductive arranged (n : node) (i j : N) : nat * nat -> nat * nat -> Prop :=
| ar_left p q p' q' : before n i j -> q <= p' -> arranged n i j (p, q) (p', q')
| ar_right p q p' q' : before n j i -> q' <= p -> arranged n i j (p, q) (p', q')
| ar_outside p q p' q' : inside n i j -> p <= p' -> q' <= q -> arranged n i j (p, q) (p', q')
| ar_inside p q p' q' : inside n j i -> p' <= p -> q <= q' -> arranged n i j (p, q) (p', q').

(** ** Proofs *)

Section Traces.
  Variable cf : config.
  Variable s : list ascii.

  Lemma takes_from n a b t : takes cf s n a b t -> a <= b.
  Proof.
    intros H. induction H using takes_mind with (P0 := fun l a b t _ => a <= b); lia.
  Qed.

  Lemma takes_all_from l a b t : takes_all cf s l a b t -> a <= b.
  Proof. induction 1 as [|x l i j k t u H _ IH]; [lia|]. apply takes_from in H. lia. Qed.

  Lemma taken_in n a b t : takes cf s n a b t -> forall id v, In (id, v) t -> exists y, group_in n id y.
  Proof.
    intros H.
    induction H using takes_mind with (P0 := fun l a b t _ => forall id v, In (id, v) t ->
      exists x y, In x l /\ group_in x id y); intros id0 v0 Hin; try (now destruct Hin).
    - destruct (IHtakes _ _ Hin) as (y & Hy). exists y. now constructor.
    - destruct (IHtakes _ _ Hin) as (x & y & Hx & Hy). exists y. econstructor; eauto.
    - destruct (IHtakes _ _ Hin) as (y & Hy). exists y. eapply gi_alt; eauto.
    - apply in_app_or in Hin. destruct Hin as [Hin|[E|[]]].
      + destruct (IHtakes _ _ Hin) as (y & Hy). exists y. now constructor.
      + injection E as <- <-. exists x. constructor.
    - destruct (IHtakes _ _ Hin) as (y & z & Hy & Hz). apply repeat_spec in Hy. subst y. exists z. now constructor.
    - apply in_app_or in Hin. destruct Hin as [Hin|Hin].
      + destruct (IHtakes _ _ Hin) as (y & Hy). exists x, y. cbn. auto.
      + destruct (IHtakes0 _ _ Hin) as (y & z & Hy & Hz). exists y, z. cbn. auto.
  Qed.

  Lemma taken_all_in l a b t id v : takes_all cf s l a b t -> In (id, v) t -> exists x y, In x l /\ group_in x id y.
  Proof.
    induction 1 as [|x l i j k t u H _ IH]; intros Hin; [destruct Hin|].
    apply in_app_or in Hin. destruct Hin as [Hin|Hin].
    - destruct (taken_in _ _ _ _ H _ _ Hin) as (y & Hy). exists x, y. cbn. auto.
    - destruct (IH Hin) as (y & z & Hy & Hz). exists y, z. cbn. auto.
  Qed.

  (** The groups in the trace that are not committed lie inside the match. *)
  Lemma taken_range n a b t : takes cf s n a b t -> forall id p q, In (id, (p, q)) t -> ~ committed n id ->
    a <= p /\ p <= q /\ q <= b.
  Proof.
    intros H.
    induction H using takes_mind with (P0 := fun l a b t _ => forall id p q, In (id, (p, q)) t ->
      (forall x, In x l -> ~ committed x id) -> a <= p /\ p <= q /\ q <= b);
      intros id0 p0 q0 Hin Hc; try (now destruct Hin).
    - exfalso. apply Hc. destruct (taken_in _ _ _ _ H _ _ Hin) as (y & Hy). econstructor; exact Hy.
    - apply (IHtakes _ _ _ Hin). intros x Hx C. apply Hc. econstructor; eauto.
    - apply (IHtakes _ _ _ Hin). intros C. apply Hc. eapply cm_alt; eauto.
    - apply in_app_or in Hin. destruct Hin as [Hin|[E|[]]].
      + apply (IHtakes _ _ _ Hin). intros C. apply Hc. now constructor.
      + injection E as <- <- <-. apply takes_from in H. lia.
    - apply (IHtakes _ _ _ Hin). intros y Hy C. apply repeat_spec in Hy. subst y. apply Hc. now apply cm_rep.
    - apply in_app_or in Hin. apply takes_from in H as Ha. apply takes_all_from in t0 as Hb. destruct Hin as [Hin|Hin].
      + pose proof (IHtakes _ _ _ Hin (Hc x (or_introl eq_refl))). lia.
      + assert (j <= p0 /\ p0 <= q0 /\ q0 <= k); [|lia]. apply (IHtakes0 _ _ _ Hin). intros y Hy. apply Hc. now right.
  Qed.

  Lemma taken_all_range l a b t id p q : takes_all cf s l a b t -> In (id, (p, q)) t ->
    (forall x, In x l -> ~ committed x id) -> a <= p /\ p <= q /\ q <= b.
  Proof.
    intros H Hin Hc. apply (taken_range (Seq l) a b t) with (id := id); [now constructor|assumption|].
    intros C. inversion C; subst. eapply Hc; eauto.
  Qed.

  Lemma arranged_sub n n' i j v w : (forall i j, before n i j -> before n' i j) ->
    (forall i y, group_in n i y -> group_in n' i y) -> arranged n i j v w -> arranged n' i j v w.
  Proof.
    intros Hb Hg H. destruct H as [p q p' q' B L|p q p' q' B L|p q p' q' (x & y & X & Y) L1 L2|p q p' q' (x & y & X & Y) L1 L2].
    - apply ar_left; auto.
    - apply ar_right; auto.
    - apply ar_outside; auto. exists x, y. auto.
    - apply ar_inside; auto. exists x, y. auto.
  Qed.

  (** What can be said about the parts of a concatenation or loop. *)
  Definition arranged_parts (l : list node) (i j : N) (v w : nat * nat) : Prop :=
    (exists x, In x l /\ arranged x i j v w)
    \/ (exists l1 x l2 y gi gj, l = l1 ++ x :: l2 /\ group_in x i gi /\ In y l2 /\ group_in y j gj /\ snd v <= fst w)
    \/ (exists l1 x l2 y gi gj, l = l1 ++ x :: l2 /\ group_in x j gj /\ In y l2 /\ group_in y i gi /\ snd w <= fst v).

  Lemma taken_arranged n a b t : takes cf s n a b t -> forall i j v w, In (i, v) t -> In (j, w) t -> i <> j ->
    ~ committed n i -> ~ committed n j -> arranged n i j v w.
  Proof.
    intros H.
    induction H using takes_mind with (P0 := fun l a b t _ => forall i j v w, In (i, v) t -> In (j, w) t -> i <> j ->
      (forall x, In x l -> ~ committed x i) -> (forall x, In x l -> ~ committed x j) -> arranged_parts l i j v w);
      intros ii jj v w Hi Hj Hne Ci Cj; try (now destruct Hi).
    - exfalso. apply Ci. destruct (taken_in _ _ _ _ H _ _ Hi) as (y & Hy). econstructor; exact Hy.
    - destruct (IHtakes _ _ _ _ Hi Hj Hne) as [(x & Hx & A)|[(l1 & x & l2 & y & gi & gj & -> & X & Hy & Y & L)|(l1 & x & l2 & y & gi & gj & -> & X & Hy & Y & L)]].
      + intros x Hx C. apply Ci. econstructor; eauto.
      + intros x Hx C. apply Cj. econstructor; eauto.
      + eapply arranged_sub; [| |exact A].
        * intros. eapply bf_in_seq; eauto.
        * intros. eapply gi_seq; eauto.
      + destruct v, w. apply ar_left; [eapply bf_seq; eauto|exact L].
      + destruct v, w. apply ar_right; [eapply bf_seq; eauto|exact L].
    - eapply arranged_sub with (n := x).
      + intros. eapply bf_in_alt; eauto.
      + intros. eapply gi_alt; eauto.
      + apply IHtakes; auto; intros C; [apply Ci|apply Cj]; eapply cm_alt; eauto.
    - assert (Cx : ~ committed x ii /\ ~ committed x jj) by (split; intros C; [apply Ci|apply Cj]; now constructor).
      destruct Cx as [Cxi Cxj].
      apply in_app_or in Hi. apply in_app_or in Hj. destruct Hi as [Hi|[Ei|[]]], Hj as [Hj|[Ej|[]]].
      + eapply arranged_sub with (n := x); [now constructor|intros; now constructor|]. apply IHtakes; auto.
      + injection Ej as <- <-. destruct v as [p q]. destruct (taken_range _ _ _ _ H _ _ _ Hi Cxi) as (R1 & R2 & R3).
        apply ar_inside; auto. destruct (taken_in _ _ _ _ H _ _ Hi) as (y & Hy). exists x, y. split; [constructor|assumption].
      + injection Ei as <- <-. destruct w as [p q]. destruct (taken_range _ _ _ _ H _ _ _ Hj Cxj) as (R1 & R2 & R3).
        apply ar_outside; auto. destruct (taken_in _ _ _ _ H _ _ Hj) as (y & Hy). exists x, y. split; [constructor|assumption].
      + exfalso. congruence.
    - assert (Cx : ~ committed x ii /\ ~ committed x jj) by (split; intros C; [apply Ci|apply Cj]; now apply cm_rep).
      destruct Cx as [Cxi Cxj].
      destruct (IHtakes _ _ _ _ Hi Hj Hne) as [(y & Hy & A)|[(l1 & y & l2 & z & gi & gj & E & Y & Hz & Z & L)|(l1 & y & l2 & z & gi & gj & E & Y & Hz & Z & L)]].
      + intros y Hy. apply repeat_spec in Hy. now subst y.
      + intros y Hy. apply repeat_spec in Hy. now subst y.
      + apply repeat_spec in Hy. subst y. eapply arranged_sub; [| |exact A].
        * intros. now apply bf_in_rep.
        * intros. now constructor.
      + assert (y = x) by (apply (repeat_spec q); rewrite E; apply in_elt). subst y.
        assert (z = x) by (apply (repeat_spec q); rewrite E; apply in_or_app; right; now right). subst z.
        assert (2 <= q).
        { rewrite <- (repeat_length x q), E, app_length. cbn. destruct l2; [destruct Hz|cbn; lia]. }
        destruct v, w. apply ar_left; [eapply bf_loop; eauto|exact L].
      + assert (y = x) by (apply (repeat_spec q); rewrite E; apply in_elt). subst y.
        assert (z = x) by (apply (repeat_spec q); rewrite E; apply in_or_app; right; now right). subst z.
        assert (2 <= q).
        { rewrite <- (repeat_length x q), E, app_length. cbn. destruct l2; [destruct Hz|cbn; lia]. }
        destruct v, w. apply ar_right; [eapply bf_loop; eauto|exact L].
    - assert (Cl : forall y, In y l -> ~ committed y ii) by (intros; apply Ci; now right).
      assert (Cl' : forall y, In y l -> ~ committed y jj) by (intros; apply Cj; now right).
      apply in_app_or in Hi. apply in_app_or in Hj. destruct Hi as [Hi|Hi], Hj as [Hj|Hj].
      + left. exists x. split; [now left|]. apply IHtakes; auto; [apply Ci|apply Cj]; now left.
      + right. left. destruct (taken_in _ _ _ _ H _ _ Hi) as (gi & Gi). destruct (taken_all_in _ _ _ _ _ _ t0 Hj) as (y & gj & Hy & Gj).
        exists [], x, l, y, gi, gj. repeat split; auto. destruct v as [p q], w as [p' q']. cbn.
        pose proof (taken_range _ _ _ _ H _ _ _ Hi (Ci x (or_introl eq_refl))).
        pose proof (taken_all_range _ _ _ _ _ _ _ t0 Hj Cl'). lia.
      + right. right. destruct (taken_in _ _ _ _ H _ _ Hj) as (gj & Gj). destruct (taken_all_in _ _ _ _ _ _ t0 Hi) as (y & gi & Hy & Gi).
        exists [], x, l, y, gi, gj. repeat split; auto. destruct v as [p q], w as [p' q']. cbn.
        pose proof (taken_range _ _ _ _ H _ _ _ Hj (Cj x (or_introl eq_refl))).
        pose proof (taken_all_range _ _ _ _ _ _ _ t0 Hi Cl). lia.
      + destruct (IHtakes0 _ _ _ _ Hi Hj Hne Cl Cl') as [(y & Hy & A)|[(l1 & y & l2 & z & gi & gj & -> & Y & Hz & Z & L)|(l1 & y & l2 & z & gi & gj & -> & Y & Hz & Z & L)]].
        * left. exists y. split; [now right|assumption].
        * right. left. exists (x :: l1), y, l2, z, gi, gj. repeat split; auto.
        * right. right. exists (x :: l1), y, l2, z, gi, gj. repeat split; auto.
  Qed.
End Traces.

Lemma latest_In id t v : latest id t = Some v -> In (id, v) t.
Proof.
  induction t as [|[i p] r IH]; cbn; [discriminate|]. destruct (latest id r); [intros E; right; apply IH; exact E|].
  destruct (N.eqb_spec i id) as [->|]; [|discriminate]. intros E. injection E as ->. now left.
Qed.

Theorem groups_arranged r ct s call res :
  call = regex_match \/ call = regex_match_prefix \/ call = regex_search ->
  call r ct s = Returned res -> matched res = true ->
  forall i p q, i <> 0%N -> ~ committed (ast r) i -> nth (N.to_nat i) (groups res) None = Some (p, q) -> p < q ->
  (exists b e, group0 (groups res) = Some (b, e) /\ b <= p /\ q <= e)
  /\ forall j p' q', j <> 0%N -> i <> j -> ~ committed (ast r) j ->
       nth (N.to_nat j) (groups res) None = Some (p', q') -> p' < q' ->
       arranged (ast r) i j (p, q) (p', q').
Proof.
  intros Hc Hr Hm i p q Hi Ci Ni Lpq. destruct (groups_belong_to_match r ct s call res Hc Hr Hm) as (b & e & t & E0 & T & Hh).
  assert (entry : forall i p q, i <> 0%N -> ~ committed (ast r) i -> nth (N.to_nat i) (groups res) None = Some (p, q) -> p < q ->
    In (i, (p, q)) t).
  { intros i' p' q' H1 H2 H3 H4. destruct (Hh i' H1 H2) as [E|E].
    - rewrite H3 in E. cbn in E. apply Nat.eqb_eq in E. lia.
    - apply latest_In. congruence. }
  pose proof (entry _ _ _ Hi Ci Ni Lpq) as Ii. split.
  - exists b, e. split; [exact E0|]. pose proof (taken_range _ _ _ _ _ _ T _ _ _ Ii Ci). lia.
  - intros j p' q' Hj Hne Cj Nj L'. eapply taken_arranged; eauto.
Qed.

Theorem groups_in_order r ct s call res :
  call = regex_match \/ call = regex_match_prefix \/ call = regex_search ->
  call r ct s = Returned res -> matched res = true ->
  forall i j p q p' q', i <> 0%N -> j <> 0%N -> i <> j -> ~ committed (ast r) i -> ~ committed (ast r) j ->
  nth (N.to_nat i) (groups res) None = Some (p, q) -> p < q ->
  nth (N.to_nat j) (groups res) None = Some (p', q') -> p' < q' ->
  ~ before (ast r) j i -> ~ inside (ast r) j i ->
  q <= p' \/ (inside (ast r) i j /\ p <= p' /\ q' <= q).
Proof.
  intros Hc Hr Hm i j p q p' q' Hi Hj Hne Ci Cj Ni Li Nj Lj NB NI.
  destruct (groups_arranged r ct s call res Hc Hr Hm i p q Hi Ci Ni Li) as [_ H].
  specialize (H j p' q' Hj Hne Cj Nj Lj). inversion H; subst; auto; contradiction.
Qed.

(** Decisions for the examples: the numbers of the groups of a tree. *)
Fixpoint numbers (n : node) : list N :=
  match n with
  | Cap id _ x => id :: numbers x
  | Seq l | Alt l => flat_map numbers l
  | Rep _ _ _ x | Neg x | Look _ x => numbers x
  | _ => []
  end.

Lemma numbers_spec n : forall i, (exists y, group_in n i y) <-> In i (numbers n).
Proof.
  induction n using node_ind'; intros i; cbn; try (split; [intros (y & Hy); inversion Hy|tauto]).
  - rewrite <- IHn. split; [intros (y & Hy); inversion Hy; eauto|intros (y & Hy); exists y; now constructor].
  - rewrite in_flat_map. split.
    + intros (y & Hy). inversion Hy; subst. exists x. split; [assumption|]. rewrite Forall_forall in H. apply H; eauto.
    + intros (x & Hx & Hi). rewrite Forall_forall in H. apply (H x Hx) in Hi. destruct Hi as (y & Hy). exists y. econstructor; eauto.
  - rewrite in_flat_map. split.
    + intros (y & Hy). inversion Hy; subst. exists x. split; [assumption|]. rewrite Forall_forall in H. apply H; eauto.
    + intros (x & Hx & Hi). rewrite Forall_forall in H. apply (H x Hx) in Hi. destruct Hi as (y & Hy). exists y. eapply gi_alt; eauto.
  - rewrite <- IHn. split.
    + intros (y & Hy). inversion Hy; subst; eauto.
    + intros [->|(y & Hy)]; eexists; [constructor|constructor; eauto].
  - rewrite <- IHn. split; [intros (y & Hy); inversion Hy; eauto|intros (y & Hy); exists y; now constructor].
  - rewrite <- IHn. split; [intros (y & Hy); inversion Hy; eauto|intros (y & Hy); exists y; now constructor].
Qed.

(** The pairs of groups of which the second stands inside the first. *)
Fixpoint nested (n : node) : list (N * N) :=
  match n with
  | Cap id _ x => map (pair id) (numbers x) ++ nested x
  | Seq l | Alt l => flat_map nested l
  | Rep _ _ _ x | Neg x | Look _ x => nested x
  | _ => []
  end.

Lemma nested_spec n : forall i j, inside n i j -> In (i, j) (nested n).
Proof.
  induction n using node_ind'; intros i j (x0 & y0 & X & Y); inversion X; subst; cbn.
  - apply IHn. now exists x0, y0.
  - rewrite in_flat_map. rewrite Forall_forall in H. exists x. split; [assumption|]. apply H; [assumption|]. now exists x0, y0.
  - rewrite in_flat_map. rewrite Forall_forall in H. exists x. split; [assumption|]. apply H; [assumption|]. now exists x0, y0.
  - apply in_or_app. left. apply in_map. apply numbers_spec. eauto.
  - apply in_or_app. right. apply IHn. now exists x0, y0.
  - apply IHn. now exists x0, y0.
  - apply IHn. now exists x0, y0.
Qed.

(** The pairs of groups of which the first can be passed before the second. *)
Fixpoint ordered (n : node) : list (N * N) :=
  match n with
  | Cap _ _ x => ordered x
  | Seq l =>
      (fix go l := match l with
                   | [] => []
                   | x :: r => list_prod (numbers x) (flat_map numbers r) ++ go r
                   end) l ++ flat_map ordered l
  | Alt l => flat_map ordered l
  | Rep _ _ hi x =>
      (match hi with
       | Fin h => if N.leb h 1 then [] else list_prod (numbers x) (numbers x)
       | Inf => list_prod (numbers x) (numbers x)
       end) ++ ordered x
  | _ => []
  end.

Lemma ordered_spec n : forall i j, before n i j -> In (i, j) (ordered n).
Proof.
  induction n using node_ind'; intros i j B; inversion B; subst; cbn.
  - apply in_or_app. left. clear B H. induction l1 as [|z l1 IH]; cbn; apply in_or_app.
    + left. apply in_prod; [apply numbers_spec; eauto|]. rewrite in_flat_map. exists y. split; [assumption|]. apply numbers_spec; eauto.
    + right. apply IH.
  - apply in_or_app. right. rewrite in_flat_map. rewrite Forall_forall in H. exists x. split; auto.
  - rewrite in_flat_map. rewrite Forall_forall in H. exists x. split; auto.
  - auto.
  - apply in_or_app. left. match goal with A : allowed _ _ _ |- _ => destruct A as [_ A] end.
    destruct hi as [h|]; [destruct (N.leb_spec h 1); [lia|]|]; apply in_prod; apply numbers_spec; eauto.
  - apply in_or_app. right. auto.
Qed.
