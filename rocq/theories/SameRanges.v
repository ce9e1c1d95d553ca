(** Deciding whether two patterns find the same ranges in all texts. *)
From Verif Require Import Matcher Api Basics Spec Paths Adequacy Walk Exact Actual Rewrites Calls Machines Memory
  Uniform Scans Records Passes.

(** The ranges of the results, in their order. *)
Definition spans (o : call (list match_res)) : option (list cell) :=
  match o with Returned l => Some (map (fun x => group0 (groups x)) l) | _ => None end.

(** ** The marks determine the ranges *)

(** Ranges one after the other; only the last one can be empty. *)
Inductive in_order (len : nat) : nat -> list (nat * nat) -> Prop :=
| io_none p : in_order len p []
| io_last p i j : p <= i <= j -> j <= len -> in_order len p [(i, j)]
| io_more p i j l : p <= i < j -> j <= len -> in_order len j l -> in_order len p ((i, j) :: l).

Lemma ranges_in_order keep once e len p l : ranges keep once e len p l -> in_order len p l.
Proof.
  induction 1 as [p Hno|p i (Hi & _)|p i j Ho (Hi & _) Hij|p i j l Ho (Hi & _) Hij Hl IH].
  - constructor.
  - constructor; lia.
  - constructor; lia.
  - constructor; [lia|lia|assumption].
Qed.

Lemma in_order_ge len p l : in_order len p l -> forall a b, In (a, b) l -> p <= a /\ a <= b <= len.
Proof.
  induction 1 as [p|p i j H1 H2|p i j l H1 H2 H IH]; intros a b Hin.
  - easy.
  - destruct Hin as [[= <- <-]|[]]. lia.
  - destruct Hin as [[= <- <-]|Hin]; [lia|]. apply IH in Hin. lia.
Qed.

(** An empty range is the last one. *)
Lemma in_order_empty len p l a : in_order len p l -> In (a, a) l -> forall x y, In (x, y) l -> y <= a.
Proof.
  induction 1 as [p|p i j H1 H2|p i j l H1 H2 H IH]; intros Ha x y Hin.
  - easy.
  - destruct Hin as [[= <- <-]|[]]. destruct Ha as [[= -> ->]|[]]. lia.
  - destruct Ha as [[= -> ->]|Ha]; [lia|]. destruct Hin as [[= <- <-]|Hin]; [|now apply IH in Hin].
    apply (in_order_ge len _ _ H) in Ha. lia.
Qed.

(** Begins and ends one by one. *)
Lemma same_marks len : forall l1 l2 p q, in_order len p l1 -> in_order len q l2 ->
  (forall i, (exists j, In (i, j) l1) <-> (exists j, In (i, j) l2)) ->
  (forall j, (exists i, In (i, j) l1) <-> (exists i, In (i, j) l2)) -> l1 = l2.
Proof.
  assert (Hnil : forall l : list (nat * nat), (forall i, (exists j, In (i, j) (@nil (nat * nat))) <-> (exists j, In (i, j) l)) -> l = []).
  { intros [|[a b] l] H; [reflexivity|]. destruct (proj2 (H a)) as (j & []). exists b. now left. }
  assert (Htail : forall l a b p, in_order len p ((a, b) :: l) -> in_order len b l /\ a <= b
    /\ (forall x y, In (x, y) l -> b <= x /\ a < x /\ x <= y)).
  { intros l a b p H. inversion H; subst.
    - split; [constructor|]. split; [lia|]. easy.
    - split; [assumption|]. split; [lia|]. intros x y Hxy. eapply in_order_ge in Hxy; [|eassumption]. lia. }
  induction l1 as [|[a1 b1] l1 IH]; intros l2 p q O1 O2 HB HE.
  - symmetry. now apply Hnil.
  - destruct l2 as [|[a2 b2] l2].
    { apply Hnil. intros i. symmetry. apply HB. }
    destruct (Htail _ _ _ _ O1) as (T1 & L1 & G1). destruct (Htail _ _ _ _ O2) as (T2 & L2 & G2).
    assert (Ea : a1 = a2).
    { assert (a2 <= a1).
      { destruct (proj1 (HB a1)) as (j & [[= E _]|Hj]); [exists b1; now left|lia|apply G2 in Hj; lia]. }
      assert (a1 <= a2).
      { destruct (proj2 (HB a2)) as (j & [[= E _]|Hj]); [exists b2; now left|lia|apply G1 in Hj; lia]. }
      lia. }
    assert (Eb : b1 = b2).
    { assert (b2 <= b1).
      { destruct (proj1 (HE b1)) as (j & [[= _ E]|Hj]); [exists a1; now left|lia|apply G2 in Hj; lia]. }
      assert (b1 <= b2).
      { destruct (proj2 (HE b2)) as (j & [[= _ E]|Hj]); [exists a2; now left|lia|apply G1 in Hj; lia]. }
      lia. }
    subst a2 b2. f_equal.
    assert (HB' : forall i, (exists j, In (i, j) l1) <-> (exists j, In (i, j) l2)).
    { intros i. split; intros (j & Hj).
      - destruct (proj1 (HB i)) as (k & [[= E _]|Hk]); [exists j; now right| |now exists k]. apply G1 in Hj. lia.
      - destruct (proj2 (HB i)) as (k & [[= E _]|Hk]); [exists j; now right| |now exists k]. apply G2 in Hj. lia. }
    assert (Hend : forall l l' : list (nat * nat), in_order len b1 l -> in_order len b1 l' ->
      (forall i, (exists j, In (i, j) l) <-> (exists j, In (i, j) l')) ->
      (forall j, (exists i, In (i, j) ((a1, b1) :: l)) <-> (exists i, In (i, j) ((a1, b1) :: l'))) ->
      forall j, (exists i, In (i, j) l) -> exists i, In (i, j) l').
    { intros l l' O O' B E j (i & Hi). destruct (proj1 (E j)) as (k & [[= _ Ej]|Hk]); [exists i; now right| |now exists k].
      subst j. pose proof (in_order_ge _ _ _ O _ _ Hi) as Hge. assert (i = b1) by lia. subst i.
      destruct (proj1 (B b1)) as (k' & Hk'); [now exists b1|].
      destruct (proj2 (E k')) as (x & [[= _ Ex]|Hx]); [exists b1; now right| |].
      - subst k'. now exists b1.
      - pose proof (in_order_empty _ _ _ _ O Hi _ _ Hx). pose proof (in_order_ge _ _ _ O' _ _ Hk').
        assert (k' = b1) by lia. subst k'. now exists b1. }
    apply (IH l2 b1 b1 T1 T2 HB'). intros j. split; [now apply Hend|].
    apply Hend; auto; intros i; symmetry; auto.
Qed.

(** ** Short texts *)

(** For every offset of a text there is an offset of a short text with the same marks. *)
Lemma short_marks m1 m2 : passes m1 -> passes m2 ->
  {N : nat | forall s i, i <= length s -> exists s' i', i' <= length s' <= N /\ (m1 s i <-> m1 s' i') /\ (m2 s i <-> m2 s' i')}.
Proof.
  intros (n1 & p1 & ps1 & k1 & q1 & qs1 & d1 & H1) (n2 & p2 & ps2 & k2 & q2 & qs2 & d2 & H2).
  exists (n1 * n2 + k1 * k2). intros s i Hi.
  assert (L1 : forall t, fold_left ps1 t p1 < n1).
  { intros t. destruct (H1 t (length t) (le_n _)) as [H _]. now rewrite firstn_all in H. }
  assert (L2 : forall t, fold_left ps2 t p2 < n2).
  { intros t. destruct (H2 t (length t) (le_n _)) as [H _]. now rewrite firstn_all in H. }
  assert (R1 : forall t, fold_left (fun x c => qs1 c x) t q1 < k1).
  { intros t. destruct (H1 (rev t) 0 (Nat.le_0_l _)) as (_ & H & _). cbn [skipn] in H. now rewrite fold_left_rev_right in H. }
  assert (R2 : forall t, fold_left (fun x c => qs2 c x) t q2 < k2).
  { intros t. destruct (H2 (rev t) 0 (Nat.le_0_l _)) as (_ & H & _). cbn [skipn] in H. now rewrite fold_left_rev_right in H. }
  destruct (short_pair n1 p1 ps1 n2 p2 ps2 L1 L2 (firstn i s)) as (x & Hx & X1 & X2).
  destruct (short_pair k1 q1 _ k2 q2 _ R1 R2 (rev (skipn i s))) as (z & Hz & Z1 & Z2).
  assert (Hf : forall (qs : ascii -> nat -> nat) q t, fold_left (fun x c => qs c x) (rev t) q = fold_right qs q t).
  { intros qs q t. rewrite <- (fold_left_rev_right qs (rev t) q), rev_involutive. reflexivity. }
  rewrite <- (rev_involutive z), !Hf in Z1.
  rewrite <- (rev_involutive z), !Hf in Z2.
  exists (x ++ rev z), (length x).
  assert (Hl : length x <= length (x ++ rev z)) by (rewrite app_length; lia).
  assert (Ef : firstn (length x) (x ++ rev z) = x) by (rewrite firstn_app, firstn_all, Nat.sub_diag; apply app_nil_r).
  assert (Es : skipn (length x) (x ++ rev z) = rev z) by (rewrite skipn_app, skipn_all, Nat.sub_diag; reflexivity).
  split; [split; [assumption|rewrite app_length, rev_length; lia]|].
  destruct (H1 s i Hi) as (_ & _ & M1), (H2 s i Hi) as (_ & _ & M2).
  destruct (H1 _ _ Hl) as (_ & _ & N1), (H2 _ _ Hl) as (_ & _ & N2). rewrite Ef, Es in N1, N2.
  rewrite M1, N1, M2, N2, X1, X2, Z1, Z2. split; reflexivity.
Qed.

Definition ordered_results (o : list ascii -> call (list match_res)) : Prop :=
  forall s, exists l bounds, o s = Returned l /\ map (fun x => group0 (groups x)) l = map Some bounds
    /\ in_order (length s) 0 bounds.

Lemma ranging_ordered o F keep once : ranging o F keep once -> ordered_results o.
Proof.
  intros H s. destruct (H s) as (l & bounds & E & Em & Hr). exists l, bounds.
  split; [assumption|]. split; [assumption|]. eapply ranges_in_order. exact Hr.
Qed.

Lemma begins_span (o : call (list match_res)) l bounds i : o = Returned l ->
  map (fun x => group0 (groups x)) l = map Some bounds ->
  ((exists l, o = Returned l /\ begins_in l i) <-> exists j, In (i, j) bounds).
Proof.
  intros -> E. split.
  - intros (l' & [= <-] & x & j & Hx & Hg). exists j. apply (in_map (fun x => group0 (groups x))) in Hx.
    rewrite E, Hg in Hx. apply in_map_iff in Hx as (q & [= ->] & Hq). assumption.
  - intros (j & Hj). exists l. split; [reflexivity|]. apply (in_map Some) in Hj. rewrite <- E in Hj.
    apply in_map_iff in Hj as (x & Hx & Hl). now exists x, j.
Qed.

Lemma ends_span (o : call (list match_res)) l bounds j : o = Returned l ->
  map (fun x => group0 (groups x)) l = map Some bounds ->
  ((exists l, o = Returned l /\ ends_in l j) <-> exists i, In (i, j) bounds).
Proof.
  intros -> E. split.
  - intros (l' & [= <-] & x & i & Hx & Hg). exists i. apply (in_map (fun x => group0 (groups x))) in Hx.
    rewrite E, Hg in Hx. apply in_map_iff in Hx as (q & [= ->] & Hq). assumption.
  - intros (i & Hi). exists l. split; [reflexivity|]. apply (in_map Some) in Hi. rewrite <- E in Hi.
    apply in_map_iff in Hi as (x & Hx & Hl). now exists x, i.
Qed.

Lemma same_spans_marks o1 o2 s : spans (o1 s) = spans (o2 s) -> ordered_results o1 -> ordered_results o2 ->
  forall i : nat,
  ((exists l, o1 s = Returned l /\ begins_in l i) <-> (exists l, o2 s = Returned l /\ begins_in l i))
  /\ ((exists l, o1 s = Returned l /\ ends_in l i) <-> (exists l, o2 s = Returned l /\ ends_in l i)).
Proof.
  intros E O1 O2 i. destruct (O1 s) as (l1 & b1 & E1 & M1 & _), (O2 s) as (l2 & b2 & E2 & M2 & _).
  rewrite E1, E2 in E. cbn [spans] in E. injection E as E. rewrite M1, M2 in E.
  assert (b1 = b2).
  { clear -E. revert b2 E. induction b1 as [|x r IH]; intros [|y b2]; cbn; try discriminate; [reflexivity|].
    intros [= -> E]. f_equal. auto. }
  subst b2. rewrite (begins_span _ _ _ i E1 M1), (begins_span _ _ _ i E2 M2),
    (ends_span _ _ _ i E1 M1), (ends_span _ _ _ i E2 M2). split; reflexivity.
Qed.

Theorem short_texts_settle o1 o2 : marking o1 -> marking o2 -> ordered_results o1 -> ordered_results o2 ->
  {m : nat | (forall s, length s <= m -> spans (o1 s) = spans (o2 s)) -> forall s, spans (o1 s) = spans (o2 s)}.
Proof.
  intros [B1 E1] [B2 E2] O1 O2.
  destruct (short_marks _ _ B1 B2) as [n Hn]. destruct (short_marks _ _ E1 E2) as [k Hk].
  exists (n + k). intros Hshort s.
  destruct (O1 s) as (l1 & b1 & R1 & M1 & I1), (O2 s) as (l2 & b2 & R2 & M2 & I2).
  rewrite R1, R2. cbn [spans]. rewrite M1, M2. do 2 f_equal.
  apply (same_marks (length s) b1 b2 0 0 I1 I2).
  - intros i. rewrite <- (begins_span _ _ _ i R1 M1), <- (begins_span _ _ _ i R2 M2).
    destruct (Nat.le_gt_cases i (length s)) as [Hi|Hi].
    + destruct (Hn s i Hi) as (s' & i' & Hl & X1 & X2). rewrite X1, X2.
      apply (same_spans_marks o1 o2 s' (Hshort s' ltac:(lia)) O1 O2 i').
    + rewrite (begins_span _ _ _ i R1 M1), (begins_span _ _ _ i R2 M2).
      split; intros (j & Hj); eapply in_order_ge in Hj; eauto; lia.
  - intros i. rewrite <- (ends_span _ _ _ i R1 M1), <- (ends_span _ _ _ i R2 M2).
    destruct (Nat.le_gt_cases i (length s)) as [Hi|Hi].
    + destruct (Hk s i Hi) as (s' & i' & Hl & X1 & X2). rewrite X1, X2.
      apply (same_spans_marks o1 o2 s' (Hshort s' ltac:(lia)) O1 O2 i').
    + rewrite (ends_span _ _ _ i R1 M1), (ends_span _ _ _ i R2 M2).
      split; intros (j & Hj); eapply in_order_ge in Hj; eauto; lia.
Qed.

Theorem spans_decidable o1 o2 : marking o1 -> marking o2 -> ordered_results o1 -> ordered_results o2 ->
  {forall s, spans (o1 s) = spans (o2 s)} + {exists s, spans (o1 s) <> spans (o2 s)}.
Proof.
  intros H1 H2 O1 O2. destruct (short_texts_settle o1 o2 H1 H2 O1 O2) as [m Hm].
  assert (dec : forall s, {spans (o1 s) = spans (o2 s)} + {spans (o1 s) <> spans (o2 s)}).
  { intros s. repeat decide equality. }
  destruct (short_decidable _ m dec) as [H|H]; [left; auto|right; exact H].
Qed.

(** ** The calls *)

Section Calls.
  Variables (r1 r2 : regex) (ct1 ct2 : category).
  Hypotheses (U1 : usable r1 ct1) (U2 : usable r2 ct2).
  Hypotheses (B1 : backref_free (ast r1) = true) (B2 : backref_free (ast r2) = true).

  Theorem find_all_decidable :
    {forall s, spans (find_all r1 ct1 s) = spans (find_all r2 ct2 s)}
    + {exists s, spans (find_all r1 ct1 s) <> spans (find_all r2 ct2 s)}.
  Proof.
    apply spans_decidable; try (now apply find_all_marked); eapply ranging_ordered; now apply find_all_ranges.
  Qed.

  Theorem tokenize_decidable :
    {forall s, spans (tokenize r1 ct1 s) = spans (tokenize r2 ct2 s)}
    + {exists s, spans (tokenize r1 ct1 s) <> spans (tokenize r2 ct2 s)}.
  Proof.
    apply spans_decidable; try (now apply tokenize_marked); eapply ranging_ordered; now apply tokenize_ranges.
  Qed.

  Theorem search_decidable :
    {forall s, spans (found (regex_search r1 ct1 s)) = spans (found (regex_search r2 ct2 s))}
    + {exists s, spans (found (regex_search r1 ct1 s)) <> spans (found (regex_search r2 ct2 s))}.
  Proof.
    apply (spans_decidable (fun s => found (regex_search r1 ct1 s)) (fun s => found (regex_search r2 ct2 s)));
      try (now apply search_marked); eapply ranging_ordered; now apply search_ranges.
  Qed.
End Calls.

Theorem find_all_settled r1 ct1 r2 ct2 : usable r1 ct1 -> usable r2 ct2 ->
  backref_free (ast r1) = true -> backref_free (ast r2) = true ->
  {m : nat | (forall s, length s <= m -> spans (find_all r1 ct1 s) = spans (find_all r2 ct2 s)) ->
    forall s, spans (find_all r1 ct1 s) = spans (find_all r2 ct2 s)}.
Proof.
  intros U1 U2 B1 B2. apply short_texts_settle; try (now apply find_all_marked); eapply ranging_ordered; now apply find_all_ranges.
Qed.
