(** A pattern that compiles also compiles without the parentheses of a group nobody refers
    to: specification and proofs (C97). *)
From Verif Require Import Matcher Api Basics Spec Calls Safe Paths Cong Tracking Walk Explore Explored Searches Dropped.
From Coq Require Import Lia.

(** Loops over what is a single character without the group [k] have a lower bound below the
    limit of [std::ptrdiff_t]; the body of a loop that makes no round does not count. *)
Fixpoint counts_fit (k : N) (n : node) : Prop :=
  match n with
  | Rep _ lo hi x =>
      (is_class (uncaptured k x) = true -> (lo < 2 ^ 63)%N) /\ (hi <> Fin 0 -> counts_fit k x)
  | Neg x | Cap _ _ x | Look _ x => counts_fit k x
  | Seq l | Alt l => fold_right and True (map (counts_fit k) l)
  | _ => True
  end.

Lemma conj_all {A} (P : A -> Prop) l : fold_right and True (map P l) <-> Forall P l.
Proof.
  induction l as [|x l IH]; cbn; [split; constructor|]. rewrite IH. split.
  - intros [H1 H2]. now constructor.
  - intros H. inversion H; auto.
Qed.

Lemma conj_rev {A} (P : A -> Prop) l : fold_right and True (map P (rev l)) <-> fold_right and True (map P l).
Proof. rewrite !conj_all, !Forall_forall. split; intros H x Hx; apply H; [now apply in_rev in Hx|now apply in_rev]. Qed.

Lemma invert_uncaptured k n : uncaptured k (invert n) = invert (uncaptured k n).
Proof.
  assert (G : forall l, Forall (fun n => uncaptured k (invert n) = invert (uncaptured k n)) l ->
    map (uncaptured k) (map invert l) = map invert (map (uncaptured k) l)).
  { induction 1 as [|x l Hx Hl IH]; cbn; [auto|]. now rewrite Hx, IH. }
  induction n using node_ind'; cbn [invert uncaptured]; try reflexivity; try (now rewrite ?IHn, ?G by auto).
  - rewrite !reverse_pack_rev, map_rev, G by auto. reflexivity.
  - destruct (N.eqb id k); cbn [invert]; now rewrite IHn.
Qed.

Lemma fit_invert k n : counts_fit k (invert n) <-> counts_fit k n.
Proof.
  assert (G : forall l, Forall (fun n => counts_fit k (invert n) <-> counts_fit k n) l ->
    fold_right and True (map (counts_fit k) (map invert l)) <-> fold_right and True (map (counts_fit k) l)).
  { induction 1 as [|x l Hx Hl IH]; cbn; [tauto|]. tauto. }
  induction n using node_ind'; cbn [invert counts_fit]; try tauto; auto.
  - rewrite reverse_pack_rev, conj_rev. auto.
  - rewrite invert_uncaptured, <- !trivial_is_class, trivial_invert. tauto.
Qed.

Lemma unreferenced_invert k name n : unreferenced k name n -> unreferenced k name (invert n).
Proof.
  assert (G : forall l, Forall (fun n => unreferenced k name n -> unreferenced k name (invert n)) l ->
    fold_right and True (map (unreferenced k name) l) -> fold_right and True (map (unreferenced k name) (map invert l))).
  { induction 1 as [|x l Hx Hl IH]; cbn; [auto|]. intros [H1 H2]. auto. }
  induction n using node_ind'; cbn [invert unreferenced]; auto.
  intros S. rewrite reverse_pack_rev. apply conj_rev. auto.
Qed.

Lemma size_uncaptured k n : size (uncaptured k n) <= size n.
Proof.
  assert (G : forall l, Forall (fun n => size (uncaptured k n) <= size n) l ->
    list_sum (map size (map (uncaptured k) l)) <= list_sum (map size l)).
  { induction 1 as [|x l Hx Hl IH]; cbn; [auto|]. unfold list_sum in IH. lia. }
  induction n using node_ind'; cbn [uncaptured]; try apply le_n; try (cbn [size]; lia).
  - rewrite !size_Seq. specialize (G l H). lia.
  - rewrite !size_Alt. specialize (G l H). lia.
  - destruct (N.eqb id k); cbn [size]; lia.
Qed.

Lemma lines_uncaptured k n : has_begin_line (uncaptured k n) = has_begin_line n.
Proof.
  assert (G : forall l, Forall (fun n => has_begin_line (uncaptured k n) = has_begin_line n) l ->
    existsb has_begin_line (map (uncaptured k) l) = existsb has_begin_line l).
  { induction 1 as [|x l Hx Hl IH]; cbn; [auto|]. now rewrite Hx, IH. }
  induction n using node_ind'; cbn [uncaptured has_begin_line]; auto.
  destruct (N.eqb id k); cbn [has_begin_line]; auto.
Qed.

Lemma assertion_uncaptured k n : is_assertion n = true -> is_assertion (uncaptured k n) = true.
Proof.
  induction n using node_ind'; cbn [is_assertion]; intros E; try discriminate; try reflexivity.
  - cbn. auto.
  - destruct l as [|x [|y l]]; try discriminate. cbn. inversion H; auto.
  - destruct l as [|x [|y l]]; try discriminate. cbn. inversion H; auto.
  - cbn [uncaptured is_assertion]. destruct md; try discriminate; destruct lo as [|[|[]|]]; try discriminate;
      destruct hi as [[|[]]|]; try discriminate; auto.
Qed.

(** Single characters depend neither on the direction they are read in nor on the groups. *)
Lemma trivial_compiles cf names names' : forall f rd rd' x, trivial x = true ->
  compiles cf names f rd x = compiles cf names' f rd' x.
Proof.
  induction f as [|f IH]; intros rd rd' x T; [reflexivity|].
  destruct x; cbn [trivial] in T; try discriminate; cbn [compiles]; try reflexivity.
  - apply forallb_ext_Forall, Forall_forall. intros y Hy. destruct (trivial y) eqn:E; [|reflexivity].
    cbn. now apply IH.
  - rewrite (IH rd rd') by exact T. reflexivity.
  - destruct l as [|y [|z l]]; try discriminate. cbn. now rewrite (IH rd rd').
  - destruct l as [|y l]; [reflexivity|]. apply andb_prop in T as [T1 T2]. apply forallb_ext_Forall, Forall_forall.
    rewrite forallb_forall in T2. intros z [<-|Hz]; apply IH; auto.
  - destruct lo as [|[|[]|]]; try discriminate; destruct hi as [[|[]]|]; try discriminate. now rewrite (IH rd rd').
Qed.

Lemma trivial_inverted cf names : forall f rd x, trivial x = true ->
  compiles cf names f rd (invert x) = compiles cf names f rd x.
Proof.
  induction f as [|f IH]; intros rd x T; [reflexivity|].
  destruct x; cbn [trivial] in T; try discriminate; cbn [invert compiles]; try reflexivity.
  - induction l as [|y l IHl]; [reflexivity|]. cbn [map forallb]. rewrite IHl, trivial_invert.
    destruct (trivial y) eqn:E; [|reflexivity]. now rewrite IH.
  - rewrite IH, trivial_invert, T by exact T. reflexivity.
  - destruct l as [|y [|z l]]; try discriminate. cbn. now rewrite IH.
  - destruct l as [|y l]; [reflexivity|]. change (trivial y && forallb trivial l = true) with (forallb trivial (y :: l) = true) in T.
    cbn [map]. change (forallb (compiles cf names f rd) (map invert (y :: l)) = forallb (compiles cf names f rd) (y :: l)).
    revert T. generalize (y :: l). intros q T. induction q as [|z q IHq]; [reflexivity|]. cbn [map forallb] in *.
    apply andb_prop in T as [T1 T2]. now rewrite IH, IHq.
  - destruct lo as [|[|[]|]]; try discriminate; destruct hi as [[|[]]|]; try discriminate. now rewrite IH, trivial_invert.
Qed.

Lemma positions_length nm : forall (names : list group_name) i j,
  length (positions_of nm names i) = length (positions_of nm names j).
Proof.
  induction names as [|x names IH]; intros i j; [reflexivity|]. cbn [positions_of]. rewrite !app_length, (IH (S i) (S j)).
  now destruct (name_eqb nm x).
Qed.

Lemma positions_without nm : forall (names : list group_name) k x i, nth_error names k = Some x -> x <> nm ->
  length (positions_of nm (without k names) i) = length (positions_of nm names i).
Proof.
  induction names as [|y names IH]; intros [|k] x i E D; try discriminate.
  - injection E as ->. rewrite without_0. cbn [positions_of]. destruct (name_eqb nm x) eqn:Q.
    + apply Tracking.name_eqb_eq in Q. congruence.
    + apply positions_length.
  - cbn [nth_error] in E. rewrite without_S. cbn [positions_of]. rewrite !app_length. f_equal. now apply IH with (x := x).
Qed.

Lemma unique_without nm (names : list group_name) k x : nth_error names k = Some x -> x <> nm ->
  unique_position nm names <> None -> unique_position nm (without k names) <> None.
Proof.
  intros E D. unfold unique_position. pose proof (positions_without nm names k x 0 E D) as L.
  destruct (positions_of nm names 0) as [|a [|b r]]; try congruence.
  destruct (positions_of nm (without k names) 0) as [|a' [|b' r']]; try discriminate L. discriminate.
Qed.

Lemma length_without {A} : forall (l : list A) k, k < length l -> S (length (without k l)) = length l.
Proof.
  induction l as [|x l IH]; intros [|k] H; cbn [length] in *; try lia; [reflexivity|].
  rewrite without_S. cbn [length]. rewrite IH; lia.
Qed.

Lemma nth_error_without {A} : forall (l : list A) k p, p <> k -> nth_error (without k l) (moved k p) = nth_error l p.
Proof.
  induction l as [|v l IH]; intros k p H; [rewrite without_nil; now destruct p, (moved k _)|].
  destruct k as [|k], p as [|p]; try congruence.
  - now rewrite moved_0, without_0.
  - reflexivity.
  - rewrite moved_S, without_S. cbn [nth_error]. apply IH. congruence.
Qed.

Lemma shifted_moved k id : N.to_nat (shifted k id) = moved (N.to_nat k) (N.to_nat id).
Proof. unfold shifted, moved. destruct (N.ltb_spec k id), (Nat.ltb_spec (N.to_nat k) (N.to_nat id)); lia. Qed.

Section Names.
  Variable cf : config.
  Variable names : list group_name.
  Variable k : N.
  Variable name : group_name.
  Local Notation K := (N.to_nat k).
  Hypothesis Hname : nth_error names K = Some name.

  Lemma uncaptured_compiles : forall f rd n, size n <= f -> counts_fit k n -> unreferenced k name n ->
    compiles cf names f rd n = true -> compiles cf (without K names) f rd (uncaptured k n) = true.
  Proof.
    assert (Hk : K < length names) by (apply nth_error_Some; congruence).
    pose proof (length_without names K Hk) as HL.
    induction f as [|f IH]; intros rd n L S U C; [discriminate|].
    assert (G : forall l, list_sum (map size l) <= f -> fold_right and True (map (counts_fit k) l) ->
      fold_right and True (map (unreferenced k name) l) -> forallb (compiles cf names f rd) l = true ->
      forallb (compiles cf (without K names) f rd) (map (uncaptured k) l) = true).
    { induction l as [|x l IHl]; [reflexivity|]. cbn. intros L' [S1 S2] [U1 U2] E. apply andb_prop in E as [E1 E2].
      rewrite IH by (auto; lia). apply IHl; auto. unfold list_sum. lia. }
    destruct n; try exact C.
    - (* set *) cbn [compiles uncaptured] in *. rewrite forallb_forall in *. intros x Hx. specialize (C x Hx).
      apply andb_prop in C as [C1 C2]. rewrite C1. cbn. now rewrite (trivial_compiles cf _ names f rd rd).
    - (* negation *) cbn [compiles uncaptured size] in *. apply andb_prop in C as [C1 C2].
      rewrite IH by (auto; lia). rewrite andb_true_r. apply orb_prop in C1 as [C1|C1].
      + rewrite trivial_is_class in C1. now rewrite uncaptured_class, trivial_is_class, C1.
      + rewrite (assertion_uncaptured k n C1). apply orb_true_r.
    - rewrite size_Seq in L. cbn [compiles uncaptured counts_fit unreferenced] in *. destruct l as [|y r] eqn:E; [discriminate|].
      rewrite <- E in *. specialize (G l ltac:(lia) S U C). rewrite E in *. exact G.
    - rewrite size_Alt in L. cbn [compiles uncaptured counts_fit unreferenced] in *. destruct l as [|y r] eqn:E; [discriminate|].
      rewrite <- E in *. specialize (G l ltac:(lia) S U C). rewrite E in *. exact G.
    - (* group *) cbn [size counts_fit unreferenced] in *. cbn [compiles] in C. cbn [uncaptured]. apply andb_prop in C as [C1 C2].
      specialize (IH rd n ltac:(lia) S U C2). destruct (N.eqb_spec id k) as [->|D].
      + pose proof (size_uncaptured k n). rewrite (compiles_fuel cf _ (Datatypes.S f) f) by lia. exact IH.
      + cbn [compiles]. rewrite IH, andb_true_r, shifted_moved, nth_error_without by lia. exact C1.
    - (* loop *) cbn [compiles uncaptured size counts_fit unreferenced] in *. destruct S as [S1 S2]. apply andb_prop in C as [C1 C2].
      apply andb_true_intro. split.
      + destruct hi as [h|]; [|apply IH; auto; [lia|apply S2; discriminate]].
        apply andb_prop in C1 as [C1 C3]. rewrite C1. cbn. destruct (N.eqb_spec h 0) as [->|Z]; [reflexivity|].
        cbn in *. apply IH; auto; [lia|]. apply S2. congruence.
      + rewrite trivial_is_class. destruct (is_class (uncaptured k n)); [|reflexivity]. cbn. apply N.ltb_lt. auto.
    - (* number *) cbn [compiles uncaptured unreferenced] in *. apply andb_prop in C as [C1 C2]. rewrite C1. cbn [andb].
      apply Nat.ltb_lt in C2. apply Nat.ltb_lt. rewrite shifted_moved. unfold moved.
      destruct (Nat.ltb_spec K (N.to_nat id)); lia.
    - (* name *) cbn [compiles uncaptured unreferenced] in *. apply andb_prop in C as [C1 C2]. rewrite C1. cbn [andb].
      pose proof (unique_without (Some name0) names K name Hname U) as Q.
      destruct (unique_position (Some name0) names); [|discriminate]. destruct (unique_position _ (without K names)); [reflexivity|].
      destruct Q; congruence.
    - (* lookaround *) cbn [compiles uncaptured size counts_fit unreferenced] in *. destruct d; [apply IH; auto; lia|].
      apply andb_prop in C as [C1 C2]. rewrite C1. cbn [andb]. destruct (trivial n) eqn:T.
      + rewrite trivial_is_class in T. rewrite uncaptured_class, trivial_is_class, T by exact T.
        rewrite (trivial_compiles cf _ names f rd rd); [exact C2|]. now rewrite trivial_is_class.
      + specialize (IH (Datatypes.S rd) (invert n)). rewrite size_invert, invert_uncaptured in IH.
        specialize (IH ltac:(lia) (proj2 (fit_invert k n) S) (unreferenced_invert k name n U) C2).
        destruct (trivial (uncaptured k n)) eqn:T'; [|exact IH]. rewrite trivial_inverted in IH by exact T'.
        now rewrite (trivial_compiles cf _ (without K names) f rd (Datatypes.S rd)).
  Qed.

  Lemma compiled_fits names' : forall f rd n, size n <= f ->
    compiles cf names' f rd (uncaptured k n) = true -> counts_fit k n.
  Proof.
    induction f as [|f IH]; intros rd n L C; [discriminate|].
    assert (G : forall l, list_sum (map size l) <= f ->
      forallb (compiles cf names' f rd) (map (uncaptured k) l) = true -> fold_right and True (map (counts_fit k) l)).
    { induction l as [|x l IHl]; [cbn; auto|]. cbn. intros L' E. apply andb_prop in E as [E1 E2].
      split; [apply (IH rd); auto; lia|]. apply IHl; auto. unfold list_sum. lia. }
    destruct n; try exact I.
    - cbn [compiles uncaptured size counts_fit] in *. apply andb_prop in C as [C1 C2]. apply (IH rd); auto; lia.
    - rewrite size_Seq in L. cbn [compiles uncaptured counts_fit] in *. destruct (map (uncaptured k) l) as [|y r] eqn:E; [discriminate|].
      rewrite <- E in C. apply G; auto. lia.
    - rewrite size_Alt in L. cbn [compiles uncaptured counts_fit] in *. destruct (map (uncaptured k) l) as [|y r] eqn:E; [discriminate|].
      rewrite <- E in C. apply G; auto. lia.
    - cbn [size counts_fit] in *. cbn [uncaptured] in C. destruct (N.eqb id k).
      + pose proof (size_uncaptured k n). rewrite (compiles_fuel cf _ (Datatypes.S f) f) in C by lia. apply (IH rd); auto; lia.
      + cbn [compiles] in C. apply andb_prop in C as [C1 C2]. apply (IH rd); auto; lia.
    - cbn [compiles uncaptured size counts_fit] in *. apply andb_prop in C as [C1 C2]. rewrite trivial_is_class in C2. split.
      + intros T. rewrite T in C2. now apply N.ltb_lt.
      + intros Z. destruct hi as [h|]; [|apply (IH rd); auto; lia]. apply andb_prop in C1 as [_ C1].
        destruct (N.eqb_spec h 0); [congruence|]. apply (IH rd); auto; lia.
    - cbn [compiles uncaptured size counts_fit] in *. destruct d; [apply (IH rd); auto; lia|].
      apply andb_prop in C as [_ C]. destruct (trivial (uncaptured k n)); [apply (IH rd); auto; lia|].
      rewrite <- invert_uncaptured in C. apply fit_invert. apply (IH (Datatypes.S rd)); auto. rewrite size_invert. lia.
  Qed.
End Names.

Theorem uncaptured_usable n k name fl ct :
  in_order n -> bare_sets n -> In (k, name) (groups_of n) -> unreferenced k name n ->
  usable (mk_regex n fl) ct -> usable (mk_regex (uncaptured k n) fl) ct <-> counts_fit k n.
Proof.
  intros Ho Hb Hin Hu [U1 U2]. cbn [ast flags] in *. destruct (number_of k name _ 1 Ho Hin) as [L E].
  unfold usable, runs. cbn [ast flags].
  assert (Q : compilable (config_of fl ct) (uncaptured k n)
    = compiles (config_of fl ct) (without (N.to_nat k) (all_names n)) (size n) 0 (uncaptured k n)).
  { unfold compilable. rewrite <- all_names_spec, names_uncaptured by (auto; lia).
    pose proof (size_uncaptured k n). apply compiles_fuel; lia. }
  rewrite Q. split.
  - intros [H _]. eapply compiled_fits; [apply le_n|exact H].
  - intros Hc. split; [|unfold lines_ok in *; now rewrite lines_uncaptured].
    unfold compilable in U1. rewrite <- all_names_spec in U1.
    apply (uncaptured_compiles _ _ _ name); auto. unfold all_names. rewrite names_of.
    replace (N.to_nat k) with (S (N.to_nat k - 1)) by lia. exact E.
Qed.
