(** The numbers of the groups of every accepted pattern (C23). *)
From Verif Require Import Matcher Parser Basics Typing Shape Scan Steps Parsed Syntax Accepted.
From Coq Require Import Lia.

(** The way from the root of a tree to a group: through the [i]-th branch of an
    alternation, or through the [i]-th part of anything else. *)
Inductive way := Branch (i : nat) | Part (i : nat).

(** [i]-th, [i+1]-th, ... element. *)
Fixpoint each_from {A} (step : nat -> way) (i : nat) (l : list (list (list way * A))) : list (list way * A) :=
  match l with
  | [] => []
  | x :: r => map (fun '(w, a) => (step i :: w, a)) x ++ each_from step (S i) r
  end.

(** The groups of a tree from left to right: the way and the name. *)
Fixpoint places (n : node) : list (list way * group_name) :=
  match n with
  | Alt l | CSet l => each_from Branch 0 (map places l)
  | Seq l => each_from Part 0 (map places l)
  | Neg x | Rep _ _ _ x | Look _ x => places x
  | Cap _ nm x => ([], nm) :: map (fun '(w, a) => (Part 0 :: w, a)) (places x)
  | _ => []
  end.

(** Two groups are in different branches of an alternation. *)
Fixpoint apart (a b : list way) : bool :=
  match a, b with
  | Branch i :: a', Branch j :: b' => negb (Nat.eqb i j) || apart a' b'
  | Part i :: a', Part j :: b' => Nat.eqb i j && apart a' b'
  | _, _ => false
  end.

(** The number of a group: one more than there are groups in front of it ([seen]),
    not counting those in other branches. *)
Definition number (seen : list (list way)) (w : list way) : N :=
  N.of_nat (S (length (filter (fun v => negb (apart v w)) seen))).

Fixpoint counted (seen : list (list way)) (l : list (list way * group_name)) : list (N * group_name) :=
  match l with
  | [] => []
  | (w, nm) :: r => (number seen w, nm) :: counted (seen ++ [w]) r
  end.

Definition shifted (k : N) (l : list (N * group_name)) : list (N * group_name) :=
  map (fun '(i, nm) => (k + i, nm)%N) l.

(** ** Proof *)

Lemma filter_all {A} (f : A -> bool) l : (forall x, In x l -> f x = true) -> filter f l = l.
Proof.
  induction l as [|x l IH]; intros H; [reflexivity|]. cbn. rewrite H by now left. f_equal.
  apply IH. intros y Hy. apply H. now right.
Qed.
Lemma filter_none {A} (f : A -> bool) l : (forall x, In x l -> f x = false) -> filter f l = [].
Proof.
  induction l as [|x l IH]; intros H; [reflexivity|]. cbn. rewrite H by now left.
  apply IH. intros y Hy. apply H. now right.
Qed.

(** Below one step; what was seen elsewhere counts always or never. *)
Lemma counted_below s (out ins : list (list way)) l :
  (forall w, apart (s :: w) (s :: w) = apart w w) ->
  (forall v w, apart (s :: v) (s :: w) = apart v w) ->
  forall k, (forall w, length (filter (fun v => negb (apart v (s :: w))) out) = k) ->
  counted (out ++ map (cons s) ins) (map (fun '(w, a) => (s :: w, a)) l)
  = shifted (N.of_nat k) (counted ins l).
Proof.
  intros _ Hs k Hk. revert ins. induction l as [|[w nm] l IH]; intros ins; [reflexivity|].
  cbn [map counted shifted]. f_equal.
  - unfold number. rewrite filter_app, app_length, Hk. f_equal.
    assert (E : length (filter (fun v => negb (apart v (s :: w))) (map (cons s) ins))
                = length (filter (fun v => negb (apart v w)) ins)).
    { induction ins as [|v ins IHi]; [reflexivity|]. cbn [map filter]. rewrite Hs.
      destruct (negb (apart v w)); cbn; now rewrite IHi. }
    rewrite E. lia.
  - change (fun '(i, nm0) => ((N.of_nat k + i)%N, nm0)) with (fun '(i, nm0) => ((N.of_nat k + i)%N, nm0) : N * group_name).
    fold (shifted (N.of_nat k) (counted (ins ++ [w]) l)). rewrite <- IH. f_equal.
    now rewrite map_app, app_assoc.
Qed.

Lemma apart_below s v w : apart (s :: v) (s :: w) = apart v w.
Proof. destruct s; cbn; now rewrite Nat.eqb_refl. Qed.

Lemma counted_app l1 : forall l2 seen, counted seen (l1 ++ l2) = counted seen l1 ++ counted (seen ++ map fst l1) l2.
Proof.
  induction l1 as [|[w nm] l1 IH]; intros l2 seen; cbn [app counted map fst].
  - now rewrite app_nil_r.
  - rewrite IH, <- app_assoc. reflexivity.
Qed.

Lemma shifted_shifted a b l : shifted a (shifted b l) = shifted (a + b) l.
Proof. unfold shifted. rewrite map_map. apply map_ext. intros [i nm]. f_equal. lia. Qed.
Lemma shifted_app k l1 l2 : shifted k (l1 ++ l2) = shifted k l1 ++ shifted k l2.
Proof. apply map_app. Qed.

Lemma places_count n : length (places n) = capture_count n.
Proof.
  assert (E : forall step l, Forall (fun n => length (places n) = capture_count n) l -> forall i,
            length (each_from step i (map places l)) = list_sum (map capture_count l)).
  { intros step l. induction 1 as [|x l Hx _ IH]; intros i; [reflexivity|]. cbn [map each_from].
    change (list_sum (capture_count x :: map capture_count l)) with (capture_count x + list_sum (map capture_count l)).
    rewrite app_length, map_length, Hx, IH. reflexivity. }
  induction n using node_ind'; cbn [places capture_count]; try reflexivity; auto.
  cbn [length]. rewrite map_length, IHn. lia.
Qed.

(** Ways that start with another part. *)
Definition earlier (i : nat) (seen : list (list way)) : Prop :=
  Forall (fun v => exists j v', v = Part j :: v' /\ j < i) seen.
Definition other_branch (i : nat) (seen : list (list way)) : Prop :=
  Forall (fun v => exists j v', v = Branch j :: v' /\ j < i) seen.

Lemma earlier_counts i seen w : earlier i seen ->
  length (filter (fun v => negb (apart v (Part i :: w))) seen) = length seen.
Proof.
  intros H. rewrite filter_all; [reflexivity|]. intros v Hv. unfold earlier in H. rewrite Forall_forall in H.
  destruct (H v Hv) as (j & v' & -> & L). cbn. destruct (Nat.eqb_spec j i); [lia|reflexivity].
Qed.
Lemma other_counts i seen w : other_branch i seen ->
  length (filter (fun v => negb (apart v (Branch i :: w))) seen) = 0.
Proof.
  intros H. rewrite filter_none; [reflexivity|]. intros v Hv. unfold other_branch in H. rewrite Forall_forall in H.
  destruct (H v Hv) as (j & v' & -> & L). cbn. destruct (Nat.eqb_spec j i); [lia|reflexivity].
Qed.

Lemma fst_below (s : way) (x : list (list way * group_name)) :
  map fst (map (fun '(w, a) => (s :: w, a)) x) = map (cons s) (map fst x).
Proof. rewrite !map_map. apply map_ext. now intros []. Qed.

Lemma counted_indexed n : forall off, caps_in (index (off + 1) n) = shifted off (counted [] (places n)).
Proof.
  assert (B : forall s out (x : list (list way * group_name)) k,
            (forall w, length (filter (fun v => negb (apart v (s :: w))) out) = k) ->
            counted out (map (fun '(w, a) => (s :: w, a)) x) = shifted (N.of_nat k) (counted [] x)).
  { intros s out x k Hk. rewrite <- (counted_below s out [] x) with (k := k); auto using apart_below.
    cbn [map]. now rewrite app_nil_r. }
  assert (A : forall l, Forall (fun n => forall off, caps_in (index (off + 1) n) = shifted off (counted [] (places n))) l ->
            forall off i out, other_branch i out ->
            flat_map caps_in (map (index (off + 1)) l) = shifted off (counted out (each_from Branch i (map places l)))).
  { induction 1 as [|x l Hx _ IH]; intros off i out Ho; [reflexivity|].
    cbn [map flat_map each_from]. rewrite counted_app, shifted_app. f_equal.
    - rewrite (B _ _ _ 0) by (intros w; now apply other_counts). rewrite shifted_shifted, N.add_0_r. apply Hx.
    - apply IH. apply Forall_app. split.
      + eapply Forall_impl; [|exact Ho]. intros v (j & v' & E & L). exists j, v'. split; [exact E|lia].
      + rewrite fst_below. apply Forall_forall. intros v Hv. apply in_map_iff in Hv as (v' & <- & _). eauto. }
  induction n using node_ind'; intros off; try reflexivity; try (cbn; apply IHn).
  - cbn [index caps_in places]. apply A; [exact H|constructor].
  - rewrite index_Seq. cbn [caps_in places].
    enough (G : forall i out, earlier i out ->
              flat_map caps_in (index_list (off + N.of_nat (length out) + 1) l)
              = shifted off (counted out (each_from Part i (map places l)))).
    { rewrite <- (G 0 []); [|constructor]. change (N.of_nat (length [])) with 0%N. now rewrite N.add_0_r. }
    induction H as [|x l Hx _ IH]; intros i out Ho; [reflexivity|].
    cbn [map each_from index_list flat_map]. rewrite counted_app, shifted_app. f_equal.
    + rewrite (B _ _ _ (length out)) by (intros w; now apply earlier_counts). rewrite shifted_shifted. apply Hx.
    + rewrite <- IH.
      * f_equal. f_equal. rewrite app_length, !map_length, places_count. lia.
      * apply Forall_app. split.
        -- eapply Forall_impl; [|exact Ho]. intros v (j & v' & E & L). exists j, v'. split; [exact E|lia].
        -- rewrite fst_below. apply Forall_forall. intros v Hv. apply in_map_iff in Hv as (v' & <- & _). eauto.
  - cbn [index caps_in places]. apply A; [exact H|constructor].
  - cbn [index caps_in places counted app map shifted]. f_equal.
    rewrite (B _ _ _ 1) by reflexivity. fold (shifted off (shifted (N.of_nat 1) (counted [] (places n)))).
      rewrite shifted_shifted, <- IHn. change (N.of_nat 1) with 1%N. reflexivity.
Qed.

Lemma places_index n : forall off, places (index off n) = places n.
Proof.
  assert (M : forall step l, Forall (fun n => forall off, places (index off n) = places n) l -> forall off i,
            each_from step i (map places (map (index off) l)) = each_from step i (map places l)).
  { intros step l. induction 1 as [|x l Hx _ IH]; intros off i; [reflexivity|]. cbn [map each_from]. now rewrite Hx, IH. }
  induction n using node_ind'; intros off; try reflexivity; try (cbn; apply IHn).
  - cbn [index places]. now apply M.
  - rewrite index_Seq. cbn [places]. generalize 0 as i. revert off.
    induction H as [|x l Hx _ IH]; intros off i; [reflexivity|]. cbn [index_list map each_from]. now rewrite Hx, IH.
  - cbn [index places]. now apply M.
  - cbn [index places]. now rewrite IHn.
Qed.

Theorem parsed_numbers p n : parse p = P_ok n ->
  caps_in n = counted [] (places n) /\ map snd (places n) = scan InText p.
Proof.
  intros H. pose proof (parse_scan p n H) as Hs. apply accepted_pattern in H as (b & _ & ->).
  assert (E : caps_in (index_captures b) = counted [] (places (index_captures b))).
  { unfold index_captures. rewrite places_index. change 1%N with (0 + 1)%N. rewrite counted_indexed.
    unfold shifted. rewrite <- (map_id (counted [] (places b))) at 2. apply map_ext. now intros []. }
  split; [exact E|]. rewrite <- Hs, <- groups_names, E.
  clear E. generalize (@nil (list way)) as seen. induction (places (index_captures b)) as [|[w nm] l IH]; intros seen; [reflexivity|].
  cbn [map snd counted]. f_equal. apply IH.
Qed.
