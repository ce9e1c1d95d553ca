(** Numbering of the groups (ast/indexing.hpp) and the static checks that the
    trees of accepted patterns pass (C23, C24, C44). *)
From Verif Require Import Matcher Parser Basics Normal Steps Typing.
From Coq Require Import Lia.

(** ** Renumbering keeps the shape *)

Fixpoint index_list (off : N) (l : list node) : list node :=
  match l with
  | [] => []
  | x :: r => index off x :: index_list (off + N.of_nat (capture_count x)) r
  end.

Lemma index_Seq off l : index off (Seq l) = Seq (index_list off l).
Proof. reflexivity. Qed.

Lemma index_list_map {A} (g : node -> A) l :
  Forall (fun x => forall off, g (index off x) = g x) l ->
  forall off, map g (index_list off l) = map g l.
Proof. induction 1 as [|x l Hx Hl IH]; intros off; cbn; [reflexivity|]. now rewrite Hx, IH. Qed.

Lemma map_index_map {A} (g : node -> A) off l :
  Forall (fun x => forall off, g (index off x) = g x) l ->
  map g (map (index off) l) = map g l.
Proof. induction 1 as [|x l Hx Hl IH]; cbn; [reflexivity|]. now rewrite Hx, IH. Qed.

Lemma forallb_id {A} (p : A -> bool) l : forallb p l = forallb (fun b => b) (map p l).
Proof. induction l; cbn; congruence. Qed.

Lemma forallb_same {A B} (p : A -> bool) (q : B -> bool) l l' : map p l = map q l' -> forallb p l = forallb q l'.
Proof. intros H. now rewrite (forallb_id p), (forallb_id q), H. Qed.

Lemma existsb_same {A B} (p : A -> bool) (q : B -> bool) l : forall l', map p l = map q l' -> existsb p l = existsb q l'.
Proof. induction l as [|x l IH]; intros [|y l'] H; try discriminate; [reflexivity|]. cbn in *. injection H as -> H. now rewrite (IH _ H). Qed.

Lemma capture_count_index n : forall off, capture_count (index off n) = capture_count n.
Proof.
  induction n using node_ind'; intros off; try reflexivity; try solve [cbn [index capture_count]; auto].
  - cbn [index capture_count]. now rewrite map_index_map.
  - rewrite index_Seq. cbn [capture_count]. now rewrite index_list_map.
  - cbn [index capture_count]. now rewrite map_index_map.
Qed.

Lemma names_index n : forall off, capture_name_spec (index off n) = capture_name_spec n.
Proof.
  induction n using node_ind'; intros off; try reflexivity; try solve [cbn [index capture_name_spec]; auto].
  - cbn [index capture_name_spec]. rewrite !flat_map_concat_map. now rewrite map_index_map.
  - rewrite index_Seq. cbn [capture_name_spec]. rewrite !flat_map_concat_map. now rewrite index_list_map.
  - cbn [index capture_name_spec]. rewrite !flat_map_concat_map. now rewrite map_index_map.
  - cbn [index capture_name_spec]. now rewrite IHn.
Qed.

Lemma index_list_length l : forall off, length (index_list off l) = length l.
Proof. induction l; intros; cbn; auto. Qed.

Lemma trivial_index n : forall off, trivial (index off n) = trivial n.
Proof.
  induction n using node_ind'; intros off; try reflexivity.
  - cbn [index trivial]. auto.
  - rewrite index_Seq. destruct l as [|a [|b r]]; try reflexivity. inversion H; subst. cbn. auto.
  - cbn [index]. rewrite !trivial_Alt. destruct l as [|a r]; [reflexivity|]. cbn [map].
    change (index off a :: map (index off) r) with (map (index off) (a :: r)).
    apply forallb_same. now apply map_index_map.
  - cbn [index]. rewrite !trivial_Rep. now rewrite IHn.
Qed.

Lemma is_assertion_index n : forall off, is_assertion (index off n) = is_assertion n.
Proof.
  induction n using node_ind'; intros off; try reflexivity.
  - cbn [index is_assertion]. auto.
  - rewrite index_Seq. destruct l as [|a [|b r]]; try reflexivity. inversion H; subst. cbn. auto.
  - destruct l as [|a [|b r]]; try reflexivity. inversion H; subst. cbn. auto.
  - cbn [index]. rewrite !is_assertion_Rep. now rewrite IHn.
Qed.

Lemma shaped_index n : forall off, shaped (index off n) = shaped n.
Proof.
  induction n using node_ind'; intros off; try reflexivity.
  - cbn [index shaped]. rewrite forallb_map. apply forallb_ext_Forall.
    eapply Forall_impl; [|exact H]. intros x Hx. cbn. now rewrite trivial_index, Hx.
  - cbn [index shaped]. now rewrite trivial_index, is_assertion_index, IHn.
  - rewrite index_Seq. destruct l as [|a r]; [reflexivity|].
    cbn [shaped index_list]. change (index off a :: index_list (off + N.of_nat (capture_count a)) r)
      with (index_list off (a :: r)). apply forallb_same. now apply index_list_map.
  - destruct l as [|a r]; [reflexivity|]. cbn [index shaped map].
    change (index off a :: map (index off) r) with (map (index off) (a :: r)).
    apply forallb_same. now apply map_index_map.
  - cbn [index shaped]. auto.
  - cbn [index shaped]. auto.
  - cbn [index shaped]. auto.
Qed.

(** ** Groups of a tree *)

(** Numbers and names of the groups, in the order of the pattern. *)
Fixpoint caps_in (n : node) : list (N * group_name) :=
  match n with
  | CSet l | Seq l | Alt l => flat_map caps_in l
  | Neg x | Rep _ _ _ x | Look _ x => caps_in x
  | Cap id nm x => (id, nm) :: caps_in x
  | _ => []
  end.

Lemma groups_names n : map snd (caps_in n) = capture_name_spec n.
Proof.
  induction n using node_ind'; cbn [caps_in capture_name_spec]; try reflexivity; auto.
  1-3: rewrite flat_map_concat_map, concat_map, map_map, flat_map_concat_map;
    now rewrite (map_ext_Forall _ capture_name_spec).
  cbn. now rewrite IHn.
Qed.

Lemma names_count n : length (capture_name_spec n) = capture_count n.
Proof.
  induction n using node_ind'; cbn [capture_count capture_name_spec]; try reflexivity; auto.
  1-3: induction H as [|x l Hx Hl IH]; cbn; [reflexivity|]; rewrite app_length, Hx, IH; reflexivity.
  cbn. lia.
Qed.

Lemma groups_count n : length (caps_in n) = capture_count n.
Proof. now rewrite <- names_count, <- groups_names, map_length. Qed.

(** Every group number lies in the tuple, for every tree. *)
Lemma ids_bound n : forall off id nm, In (id, nm) (caps_in (index off n)) ->
  (off <= id < off + N.of_nat (capture_count n))%N.
Proof.
  assert (C : forall x l, In x l -> capture_count x <= list_sum (map capture_count l)).
  { intros x l Hx. apply list_sum_in. now apply in_map. }
  induction n using node_ind'; intros off id' nm' Hin; try destruct Hin;
    cbn [index caps_in capture_count] in *; eauto.
  - apply in_flat_map in Hin. destruct Hin as (y & Hy & Hin). apply in_map_iff in Hy.
    destruct Hy as (x & <- & Hx). rewrite Forall_forall in H. apply H in Hin; auto. apply C in Hx. lia.
  - change (In (id', nm') (caps_in (index off (Seq l)))) in Hin.
    rewrite index_Seq in Hin. cbn [caps_in] in Hin.
    revert off Hin. induction H as [|x l Hx Hl IH]; intros off Hin; [destruct Hin|].
    cbn [index_list flat_map] in Hin. apply in_app_or in Hin.
    change (list_sum (map capture_count (x :: l))) with (capture_count x + list_sum (map capture_count l)).
    destruct Hin as [Hin|Hin]; [apply Hx in Hin; lia|].
    apply IH in Hin. lia.
  - apply in_flat_map in Hin. destruct Hin as (y & Hy & Hin). apply in_map_iff in Hy.
    destruct Hy as (x & <- & Hx). rewrite Forall_forall in H. apply H in Hin; auto. apply C in Hx. lia.
  - injection H as <- <-. lia.
  - apply IHn in H. lia.
Qed.

(** At most one branch of every alternation contains groups. *)
Fixpoint one_branch (n : node) : bool :=
  match n with
  | CSet l | Seq l => forallb one_branch l
  | Alt l =>
      forallb one_branch l
      && Nat.leb (length (filter (fun x => Nat.ltb 0 (capture_count x)) l)) 1
  | Neg x | Rep _ _ _ x | Look _ x | Cap _ _ x => one_branch x
  | _ => true
  end.

Definition numbers (off : N) (k : nat) : list N :=
  map (fun i => (off + N.of_nat i)%N) (List.seq 0 k).

Lemma numbers_S off k : numbers off (S k) = off :: numbers (off + 1) k.
Proof.
  unfold numbers. cbn [List.seq map]. f_equal; [lia|]. rewrite <- seq_shift, map_map.
  apply map_ext. lia.
Qed.

Lemma numbers_app off k1 k2 : numbers off (k1 + k2) = numbers off k1 ++ numbers (off + N.of_nat k1) k2.
Proof.
  revert off. induction k1 as [|k1 IH]; intros off.
  - cbn [Nat.add numbers List.seq map app]. now rewrite N.add_0_r.
  - cbn [Nat.add]. rewrite !numbers_S, IH. cbn [app]. do 3 f_equal. lia.
Qed.

Lemma no_groups n : capture_count n = 0 -> caps_in n = [].
Proof. rewrite <- groups_count. now destruct (caps_in n). Qed.

Lemma shaped_trivial_no_groups n : shaped n = true -> trivial n = true -> capture_count n = 0.
Proof.
  induction n using node_ind'; intros Hs Ht; try reflexivity; try discriminate.
  - cbn [shaped capture_count] in *. induction H as [|x l Hx Hl IH]; [reflexivity|].
    cbn [forallb] in Hs. rewrite !Bool.andb_true_iff in Hs. destruct Hs as [[H1 H2] H3].
    change (capture_count x + list_sum (map capture_count l) = 0). rewrite Hx, IH; auto.
  - cbn in *. rewrite Ht in Hs. cbn in Hs. auto.
  - destruct l as [|a [|b r]]; try discriminate. inversion H; subst. cbn in *.
    rewrite Bool.andb_true_r in Hs. rewrite H2; auto.
  - rewrite trivial_Alt in Ht. destruct l as [|a r]; [discriminate|].
    cbn [shaped] in Hs. cbn [capture_count]. revert Hs Ht. generalize (a :: r) as l, H. clear.
    intros l H. induction H as [|x l Hx Hl IH]; [reflexivity|]. cbn [forallb]. rewrite !Bool.andb_true_iff.
    intros [H1 H2] [H3 H4]. change (capture_count x + list_sum (map capture_count l) = 0). rewrite Hx, IH; auto.
  - rewrite trivial_Rep in Ht. rewrite !Bool.andb_true_iff in Ht. cbn in *. tauto.
Qed.

(** The numbers follow the order of the groups. *)
Lemma ids_in_order n : forall off, shaped n = true -> one_branch n = true ->
  map fst (caps_in (index off n)) = numbers off (capture_count n).
Proof.
  induction n using node_ind'; intros off Hs Hb; try reflexivity;
    cbn [index caps_in capture_count] in *; auto.
  - change (map fst (caps_in (index off (CSet l))) = numbers off (capture_count (CSet l))).
    pose proof (shaped_trivial_no_groups (CSet l) Hs eq_refl) as E. rewrite E.
    rewrite no_groups; [reflexivity|]. now rewrite capture_count_index.
  - cbn [shaped one_branch] in *. rewrite Bool.andb_true_iff in Hs. apply IHn; tauto.
  - change (map fst (caps_in (index off (Seq l))) = numbers off (list_sum (map capture_count l))).
    rewrite index_Seq. cbn [caps_in one_branch] in *. apply seq_elements in Hs.
    revert off Hs Hb. induction H as [|x l Hx Hl IH]; intros off Hs Hb; [reflexivity|].
    cbn [forallb] in *. rewrite Bool.andb_true_iff in *.
    cbn [index_list flat_map map].
    change (list_sum (capture_count x :: map capture_count l)) with (capture_count x + list_sum (map capture_count l)).
    rewrite map_app, numbers_app, Hx by tauto. rewrite IH by tauto. reflexivity.
  - cbn [one_branch] in Hb. apply alt_elements in Hs. apply Bool.andb_true_iff in Hb.
    destruct Hb as [Hb Hl1]. apply Nat.leb_le in Hl1.
    assert (Z : forall l, length (filter (fun x => Nat.ltb 0 (capture_count x)) l) = 0 ->
      list_sum (map capture_count l) = 0 /\ flat_map caps_in (map (index off) l) = []).
    { clear. induction l as [|x l IH]; [easy|]. cbn [filter map flat_map].
      destruct (Nat.ltb 0 (capture_count x)) eqn:E; [discriminate|]. apply Nat.ltb_ge in E. intros H.
      destruct (IH H) as [I1 I2].
      change (list_sum (capture_count x :: map capture_count l)) with (capture_count x + list_sum (map capture_count l)).
      rewrite I2, no_groups by (rewrite capture_count_index; lia). split; [lia|reflexivity]. }
    induction H as [|x l Hx Hl IH]; [reflexivity|].
    cbn [forallb filter map flat_map] in *. rewrite Bool.andb_true_iff in *.
    change (list_sum (capture_count x :: map capture_count l)) with (capture_count x + list_sum (map capture_count l)).
    destruct (Nat.ltb 0 (capture_count x)) eqn:E; cbn [length] in Hl1.
    + destruct (Z l ltac:(lia)) as [Z1 Z2]. rewrite Z1, Z2, app_nil_r, Nat.add_0_r. now apply Hx.
    + apply Nat.ltb_ge in E. assert (E0 : capture_count x = 0) by lia. rewrite E0. cbn [Nat.add].
      rewrite no_groups by (rewrite capture_count_index; lia). cbn [app]. apply IH; tauto.
  - cbn [map fst]. rewrite Nat.add_1_r, numbers_S. f_equal. now apply IHn.
Qed.

(** ** The static checks *)

(** A condition on every node of a tree. *)
Fixpoint every (p : node -> bool) (n : node) : bool :=
  p n &&
  match n with
  | CSet l | Seq l | Alt l => forallb (every p) l
  | Neg x | Cap _ _ x | Rep _ _ _ x | Look _ x => every p x
  | _ => true
  end.

(** Bounds of ranges and quantifiers are in order, and quantifiers are less than
    2^63. *)
Definition ordered (n : node) : bool :=
  every (fun x => match x with
    | Range a b => N.leb (code a) (code b)
    | Rep _ lo hi _ => match hi with Fin h => N.leb lo h | Inf => true end && N.ltb lo (2 ^ 63)
    | _ => true
    end) n.

(** Every backreference has exactly one group to refer to. *)
Definition refers (names : list group_name) (n : node) : bool :=
  every (fun x => match x with
    | Backref id => Nat.ltb (N.to_nat id) (length names)
    | NBackref nm => Nat.eqb (length (filter (name_eqb (Some nm)) names)) 1
    | _ => true
    end) n.

(** No group below two levels of backward matching.  The body of a lookbehind is
    read backwards ([rev]), where a lookahead becomes a lookbehind and the other
    way round. *)
Fixpoint shallow (layers : nat) (rev : bool) (n : node) : bool :=
  match n with
  | CSet l | Seq l | Alt l => forallb (shallow layers rev) l
  | Neg x | Rep _ _ _ x => shallow layers rev x
  | Cap _ _ x => Nat.leb layers 1 && shallow layers rev x
  | Look d x =>
      match d, rev with
      | Ahead, false | Behind, true => shallow layers false x
      | Ahead, true | Behind, false => shallow (S layers) true x
      end
  | _ => true
  end.

Definition named (names : list group_name) (n : node) : bool :=
  every (fun x => match x with
    | Cap id nm _ => match nth_error names (N.to_nat id) with
                     | Some nm' => name_eqb nm nm' | None => false end
    | _ => true
    end) n.

Lemma every_invert p (Hp : forall x, p (invert x) = p x) n : every p (invert n) = every p n.
Proof.
  induction n using node_ind'; try reflexivity.
  - cbn [invert every]. rewrite <- (Hp (CSet l)). cbn [invert]. f_equal.
    rewrite forallb_map. now apply forallb_ext_Forall.
  - cbn [invert every]. rewrite IHn. f_equal. exact (Hp (Neg n)).
  - rewrite invert_Seq. cbn [every]. rewrite <- (Hp (Seq l)), invert_Seq. f_equal.
    rewrite forallb_rev, forallb_map. now apply forallb_ext_Forall.
  - cbn [invert every]. rewrite <- (Hp (Alt l)). cbn [invert]. f_equal.
    rewrite forallb_map. now apply forallb_ext_Forall.
  - cbn [invert every]. rewrite IHn. f_equal. exact (Hp (Cap id nm n)).
  - cbn [invert every]. rewrite IHn. f_equal. exact (Hp (Rep md lo hi n)).
  - cbn [invert every]. f_equal. exact (Hp (Look d n)).
Qed.

Lemma shallow_invert n : forall k, shallow k false (invert n) = shallow k true n.
Proof.
  induction n using node_ind'; intros k; try reflexivity.
  - cbn [invert shallow]. rewrite forallb_map. apply forallb_ext_Forall.
    eapply Forall_impl; [|exact H]. auto.
  - cbn [invert shallow]. auto.
  - rewrite invert_Seq. cbn [shallow]. rewrite forallb_rev, forallb_map. apply forallb_ext_Forall.
    eapply Forall_impl; [|exact H]. auto.
  - cbn [invert shallow]. rewrite forallb_map. apply forallb_ext_Forall.
    eapply Forall_impl; [|exact H]. auto.
  - cbn [invert shallow]. now rewrite IHn.
  - cbn [invert shallow]. auto.
  - now destruct d.
Qed.

Lemma shallow_no_groups n : capture_count n = 0 -> forall k b, shallow k b n = true.
Proof.
  induction n using node_ind'; intros C k rv; try reflexivity; cbn [capture_count shallow] in *;
    try discriminate; auto.
  1-3: apply forallb_forall; intros x Hx; rewrite Forall_forall in H; apply H; auto;
    pose proof (list_sum_in _ _ (in_map capture_count _ _ Hx)); lia.
  lia.
  destruct d, rv; auto.
Qed.

Lemma shaped_invert n : shaped (invert n) = shaped n.
Proof.
  induction n using node_ind'; try reflexivity.
  - cbn [invert shaped]. rewrite forallb_map. apply forallb_ext_Forall.
    eapply Forall_impl; [|exact H]. intros x Hx. cbn. now rewrite trivial_invert, Hx.
  - cbn [invert shaped]. now rewrite trivial_invert, is_assertion_invert, IHn.
  - rewrite invert_Seq. cbn [shaped]. destruct l as [|a r]; [reflexivity|].
    destruct (rev (map invert (a :: r))) eqn:E.
    { apply (f_equal (@length node)) in E. rewrite rev_length in E. discriminate. }
    rewrite <- E, forallb_rev, forallb_map. now apply forallb_ext_Forall.
  - destruct l as [|a r]; [reflexivity|]. cbn [invert shaped].
    change (map invert (a :: r)) with (invert a :: map invert r). cbv iota.
    change (invert a :: map invert r) with (map invert (a :: r)). rewrite forallb_map.
    now apply forallb_ext_Forall.
  - cbn [invert shaped]. auto.
  - cbn [invert shaped]. auto.
Qed.

Lemma ordered_invert n : ordered (invert n) = ordered n.
Proof. apply every_invert. now intros []. Qed.
Lemma refers_invert names n : refers names (invert n) = refers names n.
Proof. apply every_invert. now intros []. Qed.
Lemma named_invert names n : named names (invert n) = named names n.
Proof. apply every_invert. now intros []. Qed.

Lemma every_in p l x : forallb (every p) l = true -> In x l -> every p x = true.
Proof. intros H Hx. rewrite forallb_forall in H. auto. Qed.

Lemma unique_exists nm names : length (filter (name_eqb nm) names) = 1 ->
  exists i, unique_position nm names = Some i.
Proof.
  intros H. unfold unique_position.
  assert (L : forall i, length (positions_of nm names i) = length (filter (name_eqb nm) names)).
  { clear. induction names as [|x l IH]; intros i; [reflexivity|].
    cbn. rewrite app_length, IH. now destruct (name_eqb nm x). }
  specialize (L 0). rewrite H in L.
  destruct (positions_of nm names 0) as [|i [|j r]]; try discriminate L. eauto.
Qed.

Lemma named_groups names n :
  (forall id nm, In (id, nm) (caps_in n) -> nth_error names (N.to_nat id) = Some nm) ->
  named names n = true.
Proof.
  induction n using node_ind'; intros Hg; try reflexivity; unfold named in *; cbn [every andb caps_in] in *.
  1,3,4: apply forallb_forall; intros x Hx; rewrite Forall_forall in H; apply H; auto;
    intros id nm Hin; apply Hg, in_flat_map; eauto.
  1,3,4: auto.
  rewrite (Hg id nm (or_introl eq_refl)). rewrite (proj2 (name_eqb_eq nm nm) eq_refl). cbn [andb].
  apply IHn. intros id' nm' Hin. apply Hg. now right.
Qed.

Lemma shaped_compiles cf names (Hbi : is_bidirectional cf = true) : forall f rd n,
  size n <= f -> shaped n = true -> ordered n = true -> refers names n = true ->
  named names n = true -> shallow rd false n = true -> compiles cf names f rd n = true.
Proof.
  induction f as [|f IH]; intros rd n Hf Hs Ho Hr Hn Hw; [pose proof (size_pos n); lia|].
  assert (L : forall l, list_sum (map size l) <= f -> forallb shaped l = true ->
    forallb (fun x => ordered x) l = true -> forallb (fun x => refers names x) l = true ->
    forallb (fun x => named names x) l = true -> forallb (shallow rd false) l = true ->
    forallb (compiles cf names f rd) l = true).
  { intros l H1 H2 H3 H4 H5 H6. apply forallb_forall. intros x Hx.
    rewrite forallb_forall in H2, H3, H4, H5, H6.
    pose proof (size_in_sum _ _ Hx). eapply IH; eauto. lia. }
  unfold ordered, refers, named in *.
  destruct n; cbn [compiles] in *; try reflexivity; cbn [every shaped shallow] in *;
    rewrite ?Bool.andb_true_iff in *.
  - exact Hbi.
  - apply Ho.
  - rewrite size_CSet in Hf. 
    assert (T : forallb (fun x => trivial x) l = true /\ forallb shaped l = true).
    { clear - Hs. induction l as [|x l IHl]; [easy|]. cbn in *. rewrite !Bool.andb_true_iff in *. tauto. }
    destruct T as [T1 T2]. specialize (L l ltac:(lia) T2 (proj2 Ho) (proj2 Hr) (proj2 Hn) Hw).
    clear - L T1. induction l as [|x l IHl]; [reflexivity|]. cbn in *. rewrite !Bool.andb_true_iff in *. tauto.
  - cbn [size] in Hf. split; [apply Hs|]. eapply IH; eauto; try tauto; try lia.
  - rewrite size_Seq in Hf. destruct l as [|x l]; [discriminate|]. apply L; try tauto. lia.
  - rewrite size_Alt in Hf. destruct l as [|x l]; [discriminate|]. apply L; try tauto. lia.
  - cbn [size] in Hf. destruct Hw as [Hw1 Hw2]. apply Nat.leb_le in Hw1. repeat split; try tauto.
    + apply Nat.leb_le. lia.
    + eapply IH; eauto; try tauto; try lia.
  - cbn [size] in Hf. destruct Ho as [[Ho1 Ho2] Ho3].
    assert (C : compiles cf names f rd n = true) by (eapply IH; eauto; try tauto; try lia).
    split; [|now rewrite Ho2, Bool.orb_true_r]. destruct hi as [h|]; [|exact C].
    now rewrite Ho1, C, Bool.orb_true_r.
  - split; [exact Hbi|apply Hr].
  - split; [exact Hbi|]. destruct Hr as [Hr _]. apply Nat.eqb_eq in Hr. apply unique_exists in Hr.
    destruct Hr as [i ->]. reflexivity.
  - cbn [size] in Hf. destruct d.
    + eapply (IH rd); eauto; try tauto; try lia.
    + rewrite Bool.andb_true_iff. split; [exact Hbi|]. destruct (trivial n) eqn:T.
      * eapply (IH rd); eauto; try tauto; try lia.
        apply shallow_no_groups. now apply shaped_trivial_no_groups.
      * eapply (IH (S rd)); rewrite ?size_invert, ?shaped_invert, ?shallow_invert; try tauto; try lia.
        -- change (ordered (invert n) = true). rewrite ordered_invert. apply Ho.
        -- change (refers names (invert n) = true). rewrite refers_invert. apply Hr.
        -- change (named names (invert n) = true). rewrite named_invert. apply Hn.
Qed.

(** ** Accepted patterns *)

Theorem parse_verdict p :
  match parse p with
  | P_ok n => exists x, n = index_captures x /\ printable x = true
  | P_error i => i <= length p
  | P_stuck => ends_opener (last_char None p)
  | P_loop => False
  end.
Proof.
  pose proof (from_ok p 0 None [] [s_begin] ok_begin) as H. unfold parse.
  destruct (parse_from 0 None p [] [s_begin]) eqn:E; auto.
  - destruct H as (ns & -> & Hs & Hl). destruct ns as [|x [|]]; try (cbn in Hl; lia).
    + exists Empty. now split.
    + exists x. cbn in Hs. rewrite Bool.andb_true_r in Hs. split; [reflexivity|exact Hs].
  - lia.
Qed.

Lemma parse_normal p n : parse p = P_ok n -> exists x, n = index_captures x /\ printable x = true.
Proof. intros E. pose proof (parse_verdict p) as H. now rewrite E in H. Qed.

Lemma parse_indexed p n : parse p = P_ok n -> exists x, n = index_captures x /\ shaped x = true.
Proof. intros E. destruct (parse_normal p n E) as (x & -> & H). eauto using printable_shaped. Qed.

Lemma parse_shaped p n : parse p = P_ok n -> shaped n = true.
Proof. intros E. destruct (parse_indexed p n E) as (x & -> & Hs). unfold index_captures. now rewrite shaped_index. Qed.

Lemma parse_ids p n id nm : parse p = P_ok n -> In (id, nm) (caps_in n) ->
  (1 <= id <= N.of_nat (capture_count n))%N.
Proof.
  intros E Hin. destruct (parse_indexed p n E) as (x & -> & Hs). unfold index_captures in *.
  apply ids_bound in Hin. rewrite capture_count_index. lia.
Qed.

Lemma one_branch_index n : forall off, one_branch (index off n) = one_branch n.
Proof.
  induction n using node_ind'; intros off; try reflexivity.
  - cbn [index one_branch]. apply forallb_same. now apply map_index_map.
  - cbn [index one_branch]. auto.
  - rewrite index_Seq. cbn [one_branch]. apply forallb_same. now apply index_list_map.
  - cbn [index one_branch]. f_equal; [apply forallb_same; now apply map_index_map|].
    f_equal. clear. induction l as [|x l IH]; [reflexivity|]. cbn [map filter].
    rewrite capture_count_index. destruct (Nat.ltb 0 (capture_count x)); cbn [length]; now rewrite IH.
  - cbn [index one_branch]. auto.
  - cbn [index one_branch]. auto.
  - cbn [index one_branch]. auto.
Qed.

(** C23: the groups of an accepted pattern, in the order of the pattern, are
    numbered 1, 2, ... *)
Lemma parse_numbers p n : parse p = P_ok n -> one_branch n = true ->
  caps_in n = combine (numbers 1 (capture_count n)) (capture_name_spec n).
Proof.
  intros E Hb. destruct (parse_indexed p n E) as (x & -> & Hs). unfold index_captures in *.
  rewrite one_branch_index in Hb.
  rewrite capture_count_index, <- groups_names, <- (ids_in_order x 1%N Hs Hb).
  induction (caps_in (index 1 x)) as [|[a b] l IH]; [reflexivity|]. cbn. now rewrite <- IH.
Qed.

Lemma nth_numbers off k i : i < k -> nth_error (numbers off k) i = Some (off + N.of_nat i)%N.
Proof.
  intros H. unfold numbers. erewrite map_nth_error; [reflexivity|].
  rewrite (nth_error_nth' _ 0); [now rewrite seq_nth|now rewrite seq_length].
Qed.

Lemma combine_nth_error {A B} (l : list A) : forall (l' : list B) i,
  nth_error (combine l l') i
  = match nth_error l i, nth_error l' i with Some a, Some b => Some (a, b) | _, _ => None end.
Proof.
  induction l as [|a l IH]; intros [|b l'] [|i]; cbn; try reflexivity.
  - now destruct (nth_error l i).
  - apply IH.
Qed.

Lemma in_numbers {A} k (names : list A) id nm : In (id, nm) (combine (numbers 1 k) names) -> length names = k ->
  exists i, id = N.of_nat (S i) /\ nth_error names i = Some nm.
Proof.
  intros H Hl. apply In_nth_error in H. destruct H as [i Hi]. rewrite combine_nth_error in Hi.
  destruct (nth_error names i) as [b|] eqn:E; [|now destruct (nth_error (numbers 1 k) i)].
  assert (i < k) by (rewrite <- Hl; apply nth_error_Some; congruence).
  rewrite nth_numbers in Hi by assumption. exists i.
  assert (id = (1 + N.of_nat i)%N) as -> by congruence. split; [lia|congruence].
Qed.

Lemma parse_named p n : parse p = P_ok n -> one_branch n = true -> named (group_names n) n = true.
Proof.
  intros E Hb. apply named_groups. intros id nm Hin. rewrite (parse_numbers p n E Hb) in Hin.
  destruct (in_numbers _ _ _ _ Hin (names_count n)) as (i & -> & Hi).
  rewrite Nnat.Nat2N.id. exact Hi.
Qed.

(** C44: such a tree compiles. *)
Theorem parse_compiles p n cf : parse p = P_ok n -> is_bidirectional cf = true ->
  ordered n = true -> refers (group_names n) n = true ->
  one_branch n = true -> shallow 0 false n = true -> compilable cf n = true.
Proof.
  intros E Hc Ho Hr Hb Hw. unfold compilable.
  eapply (shaped_compiles cf (group_names n) Hc (size n) 0); auto.
  - eapply parse_shaped; eauto.
  - eapply parse_named; eauto.
Qed.
