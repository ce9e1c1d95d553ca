(** Proofs about the helper containers, the range objects and the lifetime of
    results (C47-C50). *)
From Verif Require Import Containers Adapter Basics Safe Calls Spec Matching Generators Results.
From Coq Require Import Lia.

(** ** Containers *)

Theorem ts_concat_concat {A} (ls : list (list A)) : ts_concat ls = Some (concat ls).
Proof.
  unfold ts_concat. assert (H : forall f ls, length ls < f -> @ts_concat_with A f ls = Some (concat ls)); [|apply H; lia].
  clear ls. induction f as [|f IH]; intros ls Hf; [lia|].
  destruct ls as [|a [|b [|c [|d r]]]]; cbn [ts_concat_with]; try (cbn [concat]; now rewrite ?app_nil_r).
  rewrite IH by (cbn in *; lia). cbn [concat]. now rewrite <- !app_assoc.
Qed.

Theorem static_string_literal t : static_string_of (literal_array t) = t.
Proof.
  unfold static_string_of, literal_array. rewrite app_length. cbn [length].
  replace (length t + 1 - 1) with (length t) by lia. rewrite firstn_app, Nat.sub_diag, firstn_all. apply app_nil_r.
Qed.

Theorem make_static_string_chars t : make_static_string t = t.
Proof.
  unfold make_static_string. replace (S (length t) - length t) with 1 by lia. apply static_string_literal.
Qed.

Theorem lexer_token_nth p i : lexer_token p i = nth_error p i.
Proof.
  unfold lexer_token, static_length, static_at. destruct (Nat.ltb_spec i (length p)) as [H|H]; [reflexivity|].
  symmetry. now apply nth_error_None.
Qed.

Theorem reversed_elements_rev {A} (l : list A) : reversed_elements l = Some (rev l).
Proof.
  unfold reversed_elements, reversed_begin.
  assert (H : forall p f, p <= f -> p <= length l -> reversed_loop f l p = Some (rev (firstn p l))).
  2:{ rewrite H by lia. now rewrite firstn_all. }
  induction p as [|p IH]; intros f Hf Hp; [now destruct f|].
  destruct f as [|f]; [lia|]. cbn [reversed_loop reversed_end Nat.eqb reverse_deref].
  replace (S p - 1) with p by lia. rewrite IH by lia.
  destruct (nth_error l p) as [x|] eqn:E; [|apply nth_error_None in E; lia].
  assert (X : firstn (S p) l = firstn p l ++ [x]).
  { clear - E. revert l E. induction p as [|p IH]; intros [|y l] E; try discriminate; cbn in *.
    - now injection E as ->.
    - now rewrite IH. }
  rewrite X, rev_app_distr. reflexivity.
Qed.

Theorem distance_overloads n len cur : cur <= len ->
  distance_loop n len cur = Nat.ltb (len - cur) n.
Proof.
  revert cur. induction n as [|n IH]; intros cur H; cbn [distance_loop]; [now destruct (len - cur)|].
  destruct (Nat.eqb_spec cur len) as [->|Hc]; [rewrite Nat.sub_diag; reflexivity|].
  rewrite IH by lia. apply eq_true_iff_eq. rewrite !Nat.ltb_lt. lia.
Qed.

Theorem distance_any cf n len cur : cur <= len ->
  (distance_less_than cf n len cur = true <-> len < cur + N.to_nat n).
Proof.
  intros H. unfold distance_less_than. destruct (is_random cf).
  - rewrite N.ltb_lt. lia.
  - rewrite distance_overloads by exact H. rewrite Nat.ltb_lt. lia.
Qed.

Fixpoint nsum (l : list N) : N := match l with [] => 0 | x :: r => x + nsum r end%N.

Theorem index_offsets_sums counts : forall offset i c, nth_error counts i = Some c ->
  nth_error (index_offsets offset counts) i = Some (offset + nsum (firstn i counts))%N.
Proof.
  induction counts as [|x r IH]; intros offset [|i] c H; try discriminate; cbn in *.
  - f_equal. lia.
  - rewrite (IH _ _ _ H). f_equal. lia.
Qed.

Lemma index_offsets_length counts : forall offset, length (index_offsets offset counts) = length counts.
Proof. induction counts as [|x r IH]; intros offset; cbn; [reflexivity|]. now rewrite IH. Qed.

(** The numbering of the elements of a sequence (Traits.v) is the one by
    prefix sums. *)
Definition index_all (offset : N) (l : list node) : list node :=
  map (fun p => index (fst p) (snd p)) (combine (index_offsets offset (map (fun x => N.of_nat (capture_count x)) l)) l).

Theorem index_by_offsets offset l : index offset (Seq l) = Seq (index_all offset l).
Proof.
  cbn [index]. f_equal. revert offset. unfold index_all. induction l as [|x r IH]; intros offset; cbn; [reflexivity|].
  f_equal. apply IH.
Qed.

Theorem type_sequences (A : Type) (l : list A) (ls : list (list A)) (x : A) (t : list A) :
  ts_concat ls = Some (concat ls)
  /\ reverse_pack l = rev l
  /\ ts_front (ts_push l (inl x)) = Some x /\ ts_pop (ts_push l (inl x)) = l
  /\ ts_push l (inr t) = fold_right (fun y acc => ts_push acc (inl y)) l t
  /\ (ts_is_empty l = true <-> ts_front l = None).
Proof.
  split; [apply ts_concat_concat|]. split; [apply reverse_pack_rev|]. split; [reflexivity|]. split; [reflexivity|].
  split.
  - cbn [ts_push]. induction t as [|y t IH]; cbn [fold_right app]; [reflexivity|]. now rewrite <- IH.
  - destruct l; cbn; split; congruence.
Qed.

Theorem pattern_text t i :
  static_string_of (literal_array t) = t /\ make_static_string t = t
  /\ lexer_token (static_string_of (literal_array t)) i = nth_error t i.
Proof.
  split; [apply static_string_literal|]. split; [apply make_static_string_chars|].
  rewrite static_string_literal. apply lexer_token_nth.
Qed.

Lemma nsum_counts l :
  nsum (map (fun x => N.of_nat (capture_count x)) l) = N.of_nat (list_sum (map capture_count l)).
Proof. unfold list_sum. induction l as [|x r IH]; [reflexivity|]. cbn [map nsum fold_right]. rewrite IH. lia. Qed.

Theorem index_offsets_parts offset l i x : nth_error l i = Some x ->
  exists before, before = firstn i l
    /\ index offset (Seq l) = Seq (index_all offset l)
    /\ nth_error (index_all offset l) i
       = Some (index (offset + N.of_nat (list_sum (map capture_count before))) x).
Proof.
  intros H. eexists. split; [reflexivity|]. split; [apply index_by_offsets|].
  rewrite <- nsum_counts, <- firstn_map. unfold index_all. rewrite nth_error_map.
  pose proof (index_offsets_sums (map (fun x => N.of_nat (capture_count x)) l) offset i (N.of_nat (capture_count x))) as E.
  rewrite nth_error_map, H in E. specialize (E eq_refl).
  assert (C : forall (a : list N) (b : list node) i u v, nth_error a i = Some u -> nth_error b i = Some v ->
    nth_error (combine a b) i = Some (u, v)).
  { induction a as [|p a IH]; intros [|q b] [|k] u v U V; try discriminate; cbn in *.
    - congruence.
    - now apply IH. }
  now rewrite (C _ _ _ _ _ E H).
Qed.

(** ** Functions over the groups *)

Theorem transform_tuple_maps {A} (f : A -> value) l :
  length l <> 1 \/ (forall x, match f x with V_other _ => True | _ => False end) ->
  transform_tuple f l = map f l.
Proof.
  unfold transform_tuple, deduced_tuple. intros [H|H].
  - destruct l as [|a [|b l]]; cbn in *; [reflexivity|lia|]. now destruct (f a).
  - destruct l as [|a [|b l]]; cbn; [reflexivity| |]; pose proof (H a); now destruct (f a).
Qed.

(** ** The range objects *)

Definition never (k : nat) (r : match_res) : bool := false.
Definition at_element (k i : nat) (r : match_res) : bool := Nat.eqb i k.

Section Loops.
  Variable mt : method.
  Variable cf : config.
  Variable n : node.
  Variable s : list ascii.

  Lemma never_at F : forall k a, range_for mt cf n s F never k a = range_for mt cf n s F never 0 a.
  Proof.
    induction F as [|F IH]; intros k a; [reflexivity|]. cbn [range_for never].
    destruct (negb (adapter_active a)); [reflexivity|].
    destruct (compute_next mt cf n s a) as [a'| | |]; try reflexivity.
    now rewrite (IH (S k)), (IH 1).
  Qed.

  Lemma loop_whole : forall f g l, range_elements f mt cf n s g = Returned l ->
    exists a, construct mt cf n s g = Returned a /\ forall F, length l < F ->
      exists a', range_for mt cf n s F never 0 a = Returned (l, a') /\ adapter_active a' = false.
  Proof.
    induction f as [|f IH]; intros g l H; [discriminate|]. cbn [range_elements] in H. unfold construct.
    destruct (next mt cf n s g) as [[r g']| | |] eqn:E; try discriminate.
    eexists. split; [reflexivity|]. intros F HF.
    destruct F as [|F]; [lia|]. cbn [range_for never]. unfold adapter_active. cbn [current_result].
    destruct (matched r) eqn:M; cbn [negb].
    - destruct (range_elements f mt cf n s g') as [l'| | |] eqn:R; try discriminate. injection H as <-.
      destruct (IH _ _ R) as (a & Ha & Hl). cbn [length] in HF.
      destruct (Hl F ltac:(lia)) as (a' & E1 & E2).
      change (compute_next mt cf n s (mk_adapter g' r)) with (construct mt cf n s g'). rewrite Ha, never_at, E1. eauto.
    - injection H as <-. eauto.
  Qed.

  Lemma loop_broken : forall f g l, range_elements f mt cf n s g = Returned l ->
    exists a, construct mt cf n s g = Returned a /\ forall F k i, length l < F ->
      exists a', range_for mt cf n s F (at_element (i + k)) i a = Returned (firstn (S k) l, a')
        /\ forall F', length l < F' -> exists a'',
           range_for mt cf n s F' never 0 a' = Returned (skipn k l, a'').
  Proof.
    induction f as [|f IH]; intros g l H; [discriminate|].
    destruct (loop_whole _ _ _ H) as (a & Ha & Hw). exists a. split; [exact Ha|].
    intros F k i HF. cbn [range_elements] in H. unfold construct in Ha.
    destruct (next mt cf n s g) as [[r g']| | |] eqn:E; try discriminate. injection Ha as <-.
    destruct F as [|F]; [lia|]. cbn [range_for]. unfold adapter_active at 1. cbn [current_result].
    destruct (matched r) eqn:M; cbn [negb].
    - destruct (range_elements f mt cf n s g') as [l'| | |] eqn:R; try discriminate. injection H as <-.
      destruct (IH _ _ R) as (a & Ha & Hl). cbn [length] in HF. unfold at_element at 1.
      destruct (Nat.eqb_spec i (i + k)) as [Hk|Hk].
      + assert (k = 0) by lia. subst k. eexists. split; [reflexivity|]. intros F' HF'. cbn [skipn].
        destruct (Hw F' HF') as (a' & E1 & _). eauto.
      + destruct k as [|k]; [lia|].
        change (compute_next mt cf n s (mk_adapter g' r)) with (construct mt cf n s g'). rewrite Ha.
        destruct (Hl F k (S i) ltac:(lia)) as (a' & E1 & E2).
        replace (i + S k) with (S i + k) by lia. rewrite E1. eexists. split; [reflexivity|].
        intros F' HF'. cbn [skipn]. apply E2. cbn [length] in HF'. lia.
    - injection H as <-. eexists. split; [reflexivity|]. intros F' HF'. destruct F' as [|F']; [cbn in HF'; lia|].
      cbn [range_for]. unfold adapter_active. cbn [current_result]. rewrite M. cbn [negb].
      replace (skipn k (@nil match_res)) with (@nil match_res) by now destruct k. eauto.
  Qed.
End Loops.

(** The range object of a call. *)
Definition range_object (mt : method) (r : regex) (ct : category) (s : list ascii) : call adapter :=
  let cf := config_of (flags r) ct in
  if compilable cf (ast r) then construct mt cf (ast r) s new_generator else DoesNotCompile.

(** A loop over it that leaves behind the element with the given index. *)
Definition loop_over (mt : method) (r : regex) (ct : category) (s : list ascii) (stop : nat -> match_res -> bool)
  (a : adapter) : call (list match_res * adapter) :=
  range_for mt (config_of (flags r) ct) (ast r) s (S (S (length s))) stop 0 a.

Lemma range_elements_short mt cf n s : forall f g l, range_elements f mt cf n s g = Returned l -> length l < f.
Proof.
  induction f as [|f IH]; intros g l H; [discriminate|]. cbn [range_elements] in H.
  destruct (next mt cf n s g) as [[r g']| | |]; try discriminate. destruct (matched r); [|injection H as <-; cbn; lia].
  destruct (range_elements f mt cf n s g') as [l'| | |] eqn:E; try discriminate. injection H as <-.
  apply IH in E. cbn. lia.
Qed.

Theorem range_object_loops mt r ct s l : range_of mt r ct s = Returned l ->
  exists a, range_object mt r ct s = Returned a
    /\ (exists a', loop_over mt r ct s never a = Returned (l, a')
          /\ exists a'', loop_over mt r ct s never a' = Returned ([], a''))
    /\ forall k, exists a', loop_over mt r ct s (at_element k) a = Returned (firstn (S k) l, a')
          /\ exists a'', loop_over mt r ct s never a' = Returned (skipn k l, a'').
Proof.
  unfold range_of, range_object, loop_over. intros H. destruct (compilable _ _); [|discriminate].
  pose proof (range_elements_short _ _ _ _ _ _ _ H) as Hs.
  destruct (loop_whole _ _ _ _ _ _ _ H) as (a & Ha & Hw).
  destruct (loop_broken _ _ _ _ _ _ _ H) as (a2 & Ha2 & Hb). rewrite Ha in Ha2. injection Ha2 as <-.
  exists a. split; [exact Ha|]. split.
  - destruct (Hw _ Hs) as (a' & E1 & E2). exists a'. split; [exact E1|]. exists a'. cbn [range_for]. now rewrite E2.
  - intros k. destruct (Hb _ k 0 Hs) as (a' & E1 & E2). exists a'. split; [exact E1|]. apply E2. exact Hs.
Qed.

(** Only the last element can be empty. *)
Theorem range_last_empty r ct s : usable r ct ->
  let last_only l := forall i x, nth_error l i = Some x -> result_length x = 0 -> S i = length l in
  returns (tokenize r ct s) last_only /\ returns (find_all r ct s) last_only.
Proof.
  intros Hu last_only.
  assert (G : forall (gen : regex -> category -> list ascii -> nat -> call (list match_res)) l x,
    Forall (fun x => matched x = true) l ->
    (forall k, returns (gen r ct s k) (fun l => forall i j a b, nth_error l i = Some a -> nth_error l j = Some b -> i < j ->
       matched a = false \/ result_length a = 0 -> matched b = false /\ Forall (eq None) (groups b))) ->
    gen r ct s (S (length l)) = Returned (l ++ [x]) -> last_only l).
  { intros gen l x Hl Hg E i y Hi H0. destruct (Hg (S (length l))) as (l' & E' & H'). rewrite E in E'. injection E' as <-.
    assert (Hlt : i < length l) by (apply nth_error_Some; congruence).
    destruct (Nat.eq_dec (S i) (length l)) as [|Hne]; [assumption|exfalso].
    destruct (nth_error l (S i)) as [z|] eqn:Ez; [|apply nth_error_None in Ez; lia].
    destruct (H' i (S i) y z) as [Hm _]; try lia; auto; try (now rewrite nth_error_app1 by lia).
    rewrite Forall_forall in Hl. apply nth_error_In in Ez. rewrite (Hl _ Ez) in Hm. discriminate. }
  destruct (range_cuts_generator r ct s) as [C1 C2].
  destruct (calls_return r ct s Hu) as (_ & _ & _ & (l1 & E1 & _) & (l2 & E2 & _) & _).
  split.
  - exists l1. split; [exact E1|]. destruct (C1 _ E1) as (Hl & x & _ & Ex). apply (G tokenizer l1 x Hl); [|exact Ex].
    intros k. exact (proj1 (exhausted_stays r ct s k Hu)).
  - exists l2. split; [exact E2|]. destruct (C2 _ E2) as (Hl & x & _ & Ex). apply (G searcher l2 x Hl); [|exact Ex].
    intros k. exact (proj2 (exhausted_stays r ct s k Hu)).
Qed.

(** ** Lifetime *)

Definition method_of (t : text_call) : option method :=
  match t with
  | T_match => Some match_method
  | T_match_prefix => Some match_prefix_method
  | T_search => Some search_method
  | _ => None
  end.

(** Everything that can be read of a result while the text is there can be read
    later, and is the same. *)
Definition outlives (t : text_call) (rvalue : bool) (a : argument) (s : list ascii) (r : match_res) : Prop :=
  let h := result_of (overload_of t rvalue a) s r in
  forall i, read_group (negb (text_expires rvalue a)) s h i = option_map (fun v => Returned (cell_content s v)) (group r i).

Theorem results_outlive t rvalue a s r :
  has_expiring t = true -> (forall trivial, a = A_object trivial true -> trivial = false) ->
  outlives t rvalue a s r.
Proof.
  intros Ht Ha i. unfold result_of, overload_of. rewrite Ht.
  assert (V : text_expires rvalue a = false -> read_group (negb (text_expires rvalue a)) s (Views r) i
    = option_map (fun v => Returned (cell_content s v)) (group r i)).
  { intros ->. cbn. now destruct (group r i). }
  destruct a as [| | |trivial owns].
  1-3: destruct rvalue; cbn in V |- *; now apply V.
  destruct rvalue, trivial, owns; cbn in V |- *; try (now apply V); try (now discriminate (Ha _ eq_refl)).
  all: rewrite nth_error_map; unfold group; now destruct (nth_error (groups r) i).
Qed.

Theorem call_results_outlive t mt rvalue a r ct s res :
  method_of t = Some mt -> invoke mt r ct s = Returned res ->
  (forall trivial, a = A_object trivial true -> rvalue = true -> trivial = false) ->
  outlives t rvalue a s res.
Proof.
  intros Hm _ Ha. destruct rvalue.
  - apply results_outlive; [now destruct t|]. intros trivial E. now apply (Ha trivial).
  - intros i. unfold overload_of, is_expiring_memory_owner. cbn [andb]. rewrite andb_false_r.
    destruct a; cbn; now destruct (group res i).
Qed.

Theorem results_outlive_exactly t mt rvalue a r ct s res :
  method_of t = Some mt -> invoke mt r ct s = Returned res ->
  (outlives t rvalue a s res
   <-> ~ (rvalue = true /\ a = A_object true true
          /\ exists i v, group res i = Some v /\ cell_is_empty v = false)).
Proof.
  intros Hm E. split.
  - intros H (-> & -> & i & v & Hg & Hv). specialize (H i).
    assert (O : overload_of t true (A_object true true) = By_reference) by now destruct t.
    rewrite O in H. cbn in H. rewrite Hg, Hv in H. discriminate H.
  - intros H.
    destruct rvalue; [|apply (call_results_outlive t mt false a r ct s res Hm E); discriminate].
    destruct a as [| | |[|] [|]];
      try (apply (call_results_outlive t mt true _ r ct s res Hm E); intros ? Q _; injection Q; congruence);
      try (apply (call_results_outlive t mt true _ r ct s res Hm E); discriminate).
    intros i. assert (O : overload_of t true (A_object true true) = By_reference) by now destruct t.
    rewrite O. cbn. destruct (group res i) as [v|] eqn:Hg; [|reflexivity].
    destruct (cell_is_empty v) eqn:Hv; [reflexivity|].
    exfalso. apply H. repeat split. exists i, v. auto.
Qed.

Theorem transform_groups_each mt r ct s res (f : cell -> value) :
  invoke mt r ct s = Returned res ->
  group_count res <> 1 \/ (forall x, match f x with V_other _ => True | _ => False end) ->
  forall i, nth_error (transform_tuple f (groups res)) i = option_map f (group res i).
Proof. intros _ H i. rewrite transform_tuple_maps by exact H. unfold group. apply nth_error_map. Qed.

(** No tuple is its own only element. *)
Fixpoint value_size (v : value) : nat :=
  match v with
  | V_other _ => 0
  | V_pair a b => S (value_size a + value_size b)
  | V_tuple l => S ((fix sum (l : list value) : nat :=
      match l with [] => 0 | x :: r => value_size x + sum r end) l)
  end.

Lemma tuple_not_element v : v <> V_tuple [v].
Proof. intros E. apply (f_equal value_size) in E. cbn in E. lia. Qed.

Theorem transform_groups_exact res (f : cell -> value) :
  (forall i, nth_error (transform_tuple f (groups res)) i = option_map f (group res i))
  <-> ~ (group_count res = 1 /\ exists v, group res 0 = Some v
         /\ ((exists l, f v = V_tuple l) \/ exists a b, f v = V_pair a b)).
Proof.
  unfold group, group_count, transform_tuple. destruct (groups res) as [|v [|w l]].
  - split; [intros _ [E _]; discriminate|]. intros _ [|i]; reflexivity.
  - cbn [map deduced_tuple]. split.
    + intros H (_ & v' & E & Hv). injection E as <-. destruct Hv as [[l E]|(a & b & E)]; rewrite E in H.
      * pose proof (H 0) as H0. pose proof (H 1) as H1. cbn in H0, H1. rewrite E in H0.
        destruct l as [|x [|y l]]; try discriminate. injection H0 as H0. exact (tuple_not_element _ H0).
      * pose proof (H 1) as H1. discriminate H1.
    + intros H. destruct (f v) as [k|a b|t] eqn:E.
      * intros [|[|i]]; cbn; congruence.
      * exfalso. apply H. split; auto. exists v. split; auto. right. eauto.
      * exfalso. apply H. split; auto. exists v. split; auto. left. eauto.
  - split; [intros _ [E _]; discriminate|]. intros _ i. cbn [map deduced_tuple].
    change (f v :: f w :: map f l) with (map f (v :: w :: l)).
    destruct (f v); apply nth_error_map.
Qed.

Theorem for_each_group_visits (S : Type) (f : cell -> S -> S) res st :
  iterate_tuple (fun v log => log ++ [v]) (groups res) [] = groups res
  /\ iterate_tuple f (groups res) st
     = fold_left (fun st i => match group res i with Some v => f v st | None => st end)
         (seq 0 (group_count res)) st.
Proof.
  unfold iterate_tuple, group, group_count. generalize (groups res) as l. intros l. split.
  - assert (H : forall acc, fold_left (fun s x => s ++ [x]) l acc = acc ++ l); [|now rewrite H].
    induction l as [|x r IH]; intros acc; cbn [fold_left]; [symmetry; apply app_nil_r|].
    rewrite IH, <- app_assoc. reflexivity.
  - revert st. induction l as [|x r IH]; intros st; cbn [fold_left length seq nth_error]; [reflexivity|].
    rewrite IH, <- seq_shift. symmetry.
    generalize (f x st). generalize (seq 0 (length r)). intros q. clear. induction q as [|i q IH]; intros s; [reflexivity|].
    cbn [map fold_left nth_error]. apply IH.
Qed.

Theorem finished_generator mt cf n s g x g' :
  next mt cf n s g = Returned (x, g') ->
  matched x = false \/ cell_is_empty (group0 (groups x)) = true ->
  exists y, generator_next false mt cf n s g' = Returned (y, g') /\ matched y = false.
Proof.
  intros H Hx. exists (mk_res (initial_captures n) false). split; [|reflexivity].
  assert (Ha : active g' = false).
  { unfold next in H. destruct (active g) eqn:Eg.
    - destruct (mt cf n s (current g) (initial_captures n)) as [c e b| | |]; try discriminate.
      injection H as <- <-. cbn [matched groups active] in *. destruct Hx as [-> | ->]; [reflexivity|apply andb_false_r].
    - injection H as _ <-. exact Eg. }
  unfold generator_next, next. now rewrite Ha.
Qed.
