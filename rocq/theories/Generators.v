(** Sequences of results: C36-C39. *)
From Verif Require Import Basics Safe Calls Lift Matching Spec Paths.
From Verif Require Export Api.

Lemma skipn_add {A} (l : list A) : forall a b, skipn b (skipn a l) = skipn (a + b) l.
Proof.
  induction l as [|x l IH]; intros [|a] b; cbn; auto. apply skipn_nil.
Qed.

Lemma firstn_add {A} (l : list A) : forall a b, firstn (a + b) l = firstn a l ++ firstn b (skipn a l).
Proof.
  induction l as [|x l IH]; intros [|a] b; cbn; auto.
  - now rewrite firstn_nil.
  - now rewrite IH.
Qed.

Section History.
  Variable n : node.
  Variable s : list ascii.
  (** [S p b e]: from offset [p] the next match is [b, e); [N p]: there is none. *)
  Variable step : nat -> nat -> nat -> Prop.
  Variable none : nat -> Prop.

  (** The result of an exhausted generator. *)
  Definition dead (r : match_res) : Prop := r = mk_res (initial_captures n) false.

  (** A sequence of results obtained from offset [p] on. *)
  Inductive history : nat -> list match_res -> Prop :=
  | h_nil p : history p []
  | h_fail p r l : matched r = false -> none p -> Forall dead l -> history p (r :: l)
  | h_empty p r b l : matched r = true -> group0 (groups r) = Some (b, b) ->
      p <= b <= length s -> step p b b -> Forall dead l -> history p (r :: l)
  | h_more p r b e l : matched r = true -> group0 (groups r) = Some (b, e) ->
      p <= b -> b < e <= length s -> step p b e -> history e l -> history p (r :: l).

  Variable cf : config.
  Variable mt : method.
  Hypothesis Hstep : forall p, p <= length s ->
    exists c e b, mt cf n s p (initial_captures n) = Res c e b /\ p <= e <= length s
      /\ (b = true -> exists i, p <= i <= e /\ step p i e /\ group0 c = Some (i, e))
      /\ (b = false -> none p).

  Lemma generate_dead : forall k p, exists l,
    generate mt cf n s k (mk_gen p false) = Returned l /\ length l = k /\ Forall dead l.
  Proof.
    induction k as [|k IH]; intros p; cbn; [eauto|].
    destruct (IH p) as (l & -> & Hl & HF). eexists. split; [reflexivity|]. cbn.
    split; [congruence|]. constructor; [reflexivity|auto].
  Qed.

  Lemma generate_history : forall k p, p <= length s -> exists l,
    generate mt cf n s k (mk_gen p true) = Returned l /\ length l = k /\ history p l.
  Proof.
    induction k as [|k IH]; intros p Hp; cbn [generate].
    { eexists. split; [reflexivity|]. split; [reflexivity|constructor]. }
    unfold next. cbn [active current].
    destruct (Hstep p Hp) as (c & e & b & -> & He & Ht & Hf). cbn [to_call].
    destruct b.
    - destruct (Ht eq_refl) as (i & Hi & Hs & E). rewrite E. cbn [cell_is_empty].
      destruct (Nat.eqb_spec i e) as [->|Hne]; cbn [andb negb].
      + destruct (generate_dead k e) as (l & -> & Hl & HF). eexists.
        split; [reflexivity|]. cbn. split; [congruence|]. eapply h_empty; cbn; eauto; lia.
      + destruct (IH e (proj2 He)) as (l & -> & Hl & HF). eexists.
        split; [reflexivity|]. cbn. split; [congruence|]. eapply h_more; cbn; eauto; lia.
    - cbn [andb]. destruct (generate_dead k e) as (l & -> & Hl & HF). eexists.
      split; [reflexivity|]. cbn. split; [congruence|]. apply h_fail; cbn; auto.
  Qed.

  (** Consequences that do not depend on the method. *)

  Definition over (r : match_res) : Prop :=
    matched r = false \/ result_length r = 0.

  Lemma dead_over r : dead r -> over r.
  Proof. intros ->. left. reflexivity. Qed.

  Lemma group0_length r b e : group0 (groups r) = Some (b, e) -> result_length r = e - b.
  Proof. intros E. unfold result_length. now rewrite E. Qed.

  Lemma dead_rest l j r : Forall dead l -> nth_error l j = Some r -> dead r.
  Proof. intros H E. eapply Forall_forall; eauto. eapply nth_error_In; eauto. Qed.

  Lemma history_exhausted p l : history p l -> forall i j a b,
    nth_error l i = Some a -> over a -> i < j -> nth_error l j = Some b -> dead b.
  Proof.
    induction 1 as [|p r l M N D|p r b l M E Hb Hs D|p r b e l M E Hp Hb Hs H IH]; intros i j x y E1 Ho Hij E2.
    - now destruct i.
    - destruct j; [lia|]. eapply dead_rest; eauto.
    - destruct j; [lia|]. eapply dead_rest; eauto.
    - destruct j as [|j]; [lia|]. destruct i as [|i].
      + injection E1 as <-. destruct Ho as [Ho|Ho]; [congruence|].
        rewrite (group0_length _ _ _ E) in Ho. lia.
      + exact (IH i j x y E1 Ho ltac:(lia) E2).
  Qed.

  Lemma history_start p l : history p l -> forall i r, nth_error l i = Some r -> matched r = true ->
    exists b e, group0 (groups r) = Some (b, e) /\ p <= b <= e /\ e <= length s.
  Proof.
    induction 1 as [|p r l M N D|p r b l M E Hb Hs D|p r b e l M E Hp Hb Hs H IH]; intros i x E1 Mx.
    - now destruct i.
    - destruct i as [|i]; [injection E1 as <-; congruence|].
      apply (dead_rest _ _ _ D) in E1. rewrite E1 in Mx. discriminate.
    - destruct i as [|i].
      + injection E1 as <-. exists b, b. repeat split; auto; lia.
      + apply (dead_rest _ _ _ D) in E1. rewrite E1 in Mx. discriminate.
    - destruct i as [|i].
      + injection E1 as <-. exists b, e. repeat split; auto; lia.
      + destruct (IH i x E1 Mx) as (b' & e' & ? & ? & ?). exists b', e'. repeat split; auto; lia.
  Qed.

  (** Every matched result comes from a step. *)
  Lemma history_steps p l : history p l -> forall i r, nth_error l i = Some r -> matched r = true ->
    exists q b e, step q b e /\ group0 (groups r) = Some (b, e).
  Proof.
    induction 1 as [|p r l M N D|p r b l M E Hb Hs D|p r b e l M E Hp Hb Hs H IH]; intros i x E1 Mx.
    - now destruct i.
    - destruct i as [|i]; [injection E1 as <-; congruence|].
      apply (dead_rest _ _ _ D) in E1. rewrite E1 in Mx. discriminate.
    - destruct i as [|i].
      + injection E1 as <-. eauto.
      + apply (dead_rest _ _ _ D) in E1. rewrite E1 in Mx. discriminate.
    - destruct i as [|i]; [injection E1 as <-; eauto|eauto].
  Qed.

  (** Of two matched results the later starts at or after the end of the
      earlier, which is not empty. *)
  Lemma history_ordered p l : history p l -> forall i j a b,
    nth_error l i = Some a -> nth_error l j = Some b -> i < j -> matched b = true ->
    matched a = true /\ exists x y z t, group0 (groups a) = Some (x, y)
      /\ group0 (groups b) = Some (z, t) /\ x < y <= z /\ z <= t <= length s.
  Proof.
    induction 1 as [|p r l M N D|p r b l M E Hb Hs D|p r b e l M E Hp Hb Hs H IH]; intros i j x y E1 E2 Hij My.
    - now destruct i.
    - destruct j; [lia|]. apply (dead_rest _ _ _ D) in E2. rewrite E2 in My. discriminate.
    - destruct j; [lia|]. apply (dead_rest _ _ _ D) in E2. rewrite E2 in My. discriminate.
    - destruct j as [|j]; [lia|]. cbn in E2. destruct i as [|i].
      + injection E1 as <-. split; [auto|].
        destruct (history_start _ _ H j y E2 My) as (z & t & ? & ? & ?).
        exists b, e, z, t. repeat split; auto; lia.
      + exact (IH i j x y E1 E2 ltac:(lia) My).
  Qed.

  Lemma dead_unmatched l : Forall dead l -> filter matched l = [].
  Proof. induction 1 as [|r l -> _ IH]; auto. Qed.

  Lemma history_count p l : history p l -> p <= length s ->
    length (filter matched l) <= S (length s - p).
  Proof.
    induction 1 as [|p r l M N D|p r b l M E Hb Hs D|p r b e l M E Hp Hb Hs H IH]; intros Hp'; cbn [filter].
    - cbn. lia.
    - rewrite M, (dead_unmatched l) by auto. cbn. lia.
    - rewrite M, (dead_unmatched l) by auto. cbn. lia.
    - rewrite M. cbn [length]. specialize (IH ltac:(lia)). lia.
  Qed.

  (** When each step starts at the offset itself the results are adjacent. *)
  Lemma history_adjacent p l : (forall q b e, step q b e -> b = q) -> history p l ->
    (forall r, nth_error l 0 = Some r -> matched r = true -> exists e, group0 (groups r) = Some (p, e))
    /\ forall i a b, nth_error l i = Some a -> nth_error l (S i) = Some b -> matched b = true ->
         exists x y z, group0 (groups a) = Some (x, y) /\ group0 (groups b) = Some (y, z).
  Proof.
    intros Hq. induction 1 as [|p r l M N D|p r b l M E Hb Hs D|p r b e l M E Hp Hb Hs H IH].
    - split; [discriminate|]. intros i a b0 E. now destruct i.
    - split.
      + intros x [= <-]. congruence.
      + intros i x y E1 E2 My. apply (dead_rest _ _ _ D) in E2. rewrite E2 in My. discriminate.
    - split.
      + intros x [= <-] _. apply Hq in Hs. subst. eauto.
      + intros i x y E1 E2 My. apply (dead_rest _ _ _ D) in E2. rewrite E2 in My. discriminate.
    - apply Hq in Hs. subst b. split.
      + intros x [= <-] _. eauto.
      + intros [|i] x y E1 E2 My.
        * injection E1 as <-. destruct (proj1 IH y E2 My) as (e' & Ey). eauto.
        * exact (proj2 IH i x y E1 E2 My).
  Qed.

  (** ... and spell a part of the text. *)
  Lemma cell_content_range b e : cell_content s (Some (b, e)) = firstn (e - b) (skipn b s).
  Proof. reflexivity. Qed.

  Lemma history_spells p l : (forall q b e, step q b e -> b = q) -> history p l ->
    p <= length s ->
    exists e, p <= e <= length s
      /\ concat (map (fun r => cell_content s (group0 (groups r))) (filter matched l))
         = firstn (e - p) (skipn p s).
  Proof.
    intros Hq. induction 1 as [|p r l M N D|p r b l M E Hb Hs D|p r b e l M E Hp Hb Hs H IH];
      intros Hp'; cbn [filter].
    - exists p. rewrite Nat.sub_diag. split; [lia|reflexivity].
    - rewrite M, (dead_unmatched l) by auto. exists p. rewrite Nat.sub_diag. split; [lia|reflexivity].
    - rewrite M, (dead_unmatched l) by auto. apply Hq in Hs. subst b. exists p. split; [lia|].
      cbn [map concat]. rewrite E, app_nil_r. reflexivity.
    - rewrite M. apply Hq in Hs. subst b. destruct (IH ltac:(lia)) as (f & Hf & Ef).
      exists f. split; [lia|]. cbn [map concat]. rewrite E, Ef, cell_content_range.
      replace (f - p) with ((e - p) + (f - e)) by lia.
      rewrite firstn_add, skipn_add. do 3 f_equal. lia.
  Qed.

  (** If no step is empty, nothing is left out: where the sequence stops there
      is no further match, and from each result to the next the text has none. *)
  Lemma history_complete p l : (forall q b, ~ step q b b) -> history p l ->
    (exists i r, nth_error l i = Some r /\ matched r = false) ->
    exists bounds, Forall2 (fun r be => matched r = true /\ group0 (groups r) = Some be)
                     (filter matched l) bounds
      /\ (fix chain q bounds := match bounds with
          | [] => none q
          | (b, e) :: rest => step q b e /\ chain e rest
          end) p bounds.
  Proof.
    intros Hne. induction 1 as [|p r l M N D|p r b l M E Hb Hs D|p r b e l M E Hp Hb Hs H IH];
      intros (i & x & Ei & Mx); cbn [filter].
    - now destruct i.
    - rewrite M, (dead_unmatched l) by auto. exists []. auto.
    - now apply Hne in Hs.
    - rewrite M. destruct IH as (bs & HF & Hc).
      + destruct i as [|i]; [injection Ei as <-; congruence|]. exists i, x. auto.
      + exists ((b, e) :: bs). auto.
  Qed.
End History.

(** ** The two methods *)

Section Steps.
  Variable cf : config.
  Variable n : node.
  Variable s : list ascii.
  Hypothesis Hr : runs cf n.

  Lemma prefix_step p : p <= length s ->
    exists c e b, match_prefix_method cf n s p (initial_captures n) = Res c e b /\ p <= e <= length s
      /\ (b = true -> exists i, p <= i <= e /\ i = p /\ group0 c = Some (i, e))
      /\ (b = false -> True).
  Proof.
    intros Hp. pose proof (match_prefix_method_ok cf n s Hr p _ Hp (good_initial n s)) as H.
    destruct (match_prefix_method _ _ _ _ _) as [c e b| | |]; try contradiction. cbn in H.
    exists c, e, b. repeat split; try lia; try apply H. intros _. exists p. repeat split; try lia; apply H.
  Qed.

  Lemma search_step p : p <= length s ->
    exists c e b, search_method cf n s p (initial_captures n) = Res c e b /\ p <= e <= length s
      /\ (b = true -> exists i, p <= i <= e /\ p <= i /\ group0 c = Some (i, e))
      /\ (b = false -> True).
  Proof.
    intros Hp. pose proof (search_method_ok cf n s Hr p _ Hp (good_initial n s)) as H.
    destruct (search_method _ _ _ _ _) as [c e b| | |]; try contradiction. cbn in H.
    exists c, e, b. repeat split; try lia; try apply H. intros Hb.
    destruct H as (_ & _ & _ & _ & H). destruct (H Hb) as (i & ? & ? & ?). exists i. repeat split; auto.
  Qed.

  Hypothesis Hreg : regular n = true.

  Lemma prefix_step_paths p : p <= length s ->
    exists c e b, match_prefix_method cf n s p (initial_captures n) = Res c e b /\ p <= e <= length s
      /\ (b = true -> exists i, p <= i <= e /\ (i = p /\ preferred cf s n p = Some e) /\ group0 c = Some (i, e))
      /\ (b = false -> preferred cf s n p = None).
  Proof.
    intros Hp. destruct (prefix_step p Hp) as (c & e & b & E & He & Ht & _).
    pose proof (match_prefix_method_paths cf n s Hr Hreg p _ Hp (initial_length n)) as H.
    rewrite E in H. cbn in H. destruct H as (_ & _ & H). exists c, e, b. repeat split; auto; try lia.
    - intros ->. destruct (Ht eq_refl) as (i & ? & -> & ?). exists p. auto.
    - intros ->. auto.
  Qed.

  Lemma search_step_paths p : p <= length s ->
    exists c e b, search_method cf n s p (initial_captures n) = Res c e b /\ p <= e <= length s
      /\ (b = true -> exists i, p <= i <= e /\ leftmost cf n s p i e /\ group0 c = Some (i, e))
      /\ (b = false -> forall i, p <= i <= length s -> preferred cf s n i = None).
  Proof.
    intros Hp. destruct (search_step p Hp) as (c & e & b & E & He & Ht & _).
    pose proof (search_method_paths cf n s Hr Hreg p _ Hp (initial_length n)) as H.
    rewrite E in H. cbn in H. destruct H as (_ & H1 & H2). exists c, e, b. repeat split; auto; try lia.
    intros ->. destruct (Ht eq_refl) as (i & ? & ? & E0). destruct (H1 eq_refl) as (i' & ? & E0').
    exists i. replace i' with i in * by congruence. auto.
  Qed.
End Steps.

(** ** Ranges are generators cut at the first non-match *)

Lemma range_generate mt cf n s : forall fuel g l,
  range_elements fuel mt cf n s g = Returned l ->
  Forall (fun r => matched r = true) l
  /\ exists x, matched x = false /\ generate mt cf n s (S (length l)) g = Returned (l ++ [x]).
Proof.
  induction fuel as [|fuel IH]; intros g l E; cbn [range_elements] in E; [discriminate|].
  destruct (next mt cf n s g) as [[r g']| | |] eqn:En; try discriminate.
  destruct (matched r) eqn:M.
  - destruct (range_elements fuel mt cf n s g') as [l'| | |] eqn:El; try discriminate.
    injection E as <-. destruct (IH _ _ El) as (HF & x & Mx & Ex). split; [constructor; auto|].
    exists x. split; [auto|]. cbn [length app]. cbn [generate] in Ex |- *. rewrite En.
    now rewrite Ex.
  - injection E as <-. split; [constructor|]. exists r. split; [auto|]. cbn. now rewrite En.
Qed.

(** ** Theorems *)

Theorem range_cuts_generator r ct s :
  (forall l, tokenize r ct s = Returned l ->
     Forall (fun x => matched x = true) l
     /\ exists x, matched x = false /\ tokenizer r ct s (S (length l)) = Returned (l ++ [x]))
  /\ (forall l, find_all r ct s = Returned l ->
     Forall (fun x => matched x = true) l
     /\ exists x, matched x = false /\ searcher r ct s (S (length l)) = Returned (l ++ [x])).
Proof.
  unfold tokenize, find_all, tokenizer, searcher, range_of, generator_results.
  destruct (compilable _ _); [|split; discriminate].
  split; intros l; apply range_generate.
Qed.

Lemma tokenizer_history r ct s k : usable r ct -> exists l, tokenizer r ct s k = Returned l
  /\ length l = k /\ history (ast r) s (fun p b e => b = p) (fun _ => True) 0 l.
Proof.
  intros Hu. unfold tokenizer, generator_results. rewrite (proj1 Hu).
  apply generate_history; [|lia]. intros p Hp. now apply prefix_step.
Qed.

Lemma searcher_history r ct s k : usable r ct -> exists l, searcher r ct s k = Returned l
  /\ length l = k /\ history (ast r) s (fun p b e => p <= b) (fun _ => True) 0 l.
Proof.
  intros Hu. unfold searcher, generator_results. rewrite (proj1 Hu).
  apply generate_history; [|lia]. intros p Hp. now apply search_step.
Qed.

Lemma tokenizer_paths r ct s k : usable r ct -> regular (ast r) = true ->
  exists l, tokenizer r ct s k = Returned l /\ length l = k
  /\ history (ast r) s (fun p b e => b = p /\ preferred (config_of (flags r) ct) s (ast r) p = Some e)
       (fun p => preferred (config_of (flags r) ct) s (ast r) p = None) 0 l.
Proof.
  intros Hu Hreg. unfold tokenizer, generator_results. rewrite (proj1 Hu).
  apply generate_history; [|lia]. intros p Hp. now apply prefix_step_paths.
Qed.

Lemma searcher_paths r ct s k : usable r ct -> regular (ast r) = true ->
  exists l, searcher r ct s k = Returned l /\ length l = k
  /\ history (ast r) s (leftmost (config_of (flags r) ct) (ast r) s)
       (fun p => forall i, p <= i <= length s -> preferred (config_of (flags r) ct) s (ast r) i = None)
       0 l.
Proof.
  intros Hu Hreg. unfold searcher, generator_results. rewrite (proj1 Hu).
  apply generate_history; [|lia]. intros p Hp. now apply search_step_paths.
Qed.

(** C36. *)
Theorem tokens_contiguous r ct s k : usable r ct ->
  returns (tokenizer r ct s k) (fun l => length l = k
    /\ (forall t, nth_error l 0 = Some t -> matched t = true -> exists e, group0 (groups t) = Some (0, e))
    /\ (forall i t u, nth_error l i = Some t -> nth_error l (S i) = Some u -> matched u = true ->
          exists x y z, group0 (groups t) = Some (x, y) /\ group0 (groups u) = Some (y, z))
    /\ exists e, e <= length s
         /\ concat (map (fun t => cell_content s (group0 (groups t))) (filter matched l)) = firstn e s).
Proof.
  intros Hu. destruct (tokenizer_history r ct s k Hu) as (l & E & Hl & H). exists l.
  split; [exact E|]. split; [exact Hl|].
  assert (Hq : forall q b e : nat, b = q -> b = q) by auto.
  destruct (history_adjacent _ _ _ _ 0 l Hq H) as [H1 H2].
  split; [exact H1|]. split; [exact H2|].
  destruct (history_spells _ _ _ _ 0 l Hq H ltac:(lia)) as (e & He & Ee). rewrite Nat.sub_0_r in Ee.
  exists e. split; [lia|exact Ee].
Qed.

Theorem tokens_preferred r ct s k : usable r ct -> regular (ast r) = true ->
  let cf := config_of (flags r) ct in
  returns (tokenizer r ct s k) (fun l => forall i t, nth_error l i = Some t -> matched t = true ->
    exists b e, group0 (groups t) = Some (b, e) /\ preferred cf s (ast r) b = Some e).
Proof.
  intros Hu Hreg cf. destruct (tokenizer_paths r ct s k Hu Hreg) as (l & E & Hl & H). exists l.
  split; [exact E|]. intros i t Et Mt.
  destruct (history_steps _ _ _ _ _ _ H i t Et Mt) as (q & b & e & (-> & Hp) & Eg). eauto.
Qed.

(** C37. *)
Theorem searcher_ordered r ct s k : usable r ct ->
  returns (searcher r ct s k) (fun l =>
    (forall i j a b, nth_error l i = Some a -> nth_error l j = Some b -> i < j -> matched b = true ->
       matched a = true /\ exists x y z t, group0 (groups a) = Some (x, y)
         /\ group0 (groups b) = Some (z, t) /\ x < y <= z /\ z <= t <= length s)
    /\ length (filter matched l) <= S (length s)).
Proof.
  intros Hu. destruct (searcher_history r ct s k Hu) as (l & E & Hl & H). exists l.
  split; [exact E|]. split; [exact (history_ordered _ _ _ _ _ _ H)|].
  pose proof (history_count _ _ _ _ _ _ H). lia.
Qed.

(** C39. *)
Theorem exhausted_stays r ct s k : usable r ct ->
  let stays l := forall i j a b, nth_error l i = Some a -> nth_error l j = Some b -> i < j ->
    matched a = false \/ result_length a = 0 ->
    matched b = false /\ Forall (eq None) (groups b) in
  returns (tokenizer r ct s k) stays /\ returns (searcher r ct s k) stays.
Proof.
  intros Hu stays. assert (Hd : forall b, dead (ast r) b -> matched b = false /\ Forall (eq None) (groups b)).
  { intros b ->. split; [reflexivity|]. cbn [groups]. unfold initial_captures.
    apply Forall_forall. intros v Hv. apply in_map_iff in Hv as (x & <- & _). reflexivity. }
  split.
  - destruct (tokenizer_history r ct s k Hu) as (l & E & Hl & H). exists l. split; [exact E|].
    intros i j a b Ea Eb Hij Ho. apply Hd. exact (history_exhausted _ _ _ _ _ _ H i j a b Ea Ho Hij Eb).
  - destruct (searcher_history r ct s k Hu) as (l & E & Hl & H). exists l. split; [exact E|].
    intros i j a b Ea Eb Hij Ho. apply Hd. exact (history_exhausted _ _ _ _ _ _ H i j a b Ea Ho Hij Eb).
Qed.

(** C38 where no preferred match is empty. *)
Theorem find_all_complete r ct s : usable r ct -> regular (ast r) = true ->
  let cf := config_of (flags r) ct in
  (forall i, i <= length s -> preferred cf s (ast r) i <> Some i) ->
  returns (find_all r ct s) (fun l =>
    (forall x, In x l -> matched x = true /\ exists b e, group0 (groups x) = Some (b, e)
       /\ b < e /\ preferred cf s (ast r) b = Some e)
    /\ (forall i, i <= length s -> preferred cf s (ast r) i <> None ->
          exists x b e, In x l /\ group0 (groups x) = Some (b, e) /\ b <= i < e)).
Proof.
  intros Hu Hreg cf Hne.
  destruct (calls_return r ct s Hu) as (_ & _ & _ & _ & (l & El & _) & _).
  exists l. split; [exact El|].
  destruct (proj2 (range_cuts_generator r ct s) l El) as (Hm & x & Mx & Eg).
  destruct (searcher_paths r ct s (S (length l)) Hu Hreg) as (l' & El' & _ & H).
  rewrite Eg in El'. injection El' as <-.
  assert (Hs : forall q b, ~ leftmost cf (ast r) s q b b).
  { intros q b (Hb & Hp & _). apply (Hne b); [lia|exact Hp]. }
  assert (Hend : exists i r0, nth_error (l ++ [x]) i = Some r0 /\ matched r0 = false).
  { exists (length l), x. split; [|auto]. rewrite nth_error_app2, Nat.sub_diag by lia. reflexivity. }
  destruct (history_complete _ _ _ _ _ _ Hs H Hend) as (bs & HF & Hc).
  assert (Ef : filter matched (l ++ [x]) = l).
  { rewrite filter_app. cbn. rewrite Mx, app_nil_r. clear -Hm.
    induction Hm as [|y l Hy _ IH]; [reflexivity|]. cbn. now rewrite Hy, IH. }
  rewrite Ef in HF. split.
  - intros y Hy. split.
    + rewrite Forall_forall in Hm. auto.
    + apply In_nth_error in Hy as (i & Ei).
      assert (Ei' : nth_error (l ++ [x]) i = Some y)
        by (rewrite nth_error_app1; auto; apply nth_error_Some; congruence).
      assert (My : matched y = true).
      { rewrite Forall_forall in Hm. apply Hm. eapply nth_error_In; eauto. }
      destruct (history_steps _ _ _ _ _ _ H i y Ei' My) as (q & b & e & Hst & Eg').
      destruct (history_start _ _ _ _ _ _ H i y Ei' My) as (b' & e' & Eg'' & Hbe & _).
      replace b' with b in * by congruence. replace e' with e in * by congruence.
      exists b, e. split; [auto|]. split; [|apply Hst].
      destruct (Nat.eq_dec b e) as [<-|]; [|lia]. now apply Hs in Hst.
  - clear H Hend Eg El Hm Ef.
    assert (G : forall q, q <= length s -> (fix chain q bounds := match bounds with
          | [] => forall i, q <= i <= length s -> preferred cf s (ast r) i = None
          | (b, e) :: rest => leftmost cf (ast r) s q b e /\ chain e rest
          end) q bs -> forall i, q <= i <= length s -> preferred cf s (ast r) i <> None ->
          exists b e, In (b, e) bs /\ b <= i < e).
    { clear -Hne. induction bs as [|[b e] bs IH]; intros q Hq Hc i Hi Hp.
      - exfalso. apply Hp. now apply Hc.
      - destruct Hc as [Hst Hc]. destruct Hst as (Hb & Hpb & Hmin).
        destruct (Nat.lt_ge_cases i b) as [Hlt|Hge].
        + exfalso. apply Hp. apply Hmin. lia.
        + destruct (Nat.lt_ge_cases i e) as [Hlt|Hge'].
          * exists b, e. split; [left; reflexivity|lia].
          * destruct (IH e) with (i := i) as (b' & e' & Hin & Hbe); auto; try lia.
            exists b', e'. split; [right; auto|auto]. }
    intros i Hi Hp. destruct (G 0 ltac:(lia) Hc i ltac:(lia) Hp) as (b & e & Hin & Hbe).
    assert (Hx : exists y, In y l /\ group0 (groups y) = Some (b, e)).
    { clear -HF Hin. induction HF as [|y be l bs [_ Ey] HF IH]; [contradiction|].
      destruct Hin as [->|Hin]; [exists y; split; [left; reflexivity|auto]|].
      destruct (IH Hin) as (y' & ? & ?). exists y'. split; [right; auto|auto]. }
    destruct Hx as (y & Hy & Ey). exists y, b, e. auto.
Qed.
