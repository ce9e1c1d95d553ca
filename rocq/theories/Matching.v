(** Proofs of the properties of matching (Prop_Matching.v). *)
From Verif Require Import Matcher Api Basics Safe Cong Impl Spec Paths Mirror Adequacy Calls Lift.

(** A group cell holds nothing or a range inside the text. *)
Definition valid_range (s : list ascii) (v : cell) : Prop :=
  match v with Some (b, e) => b <= e /\ e <= length s | None => True end.

(** ** C01, C02, C03, C07 *)

Lemma good_groups n s c : good (group_names n) s c -> Forall (valid_range s) c.
Proof. intros [_ H]. exact H. Qed.

Theorem match_language r ct s : usable r ct ->
  regular (ast r) = true -> possessive_free (ast r) = true ->
  returns (regex_match r ct s) (fun res =>
    matched res = true <-> matches (config_of (flags r) ct) s (ast r) 0 (length s)).
Proof.
  intros Hu Hr Hp. apply invoke_returns; [apply Hu|].
  eapply result_ok_weaken; [apply match_method_paths; auto using initial_length; lia|].
  cbn. intros c e b (_ & _ & Hb & _). rewrite Hb. apply in_paths; auto; try lia.
  destruct Hu as [Hc _]. eapply compiles_well_formed; exact Hc.
Qed.

(** The answer of a call that should end at [o] when started at [b]. *)
Definition ends_at (b : nat) (o : option nat) (res : match_res) : Prop :=
  match o with
  | Some e => matched res = true /\ group0 (groups res) = Some (b, e)
  | None => matched res = false
  end.

Theorem match_prefix_priority r ct s : usable r ct -> regular (ast r) = true ->
  returns (regex_match_prefix r ct s)
    (ends_at 0 (preferred (config_of (flags r) ct) s (ast r) 0)).
Proof.
  intros Hu Hr. apply invoke_returns; [apply Hu|].
  eapply result_ok_weaken; [apply match_prefix_method_paths; auto using initial_length; lia|].
  cbn. intros c e b (_ & H0 & Hb). rewrite <- Hb. destruct b; cbn; auto.
Qed.

Theorem search_leftmost r ct s : usable r ct -> regular (ast r) = true ->
  let cf := config_of (flags r) ct in
  returns (regex_search r ct s) (fun res =>
    (matched res = true -> exists i e,
        i <= length s /\ preferred cf s (ast r) i = Some e
        /\ (forall i', i' < i -> preferred cf s (ast r) i' = None)
        /\ group0 (groups res) = Some (i, e))
    /\ (matched res = false -> forall i, i <= length s -> preferred cf s (ast r) i = None)).
Proof.
  intros Hu Hr cf. apply invoke_returns; [apply Hu|].
  eapply result_ok_weaken; [apply search_method_paths; auto using initial_length; lia|].
  cbn. intros c e b (_ & H1 & H2). split.
  - intros Hb. destruct (H1 Hb) as (i & (? & ? & H) & ?). exists i, e. repeat split; auto; try lia.
    intros. apply H. lia.
  - intros Hb i Hi. apply H2; auto. lia.
Qed.

Lemma preferred_in cf s n i e : preferred cf s n i = Some e -> In e (paths cf s n i).
Proof. unfold preferred. destruct (paths cf s n i); cbn; [discriminate|]. intros [= ->]. auto. Qed.

Lemma in_preferred cf s n i e : In e (paths cf s n i) -> preferred cf s n i <> None.
Proof. unfold preferred. now destruct (paths cf s n i). Qed.

Theorem calls_agree r ct s : usable r ct -> regular (ast r) = true ->
  exists a b c,
    regex_match r ct s = Returned a
    /\ regex_match_prefix r ct s = Returned b
    /\ regex_search r ct s = Returned c
    /\ (matched a = true -> group0 (groups a) = Some (0, length s)
          /\ matched b = true /\ matched c = true
          /\ exists e, group0 (groups b) = Some (0, e) /\ group0 (groups c) = Some (0, e))
    /\ (matched b = true -> group0 (groups b) = Some (0, length s) -> matched a = true).
Proof.
  intros Hu Hr. pose proof (proj1 Hu) as Hc. unfold regex_match, regex_match_prefix, regex_search.
  assert (H1 := match_method_paths _ _ s Hu Hr 0 _ (Nat.le_0_l _) (initial_length _)).
  assert (H2 := match_prefix_method_paths _ _ s Hu Hr 0 _ (Nat.le_0_l _) (initial_length _)).
  assert (H3 := search_method_paths _ _ s Hu Hr 0 _ (Nat.le_0_l _) (initial_length _)).
  unfold invoke. rewrite Hc.
  set (cf := config_of (flags r) ct) in *.
  destruct (match_method _ _ _ _ _) as [c1 e1 b1| | |]; try contradiction.
  destruct (match_prefix_method _ _ _ _ _) as [c2 e2 b2| | |]; try contradiction.
  destruct (search_method _ _ _ _ _) as [c3 e3 b3| | |]; try contradiction.
  cbn in *. destruct H1 as (_ & G1 & M1 & E1), H2 as (_ & G2 & M2), H3 as (_ & S1 & S2).
  do 3 eexists. do 3 (split; [reflexivity|]). cbn. split.
  - intros Hb1. pose proof (proj1 M1 Hb1) as Hin. apply in_preferred in Hin as Hp.
    rewrite <- M2 in Hp. destruct b2; [|easy].
    assert (Hb3 : b3 = true).
    { destruct b3; [reflexivity|]. exfalso. apply in_preferred in Hin. apply Hin.
      apply S2; auto. lia. }
    rewrite E1 in G1 by assumption. repeat split; auto. exists e2. split; auto.
    destruct (S1 Hb3) as (i & ((_ & _) & Hpi & Hless) & ->).
    destruct i as [|i]; [congruence|].
    specialize (Hless 0 ltac:(lia)). congruence.
  - intros -> He. rewrite G2 in He. inversion He; subst. apply M1. apply preferred_in. auto.
Qed.

(** ** C04, C05, C06 *)

Definition always_returns (cf : config) (n : node) (s : list ascii) (mt : method) : Prop :=
  forall cur c, cur <= length s -> length c = length (group_names n) ->
    Forall (valid_range s) c -> exists c' e b, mt cf n s cur c = Res c' e b.

Theorem methods_return cf n s : runs cf n ->
  always_returns cf n s match_method
  /\ always_returns cf n s match_prefix_method
  /\ always_returns cf n s search_method.
Proof.
  intros Hr. repeat split; intros cur c Hc Hlen Hv.
  - pose proof (match_method_ok cf n s Hr cur c Hc (conj Hlen Hv)) as H.
    destruct (match_method _ _ _ _ _); try contradiction. eauto.
  - pose proof (match_prefix_method_ok cf n s Hr cur c Hc (conj Hlen Hv)) as H.
    destruct (match_prefix_method _ _ _ _ _); try contradiction. eauto.
  - pose proof (search_method_ok cf n s Hr cur c Hc (conj Hlen Hv)) as H.
    destruct (search_method _ _ _ _ _); try contradiction. eauto.
Qed.

Lemma gen_method_ok cf n s mt cur c : gen_method mt -> runs cf n -> cur <= length s ->
  good (group_names n) s c ->
  result_ok (fun c' e b => good (group_names n) s c' /\ cur <= e /\ e <= length s
               /\ (b = true -> exists i, cur <= i /\ i <= e /\ group0 c' = Some (i, e)))
    (mt cf n s cur c).
Proof.
  intros [|] Hr Hc Hg.
  - eapply result_ok_weaken; [apply match_prefix_method_ok; auto|]. cbn.
    intros c' e b (H1 & H2 & H3 & H4). repeat split; auto; try apply H1. intros _. eauto.
  - eapply result_ok_weaken; [apply search_method_ok; auto|]. cbn. tauto.
Qed.

Lemma next_returns mt cf n s g : gen_method mt -> runs cf n -> gen_inside s g ->
  exists r g', next mt cf n s g = Returned (r, g') /\ gen_inside s g'
    /\ length (groups r) = length (group_names n) /\ Forall (valid_range s) (groups r)
    /\ (active g = false -> g' = g /\ matched r = false /\ groups r = initial_captures n)
    /\ (active g' = true -> matched r = true /\ current g < current g')
    /\ (matched r = true -> active g = true /\ exists i,
          current g <= i <= current g' /\ current g' <= length s
          /\ group0 (groups r) = Some (i, current g')
          /\ (active g' = false -> i = current g')
          /\ (active g' = true -> i < current g')).
Proof.
  intros Hm Hr Hg. unfold next. destruct (active g) eqn:A.
  - pose proof (gen_method_ok cf n s mt (current g) _ Hm Hr (Hg A) (good_initial n s)) as H.
    destruct (mt cf n s (current g) (initial_captures n)) as [c e b| | |] eqn:E; try contradiction.
    cbn in H |- *. destruct H as (H1 & H2 & H3 & H4).
    do 2 eexists. split; [reflexivity|]. cbn. split; [|split; [apply H1|split; [apply H1|split]]].
    + intros _. cbn. exact H3.
    + discriminate.
    + split.
      * intros Ha. apply andb_true_iff in Ha as [-> Ha]. split; [reflexivity|].
        destruct (H4 eq_refl) as (i & ? & ? & E0). rewrite E0 in Ha. cbn in Ha.
        destruct (Nat.eqb_spec i e); [discriminate|]. lia.
      * intros ->. split; [reflexivity|]. destruct (H4 eq_refl) as (i & ? & ? & E0).
        exists i. rewrite E0. cbn. repeat split; auto; destruct (Nat.eqb_spec i e); try discriminate;
          auto; lia.
  - do 2 eexists. split; [reflexivity|]. cbn. split; [exact Hg|].
    split; [apply initial_length|]. split; [apply (good_initial n s)|]. split; [auto|].
    rewrite A. split; discriminate.
Qed.

Lemma generate_returns mt cf n s : gen_method mt -> runs cf n -> forall k g, gen_inside s g ->
  exists l, generate mt cf n s k g = Returned l /\ length l = k
    /\ Forall (fun r => length (groups r) = length (group_names n)
                        /\ Forall (valid_range s) (groups r)) l.
Proof.
  intros Hm Hr. induction k as [|k IH]; intros g Hg; cbn [generate]; [eauto|].
  destruct (next_returns mt cf n s g Hm Hr Hg) as (r & g' & E & Hg' & Hlen & Hv & _).
  rewrite E. destruct (IH g' Hg') as (l & -> & Hl & HF). exists (r :: l). cbn. auto.
Qed.

Lemma range_returns mt cf n s : gen_method mt -> runs cf n -> forall k g, gen_inside s g ->
  (active g = true -> length s + 1 < k + current g) -> 0 < k ->
  exists l, range_elements k mt cf n s g = Returned l
    /\ Forall (fun r => length (groups r) = length (group_names n)
                        /\ Forall (valid_range s) (groups r)) l.
Proof.
  intros Hm Hr. induction k as [|k IH]; intros g Hg Hk H0; cbn [range_elements]; [lia|].
  destruct (next_returns mt cf n s g Hm Hr Hg) as (r & g' & E & Hg' & Hlen & Hv & Hin & Hact & Hmr).
  rewrite E. destruct (matched r) eqn:M; [|eauto].
  destruct (Hmr eq_refl) as (A & i & ? & ? & ? & ? & ?). specialize (Hk A). specialize (Hg A).
  destruct (IH g' Hg') as (l & -> & HF).
  - intros A'. destruct (Hact A') as [_ Hlt]. lia.
  - lia.
  - exists (r :: l). split; [reflexivity|]. constructor; auto.
Qed.

(** Every call of the public interface returns. *)
Theorem calls_return r ct s : usable r ct ->
  returns (regex_match r ct s) (fun _ => True)
  /\ returns (regex_match_prefix r ct s) (fun _ => True)
  /\ returns (regex_search r ct s) (fun _ => True)
  /\ returns (tokenize r ct s) (fun _ => True)
  /\ returns (find_all r ct s) (fun _ => True)
  /\ (forall k, returns (tokenizer r ct s k) (fun l => length l = k))
  /\ (forall k, returns (searcher r ct s k) (fun l => length l = k)).
Proof.
  intros Hu. pose proof (proj1 Hu) as Hc.
  pose proof (good_initial (ast r) s) as Hg.
  split; [|split; [|split]].
  - apply invoke_returns; auto. eapply result_ok_weaken; [apply match_method_ok; eauto; lia|]. cbn. auto.
  - apply invoke_returns; auto.
    eapply result_ok_weaken; [apply match_prefix_method_ok; eauto; lia|]. cbn. auto.
  - apply invoke_returns; auto.
    eapply result_ok_weaken; [apply search_method_ok; eauto; lia|]. cbn. auto.
  - unfold tokenize, find_all, tokenizer, searcher, range_of, generator_results. rewrite Hc.
    assert (Hrange : forall mt, gen_method mt ->
      returns (range_elements (S (S (length s))) mt (config_of (flags r) ct) (ast r) s new_generator)
        (fun _ => True)).
    { intros mt Hm. destruct (range_returns mt _ _ s Hm Hu (S (S (length s))) new_generator) as (l & -> & _).
      - apply inside_new.
      - cbn. lia.
      - lia.
      - exists l. auto. }
    assert (Hgen : forall mt k, gen_method mt ->
      returns (generate mt (config_of (flags r) ct) (ast r) s k new_generator)
        (fun l => length l = k)).
    { intros mt k Hm. destruct (generate_returns mt _ _ s Hm Hu k new_generator) as (l & -> & Hl & _).
      - apply inside_new.
      - exists l. auto. }
    repeat split; intros; try apply Hrange; try apply Hgen; constructor.
Qed.

Lemma names_length n : length (capture_name_spec n) = capture_count n.
Proof.
  assert (Hl : forall l, Forall (fun n => length (capture_name_spec n) = capture_count n) l ->
    length (flat_map capture_name_spec l) = list_sum (map capture_count l)).
  { induction 1 as [|x r Hx _ IH]; [reflexivity|]. cbn [flat_map map].
    rewrite app_length, Hx, IH. reflexivity. }
  induction n using node_ind'; cbn [capture_name_spec capture_count]; auto.
  cbn [length]. rewrite IHn. lia.
Qed.

Lemma group_names_length n : length (group_names n) = S (capture_count n).
Proof. unfold group_names. cbn [length]. now rewrite names_length. Qed.

(** Every group of every result of every call is a range of the text. *)
Theorem groups_valid r ct s : usable r ct ->
  let fine res := group_count res = S (capture_count (ast r)) /\ Forall (valid_range s) (groups res) in
  returns (regex_match r ct s) (fun res => fine res
      /\ exists e, group0 (groups res) = Some (0, e) /\ (matched res = true -> e = length s))
  /\ returns (regex_match_prefix r ct s) (fun res => fine res
      /\ exists e, group0 (groups res) = Some (0, e))
  /\ returns (regex_search r ct s) (fun res => fine res
      /\ (matched res = true -> exists i e, i <= e /\ group0 (groups res) = Some (i, e)))
  /\ returns (tokenize r ct s) (Forall fine)
  /\ returns (find_all r ct s) (Forall fine)
  /\ (forall k, returns (tokenizer r ct s k) (Forall fine))
  /\ (forall k, returns (searcher r ct s k) (Forall fine)).
Proof.
  intros Hu fine. pose proof (proj1 Hu) as Hc.
  pose proof (good_initial (ast r) s) as Hg.
  pose proof (group_names_length (ast r)) as Hlen.
  assert (Hfine : forall c b, good (group_names (ast r)) s c -> fine (mk_res c b)).
  { intros c b [H1 H2]. split; [cbn; congruence|exact H2]. }
  split; [|split; [|split]].
  - apply invoke_returns; auto. eapply result_ok_weaken; [apply match_method_ok; eauto; lia|].
    cbn. intros c e b (H1 & H2 & H3 & H4 & H5). split; [now apply Hfine|]. eauto.
  - apply invoke_returns; auto.
    eapply result_ok_weaken; [apply match_prefix_method_ok; eauto; lia|].
    cbn. intros c e b (H1 & H2 & H3 & H4). split; [now apply Hfine|]. eauto.
  - apply invoke_returns; auto.
    eapply result_ok_weaken; [apply search_method_ok; eauto; lia|].
    cbn. intros c e b (H1 & H2 & H3 & H4 & H5). split; [now apply Hfine|].
    intros Hb. destruct (H5 Hb) as (i & ? & ? & ?). eauto.
  - unfold tokenize, find_all, tokenizer, searcher, range_of, generator_results. rewrite Hc.
    assert (HF : forall l, Forall (fun r0 => length (groups r0) = length (group_names (ast r))
                        /\ Forall (valid_range s) (groups r0)) l -> Forall fine l).
    { intros l. apply Forall_impl. intros a [H1 H2]. split; [unfold group_count; congruence|auto]. }
    assert (Hrange : forall mt, gen_method mt ->
      returns (range_elements (S (S (length s))) mt (config_of (flags r) ct) (ast r) s new_generator)
        (Forall fine)).
    { intros mt Hm. destruct (range_returns mt _ _ s Hm Hu (S (S (length s))) new_generator) as (l & -> & Hl).
      - apply inside_new.
      - cbn. lia.
      - lia.
      - exists l. auto. }
    assert (Hgen : forall mt k, gen_method mt ->
      returns (generate mt (config_of (flags r) ct) (ast r) s k new_generator) (Forall fine)).
    { intros mt k Hm. destruct (generate_returns mt _ _ s Hm Hu k new_generator) as (l & -> & _ & Hl).
      - apply inside_new.
      - exists l. auto. }
    repeat split; intros; try apply Hrange; try apply Hgen; constructor.
Qed.

(** ** C45 *)

(** Verdict and, on success, the end. *)
Definition verdict (o : outcome) : option (option nat) :=
  match o with Res _ e b => Some (if b then Some e else None) | _ => None end.

Theorem captures_irrelevant cf n s : runs cf n -> regular n = true ->
  forall mt, mt = match_method \/ mt = match_prefix_method \/ mt = search_method ->
  forall cur c1 c2, cur <= length s ->
  length c1 = length (group_names n) -> length c2 = length (group_names n) ->
  verdict (mt cf n s cur c1) = verdict (mt cf n s cur c2)
  /\ verdict (mt cf n s cur c1) <> None.
Proof.
  intros Hr Hreg mt Hm cur c1 c2 Hc H1 H2. destruct Hm as [->|[->| ->]].
  - pose proof (match_method_paths cf n s Hr Hreg cur c1 Hc H1) as A.
    pose proof (match_method_paths cf n s Hr Hreg cur c2 Hc H2) as B.
    destruct (match_method _ _ _ _ c1) as [? ? b1| | |], (match_method _ _ _ _ c2) as [? ? b2| | |];
      try contradiction. cbn in *. destruct A as (_ & _ & A & A'), B as (_ & _ & B & B').
    split; [|discriminate]. rewrite <- A in B. destruct b1, b2; auto.
    + now rewrite A', B'.
    + destruct B as [_ B]. now discriminate B.
    + destruct B as [B _]. now discriminate B.
  - pose proof (match_prefix_method_paths cf n s Hr Hreg cur c1 Hc H1) as A.
    pose proof (match_prefix_method_paths cf n s Hr Hreg cur c2 Hc H2) as B.
    destruct (match_prefix_method _ _ _ _ c1) as [? ? b1| | |],
      (match_prefix_method _ _ _ _ c2) as [? ? b2| | |]; try contradiction. cbn in *.
    destruct A as (_ & _ & A), B as (_ & _ & B). split; [congruence|discriminate].
  - pose proof (search_method_paths cf n s Hr Hreg cur c1 Hc H1) as A.
    pose proof (search_method_paths cf n s Hr Hreg cur c2 Hc H2) as B.
    destruct (search_method _ _ _ _ c1) as [? ? b1| | |],
      (search_method _ _ _ _ c2) as [? ? b2| | |]; try contradiction. cbn in *.
    destruct A as (_ & A & A'), B as (_ & B & B'). split; [|discriminate].
    destruct b1, b2; auto.
    + destruct (A eq_refl) as (i & (? & Hi & Hi') & _), (B eq_refl) as (j & (? & Hj & Hj') & _).
      destruct (Nat.lt_trichotomy i j) as [Hlt|[->|Hlt]].
      * rewrite (Hj' i) in Hi by lia. discriminate.
      * congruence.
      * rewrite (Hi' j) in Hj by lia. discriminate.
    + destruct (A eq_refl) as (i & (? & Hi & Hi') & _). rewrite B' in Hi by auto. discriminate.
    + destruct (B eq_refl) as (i & (? & Hi & Hi') & _). rewrite A' in Hi by auto. discriminate.
Qed.

(** ** Parts of a tree, with any continuation *)

Section Parts.
  Variable cf : config.
  Variable names : list group_name.
  Variable s : list ascii.

  (** A part of a regex that can be run at the outer level. *)
  Definition part_ok (x : node) : Prop :=
    compiles cf names (size x) 0 x = true /\ lines_ok cf x /\ regular x = true.

  Lemma part_run x cur c : part_ok x -> cur <= length s -> length c = length names ->
    result_ok (fun c' e b => length c' = length names
                 /\ (if b then Some e else None) = preferred cf s x cur)
      (node_match cf names s 0 x cur c success).
  Proof.
    intros (Hc & Hl & Hreg) H1 H2.
    assert (H : adq (fun c => length c = length names) (kept (fun c => length c = length names))
      (node_match cf names s 0 x cur c success)
                  (first_some (@Some nat) (paths cf s x cur))).
    { refine (adequate cf names s (fun c => length c = length names) (fun _ => True)
        (fun _ _ _ _ => True) _ _ _ (size x) 0 x Hc Hl Hreg _ nat (kept (fun c => length c = length names)) cur c success (@Some nat) H1 H2 _); auto.
      - intros i c0 c0' _ Hi E. unfold clear_cell in E. destruct (nth_error c0 (N.to_nat i)); [|discriminate].
        apply set_cell_length in E. congruence.
      - intros r id nm b e c0 c0' Hi _ _ _ E. unfold store in E.
        destruct (nth_error _ _); [|discriminate]. destruct (name_eqb _ _); [|discriminate].
        destruct r as [|[|r]]; try discriminate; apply set_cell_length in E; congruence.
      - intros r id y _. split; [exact I|]. intros b e _ _. exact I.
      - intros j c' _ Hc'. now apply kept_success. }
    apply adq_both in H. rewrite first_some_Some in H. destruct (node_match _ _ _ _ _ _ _ _); exact H.
  Qed.

  Lemma preferred_matches x cur : part_ok x -> possessive_free x = true -> cur <= length s ->
    (preferred cf s x cur <> None <-> exists j, matches cf s x cur j).
  Proof.
    intros (Hc & _ & _) Hp H1. apply compiles_well_formed in Hc. split.
    - intros H. destruct (preferred cf s x cur) as [e|] eqn:E; [|easy]. exists e.
      apply preferred_in in E. now apply in_paths in E.
    - intros [j Hj]. apply in_preferred with j. now apply in_paths.
  Qed.

  (** *** C12 *)

  Theorem atomic_commits x cur c k : part_ok x -> cur <= length s -> length c = length names ->
    match preferred cf s x cur with
    | Some j => exists c', length c' = length names
                  /\ node_match cf names s 0 (atomic x) cur c k = k j c'
    | None => exists c' e, node_match cf names s 0 (atomic x) cur c k = Res c' e false
    end.
  Proof.
    intros Hx H1 H2. pose proof (part_run x cur c Hx H1 H2) as H.
    unfold node_match in *. cbn [size atomic m]. unfold rep_match. cbn [N.eqb Pos.eqb].
    unfold fixed_match. cbn [N.eqb Pos.eqb].
    destruct (trivial x) eqn:T.
    - rewrite m_trivial in * by auto. unfold match_trivial, deref, view, non_match in *. cbn [Nat.even] in *.
      destruct (Nat.eqb cur (length s)).
      + cbn in H. destruct H as [_ <-]. cbn. eauto.
      + destruct (nth_error s cur) as [a|]; [|contradiction].
        destruct (match_one cf x a); cbn in H; destruct H as [_ <-]; cbn; eauto.
    - destruct (m cf names s (size x) 0 x cur c success) as [c' e b| | |]; try contradiction.
      cbn in H. destruct H as [Hlen <-]. unfold non_match. destruct b; cbn; eauto.
  Qed.

  (** *** C13 *)

  Theorem lookahead_zero_width x cur c k : part_ok x -> possessive_free x = true ->
    cur <= length s -> length c = length names ->
    ((exists j, matches cf s x cur j) ->
       (exists c', length c' = length names
          /\ node_match cf names s 0 (Look Ahead x) cur c k = k cur c')
       /\ exists c', node_match cf names s 0 (Neg (Look Ahead x)) cur c k = Res c' cur false)
    /\ ((~ exists j, matches cf s x cur j) ->
       (exists c', node_match cf names s 0 (Look Ahead x) cur c k = Res c' cur false)
       /\ exists c', length c' = length names
          /\ node_match cf names s 0 (Neg (Look Ahead x)) cur c k = k cur c').
  Proof.
    intros Hx Hp H1 H2. rewrite <- preferred_matches by assumption.
    pose proof (part_run x cur c Hx H1 H2) as H. unfold node_match in *.
    cbn [size m is_assertion].
    destruct (trivial x) eqn:T.
    - rewrite m_trivial in H by auto. unfold match_trivial, deref, view, assert_that, non_match in *.
      cbn [Nat.even] in *. destruct (Nat.eqb cur (length s)).
      + cbn in H. destruct H as [_ <-]. cbn. split; [easy|]. intros _. eauto.
      + destruct (nth_error s cur) as [a|]; [|contradiction].
        destruct (match_one cf x a); cbn in H; destruct H as [_ <-]; cbn.
        * split; [|intros HH; exfalso; apply HH; discriminate]. intros _. eauto.
        * split; [easy|]. intros _. eauto.
    - destruct (m cf names s (size x) 0 x cur c success) as [c' e b| | |]; try contradiction.
      cbn in H. destruct H as [Hlen <-]. unfold non_match. destruct b; cbn.
      + split; [|intros HH; exfalso; apply HH; discriminate]. intros _. split; eauto.
      + split; [easy|]. intros _. split; eauto.
  Qed.

  (** *** C14 *)

  (** A lookbehind body that can be used at the outer level. *)
  Definition behind_ok (x : node) : Prop :=
    compiles cf names (size (Look Behind x)) 0 (Look Behind x) = true /\ lines_ok cf x
    /\ reversible x = true.

  Theorem lookbehind_before x cur c k : behind_ok x -> cur <= length s -> length c = length names ->
    ((exists i, i <= cur /\ matches cf s x i cur) ->
       (exists c', length c' = length names
          /\ node_match cf names s 0 (Look Behind x) cur c k = k cur c')
       /\ exists c', node_match cf names s 0 (Neg (Look Behind x)) cur c k = Res c' cur false)
    /\ ((~ exists i, i <= cur /\ matches cf s x i cur) ->
       (exists c', node_match cf names s 0 (Look Behind x) cur c k = Res c' cur false)
       /\ exists c', length c' = length names
          /\ node_match cf names s 0 (Neg (Look Behind x)) cur c k = k cur c').
  Proof.
    intros (Hc & Hl & Hrev) H1 H2.
    assert (Hreg : regular (Look Behind x) = true).
    { pose proof (reversible_regular x Hrev) as Hr. unfold regular in *.
      cbn [backref_free possessive_ok lookbehind_ok]. rewrite Hrev.
      apply andb_true_iff in Hr as [Hr _]. now rewrite Hr. }
    assert (Hpo : part_ok (Look Behind x)) by (repeat split; auto).
    pose proof (compiles_well_formed _ _ _ _ _ Hc) as Hwf. cbn [well_formed] in Hwf.
    assert (Hp : possessive_free (Look Behind x) = true).
    { cbn. now apply reversible_possessive_free. }
    assert (E : (exists i, i <= cur /\ matches cf s x i cur)
                <-> exists j, matches cf s (Look Behind x) cur j).
    { cbn. split; [intros H; eauto|]. intros (j & -> & H). exact H. }
    rewrite E, <- preferred_matches by assumption.
    pose proof (part_run (Look Behind x) cur c Hpo H1 H2) as H. unfold node_match in *.
    assert (Hm : forall k, m cf names s (size (Look Behind x)) 0 (Look Behind x) cur c k
      = on_result (m cf names s (size (Look Behind x)) 0 (Look Behind x) cur c success)
          (fun _ c' => k cur c') (fun c' => non_match cur c')).
    { intros k0. cbn [size m]. destruct (negb (is_bidirectional cf)); [reflexivity|].
      destruct (trivial x).
      - destruct (Nat.eqb cur 0); [reflexivity|]. unfold deref, assert_that.
        destruct (nth_error _ _) as [a|]; [|reflexivity]. destruct (match_one cf x a); reflexivity.
      - destruct (m cf names s (size x) 1 (invert x) _ c success) as [? ? [|]| | |]; reflexivity. }
    assert (Hn : forall k, m cf names s (size (Neg (Look Behind x))) 0 (Neg (Look Behind x)) cur c k
      = on_result (m cf names s (size (Look Behind x)) 0 (Look Behind x) cur c success)
          (fun _ c' => non_match cur c') (fun c' => k cur c')) by reflexivity.
    rewrite Hm, Hn. clear Hm Hn.
    destruct (m cf names s (size (Look Behind x)) 0 (Look Behind x) cur c success)
      as [c' e b| | |]; try contradiction.
    cbn in H. destruct H as [Hlen <-]. unfold non_match. destruct b; cbn.
    + split; [|intros HH; exfalso; apply HH; discriminate]. intros _. split; eauto.
    + split; [easy|]. intros _. split; eauto.
  Qed.

  (** *** C19 *)

  (** The part succeeds without consuming exactly when [b] holds. *)
  Definition tests (n : node) (b : bool) (cur : nat) : Prop :=
    forall c k, node_match cf names s 0 n cur c k = if b then k cur c else Res c cur false.

  Theorem anchors_tests cur : cur <= length s ->
    (is_bidirectional cf = true \/ multiline cf = false -> tests BeginLine (at_line_start cf s cur) cur)
    /\ tests EndLine (at_line_end cf s cur) cur
    /\ tests BeginInput (Nat.eqb cur 0) cur
    /\ tests EndInput (Nat.eqb cur (length s)) cur
    /\ (is_bidirectional cf = true ->
          tests WordB (at_word_boundary s cur) cur
          /\ tests (Neg WordB) (negb (at_word_boundary s cur)) cur).
  Proof.
    intros Hc.
    assert (Hat : match nth_error s cur with Some _ => cur < length s | None => cur = length s end).
    { destruct (nth_error s cur) eqn:E; [apply nth_error_Some; congruence|].
      apply nth_error_None in E. lia. }
    assert (Hbefore : cur <> 0 -> exists a, nth_error s (cur - 1) = Some a).
    { intros H. destruct (nth_error s (cur - 1)) eqn:E; [eauto|]. apply nth_error_None in E. lia. }
    assert (Hcb : forall p, cur <> 0 -> char_before s p cur
              = match nth_error s (cur - 1) with Some a => p a | None => false end).
    { intros p H. destruct cur; [easy|]. cbn [char_before]. now replace (S cur - 1) with cur by lia. }
    assert (Hw : is_bidirectional cf = true -> tests WordB (at_word_boundary s cur) cur).
    { intros Hb c k. unfold node_match, at_word_boundary. cbn [size m]. rewrite Hb. cbn [negb].
      unfold deref, assert_that, char_at, view. cbn [Nat.even].
      destruct (Nat.eqb_spec cur 0) as [->|Hn].
      - cbn [char_before]. destruct (Nat.eqb_spec 0 (length s)) as [E0|E0].
        + destruct (nth_error s 0); [lia|]. reflexivity.
        + destruct (nth_error s 0) as [a|]; [|lia]. rewrite word_word_char. reflexivity.
      - rewrite Hcb by auto. destruct (Hbefore Hn) as [a Ha]. rewrite Ha, word_word_char.
        destruct (Nat.eqb_spec cur (length s)) as [E0|E0].
        + destruct (nth_error s cur); [lia|]. reflexivity.
        + destruct (nth_error s cur) as [a'|]; [|lia]. rewrite word_word_char. reflexivity. }
    split; [|split; [|split; [|split]]].
    - intros Hb c k. unfold node_match, at_line_start. cbn [size m]. unfold deref, assert_that, view.
      cbn [Nat.even]. destruct (Nat.eqb_spec cur 0); [reflexivity|]. cbn [orb].
      destruct (multiline cf) eqn:M; [|reflexivity]. destruct Hb as [->|Hb]; [|discriminate].
      rewrite Hcb by auto. destruct (Hbefore n) as [a Ha]. rewrite Ha, linebreak_newline. reflexivity.
    - intros c k. unfold node_match, at_line_end. cbn [size m]. unfold deref, assert_that, view.
      cbn [Nat.even]. destruct (Nat.eqb_spec cur (length s)); [reflexivity|]. cbn [orb].
      destruct (multiline cf) eqn:M; [|reflexivity]. unfold char_at.
      destruct (nth_error s cur) as [a|]; [|lia]. rewrite linebreak_newline. reflexivity.
    - intros c k. reflexivity.
    - intros c k. reflexivity.
    - intros Hb. split; [auto|]. intros c k.
      assert (E : node_match cf names s 0 (Neg WordB) cur c k
        = on_result (node_match cf names s 0 WordB cur c success)
            (fun _ c' => non_match cur c') (fun c' => k cur c')) by reflexivity.
      rewrite E, (Hw Hb). destruct (at_word_boundary s cur); reflexivity.
  Qed.
End Parts.

(** ** C11 *)

Lemma possessive_paths cf s lo hi x i : ungreedy cf = false ->
  paths cf s (Rep Possessive lo hi x) i = paths cf s (atomic (Rep Greedy lo hi x)) i.
Proof.
  intros Hu. unfold atomic. cbn [paths]. rewrite Hu.
  set (l := flat_map _ _). change (N.to_nat 1) with 1. cbn [times remaining].
  change (1 - 1)%N with 0%N.
  assert (E : forall l', flat_map (greedy_paths s (paths cf s (Rep Greedy lo hi x)) (Fin 0))
              (flat_map (fun i0 => [i0]) l') = l').
  { induction l' as [|j r IH]; [reflexivity|]. cbn [flat_map app]. rewrite IH. reflexivity. }
  unfold paths in E at 1. fold (paths cf s) in E. rewrite Hu in E.
  rewrite E. reflexivity.
Qed.
