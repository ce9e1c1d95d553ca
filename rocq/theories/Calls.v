(** From the matcher to calls of the public interface. *)
From Verif Require Import Matcher Api Basics Safe Cong Impl Spec Paths Mirror Adequacy.

(** The call compiles for the category and does not run into the undefined
    [std::prev] of a multiline [^] on forward iterators (finding F12). *)
Definition runs (cf : config) (n : node) : Prop :=
  compilable cf n = true /\ lines_ok cf n.

(** The same for a regex object. *)
Definition usable (r : regex) (ct : category) : Prop :=
  runs (config_of (flags r) ct) (ast r).

(** The preferred end of a match from an offset. *)
Definition preferred (cf : config) (s : list ascii) (n : node) (i : nat) : option nat :=
  hd_error (paths cf s n i).

(** ** Shape of captures *)

Lemma initial_length n : length (initial_captures n) = length (group_names n).
Proof. unfold initial_captures. apply map_length. Qed.

Lemma good_initial n base : good (group_names n) base (initial_captures n).
Proof.
  split; [apply initial_length|]. unfold initial_captures.
  apply Forall_forall. intros v Hv. apply in_map_iff in Hv as (x & <- & _). exact I.
Qed.

Lemma set_group0_length b e c : length (set_group0 b e c) = length c.
Proof. now destruct c. Qed.

Lemma good_set_group0 names base b e c : good names base c -> b <= e -> e <= length base ->
  good names base (set_group0 b e c).
Proof.
  intros [H1 H2] Hb He. split; [now rewrite set_group0_length|].
  destruct c as [|v r]; [constructor|]. inversion H2; subst.
  constructor; auto. cbn. auto.
Qed.

Lemma group0_set n base b e c : good (group_names n) base c ->
  group0 (set_group0 b e c) = Some (b, e).
Proof. intros [H _]. destruct c; [discriminate|reflexivity]. Qed.

Lemma group0_set_length n b e c : length c = length (group_names n) ->
  group0 (set_group0 b e c) = Some (b, e).
Proof. intros H. destruct c; [discriminate|reflexivity]. Qed.

(** ** Safety of the methods *)

Section Methods.
  Variable cf : config.
  Variable n : node.
  Variable s : list ascii.
  Hypothesis Hruns : runs cf n.

  Local Notation gd := (good (group_names n) s).

  Lemma node_safe Q cur c k : cur <= length s -> gd c ->
    (forall j c', cur <= j -> j <= length s -> gd c' -> ok (group_names n) s Q cur (k j c')) ->
    ok (group_names n) s Q cur (node_match cf (group_names n) s 0 n cur c k).
  Proof.
    intros H1 H2 Hk. destruct Hruns as [Hc Hl].
    eapply (safe_m cf (group_names n) s (size n) 0 n Hc Hl); auto.
    intros j c' ? ? _ ?. auto.
  Qed.

  Definition result_ok (Q : caps -> nat -> bool -> Prop) (o : outcome) : Prop :=
    match o with Res c e b => Q c e b | _ => False end.

  Lemma match_method_ok cur c : cur <= length s -> gd c ->
    result_ok (fun c' e b => gd c' /\ cur <= e /\ e <= length s
                 /\ group0 c' = Some (cur, e) /\ (b = true -> e = length s))
      (match_method cf n s cur c).
  Proof.
    intros H1 H2. unfold match_method.
    assert (H : ok (group_names n) s (fun e => e = length s) cur
                  (node_match cf (group_names n) s 0 n cur c (equals (length s)))).
    { apply node_safe; auto. intros j c' ? ? ?. cbn. repeat split; auto; try apply H3.
      apply Nat.eqb_eq. }
    destruct (node_match _ _ _ _ _ _ _ _) as [c' e b| | |]; cbn [ok] in H |- *; auto.
    destruct H as (Hg & Hlo & Hhi & Hq). cbn.
    split; [now apply good_set_group0|]. repeat split; auto. eapply group0_set; eauto.
  Qed.

  Lemma node_success_ok cur c : cur <= length s -> gd c ->
    ok (group_names n) s (fun e => cur <= e) cur (node_match cf (group_names n) s 0 n cur c success).
  Proof. intros H1 H2. apply node_safe; auto. intros j c' ? ? ?. cbn. auto. Qed.

  Lemma match_prefix_method_ok cur c : cur <= length s -> gd c ->
    result_ok (fun c' e b => gd c' /\ cur <= e /\ e <= length s /\ group0 c' = Some (cur, e))
      (match_prefix_method cf n s cur c).
  Proof.
    intros H1 H2. unfold match_prefix_method. pose proof (node_success_ok cur c H1 H2) as H.
    destruct (node_match _ _ _ _ _ _ _ _) as [c' e b| | |]; cbn [ok] in H |- *; auto.
    destruct H as (Hg & Hlo & Hhi & _). cbn.
    split; [now apply good_set_group0|]. repeat split; auto. eapply group0_set; eauto.
  Qed.

  Lemma search_loop_ok : forall fuel cur c, length s - cur < fuel -> cur <= length s -> gd c ->
    result_ok (fun c' e b => gd c' /\ cur <= e /\ e <= length s
                 /\ (b = false -> e = length s)
                 /\ (b = true -> exists i, cur <= i /\ i <= e /\ group0 c' = Some (i, e)))
      (search_loop fuel cf n s cur c).
  Proof.
    induction fuel as [|fuel IH]; intros cur c Hf Hc Hg; [lia|]. cbn [search_loop].
    pose proof (node_success_ok cur c Hc Hg) as H.
    destruct (node_match _ _ _ _ _ _ _ _) as [c' e b| | |]; cbn [ok] in H; try contradiction.
    destruct H as (Hg' & Hlo & Hhi & _). destruct b.
    - cbn. split; [now apply good_set_group0|]. repeat split; auto; try discriminate.
      intros _. exists cur. repeat split; auto. eapply group0_set; eauto.
    - destruct (Nat.eqb_spec cur (length s)).
      + cbn. repeat split; auto; try apply Hg'; try lia; discriminate.
      + specialize (IH (S cur) c' ltac:(lia) ltac:(lia) Hg').
        destruct (search_loop _ _ _ _ _ _) as [c'' e' b| | |]; cbn in *; auto.
        destruct IH as (I1 & I2 & I3 & I4 & I5). repeat split; auto; try apply I1; try lia.
        intros Hb. destruct (I5 Hb) as (i & ? & ? & ?). exists i. repeat split; auto. lia.
  Qed.

  Lemma search_method_ok cur c : cur <= length s -> gd c ->
    result_ok (fun c' e b => gd c' /\ cur <= e /\ e <= length s
                 /\ (b = false -> e = length s)
                 /\ (b = true -> exists i, cur <= i /\ i <= e /\ group0 c' = Some (i, e)))
      (search_method cf n s cur c).
  Proof. intros. apply search_loop_ok; auto. Qed.

  Lemma set_cell_length i v c c' : set_cell i v c = Some c' -> length c' = length c.
  Proof.
    revert i c'. induction c as [|x r IH]; intros [|i] c' E; cbn in E; try discriminate.
    - injection E as <-. reflexivity.
    - destruct (set_cell i v r) eqn:E'; [|discriminate]. injection E as <-. cbn.
      f_equal. eapply IH; eauto.
  Qed.

  (** ** Methods follow an order of ends *)

  Section Ordered.
    Let inv (c : caps) : Prop := length c = length (group_names n).

    Variable ps : nat -> list nat.
    Let first_end (i : nat) : option nat := hd_error (ps i).
    Hypothesis node_adq : forall cur c k kp, cur <= length s -> inv c ->
      (forall j c', In j (ps cur) -> inv c' -> adq inv (kept inv) (k j c') (kp j)) ->
      adq inv (kept inv) (node_match cf (group_names n) s 0 n cur c k) (first_some kp (ps cur)).

    Lemma match_method_by cur c : cur <= length s -> inv c ->
      result_ok (fun c' e b => inv c' /\ group0 c' = Some (cur, e)
          /\ (b = true <-> In (length s) (ps cur)) /\ (b = true -> e = length s))
        (match_method cf n s cur c).
    Proof.
      intros H1 H2. unfold match_method.
      assert (H : adq inv (kept inv) (node_match cf (group_names n) s 0 n cur c (equals (length s)))
        (first_some (fun j => if Nat.eqb j (length s) then Some j else None) (ps cur))).
      { apply node_adq; auto. intros j c' _ Hc'. now apply kept_equals. }
      apply adq_both in H.
      destruct (node_match _ _ _ _ _ _ _ _) as [c' e b| | |]; cbn in H |- *; auto.
      destruct H as [Hi H]. unfold inv. rewrite set_group0_length.
      split; [exact Hi|]. split; [now apply (group0_set_length n)|].
      assert (Hfs : forall l, first_some (fun j => if Nat.eqb j (length s) then Some j else None) l
                    = if existsb (Nat.eqb (length s)) l then Some (length s) else None).
      { induction l as [|j r IH]; cbn; [reflexivity|].
        rewrite (Nat.eqb_sym (length s) j). destruct (Nat.eqb_spec j (length s)); cbn; congruence. }
      rewrite Hfs in H.
      assert (He : existsb (Nat.eqb (length s)) (ps cur) = true
                   <-> In (length s) (ps cur)).
      { rewrite existsb_exists. split.
        - intros (x & Hx & E). apply Nat.eqb_eq in E. now subst.
        - intros Hx. exists (length s). split; auto. apply Nat.eqb_refl. }
      rewrite <- He. destruct (existsb _ _), b; try discriminate; intuition congruence.
    Qed.

    Lemma run_by cur c : cur <= length s -> inv c ->
      result_ok (fun c' e b => inv c' /\ (if b then Some e else None) = first_end cur)
        (node_match cf (group_names n) s 0 n cur c success).
    Proof.
      intros H1 H2.
      assert (H : adq inv (kept inv) (node_match cf (group_names n) s 0 n cur c success)
        (first_some (@Some nat) (ps cur))).
      { apply node_adq; auto. intros j c' _ Hc'. now apply kept_success. }
      apply adq_both in H. rewrite first_some_Some in H. destruct (node_match _ _ _ _ _ _ _ _); exact H.
    Qed.

    Lemma match_prefix_method_by cur c : cur <= length s -> inv c ->
      result_ok (fun c' e b => inv c' /\ group0 c' = Some (cur, e)
          /\ (if b then Some e else None) = first_end cur)
        (match_prefix_method cf n s cur c).
    Proof.
      intros H1 H2. unfold match_prefix_method. pose proof (run_by cur c H1 H2) as H.
      destruct (node_match _ _ _ _ _ _ _ _) as [c' e b| | |]; cbn in H |- *; auto.
      destruct H as [Hi H]. unfold inv. rewrite set_group0_length. repeat split; auto.
      now apply (group0_set_length n).
    Qed.

    (** [i] is the leftmost_by offset from [lo] with a match, which ends at [e]. *)
    Definition leftmost_by (lo i e : nat) : Prop :=
      lo <= i <= length s /\ first_end i = Some e
      /\ forall i', lo <= i' < i -> first_end i' = None.

    Lemma search_loop_by : forall fuel cur c,
      length s - cur < fuel -> cur <= length s -> inv c ->
      result_ok (fun c' e b => inv c'
          /\ (b = true -> exists i, leftmost_by cur i e /\ group0 c' = Some (i, e))
          /\ (b = false -> forall i, cur <= i <= length s -> first_end i = None))
        (search_loop fuel cf n s cur c).
    Proof.
      induction fuel as [|fuel IH]; intros cur c Hf Hc Hg; [lia|]. cbn [search_loop].
      pose proof (run_by cur c Hc Hg) as H.
      destruct (node_match _ _ _ _ _ _ _ _) as [c' e b| | |]; cbn in H; try contradiction.
      destruct H as [Hi H]. destruct b.
      - cbn. unfold inv. rewrite set_group0_length. repeat split; auto; try discriminate.
        intros _. exists cur. split; [|now apply (group0_set_length n)].
        repeat split; auto. intros. lia.
      - destruct (Nat.eqb_spec cur (length s)).
        + cbn. repeat split; auto; try discriminate. intros _ i Hi'.
          assert (i = cur) by lia. now subst.
        + specialize (IH (S cur) c' ltac:(lia) ltac:(lia) Hi).
          destruct (search_loop _ _ _ _ _ _) as [c'' e' b| | |]; cbn in *; auto.
          destruct IH as (I1 & I2 & I3). repeat split; auto.
          * intros Hb. destruct (I2 Hb) as (i & ((? & ?) & ? & I4) & ?). exists i. split; auto.
            repeat split; auto; try lia. intros i' Hi'.
            destruct (Nat.eq_dec i' cur) as [->|]; auto. apply I4. lia.
          * intros Hb i Hi'. destruct (Nat.eq_dec i cur) as [->|]; auto. apply I3; auto. lia.
    Qed.

    Lemma search_method_by cur c : cur <= length s -> inv c ->
      result_ok (fun c' e b => inv c'
          /\ (b = true -> exists i, leftmost_by cur i e /\ group0 c' = Some (i, e))
          /\ (b = false -> forall i, cur <= i <= length s -> first_end i = None))
        (search_method cf n s cur c).
    Proof. intros. apply search_loop_by; auto. Qed.
  End Ordered.

  (** ** Methods follow the priority order *)

  Section Regular.
    Hypothesis Hreg : regular n = true.

    Let inv (c : caps) : Prop := length c = length (group_names n).

    Lemma node_adq cur c k kp : cur <= length s -> inv c ->
      (forall j c', In j (paths cf s n cur) -> inv c' -> adq inv (kept inv) (k j c') (kp j)) ->
      adq inv (kept inv) (node_match cf (group_names n) s 0 n cur c k) (first_some kp (paths cf s n cur)).
    Proof.
      intros H1 H2 Hk. destruct Hruns as [Hc Hl].
      refine (adequate cf (group_names n) s inv (fun _ => True) (fun _ _ _ _ => True) _ _ _ (size n) 0 n
                Hc Hl Hreg _ nat (kept inv) cur c k kp H1 H2 Hk); auto.
      - intros i c0 c0' _ Hi E. unfold clear_cell in E. destruct (nth_error c0 (N.to_nat i)); [|discriminate].
        apply set_cell_length in E. unfold inv in *. congruence.
      - intros r id nm b e c0 c0' Hi _ _ _ E. unfold store in E.
        destruct (nth_error _ _); [|discriminate]. destruct (name_eqb _ _); [|discriminate].
        destruct r as [|[|r]]; try discriminate; apply set_cell_length in E; unfold inv in *; congruence.
      - intros r id y _. split; [exact I|]. intros b e _ _. exact I.
    Qed.

    Lemma match_method_paths cur c : cur <= length s -> inv c ->
      result_ok (fun c' e b => inv c' /\ group0 c' = Some (cur, e)
          /\ (b = true <-> In (length s) (paths cf s n cur)) /\ (b = true -> e = length s))
        (match_method cf n s cur c).
    Proof. exact (match_method_by (paths cf s n) node_adq cur c). Qed.

    Lemma match_prefix_method_paths cur c : cur <= length s -> inv c ->
      result_ok (fun c' e b => inv c' /\ group0 c' = Some (cur, e)
          /\ (if b then Some e else None) = preferred cf s n cur)
        (match_prefix_method cf n s cur c).
    Proof. exact (match_prefix_method_by (paths cf s n) node_adq cur c). Qed.

    (** [i] is the leftmost offset from [lo] with a match, which ends at [e]. *)
    Definition leftmost (lo i e : nat) : Prop :=
      lo <= i <= length s /\ preferred cf s n i = Some e
      /\ forall i', lo <= i' < i -> preferred cf s n i' = None.

    Lemma search_method_paths cur c : cur <= length s -> inv c ->
      result_ok (fun c' e b => inv c'
          /\ (b = true -> exists i, leftmost cur i e /\ group0 c' = Some (i, e))
          /\ (b = false -> forall i, cur <= i <= length s -> preferred cf s n i = None))
        (search_method cf n s cur c).
    Proof. exact (search_method_by (paths cf s n) node_adq cur c). Qed.
  End Regular.
End Methods.

(** ** Whole calls *)

(** The call returns a result of which [P] holds. *)
Definition returns {A} (o : call A) (P : A -> Prop) : Prop :=
  exists r, o = Returned r /\ P r.

Lemma invoke_returns mt r ct s (P : match_res -> Prop) :
  compilable (config_of (flags r) ct) (ast r) = true ->
  result_ok (fun c e b => P (mk_res c b))
    (mt (config_of (flags r) ct) (ast r) s 0 (initial_captures (ast r))) ->
  returns (invoke mt r ct s) P.
Proof.
  intros Hc H. unfold invoke. rewrite Hc.
  destruct (mt _ _ _ _ _) as [c e b| | |]; cbn in H |- *; try contradiction.
  eexists. split; [reflexivity|exact H].
Qed.

Lemma result_ok_weaken (Q Q' : caps -> nat -> bool -> Prop) o :
  result_ok Q o -> (forall c e b, Q c e b -> Q' c e b) -> result_ok Q' o.
Proof. destruct o; cbn; auto. Qed.
