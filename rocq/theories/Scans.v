(** The exact content of the two ranges: C36 and C38. *)
From Verif Require Import Basics Safe Calls Lift Matching Spec Paths Relate Runs Uniform Generators.
From Verif Require Export Api.

Section Scans.
  (** [from i]: what the regex answers at offset [i] — the end of its match or
      that there is none. *)
  Variable from : nat -> option (option nat).
  Variable len : nat.

  (** Matches one behind the other, each at the end of the one before; an empty
      match is the last one. *)
  Inductive adjacent_scan : nat -> list (nat * nat) -> Prop :=
  | as_none p : from p = Some None -> adjacent_scan p []
  | as_empty p : from p = Some (Some p) -> adjacent_scan p [(p, p)]
  | as_more p e l : from p = Some (Some e) -> p < e <= len -> adjacent_scan e l ->
      adjacent_scan p ((p, e) :: l).

  (** The first offset at or behind [p] with a match. *)
  Definition next_match (p i e : nat) : Prop :=
    p <= i <= len /\ from i = Some (Some e) /\ forall i', p <= i' < i -> from i' = Some None.

  (** Matches in order, none left out; an empty match is the last one. *)
  Inductive leftmost_scan : nat -> list (nat * nat) -> Prop :=
  | ls_none p : (forall i, p <= i <= len -> from i = Some None) -> leftmost_scan p []
  | ls_empty p i : next_match p i i -> leftmost_scan p [(i, i)]
  | ls_more p i e l : next_match p i e -> i < e <= len -> leftmost_scan e l ->
      leftmost_scan p ((i, e) :: l).

  (** With no empty matches every offset with a match is inside a listed one. *)
  Lemma leftmost_scan_covers p l : leftmost_scan p l -> p <= len ->
    (forall i, i <= len -> from i <> Some (Some i)) ->
    forall i e, p <= i <= len -> from i = Some (Some e) ->
    exists b f, In (b, f) l /\ b <= i < f.
  Proof.
    intros H Hp Hne. revert Hp.
    induction H as [p H|p i (? & H & _)|p i e l (? & H & F) He Hl IH]; intros Hp j f Hj Ej.
    - rewrite H in Ej by lia. discriminate.
    - exfalso. apply (Hne i); [lia|auto].
    - destruct (Nat.lt_ge_cases j i) as [Hlt|Hge]; [rewrite F in Ej by lia; discriminate|].
      destruct (Nat.lt_ge_cases j e) as [Hlt|Hge'].
      + exists i, e. split; [now left|lia].
      + destruct (IH ltac:(lia) j f ltac:(lia) Ej) as (b & g & Hin & ?).
        exists b, g. split; [now right|auto].
  Qed.

  Lemma leftmost_scan_in p l : leftmost_scan p l ->
    forall b e, In (b, e) l -> p <= b <= len /\ from b = Some (Some e).
  Proof.
    induction 1 as [p H|p i (? & H & _)|p i e l (? & H & F) He Hl IH]; intros b f Hin.
    - easy.
    - destruct Hin as [[= <- <-]|[]]. auto.
    - destruct Hin as [[= <- <-]|Hin]; [auto|]. destruct (IH _ _ Hin). split; [lia|auto].
  Qed.
End Scans.

(** The results of a history that ends with a failure. *)
Lemma history_bounds n s step none p l x : history n s step none p (l ++ [x]) ->
  Forall (fun r => matched r = true) l -> matched x = false ->
  exists bounds, map (fun r => group0 (groups r)) l = map Some bounds
    /\ (fix chain q bounds := match bounds with
        | [] => none q
        | (b, e) :: rest => step q b e /\ q <= b <= e /\ e <= length s
            /\ (if Nat.eqb b e then rest = [] else chain e rest)
        end) p bounds.
Proof.
  revert p. induction l as [|r l IH]; intros p H HF Hx.
  - cbn in H. inversion H; subst; try congruence. exists []. auto.
  - cbn in H. inversion HF as [|? ? M HF']; subst. inversion H; subst; try congruence.
    + assert (l = []) as ->.
      { destruct l as [|y l]; [auto|]. inversion HF' as [|? ? My _]; subst.
        match goal with D : Forall _ _ |- _ => inversion D as [|? ? Hy _]; subst end.
        rewrite Hy in My. discriminate. }
      exists [(b, b)]. split; [cbn [map]; f_equal; auto|]. rewrite Nat.eqb_refl. repeat split; auto; lia.
    + destruct (IH e) as (bs & E & C); auto. exists ((b, e) :: bs).
      split; [cbn [map]; f_equal; auto|]. replace (Nat.eqb b e) with false by (symmetry; apply Nat.eqb_neq; lia).
      repeat split; auto; lia.
Qed.

Section Steps.
  Variable cf : config.
  Variable n : node.
  Variable s : list ascii.
  Hypothesis Hr : runs cf n.
  Local Notation from := (prefix_from cf n s).

  Lemma prefix_step_from p : p <= length s ->
    exists c e b, match_prefix_method cf n s p (initial_captures n) = Res c e b /\ p <= e <= length s
      /\ (b = true -> exists i, p <= i <= e /\ (i = p /\ from p = Some (Some e)) /\ group0 c = Some (i, e))
      /\ (b = false -> from p = Some None).
  Proof.
    intros Hp. destruct (prefix_step cf n s Hr p Hp) as (c & e & b & E & He & Ht & _).
    exists c, e, b. unfold prefix_from. rewrite E. cbn [verdict].
    repeat split; auto; try lia; try now intros ->.
    intros Hb. subst b. destruct (Ht eq_refl) as (i & ? & -> & ?). exists p. auto.
  Qed.

  Lemma search_step_from p : backref_free n = true -> p <= length s ->
    exists c e b, search_method cf n s p (initial_captures n) = Res c e b /\ p <= e <= length s
      /\ (b = true -> exists i, p <= i <= e /\ next_match from (length s) p i e /\ group0 c = Some (i, e))
      /\ (b = false -> forall i, p <= i <= length s -> from i = Some None).
  Proof.
    intros Hf Hp. destruct (search_step cf n s Hr p Hp) as (c & e & b & E & He & Ht & _).
    destruct (search_loop_first cf n s Hr Hf (S (length s - p)) p (initial_captures n))
      as (c' & e' & b' & E' & A & B); auto using initial_length; try lia.
    unfold search_method in *. rewrite E in E'. inversion E'; subst c' e' b'.
    exists c, e, b. repeat split; auto; try lia. intros Hb.
    destruct (Ht Hb) as (i & ? & ? & E0), (A Hb) as (i' & F & E0').
    exists i. replace i' with i in * by congruence. auto.
  Qed.
End Steps.

Lemma tokenizer_from r ct s k : usable r ct ->
  let from := prefix_from (config_of (flags r) ct) (ast r) s in
  exists l, tokenizer r ct s k = Returned l /\ length l = k
  /\ history (ast r) s (fun p b e => b = p /\ from p = Some (Some e)) (fun p => from p = Some None) 0 l.
Proof.
  intros Hu from. unfold tokenizer, generator_results. rewrite (proj1 Hu).
  apply generate_history; [|lia]. intros p Hp. now apply prefix_step_from.
Qed.

Lemma searcher_from r ct s k : usable r ct -> backref_free (ast r) = true ->
  let from := prefix_from (config_of (flags r) ct) (ast r) s in
  exists l, searcher r ct s k = Returned l /\ length l = k
  /\ history (ast r) s (next_match from (length s))
       (fun p => forall i, p <= i <= length s -> from i = Some None) 0 l.
Proof.
  intros Hu Hf from. unfold searcher, generator_results. rewrite (proj1 Hu).
  apply generate_history; [|lia]. intros p Hp. now apply search_step_from.
Qed.

Theorem tokenize_scan r ct s : usable r ct ->
  returns (tokenize r ct s) (fun l =>
    Forall (fun x => matched x = true) l
    /\ exists bounds, map (fun x => group0 (groups x)) l = map Some bounds
         /\ adjacent_scan (prefix_from (config_of (flags r) ct) (ast r) s) (length s) 0 bounds).
Proof.
  intros Hu. destruct (calls_return r ct s Hu) as (_ & _ & _ & (l & El & _) & _).
  exists l. split; [exact El|].
  destruct (proj1 (range_cuts_generator r ct s) l El) as (Hm & x & Mx & Eg). split; [exact Hm|].
  destruct (tokenizer_from r ct s (S (length l)) Hu) as (l' & E' & _ & H).
  rewrite Eg in E'. injection E' as <-.
  destruct (history_bounds _ _ _ _ _ _ _ H Hm Mx) as (bs & E & C). exists bs. split; [exact E|].
  clear -C. revert C. generalize 0 as p. induction bs as [|[b e] bs IH]; intros p C.
  - now constructor.
  - destruct C as ((-> & F) & Hpe & He & C). destruct (Nat.eqb_spec p e) as [->|].
    + subst bs. now constructor.
    + apply as_more; auto. lia.
Qed.

Theorem find_all_scan r ct s : usable r ct -> backref_free (ast r) = true ->
  returns (find_all r ct s) (fun l =>
    Forall (fun x => matched x = true) l
    /\ exists bounds, map (fun x => group0 (groups x)) l = map Some bounds
         /\ leftmost_scan (prefix_from (config_of (flags r) ct) (ast r) s) (length s) 0 bounds).
Proof.
  intros Hu Hf. destruct (calls_return r ct s Hu) as (_ & _ & _ & _ & (l & El & _) & _).
  exists l. split; [exact El|].
  destruct (proj2 (range_cuts_generator r ct s) l El) as (Hm & x & Mx & Eg). split; [exact Hm|].
  destruct (searcher_from r ct s (S (length l)) Hu Hf) as (l' & E' & _ & H).
  rewrite Eg in E'. injection E' as <-.
  destruct (history_bounds _ _ _ _ _ _ _ H Hm Mx) as (bs & E & C). exists bs. split; [exact E|].
  clear -C. revert C. generalize 0 as p. induction bs as [|[b e] bs IH]; intros p C.
  - now constructor.
  - destruct C as (F & Hpe & He & C). destruct (Nat.eqb_spec b e) as [->|].
    + subst bs. now constructor.
    + apply ls_more; auto. lia.
Qed.

Theorem find_all_covers r ct s : usable r ct -> backref_free (ast r) = true ->
  let from := prefix_from (config_of (flags r) ct) (ast r) s in
  (forall i, i <= length s -> from i <> Some (Some i)) ->
  returns (find_all r ct s) (fun l =>
    (forall x, In x l -> matched x = true /\ exists b e, group0 (groups x) = Some (b, e)
       /\ from b = Some (Some e))
    /\ (forall i e, i <= length s -> from i = Some (Some e) ->
          exists x b f, In x l /\ group0 (groups x) = Some (b, f) /\ b <= i < f)).
Proof.
  intros Hu Hf from Hne. destruct (find_all_scan r ct s Hu Hf) as (l & El & Hm & bs & Eb & Hs).
  exists l. split; [exact El|]. split.
  - intros x Hx. split; [rewrite Forall_forall in Hm; auto|].
    assert (Hg : In (group0 (groups x)) (map Some bs)).
    { rewrite <- Eb. apply in_map_iff. eauto. }
    apply in_map_iff in Hg as ([b e] & Eg & Hin). exists b, e. split; [auto|].
    eapply leftmost_scan_in; eauto.
  - intros i e Hi Ei.
    destruct (leftmost_scan_covers _ _ _ _ Hs ltac:(lia) Hne i e ltac:(lia) Ei) as (b & f & Hin & Hbf).
    assert (Hg : In (Some (b, f)) (map (fun x => group0 (groups x)) l)).
    { rewrite Eb. now apply in_map. }
    apply in_map_iff in Hg as (x & Ex & Hx). exists x, b, f. auto.
Qed.
