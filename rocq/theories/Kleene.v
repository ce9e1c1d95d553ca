(** Every machine with finite memory is a classical regular expression: proofs (C96). *)
From Verif Require Import Matcher Api Parser Basics Spec Calls Classical Machines Memory.
From Coq Require Import Lia.

Section Machine.
  Variable step : nat -> ascii -> nat.

  (** One of the characters. *)
  Fixpoint one_of (l : list ascii) : re :=
    match l with [] => Nothing | c :: r => Union (Symbol c) (one_of r) end.

  (** The texts that lead from [i] to [j] through states below [k]. *)
  Fixpoint leading (k i j : nat) : re :=
    match k with
    | 0 => Union (if Nat.eqb i j then Epsilon else Nothing)
             (one_of (filter (fun c => Nat.eqb (step i c) j) (all fin_ascii)))
    | S k => Union (leading k i j) (Concat (leading k i k) (Concat (Star (leading k k k)) (leading k k j)))
    end.

  Lemma one_of_lang l s : lang (one_of l) s <-> exists c, In c l /\ s = [c].
  Proof.
    induction l as [|a l IH]; cbn [one_of].
    - split; [intros H; inversion H|intros (c & [] & _)].
    - split.
      + intros H. inversion H as [| | |x y u H1|x y u H1| |]; subst.
        * inversion H1; subst. exists a. split; [now left|reflexivity].
        * apply IH in H1 as (c & Hc & ->). exists c. split; [now right|reflexivity].
      + intros (c & [<-|Hc] & ->); [apply lang_left; constructor|]. apply lang_right, IH. now exists c.
  Qed.

  Lemma union_lang x y s : lang (Union x y) s <-> lang x s \/ lang y s.
  Proof.
    split; [intros H; inversion H; subst; auto|]. intros [H|H]; [now apply lang_left|now apply lang_right].
  Qed.

  Lemma concat_lang x y s : lang (Concat x y) s <-> exists u v, s = u ++ v /\ lang x u /\ lang y v.
  Proof.
    split; [intros H; inversion H; subst; eauto|]. intros (u & v & -> & H1 & H2). now constructor.
  Qed.

  Lemma star_turns x k : (forall s, lang x s -> fold_left step s k = k) ->
    forall s, lang (Star x) s -> fold_left step s k = k.
  Proof.
    intros Hx s H. remember (Star x) as t eqn:E. induction H; try discriminate E; injection E as ->; [reflexivity|].
    rewrite fold_left_app, (Hx u) by assumption. now apply IHlang2.
  Qed.

  Lemma leading_sound k : forall i j s, lang (leading k i j) s -> fold_left step s i = j.
  Proof.
    induction k as [|k IH]; intros i j s; cbn [leading].
    - rewrite union_lang, one_of_lang. intros [H|(c & Hc & ->)].
      + destruct (Nat.eqb_spec i j) as [->|]; inversion H. reflexivity.
      + apply filter_In in Hc as [_ Hc]. now apply Nat.eqb_eq in Hc.
    - rewrite union_lang, concat_lang. intros [H|(u & v & -> & Hu & H)]; [now apply IH|].
      apply concat_lang in H as (w & x & -> & Hw & Hx). rewrite !fold_left_app, (IH _ _ _ Hu).
      rewrite (star_turns _ k (IH k k) _ Hw). now apply IH.
  Qed.

  (** The same texts step by step. *)
  Inductive route (k : nat) : nat -> list ascii -> nat -> Prop :=
  | rt_none i : route k i [] i
  | rt_one i c : route k i [c] (step i c)
  | rt_more i c s j : step i c < k -> route k (step i c) s j -> route k i (c :: s) j.

  Lemma route_split k i s j : route (S k) i s j -> route k i s j
    \/ exists u v, s = u ++ v /\ u <> [] /\ route k i u k /\ route (S k) k v j.
  Proof.
    induction 1 as [i|i c|i c s j Hc H IH]; [left; constructor|left; constructor|].
    destruct (Nat.eq_dec (step i c) k) as [E|E].
    - right. exists [c], s. split; [reflexivity|]. split; [discriminate|]. rewrite E in H.
      split; [rewrite <- E; constructor|assumption].
    - destruct IH as [IH|(u & v & -> & Hu & H1 & H2)].
      + left. apply rt_more; [lia|assumption].
      + right. exists (c :: u), v. split; [reflexivity|]. split; [discriminate|]. split; [apply rt_more; [lia|assumption]|assumption].
  Qed.

  Lemma leading_complete k : forall i s j, route k i s j -> lang (leading k i j) s.
  Proof.
    induction k as [|k IH]; intros i s j H.
    - cbn [leading]. apply union_lang. inversion H as [x|x c|x c s' y Hc]; subst; [|right|lia].
      + left. rewrite Nat.eqb_refl. constructor.
      + apply one_of_lang. exists c. split; [|reflexivity]. apply filter_In. split; [apply all_in|apply Nat.eqb_refl].
    - cbn [leading]. apply union_lang. destruct (route_split _ _ _ _ H) as [H1|(u & v & -> & _ & H1 & H2)]; [left; now apply IH|right].
      constructor; [now apply IH|]. clear H H1 u i.
      remember (length v) as n eqn:En. revert v En H2. induction n as [n IHn] using lt_wf_ind. intros v En H.
      destruct (route_split _ _ _ _ H) as [H1|(u & w & -> & Hu & H1 & H2)].
      + rewrite <- (app_nil_l v). constructor; [constructor|now apply IH].
      + assert (Hl : length w < n).
        { subst n. rewrite app_length. destruct u; [easy|cbn; lia]. }
        specialize (IHn _ Hl w eq_refl H2). apply concat_lang in IHn as (x & y & -> & Hx & Hy).
        rewrite app_assoc. constructor; [|exact Hy]. apply lang_go; [now apply IH|exact Hx].
  Qed.

  Lemma route_run k : forall s i, (forall u v, s = u ++ v -> fold_left step u i < k) -> route k i s (fold_left step s i).
  Proof.
    induction s as [|c s IH]; intros i H; [constructor|]. cbn [fold_left]. apply rt_more.
    - exact (H [c] s eq_refl).
    - apply IH. intros u v ->. exact (H (c :: u) v eq_refl).
  Qed.

  Fixpoint any_of (l : list re) : re := match l with [] => Nothing | e :: r => Union e (any_of r) end.

  Lemma any_of_lang l s : lang (any_of l) s <-> exists e, In e l /\ lang e s.
  Proof.
    induction l as [|a l IH]; cbn [any_of].
    - split; [intros H; inversion H|intros (c & [] & _)].
    - rewrite union_lang, IH. split.
      + intros [H|(e & He & H)]; [exists a|exists e]; cbn; auto.
      + intros (e & [<-|He] & H); [now left|right; now exists e].
  Qed.

  Variables (size start : nat) (good : nat -> bool).
  Hypothesis Hs : forall s, fold_left step s start < size.

  Definition expression_of : re := any_of (map (leading size start) (filter good (seq 0 size))).

  Lemma expression_lang s : lang expression_of s <-> good (fold_left step s start) = true.
  Proof.
    unfold expression_of. rewrite any_of_lang. split.
    - intros (e & He & H). apply in_map_iff in He as (j & <- & Hj). apply filter_In in Hj as [_ Hj].
      now rewrite (leading_sound _ _ _ _ H).
    - intros H. exists (leading size start (fold_left step s start)). split.
      + apply in_map, filter_In. split; [apply in_seq; split; [lia|apply Hs]|exact H].
      + apply leading_complete, route_run. intros u v ->. apply Hs.
  Qed.
End Machine.

(** The language of an expression is what its pattern matches. *)
Lemma pattern_verdict e : exists n, parse (written e) = P_ok n /\
  forall ct s b, (b = true <-> lang e s) -> verdict (regex_match (mk_regex n []) ct s) = Some b.
Proof.
  exists (as_tree e). split; [apply written_parses|]. intros ct s b Hb.
  destruct (classical_match e [] ct s) as (n & res & Hn & E & M).
  rewrite written_parses in Hn. injection Hn as <-. rewrite E. cbn [verdict]. f_equal.
  assert (L : in_lang e [] s <-> lang e s).
  { unfold in_lang. split.
    - intros (t & Ht & Hl). assert (t = s); [|now subst]. clear -Hl. induction Hl as [|a c u v H1 H2 IH]; [reflexivity|].
      destruct H1 as [->|[[=] _]]. now subst.
    - intros H. exists s. split; [exact H|]. clear. induction s; constructor; auto. now left. }
  destruct (matched res), b; try reflexivity; intuition congruence.
Qed.

Theorem machine_pattern size start step good : (forall s, fold_left step s start < size) ->
  {e : re | exists n, parse (written e) = P_ok n
    /\ forall ct s, verdict (regex_match (mk_regex n []) ct s) = Some (good (fold_left step s start))}.
Proof.
  intros Hs. exists (expression_of step size start good).
  destruct (pattern_verdict (expression_of step size start good)) as (n & Hn & H). exists n. split; [exact Hn|].
  intros ct s. apply H. symmetry. now apply expression_lang.
Qed.

Theorem memory_pattern o : memory o ->
  {e : re | exists n, parse (written e) = P_ok n /\ forall ct s, verdict (regex_match (mk_regex n []) ct s) = verdict (o s)}.
Proof.
  intros (size & start & step & good & H).
  destruct (machine_pattern size start step good (fun s => proj1 (H s))) as [e He]. exists e.
  destruct He as (n & Hn & He). exists n. split; [exact Hn|].
  intros ct s. rewrite He. destruct (H s) as [_ (res & -> & M)]. cbn [verdict]. now rewrite M.
Qed.

Theorem memory_expression o : memory o -> {e : re | forall s, verdict (o s) = Some true <-> lang e s}.
Proof.
  intros (size & start & step & good & H). exists (expression_of step size start good).
  intros s. rewrite expression_lang by (intros t; apply H). destruct (H s) as [_ (res & -> & M)].
  cbn [verdict]. rewrite M. split; [now intros [= ->]|now intros ->].
Qed.

(** The texts that are not matched. *)
Theorem complement_pattern o : memory o ->
  {e : re | exists n, parse (written e) = P_ok n
    /\ forall ct s, verdict (regex_match (mk_regex n []) ct s) = option_map negb (verdict (o s))}.
Proof.
  intros (size & start & step & good & H).
  destruct (machine_pattern size start step (fun q => negb (good q)) (fun s => proj1 (H s))) as [e He]. exists e.
  destruct He as (n & Hn & He). exists n. split; [exact Hn|]. intros ct s. rewrite He. destruct (H s) as [_ (res & -> & M)]. cbn [verdict option_map]. now rewrite M.
Qed.

(** Any combination of the answers of two calls; the pairs of states as numbers. *)
Theorem combined_pattern (f : bool -> bool -> bool) o1 o2 : memory o1 -> memory o2 ->
  {e : re | exists n, parse (written e) = P_ok n
    /\ forall ct s, exists b1 b2, verdict (o1 s) = Some b1 /\ verdict (o2 s) = Some b2
         /\ verdict (regex_match (mk_regex n []) ct s) = Some (f b1 b2)}.
Proof.
  intros (n1 & p1 & st1 & g1 & H1) (n2 & p2 & st2 & g2 & H2).
  pose (join := fun a b => a * n2 + b).
  assert (Hj : forall a b, a < n1 -> b < n2 -> join a b < n1 * n2 /\ join a b / n2 = a /\ join a b mod n2 = b).
  { intros a b Ha Hb. unfold join. split; [nia|]. split.
    - rewrite Nat.add_comm, Nat.div_add by lia. rewrite Nat.div_small by lia. lia.
    - rewrite Nat.add_comm, Nat.mod_add by lia. now apply Nat.mod_small. }
  pose (step := fun q c => join (st1 (q / n2) c) (st2 (q mod n2) c)).
  assert (Hr : forall s, fold_left step s (join p1 p2) = join (fold_left st1 s p1) (fold_left st2 s p2)).
  { intros s. induction s as [|c s IH] using rev_ind; [reflexivity|]. rewrite !fold_left_app, IH. cbn [fold_left].
    unfold step at 1. destruct (Hj _ _ (proj1 (H1 s)) (proj1 (H2 s))) as (_ & -> & ->). reflexivity. }
  destruct (machine_pattern (n1 * n2) (join p1 p2) step (fun q => f (g1 (q / n2)) (g2 (q mod n2)))) as [e He].
  { intros s. rewrite Hr. apply Hj; [apply H1|apply H2]. }
  exists e. destruct He as (n & Hn & He). exists n. split; [exact Hn|]. intros ct s. rewrite He, Hr.
  destruct (H1 s) as [L1 (res1 & -> & M1)], (H2 s) as [L2 (res2 & -> & M2)].
  destruct (Hj _ _ L1 L2) as (_ & -> & ->). cbn [verdict]. rewrite <- M1, <- M2. eauto.
Qed.

(** Whether the answers of two calls can stand in a relation. *)
Theorem combined_decidable (f : bool -> bool -> bool) o1 o2 : memory o1 -> memory o2 ->
  {s | exists b1 b2, verdict (o1 s) = Some b1 /\ verdict (o2 s) = Some b2 /\ f b1 b2 = true}
  + {forall s b1 b2, verdict (o1 s) = Some b1 -> verdict (o2 s) = Some b2 -> f b1 b2 = false}.
Proof.
  intros M1 M2. destruct (combined_pattern f o1 o2 M1 M2) as [e He].
  assert (Hb : backref_free (as_tree e) = true) by apply simple_is, tree_simple.
  destruct (matching_decidable _ (match_memory (mk_regex (as_tree e) []) ForwardIt (tree_usable e [] ForwardIt) Hb)) as [[s Hs]|H].
  - left. exists s. destruct He as (n & Hn & He). rewrite written_parses in Hn. injection Hn as <-.
    destruct (He ForwardIt s) as (b1 & b2 & E1 & E2 & E). exists b1, b2. split; [exact E1|]. split; [exact E2|]. congruence.
  - right. intros s b1 b2 E1 E2. destruct He as (n & Hn & He). rewrite written_parses in Hn. injection Hn as <-.
    destruct (He ForwardIt s) as (c1 & c2 & F1 & F2 & E). rewrite H in E. congruence.
Qed.

(** The answers of the pattern of an expression come from a machine. *)
Lemma expression_memory e n o : parse (written e) = P_ok n ->
  (forall s, verdict (o s) = verdict (regex_match (mk_regex n []) ForwardIt s)) -> finite_memory o.
Proof.
  intros Hn H. rewrite written_parses in Hn. injection Hn as <-.
  destruct (match_memory (mk_regex (as_tree e) []) ForwardIt (tree_usable e [] ForwardIt)) as (size & start & step & good & D).
  { apply simple_is, tree_simple. }
  exists size, start, step, good. intros s. destruct (D s) as [L (res & E & M)]. split; [exact L|].
  specialize (H s). rewrite E in H. cbn [verdict] in H. destruct (o s) as [res'| | |]; try discriminate H.
  injection H as H. exists res'. split; [reflexivity|]. congruence.
Qed.
