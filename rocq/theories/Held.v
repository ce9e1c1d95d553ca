(** Which match the groups belong to after a successful call: specification and
    proofs (Prop_Groups.v). *)
From Verif Require Import Matcher Api Basics Safe Cong Impl Spec Paths Adequacy Calls Groups Keeps.

(** ** Specification *)

(** The captures made along a match, in order: number and ends of each group. *)
Definition trace := list (N * (nat * nat)).

(** The last capture of a group. *)
Fixpoint latest (id : N) (t : trace) : option (nat * nat) :=
  match t with
  | [] => None
  | (i, p) :: r =>
      match latest id r with
      | Some q => Some q
      | None => if N.eqb i id then Some p else None
      end
  end.

(** Tests of the position. *)
Definition is_position_test (n : node) : bool :=
  match n with
  | Empty | BeginLine | BeginInput | EndLine | EndInput | WordB => true
  | _ => false
  end.

Section Takes.
  Variable cf : config.
  Variable s : list ascii.

  (** [takes n i j t]: a match of [n] from [i] to [j] (the branches and
      iterations taken), on which the captures [t] are made.  For negative
      assertions, lookbehinds and backreferences only the offsets are recorded:
      what they require is the subject of other properties. *)
  Inductive takes : node -> nat -> nat -> trace -> Prop :=
  | tk_class n i : is_class n = true -> char_at s (accepts cf n) i = true -> takes n i (S i) []
  | tk_test n i : is_position_test n = true -> matches cf s n i i -> takes n i i []
  | tk_neg x i : is_class x = false -> takes (Neg x) i i []
  | tk_ahead x i j t : takes x i j t -> takes (Look Ahead x) i i t
  | tk_behind x i : takes (Look Behind x) i i []
  | tk_backref id i j : i <= j -> takes (Backref id) i j []
  | tk_named_backref nm i j : i <= j -> takes (NBackref nm) i j []
  | tk_seq l i j t : takes_all l i j t -> takes (Seq l) i j t
  | tk_alt l x i j t : In x l -> takes x i j t -> takes (Alt l) i j t
  | tk_cap id nm x i j t : takes x i j t -> takes (Cap id nm x) i j (t ++ [(id, (i, j))])
  | tk_rep md lo hi x q i j t : allowed lo hi q -> takes_all (repeat x q) i j t ->
      takes (Rep md lo hi x) i j t
  with takes_all : list node -> nat -> nat -> trace -> Prop :=
  | ta_nil i : takes_all [] i i []
  | ta_cons x l i j k t u : takes x i j t -> takes_all l j k u ->
      takes_all (x :: l) i k (t ++ u).
End Takes.

(** The group occurs inside a lookaround, a possessive repetition or an atomic
    group, where the first match found is kept. *)
Inductive committed : node -> N -> Prop :=
| cm_look d x i y : group_in x i y -> committed (Look d x) i
| cm_neg x i y : group_in x i y -> committed (Neg x) i
| cm_possessive lo hi x i y : group_in x i y -> committed (Rep Possessive lo hi x) i
| cm_cap id nm x i : committed x i -> committed (Cap id nm x) i
| cm_seq l x i : In x l -> committed x i -> committed (Seq l) i
| cm_alt l x i : In x l -> committed x i -> committed (Alt l) i
| cm_rep md lo hi x i : committed x i -> committed (Rep md lo hi x) i.

(** What the cell of a group may hold after a match with trace [t]: nothing, or
    its last capture on this match. *)
Definition held (t : trace) (id : N) (v : cell) : Prop :=
  cell_is_empty v = true \/ v = latest id t.

(** ** Proofs *)

Scheme takes_mind := Induction for takes Sort Prop
  with takes_all_mind := Induction for takes_all Sort Prop.

Lemma latest_app id t u : latest id (t ++ u) =
  match latest id u with Some q => Some q | None => latest id t end.
Proof.
  induction t as [|[i p] r IH]; cbn; [now destruct (latest id u)|].
  rewrite IH. now destruct (latest id u).
Qed.

Lemma committed_group n i : committed n i -> exists y, group_in n i y.
Proof.
  induction 1; try (eexists; econstructor; eassumption);
    destruct IHcommitted as [y Hy]; exists y; econstructor; eauto.
Qed.

Definition cell_of (c : caps) (id : N) : cell := nth (N.to_nat id) c None.

Lemma cell_of_set c i v c' id : set_cell (N.to_nat i) v c = Some c' ->
  cell_of c' id = if N.eqb i id then v else cell_of c id.
Proof.
  intros E. unfold cell_of. pose proof (nth_set_cell _ _ _ _ (N.to_nat id) E) as H.
  destruct (N.eqb_spec i id) as [->|Hn].
  - rewrite Nat.eqb_refl in H. now apply nth_error_nth.
  - destruct (Nat.eqb_spec (N.to_nat i) (N.to_nat id)); [lia|].
    destruct (nth_error c (N.to_nat id)) eqn:E2.
    + transitivity c0; [now apply nth_error_nth|]. symmetry. now apply nth_error_nth.
    + rewrite !nth_overflow; auto; now apply nth_error_None.
Qed.

Lemma cell_of_clear c i c' id : clear_cell (N.to_nat i) c = Some c' ->
  cell_of c' id = if N.eqb i id then clear_value (cell_of c id) else cell_of c id.
Proof.
  unfold clear_cell. destruct (nth_error c (N.to_nat i)) as [v|] eqn:E; [|discriminate].
  intros H. rewrite (cell_of_set _ _ _ _ id H). destruct (N.eqb_spec i id) as [->|]; auto.
  f_equal. symmetry. now apply nth_error_nth.
Qed.

Lemma clear_value_empty v : cell_is_empty (clear_value v) = true.
Proof. destruct v as [[b e]|]; cbn; auto using Nat.eqb_refl. Qed.

Section Held.
  Variable cf : config.
  Variable names : list group_name.
  Variable base : list ascii.
  Variable W : N -> Prop.      (* the groups that are watched *)

  Definition after (t : trace) (c1 c : caps) : Prop :=
    forall id, W id -> cell_is_empty (cell_of c1 id) = true
      \/ cell_of c1 id = match latest id t with Some p => Some p | None => cell_of c id end.

  Lemma after_refl c : after [] c c.
  Proof. intros id _. now right. Qed.

  Lemma after_trans t u c c1 c2 : after t c1 c -> after u c2 c1 -> after (t ++ u) c2 c.
  Proof.
    intros H1 H2 id Hw. specialize (H1 id Hw). specialize (H2 id Hw).
    destruct H2 as [H2|H2]; [now left|]. rewrite H2, latest_app.
    destruct (latest id u); [now right|]. exact H1.
  Qed.

  Lemma after_nil_l c c1 c2 t : after [] c1 c -> after t c2 c1 -> after t c2 c.
  Proof. intros H1 H2. exact (after_trans _ _ _ _ _ H1 H2). Qed.

  Lemma after_nil_r c c1 c2 t : after t c1 c -> after [] c2 c1 -> after t c2 c.
  Proof. intros H1 H2. rewrite <- (app_nil_r t). eapply after_trans; eauto. Qed.

  Lemma after_quiet t c1 c : (forall id, W id -> latest id t = None) -> after t c1 c -> after [] c1 c.
  Proof. intros H Ha id Hw. specialize (Ha id Hw). now rewrite (H id Hw) in Ha. Qed.

  Definition falls (k : cont) : Prop := forall j c1 c2 e, k j c1 = Res c2 e false -> after [] c2 c1.

  Lemma falls_success : falls success.
  Proof. intros j c1 c2 e E. discriminate. Qed.

  Lemma falls_equals t : falls (equals t).
  Proof. intros j c1 c2 e E. unfold equals in E. injection E as -> _ _. apply after_refl. Qed.

  Definition rel := nat -> nat -> trace -> Prop.

  Definition yields (R : rel) (cur : nat) (c : caps) (k : cont) (o : outcome) : Prop :=
    match o with
    | Res c' e true => exists j t c1, R cur j t /\ after t c1 c /\ k j c1 = o
    | Res c' e false => after [] c' c
    | _ => True
    end.

  Definition traces (mx : matcher) (R : rel) : Prop :=
    forall cur c k, falls k -> yields R cur c k (mx cur c k).

  Lemma yields_k (R : rel) cur c k j t c1 : falls k -> R cur j t -> after t c1 c ->
    (forall id, W id -> latest id t = None) -> yields R cur c k (k j c1).
  Proof.
    intros Hk Hr Ha Hq. unfold yields. destruct (k j c1) as [c' e [|]| | |] eqn:E; auto.
    - exists j, t, c1. auto.
    - apply after_nil_l with c1; [now apply after_quiet with t|]. eapply Hk; eauto.
  Qed.

  Lemma yields_here (R : rel) cur c k j c1 : falls k -> R cur j [] -> after [] c1 c ->
    yields R cur c k (k j c1).
  Proof. intros. eapply yields_k; eauto. Qed.

  Lemma yields_non_match (R : rel) cur c k e c' : after [] c' c -> yields R cur c k (non_match e c').
  Proof. intros H. exact H. Qed.

  Lemma yields_weaken (R R' : rel) cur c k o : (forall j t, R cur j t -> R' cur j t) ->
    yields R cur c k o -> yields R' cur c k o.
  Proof.
    intros H. unfold yields. destruct o as [c' e [|]| | |]; auto.
    intros (j & t & c1 & H1 & H2). exists j, t, c1. auto.
  Qed.

  Lemma yields_pre (R : rel) cur c0 c k o : after [] c c0 -> yields R cur c k o -> yields R cur c0 k o.
  Proof.
    intros H. unfold yields. destruct o as [c' e [|]| | |]; auto.
    - intros (j & t & c1 & H1 & H2 & H3). exists j, t, c1. repeat split; auto. now apply after_nil_l with c.
    - intros Ha. now apply after_nil_l with c.
  Qed.

  Lemma yields_or_else (R : rel) cur c k o f : yields R cur c k o ->
    (forall c', after [] c' c -> yields R cur c k (f c')) -> yields R cur c k (or_else o f).
  Proof. intros Ho Hf. destruct o as [c' e [|]| | |]; cbn in *; auto. Qed.

  Lemma yields_deref (R : rel) cur c k s i f : (forall a, nth_error s i = Some a -> yields R cur c k (f a)) ->
    yields R cur c k (deref s i f).
  Proof. unfold deref. destruct (nth_error s i); cbn; auto. Qed.

  (** One match after another. *)
  Definition then_ (R S : rel) : rel := fun i j t =>
    exists h t1 t2, R i h t1 /\ S h j t2 /\ t = t1 ++ t2.

  Lemma traces_then mx (R S : rel) (f : nat -> caps -> cont -> outcome) :
    traces mx R -> traces f S ->
    traces (fun cur c k => mx cur c (fun next c' => f next c' k)) (then_ R S).
  Proof.
    intros Hx Hf cur c k Hk.
    assert (Hk' : falls (fun next c' => f next c' k)).
    { intros j c1 c2 e E. specialize (Hf j c1 k Hk). rewrite E in Hf. exact Hf. }
    specialize (Hx cur c _ Hk'). unfold yields in *.
    destruct (mx cur c (fun next c' => f next c' k)) as [c' e [|]| | |]; auto.
    destruct Hx as (j & t & c1 & H1 & H2 & H3). specialize (Hf j c1 k Hk). rewrite H3 in Hf.
    destruct Hf as (j' & t' & c1' & H1' & H2' & H3'). exists j', (t ++ t'), c1'. repeat split; auto.
    - exists j, t, t'. auto.
    - now apply after_trans with c1.
  Qed.

  (** Repetition of a relation. *)
  Fixpoint iter (R : rel) (n : nat) : rel :=
    match n with
    | 0 => fun i j t => i = j /\ t = []
    | S n' => then_ R (iter R n')
    end.

  Lemma iter_app (R : rel) a : forall b i h j t u, iter R a i h t -> iter R b h j u ->
    iter R (a + b) i j (t ++ u).
  Proof.
    induction a as [|a IH]; intros b i h j t u H1 H2; cbn in *.
    - destruct H1 as [-> ->]. exact H2.
    - destruct H1 as (h1 & t1 & t2 & Hr & Hi & ->). exists h1, t1, (t2 ++ u).
      repeat split; auto; [eapply IH; eauto|]. now rewrite app_assoc.
  Qed.

  (** One character satisfying [p]. *)
  Definition one (s : list ascii) (p : ascii -> bool) : rel := fun i j t =>
    j = S i /\ char_at s p i = true /\ t = [].

  Lemma iter_one s p n : forall i, (forall d, d < n -> char_at s p (i + d) = true) ->
    iter (one s p) n i (i + n) [].
  Proof.
    induction n as [|n IH]; intros i H; cbn; [split; auto; lia|].
    exists (S i), [], []. repeat split; auto.
    - specialize (H 0 ltac:(lia)). now rewrite Nat.add_0_r in H.
    - replace (i + S n) with (S i + n) by lia. apply IH. intros d Hd.
      specialize (H (S d) ltac:(lia)). now replace (i + S d) with (S i + d) in H by lia.
  Qed.

  Definition within (b : quantifier) (q : nat) : Prop :=
    match b with Fin n => q <= N.to_nat n | Inf => True end.
  Definition upto (b : quantifier) (R : rel) : rel := fun i j t =>
    exists q, within b q /\ iter R q i j t.

  Lemma upto_zero b R i : upto b R i i [].
  Proof. exists 0. split; [destruct b; cbn; auto; lia|split; auto]. Qed.

  Lemma upto_step b (R : rel) i h j t u : bound_is_zero b = false -> R i h t ->
    upto (bound_decrement b) R h j u -> upto b R i j (t ++ u).
  Proof.
    intros Hb Hr (q & Hq & Hi). exists (S q). split.
    - destruct b as [n|]; cbn in *; auto. apply N.eqb_neq in Hb. lia.
    - exists h, t, u. auto.
  Qed.

  Section Text.
    Variable s : list ascii.

    Lemma traces_trivial p : traces (match_trivial s p) (one s p).
    Proof.
      intros cur c k Hk. unfold match_trivial.
      destruct (Nat.eqb cur (length s)); [apply after_refl|].
      apply yields_deref. intros a Ha. destruct (p a) eqn:P; [|apply after_refl].
      apply yields_here; auto using after_refl. repeat split; auto.
      unfold char_at. now rewrite Ha.
    Qed.

    (** Tests at consecutive offsets. *)
    Definition chars_at (ps : list (ascii -> bool)) (i : nat) : Prop :=
      forall d p, nth_error ps d = Some p -> char_at s p (i + d) = true.

    Lemma all_at_chars ps : forall cur, all_at s ps cur = Some true -> chars_at ps cur.
    Proof.
      induction ps as [|p r IH]; intros cur E d q Hd; [now destruct d|]. cbn in E.
      destruct (nth_error s cur) as [a|] eqn:Ea; [|discriminate].
      destruct (p a) eqn:P; [|discriminate]. destruct d as [|d]; cbn in Hd.
      - injection Hd as <-. rewrite Nat.add_0_r. unfold char_at. now rewrite Ea.
      - replace (cur + S d) with (S cur + d) by lia. eapply IH; eauto.
    Qed.

    Definition block (ps : list (ascii -> bool)) : rel := fun i j t =>
      j = i + length ps /\ chars_at ps i /\ t = [].

    Lemma traces_block_random ps : traces (trivial_block_random s ps) (block ps).
    Proof.
      intros cur c k Hk. unfold trivial_block_random.
      destruct (all_at s ps cur) as [[|]|] eqn:E; try exact I; [|apply after_refl].
      apply yields_here; auto using after_refl. repeat split; auto. now apply all_at_chars.
    Qed.

    Lemma traces_block_forward ps : traces (sequence_block_forward s ps) (block ps).
    Proof.
      induction ps as [|p r IH]; intros cur c k Hk; [exact I|]. cbn [sequence_block_forward].
      destruct r as [|p' r'].
      - apply yields_deref. intros a Ha. destruct (p a) eqn:P; [|apply after_refl].
        apply yields_here; auto using after_refl. repeat split; [cbn; lia|].
        intros [|[|d]] q Hq; try discriminate. injection Hq as <-. rewrite Nat.add_0_r.
        unfold char_at. now rewrite Ha.
      - apply yields_deref. intros a Ha. destruct (p a) eqn:P; [|apply after_refl].
        specialize (IH (S cur) c k Hk). revert IH. remember (p' :: r') as r.
        unfold yields. destruct (sequence_block_forward s r (S cur) c k) as [c' e [|]| | |]; auto.
        intros (j & t & c1 & (-> & Hc & ->) & H2). exists (cur + S (length r)), [], c1.
        split; [|now replace (cur + S (length r)) with (S cur + length r) by lia].
        repeat split; auto. intros [|d] q Hq; cbn in Hq.
        + injection Hq as <-. rewrite Nat.add_0_r. unfold char_at. now rewrite Ha.
        + replace (cur + S d) with (S cur + d) by lia. eauto.
    Qed.

    Lemma block_repeat p n i j t : block (repeat p n) i j t -> iter (one s p) n i j t.
    Proof.
      intros (-> & Hc & ->). rewrite repeat_length. apply iter_one. intros d Hd.
      apply (Hc d p). now apply nth_error_repeat.
    Qed.

    Lemma traces_loop_random p : forall todo off cur c k, falls k ->
      (forall d, d < off -> char_at s p (cur + d) = true) ->
      yields (iter (one s p) (off + todo)) cur c k (repetition_loop_random s p todo off cur c k).
    Proof.
      induction todo as [|t IH]; intros off cur c k Hk Ho; cbn [repetition_loop_random].
      - apply yields_here; auto using after_refl. rewrite Nat.add_0_r. now apply iter_one.
      - apply yields_deref. intros a Ha. destruct (p a) eqn:P; cbn [negb]; [|apply after_refl].
        replace (off + S t) with (S off + t) by lia. apply IH; auto.
        intros d Hd. destruct (Nat.eq_dec d off) as [->|]; [|apply Ho; lia].
        unfold char_at. now rewrite Ha.
    Qed.

    Lemma traces_forward p : forall n, traces (repetition_block_forward s p n) (iter (one s p) n).
    Proof.
      induction n as [|n IH]; intros cur c k Hk; cbn [repetition_block_forward].
      - apply yields_here; auto using after_refl. split; reflexivity.
      - apply yields_deref. intros a Ha. destruct (p a) eqn:P; [|apply after_refl].
        specialize (IH (S cur) c k Hk). revert IH. unfold yields.
        destruct (repetition_block_forward s p n (S cur) c k) as [c' e [|]| | |]; auto.
        intros (j & t & c1 & H1 & H2). exists j, t, c1. split; auto.
        exists (S cur), [], t. repeat split; auto. unfold char_at. now rewrite Ha.
    Qed.

    (** The possessive loop over characters calls its continuation once. *)
    Lemma possessive_trivial_run p : forall fuel b cur c k,
      (exists q, within b q /\ (forall d, d < q -> char_at s p (cur + d) = true)
         /\ possessive_trivial fuel s p b cur c k = k (cur + q) c)
      \/ possessive_trivial fuel s p b cur c k = Diverge
      \/ possessive_trivial fuel s p b cur c k = Undef.
    Proof.
      induction fuel as [|f IH]; intros b cur c k; [auto|]. cbn [possessive_trivial].
      assert (H0 : exists q, within b q /\ (forall d, d < q -> char_at s p (cur + d) = true)
                /\ k cur c = k (cur + q) c).
      { exists 0. rewrite Nat.add_0_r. repeat split; [destruct b; cbn; auto; lia|lia]. }
      destruct (bound_is_zero b) eqn:Hb; [auto|]. destruct (Nat.eqb cur (length s)); [auto|].
      unfold deref. destruct (nth_error s cur) as [a|] eqn:Ha; [|auto].
      destruct (p a) eqn:P; [|auto].
      destruct (IH (bound_decrement b) (S cur) c k) as [(q & H1 & H2 & H3)|H]; [left|auto].
      exists (S q). repeat split.
      - destruct b as [n|]; cbn in *; auto. apply N.eqb_neq in Hb. lia.
      - intros [|d] Hd; [rewrite Nat.add_0_r; unfold char_at; now rewrite Ha|].
        replace (cur + S d) with (S cur + d) by lia. apply H2. lia.
      - rewrite H3. f_equal. lia.
    Qed.

    Lemma traces_possessive_trivial p fuel b :
      traces (possessive_trivial fuel s p b) (upto b (one s p)).
    Proof.
      intros cur c k Hk.
      destruct (possessive_trivial_run p fuel b cur c k) as [(q & H1 & H2 & ->)|[->| ->]]; try exact I.
      apply yields_here; auto using after_refl. exists q. split; auto. now apply iter_one.
    Qed.

    Lemma yields_step_back p b cur k : falls k -> forall d c, within b d ->
      (forall d', d' < d -> char_at s p (cur + d') = true) ->
      yields (upto b (one s p)) cur c k (step_back cur d c k).
    Proof.
      intros Hk. induction d as [|d IH]; intros c Hd Hc; cbn [step_back].
      - apply yields_or_else; [|intros c' Ha; exact Ha].
        apply yields_here; auto using after_refl. exists 0. split; auto. split; auto; lia.
      - apply yields_or_else.
        + apply yields_here; auto using after_refl. exists (S d). split; auto. now apply iter_one.
        + intros c' Ha. apply yields_pre with c'; auto. apply IH.
          * destruct b; cbn in *; auto; lia.
          * intros d' Hd'. apply Hc. lia.
    Qed.

    Lemma traces_greedy_trivial p fuel b :
      traces (fun cur c k => possessive_trivial fuel s p b cur c
                (fun next c' => step_back cur (next - cur) c' k)) (upto b (one s p)).
    Proof.
      intros cur c k Hk.
      destruct (possessive_trivial_run p fuel b cur c (fun next c' => step_back cur (next - cur) c' k))
        as [(q & H1 & H2 & E)|[E|E]]; rewrite E; try exact I.
      replace (cur + q - cur) with q by lia. now apply yields_step_back.
    Qed.

    Lemma traces_lazy_trivial p : forall fuel b, traces (lazy_trivial fuel s p b) (upto b (one s p)).
    Proof.
      induction fuel as [|f IH]; intros b cur c k Hk; [exact I|]. cbn [lazy_trivial].
      apply yields_or_else; [apply yields_here; auto using after_refl, upto_zero|].
      intros c' Ha. destruct (bound_is_zero b) eqn:Hb; [exact Ha|].
      destruct (Nat.eqb cur (length s)); [exact Ha|].
      apply yields_deref. intros a Hn. destruct (p a) eqn:P; [|exact Ha].
      apply yields_pre with c'; auto.
      specialize (IH (bound_decrement b) (S cur) c' k Hk). revert IH. unfold yields.
      destruct (lazy_trivial f s p (bound_decrement b) (S cur) c' k) as [c2 e [|]| | |]; auto.
      intros (j & t & c1 & H1 & H2). exists j, t, c1. split; auto.
      change t with ([] ++ t). eapply upto_step; eauto. repeat split. unfold char_at. now rewrite Hn.
    Qed.

    Lemma traces_unrolled mx R : traces mx R -> forall n, traces (unrolled_backtracking mx n) (iter R n).
    Proof.
      intros Hm. induction n as [|n IH]; intros cur c k Hk; cbn [unrolled_backtracking].
      - apply yields_here; auto using after_refl. split; reflexivity.
      - destruct n as [|n].
        + specialize (Hm cur c k Hk). eapply yields_weaken; [|exact Hm].
          intros j t Hr. exists j, t, []. rewrite app_nil_r. repeat split; auto.
        + exact (traces_then _ _ _ _ Hm IH cur c k Hk).
    Qed.

    Lemma traces_non_unrolled mx R : traces mx R -> forall n, traces (non_unrolled_backtracking mx n) (iter R n).
    Proof.
      intros Hm. induction n as [|n IH]; intros cur c k Hk; [exact I|]. cbn [non_unrolled_backtracking].
      destruct (Nat.eqb_spec (S n) 1) as [E|_].
      - injection E as ->. specialize (Hm cur c k Hk). eapply yields_weaken; [|exact Hm].
        intros j t Hr. exists j, t, []. rewrite app_nil_r. repeat split; auto.
      - exact (traces_then _ _ _ _ Hm IH cur c k Hk).
    Qed.

    Lemma traces_continue w cur f (S : rel) : traces f S ->
      traces (fun next c k => continue_unless_infinite_loop w cur (fun n' c' => f n' c' k) next c) S.
    Proof.
      intros Hf next c k Hk. unfold continue_unless_infinite_loop.
      destruct (w && Nat.eqb cur next); [apply after_refl|]. now apply Hf.
    Qed.

    Lemma traces_greedy_generic mx R w : traces mx R -> forall fuel b,
      traces (greedy_generic fuel mx w b) (upto b R).
    Proof.
      intros Hm. induction fuel as [|f IH]; intros b cur c k Hk; [exact I|]. cbn [greedy_generic].
      destruct (bound_is_zero b) eqn:Hb; [apply yields_here; auto using after_refl, upto_zero|].
      apply yields_or_else.
      - pose proof (traces_then _ _ _ _ Hm (traces_continue w cur _ _ (IH (bound_decrement b))) cur c k Hk) as H.
        eapply yields_weaken; [|exact H]. intros j t (h & t1 & t2 & H1 & H2 & ->). eapply upto_step; eauto.
      - intros c' Ha. apply yields_here; auto using upto_zero.
    Qed.

    Lemma traces_lazy_generic mx R w : traces mx R -> forall fuel b,
      traces (lazy_generic fuel mx w b) (upto b R).
    Proof.
      intros Hm. induction fuel as [|f IH]; intros b cur c k Hk; [exact I|]. cbn [lazy_generic].
      apply yields_or_else; [apply yields_here; auto using after_refl, upto_zero|].
      intros c' Ha. destruct (bound_is_zero b) eqn:Hb; [exact Ha|]. apply yields_pre with c'; auto.
      pose proof (traces_then _ _ _ _ Hm (traces_continue w cur _ _ (IH (bound_decrement b))) cur c' k Hk) as H.
      eapply yields_weaken; [|exact H]. intros j t (h & t1 & t2 & H1 & H2 & ->). eapply upto_step; eauto.
    Qed.

    (** Committed runs: the captures of watched groups do not change in them. *)
    Definition quiet (R : rel) : Prop := forall i j t, R i j t -> forall id, W id -> latest id t = None.

    Lemma quiet_iter R : quiet R -> forall n, quiet (iter R n).
    Proof.
      intros Hq. induction n as [|n IH]; intros i j t H id Hw; cbn in H.
      - destruct H as [_ ->]. reflexivity.
      - destruct H as (h & t1 & t2 & H1 & H2 & ->). rewrite latest_app, (IH _ _ _ H2 id Hw).
        eapply Hq; eauto.
    Qed.

    Lemma committed_run mx R cur c c' e : traces mx R -> quiet R -> mx cur c success = Res c' e true ->
      exists t, R cur e t /\ after [] c' c /\ (forall id, W id -> latest id t = None).
    Proof.
      intros Hm Hq E. specialize (Hm cur c success falls_success). rewrite E in Hm.
      destruct Hm as (j & t & c1 & H1 & H2 & H3). unfold success in H3. injection H3 as -> ->.
      pose proof (Hq _ _ _ H1) as Hn. exists t. split; [exact H1|]. split; [|exact Hn].
      now apply after_quiet with t.
    Qed.

    Lemma committed_fail mx R cur c c' e : traces mx R -> mx cur c success = Res c' e false ->
      after [] c' c.
    Proof. intros Hm E. specialize (Hm cur c success falls_success). now rewrite E in Hm. Qed.

    Lemma traces_atomic mx R : traces mx R -> quiet R ->
      traces (fun cur c k => on_result (mx cur c success) (fun e c' => k e c')
                               (fun c' => non_match cur c')) R.
    Proof.
      intros Hm Hq cur c k Hk. destruct (mx cur c success) as [c' e [|]| | |] eqn:E; cbn; auto.
      - destruct (committed_run _ _ _ _ _ _ Hm Hq E) as (t & H1 & H2 & H3).
        apply yields_k with t; auto. apply after_nil_r with c; [|exact H2].
        intros id Hw. right. now rewrite (H3 id Hw).
      - eapply committed_fail; eauto.
    Qed.

    Lemma traces_possessive_generic mx R w : traces mx R -> quiet R -> forall fuel b,
      traces (possessive_generic fuel mx w b) (upto b R).
    Proof.
      intros Hm Hq. induction fuel as [|f IH]; intros b cur c k Hk; [exact I|].
      cbn [possessive_generic].
      destruct (bound_is_zero b) eqn:Hb; [apply yields_here; auto using after_refl, upto_zero|].
      destruct (mx cur c success) as [c' e [|]| | |] eqn:E; cbn [on_result]; auto; try exact I.
      - destruct (committed_run _ _ _ _ _ _ Hm Hq E) as (t & H1 & H2 & H3).
        destruct (w && Nat.eqb cur e).
        + apply yields_here; auto using upto_zero.
        + specialize (IH (bound_decrement b) e c' k Hk). revert IH. unfold yields.
          destruct (possessive_generic f mx w (bound_decrement b) e c' k) as [c2 e2 [|]| | |]; auto.
          * intros (j & t' & c1 & Ha & Hb' & Hc). exists j, (t ++ t'), c1. repeat split; auto.
            -- eapply upto_step; eauto.
            -- apply after_trans with c'; auto. apply after_nil_r with c; [|exact H2].
               intros id Hw. right. now rewrite (H3 id Hw).
          * intros Ha. now apply after_nil_l with c'.
      - apply yields_here; auto using upto_zero. eapply committed_fail; eauto.
    Qed.
  End Text.

  Local Notation tk := (takes cf base).
  Local Notation mm f := (m cf names base f 0).

  Lemma iter_takes x q : forall i j t, iter (tk x) q i j t -> takes_all cf base (repeat x q) i j t.
  Proof.
    induction q as [|q IH]; intros i j t H; cbn in *.
    - destruct H as [-> ->]. constructor.
    - destruct H as (h & t1 & t2 & H1 & H2 & ->). econstructor; eauto.
  Qed.

  Lemma one_takes x i j t : is_class x = true -> one base (match_one cf x) i j t -> tk x i j t.
  Proof.
    intros Hx (-> & Hc & ->). apply tk_class; auto. unfold char_at in *.
    destruct (nth_error base i); [|discriminate]. now rewrite <- match_one_accepts.
  Qed.

  Lemma iter_one_takes x q : is_class x = true -> forall i j t,
    iter (one base (match_one cf x)) q i j t -> iter (tk x) q i j t.
  Proof.
    intros Hx. induction q as [|q IH]; intros i j t H; cbn in *; auto.
    destruct H as (h & t1 & t2 & H1 & H2 & ->). exists h, t1, t2. repeat split; auto.
    now apply one_takes.
  Qed.

  Lemma upto_one_takes x b i j t : is_class x = true ->
    upto b (one base (match_one cf x)) i j t -> upto b (tk x) i j t.
  Proof. intros Hx (q & H1 & H2). exists q. split; auto. now apply iter_one_takes. Qed.

  Lemma block_takes l : forallb trivial l = true -> forall i j t,
    block base (map (match_one cf) l) i j t -> takes_all cf base l i j t.
  Proof.
    induction l as [|x r IH]; intros Ht i j t (-> & Hc & ->); cbn in *.
    - rewrite Nat.add_0_r. constructor.
    - apply andb_true_iff in Ht as [Hx Hr]. rewrite trivial_is_class in Hx.
      change (@nil (N * (nat * nat))) with (@nil (N * (nat * nat)) ++ []).
      apply ta_cons with (S i).
      + apply one_takes; auto. repeat split. specialize (Hc 0 _ eq_refl). now rewrite Nat.add_0_r in Hc.
      + apply IH; auto. repeat split; [rewrite map_length; lia|].
        intros d p Hd. replace (S i + d) with (i + S d) by lia. now apply Hc.
  Qed.

  Lemma traces_weaken mx (R R' : rel) : (forall i j t, R i j t -> R' i j t) -> traces mx R -> traces mx R'.
  Proof. intros H Hm cur c k Hk. eapply yields_weaken; [|apply Hm; auto]. auto. Qed.

  Lemma traces_fixed_backtracking x mx n : traces mx (tk x) ->
    traces (fixed_backtracking cf base x mx n) (iter (tk x) (N.to_nat n)).
  Proof.
    intros Hm cur c k Hk. unfold fixed_backtracking. destruct (trivial x) eqn:Hx.
    - rewrite trivial_is_class in Hx.
      destruct (distance_less_than _ _ _ _); [apply after_refl|]. destruct (is_random cf).
      + destruct (unroll cf).
        * eapply yields_weaken; [|apply traces_block_random; auto].
          intros j t Hb. apply iter_one_takes; auto. now apply block_repeat.
        * eapply yields_weaken; [|apply (traces_loop_random base _ _ 0); auto; lia].
          intros j t Hb. now apply iter_one_takes.
      + eapply yields_weaken; [|apply traces_forward; auto]. intros j t Hb. now apply iter_one_takes.
    - destruct (unroll cf); [now apply traces_unrolled|now apply traces_non_unrolled].
  Qed.

  Lemma traces_fixed md n x mx : traces mx (tk x) -> (md = Possessive -> quiet (tk x)) ->
    traces (fixed_match cf base md n x mx) (iter (tk x) (N.to_nat n)).
  Proof.
    intros Hm Hq cur c k Hk. unfold fixed_match.
    assert (H1 : forall i j t, tk x i j t -> iter (tk x) 1 i j t).
    { intros i j t H. exists j, t, []. rewrite app_nil_r. repeat split; auto. }
    destruct (N.eqb_spec n 0) as [->|]; [apply yields_here; auto using after_refl; now split|].
    destruct (N.eqb_spec n 1) as [->|].
    - change (N.to_nat 1) with 1. pose proof (traces_weaken _ _ _ H1 Hm) as Hm1.
      destruct md; auto. destruct (trivial x); auto.
      refine (traces_weaken _ _ _ H1 (traces_atomic _ _ Hm (Hq eq_refl)) cur c k Hk).
    - destruct md; try now apply traces_fixed_backtracking.
      apply (traces_atomic (fixed_backtracking cf base x mx n)); auto.
      + now apply traces_fixed_backtracking.
      + apply quiet_iter. auto.
  Qed.

  Lemma traces_between md b w x mx : traces mx (tk x) -> (md = Possessive -> quiet (tk x)) ->
    traces (between_bounds cf base md b w x mx) (upto b (tk x)).
  Proof.
    intros Hm Hq cur c k Hk. unfold between_bounds. set (fuel := loop_fuel b (length base) cur).
    assert (Htr : trivial x = true -> forall mt, traces mt (upto b (one base (match_one cf x))) ->
              yields (upto b (tk x)) cur c k (mt cur c k)).
    { intros Ht mt Hmt. rewrite trivial_is_class in Ht. eapply yields_weaken; [|apply Hmt; auto].
      intros j t. now apply upto_one_takes. }
    destruct md.
    3: { destruct (trivial x) eqn:Ht.
         - exact (Htr eq_refl _ (traces_possessive_trivial base _ fuel b)).
         - apply traces_possessive_generic; auto. }
    all: destruct (xorb _ _);
      [destruct (trivial x) eqn:Ht; cbn [andb];
        [destruct (is_bidirectional cf);
          [exact (Htr eq_refl _ (traces_greedy_trivial base _ fuel b))|now apply traces_greedy_generic]
        |now apply traces_greedy_generic]
      |destruct (trivial x) eqn:Ht;
        [exact (Htr eq_refl _ (traces_lazy_trivial base _ fuel b))|now apply traces_lazy_generic]].
  Qed.

  Lemma traces_rep md lo hi x mx : match hi with Fin h => (lo <= h)%N | Inf => True end ->
    traces mx (tk x) -> (md = Possessive -> quiet (tk x)) ->
    traces (rep_match cf base md lo hi x mx) (tk (Rep md lo hi x)).
  Proof.
    intros Hb Hm Hq cur c k Hk. unfold rep_match.
    set (w := is_infinity hi && zlm x). set (b := bound_subtract hi lo).
    assert (Hrep : forall i j t q, allowed lo hi q -> iter (tk x) q i j t -> tk (Rep md lo hi x) i j t).
    { intros i j t q Ha Hi. eapply tk_rep; eauto. now apply iter_takes. }
    destruct (match hi with Fin h => N.eqb lo h | Inf => false end) eqn:Ef.
    - eapply yields_weaken; [|apply traces_fixed; auto]. intros j t Hi.
      apply Hrep with (N.to_nat lo); auto. destruct hi as [h|]; [|discriminate].
      apply N.eqb_eq in Ef. split; lia.
    - destruct (N.eqb_spec lo 0) as [->|Hlo]; cbn [is_zero]; change (is_zero 0) with true.
      + eapply yields_weaken; [|apply traces_between; auto]. intros j t (q & Hw & Hi).
        apply Hrep with q; auto. split; [lia|]. subst b. destruct hi as [h|]; cbn in *; auto; lia.
      + unfold is_zero. rewrite (proj2 (N.eqb_neq _ _) Hlo).
        pose proof (traces_then _ _ _ _ (traces_fixed md lo x mx Hm Hq) (traces_between md b w x mx Hm Hq)
                      cur c k Hk) as H.
        eapply yields_weaken; [|exact H]. intros j t (h & t1 & t2 & H1 & (q & Hw & H2) & ->).
        apply Hrep with (N.to_nat lo + q); [|eapply iter_app; eauto].
        split; [lia|]. subst b. destruct hi as [h'|]; cbn in *; auto; lia.
  Qed.

  Lemma traces_seq f l : l <> [] -> (forall x, In x l -> traces (mm f x) (tk x)) ->
    traces (seq_match cf base (mm f) l) (takes_all cf base l).
  Proof.
    induction l as [|x r IH]; intros Hl Hx cur c k Hk; [easy|].
    destruct r as [|y r'].
    - eapply yields_weaken; [|apply Hx; cbn; auto]. intros j t H.
      rewrite <- (app_nil_r t). econstructor; eauto. constructor.
    - rewrite seq_match_cons by discriminate. remember (y :: r') as r.
      destruct (forallb trivial (x :: r)) eqn:Ht.
      + destruct (distance_less_than _ _ _ _); [apply after_refl|].
        destruct (is_random cf);
          (eapply yields_weaken;
            [|first [apply traces_block_random; auto|apply traces_block_forward; auto]];
           intros j t; now apply block_takes).
      + assert (Hr : traces (seq_match cf base (mm f) r) (takes_all cf base r)).
        { apply IH; [subst r; discriminate|]. intros z Hz. apply Hx. now right. }
        pose proof (traces_then _ _ _ _ (Hx x (or_introl eq_refl)) Hr cur c k Hk) as H.
        eapply yields_weaken; [|exact H]. intros j t (h & t1 & t2 & H1 & H2 & ->).
        econstructor; eauto.
  Qed.

  Lemma traces_alt f l : (forall x, In x l -> traces (mm f x) (tk x)) ->
    traces (alt_match cf base (mm f) l) (fun i j t => exists x, In x l /\ tk x i j t).
  Proof.
    induction l as [|x r IH]; intros Hx cur c k Hk; [exact I|].
    destruct r as [|y r'].
    - eapply yields_weaken; [|apply Hx; cbn; auto]. intros j t H. exists x. cbn. auto.
    - rewrite alt_match_cons by discriminate. remember (y :: r') as r.
      destruct (forallb trivial (x :: r)) eqn:Ht.
      + eapply yields_weaken; [|apply traces_trivial; auto]. intros j t (-> & Hc & ->).
        unfold char_at in Hc. destruct (nth_error base cur) as [a|] eqn:E; [|discriminate].
        apply existsb_exists in Hc as (z & Hz & Hm). exists z. split; auto.
        rewrite forallb_forall in Ht. apply one_takes; [rewrite <- trivial_is_class; auto|].
        repeat split. unfold char_at. now rewrite E.
      + apply yields_or_else.
        * eapply yields_weaken; [|apply Hx; cbn; auto]. intros j t H. exists x. cbn. auto.
        * intros c' Ha. apply yields_pre with c'; auto.
          eapply yields_weaken; [|apply IH; auto]; [|intros z Hz; apply Hx; now right].
          intros j t (z & Hz & H). exists z. split; auto. now right.
  Qed.

  Lemma backref_loop_yields (R : rel) tgt : forall cur0 cur c k, falls k ->
    (forall j, cur <= j -> R cur0 j []) ->
    yields R cur0 c k (backref_loop cf base tgt cur c k).
  Proof.
    induction tgt as [|a r IH]; intros cur0 cur c k Hk HR; cbn [backref_loop].
    - apply yields_here; auto using after_refl.
    - apply yields_deref. intros b _. destruct (backref_char_eq cf a b); [|apply after_refl].
      apply IH; auto. intros j Hj. apply HR. lia.
  Qed.

  Lemma traces_backref i (R : rel) : (forall cur j, cur <= j -> R cur j []) ->
    traces (backref_match cf base 0 i) R.
  Proof.
    intros HR cur c k Hk. unfold backref_match. destruct (nth_error c i) as [v|]; [|exact I].
    destruct (match v with Some p => p | None => (0, 0) end) as [b e].
    destruct (distance_less_than _ _ _ _); [apply after_refl|].
    destruct (Nat.ltb e b || Nat.ltb (len base) e); [exact I|].
    apply backref_loop_yields; auto.
  Qed.

  (** The watched groups do not occur in committed places. *)
  Definition watchable (n : node) : Prop := forall id, W id -> ~ committed n id.
  Definition unwatched (n : node) : Prop := forall id y, W id -> ~ group_in n id y.

  Lemma takes_quiet n : unwatched n -> quiet (tk n).
  Proof.
    intros Hn i j t H id Hw.
    revert Hn. refine (takes_mind cf base (fun n i j t _ => unwatched n -> latest id t = None)
      (fun l i j t _ => (forall x, In x l -> unwatched x) -> latest id t = None)
      _ _ _ _ _ _ _ _ _ _ _ _ _ n i j t H); clear - Hw; intros; auto.
    - apply H. intros i' y Hi Hg. apply (H0 i' y Hi). now constructor.
    - apply H. intros x Hx i' y Hi Hg. apply (H0 i' y Hi). econstructor; eauto.
    - apply H. intros i' y Hi Hg. apply (H0 i' y Hi). econstructor; eauto.
    - rewrite latest_app. cbn. destruct (N.eqb_spec id0 id) as [->|].
      + exfalso. apply (H0 id x Hw). constructor.
      + apply H. intros i' y Hi Hg. apply (H0 i' y Hi). now constructor.
    - apply H. intros z Hz. apply repeat_spec in Hz. subst z.
      intros i' y Hi Hg. apply (H0 i' y Hi). now constructor.
    - rewrite latest_app. rewrite H0; [|intros z Hz; apply H1; now right].
      apply H. apply H1. now left.
  Qed.

  (** A run of a node without watched groups does not change them. *)
  Lemma unwatched_run f rd n cur c k : unwatched n -> k = success ->
    match m cf names base f rd n cur c k with
    | Res c' _ _ => after [] c' c
    | _ => True
    end.
  Proof.
    intros Hn ->.
    pose proof (keeps_captures cf names base (fun c' => forall id, W id -> cell_of c' id = cell_of c id)
                  (fun id => ~ W id)) as K.
    assert (P : post (fun c' => forall id, W id -> cell_of c' id = cell_of c id)
                  (m cf names base f rd n cur c success)).
    { apply K; auto.
      - intros i c1 c2 Hi H E id Hw. rewrite (cell_of_clear _ _ _ id E).
        destruct (N.eqb_spec i id) as [->|]; [contradiction|auto].
      - intros r i nm b e c1 c2 Hi H E id Hw. unfold store in E.
        destruct (nth_error _ _); [|discriminate]. destruct (name_eqb _ _); [|discriminate].
        destruct r as [|[|r]]; try discriminate; rewrite (cell_of_set _ _ _ _ id E);
          (destruct (N.eqb_spec i id) as [->|]; [contradiction|auto]).
      - intros i y Hg Hi. exact (Hn i y Hi Hg).
      - intros j c1 H. exact H. }
    destruct (m _ _ _ _ _ _ _ _ _); auto. intros id Hw. right. cbn. now apply P.
  Qed.

End Held.

Section Traces.
  Variable cf : config.
  Variable names : list group_name.
  Variable base : list ascii.
  Local Notation tk := (takes cf base).
  Local Notation mm f := (m cf names base f 0).

  Theorem held_traces : forall f W n, compiles cf names f 0 n = true -> watchable W n ->
    traces W (mm f n) (tk n).
  Proof.
    induction f as [|f IH]; intros W n Hc Hw; [discriminate|].
    assert (Htest : forall cur c k (b : bool), falls W k -> is_position_test n = true ->
              (b = true -> matches cf base n cur cur) ->
              yields W (tk n) cur c k (assert_that b cur c k)).
    { intros cur c k b Hk Hp Hb. unfold assert_that. destruct b; [|apply after_refl].
      apply yields_here; auto using after_refl. apply tk_test; auto. }
    assert (Hkey : forall cur c k, falls W k -> is_position_test n = true ->
              matches cf base n cur cur -> yields W (tk n) cur c k (k cur c)).
    { intros cur c k Hk Hp Hb. apply yields_here; auto using after_refl. now apply tk_test. }
    assert (Hclass : is_class n = true -> traces W (match_trivial base (match_one cf n)) (tk n)).
    { intros Hx. eapply traces_weaken; [|apply traces_trivial]. intros i j t. now apply one_takes. }
    destruct n as [| | | | | | |ch|ra rb|l|n|l|l|id name n|mode lo hi n|id|nm|d n]; intros cur c k Hk; cbn [m];
      change (view base 0) with base.
    - apply Hkey; auto. reflexivity.
    - destruct (Nat.eqb cur 0) eqn:E0.
      { apply Hkey; auto. cbn. unfold at_line_start. now rewrite E0. }
      destruct (multiline cf) eqn:ML; [|apply after_refl].
      destruct (is_bidirectional cf); [|exact I]. apply yields_deref. intros a Ha.
      apply Htest; auto. intros Hb. cbn. split; auto. unfold at_line_start. rewrite ML, E0. cbn.
      destruct cur as [|cur]; [discriminate|]. replace (S cur - 1) with cur in Ha by lia.
      cbn. unfold char_at. rewrite Ha. now rewrite linebreak_newline in Hb.
    - apply Htest; auto. intros Hb. apply Nat.eqb_eq in Hb. cbn. auto.
    - destruct (Nat.eqb cur (length base)) eqn:E0.
      { apply Hkey; auto. cbn. unfold at_line_end. now rewrite E0. }
      destruct (multiline cf) eqn:ML; [|apply after_refl]. apply yields_deref. intros a Ha.
      apply Htest; auto. intros Hb. cbn. split; auto. unfold at_line_end. rewrite ML, E0. cbn.
      unfold char_at. rewrite Ha. now rewrite linebreak_newline in Hb.
    - apply Htest; auto. intros Hb. apply Nat.eqb_eq in Hb. cbn. auto.
    - destruct (negb (is_bidirectional cf)); [exact I|].
      assert (Ha : forall b, b = char_before base is_word_char cur ->
                yields W (tk WordB) cur c k (if Nat.eqb cur (length base)
                 then assert_that (xorb b false) cur c k
                 else deref base cur (fun a =>
                        assert_that (xorb b (match_one cf n_word a)) cur c k))).
      { intros b ->. destruct (Nat.eqb_spec cur (length base)) as [->|].
        - apply Htest; auto. intros Hb. cbn. split; auto. unfold at_word_boundary.
          unfold char_at. rewrite (proj2 (nth_error_None base (length base))) by lia. exact Hb.
        - apply yields_deref. intros a Ha. apply Htest; auto. intros Hb. cbn. split; auto.
          unfold at_word_boundary. unfold char_at. rewrite Ha.
          now rewrite word_word_char in Hb. }
      destruct cur as [|cur]; cbn [Nat.eqb]; [now apply Ha|].
      apply yields_deref. intros a Hn. apply Ha. replace (S cur - 1) with cur in Hn by lia.
      cbn. unfold char_at. rewrite Hn. apply word_word_char.
    - now apply Hclass.
    - now apply Hclass.
    - now apply Hclass.
    - now apply Hclass.
    - cbn [compiles] in Hc. apply andb_true_iff in Hc as [Hta Hc].
      destruct (is_assertion n) eqn:A.
      + pose proof (is_assertion_not_trivial n A) as T. rewrite trivial_is_class in T.
        assert (Hu : unwatched W n). { intros id y Hi Hg. apply (Hw id Hi). econstructor; eauto. }
        pose proof (unwatched_run cf names base W f 0 n cur c success Hu eq_refl) as Hr.
        destruct (mm f n cur c success) as [c' e [|]| | |]; cbn; auto; try exact I.
        apply yields_here; auto. now apply tk_neg.
      + rewrite orb_false_r, trivial_is_class in Hta. now apply Hclass.
    - cbn [compiles] in Hc. destruct l as [|x0 l0] eqn:El; [discriminate|]. rewrite <- El in *.
      rewrite forallb_forall in Hc. eapply yields_weaken; [|apply traces_seq; auto].
      + intros j t. apply tk_seq.
      + subst l. discriminate.
      + intros x Hx. apply IH; auto. intros id Hi Hcm. apply (Hw id Hi). econstructor; eauto.
    - cbn [compiles] in Hc. destruct l as [|x0 l0] eqn:El; [discriminate|]. rewrite <- El in *.
      rewrite forallb_forall in Hc. eapply yields_weaken; [|apply traces_alt; auto].
      + intros j t (x & Hx & Ht). eapply tk_alt; eauto.
      + intros x Hx. apply IH; auto. intros id' Hi Hcm. apply (Hw id' Hi). econstructor; eauto.
    - (* Cap *) cbn [compiles] in Hc. apply andb_true_iff in Hc as [_ Hc].
      set (W' := fun i => W i /\ i <> id).
      assert (Hx : traces W' (mm f n) (tk n)).
      { apply IH; auto. intros i [Hi _] Hcm. apply (Hw i Hi). now constructor. }
      set (k' := fun next c' => match store names base 0 id name cur next c' with
                                | Some c'' => k next c''
                                | None => IllFormed end).
      assert (Hst : forall next c1 c2, store names base 0 id name cur next c1 = Some c2 ->
                forall i, cell_of c2 i = if N.eqb id i then Some (cur, next) else cell_of c1 i).
      { intros next c1 c2 E i. unfold store in E. destruct (nth_error _ _); [|discriminate].
        destruct (name_eqb _ _); [|discriminate]. now rewrite (cell_of_set _ _ _ _ i E). }
      assert (Hk' : falls W' k').
      { intros j c1 c2 e E i [Hi Hne]. unfold k' in E.
        destruct (store names base 0 id name cur j c1) as [c3|] eqn:Es; [|discriminate].
        specialize (Hk _ _ _ _ E i Hi). rewrite (Hst _ _ _ Es i) in Hk.
        destruct (N.eqb_spec id i); [congruence|exact Hk]. }
      specialize (Hx cur c k' Hk'). fold k'.
      destruct (mm f n cur c k') as [c' e [|]| | |] eqn:E; cbn [or_else]; auto; try exact I.
      + destruct Hx as (j & t & c1 & H1 & H2 & H3). unfold k' in H3.
        destruct (store names base 0 id name cur j c1) as [c2|] eqn:Es; [|discriminate].
        exists j, (t ++ [(id, (cur, j))]), c2. repeat split; auto; [now constructor|].
        intros i Hi. rewrite (Hst _ _ _ Es i), latest_app. cbn [latest].
        destruct (N.eqb_spec id i) as [->|Hne]; [now right|]. apply H2. split; auto.
      + destruct (clear_cell (N.to_nat id) c') as [c2|] eqn:Ec; [|exact I].
        intros i Hi. rewrite (cell_of_clear _ _ _ i Ec). destruct (N.eqb_spec id i) as [->|Hne].
        * left. apply clear_value_empty.
        * apply Hx. split; auto.
    - (* Rep *) cbn [compiles] in Hc. apply andb_true_iff in Hc as [Hc _].
      destruct (match hi with Fin h => N.eqb h 0 | Inf => false end) eqn:Hz.
      { destruct hi as [h|]; [|discriminate]. apply N.eqb_eq in Hz. subst h.
        apply andb_true_iff in Hc as [Hc _]. apply N.leb_le in Hc. assert (lo = 0%N) as -> by lia.
        cbn. apply yields_here; auto using after_refl. apply tk_rep with 0; [split; lia|]. constructor. }
      assert (Hcx : compiles cf names f 0 n = true).
      { destruct hi as [h|]; auto. apply andb_true_iff in Hc as [_ Hc]. now rewrite Hz in Hc. }
      apply traces_rep; auto.
      + destruct hi as [h|]; auto. apply andb_true_iff in Hc as [Hc _]. now apply N.leb_le.
      + apply IH; auto. intros i Hi Hcm. apply (Hw i Hi). now constructor.
      + intros ->. apply takes_quiet. intros i y Hi Hg. apply (Hw i Hi). econstructor; eauto.
    - apply traces_backref; auto. intros. now apply tk_backref.
    - destruct (unique_position _ _); [|exact I]. apply traces_backref; auto. intros. now apply tk_named_backref.
    - assert (Hu : unwatched W n). { intros i y Hi Hg. apply (Hw i Hi). econstructor; eauto. }
      cbn [compiles] in Hc. destruct d.
      + assert (Hx : traces W (mm f n) (tk n)).
        { apply IH; auto. intros i Hi Hcm. destruct (committed_group _ _ Hcm) as [y Hy].
          exact (Hu i y Hi Hy). }
        pose proof (takes_quiet cf base W n Hu) as Hq.
        destruct (trivial n) eqn:T.
        * rewrite trivial_is_class in T. destruct (Nat.eqb cur _); [apply after_refl|].
          apply yields_deref. intros a Ha. unfold assert_that.
          destruct (match_one cf n a) eqn:M; [|apply after_refl].
          apply yields_here; auto using after_refl. apply tk_ahead with (S cur). apply tk_class; auto.
          unfold char_at. rewrite Ha. now rewrite <- match_one_accepts.
        * destruct (mm f n cur c success) as [c' e [|]| | |] eqn:E; cbn; auto; try exact I.
          -- destruct (committed_run W _ _ _ _ _ _ Hx Hq E) as (t & H1 & H2 & H3).
             apply yields_k with t; auto; [eapply tk_ahead; eauto|].
             apply after_nil_r with c; [|exact H2]. intros i Hi. right. now rewrite (H3 i Hi).
          -- exact (committed_fail W _ _ _ _ _ _ Hx E).
      + destruct (negb (is_bidirectional cf)); [exact I|]. destruct (trivial n) eqn:T.
        * destruct (Nat.eqb cur 0); [apply after_refl|]. apply yields_deref. intros a Ha.
          unfold assert_that. destruct (match_one cf n a); [|apply after_refl].
          apply yields_here; auto using after_refl. apply tk_behind.
        * assert (Hui : unwatched W (invert n)).
          { intros i y Hi Hg. destruct (group_in_invert _ _ _ Hg) as [z Hz]. exact (Hu i z Hi Hz). }
          pose proof (unwatched_run cf names base W f 1 (invert n) (length base - cur) c success Hui eq_refl) as Hr.
          destruct (m cf names base f 1 (invert n) (length base - cur) c success) as [c' e [|]| | |];
            cbn; auto; try exact I.
          apply yields_here; auto. apply tk_behind.
  Qed.
End Traces.

(** ** Calls *)

Section Call.
  Variable cf : config.
  Variable n : node.
  Variable s : list ascii.
  Hypothesis Hc : compilable cf n = true.
  Local Notation names := (group_names n).

  Definition open_group (id : N) : Prop := id <> 0%N /\ ~ committed n id.

  Lemma run_length cur c k c' e b : length c = length names ->
    k = success \/ k = equals (length s) ->
    node_match cf names s 0 n cur c k = Res c' e b -> length c' = length names.
  Proof.
    intros Hl Hk E.
    pose proof (keeps_captures cf names s (fun c => length c = length names) (fun _ => True)) as K.
    assert (P : post (fun c => length c = length names) (node_match cf names s 0 n cur c k)).
    { apply K; auto.
      - intros i c1 c2 _ H E'. apply clear_cell_length in E'. congruence.
      - intros r i nm b' e' c1 c2 _ H E'. unfold store in E'.
        destruct (nth_error _ _); [|discriminate]. destruct (name_eqb _ _); [|discriminate].
        destruct r as [|[|r]]; try discriminate; apply set_cell_length in E'; congruence.
      - intros i x Hx. exact I.
      - intros j c1 H. destruct Hk as [->| ->]; exact H. }
    rewrite E in P. exact P.
  Qed.

  Lemma run_held cur c k : k = success \/ k = equals (length s) ->
    match node_match cf names s 0 n cur c k with
    | Res c' e true => exists t, takes cf s n cur e t /\ after open_group t c' c
    | Res c' e false => after open_group [] c' c
    | _ => True
    end.
  Proof.
    intros Hk.
    assert (Hf : falls open_group k) by (destruct Hk as [->| ->]; [apply falls_success|apply falls_equals]).
    pose proof (held_traces cf names s (size n) open_group n Hc (fun id H => proj2 H) cur c k Hf) as H.
    unfold node_match. destruct (m _ _ _ _ _ _ _ _ _) as [c' e [|]| | |]; auto.
    destruct H as (j & t & c1 & H1 & H2 & H3). exists t.
    assert (c1 = c' /\ j = e) as [-> ->].
    { destruct Hk as [->| ->]; unfold success, equals in H3; injection H3; auto. }
    auto.
  Qed.

  Lemma cell_of_group0 b e c id : id <> 0%N -> cell_of (set_group0 b e c) id = cell_of c id.
  Proof. intros Hi. unfold cell_of. destruct c as [|x r]; auto. cbn. destruct (N.to_nat id) eqn:E; auto; lia. Qed.

  Lemma cell_of_initial id : cell_of (initial_captures n) id = None.
  Proof.
    unfold cell_of, initial_captures. generalize (N.to_nat id).
    induction names as [|x l IH]; intros [|i]; cbn; auto.
  Qed.

  Definition belongs (c : caps) : Prop := exists b e t, group0 c = Some (b, e)
    /\ takes cf s n b e t /\ forall id, open_group id -> held t id (cell_of c id).

  Lemma after_belongs cur e t c c' : length c' = length names -> after open_group [] c (initial_captures n) ->
    takes cf s n cur e t -> after open_group t c' c -> belongs (set_group0 cur e c').
  Proof.
    intros Hl H0 Ht Ha. exists cur, e, t. split; [now apply (group0_set_length n)|]. split; auto.
    intros id Hi. rewrite cell_of_group0 by apply Hi. unfold held.
    destruct (after_nil_l _ _ _ _ _ H0 Ha id Hi) as [H|H]; [now left|]. right. rewrite H.
    destruct (latest id t); auto. apply cell_of_initial.
  Qed.

  Lemma block_held k c e : k = success \/ k = equals (length s) ->
    (match node_match cf names s 0 n 0 (initial_captures n) k with
     | Res c' e b => Res (set_group0 0 e c') e b
     | o => o
     end) = Res c e true -> belongs c.
  Proof.
    intros Hk E. pose proof (run_held 0 (initial_captures n) k Hk) as H.
    destruct (node_match _ _ _ _ _ _ _ _) as [c' e' [|]| | |] eqn:Em; try discriminate.
    injection E as <- _. destruct H as (t & H1 & H2).
    eapply after_belongs; [|apply after_refl|exact H1|exact H2].
    exact (run_length _ _ _ _ _ _ (initial_length n) Hk Em).
  Qed.

  Lemma search_held : forall fuel cur c c' e, length c = length names ->
    after open_group [] c (initial_captures n) ->
    search_loop fuel cf n s cur c = Res c' e true -> belongs c'.
  Proof.
    induction fuel as [|f IH]; intros cur c c' e Hl Ha E; [discriminate|]. cbn [search_loop] in E.
    pose proof (run_held cur c success (or_introl eq_refl)) as H.
    destruct (node_match cf names s 0 n cur c success) as [c1 e1 [|]| | |] eqn:Em; try discriminate.
    - injection E as <- _. destruct H as (t & H1 & H2). eapply after_belongs; [|exact Ha|exact H1|exact H2].
      exact (run_length _ _ _ _ _ _ Hl (or_introl eq_refl) Em).
    - destruct (Nat.eqb cur (length s)); [discriminate|]. eapply IH; [| |exact E].
      + exact (run_length _ _ _ _ _ _ Hl (or_introl eq_refl) Em).
      + exact (after_nil_l _ _ _ _ _ Ha H).
  Qed.
End Call.

Theorem groups_belong_to_match r ct s call res :
  call = regex_match \/ call = regex_match_prefix \/ call = regex_search ->
  call r ct s = Returned res -> matched res = true ->
  exists b e t, group0 (groups res) = Some (b, e)
    /\ takes (config_of (flags r) ct) s (ast r) b e t
    /\ forall id, id <> 0%N -> ~ committed (ast r) id ->
         held t id (nth (N.to_nat id) (groups res) None).
Proof.
  intros Hcall E Hm.
  assert (H : belongs (config_of (flags r) ct) (ast r) s (groups res)).
  { destruct Hcall as [->|[->| ->]];
      unfold regex_match, regex_match_prefix, regex_search, invoke in E;
      (destruct (compilable (config_of (flags r) ct) (ast r)) eqn:Hc; [|discriminate]).
    - destruct (match_method _ _ _ _ _) as [c e b| | |] eqn:Em; cbn in E; try discriminate.
      injection E as <-. cbn in Hm. subst b. exact (block_held _ _ _ Hc _ _ _ (or_intror eq_refl) Em).
    - destruct (match_prefix_method _ _ _ _ _) as [c e b| | |] eqn:Em; cbn in E; try discriminate.
      injection E as <-. cbn in Hm. subst b. exact (block_held _ _ _ Hc _ _ _ (or_introl eq_refl) Em).
    - destruct (search_method _ _ _ _ _) as [c e b| | |] eqn:Em; cbn in E; try discriminate.
      injection E as <-. cbn in Hm. subst b. unfold search_method in Em.
      exact (search_held _ _ _ Hc _ _ _ _ _ (initial_length _) (after_refl _ _) Em). }
  destruct H as (b & e & t & H1 & H2 & H3). exists b, e, t. repeat split; auto.
  intros id Hi Hn. apply H3. split; auto.
Qed.

Theorem off_match_empty r ct s call res :
  call = regex_match \/ call = regex_match_prefix \/ call = regex_search ->
  call r ct s = Returned res -> matched res = true ->
  forall id, id <> 0%N -> ~ committed (ast r) id ->
  (forall b e t, group0 (groups res) = Some (b, e) ->
     takes (config_of (flags r) ct) s (ast r) b e t -> latest id t = None) ->
  cell_is_empty (nth (N.to_nat id) (groups res) None) = true.
Proof.
  intros Hcall E Hm id Hi Hc Hoff.
  destruct (groups_belong_to_match r ct s call res Hcall E Hm) as (b & e & t & H1 & H2 & H3).
  destruct (H3 id Hi Hc) as [H|H]; auto. rewrite H, (Hoff b e t H1 H2). reflexivity.
Qed.

(** For concrete trees and subjects: no group is inside an atomic construct, and
    the captures of a match. *)
Ltac show_uncommitted :=
  let H := fresh in
  intros H; vm_compute in H;
  repeat match goal with
  | H : False |- _ => destruct H
  | H : _ \/ _ |- _ => destruct H
  | H : _ = ?x |- _ => is_var x; subst x
  | H : In _ (_ :: _) |- _ => cbn in H
  | H : committed (_ _) _ |- _ => inversion H; clear H; subst
  end.

Ltac show_takes H :=
  vm_compute in H;
  repeat match goal with
  | H : False |- _ => destruct H
  | H : _ \/ _ |- _ => destruct H
  | H : _ = ?x |- _ => is_var x; subst x
  | H : char_at _ _ _ = true |- _ => vm_compute in H; discriminate H
  | H : char_at _ _ _ = true |- _ => clear H
  | H : is_class _ = true |- _ => first [discriminate H|clear H]
  | H : is_class _ = false |- _ => first [discriminate H|clear H]
  | H : is_position_test _ = true |- _ => first [discriminate H|clear H]
  | H : In _ (_ :: _) |- _ => cbn in H
  | H : allowed ?lo (Fin ?lo) ?q |- _ =>
      let E := fresh in assert (E : q = N.to_nat lo) by (unfold allowed in H; lia);
      clear H; subst q; cbn in *; change (Pos.to_nat 1) with 1 in *; cbn in *
  | H : takes _ _ BeginLine ?i _ _ |- _ => inversion H; clear H; subst
  | H : matches _ _ BeginLine _ _ |- _ => inversion H; clear H; subst
  | H : takes _ _ (_ _) _ _ _ |- _ => inversion H; clear H; subst
  | H : takes_all _ _ [] _ _ _ |- _ => inversion H; clear H; subst
  | H : takes_all _ _ (_ :: _) _ _ _ |- _ => inversion H; clear H; subst
  end; try reflexivity.
