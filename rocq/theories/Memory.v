(** Finite memory: what it means for a call, and which calls have it. *)
From Verif Require Import Matcher Api Basics Spec Paths Adequacy Walk Exact Actual Rewrites Calls Machines.
From Verif Require Tracks Tracking.

(** A machine with the states [0 .. size - 1] reads the text once from left to right; the
    state it ends in decides whether the call matches. *)
Definition decided_by (o : list ascii -> call match_res)
  (size start : nat) (step : nat -> ascii -> nat) (good : nat -> bool) : Prop :=
  forall s, fold_left step s start < size
    /\ exists res, o s = Returned res /\ matched res = good (fold_left step s start).

Definition finite_memory (o : list ascii -> call match_res) : Prop :=
  exists size start step good, decided_by o size start step good.

(** The same with the machine given. *)
Definition memory (o : list ascii -> call match_res) : Type :=
  {size : nat & {start : nat & {step : nat -> ascii -> nat & {good : nat -> bool | decided_by o size start step good}}}}.

Lemma memory_finite o : memory o -> finite_memory o.
Proof. intros (size & start & step & good & H). now exists size, start, step, good. Qed.

(** ** States as numbers *)

Fixpoint index_of {T} (dec : forall x y : T, {x = y} + {x <> y}) (x : T) (l : list T) : nat :=
  match l with [] => 0 | y :: r => if dec x y then 0 else S (index_of dec x r) end.

Lemma index_of_in {T} dec (x d : T) l : In x l ->
  index_of dec x l < length l /\ nth (index_of dec x l) l d = x.
Proof.
  induction l as [|y r IH]; [easy|]. intros H. cbn. destruct (dec x y) as [->|Hn]; [split; [lia|reflexivity]|].
  destruct H as [H|H]; [congruence|]. destruct (IH H). split; [lia|assumption].
Qed.

Lemma regular_numbers (b : list ascii -> nat -> bool) : regular b ->
  {size : nat & {start : nat & {step : nat -> ascii -> nat & {good : nat -> bool
  | forall t : list ascii, fold_left step t start < size /\ b t 0 = good (fold_left step t start)}}}}.
Proof.
  intros (P & Q & fp & fq & p0 & ps & q0 & qs & g & Hg).
  set (fT := fin_tuple fq (length (all fq))).
  set (start := tab fq (fun q => q)).
  set (step := fun (tb : table fq Q) c => tab fq (fun q => entry fq q0 tb (qs c q))).
  set (enc := fun tb => index_of (eq_dec fT) tb (all fT)).
  set (dec := fun n => nth n (all fT) start).
  assert (Hed : forall tb, enc tb < length (all fT) /\ dec (enc tb) = tb).
  { intros tb. apply index_of_in, all_in. }
  exists (length (all fT)), (enc start), (fun n c => enc (step (dec n) c)), (fun n => g p0 (entry fq q0 (dec n) q0)).
  intros t.
  assert (Hn : forall t tb, fold_left (fun n c => enc (step (dec n) c)) t (enc tb) = enc (fold_left step t tb)).
  { clear t. induction t as [|c t IH]; intros tb; [reflexivity|]. cbn [fold_left].
    destruct (Hed tb) as [_ ->]. apply IH. }
  rewrite Hn. split; [apply Hed|]. destruct (Hed (fold_left step t start)) as [_ ->].
  rewrite Hg by lia. cbn [firstn fold_left skipn]. f_equal.
  assert (H : forall u q, entry fq q0 (fold_left step u start) q = fold_right qs q u).
  { intros u. induction u as [|c u IH] using rev_ind; intros q; [exact (entry_tab fq q0 (fun q => q) q)|].
    rewrite fold_left_app, fold_right_app. cbn [fold_left fold_right]. unfold step at 1. now rewrite entry_tab, IH. }
  symmetry. apply H.
Qed.

Lemma finite_memory_of (o : list ascii -> call match_res) (b : list ascii -> nat -> bool) : regular b ->
  (forall s, exists res, o s = Returned res /\ matched res = b s 0) -> memory o.
Proof.
  intros Hb Ho. destruct (regular_numbers b Hb) as (size & start & step & good & H).
  exists size, start, step, good. intros s. destruct (H s) as [H1 H2]. split; [assumption|].
  destruct (Ho s) as (res & E & M). exists res. split; [assumption|congruence].
Qed.

(** ** The calls *)

Section Calls.
  Variables (r : regex) (ct : category).
  Hypothesis Hu : usable r ct.
  Hypothesis Hb : backref_free (ast r) = true.

  Let cf := config_of (flags r) ct.
  Let F : family := fun t i => walk cf t false false (ast r) i.

  Lemma F_machinable : machinable F.
  Proof.
    apply (mach_ext (ends_of cf false false (ast r))); [|now apply mach_tree].
    intros t i Hi. unfold ends_of. cbn [side]. apply W_right.
  Qed.

  Lemma F_inside : inside F.
  Proof. intros t i j Hi Hj. revert Hi Hj. apply (walk_bounded cf t false (ast r)). Qed.

  Lemma match_memory : memory (regex_match r ct).
  Proof.
    pose proof (mach_then F _ F_inside F_machinable (mach_test _ regular_last)) as Hm.
    eapply (finite_memory_of _ _ (label_of _ Hm)).
    intros s. destruct (match_exact r ct s Hu Hb) as (res & E & H). exists res. split; [assumption|].
    fold cf in H. change (walk cf s false false (ast r) 0) with (F s 0) in H. cbn beta.
    destruct (flat_map (fun i => if Nat.eqb i (length s) then [i] else []) (F s 0)) as [|j l] eqn:El.
    - apply not_true_is_false. intros Hr. apply H in Hr.
      assert (Hin : In (length s) (flat_map (fun i => if Nat.eqb i (length s) then [i] else []) (F s 0))).
      { apply in_flat_map. exists (length s). split; [assumption|]. rewrite Nat.eqb_refl. now left. }
      now rewrite El in Hin.
    - apply H. assert (Hin : In j (flat_map (fun i => if Nat.eqb i (length s) then [i] else []) (F s 0)))
        by (rewrite El; now left).
      apply in_flat_map in Hin as (i & Hi & Hj). destruct (Nat.eqb_spec i (length s)); [now subst|easy].
  Qed.

  Lemma match_prefix_memory : memory (regex_match_prefix r ct).
  Proof.
    apply (finite_memory_of _ _ (label_of _ F_machinable)).
    intros s. destruct (match_prefix_exact r ct s Hu Hb) as (res & E & H). exists res. split; [assumption|].
    unfold actual in H. fold cf in H. change (walk cf s false false (ast r) 0) with (F s 0) in H.
    destruct (F s 0); cbn in H; [assumption|now destruct H].
  Qed.

  Lemma search_memory : memory (regex_search r ct).
  Proof.
    destruct (regular_later _ (label_of _ F_machinable)) as (later & Hl & Hlater).
    apply (finite_memory_of _ _ Hl).
    intros s. destruct (search_exact r ct s Hu Hb) as (res & E & H1 & H2). exists res. split; [assumption|].
    unfold actual in H1, H2. fold cf in H1, H2.
    specialize (Hlater s 0 (Nat.le_0_l _)). destruct (matched res).
    - symmetry. apply Hlater. destruct (H1 eq_refl) as (i & e & Hi & _ & Ha & _).
      exists i. split; [lia|]. change (walk cf s false false (ast r) i) with (F s i) in Ha.
      destruct (F s i); [discriminate|reflexivity].
    - symmetry. apply not_true_is_false. rewrite Hlater. intros (j & Hj & Ha).
      specialize (H2 eq_refl j ltac:(lia)). change (walk cf s false false (ast r) j) with (F s j) in H2.
      destruct (F s j); [discriminate|now cbn in H2].
  Qed.
End Calls.

(** ** What follows from finite memory *)

Lemma dup_dec (l : list nat) : NoDup l \/ exists i j, i < j < length l /\ nth i l 0 = nth j l 0.
Proof.
  induction l as [|x r IH]; [left; constructor|].
  destruct (in_dec Nat.eq_dec x r) as [Hx|Hx].
  - right. apply (In_nth r x 0) in Hx as (j & Hj & E). exists 0, (S j). cbn. split; [lia|now symmetry].
  - destruct IH as [IH|(i & j & Hij & E)]; [left; now constructor|].
    right. exists (S i), (S j). cbn. split; [lia|assumption].
Qed.

(** Among more offsets than states two have the same state. *)
Lemma pigeonhole (f : nat -> nat) (N : nat) : (forall k, f k < N) -> exists i j, i < j <= N /\ f i = f j.
Proof.
  intros Hf. destruct (dup_dec (map f (seq 0 (S N)))) as [Hn|(i & j & Hij & E)].
  - exfalso. assert (H : incl (map f (seq 0 (S N))) (seq 0 N)).
    { intros x Hx. apply in_map_iff in Hx as (k & <- & _). apply in_seq. specialize (Hf k). lia. }
    apply NoDup_incl_length in H; [|assumption]. rewrite map_length, !seq_length in H. lia.
  - rewrite map_length, seq_length in Hij. exists i, j. split; [lia|].
    assert (G : forall k, k < S N -> nth k (map f (seq 0 (S N))) 0 = f k).
    { intros k Hk. rewrite (nth_indep _ 0 (f 0)) by (rewrite map_length, seq_length; lia).
      rewrite map_nth, seq_nth by assumption. reflexivity. }
    rewrite !G in E by lia. exact E.
Qed.

Section Machine.
  Variables (size start : nat) (step : nat -> ascii -> nat).
  Local Notation run := (fold_left step).
  Hypothesis Hrun : forall s, run s start < size.

  (** A long text has a part that can be left out or repeated. *)
  Lemma split_text s : size <= length s -> exists x y z, s = x ++ y ++ z /\ y <> []
    /\ length (x ++ y) <= size
    /\ forall k w, run (x ++ concat (repeat y k) ++ w) start = run (x ++ w) start.
  Proof.
    intros Hs. destruct (pigeonhole (fun k => run (firstn k s) start) size) as (i & j & Hij & E); [auto|].
    exists (firstn i s), (firstn (j - i) (skipn i s)), (skipn j s).
    assert (Hj : firstn i s ++ firstn (j - i) (skipn i s) = firstn j s).
    { rewrite <- (firstn_skipn i (firstn j s)). rewrite firstn_firstn, Nat.min_l by lia.
      now rewrite firstn_skipn_comm, Nat.add_comm, Nat.sub_add by lia. }
    split; [rewrite app_assoc, Hj; symmetry; apply firstn_skipn|]. split.
    { intros H. apply (f_equal (@length ascii)) in H. rewrite firstn_length, skipn_length in H. cbn in H. lia. }
    split; [rewrite Hj, firstn_length; lia|].
    intros k w. assert (G : run (concat (repeat (firstn (j - i) (skipn i s)) k)) (run (firstn i s) start)
                            = run (firstn i s) start).
    { induction k as [|k IH]; [reflexivity|]. cbn [repeat concat]. rewrite fold_left_app.
      rewrite <- (fold_left_app step (firstn i s)), Hj, <- E. exact IH. }
    now rewrite !fold_left_app, G.
  Qed.

  (** Every state that is reached is reached by a short text. *)
  Lemma short_text s : exists s', length s' < size /\ run s' start = run s start.
  Proof.
    remember (length s) as n eqn:En. revert s En. induction n as [n IH] using lt_wf_ind. intros s ->.
    destruct (Nat.lt_ge_cases (length s) size) as [H|H]; [now exists s|].
    destruct (split_text s H) as (x & y & z & E & Hy & _ & Hk).
    assert (Hl : length (x ++ z) < length s).
    { rewrite E, !app_length. destruct y; [easy|cbn; lia]. }
    destruct (IH _ Hl (x ++ z) eq_refl) as (s' & Hs' & E'). exists s'. split; [assumption|].
    rewrite E', E. specialize (Hk 1 z). cbn [repeat concat] in Hk. rewrite app_nil_r in Hk. now symmetry.
  Qed.
End Machine.

Theorem pumping o : finite_memory o ->
  exists m, forall s res, m <= length s -> o s = Returned res ->
    exists x y z, s = x ++ y ++ z /\ y <> [] /\ length (x ++ y) <= m
      /\ forall k, exists res', o (x ++ concat (repeat y k) ++ z) = Returned res' /\ matched res' = matched res.
Proof.
  intros (size & start & step & good & H). exists size. intros s res Hs E.
  destruct (split_text size start step (fun s => proj1 (H s)) s Hs) as (x & y & z & Es & Hy & Hl & Hk).
  exists x, y, z. split; [assumption|]. split; [assumption|]. split; [assumption|]. intros k.
  destruct (H (x ++ concat (repeat y k) ++ z)) as (_ & res' & E' & M'). exists res'. split; [assumption|].
  destruct (H s) as (_ & res0 & E0 & M0). assert (res0 = res) by congruence. subst res0.
  rewrite M', M0, Hk, Es. pose proof (Hk 1 z) as H1. cbn [repeat concat] in H1. rewrite app_nil_r in H1. now rewrite H1.
Qed.

(** Two machines at once. *)
Lemma short_pair n1 s1 st1 n2 s2 st2 :
  (forall t, fold_left st1 t s1 < n1) -> (forall t, fold_left st2 t s2 < n2) ->
  forall s : list ascii, exists s', length s' < n1 * n2
    /\ fold_left st1 s' s1 = fold_left st1 s s1 /\ fold_left st2 s' s2 = fold_left st2 s s2.
Proof.
  intros H1 H2 s.
  set (step := fun x c => st1 (x / n2) c * n2 + st2 (x mod n2) c).
  assert (Hp : forall t, fold_left step t (s1 * n2 + s2) = fold_left st1 t s1 * n2 + fold_left st2 t s2).
  { intros t. induction t as [|c t IH] using rev_ind; [reflexivity|]. rewrite !fold_left_app, IH. cbn [fold_left].
    unfold step. pose proof (H2 t) as B. rewrite Nat.div_add_l by lia. rewrite Nat.div_small by assumption.
    rewrite Nat.add_0_r. rewrite (Nat.add_comm (_ * n2) (fold_left st2 t s2)), Nat.mod_add, Nat.mod_small by lia.
    reflexivity. }
  assert (Hb : forall t, fold_left step t (s1 * n2 + s2) < n1 * n2).
  { intros t. rewrite Hp. pose proof (H1 t). pose proof (H2 t). nia. }
  destruct (short_text (n1 * n2) (s1 * n2 + s2) step Hb s) as (s' & Hs' & E). rewrite !Hp in E.
  rewrite !(Nat.mul_comm _ n2) in E. apply Nat.div_mod_unique in E as [X1 X2]; auto. exists s'. auto.
Qed.

(** Matched, not matched, or neither returned. *)
Definition verdict (o : call match_res) : option bool :=
  match o with Returned res => Some (matched res) | _ => None end.

(** Two calls that agree on all texts up to some length agree on all texts. *)
Theorem short_texts_suffice o1 o2 : memory o1 -> memory o2 ->
  {m : nat | (forall s, length s <= m -> verdict (o1 s) = verdict (o2 s)) -> forall s, verdict (o1 s) = verdict (o2 s)}.
Proof.
  intros (n1 & s1 & st1 & g1 & H1) (n2 & s2 & st2 & g2 & H2).
  exists (n1 * n2). intros Hshort s.
  destruct (short_pair n1 s1 st1 n2 s2 st2 (fun t => proj1 (H1 t)) (fun t => proj1 (H2 t)) s) as (s' & Hs' & X1 & X2).
  assert (E : forall x, verdict (o1 x) = Some (g1 (fold_left st1 x s1)) /\ verdict (o2 x) = Some (g2 (fold_left st2 x s2))).
  { intros x. destruct (H1 x) as (_ & q1 & F1 & M1), (H2 x) as (_ & q2 & F2 & M2). rewrite F1, F2. cbn. now rewrite M1, M2. }
  specialize (Hshort s' ltac:(lia)). destruct (E s') as [A B], (E s) as [C D].
  rewrite C, D, <- X1, <- X2, <- A, <- B. assumption.
Qed.

(** All texts up to a length. *)
Fixpoint texts (n : nat) : list (list ascii) :=
  [] :: match n with 0 => [] | S n' => flat_map (fun c => map (cons c) (texts n')) (all fin_ascii) end.

Lemma texts_in n s : length s <= n -> In s (texts n).
Proof.
  revert s. induction n as [|n IH]; intros [|c s] H; cbn in H; try (now left).
  right. apply in_flat_map. exists c. split; [apply all_in|]. apply in_map, IH. lia.
Qed.

Lemma short_decidable (P : list ascii -> Prop) n : (forall s, {P s} + {~ P s}) ->
  {forall s, length s <= n -> P s} + {exists s, ~ P s}.
Proof.
  intros dec. destruct (Forall_Exists_dec P dec (texts n)) as [H|H]; [left|right].
  - intros s Hs. rewrite Forall_forall in H. apply H. now apply texts_in.
  - apply Exists_exists in H as (s & _ & Hs). now exists s.
Qed.

Theorem agreement_decidable o1 o2 : memory o1 -> memory o2 ->
  {forall s, verdict (o1 s) = verdict (o2 s)} + {exists s, verdict (o1 s) <> verdict (o2 s)}.
Proof.
  intros H1 H2. destruct (short_texts_suffice o1 o2 H1 H2) as [m Hm].
  assert (dec : forall s, {verdict (o1 s) = verdict (o2 s)} + {verdict (o1 s) <> verdict (o2 s)})
    by (intros s; decide equality; apply bool_dec).
  destruct (short_decidable _ m dec) as [H|H]; [left; auto|right; exact H].
Qed.

(** Whether a call ever matches. *)
Theorem matching_decidable o : memory o ->
  {s : list ascii | verdict (o s) = Some true} + {forall s, verdict (o s) = Some false}.
Proof.
  intros (n & st & step & g & H).
  destruct (find (fun s => g (fold_left step s st)) (texts n)) as [s|] eqn:E; [left|right].
  - exists s. apply find_some in E as [_ E]. destruct (H s) as (_ & res & -> & M). cbn. now rewrite M, E.
  - intros s. destruct (short_text n st step (fun s => proj1 (H s)) s) as (s' & Hs' & Er).
    pose proof (find_none _ _ E s' (texts_in n s' ltac:(lia))) as F. cbn beta in F.
    destruct (H s) as (_ & res & -> & M). cbn. now rewrite M, <- Er, F.
Qed.

(** ** Backreferences need more *)

(** No machine compares the parts around a character. *)
Lemma compares_no_memory o a b : (forall n m, exists res,
    o (repeat a n ++ b :: repeat a m) = Returned res /\ (matched res = true <-> n = m)) ->
  ~ finite_memory o.
Proof.
  intros Ho (size & start & step & good & H).
  assert (Hi : forall n m, fold_left step (repeat a n) start = fold_left step (repeat a m) start -> n = m).
  { intros n m E. destruct (Ho n m) as (res & E1 & M1), (Ho m m) as (res' & E2 & M2).
    destruct (H (repeat a n ++ b :: repeat a m)) as (_ & r1 & F1 & G1).
    destruct (H (repeat a m ++ b :: repeat a m)) as (_ & r2 & F2 & G2).
    assert (r1 = res) by congruence. assert (r2 = res') by congruence. subst r1 r2.
    apply M1. rewrite G1, fold_left_app, E, <- fold_left_app, <- G2. now apply M2. }
  destruct (pigeonhole (fun k => fold_left step (repeat a k) start) size) as (i & j & Hij & E).
  { intros k. apply H. }
  apply Hi in E. lia.
Qed.

Section Copies.
  Import Tracks Tracking.
  Open Scope char_scope.

  Definition copies : node := Seq [Cap 1 None (Rep Greedy 0 Inf (Lit "a")); Lit "b"; Backref 1].

  Variables (n m : nat) (cf : config).
  Hypothesis Hcf : forall a c, accepts cf (Lit a) c = true <-> a = c.
  Hypothesis Hug : ungreedy cf = false.
  Let s := repeat "a" n ++ "b" :: repeat "a" m.

  Lemma copies_at i : nth_error s i = Some "b" -> i = n.
  Proof.
    intros H. unfold s in H. destruct (Nat.lt_trichotomy i n) as [Hi|[Hi|Hi]]; [| assumption|].
    - rewrite nth_error_app1 in H by now rewrite repeat_length. apply nth_error_In, repeat_spec in H. discriminate.
    - rewrite nth_error_app2, repeat_length in H by (rewrite repeat_length; lia).
      destruct (i - n) as [|k] eqn:E; [lia|]. cbn in H. apply nth_error_In, repeat_spec in H. discriminate.
  Qed.

  Lemma copies_a i : i < n \/ n < i <= n + m -> nth_error s i = Some "a".
  Proof.
    intros [Hi|Hi]; unfold s.
    - rewrite nth_error_app1 by now rewrite repeat_length.
      destruct (nth_error (repeat "a" n) i) eqn:E; [apply nth_error_In, repeat_spec in E; now subst|].
      apply nth_error_None in E. rewrite repeat_length in E. lia.
    - rewrite nth_error_app2, repeat_length by (rewrite repeat_length; lia).
      destruct (i - n) as [|k] eqn:E; [lia|]. cbn.
      destruct (nth_error (repeat "a" m) k) eqn:E'; [apply nth_error_In, repeat_spec in E'; now subst|].
      apply nth_error_None in E'. rewrite repeat_length in E'. lia.
  Qed.

  Lemma copies_b : nth_error s n = Some "b".
  Proof. unfold s. rewrite nth_error_app2, repeat_length, Nat.sub_diag by (rewrite repeat_length; lia). reflexivity. Qed.

  Lemma char_lit a i : char_at s (accepts cf (Lit a)) i = true <-> nth_error s i = Some a.
  Proof.
    unfold char_at. destruct (nth_error s i) as [c|]; [rewrite Hcf|]; split; congruence.
  Qed.

  Lemma loop_env fu i e y : In y (more_on (tracks cf s (Lit "a")) fu Inf (i, e)) -> snd y = e.
  Proof.
    revert i. induction fu as [|fu IH]; intros i; [easy|]. cbn [more_on tracks].
    intros H. apply in_app_or in H as [H|[<-|[]]]; [|reflexivity].
    apply in_flat_map in H as (z & Hz & Hy).
    destruct (char_at s (accepts cf (Lit "a")) i); [|easy]. destruct Hz as [<-|[]].
    cbn [fst] in Hy. destruct (Nat.eqb i (S i)); [easy|]. now apply IH in Hy.
  Qed.

  Lemma loop_reaches fu i e : i <= n -> n - i < fu -> In (n, e) (more_on (tracks cf s (Lit "a")) fu Inf (i, e)).
  Proof.
    revert i. induction fu as [|fu IH]; intros i Hi Hf; [lia|]. cbn [more_on tracks]. apply in_or_app.
    destruct (Nat.eq_dec i n) as [->|Hn]; [right; now left|left].
    apply in_flat_map. exists (S i, e).
    rewrite (proj2 (char_lit "a" i)) by (apply copies_a; lia). split; [now left|].
    cbn [fst]. destruct (Nat.eqb_spec i (S i)); [lia|]. apply IH; lia.
  Qed.

  Lemma occurs_a k i : (forall j, i <= j < i + k -> nth_error s j = Some "a") -> occurs cf s (repeat "a" k) i = true.
  Proof.
    revert i. induction k as [|k IH]; intros i H; [reflexivity|]. cbn [repeat occurs].
    rewrite (proj2 (char_lit "a" i)) by (apply H; lia). apply IH. intros j Hj. apply H. lia.
  Qed.

  Lemma firstn_copies : firstn n s = repeat "a" n.
  Proof. unfold s. rewrite firstn_app, repeat_length, Nat.sub_diag, firstn_all2 by now rewrite repeat_length.
    apply app_nil_r. Qed.

  Lemma copies_ends : In (length s) (ends_with_groups cf s copies 0) <-> n = m.
  Proof.
    assert (Hlen : length s = n + S m) by (unfold s; rewrite app_length; cbn; rewrite !repeat_length; lia).
    unfold ends_with_groups. rewrite in_map_iff.
    assert (Hc : forall e, text_of s (with_group e 1 None (0, n)) (Backref 1) = repeat "a" n).
    { intros e. unfold text_of, with_group. cbn. rewrite Nat.sub_0_r. apply firstn_copies. }
    unfold copies. cbn [tracks]. rewrite Hug. cbn [remaining N.to_nat times_on flat_map]. rewrite app_nil_r.
    set (lp := more_on _ _ _ _). split.
    - intros (y & Ey & Hy). apply in_flat_map in Hy as (z & Hz & Hy). apply in_map_iff in Hz as (w & <- & Hw).
      pose proof (loop_env _ _ _ _ Hw) as Ew. cbn [fst snd] in Hy.
      destruct (char_at s (accepts cf (Lit "b")) (fst w)) eqn:Eb; [|easy].
      apply char_lit, copies_at in Eb. rewrite Eb, Ew in Hy. cbn [flat_map] in Hy. rewrite app_nil_r in Hy.
      rewrite Hc in Hy. destruct (occurs cf s (repeat "a" n) (S n)); [|easy].
      destruct Hy as [<-|[]]. cbn [fst] in Ey. rewrite repeat_length, Hlen in Ey. lia.
    - intros E. exists (S n + n, with_group no_groups 1 None (0, n)). split; [cbn [fst]; lia|].
      apply in_flat_map. exists (n, with_group no_groups 1 None (0, n)). split.
      { apply in_map_iff. exists (n, no_groups). split; [reflexivity|]. apply loop_reaches; [lia|].
        cbn [bound_fuel fst]. lia. }
      rewrite (proj2 (char_lit "b" n)) by apply copies_b. cbn [flat_map]. rewrite app_nil_r, Hc.
      rewrite occurs_a by (intros j Hj; apply copies_a; lia). rewrite repeat_length. now left.
  Qed.
End Copies.
