(** The matcher follows the priority order of the specification: with a
    continuation that answers [kp j] at offset [j], matching answers the first
    answer along [paths]. *)
From Verif Require Import Matcher Basics Safe Impl Spec Paths Mirror.

Fixpoint first_some {A} (kp : nat -> option A) (l : list nat) : option A :=
  match l with
  | [] => None
  | j :: r => match kp j with Some x => Some x | None => first_some kp r end
  end.

Lemma first_some_app {A} (kp : nat -> option A) l1 l2 :
  first_some kp (l1 ++ l2)
  = match first_some kp l1 with Some x => Some x | None => first_some kp l2 end.
Proof. induction l1 as [|j r IH]; cbn; [reflexivity|]. destruct (kp j); auto. Qed.

Lemma first_some_flat {A} (kp : nat -> option A) g l :
  first_some kp (flat_map g l) = first_some (fun j => first_some kp (g j)) l.
Proof.
  induction l as [|j r IH]; cbn; [reflexivity|]. rewrite first_some_app.
  destruct (first_some kp (g j)); auto.
Qed.

Lemma first_some_ext {A} (kp kp' : nat -> option A) l :
  (forall j, In j l -> kp j = kp' j) -> first_some kp l = first_some kp' l.
Proof.
  induction l as [|j r IH]; intros H; cbn; [reflexivity|].
  rewrite <- H by (cbn; auto). destruct (kp j); auto. apply IH. intros. apply H. cbn. auto.
Qed.

Lemma first_some_const {A} (kp : nat -> option A) l x :
  (forall j, In j l -> j = x) -> l <> [] -> first_some kp l = kp x.
Proof.
  induction l as [|j r IH]; intros H Hn; [easy|]. cbn.
  rewrite (H j) by (cbn; auto). destruct (kp x) eqn:E; [reflexivity|].
  destruct r as [|j' r]; [reflexivity|]. apply IH; [|easy]. intros. apply H. cbn. auto.
Qed.

Lemma first_some_Some l : first_some (@Some nat) l = hd_error l.
Proof. now destruct l. Qed.

Lemma first_some_first {A} (kp : nat -> option A) l :
  first_some kp (firstn 1 l) = match hd_error l with Some j => kp j | None => None end.
Proof. destruct l; cbn; [reflexivity|]. now destruct (kp n). Qed.

Lemma in_empty {A} (l : list A) : (forall x, ~ In x l) -> l = [].
Proof. destruct l as [|a l]; [reflexivity|]. intros H. exfalso. apply (H a). cbn. auto. Qed.

(** ** Occurrences of groups: [occ rd n r id y] when running [n] at layer [rd]
    runs the body [y] of a group [id] at layer [r]. *)
Inductive occ : nat -> node -> nat -> N -> node -> Prop :=
| occ_here rd id nm x : occ rd (Cap id nm x) rd id x
| occ_cap rd id nm x r i y : occ rd x r i y -> occ rd (Cap id nm x) r i y
| occ_seq rd l x r i y : In x l -> occ rd x r i y -> occ rd (Seq l) r i y
| occ_alt rd l x r i y : In x l -> occ rd x r i y -> occ rd (Alt l) r i y
| occ_rep rd md lo hi x r i y : hi <> Fin 0 -> occ rd x r i y -> occ rd (Rep md lo hi x) r i y
| occ_neg rd x r i y : occ rd x r i y -> occ rd (Neg x) r i y
| occ_ahead rd x r i y : occ rd x r i y -> occ rd (Look Ahead x) r i y
| occ_behind rd x r i y : occ (S rd) (invert x) r i y -> occ rd (Look Behind x) r i y.

Section Adequacy.
  Variable cf : config.
  Variable names : list group_name.
  Variable base : list ascii.
  Local Notation L := (length base).

  (** An invariant of the captures. *)
  Variable Inv : caps -> Prop.
  Variable Cl : N -> Prop.
  Variable Q : nat -> N -> nat -> nat -> Prop.
  Hypothesis Inv_length : forall id c, Cl id -> Inv c -> length c = length names.
  Hypothesis Inv_clear : forall id c c', Cl id -> Inv c -> clear_cell (N.to_nat id) c = Some c' -> Inv c'.
  Hypothesis Inv_store : forall r id nm b e c c',
    Inv c -> b <= e -> e <= L -> Q r id b e -> store names base r id nm b e c = Some c' ->
    Inv c'.

  (** [adq P o r]: the outcome [o] realises the answer [r]; [P c e x] relates the
      captures and the end after a success to the answer [Some x]. *)
  Definition adq {A} (P : caps -> nat -> A -> Prop) (o : outcome) (r : option A) : Prop :=
    match o with
    | Res c e b => if b then exists x, r = Some x /\ P c e x else Inv c /\ r = None
    | _ => False
    end.

  (** The answer is the end. *)
  Definition kept (P : caps -> Prop) (c : caps) (e x : nat) : Prop := P c /\ e = x.

  Definition ran (o : outcome) (r : option nat) : Prop :=
    match o with
    | Res c e b => Inv c /\ (if b then Some e else None) = r
    | _ => False
    end.

  Lemma adq_both o r : adq (kept Inv) o r -> ran o r.
  Proof.
    destruct o as [c e [|]| | |]; cbn; [now intros (x & -> & H & ->)|now intros [H ->]|easy..].
  Qed.

  Lemma kept_success j c : Inv c -> adq (kept Inv) (success j c) (Some j).
  Proof. intros H. exists j. repeat split; auto. Qed.

  Lemma kept_equals l j c : Inv c -> adq (kept Inv) (equals l j c) (if Nat.eqb j l then Some j else None).
  Proof.
    intros H. unfold equals. destruct (Nat.eqb j l); cbn; auto. exists j. repeat split; auto.
  Qed.

  Definition adq_matcher (mx : matcher) (f : nat -> list nat) : Prop :=
    forall (A : Type) (P : caps -> nat -> A -> Prop) cur c k kp, cur <= L -> Inv c ->
      (forall j c', In j (f cur) -> Inv c' -> adq P (k j c') (kp j)) ->
      adq P (mx cur c k) (first_some kp (f cur)).

  Lemma adq_non_match {A} {P : caps -> nat -> A -> Prop} cur c : Inv c -> adq P (non_match cur c) None.
  Proof. cbn. auto. Qed.

  Lemma adq_or_else {A} {P : caps -> nat -> A -> Prop} o f r1 r2 : adq P o r1 ->
    (r1 = None -> forall c, Inv c -> adq P (f c) r2) ->
    adq P (or_else o f) (match r1 with Some x => Some x | None => r2 end).
  Proof.
    destruct o as [c e [|]| | |]; cbn; [|intros [H ->] H2; auto|easy..].
    intros (x & -> & H) _. eauto.
  Qed.

  Lemma adq_on_result {A} {P : caps -> nat -> A -> Prop} o f g r r1 r2 : ran o r ->
    (forall e c, r = Some e -> Inv c -> adq P (f e c) (r1 e)) ->
    (r = None -> forall c, Inv c -> adq P (g c) r2) ->
    adq P (on_result o f g) (match r with Some e => r1 e | None => r2 end).
  Proof.
    destruct o as [c e [|]| | |]; cbn; try easy; intros [H1 <-] H2 H3; cbn; auto.
  Qed.

  Lemma adq_run mx f cur c : adq_matcher mx f -> cur <= L -> Inv c ->
    ran (mx cur c success) (hd_error (f cur)).
  Proof.
    intros H Hc Hi. apply adq_both. rewrite <- first_some_Some. apply H; auto. intros j c' _ Hc'.
    exists j. split; [reflexivity|]. now split.
  Qed.

  Lemma adq_ext mx f g : (forall i, i <= L -> f i = g i) -> adq_matcher mx f -> adq_matcher mx g.
  Proof.
    intros H Hm Y P cur c k kp Hc Hi Hk. rewrite <- H by assumption. apply Hm; auto.
    intros j c'. rewrite H by assumption. auto.
  Qed.

  Section Layer.
    Variable s : list ascii.
    Hypothesis Hs : length s = L.

    (** The paths of the trees, up to the clauses for repetitions, negations and
        lookarounds. *)
    Variable ps : node -> nat -> list nat.
    Hypothesis ps_class : forall x, is_class x = true -> forall i j,
      In j (ps x i) <-> j = S i /\ char_at s (accepts cf x) i = true.
    Hypothesis ps_bounded : forall x, bounded s (ps x).
    Hypothesis ps_consuming : forall x, may_be_empty x = false -> consuming s (ps x).
    Hypothesis ps_alt : forall l i, ps (Alt l) i = flat_map (fun x => ps x i) l.

    Lemma bounded_L f : bounded s f <-> (forall i j, i <= L -> In j (f i) -> i <= j <= L).
    Proof. unfold bounded. now rewrite Hs. Qed.

    (** ** Classes *)

    Lemma nth_error_at (cur : nat) : cur <= L ->
      match nth_error s cur with
      | Some _ => cur < L
      | None => cur = L
      end.
    Proof.
      intros H. destruct (nth_error s cur) eqn:E.
      - rewrite <- Hs. apply nth_error_Some. congruence.
      - apply nth_error_None in E. lia.
    Qed.

    Lemma adq_class x : is_class x = true ->
      adq_matcher (match_trivial s (match_one cf x)) (ps x).
    Proof.
      intros Hx Y P cur c k kp Hc Hi Hk. unfold match_trivial, deref.
      pose proof (nth_error_at cur Hc) as Hn.
      pose proof (ps_class x Hx cur) as Hp. unfold char_at in Hp.
      destruct (nth_error s cur) as [a|] eqn:E.
      - destruct (Nat.eqb_spec cur (length s)); [lia|].
        rewrite match_one_accepts. destruct (accepts cf x a) eqn:Ha.
        + rewrite (first_some_const _ _ (S cur)).
          * apply Hk; auto. apply Hp. auto.
          * intros j Hj. now apply Hp in Hj.
          * intros Hnil. assert (Hin : In (S cur) (ps x cur)) by (apply Hp; auto).
            now rewrite Hnil in Hin.
        + rewrite (in_empty (ps x cur)); [now apply adq_non_match|].
          intros j Hj. now apply Hp in Hj.
      - destruct (Nat.eqb_spec cur (length s)); [|lia].
        rewrite (in_empty (ps x cur)); [now apply adq_non_match|].
        intros j Hj. now apply Hp in Hj.
    Qed.

    (** Sequences of classes. *)
    Fixpoint all_chars (l : list node) (cur : nat) : bool :=
      match l with
      | [] => true
      | x :: r => char_at s (accepts cf x) cur && all_chars r (S cur)
      end.

    Lemma all_chars_lt l : forall cur, all_chars l cur = true -> cur <= L -> cur + length l <= L.
    Proof.
      induction l as [|x r IH]; intros cur; cbn; [lia|]. intros H Hc.
      apply andb_true_iff in H as [H1 H2]. apply char_at_lt in H1.
      apply IH in H2; lia.
    Qed.

    Lemma in_chain_classes l : forallb is_class l = true -> forall cur j,
      In j (chain_paths (map ps l) cur)
      <-> j = cur + length l /\ all_chars l cur = true.
    Proof.
      induction l as [|x r IH]; cbn; intros Hl cur j.
      - rewrite Nat.add_0_r. intuition.
      - apply andb_true_iff in Hl as [Hx Hr]. rewrite in_flat_map. split.
        + intros (k & Hk & Hj). apply ps_class in Hk as [-> Ha]; auto.
          apply IH in Hj as [-> Hj]; auto. rewrite Ha, Hj. split; [lia|reflexivity].
        + intros [-> H]. apply andb_true_iff in H as [H1 H2]. exists (S cur).
          split; [apply ps_class; auto|]. apply IH; auto. split; [lia|assumption].
    Qed.

    Lemma all_at_chars l : forall cur, cur + length l <= L ->
      all_at s (map (match_one cf) l) cur = Some (all_chars l cur).
    Proof.
      induction l as [|x r IH]; intros cur; cbn; [reflexivity|]. intros H.
      unfold char_at. pose proof (nth_error_at cur ltac:(lia)) as Hn.
      destruct (nth_error s cur) as [a|]; [|lia]. rewrite match_one_accepts.
      destruct (accepts cf x a); [|reflexivity]. cbn. apply IH. lia.
    Qed.

    (** A block of classes answers like its only path. *)
    Lemma adq_block {A} {P : caps -> nat -> A -> Prop} l o cur c k kp f :
      (forall j, In j f <-> j = cur + length l /\ all_chars l cur = true) ->
      cur <= L -> Inv c ->
      (forall j c', In j f -> Inv c' -> adq P (k j c') (kp j)) ->
      (L - cur < length l -> exists e, o = Res c e false) ->
      (length l <= L - cur -> all_at s (map (match_one cf) l) cur = Some true ->
         o = k (cur + length l) c) ->
      (length l <= L - cur -> all_at s (map (match_one cf) l) cur = Some false ->
         exists e, o = Res c e false) ->
      adq P o (first_some kp f).
    Proof.
      intros Hf Hc Hi Hk H1 H2 H3.
      assert (Hno : all_chars l cur = false -> first_some kp f = None).
      { intros E. rewrite (in_empty f); [reflexivity|]. intros j Hj.
        apply Hf in Hj as [_ Hj]. congruence. }
      destruct (Nat.le_gt_cases (length l) (L - cur)) as [Hle|Hgt].
      - pose proof (all_at_chars l cur ltac:(lia)) as Ha. rewrite Ha in *.
        destruct (all_chars l cur) eqn:E.
        + rewrite H2 by auto. rewrite (first_some_const _ _ (cur + length l)).
          * apply Hk; auto. apply Hf. auto.
          * intros j Hj. now apply Hf in Hj.
          * intros ->. apply (Hf (cur + length l)). auto.
        + destruct (H3 Hle eq_refl) as [e ->]. rewrite Hno by reflexivity. cbn. auto.
      - destruct (H1 Hgt) as [e ->]. rewrite Hno; [cbn; auto|].
        destruct (all_chars l cur) eqn:E; [|reflexivity].
        apply all_chars_lt in E; lia.
    Qed.

    (** ** Sequences and alternations *)

    Lemma adq_seq mm l : l <> [] ->
      Forall (fun x => adq_matcher (mm x) (ps x)) l ->
      Forall (fun x => forall i j, i <= L -> In j (ps x i) -> i <= j <= L) l ->
      adq_matcher (seq_match cf s mm l) (chain_paths (map ps l)).
    Proof.
      intros Hne Hm Hb. revert Hne.
      induction l as [|x r IH]; intros Hne Y P cur c k kp Hc Hi Hk; [easy|].
      inversion Hm as [|? ? Hx Hr]; inversion Hb as [|? ? Hbx Hbr]; subst.
      destruct r as [|y r'].
      - cbn [seq_match]. cbn [map chain_paths] in *. rewrite first_some_flat.
        apply Hx; auto. intros j c' Hj Hi'. cbn.
        assert (Ha : adq P (k j c') (kp j)).
        { apply Hk; auto. apply in_flat_map. exists j. cbn. auto. }
        destruct (kp j); assumption.
      - rewrite seq_match_cons by discriminate.
        remember (y :: r') as r eqn:Er.
        destruct (forallb trivial (x :: r)) eqn:T.
        + assert (T' : forallb is_class (x :: r) = true).
          { rewrite <- T. apply forallb_ext_Forall. apply Forall_forall. intros.
            symmetry. apply trivial_is_class. }
          rewrite (distance_spec cf base s Hs) by assumption. rewrite Nnat.Nat2N.id.
          apply (adq_block (x :: r) _ cur c k kp); auto.
          * now apply in_chain_classes.
          * intros H. apply Nat.ltb_lt in H. rewrite H. unfold non_match. eauto.
          * intros H Ha. apply Nat.ltb_ge in H. rewrite H.
            destruct (is_random cf).
            -- unfold trivial_block_random. rewrite Ha. now rewrite map_length.
            -- apply Nat.ltb_ge in H.
               destruct (forward_as_random base s Hs (map (match_one cf) (x :: r)) cur c k)
                 as [F _]; [discriminate|rewrite map_length; lia|].
               rewrite F, Ha. now rewrite map_length.
          * intros H Ha. apply Nat.ltb_ge in H. rewrite H.
            destruct (is_random cf).
            -- unfold trivial_block_random. rewrite Ha. unfold non_match. eauto.
            -- apply Nat.ltb_ge in H.
               destruct (forward_as_random base s Hs (map (match_one cf) (x :: r)) cur c k)
                 as [_ F]; [discriminate|rewrite map_length; lia|]. auto.
        + cbn [map chain_paths] in *. rewrite first_some_flat.
          apply Hx; auto. intros j c' Hj Hi'. apply Hbx in Hj as Hj'; auto.
          apply IH; auto; try lia; [subst; discriminate|].
          intros j' c'' Hj2 Hi2. apply Hk; auto. apply in_flat_map. eauto.
    Qed.

    Lemma adq_alt mm l : l <> [] ->
      Forall (fun x => adq_matcher (mm x) (ps x)) l ->
      adq_matcher (alt_match cf s mm l) (fun i => flat_map (fun x => ps x i) l).
    Proof.
      intros Hne Hm. revert Hne.
      induction l as [|x r IH]; intros Hne Y P cur c k kp Hc Hi Hk; [easy|].
      inversion Hm as [|? ? Hx Hr]; subst.
      destruct r as [|y r'].
      - cbn [alt_match]. cbn [flat_map] in *. rewrite app_nil_r in *. now apply Hx.
      - rewrite alt_match_cons by discriminate.
        remember (y :: r') as r eqn:Er.
        destruct (forallb trivial (x :: r)) eqn:T.
        + assert (Hcl : is_class (Alt (x :: r)) = true).
          { rewrite <- trivial_is_class, trivial_Alt. assumption. }
          rewrite <- ps_alt in *.
          exact (adq_class (Alt (x :: r)) Hcl Y P cur c k kp Hc Hi Hk).
        + cbn [flat_map] in *. rewrite first_some_app. apply adq_or_else.
          * apply Hx; auto. intros j c' Hj Hi'. apply Hk; auto. apply in_or_app. auto.
          * intros _ c' Hi'. apply IH; auto; [subst; discriminate|].
            intros j c'' Hj Hi2. apply Hk; auto. apply in_or_app. auto.
    Qed.

    (** ** Fixed repetitions *)

    Section Loops.
      Variable x : node.
      Variable mx : matcher.
      Hypothesis Hmx : adq_matcher mx (ps x).
      Local Notation f := (ps x).

      Lemma f_bounded : bounded s f.
      Proof. apply ps_bounded. Qed.

      Lemma f_bound i j : i <= L -> In j (f i) -> i <= j <= L.
      Proof. rewrite <- Hs. apply ps_bounded. Qed.

      Lemma times_bound n i j : i <= L -> In j (times f n i) -> i <= j <= L.
      Proof. rewrite <- Hs. apply times_bounded, ps_bounded. Qed.

      Lemma times_1 i : times f 1 i = f i.
      Proof. cbn. apply flat_map_single. Qed.

      Lemma adq_times (step : nat -> matcher) :
        (forall cur c k, step 1 cur c k = mx cur c k) ->
        (forall n cur c k, step (S (S n)) cur c k
                           = mx cur c (fun next c' => step (S n) next c' k)) ->
        forall n, adq_matcher (step (S n)) (times f (S n)).
      Proof.
        intros H1 H2. induction n as [|n IH]; intros Y P cur c k kp Hc Hi Hk.
        - rewrite H1, times_1 in *. now apply Hmx.
        - rewrite H2. change (times f (S (S n)) cur) with (flat_map (times f (S n)) (f cur)) in *.
          rewrite first_some_flat. apply Hmx; auto. intros j c' Hj Hi'.
          pose proof (f_bound _ _ Hc Hj).
          apply IH; auto; [lia|]. intros j' c'' Hj2 Hi2. apply Hk; auto.
          apply in_flat_map. eauto.
      Qed.

      Lemma all_chars_repeat n : forall cur j, is_class x = true ->
        In j (times f n cur)
        <-> j = cur + length (repeat x n) /\ all_chars (repeat x n) cur = true.
      Proof.
        intros cur j Hx. rewrite repeat_length. revert cur. induction n as [|n IH]; intros cur; cbn.
        - rewrite Nat.add_0_r. intuition.
        - rewrite in_flat_map. split.
          + intros (k & Hk & Hj). apply ps_class in Hk as [-> Ha]; auto.
            apply IH in Hj as [-> Hj]; auto. rewrite Ha, Hj. split; [lia|reflexivity].
          + intros [-> H]. apply andb_true_iff in H as [H1 H2]. exists (S cur).
            split; [apply ps_class; auto|]. apply IH; auto. split; [lia|assumption].
      Qed.

      Lemma map_repeat {A B} (g : A -> B) a n : map g (repeat a n) = repeat (g a) n.
      Proof. induction n; cbn; congruence. Qed.

      Lemma adq_fixed_backtracking n : (1 < n)%N ->
        adq_matcher (fixed_backtracking cf s x mx n) (times f (N.to_nat n)).
      Proof.
        intros Hn Y P cur c k kp Hc Hi Hk. unfold fixed_backtracking.
        destruct (trivial x) eqn:T.
        - rewrite trivial_is_class in T.
          rewrite (distance_spec cf base s Hs) by assumption.
          apply (adq_block (repeat x (N.to_nat n)) _ cur c k kp); auto;
            rewrite ?repeat_length, ?map_repeat.
          + intros j. rewrite <- (repeat_length x (N.to_nat n)).
            rewrite all_chars_repeat by assumption. now rewrite repeat_length.
          + intros H. apply Nat.ltb_lt in H. rewrite H. unfold non_match. eauto.
          + intros H Ha. apply Nat.ltb_ge in H. rewrite H.
            destruct (is_random cf).
            * rewrite (repetition_loop_block base s Hs). unfold trivial_block_random.
              rewrite Ha, repeat_length. now destruct (unroll cf).
            * pose proof (forward_repetition base s Hs (match_one cf x) (N.to_nat n) cur c k) as F.
              rewrite Ha in F. exact F.
          + intros H Ha. apply Nat.ltb_ge in H. rewrite H.
            destruct (is_random cf).
            * rewrite (repetition_loop_block base s Hs). unfold trivial_block_random.
              rewrite Ha. unfold non_match. destruct (unroll cf); eauto.
            * pose proof (forward_repetition base s Hs (match_one cf x) (N.to_nat n) cur c k) as F.
              rewrite Ha in F. exact F.
        - destruct (N.to_nat n) as [|n'] eqn:E; [lia|]. destruct (unroll cf).
          + apply (adq_times (unrolled_backtracking mx)); auto.
          + apply (adq_times (non_unrolled_backtracking mx)); auto.
      Qed.

      (** Possessive repetitions answer at their first path only. *)
      Lemma adq_atomic {A} {P : caps -> nat -> A -> Prop} mx' g cur c k kp : adq_matcher mx' g -> cur <= L -> Inv c ->
        (forall j c', hd_error (g cur) = Some j -> Inv c' -> adq P (k j c') (kp j)) ->
        adq P (on_result (mx' cur c success) (fun e c' => k e c') (fun c' => non_match cur c'))
          (match hd_error (g cur) with Some e => kp e | None => None end).
      Proof.
        intros H Hc Hi Hk. apply adq_on_result; [now apply adq_run| |].
        - intros e c' He Hi'. now apply Hk.
        - intros _ c' Hi'. now apply adq_non_match.
      Qed.

      Lemma adq_fixed {A} {P : caps -> nat -> A -> Prop} md n cur c k kp : cur <= L -> Inv c ->
        (forall j c', In j (match md with Possessive => firstn 1 (times f (N.to_nat n) cur)
                                        | _ => times f (N.to_nat n) cur end) ->
                      Inv c' -> adq P (k j c') (kp j)) ->
        adq P (fixed_match cf s md n x mx cur c k)
          (first_some kp (match md with Possessive => firstn 1 (times f (N.to_nat n) cur)
                                      | _ => times f (N.to_nat n) cur end)).
      Proof.
        intros Hc Hi Hk. unfold fixed_match.
        destruct (N.eqb_spec n 0) as [->|Hn0].
        { cbn in *. assert (Ha : adq P (k cur c) (kp cur)) by (apply Hk; auto; destruct md; cbn; auto).
          destruct md; cbn; destruct (kp cur); assumption. }
        assert (Hfirst : forall (j : nat) l, hd_error l = Some j -> In j (firstn 1 l))
          by (intros j [|a l] E; inversion E; cbn; auto).
        destruct (N.eqb_spec n 1) as [->|Hn1].
        - change (N.to_nat 1) with 1 in *. rewrite times_1 in *.
          destruct md; try (now apply Hmx).
          destruct (trivial x) eqn:T.
          + rewrite trivial_is_class in T.
            assert (Hall : forall j, In j (f cur) -> j = S cur)
              by (intros j Hj; now apply ps_class in Hj).
            assert (E2 : first_some kp (firstn 1 (f cur)) = first_some kp (f cur)).
            { destruct (f cur) as [|a l] eqn:Ef; [reflexivity|].
              rewrite (first_some_const kp (a :: l) (S cur)); [|assumption|discriminate].
              cbn. rewrite (Hall a) by (cbn; auto). now destruct (kp (S cur)). }
            rewrite E2. apply Hmx; auto. intros j c' Hj Hi'. apply Hk; auto.
            rewrite (Hall j Hj). destruct (f cur) as [|a l] eqn:Ef; [easy|].
            cbn. left. apply Hall. cbn. auto.
          + rewrite first_some_first. apply adq_atomic; auto.
        - destruct md; try (apply adq_fixed_backtracking; auto; lia).
          rewrite first_some_first. apply adq_atomic; auto.
          apply adq_fixed_backtracking. lia.
      Qed.

      (** ** Loops between bounds *)

      Lemma greedy_nonempty b i : i <= L -> greedy_paths s f b i <> [].
      Proof.
        intros Hi. rewrite greedy_paths_unfold; [|apply f_bounded|lia].
        destruct b as [n|]; [destruct (N.eqb n 0)|]; try discriminate;
          intros H; apply app_eq_nil in H as [_ H]; discriminate.
      Qed.

      Lemma hd_flat_map {A} (g : A -> list nat) l :
        (forall a, In a l -> g a <> []) ->
        hd_error (flat_map g l)
        = match hd_error l with Some a => hd_error (g a) | None => None end.
      Proof.
        destruct l as [|a l]; [reflexivity|]. intros H. cbn.
        specialize (H a). destruct (g a); [exfalso; apply H; cbn; auto|reflexivity].
      Qed.

      Definition w_ok (w : bool) (b : quantifier) : Prop :=
        (b <> Inf -> w = false) /\ (w = false -> b = Inf -> may_be_empty x = false).

      Lemma w_ok_step w b : w_ok w b -> bound_is_zero b = false -> w_ok w (bound_decrement b).
      Proof.
        unfold w_ok. destruct b; cbn; auto. intros [H1 H2] _. split; [|discriminate].
        intros _. apply H1. discriminate.
      Qed.

      Lemma f_moves w i j : w_ok w Inf -> w = false -> i <= L -> In j (f i) -> i <> j.
      Proof.
        intros [_ Hw] E Hi Hj. apply (ps_consuming x) in Hj; try lia. now apply Hw.
      Qed.

      Lemma adq_greedy_generic w : forall fuel b A (P : caps -> nat -> A -> Prop) cur c k kp,
        w_ok w b -> enough base fuel b cur -> cur <= L -> Inv c ->
        (forall j c', In j (greedy_paths s f b cur) -> Inv c' -> adq P (k j c') (kp j)) ->
        adq P (greedy_generic fuel mx w b cur c k) (first_some kp (greedy_paths s f b cur)).
      Proof.
        induction fuel as [|fu IH]; intros b Y P cur c k kp Hw He Hc Hi Hk.
        { unfold enough in He. destruct b; lia. }
        cbn [greedy_generic].
        assert (Hb : bounded s f) by apply f_bounded.
        destruct (bound_is_zero b) eqn:Hz.
        { apply bound_is_zero_spec in Hz. subst b. change (greedy_paths s f (Fin 0) cur) with [cur] in *.
          cbn. assert (Ha : adq P (k cur c) (kp cur)) by (apply Hk; cbn; auto).
          destruct (kp cur); assumption. }
        assert (E : exists g, greedy_paths s f b cur = flat_map g (f cur) ++ [cur]
                  /\ forall j, In j (f cur) ->
                       g j = if is_infinity b && Nat.eqb cur j then []
                             else greedy_paths s f (bound_decrement b) j).
        { rewrite greedy_paths_unfold by (auto; lia). destruct b as [n|]; cbn in Hz |- *.
          - rewrite Hz. eexists. split; [reflexivity|]. auto.
          - eexists. split; [reflexivity|]. auto. }
        destruct E as (g & E & Hg). rewrite E in *.
        rewrite first_some_app, first_some_flat. apply adq_or_else.
        - apply Hmx; auto. intros j c' Hj Hi'.
          pose proof (f_bound _ _ Hc Hj) as Hjb.
          unfold continue_unless_infinite_loop. rewrite (Hg j Hj).
          destruct (Nat.eqb_spec cur j) as [<-|Hne].
          + destruct b as [n|].
            * assert (w = false) by (apply Hw; discriminate). subst w. cbn [andb is_infinity].
              apply IH; auto.
              -- now apply w_ok_step.
              -- eapply (enough_step base s Hs); eauto; try lia. discriminate.
              -- intros j' c'' Hj' Hi''. apply Hk; auto. apply in_or_app. left.
                 apply in_flat_map. exists cur. split; auto. rewrite (Hg cur Hj). cbn. assumption.
            * destruct w; cbn.
              -- split; auto.
              -- exfalso. eapply (f_moves false cur cur); eauto.
          + rewrite !andb_false_r. apply IH; auto; try lia.
            * now apply w_ok_step.
            * eapply (enough_step base s Hs); eauto; lia.
            * intros j' c'' Hj' Hi''. apply Hk; auto. apply in_or_app. left.
              apply in_flat_map. exists j. split; auto. rewrite (Hg j Hj).
              destruct (Nat.eqb_spec cur j); [easy|]. now rewrite andb_false_r.
        - intros _ c' Hi'. cbn.
          assert (Ha : adq P (k cur c') (kp cur)).
          { apply Hk; auto. apply in_or_app. cbn. auto. }
          destruct (kp cur); assumption.
      Qed.

      Lemma adq_lazy_generic w : forall fuel b A (P : caps -> nat -> A -> Prop) cur c k kp,
        w_ok w b -> enough base fuel b cur -> cur <= L -> Inv c ->
        (forall j c', In j (lazy_paths s f b cur) -> Inv c' -> adq P (k j c') (kp j)) ->
        adq P (lazy_generic fuel mx w b cur c k) (first_some kp (lazy_paths s f b cur)).
      Proof.
        induction fuel as [|fu IH]; intros b Y P cur c k kp Hw He Hc Hi Hk.
        { unfold enough in He. destruct b; lia. }
        cbn [lazy_generic].
        assert (Hb : bounded s f) by apply f_bounded.
        assert (E : exists g, lazy_paths s f b cur
                    = cur :: (if bound_is_zero b then [] else flat_map g (f cur))
                  /\ forall j, In j (f cur) ->
                       g j = if is_infinity b && Nat.eqb cur j then []
                             else lazy_paths s f (bound_decrement b) j).
        { rewrite lazy_paths_unfold by (auto; lia). destruct b as [n|]; cbn.
          - destruct (N.eqb n 0).
            + exists (fun j => lazy_paths s f (Fin (n - 1)) j). auto.
            + eexists. split; [reflexivity|]. auto.
          - eexists. split; [reflexivity|]. auto. }
        destruct E as (g & E & Hg). rewrite E in *.
        change (first_some kp (cur :: ?l)) with
          (match kp cur with Some x => Some x | None => first_some kp l end).
        cbn [first_some]. apply adq_or_else.
        - apply Hk; cbn; auto.
        - intros _ c' Hi'. destruct (bound_is_zero b) eqn:Hz; [now apply adq_non_match|].
          rewrite first_some_flat. apply Hmx; auto. intros j c'' Hj Hi''.
          pose proof (f_bound _ _ Hc Hj) as Hjb.
          unfold continue_unless_infinite_loop. rewrite (Hg j Hj).
          destruct (Nat.eqb_spec cur j) as [<-|Hne].
          + destruct b as [n|].
            * assert (w = false) by (apply Hw; discriminate). subst w. cbn [andb is_infinity].
              apply IH; auto.
              -- now apply w_ok_step.
              -- eapply (enough_step base s Hs); eauto; try lia. discriminate.
              -- intros j' c3 Hj' Hi3. apply Hk; auto. right.
                 apply in_flat_map. exists cur. split; auto. rewrite (Hg cur Hj). cbn. assumption.
            * destruct w; cbn.
              -- split; auto.
              -- exfalso. eapply (f_moves false cur cur); eauto.
          + rewrite !andb_false_r. apply IH; auto; try lia.
            * now apply w_ok_step.
            * eapply (enough_step base s Hs); eauto; lia.
            * intros j' c3 Hj' Hi3. apply Hk; auto. right.
              apply in_flat_map. exists j. split; auto. rewrite (Hg j Hj).
              destruct (Nat.eqb_spec cur j); [easy|]. now rewrite andb_false_r.
      Qed.

      (** A possessive loop that consumes something in every iteration takes
          the first greedy path. *)
      Lemma adq_possessive_generic w : forall fuel b A (P : caps -> nat -> A -> Prop) cur c k kp,
        w = false -> w_ok w b -> enough base fuel b cur -> cur <= L -> Inv c ->
        (forall j c', hd_error (greedy_paths s f b cur) = Some j -> Inv c' -> adq P (k j c') (kp j)) ->
        adq P (possessive_generic fuel mx w b cur c k)
          (match hd_error (greedy_paths s f b cur) with Some j => kp j | None => None end).
      Proof.
        induction fuel as [|fu IH]; intros b Y P cur c k kp Hw0 Hw He Hc Hi Hk.
        { unfold enough in He. destruct b; lia. }
        cbn [possessive_generic].
        assert (Hb : bounded s f) by apply f_bounded.
        destruct (bound_is_zero b) eqn:Hz.
        { apply bound_is_zero_spec in Hz. subst b.
          change (greedy_paths s f (Fin 0) cur) with [cur] in *. cbn. apply Hk; auto. }
        assert (E : hd_error (greedy_paths s f b cur)
                    = match hd_error (f cur) with
                      | Some j => hd_error (greedy_paths s f (bound_decrement b) j)
                      | None => Some cur
                      end).
        { rewrite greedy_paths_unfold by (auto; lia).
          assert (Hhd : forall (g : nat -> list nat),
            (forall j, In j (f cur) -> g j = greedy_paths s f (bound_decrement b) j) ->
            hd_error (flat_map g (f cur) ++ [cur])
            = match hd_error (f cur) with
              | Some j => hd_error (greedy_paths s f (bound_decrement b) j)
              | None => Some cur
              end).
          { intros g Hg. destruct (f cur) as [|j l] eqn:Ef; [reflexivity|].
            cbn. rewrite (Hg j) by (cbn; auto).
            assert (Hj : In j (f cur)) by (rewrite Ef; cbn; auto).
            pose proof (f_bound _ _ Hc Hj).
            pose proof (greedy_nonempty (bound_decrement b) j ltac:(lia)) as Hn.
            destruct (greedy_paths s f (bound_decrement b) j); [easy|reflexivity]. }
          destruct b as [n|]; cbn in Hz |- *.
          - rewrite Hz. apply Hhd. auto.
          - apply Hhd. intros j Hj. destruct (Nat.eqb_spec cur j); [|reflexivity].
            exfalso. eapply f_moves; eauto. }
        rewrite E in *.
        assert (Hrun := adq_run mx f cur c Hmx Hc Hi).
        destruct (mx cur c success) as [c' e [|]| | |]; try contradiction; cbn in Hrun |- *;
          destruct Hrun as [Hi' Hr]; rewrite <- Hr in *.
        - assert (Hj : In e (f cur)) by (destruct (f cur); inversion Hr; cbn; auto).
          pose proof (f_bound _ _ Hc Hj) as Hjb.
          rewrite Hw0. cbn [andb]. rewrite <- Hw0 at 1. apply IH; auto; try lia.
          + now apply w_ok_step.
          + eapply (enough_step base s Hs); eauto; try lia.
            intros ->. pose proof (f_moves w cur e Hw Hw0 Hc Hj). lia.
        - apply Hk; auto.
      Qed.

      (** Greedy loop over a class by stepping back from the longest run. *)
      Lemma adq_step_back : is_class x = true -> forall fuel b A (P : caps -> nat -> A -> Prop) cur d c k kp,
        run s fuel (match_one cf x) b cur = Some d -> cur <= L -> Inv c ->
        (forall j c', In j (greedy_paths s f b cur) -> Inv c' -> adq P (k j c') (kp j)) ->
        adq P (step_back cur d c k) (first_some kp (greedy_paths s f b cur)).
      Proof.
        intros Hx. induction fuel as [|fu IH]; intros b Y P cur d c k kp Hr Hc Hi Hk; [discriminate|].
        cbn [run] in Hr.
        assert (Hend : forall c', (forall c'', Inv c'' -> adq P (k cur c'') (kp cur)) -> Inv c' ->
                  adq P (or_else (k cur c') (fun c'' => non_match cur c''))
                    (first_some kp [cur])).
        { intros c' Ha Hi'. cbn [first_some]. apply adq_or_else; auto. intros.
          now apply adq_non_match. }
        assert (Hend0 : forall c', (forall c'', Inv c'' -> adq P (k cur c'') (kp cur)) -> Inv c' ->
                  adq P (step_back cur 0 c' k) (first_some kp [cur])).
        { intros c' Ha Hi'. cbn [step_back]. rewrite Nat.add_0_r. auto. }
        destruct (bound_is_zero b) eqn:Hz.
        { apply bound_is_zero_spec in Hz. subst b. inversion Hr; subst d.
          change (greedy_paths s f (Fin 0) cur) with [cur] in *.
          apply Hend0; auto. intros. apply Hk; cbn; auto. }
        assert (E : exists g, greedy_paths s f b cur = flat_map g (f cur) ++ [cur]
                  /\ forall j, In j (f cur) -> g j = greedy_paths s f (bound_decrement b) j).
        { rewrite greedy_paths_unfold; [|apply f_bounded|lia].
          destruct b as [n|]; cbn in Hz |- *.
          - rewrite Hz. eexists. split; [reflexivity|]. auto.
          - eexists. split; [reflexivity|]. cbn. intros j Hj.
            apply ps_class in Hj as [-> _]; auto.
            destruct (Nat.eqb_spec cur (S cur)); [lia|reflexivity]. }
        destruct E as (g & E & Hg). rewrite E in *.
        pose proof (ps_class x Hx cur) as Hp. unfold char_at in Hp.
        assert (Hlast : forall c', Inv c' -> adq P (k cur c') (kp cur)).
        { intros. apply Hk; auto. apply in_or_app. cbn. auto. }
        assert (Hnil : forall c', Inv c' -> f cur = [] ->
                  adq P (step_back cur 0 c' k) (first_some kp (flat_map g (f cur) ++ [cur]))).
        { intros c' Hi' ->. cbn [flat_map app]. apply Hend0; auto. }
        destruct (nth_error s cur) as [a|] eqn:En.
        - rewrite match_one_accepts in Hr. destruct (accepts cf x a) eqn:Ha.
          + destruct (run s fu (match_one cf x) (bound_decrement b) (S cur)) as [d'|] eqn:Er;
              [|discriminate]. cbn in Hr. inversion Hr; subst d.
            rewrite (step_back_split base s Hs).
            assert (Hin : In (S cur) (f cur)) by (apply Hp; auto).
            rewrite first_some_app, first_some_flat. apply adq_or_else.
            * rewrite (first_some_const _ (f cur) (S cur)).
              -- rewrite Hg by assumption. apply (IH _ _ _ _ d'); auto.
                 ++ rewrite <- Hs. apply nth_error_Some. congruence.
                 ++ intros j c' Hj Hi'. apply Hk; auto. apply in_or_app. left.
                    apply in_flat_map. exists (S cur). split; auto. now rewrite Hg.
              -- intros j Hj. now apply Hp in Hj.
              -- intros Hnl. now rewrite Hnl in Hin.
            * intros _ c' Hi'. auto.
          + inversion Hr; subst d. apply Hnil; auto. apply in_empty. intros j Hj.
            now apply Hp in Hj.
        - inversion Hr; subst d. apply Hnil; auto. apply in_empty. intros j Hj.
          now apply Hp in Hj.
      Qed.
    End Loops.

    Lemma possessive_trivial_generic p : forall fuel b cur c k,
      possessive_trivial fuel s p b cur c k
      = possessive_generic fuel (match_trivial s p) false b cur c k.
    Proof.
      induction fuel as [|fu IH]; intros b cur c k; [reflexivity|].
      cbn [possessive_trivial possessive_generic]. destruct (bound_is_zero b); [reflexivity|].
      unfold match_trivial at 1. destruct (Nat.eqb cur (length s)); [reflexivity|].
      unfold deref. destruct (nth_error s cur); [|reflexivity].
      destruct (p a); [|reflexivity]. cbn. apply IH.
    Qed.

    Lemma lazy_trivial_generic p : forall fuel b cur c k,
      lazy_trivial fuel s p b cur c k
      = lazy_generic fuel (match_trivial s p) false b cur c k.
    Proof.
      induction fuel as [|fu IH]; intros b cur c k; [reflexivity|].
      cbn [lazy_trivial lazy_generic]. destruct (k cur c) as [c' e [|]| | |]; try reflexivity.
      cbn [or_else]. destruct (bound_is_zero b); [reflexivity|].
      unfold match_trivial at 1. destruct (Nat.eqb cur (length s)); [reflexivity|].
      unfold deref. destruct (nth_error s cur); [|reflexivity].
      destruct (p a); [|reflexivity]. unfold continue_unless_infinite_loop. cbn. apply IH.
    Qed.

    Lemma class_not_empty x : is_class x = true -> may_be_empty x = false.
    Proof.
      rewrite <- trivial_is_class, may_be_empty_zlm. apply zlm_trivial.
    Qed.

    Definition loop_paths (md : match_mode) (b : quantifier) (x : node) (i : nat) : list nat :=
      match md with
      | Greedy => if ungreedy cf then lazy_paths s (ps x) b i
                  else greedy_paths s (ps x) b i
      | Lazy => if ungreedy cf then greedy_paths s (ps x) b i
                else lazy_paths s (ps x) b i
      | Possessive => firstn 1 (greedy_paths s (ps x) b i)
      end.

    Lemma adq_between md b w x mx : adq_matcher mx (ps x) ->
      w_ok x w b -> (md = Possessive -> w = false) ->
      adq_matcher (between_bounds cf s md b w x mx) (loop_paths md b x).
    Proof.
      intros Hmx Hw Hp Y P cur c k kp Hc Hi Hk. unfold between_bounds.
      pose proof (enough_loop_fuel base s Hs b cur) as He.
      set (fuel := loop_fuel b (length s) cur) in *. clearbody fuel.
      assert (Hfirst : forall (j : nat) l, hd_error l = Some j -> In j (firstn 1 l))
        by (intros j [|a l] E; inversion E; cbn; auto).
      assert (Hcw : is_class x = true -> w_ok x false b).
      { intros Hx. split; auto. intros _ _. now apply class_not_empty. }
      assert (Hgreedy : (forall j c', In j (greedy_paths s (ps x) b cur) -> Inv c' ->
                           adq P (k j c') (kp j)) ->
        adq P (if trivial x && is_bidirectional cf then
               possessive_trivial fuel s (match_one cf x) b cur c
                 (fun next c' => step_back cur (next - cur) c' k)
             else greedy_generic fuel mx w b cur c k)
          (first_some kp (greedy_paths s (ps x) b cur))).
      { clear Hk. intros Hk. destruct (trivial x && is_bidirectional cf) eqn:E.
        - apply andb_true_iff in E as [T _]. rewrite trivial_is_class in T.
          rewrite (possessive_run base s Hs) by assumption.
          destruct (run s fuel (match_one cf x) b cur) as [d|] eqn:Er.
          + replace (cur + d - cur) with d by lia. eapply adq_step_back; eauto.
          + exfalso. eapply (run_some base s Hs); eauto.
        - now apply adq_greedy_generic. }
      assert (Hlazy : (forall j c', In j (lazy_paths s (ps x) b cur) -> Inv c' ->
                           adq P (k j c') (kp j)) ->
        adq P (if trivial x then lazy_trivial fuel s (match_one cf x) b cur c k
             else lazy_generic fuel mx w b cur c k)
          (first_some kp (lazy_paths s (ps x) b cur))).
      { clear Hk. intros Hk. destruct (trivial x) eqn:T.
        - rewrite trivial_is_class in T. rewrite lazy_trivial_generic.
          apply adq_lazy_generic; auto. now apply adq_class.
        - now apply adq_lazy_generic. }
      unfold loop_paths in *. destruct md.
      - cbn [xorb]. destruct (ungreedy cf); auto.
      - cbn [xorb]. destruct (ungreedy cf); auto.
      - rewrite first_some_first. destruct (trivial x) eqn:T.
        + rewrite trivial_is_class in T. rewrite possessive_trivial_generic.
          apply adq_possessive_generic; auto. now apply adq_class.
        + apply adq_possessive_generic; auto.
    Qed.

    Lemma first_some_single {A} (kp : nat -> option A) i : first_some kp [i] = kp i.
    Proof. cbn. now destruct (kp i). Qed.

    (** A repetition as its fixed part and what [lp] says of the rest. *)
    Definition rep_paths (md : match_mode) (lo : N) (lp f : nat -> list nat) (i : nat) : list nat :=
      match md with
      | Possessive => flat_map lp (firstn 1 (times f (N.to_nat lo) i))
      | _ => flat_map lp (times f (N.to_nat lo) i)
      end.

    Lemma adq_rep_parts md lo hi x mx lp :
      (hi = Fin 0 \/ adq_matcher mx (ps x)) ->
      match hi with Fin h => (lo <= h)%N | Inf => True end ->
      (hi = Fin lo -> forall j, lp j = [j]) ->
      (hi <> Fin lo -> adq_matcher mx (ps x) ->
         adq_matcher (between_bounds cf s md (remaining hi lo) (is_infinity hi && zlm x) x mx) lp) ->
      adq_matcher (rep_match cf s md lo hi x mx) (rep_paths md lo lp (ps x)).
    Proof.
      intros Hmx Hlo Hfix Hb Y P cur c k kp Hc Hi Hk. unfold rep_match.
      destruct (match hi with Fin h => N.eqb lo h | Inf => false end) eqn:Hfixed.
      - destruct hi as [h|]; [|discriminate]. apply N.eqb_eq in Hfixed. subst h.
        assert (E : rep_paths md lo lp (ps x) cur
                    = match md with
                      | Possessive => firstn 1 (times (ps x) (N.to_nat lo) cur)
                      | _ => times (ps x) (N.to_nat lo) cur end).
        { unfold rep_paths. rewrite !(flat_map_ext lp (fun j => [j])), !flat_map_single by auto.
          now destruct md. }
        rewrite E in *. destruct Hmx as [E0|Hmx].
        + inversion E0; subst lo. cbn. cbn in Hk.
          assert (Ha : adq P (k cur c) (kp cur)) by (apply Hk; auto; destruct md; cbn; auto).
          destruct md; cbn; destruct (kp cur); assumption.
        + now apply adq_fixed.
      - destruct Hmx as [->|Hmx].
        { apply N.le_0_r in Hlo. subst lo. discriminate. }
        assert (Hne : hi <> Fin lo).
        { intros ->. now rewrite N.eqb_refl in Hfixed. }
        specialize (Hb Hne Hmx).
        assert (Hbr : bound_subtract hi lo = remaining hi lo) by (destruct hi; reflexivity).
        rewrite Hbr. unfold is_zero. destruct (N.eqb_spec lo 0) as [->|Hn].
        + assert (E : rep_paths md 0 lp (ps x) cur = lp cur).
          { unfold rep_paths. destruct md; cbn; now rewrite app_nil_r. }
          rewrite E in *. now apply Hb.
        + unfold rep_paths in *.
          pose proof (adq_fixed (P := P) x mx Hmx md lo cur c
            (fun next c' => between_bounds cf s md (remaining hi lo) (is_infinity hi && zlm x) x mx next c' k)
            (fun j => first_some kp (lp j)) Hc Hi) as Hf.
          destruct md.
          * rewrite first_some_flat. apply Hf. intros j c' Hj Hi'. apply Hb; auto.
            { eapply times_bound; eauto. }
            intros j' c'' Hj' Hi''. apply Hk; auto. apply in_flat_map. eauto.
          * rewrite first_some_flat. apply Hf. intros j c' Hj Hi'. apply Hb; auto.
            { eapply times_bound; eauto. }
            intros j' c'' Hj' Hi''. apply Hk; auto. apply in_flat_map. eauto.
          * rewrite first_some_flat. apply Hf. intros j c' Hj Hi'. apply Hb; auto.
            { eapply times_bound; eauto. eapply in_firstn; eauto. }
            intros j' c'' Hj' Hi''. apply Hk; auto. apply in_flat_map. eauto.
    Qed.

    Lemma rep_loop_ok md hi lo x mx : (md = Possessive -> hi = Inf -> may_be_empty x = false) ->
      adq_matcher mx (ps x) ->
      adq_matcher (between_bounds cf s md (remaining hi lo) (is_infinity hi && zlm x) x mx)
        (loop_paths md (remaining hi lo) x).
    Proof.
      intros Hposs Hmx. apply adq_between; auto.
      - unfold w_ok. rewrite <- may_be_empty_zlm. destruct hi; cbn; split; easy.
      - intros E. destruct hi as [h|]; [reflexivity|]. cbn. rewrite <- may_be_empty_zlm. auto.
    Qed.

    Lemma loop_paths_0 md x j : loop_paths md (Fin 0) x j = [j].
    Proof. unfold loop_paths. destruct md, (ungreedy cf); reflexivity. Qed.
  End Layer.

  (** ** The clause of the specification for repetitions *)

  Lemma paths_Rep s md lo hi x i : i <= length s ->
    paths cf s (Rep md lo hi x) i
    = rep_paths md lo (loop_paths s (paths cf s) md (remaining hi lo) x) (paths cf s x) i.
  Proof.
    intros Hi. unfold rep_paths. cbn [paths]. unfold loop_paths.
    destruct md; try (destruct (ungreedy cf); reflexivity).
    set (g := greedy_paths s (paths cf s x) (remaining hi lo)).
    assert (Hg : forall j, In j (times (paths cf s x) (N.to_nat lo) i) -> g j <> []).
    { intros j Hj. unfold g.
      apply (times_bounded s _ _ (paths_bounded cf s x)) in Hj; [|exact Hi].
      rewrite greedy_paths_unfold; [|apply paths_bounded|lia].
      destruct (remaining hi lo) as [n|]; [destruct (N.eqb n 0)|]; try discriminate;
        intros H; apply app_eq_nil in H as [_ H]; discriminate. }
    destruct (times (paths cf s x) (N.to_nat lo) i) as [|j l]; [reflexivity|].
    cbn [firstn flat_map]. rewrite app_nil_r. specialize (Hg j (or_introl eq_refl)).
    destruct (g j); [easy|reflexivity].
  Qed.

  Lemma adq_rep s md lo hi x mx : length s = L ->
    (hi = Fin 0 \/ adq_matcher mx (paths cf s x)) ->
    match hi with Fin h => (lo <= h)%N | Inf => True end ->
    (md = Possessive -> hi = Inf -> may_be_empty x = false) ->
    adq_matcher (rep_match cf s md lo hi x mx) (paths cf s (Rep md lo hi x)).
  Proof.
    intros Hs Hmx Hlo Hposs.
    apply (adq_ext _ (rep_paths md lo (loop_paths s (paths cf s) md (remaining hi lo) x) (paths cf s x))).
    { intros i Hi. symmetry. apply paths_Rep. lia. }
    apply adq_rep_parts; auto using in_paths_class, paths_bounded, paths_consuming.
    - intros ->. cbn [remaining]. rewrite N.sub_diag. apply loop_paths_0.
    - intros _ Hmx'. apply rep_loop_ok; auto using in_paths_class, paths_bounded, paths_consuming.
  Qed.

  (** ** Fragments of subtrees *)

  Definition groups_ok (rd : nat) (n : node) : Prop :=
    forall r id y, occ rd n r id y -> Cl id /\ forall b e, b <= L ->
      In e (paths cf (view base r) y b) -> Q r id b e.

  Lemma class_reversible x : is_class x = true -> reversible x = true.
  Proof.
    induction x using node_ind'; intros Hc; try reflexivity; cbn in Hc |- *; auto; try discriminate.
    - destruct l as [|y [|z r]]; try discriminate. inversion H; subst. cbn. now rewrite H2.
    - destruct l as [|y r]; try discriminate. apply andb_true_iff in Hc as [Hx Hr].
      cbn. inversion H; subst. rewrite H2 by assumption. cbn.
      apply forallb_forall. intros z Hz. rewrite forallb_forall in Hr.
      rewrite Forall_forall in H3. auto.
    - destruct hi; try discriminate. destruct md; auto;
        apply IHx; now apply andb_true_iff in Hc.
  Qed.

  Lemma reversible_parts x : reversible x = true ->
    backref_free x = true /\ possessive_ok x = true /\ lookbehind_ok x = true.
  Proof.
    induction x using node_ind'; intros Hr; try (repeat split; reflexivity); cbn in Hr;
      try discriminate; auto.
    - rewrite forallb_forall in Hr. rewrite Forall_forall in H. cbn.
      rewrite !forallb_forall. repeat split; intros; now apply H; auto.
    - rewrite forallb_forall in Hr. rewrite Forall_forall in H. cbn.
      rewrite !forallb_forall. repeat split; intros; now apply H; auto.
    - assert (Hx : reversible x = true).
      { destruct md; auto. destruct hi; [|discriminate].
        apply class_reversible. now apply andb_true_iff in Hr. }
      destruct (IHx Hx) as (H1 & H2 & H3). cbn. repeat split; auto.
      destruct md; auto. destruct hi; auto. discriminate.
    - apply class_reversible in Hr. destruct (IHx Hr) as (H1 & H2 & H3). cbn.
      repeat split; auto. now destruct d.
  Qed.

  Lemma regular_parts x : regular x = true <->
    backref_free x = true /\ possessive_ok x = true /\ lookbehind_ok x = true.
  Proof. unfold regular. rewrite !andb_true_iff. intuition. Qed.

  Lemma reversible_regular x : reversible x = true -> regular x = true.
  Proof. intros H. apply regular_parts. now apply reversible_parts. Qed.

  Lemma regular_list l :
    forallb backref_free l = true -> forallb possessive_ok l = true ->
    forallb lookbehind_ok l = true -> forall x, In x l -> regular x = true.
  Proof.
    rewrite !forallb_forall. intros H1 H2 H3 x Hx. apply regular_parts. auto.
  Qed.

  Lemma fold_nil_neq {A B} (l : list A) (p q : B) :
    match l with [] => p | _ => q end = q -> p <> q -> l <> [].
  Proof. now destruct l. Qed.

  Theorem adequate : forall f rd n,
    compiles cf names f rd n = true -> lines_ok cf n -> regular n = true -> groups_ok rd n ->
    adq_matcher (m cf names base f rd n) (paths cf (view base rd) n).
  Proof.
    induction f as [|f IH]; intros rd n Hcm Hl Hr Hg; [discriminate|].
    pose proof (view_length base rd) as Hs.
    pose proof (compiles_well_formed _ _ _ _ _ Hcm) as Hwf.
    apply regular_parts in Hr as (Hr1 & Hr2 & Hr3).
    set (s := view base rd) in *.
    assert (Htriv : is_class n = true -> (forall cur c k, m cf names base (S f) rd n cur c k
              = match_trivial s (match_one cf n) cur c k) ->
              adq_matcher (m cf names base (S f) rd n) (paths cf s n)).
    { intros Hx E Y P cur c k kp Hc Hi Hk. rewrite E.
      apply (adq_class s Hs (paths cf s)); auto using in_paths_class. }
    assert (Hcond : forall (b : bool) Y (P : caps -> nat -> Y -> Prop) (cur : nat) c k kp, Inv c ->
              (forall j c', In j (if b then [cur] else []) -> Inv c' -> adq P (k j c') (kp j)) ->
              adq P (assert_that b cur c k) (first_some kp (if b then [cur] else []))).
    { intros b Y P cur c k kp Hi Hk. unfold assert_that. destruct b.
      - rewrite first_some_single. apply Hk; cbn; auto.
      - now apply adq_non_match. }
    destruct n.
    - (* Empty *) intros Y P cur c k kp Hc Hi Hk. cbn [m paths] in *. rewrite first_some_single.
      apply Hk; cbn; auto.
    - (* BeginLine *) intros Y P cur c k kp Hc Hi Hk. cbn [m paths] in *. fold s.
      unfold at_line_start in *. destruct (Nat.eqb_spec cur 0) as [->|Hn]; cbn [orb] in *.
      + rewrite first_some_single. apply Hk; cbn; auto.
      + destruct (multiline cf) eqn:ML; cbn [andb] in *; [|now apply adq_non_match].
        destruct Hl as [Hl|[Hl|Hl]]; try discriminate; [|congruence]. rewrite Hl.
        destruct cur as [|cur]; [easy|]. cbn [char_before] in *.
        replace (S cur - 1) with cur by lia. unfold deref, char_at in *.
        pose proof (nth_error_at s Hs cur ltac:(lia)) as Hne.
        destruct (nth_error s cur); [|lia]. rewrite linebreak_newline. now apply Hcond.
    - (* BeginInput *) intros Y P cur c k kp Hc Hi Hk. cbn [m paths] in *. now apply Hcond.
    - (* EndLine *) intros Y P cur c k kp Hc Hi Hk. cbn [m paths] in *. fold s.
      unfold at_line_end in *. destruct (Nat.eqb_spec cur (length s)) as [->|Hn]; cbn [orb] in *.
      + rewrite first_some_single. apply Hk; cbn; auto.
      + destruct (multiline cf) eqn:ML; cbn [andb] in *; [|now apply adq_non_match].
        unfold deref, char_at in *.
        pose proof (nth_error_at s Hs cur ltac:(lia)) as Hne.
        destruct (nth_error s cur); [|lia]. rewrite linebreak_newline. now apply Hcond.
    - (* EndInput *) intros Y P cur c k kp Hc Hi Hk. cbn [m paths] in *. now apply Hcond.
    - (* WordB *) intros Y P cur c k kp Hc Hi Hk. cbn [m paths] in *. fold s.
      cbn [compiles] in Hcm. rewrite Hcm. cbn [negb].
      unfold at_word_boundary in *.
      assert (Hahead : forall b, b = char_before s is_word_char cur ->
        adq P (if Nat.eqb cur (length s) then assert_that (xorb b false) cur c k
             else deref s cur (fun a => assert_that (xorb b (match_one cf n_word a)) cur c k))
          (first_some kp (if xorb (char_before s is_word_char cur) (char_at s is_word_char cur)
                          then [cur] else []))).
      { intros b Eb. rewrite <- Eb in *. unfold char_at, deref in *.
        pose proof (nth_error_at s Hs cur ltac:(lia)) as Hne.
        destruct (nth_error s cur) as [a|].
        - destruct (Nat.eqb_spec cur (length s)); [lia|]. rewrite word_word_char. now apply Hcond.
        - destruct (Nat.eqb_spec cur (length s)); [|lia]. now apply Hcond. }
      destruct cur as [|cur].
      + cbn [Nat.eqb]. now apply Hahead.
      + cbn [Nat.eqb]. replace (S cur - 1) with cur by lia.
        pose proof (nth_error_at s Hs cur ltac:(lia)) as Hne.
        unfold deref at 1. destruct (nth_error s cur) as [a|] eqn:E; [|lia].
        rewrite word_word_char. apply Hahead. cbn [char_before]. unfold char_at. now rewrite E.
    - (* Wild *) apply Htriv; reflexivity.
    - (* Lit *) apply Htriv; reflexivity.
    - (* Range *) apply Htriv; reflexivity.
    - (* CSet *) apply Htriv; reflexivity.
    - (* Neg *) cbn [compiles] in Hcm. apply andb_true_iff in Hcm as [Hta Hcm].
      destruct (is_assertion n) eqn:A.
      + pose proof (is_assertion_not_trivial n A) as T. rewrite trivial_is_class in T.
        intros Y P cur c k kp Hc Hi Hk. cbn [m]. rewrite A.
        cbn [paths] in *. rewrite T in *.
        assert (Hx : adq_matcher (m cf names base f rd n) (paths cf s n)).
        { apply IH; auto; [apply regular_parts; auto|].
          intros r id y Ho. apply Hg. now constructor. }
        pose proof (adq_run _ _ cur c Hx Hc Hi) as Hrun.
        destruct (m cf names base f rd n cur c success) as [c' e [|]| | |]; try contradiction;
          cbn in Hrun |- *; destruct Hrun as [Hi' Hrr].
        * destruct (paths cf s n cur); [discriminate|]. cbn. auto.
        * destruct (paths cf s n cur); [|discriminate]. rewrite first_some_single.
          apply Hk; cbn; auto.
      + rewrite orb_false_r in Hta. rewrite trivial_is_class in Hta.
        apply Htriv; [exact Hta|]. intros. cbn [m]. now rewrite A.
    - (* Seq *) cbn [compiles] in Hcm. cbn [backref_free possessive_ok lookbehind_ok] in Hr1, Hr2, Hr3.
      destruct l as [|x0 r0] eqn:El; [discriminate|]. rewrite <- El in *.
      assert (Hne : l <> []) by (subst; discriminate).
      apply (adq_ext _ (chain_paths (map (paths cf s) l))).
      { intros. now rewrite paths_Seq. }
      apply (adq_seq s Hs (paths cf s) (in_paths_class cf s) (m cf names base f rd)); auto.
      + pose proof (lines_ok_list cf l Hl) as Hll. rewrite Forall_forall in Hll |- *.
        rewrite forallb_forall in Hcm. intros x Hx. apply IH; auto.
        * eapply regular_list; eauto.
        * intros r id y Ho. apply Hg. econstructor; eauto.
      + apply Forall_forall. intros x _ i j. rewrite <- Hs. apply paths_bounded.
    - (* Alt *) cbn [compiles] in Hcm. cbn [backref_free possessive_ok lookbehind_ok] in Hr1, Hr2, Hr3.
      destruct l as [|x0 r0] eqn:El; [discriminate|]. rewrite <- El in *.
      assert (Hne : l <> []) by (subst; discriminate).
      apply (adq_alt s Hs (paths cf s) (in_paths_class cf s) (paths_Alt cf s) (m cf names base f rd)); auto.
      pose proof (lines_ok_list cf l Hl) as Hll. rewrite Forall_forall in Hll |- *.
      rewrite forallb_forall in Hcm. intros x Hx. apply IH; auto.
      * eapply regular_list; eauto.
      * intros r id y Ho. apply Hg. econstructor; eauto.
    - (* Cap *) cbn [compiles] in Hcm. cbn [backref_free possessive_ok lookbehind_ok] in Hr1, Hr2, Hr3.
      apply andb_true_iff in Hcm as [Hcm Hcn]. apply andb_true_iff in Hcm as [Hnm Hrd].
      assert (Hx : adq_matcher (m cf names base f rd n) (paths cf s n)).
      { apply IH; auto; [apply regular_parts; auto|].
        intros r i y Ho. apply Hg. now constructor. }
      intros Y P cur c k kp Hc Hi Hk. cbn [m paths] in *.
      destruct (Hg _ _ _ (occ_here rd id name n)) as [Hcl _].
      assert (Hid : N.to_nat id < length names).
      { destruct (nth_error names (N.to_nat id)) eqn:E; [|discriminate].
        apply nth_error_Some. congruence. }
      assert (E : first_some kp (paths cf s n cur)
                  = match first_some kp (paths cf s n cur) with Some x => Some x | None => None end)
        by now destruct (first_some kp (paths cf s n cur)).
      rewrite E. apply adq_or_else.
      + apply Hx; auto. intros j c' Hj Hi'.
        assert (Hb : cur <= j <= L) by (rewrite <- Hs; apply (paths_bounded cf s n); auto; lia).
        assert (Hst : exists c'', store names base rd id name cur j c' = Some c'').
        { unfold store. destruct (nth_error names (N.to_nat id)); [|discriminate].
          rewrite Hnm. pose proof (Inv_length _ _ Hcl Hi').
          destruct rd as [|[|rd]]; [apply set_cell_some; lia|apply set_cell_some; lia|discriminate]. }
        destruct Hst as [c'' Hst]. rewrite Hst. apply Hk; auto.
        refine (Inv_store rd id name cur j c' c'' Hi' _ _ _ Hst); try lia.
        eapply Hg; [constructor|lia|assumption].
      + intros _ c' Hi'. pose proof (Inv_length _ _ Hcl Hi').
        destruct (clear_cell_some (N.to_nat id) c') as [c'' E']; [lia|]. rewrite E'.
        apply adq_non_match. eauto.
    - (* Rep *) cbn [compiles] in Hcm. cbn [backref_free lookbehind_ok] in Hr1, Hr3.
      apply andb_true_iff in Hcm as [Hcm _].
      apply (adq_rep s mode lo hi n (m cf names base f rd n) Hs).
      + destruct hi as [h|].
        * apply andb_true_iff in Hcm as [_ Hcm].
          destruct (N.eqb_spec h 0) as [->|Hh]; [auto|]. cbn [orb] in Hcm. right. apply IH; auto.
          -- apply regular_parts. repeat split; auto. cbn in Hr2. now destruct mode.
          -- intros r id y Ho. apply Hg. constructor; auto. congruence.
        * right. apply IH; auto.
          -- apply regular_parts. repeat split; auto. cbn in Hr2. destruct mode; auto.
             now apply andb_true_iff in Hr2.
          -- intros r id y Ho. apply Hg. constructor; auto. discriminate.
      + destruct hi; auto. apply andb_true_iff in Hcm as [Hcm _]. now apply N.leb_le.
      + intros -> ->. cbn in Hr2. apply andb_true_iff in Hr2 as [Hr2 _]. now apply negb_true_iff.
    - (* Backref *) discriminate.
    - (* NBackref *) discriminate.
    - (* Look *) destruct d.
      + cbn [compiles] in Hcm. cbn [backref_free possessive_ok lookbehind_ok] in Hr1, Hr2, Hr3.
        intros Y P cur c k kp Hc Hi Hk. cbn [m paths] in *. fold s.
        assert (Hx : adq_matcher (m cf names base f rd n) (paths cf s n)).
        { apply IH; auto; [apply regular_parts; auto|].
          intros r id y Ho. apply Hg. now constructor. }
        destruct (trivial n) eqn:T.
        * rewrite trivial_is_class in T. unfold deref.
          pose proof (in_paths_class cf s n T cur) as Hp. unfold char_at in Hp.
          pose proof (nth_error_at s Hs cur Hc) as Hne.
          destruct (nth_error s cur) as [a|].
          -- destruct (Nat.eqb_spec cur (length s)); [lia|]. rewrite match_one_accepts.
             assert (E : (match paths cf s n cur with [] => [] | _ => [cur] end)
                         = if accepts cf n a then [cur] else []).
             { destruct (accepts cf n a) eqn:Ha.
               - assert (Hin : In (S cur) (paths cf s n cur)) by (apply Hp; auto).
                 now destruct (paths cf s n cur).
               - rewrite (in_empty (paths cf s n cur)); [reflexivity|].
                 intros j Hj. now apply Hp in Hj. }
             rewrite E in *. now apply Hcond.
          -- destruct (Nat.eqb_spec cur (length s)); [|lia].
             rewrite (in_empty (paths cf s n cur)); [now apply adq_non_match|].
             intros j Hj. now apply Hp in Hj.
        * pose proof (adq_run _ _ cur c Hx Hc Hi) as Hrun.
          destruct (m cf names base f rd n cur c success) as [c' e [|]| | |]; try contradiction;
            cbn in Hrun |- *; destruct Hrun as [Hi' Hrr].
          -- destruct (paths cf s n cur); [discriminate|]. rewrite first_some_single.
             apply Hk; cbn; auto.
          -- destruct (paths cf s n cur); [|discriminate]. cbn. auto.
      + cbn [compiles] in Hcm. cbn [backref_free possessive_ok lookbehind_ok] in Hr1, Hr2, Hr3.
        apply andb_true_iff in Hcm as [Hbi Hcm].
        pose proof (reversible_possessive_free n Hr3) as Hpf. cbn [well_formed] in Hwf.
        intros Y P cur c k kp Hc Hi Hk. cbn [m paths] in *. fold s. rewrite Hbi. cbn [negb].
        set (ends := existsb (fun k => existsb (Nat.eqb cur) (paths cf s n k)) (List.seq 0 (S cur))) in *.
        assert (Hends : ends = true <-> exists k, k <= cur /\ matches cf s n k cur).
        { unfold ends. rewrite existsb_exists. split.
          - intros (i & Hin & He). apply in_seq in Hin. apply existsb_exists in He as (e & He1 & He2).
            apply Nat.eqb_eq in He2. subst e. exists i. split; [lia|]. apply in_paths; auto. lia.
          - intros (i & Hin & Hm). exists i. split; [apply in_seq; lia|].
            apply existsb_exists. exists cur. split; [|apply Nat.eqb_refl].
            apply in_paths; auto. lia. }
        destruct (trivial n) eqn:T.
        * rewrite trivial_is_class in T. unfold deref.
          assert (He : ends = char_before s (accepts cf n) cur).
          { apply Bool.eq_iff_eq_true. rewrite Hends. split.
            - intros (i & _ & Hm). apply matches_class in Hm as [-> Hm]; auto.
            - destruct cur as [|cur]; [discriminate|]. cbn [char_before]. intros Ha.
              exists cur. split; [lia|]. apply matches_class; auto. }
          rewrite He in *. destruct cur as [|cur]; cbn [Nat.eqb char_before] in *.
          -- now apply adq_non_match.
          -- replace (S cur - 1) with cur by lia. unfold char_at in *.
             pose proof (nth_error_at s Hs cur ltac:(lia)) as Hne.
             destruct (nth_error s cur) as [a|]; [|lia].
             rewrite match_one_accepts. now apply Hcond.
        * assert (Hx : adq_matcher (m cf names base f (S rd) (invert n))
                         (paths cf (rev s) (invert n))).
          { unfold s. rewrite <- view_S. apply IH; auto.
            - unfold lines_ok in *. rewrite has_begin_line_invert. exact Hl.
            - apply reversible_regular. now rewrite reversible_invert.
            - intros r id y Ho. apply Hg. now constructor. }
          rewrite Hs.
          assert (Hlc : L - cur <= L) by lia.
          pose proof (adq_run _ _ (L - cur) c Hx Hlc Hi) as Hrun.
          pose proof (lookbehind_paths cf s n cur Hr3 Hwf ltac:(lia)) as Hlb.
          rewrite Hs in Hlb. rewrite <- Hends in Hlb.
          destruct (m cf names base f (S rd) (invert n) (L - cur) c success) as [c' e [|]| | |];
            try contradiction; cbn in Hrun; cbn [on_result]; destruct Hrun as [Hi' Hrr].
          -- assert (E : ends = true).
             { apply Hlb. destruct (paths cf (rev s) (invert n) (L - cur)); discriminate. }
             rewrite E in *. rewrite first_some_single. apply Hk; cbn; auto.
          -- assert (E : ends = false).
             { destruct ends; [|reflexivity]. exfalso.
               assert (Hnn : paths cf (rev s) (invert n) (L - cur) <> []) by now apply Hlb.
               destruct (paths cf (rev s) (invert n) (L - cur)); [easy|discriminate]. }
             rewrite E in *. cbn. auto.
  Qed.
End Adequacy.
