(** The words of a text: what the loops over the matches yield (C76). *)
From Verif Require Import Matcher Api Basics Safe Cong Impl Spec Paths Mirror Adequacy Calls
  Lift Matching Relate Runs Uniform Generators Scans Actual Exact Tracks Tracking Examples Contained Template Sample.
From Coq Require Import Lia Arith NArith Bool List Sorted.
Import ListNotations.

(** ** Specification *)

Section Spec.
  Variable p : ascii -> bool.
  Variable s : list ascii.

  (** From [b] to [e] there are only characters of the class, and none at [e]. *)
  Definition stretch (b e : nat) : Prop :=
    b < e <= length s /\ (forall k, b <= k < e -> char_at s p k = true) /\ char_at s p e = false.

  (** As many as possible: nor is there one in front of [b]. *)
  Definition maximal_run (b e : nat) : Prop := stretch b e /\ char_before s p b = false.

  (** The ranges with the property, all of them, from left to right. *)
  Definition lists_all (P : nat -> nat -> Prop) (bounds : list (nat * nat)) : Prop :=
    StronglySorted (fun v w => snd v < fst w) bounds /\ forall b e, In (b, e) bounds <-> P b e.
End Spec.

(** Such a list is unique. *)
Lemma lists_all_unique (P : nat -> nat -> Prop) (l1 : list (nat * nat)) : forall l2, (forall b e, P b e -> b < e) ->
  lists_all P l1 -> lists_all P l2 -> l1 = l2.
Proof.
  intros l2 Hlt [S1 H1] [S2 H2]. assert (H : forall v, In v l1 <-> In v l2).
  { intros [b e]. now rewrite H1, H2. }
  assert (L : forall v, In v l1 -> fst v < snd v) by (intros [b e] Hv; apply Hlt, H1, Hv).
  clear H1 H2 Hlt. revert l2 S2 H. induction S1 as [|v l1 S1 IH F1]; intros l2 S2 H.
  - destruct l2 as [|w l2]; [reflexivity|]. destruct (proj2 (H w)). now left.
  - destruct S2 as [|w l2 S2 F2]; [destruct (proj1 (H v)); now left|].
    rewrite Forall_forall in F1, F2.
    assert (E : v = w).
    { destruct (proj1 (H v) (or_introl eq_refl)) as [E|Hv]; [now symmetry|].
      destruct (proj2 (H w) (or_introl eq_refl)) as [E|Hw]; [exact E|].
      pose proof (F1 _ Hw). pose proof (F2 _ Hv). pose proof (L v (or_introl eq_refl)).
      pose proof (L w (or_intror Hw)). lia. }
    subst w. f_equal. apply IH; auto; [intros x Hx; apply L; now right|]. intros x. split; intros Hx.
    + destruct (proj1 (H x) (or_intror Hx)) as [<-|]; [|auto]. pose proof (F1 _ Hx).
      pose proof (L v (or_introl eq_refl)). lia.
    + destruct (proj2 (H x) (or_intror Hx)) as [<-|]; [|auto]. pose proof (F2 _ Hx).
      pose proof (L v (or_introl eq_refl)). lia.
Qed.

(** ** Scanning *)

Section Scanning.
  Variable p : ascii -> bool.
  Variable s : list ascii.
  Variable from : nat -> option (option nat).
  Local Notation len := (length s).

  Lemma stretch_unique b e e' : stretch p s b e -> stretch p s b e' -> e = e'.
  Proof.
    intros (H1 & H2 & H3) (H1' & H2' & H3'). destruct (Nat.lt_trichotomy e e') as [H|[H|H]]; auto.
    - rewrite H2' in H3 by lia. discriminate.
    - rewrite H2 in H3' by lia. discriminate.
  Qed.

  Lemma runs_apart b e b' e' : maximal_run p s b e -> maximal_run p s b' e' -> b < b' -> e < b'.
  Proof.
    intros ((H1 & H2 & H3) & _) ((H1' & H2' & _) & H4') Hlt.
    destruct (Nat.lt_trichotomy e b') as [H|[->|H]]; auto.
    - rewrite H2' in H3 by lia. discriminate.
    - destruct b' as [|b']; [lia|]. cbn in H4'. rewrite H2 in H4' by lia. discriminate.
  Qed.

  (** At every offset the whole run from there is found. *)
  Lemma scan_stretches q bounds :
    (forall i, i <= len -> exists o, from i = Some o /\ forall e, o = Some e <-> stretch p s i e) ->
    leftmost_scan from len q bounds -> char_before s p q = false \/ char_at s p q = false -> q <= len ->
    lists_all (fun b e => q <= b /\ maximal_run p s b e) bounds.
  Proof.
    intros Hf. induction 1 as [q Hn|q i (Hi & Hm & _)|q i e l (Hi & Hm & Hn) He Hl IH]; intros Hq Hle.
    - split; [constructor|]. intros b e. split; [easy|]. intros (Hb & Hr & _).
      destruct Hr as (Hbe & Hr). destruct (Hf b ltac:(lia)) as (o & Eo & Ho). rewrite Hn in Eo by lia.
      injection Eo as <-. assert (X : None = Some e) by (apply Ho; split; assumption). discriminate.
    - exfalso. destruct (Hf i ltac:(lia)) as (o & Eo & Ho). rewrite Hm in Eo. injection Eo as <-.
      destruct (proj1 (Ho i) eq_refl). lia.
    - destruct (Hf i ltac:(lia)) as (o & Eo & Ho). rewrite Hm in Eo. injection Eo as <-.
      pose proof (proj1 (Ho e) eq_refl) as Hs. pose proof Hs as (_ & Hs2 & Hs3).
      destruct IH as [IS IH]; [now right|lia|].
      assert (Hr : maximal_run p s i e).
      { split; [exact Hs|]. destruct (Nat.eq_dec i q) as [->|].
        - destruct Hq as [Hq|Hq]; [exact Hq|]. rewrite Hs2 in Hq by lia. discriminate.
        - destruct i as [|i]; [reflexivity|]. cbn. destruct (char_at s p i) eqn:Ei; [|reflexivity]. exfalso.
          destruct (Hf i ltac:(lia)) as (o & Eo & Ho'). rewrite Hn in Eo by lia. injection Eo as <-.
          assert (X : None = Some e); [|discriminate]. apply Ho'. split; [lia|]. split; [|exact Hs3].
          intros k Hk. destruct (Nat.eq_dec k i) as [->|]; [exact Ei|]. apply Hs2. lia. }
      split.
      + constructor; [exact IS|]. apply Forall_forall. intros [b f] Hb. apply IH in Hb as (Hb & Hrb).
        cbn. apply (runs_apart _ _ _ _ Hr Hrb). lia.
      + intros b f. split.
        * intros [X|Hin]; [injection X as <- <-; split; [lia|exact Hr]|]. apply IH in Hin as (Hb & Hrb). split; [lia|exact Hrb].
        * intros (Hb & Hrb). destruct (Nat.lt_trichotomy b i) as [Hlt|[->|Hgt]].
          -- exfalso. destruct (Hf b ltac:(lia)) as (o & Eo & Ho'). rewrite Hn in Eo by lia. injection Eo as <-.
             assert (X : None = Some f) by (apply Ho', Hrb). discriminate.
          -- left. f_equal. apply (stretch_unique i); [exact Hs|apply Hrb].
          -- right. apply IH. pose proof (runs_apart _ _ _ _ Hr Hrb Hgt). split; [lia|exact Hrb].
  Qed.

  (** Only some whole runs are found. *)
  Lemma scan_runs (Q : nat -> nat -> Prop) q bounds :
    (forall i, i <= len -> exists o, from i = Some o /\ forall e, o = Some e <-> maximal_run p s i e /\ Q i e) ->
    leftmost_scan from len q bounds -> q <= len ->
    lists_all (fun b e => q <= b /\ maximal_run p s b e /\ Q b e) bounds.
  Proof.
    intros Hf. induction 1 as [q Hn|q i (Hi & Hm & _)|q i e l (Hi & Hm & Hn) He Hl IH]; intros Hle.
    - split; [constructor|]. intros b e. split; [easy|]. intros (Hb & Hr & HQ). pose proof Hr as ((Hbe & _) & _).
      destruct (Hf b ltac:(lia)) as (o & Eo & Ho). rewrite Hn in Eo by lia.
      injection Eo as <-. assert (X : None = Some e) by (apply Ho; split; assumption). discriminate.
    - exfalso. destruct (Hf i ltac:(lia)) as (o & Eo & Ho). rewrite Hm in Eo. injection Eo as <-.
      destruct (proj1 (Ho i) eq_refl) as (((X & _) & _) & _). lia.
    - destruct (Hf i ltac:(lia)) as (o & Eo & Ho). rewrite Hm in Eo. injection Eo as <-.
      destruct (proj1 (Ho e) eq_refl) as (Hr & HQ). destruct IH as [IS IH]; [lia|].
      split.
      + constructor; [exact IS|]. apply Forall_forall. intros [b f] Hb. apply IH in Hb as (Hb & Hrb & _).
        cbn. apply (runs_apart _ _ _ _ Hr Hrb). lia.
      + intros b f. split.
        * intros [X|Hin]; [injection X as <- <-; split; [lia|auto]|]. apply IH in Hin as (Hb & Hrb). split; [lia|exact Hrb].
        * intros (Hb & Hrb & HQb). destruct (Nat.lt_trichotomy b i) as [Hlt|[->|Hgt]].
          -- exfalso. destruct (Hf b ltac:(lia)) as (o & Eo & Ho'). rewrite Hn in Eo by lia. injection Eo as <-.
             assert (X : None = Some f) by (apply Ho'; auto). discriminate.
          -- left. f_equal. apply (stretch_unique i); [apply Hr|apply Hrb].
          -- right. apply IH. pose proof (runs_apart _ _ _ _ Hr Hrb Hgt). split; [lia|auto].
  Qed.

  (** Matches next to each other: only the run at the beginning. *)
  Lemma tokens_stretches bounds :
    (forall i, i <= len -> exists o, from i = Some o /\ forall e, o = Some e <-> stretch p s i e) ->
    adjacent_scan from len 0 bounds ->
    match bounds with
    | [] => forall e, ~ stretch p s 0 e
    | [(b, e)] => b = 0 /\ maximal_run p s 0 e
    | _ => False
    end.
  Proof.
    intros Hf H. inversion H as [? H0|? H0|? e l H0 He Hl]; subst.
    - intros e He. destruct (Hf 0 ltac:(lia)) as (o & Eo & Ho). rewrite H0 in Eo. injection Eo as <-.
      apply Ho in He. discriminate.
    - destruct (Hf 0 ltac:(lia)) as (o & Eo & Ho). rewrite H0 in Eo. injection Eo as <-.
      destruct (proj1 (Ho 0) eq_refl). lia.
    - destruct (Hf 0 ltac:(lia)) as (o & Eo & Ho). rewrite H0 in Eo. injection Eo as <-.
      pose proof (proj1 (Ho e) eq_refl) as Hs. pose proof Hs as (_ & _ & Hs3).
      destruct (Hf e ltac:(lia)) as (o & Eo & Ho'). destruct o as [f|].
      + destruct (proj1 (Ho' f) eq_refl) as (X1 & X2 & _). rewrite X2 in Hs3 by lia. discriminate.
      + inversion Hl as [? H1|? H1|? e' l' H1 He' Hl']; subst; try congruence.
        split; [reflexivity|]. split; [exact Hs|reflexivity].
  Qed.
End Scanning.

(** ** The answer at an offset *)

Lemma prefix_preferred cf n s : runs cf n -> regular n = true -> forall i, i <= length s ->
  prefix_from cf n s i = Some (preferred cf s n i).
Proof.
  intros Hr Hg i Hi. unfold prefix_from.
  pose proof (match_prefix_method_paths cf n s Hr Hg i _ Hi (initial_length n)) as H.
  destruct (match_prefix_method cf n s i (initial_captures n)) as [c e b| | |]; cbn in H; try contradiction.
  destruct H as (_ & _ & <-). reflexivity.
Qed.

Lemma preferred_only cf s n i e : possessive_free n = true -> well_formed n = true -> i <= length s ->
  (forall e', matches cf s n i e' -> e' = e) -> (preferred cf s n i = Some e <-> matches cf s n i e).
Proof.
  intros Hp Hw Hi Ho. split.
  - intros H. apply preferred_in in H. now apply in_paths in H.
  - intros H. apply (in_paths cf s n Hp Hw i e Hi) in H. apply in_preferred in H.
    destruct (preferred cf s n i) as [e'|] eqn:E; [|easy]. f_equal. apply Ho.
    apply preferred_in in E. now apply in_paths in E.
Qed.

Lemma stretch_exists p s i : char_at s p i = true -> exists e, stretch p s i e.
Proof.
  intros H. assert (Hi : i < length s).
  { unfold char_at in H. apply nth_error_Some. now destruct (nth_error s i). }
  remember (length s - i) as d eqn:Ed. revert i H Hi Ed. induction d as [|d IH]; intros i H Hi Ed; [lia|].
  destruct (char_at s p (S i)) eqn:E.
  - assert (Hi' : S i < length s).
    { unfold char_at in E. apply nth_error_Some. now destruct (nth_error s (S i)). }
    destruct (IH (S i) E Hi' ltac:(lia)) as (e & H1 & H2 & H3). exists e. split; [lia|]. split; [|exact H3].
    intros k Hk. destruct (Nat.eq_dec k i) as [->|]; [exact H|]. apply H2. lia.
  - exists (S i). split; [lia|]. split; [|exact E]. intros k Hk. now replace k with i by lia.
Qed.

(** ** example/regex_range.cpp *)

Definition word_regex : regex := rx "\w+?(?!\w)" [].
Definition word_class : node := tree "\w".

Lemma word_tree : ast word_regex = Seq [Rep Lazy 1 Inf word_class; Neg (Look Ahead word_class)].
Proof. vm_compute. reflexivity. Qed.

Lemma word_is_class : is_class word_class = true.
Proof. vm_compute. reflexivity. Qed.

Local Opaque word_class.

Lemma word_class_chars ct s k : char_at s (accepts (config_of [] ct) word_class) k = char_at s is_word_char k.
Proof. unfold char_at. destruct (nth_error s k); [apply accepts_word|reflexivity]. Qed.

Lemma word_matches ct s i e : i <= length s ->
  (matches (config_of [] ct) s (ast word_regex) i e <-> stretch is_word_char s i e).
Proof.
  intros Hi. rewrite word_tree, matches_Seq. cbn [map].
  assert (L : forall j k, matches (config_of [] ct) s (Neg (Look Ahead word_class)) j k
    <-> j = k /\ char_at s is_word_char j = false).
  { intros j k. cbn [matches]. change (is_class (Look Ahead word_class)) with false. cbv iota.
    rewrite <- (word_class_chars ct). split; intros [-> H]; (split; [reflexivity|]).
    - destruct (char_at s (accepts (config_of [] ct) word_class) k) eqn:E; [|reflexivity]. exfalso. apply H.
      exists k. split; [reflexivity|]. exists (S k). exact (proj2 (matches_class (config_of [] ct) s word_class word_is_class k (S k)) (conj eq_refl E)).
    - intros (k' & -> & (j' & X)). apply (proj1 (matches_class (config_of [] ct) s word_class word_is_class k' j')) in X as [_ X]. congruence. }
  split.
  - intros (k & H1 & k' & H2 & ->). apply L in H2 as [<- H2]. cbn [matches] in H1. destruct H1 as (n & Hn & H1).
    apply (iterate_class _ _ _ word_is_class) in H1 as [-> H1]. destruct Hn as [Hn _].
    assert (A : forall m, i <= m < i + n -> char_at s is_word_char m = true).
    { intros m Hm. rewrite <- (word_class_chars ct). now apply H1. }
    split; [|split; [exact A|exact H2]]. split; [lia|].
    destruct (Nat.le_gt_cases (i + n) (length s)) as [|Hgt]; [assumption|]. specialize (A (i + n - 1) ltac:(lia)).
    unfold char_at in A. replace (nth_error s (i + n - 1)) with (@None ascii) in A; [discriminate|].
    symmetry. apply nth_error_None. lia.
  - intros (H1 & H2 & H3). exists e. split.
    + cbn [matches]. exists (e - i). split; [split; [lia|exact I]|]. apply (iterate_class _ _ _ word_is_class).
      split; [lia|]. intros k Hk. rewrite word_class_chars. now apply H2.
    + exists e. split; [|reflexivity]. apply L. auto.
Qed.

Lemma word_usable ct : usable word_regex ct.
Proof. unfold word_regex. usable_ct. Qed.

Lemma word_from ct s i : i <= length s ->
  exists o, prefix_from (config_of [] ct) (ast word_regex) s i = Some o
    /\ forall e, o = Some e <-> stretch is_word_char s i e.
Proof.
  intros Hi. assert (Hg : regular (ast word_regex) = true) by (vm_compute; reflexivity).
  exists (preferred (config_of [] ct) s (ast word_regex) i). split.
  - apply prefix_preferred; auto. exact (word_usable ct).
  - intros e. rewrite <- (word_matches ct s i e Hi). 
    assert (Hp : possessive_free (ast word_regex) = true) by (vm_compute; reflexivity).
    assert (Hw : well_formed (ast word_regex) = true) by (vm_compute; reflexivity).
    split.
    + intros H. apply preferred_in in H. now apply (in_paths _ _ _ Hp Hw i e Hi) in H.
    + intros H. apply preferred_only; auto. intros e' H'. apply (word_matches ct s i _ Hi) in H, H'.
      eapply stretch_unique; eassumption.
Qed.

Theorem all_words ct s : returns (find_all word_regex ct s) (fun l =>
  exists bounds, map (fun x => group0 (groups x)) l = map Some bounds
    /\ lists_all (maximal_run is_word_char s) bounds).
Proof.
  destruct (find_all_scan word_regex ct s (word_usable ct) ltac:(vm_compute; reflexivity)) as (l & E & _ & bounds & Eb & H).
  exists l. split; [exact E|]. exists bounds. split; [exact Eb|].
  destruct (scan_stretches is_word_char s _ 0 bounds (word_from ct s) H) as [H1 H2]; [now left|lia|].
  split; [exact H1|]. intros b e. rewrite H2. split; [tauto|]. intros X. split; [lia|exact X].
Qed.

Theorem first_word ct s : returns (tokenize word_regex ct s) (fun l =>
  exists bounds, map (fun x => group0 (groups x)) l = map Some bounds
    /\ match bounds with
       | [] => char_at s is_word_char 0 = false
       | [(b, e)] => b = 0 /\ maximal_run is_word_char s 0 e
       | _ => False
       end).
Proof.
  destruct (tokenize_scan word_regex ct s (word_usable ct)) as (l & E & _ & bounds & Eb & H).
  exists l. split; [exact E|]. exists bounds. split; [exact Eb|].
  pose proof (tokens_stretches is_word_char s _ bounds (word_from ct s) H) as X.
  destruct bounds as [|[b e] [|]]; auto.
  destruct (char_at s is_word_char 0) eqn:Ec; [|reflexivity]. exfalso.
  destruct (stretch_exists _ _ _ Ec) as (e & He). exact (X e He).
Qed.

(** ** The runs of any class *)

Lemma hd_error_app {A} (l1 l2 : list A) x : hd_error l1 = Some x -> hd_error (l1 ++ l2) = Some x.
Proof. now destruct l1. Qed.

Section Class.
  Variable cf : config.
  Variable s : list ascii.
  Variable c : node.
  Hypothesis Hc : is_class c = true.
  Local Notation p := (accepts cf c).

  Lemma class_paths i : if char_at s p i then exists r, paths cf s c i = S i :: r else paths cf s c i = [].
  Proof.
    pose proof (in_paths_class cf s c Hc i) as H.
    destruct (char_at s p i).
    - destruct (paths cf s c i) as [|j r]; [destruct (proj2 (H (S i)) (conj eq_refl eq_refl))|].
      destruct (proj1 (H j) (or_introl eq_refl)) as [-> _]. eauto.
    - destruct (paths cf s c i) as [|j r]; [reflexivity|].
      destruct (proj1 (H j) (or_introl eq_refl)) as [_ X]. discriminate.
  Qed.

  Lemma char_inside i : char_at s p i = true -> i < length s.
  Proof. unfold char_at. intros H. apply nth_error_Some. now destruct (nth_error s i). Qed.

  Lemma greedy_first fuel : forall i, i <= length s -> length s - i < fuel ->
    exists e, hd_error (more_first (paths cf s c) fuel Inf i) = Some e
      /\ i <= e <= length s /\ (forall k, i <= k < e -> char_at s p k = true) /\ char_at s p e = false.
  Proof.
    induction fuel as [|fuel IH]; intros i Hi Hf; [lia|]. cbn [more_first].
    pose proof (class_paths i) as Hp. destruct (char_at s p i) eqn:E.
    - destruct Hp as (r & ->). pose proof (char_inside i E).
      destruct (IH (S i) ltac:(lia) ltac:(lia)) as (e & H1 & H2 & H3 & H4). exists e. split; [|split; [lia|split; [|exact H4]]].
      + cbn [flat_map]. destruct (Nat.eqb_spec i (S i)); [lia|]. apply hd_error_app, hd_error_app, H1.
      + intros k Hk. destruct (Nat.eq_dec k i) as [->|]; [exact E|]. apply H3. lia.
    - rewrite Hp. exists i. cbn. split; [reflexivity|]. split; [lia|]. split; [lia|exact E].
  Qed.

  (** The first of the paths of the greedy loop. *)
  Lemma greedy_preferred i e : i <= length s ->
    (hd_error (flat_map (greedy_paths s (paths cf s c) (remaining Inf 1)) (times (paths cf s c) (N.to_nat 1) i)) = Some e
     <-> stretch p s i e).
  Proof.
    intros Hi. pose proof (class_paths i) as Hp. change (N.to_nat 1) with 1. cbn [times remaining].
    destruct (char_at s p i) eqn:E.
    - destruct Hp as (r & ->). pose proof (char_inside i E). cbn [flat_map app].
      destruct (greedy_first (S (length s - S i)) (S i) ltac:(lia) ltac:(lia)) as (e' & H1 & H2 & H3 & H4).
      assert (S' : stretch p s i e').
      { split; [lia|]. split; [|exact H4]. intros k Hk. destruct (Nat.eq_dec k i) as [->|]; [exact E|]. apply H3. lia. }
      unfold greedy_paths at 1. cbn [bound_fuel]. rewrite (hd_error_app _ _ _ H1). split.
      + intros X. injection X as <-. exact S'.
      + intros X. f_equal. eapply stretch_unique; eassumption.
    - rewrite Hp. cbn. split; [discriminate|]. intros (H1 & H2 & _). rewrite H2 in E by lia. discriminate.
  Qed.
End Class.

Lemma loop_preferred cf s c md i e : is_class c = true -> i <= length s ->
  md = Possessive \/ (md = Greedy /\ ungreedy cf = false) \/ (md = Lazy /\ ungreedy cf = true) ->
  (preferred cf s (Rep md 1 Inf c) i = Some e <-> stretch (accepts cf c) s i e).
Proof.
  intros Hc Hi Hmd. rewrite <- (greedy_preferred cf s c Hc i e Hi). unfold preferred. cbn [paths].
  destruct Hmd as [->|[[-> ->]|[-> ->]]]; try reflexivity.
  now destruct (flat_map _ (times (paths cf s c) (N.to_nat 1) i)).
Qed.

(** A class with the greedy or the possessive "+". *)
Definition takes_all (cf : config) (md : match_mode) : Prop :=
  md = Possessive \/ (md = Greedy /\ ungreedy cf = false) \/ (md = Lazy /\ ungreedy cf = true).

Lemma class_fragment n : is_class n = true ->
  backref_free n = true /\ possessive_ok n = true /\ lookbehind_ok n = true /\ may_be_empty n = false.
Proof.
  assert (Hl : forall l, Forall (fun n => is_class n = true -> backref_free n = true /\ possessive_ok n = true
      /\ lookbehind_ok n = true /\ may_be_empty n = false) l -> forallb is_class l = true ->
    forallb backref_free l = true /\ forallb possessive_ok l = true /\ forallb lookbehind_ok l = true
    /\ existsb may_be_empty l = false).
  { induction 1 as [|x l Hx Hl IH]; cbn; [auto|]. intros H. apply andb_true_iff in H as [H1 H2].
    destruct (Hx H1) as (-> & -> & -> & ->). apply IH, H2. }
  induction n using node_ind'; intros Hc; try discriminate; try (repeat split; reflexivity).
  - cbn in *. rewrite Hc. destruct (IHn Hc) as (-> & -> & -> & _). auto.
  - cbn in Hc. destruct l as [|x [|]]; try discriminate. inversion H as [|? ? Hx _]; subst.
    cbn. destruct (Hx Hc) as (-> & -> & -> & ->). auto.
  - apply Hl; [assumption|]. cbn in Hc. destruct l; [discriminate|exact Hc].
  - destruct hi as [h|]; [|discriminate]. cbn [is_class] in Hc. apply andb_true_iff in Hc as [Hb Hc].
    apply andb_true_iff in Hb as [Hb _]. apply N.eqb_eq in Hb. subst lo.
    destruct (IHn Hc) as (H1 & H2 & H3 & H4). cbn. rewrite H1, H3, H4. destruct md; rewrite H2; auto.
Qed.

Section Loop.
  Variables (c : node) (md : match_mode) (fl : list regex_flag) (ct : category).
  Let r := mk_regex (Rep md 1 Inf c) fl.
  Let cf := config_of fl ct.
  Hypothesis Hu : usable r ct.
  Hypothesis Hc : is_class c = true.
  Hypothesis Hmd : takes_all cf md.

  Lemma loop_regular : regular (Rep md 1 Inf c) = true.
  Proof.
    destruct (class_fragment c Hc) as (H1 & H2 & H3 & H4). unfold regular. cbn.
    rewrite H1, H3. destruct md; rewrite ?H2, ?H4; reflexivity.
  Qed.

  Lemma loop_from s i : i <= length s ->
    exists o, prefix_from cf (Rep md 1 Inf c) s i = Some o /\ forall e, o = Some e <-> stretch (accepts cf c) s i e.
  Proof.
    intros Hi. eexists. split; [apply prefix_preferred; [exact Hu|exact loop_regular|exact Hi]|].
    intros e. now apply loop_preferred.
  Qed.

  Theorem all_runs s : returns (find_all r ct s) (fun l =>
    exists bounds, map (fun x => group0 (groups x)) l = map Some bounds
      /\ lists_all (maximal_run (accepts cf c) s) bounds).
  Proof.
    destruct (class_fragment c Hc) as (Hb & _).
    destruct (find_all_scan r ct s Hu Hb) as (l & E & _ & bounds & Eb & H).
    exists l. split; [exact E|]. exists bounds. split; [exact Eb|].
    destruct (scan_stretches (accepts cf c) s _ 0 bounds (loop_from s) H) as [H1 H2]; [now left|lia|].
    split; [exact H1|]. intros b e. rewrite H2. split; [tauto|]. intros X. split; [lia|exact X].
  Qed.
End Loop.

(** ** example/regex_searcher.cpp *)

Definition four_five : regex := rx "\b\w{4,5}+\b" [].

Lemma four_five_tree : ast four_five = Seq [WordB; Rep Possessive 4 (Fin 5) word_class; WordB].
Proof. vm_compute. reflexivity. Qed.

Lemma word_paths ct s i : paths (config_of [] ct) s word_class i = if char_at s is_word_char i then [S i] else [].
Proof.
  rewrite <- (word_class_chars ct).
  pose proof (in_paths_class (config_of [] ct) s word_class word_is_class i) as H.
  replace word_class with (CSet [Range "a"%char "z"%char; Range "A"%char "Z"%char; Range "0"%char "9"%char; Lit "_"%char]).
  - reflexivity.
  - vm_compute. reflexivity.
Qed.

Lemma four_five_paths ct s i e : In e (paths (config_of [] ct) s (ast four_five) i)
  <-> maximal_run is_word_char s i e /\ 4 <= e - i <= 5.
Proof.
  set (w := char_at s is_word_char).
  assert (E : paths (config_of [] ct) s (Rep Possessive 4 (Fin 5) word_class) i
    = if w i && w (1 + i) && w (2 + i) && w (3 + i) then [if w (4 + i) then 5 + i else 4 + i] else []).
  { cbn [paths]. change (N.to_nat 4) with 4. cbn [remaining]. change (Fin (5 - 4)) with (Fin 1). cbn [times].
    rewrite !word_paths. fold w. destruct (w i); [|reflexivity]. cbn [flat_map app].
    rewrite !word_paths. fold w. cbn [Nat.add]. destruct (w (S i)); [|reflexivity]. cbn [flat_map app].
    rewrite !word_paths. fold w. destruct (w (S (S i))); [|reflexivity]. cbn [flat_map app].
    rewrite !word_paths. fold w. destruct (w (S (S (S i)))); [|reflexivity]. cbn [flat_map app].
    unfold greedy_paths. change (bound_fuel s (Fin 1) (S (S (S (S i))))) with 2. cbn [more_first].
    change (1 =? 0)%N with false. change (1 - 1)%N with 0%N. cbv iota.
    rewrite !word_paths. fold w. destruct (w (S (S (S (S i))))); reflexivity. }
  assert (F : In e (paths (config_of [] ct) s (ast four_five) i)
    <-> at_word_boundary s i = true /\ at_word_boundary s e = true
        /\ In e (paths (config_of [] ct) s (Rep Possessive 4 (Fin 5) word_class) i)).
  { rewrite four_five_tree, paths_Seq. cbn [map chain_paths].
    change (paths (config_of [] ct) s WordB i) with (if at_word_boundary s i then [i] else []).
    destruct (at_word_boundary s i); [|cbn; intuition discriminate].
    cbn [flat_map]. rewrite app_nil_r, in_flat_map. split.
    - intros (k & Hk & H). apply in_flat_map in H as (k' & H & H').
      change (paths (config_of [] ct) s WordB k) with (if at_word_boundary s k then [k] else []) in H.
      destruct (at_word_boundary s k) eqn:B; [|easy]. destruct H as [<-|[]]. destruct H' as [<-|[]]. auto.
    - intros (_ & B & H). exists e. split; [exact H|]. apply in_flat_map. exists e. split; [|cbn; auto].
      change (paths (config_of [] ct) s WordB e) with (if at_word_boundary s e then [e] else []).
      rewrite B. cbn. auto. }
  rewrite F, E. clear E F. unfold at_word_boundary. fold w.
  assert (In' : forall k, w k = true -> k < length s).
  { intros k Hk. unfold w, char_at in Hk. apply nth_error_Some. now destruct (nth_error s k). }
  assert (At : forall n, w (n + i) = false -> n < 4 -> ~ (maximal_run is_word_char s i e /\ 4 <= e - i <= 5)).
  { intros n Hn Hlt [((H1 & H2 & _) & _) H4]. unfold w in Hn. rewrite H2 in Hn by lia. discriminate. }
  destruct (w i) eqn:E0; [|pose proof (At 0 E0 ltac:(lia)); cbn; tauto].
  destruct (w (1 + i)) eqn:E1; [|pose proof (At 1 E1 ltac:(lia)); cbn; tauto].
  destruct (w (2 + i)) eqn:E2; [|pose proof (At 2 E2 ltac:(lia)); cbn; tauto].
  destruct (w (3 + i)) eqn:E3; [|pose proof (At 3 E3 ltac:(lia)); cbn; tauto].
  cbn [andb]. rewrite xorb_true_r. clear At.
  assert (B : forall k, w k = true -> char_before s is_word_char (S k) = true) by auto.
  pose proof (In' _ E3). destruct (w (4 + i)) eqn:E4; split.
  - intros (H1 & H2 & [<-|[]]). apply negb_true_iff in H1.
    change (5 + i) with (S (4 + i)) in H2. rewrite (B _ E4) in H2. cbn [xorb] in H2. apply negb_true_iff in H2.
    pose proof (In' _ E4). split; [|lia]. split; [|exact H1]. split; [lia|]. split; [|exact H2].
    intros k Hk. assert (k = i \/ k = 1 + i \/ k = 2 + i \/ k = 3 + i \/ k = 4 + i) as [->|[->|[->|[->| ->]]]] by lia; assumption.
  - intros [((H1 & H2 & H3) & H4) H5].
    assert (X : w e = false) by exact H3.
    assert (e = 4 + i \/ e = 5 + i) as [->| ->] by lia; [congruence|].
    rewrite H4. split; [reflexivity|]. split; [|now left].
    change (5 + i) with (S (4 + i)) in *. rewrite (B _ E4), X. reflexivity.
  - intros (H1 & H2 & [<-|[]]). apply negb_true_iff in H1. split; [|lia]. split; [|exact H1]. split; [lia|].
    split; [|exact E4].
    intros k Hk. assert (k = i \/ k = 1 + i \/ k = 2 + i \/ k = 3 + i) as [->|[->|[->| ->]]] by lia; assumption.
  - intros [((H1 & H2 & H3) & H4) H5].
    assert (e = 4 + i \/ e = 5 + i) as [->| ->] by lia.
    + rewrite H4. split; [reflexivity|]. split; [|now left]. rewrite E4.
      change (4 + i) with (S (3 + i)). rewrite (B _ E3). reflexivity.
    + unfold w in E4. rewrite H2 in E4 by lia. discriminate.
Qed.

Theorem four_five_words ct s : ct <> ForwardIt -> returns (find_all four_five ct s) (fun l =>
  exists bounds, map (fun x => group0 (groups x)) l = map Some bounds
    /\ lists_all (fun b e => maximal_run is_word_char s b e /\ 4 <= e - b <= 5) bounds).
Proof.
  intros Hct.
  assert (Hu : usable four_five ct) by (destruct ct; [easy|unfold four_five; show_usable..]).
  assert (Hg : regular (ast four_five) = true) by (vm_compute; reflexivity).
  destruct (find_all_scan four_five ct s Hu ltac:(vm_compute; reflexivity)) as (l & E & _ & bounds & Eb & H).
  exists l. split; [exact E|]. exists bounds. split; [exact Eb|].
  destruct (scan_runs is_word_char s (prefix_from (config_of [] ct) (ast four_five) s) (fun b e => 4 <= e - b <= 5) 0 bounds) as [H1 H2]; [|exact H|lia|].
  - intros i Hi. eexists. split; [apply prefix_preferred; [exact Hu|exact Hg|exact Hi]|]. intros e. split.
    + intros X. apply preferred_in in X. now apply four_five_paths in X.
    + intros X. pose proof X as X'. apply (four_five_paths ct) in X'. apply in_preferred in X'.
      destruct (preferred (config_of [] ct) s (ast four_five) i) as [e'|] eqn:Ep; [|easy]. f_equal.
      apply preferred_in, (four_five_paths ct) in Ep. apply (stretch_unique is_word_char s i); [apply Ep|apply X].
  - split; [exact H1|]. intros b e. rewrite H2. split; [tauto|]. intros X. split; [lia|exact X].
Qed.
