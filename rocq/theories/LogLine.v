(** The log line of the example programs: possessive fields (C76). *)
From Verif Require Import Matcher Api Basics Safe Cong Impl Spec Paths Mirror Adequacy Calls
  Lift Matching Relate Runs Uniform Generators Scans Actual Exact Tracks Tracking Examples Contained Template Sample WordRuns.
From Coq Require String.
From Coq Require Import Lia Arith NArith Bool List.
Import ListNotations.

Section Laid.
  Variables (cf : config) (s : list ascii).
  Hypothesis Hi : icase cf = false.

  Lemma at_split (p : ascii -> bool) x w k : s = x ++ w -> char_at s p (length x + k) = char_at w p k.
  Proof.
    intros ->. unfold char_at. rewrite nth_error_app2 by lia. now replace (length x + k - length x) with k by lia.
  Qed.

  Lemma laid_fixed t : forall r x w j l, s = x ++ w ->
    (laid cf s (fixed t ++ r) (length x) j l
     <-> exists v, w = t ++ v /\ laid cf s r (length (x ++ t)) j l).
  Proof.
    induction t as [|a t IH]; intros r x w j l E.
    - cbn [fixed map app]. rewrite app_nil_r. split; [eauto|now intros (v & _ & H)].
    - change (fixed (a :: t) ++ r) with (Plain (Lit a) :: fixed t ++ r). cbn [laid].
      assert (A : forall k, In k (paths cf s (Lit a) (length x)) <-> k = S (length x) /\ exists v, w = a :: v).
      { intros k. rewrite in_paths_class by reflexivity. rewrite <- (Nat.add_0_r (length x)) at 2.
        rewrite (at_split _ x w 0 E). cbn [accepts]. unfold char_at, either_case. rewrite Hi. split; intros [-> H]; (split; [reflexivity|]).
        - destruct w as [|b w]; [discriminate|]. cbn in H. rewrite orb_false_r in H. apply Ascii.eqb_eq in H. subst. eauto.
        - destruct H as (v & ->). cbn. now rewrite Ascii.eqb_refl. }
      assert (L : forall v, w = a :: v -> s = (x ++ [a]) ++ v /\ length (x ++ [a]) = S (length x)).
      { intros v ->. rewrite <- app_assoc, app_length. cbn. split; [exact E|lia]. }
      split.
      + intros (k & Hk & H). apply A in Hk as [-> (v & Ev)]. destruct (L v Ev) as [E' E''].
        rewrite <- E'' in H. apply (IH r (x ++ [a]) v j l E') in H as (v' & -> & H).
        rewrite <- app_assoc in H. exists v'. auto.
      + intros (v & Ev & H). exists (S (length x)). split; [apply A; split; [reflexivity|]; exists (t ++ v); exact Ev|].
        destruct (L (t ++ v) Ev) as [E' E'']. rewrite <- E''. apply (IH r (x ++ [a]) (t ++ v) j l E').
        exists v. rewrite <- app_assoc. auto.
  Qed.

  Lemma possessive_ends c i k : is_class c = true -> i <= length s ->
    (In k (paths cf s (Rep Possessive 1 Inf c) i) <-> stretch (accepts cf c) s i k).
  Proof.
    intros Hc Hl. rewrite <- (greedy_preferred cf s c Hc i k Hl). cbn [paths].
    destruct (flat_map _ (times (paths cf s c) (N.to_nat 1) i)); cbn; [intuition discriminate|].
    split; [intros [->|[]]; reflexivity|]. intros X. injection X as ->. auto.
  Qed.

  Definition no_more (p : ascii -> bool) (v : list ascii) : Prop :=
    match v with [] => True | a :: _ => p a = false end.

  Lemma stretch_split p x w k : s = x ++ w ->
    (stretch p s (length x) k
     <-> exists u v, w = u ++ v /\ some p u /\ no_more p v /\ k = length (x ++ u)).
  Proof.
    intros E. assert (Ls : length s = length x + length w) by (rewrite E; apply app_length). split.
    - intros (B & H1 & H2). exists (firstn (k - length x) w), (skipn (k - length x) w).
      assert (Lu : length (firstn (k - length x) w) = k - length x) by (apply firstn_length_le; lia).
      split; [symmetry; apply firstn_skipn|]. split; [split|split].
      + intros X. rewrite X in Lu. cbn in Lu. lia.
      + apply all_chars_at. intros m Hm. specialize (H1 (length x + m) ltac:(lia)).
        rewrite (at_split p x w m E) in H1. unfold char_at in *. rewrite <- (firstn_skipn (k - length x) w) in H1.
        rewrite nth_error_app1 in H1 by lia. exact H1.
      + replace k with (length x + (k - length x)) in H2 by lia. rewrite (at_split p x w _ E) in H2.
        unfold char_at in H2. rewrite <- (firstn_skipn (k - length x) w) in H2 at 1.
        rewrite nth_error_app2 in H2 by lia. rewrite Lu, Nat.sub_diag in H2.
        destruct (skipn (k - length x) w); [exact I|exact H2].
      + rewrite app_length, Lu. lia.
    - intros (u & v & -> & [Hn Hu] & Hv & ->). rewrite app_length in *.
      split; [destruct u; [easy|cbn in *; lia]|]. split.
      + intros m Hm. replace m with (length x + (m - length x)) by lia. rewrite (at_split p x _ _ E).
        unfold char_at. rewrite nth_error_app1 by lia. apply (proj2 (all_chars_at p u) Hu). lia.
      + rewrite (at_split p x _ _ E). unfold char_at. rewrite nth_error_app2, Nat.sub_diag by lia.
        destruct v; [reflexivity|exact Hv].
  Qed.

  Lemma laid_run nm c p r x w j l : is_class c = true -> (forall a, accepts cf c a = p a) -> s = x ++ w ->
    (laid cf s (Field nm (Rep Possessive 1 Inf c) :: r) (length x) j l
     <-> exists u v l', w = u ++ v /\ some p u /\ no_more p v /\ l = (length x, length (x ++ u)) :: l'
          /\ laid cf s r (length (x ++ u)) j l').
  Proof.
    intros Hc Hp E. assert (Lx : length x <= length s) by (rewrite E, app_length; lia).
    assert (Q : forall k, stretch (accepts cf c) s (length x) k <-> stretch p s (length x) k).
    { intros k. unfold stretch, char_at. split; intros (H1 & H2 & H3); (split; [exact H1|]); split.
      1,3: intros m Hm; specialize (H2 m Hm); destruct (nth_error s m); congruence.
      all: destruct (nth_error s k); congruence. }
    cbn [laid]. split.
    - intros (k & l' & El & Hk & H). apply (possessive_ends c _ _ Hc Lx) in Hk. apply Q in Hk.
      apply (stretch_split p x w k E) in Hk as (u & v & -> & Hu & Hv & ->). eauto 10.
    - intros (u & v & l' & -> & Hu & Hv & El & H). exists (length (x ++ u)), l'. split; [exact El|]. split; [|exact H].
      apply (possessive_ends c _ _ Hc Lx), Q. apply (stretch_split p x (u ++ v) _ E). eauto 8.
  Qed.
End Laid.

(** ** example/forward_list.cpp *)

Definition is_upper : ascii -> bool := Spec.between "A"%char "Z"%char.
Definition not_newline (a : ascii) : bool := negb (Ascii.eqb a (ascii_of_nat 10) || Ascii.eqb a (ascii_of_nat 13)).

Definition log_line (s lv msg : list ascii) : Prop :=
  s = str "[" ++ lv ++ str "]: " ++ msg /\ some is_upper lv /\ some not_newline msg.

Definition log_regex : regex := rx "\[(?<level>[A-Z]++)\]: (?<msg>.++)" [].

Definition log_pieces : list piece :=
  fixed (str "[") ++ Field (Some (str "level")) (Rep Possessive 1 Inf (tree "[A-Z]"))
  :: fixed (str "]: ") ++ [Field (Some (str "msg")) (Rep Possessive 1 Inf Wild)].

Lemma log_template : log_regex = mk_regex (template log_pieces) [].
Proof. vm_compute. reflexivity. Qed.

Lemma accepts_wild ct a : accepts (config_of [] ct) Wild a = not_newline a.
Proof. destruct ct; all_bytes a; vm_compute; reflexivity. Qed.

Lemma log_plain : Forall (fun p => backref_free (inside p) = true /\ capture_count (inside p) = 0) log_pieces.
Proof. repeat constructor. Qed.

Lemma log_followed : followed (mk_regex (template log_pieces) []).
Proof. split; vm_compute; reflexivity. Qed.

Lemma nothing_more ct s i l : laid (config_of [] ct) s [] i (length s) l <-> i = length s /\ l = [].
Proof. cbn. intuition. Qed.

Lemma log_laid ct s l : laid (config_of [] ct) s log_pieces 0 (length s) l
  <-> exists lv msg, log_line s lv msg
        /\ l = [(1, 1 + length lv); (4 + length lv, length s)].
Proof.
  unfold log_pieces. set (cf := config_of [] ct). assert (Hi : icase cf = false) by apply plain_case.
  change 0 with (length (@nil ascii)) at 1. rewrite (laid_fixed cf s Hi _ _ [] s _ _ eq_refl). split.
  - intros (w & E & H).
    apply (laid_run cf s Hi _ _ is_upper _ _ w) in H as (lv & v & l' & -> & Hlv & _ & -> & H);
      [|exact upper_class|exact (accepts_upper ct)|exact E].
    rewrite app_assoc in E.
    apply (laid_fixed cf s Hi _ _ _ v _ _ E) in H as (w & -> & H). rewrite app_assoc in E.
    apply (laid_run cf s Hi _ _ not_newline _ _ w) in H as (msg & v & l'' & -> & Hm & _ & -> & H);
      [|reflexivity|exact (accepts_wild ct)|exact E].
    apply nothing_more in H as [H ->].
    assert (v = []).
    { rewrite E in H. rewrite !app_length in H. destruct v; [reflexivity|]. cbn in H. lia. }
    subst v. rewrite app_nil_r in E. exists lv, msg. split.
    + split; [|auto]. rewrite E. now rewrite <- !app_assoc.
    + rewrite E. rewrite !app_length. cbn [List.length app str String.list_ascii_of_string]. repeat (f_equal; try lia).
  - intros (lv & msg & (E & Hlv & Hm) & ->). exists (lv ++ str "]: " ++ msg). split; [exact E|].
    apply (laid_run cf s Hi _ _ is_upper _ _ (lv ++ str "]: " ++ msg)); [exact upper_class|exact (accepts_upper ct)|exact E|].
    exists lv, (str "]: " ++ msg). eexists. split; [reflexivity|]. split; [exact Hlv|]. split; [reflexivity|].
    rewrite app_assoc in E. split; [reflexivity|].
    apply (laid_fixed cf s Hi _ _ _ (str "]: " ++ msg) _ _ E). exists msg. split; [reflexivity|].
    rewrite app_assoc in E.
    apply (laid_run cf s Hi _ _ not_newline _ _ msg); [reflexivity|exact (accepts_wild ct)|exact E|].
    exists msg, [], []. rewrite app_nil_r. split; [reflexivity|]. split; [exact Hm|]. split; [exact I|].
    rewrite <- E. split; [|apply nothing_more; auto].
    rewrite !app_length. cbn [List.length app str String.list_ascii_of_string]. repeat (f_equal; try lia).
Qed.

Lemma log_unique s lv msg lv' msg' : log_line s lv msg -> log_line s lv' msg' -> lv' = lv /\ msg' = msg.
Proof.
  intros (E & [_ H] & _) (E' & [_ H'] & _). rewrite E in E'. cbn [app str String.list_ascii_of_string] in E'.
  injection E' as E'. clear E. revert lv' H' E'. induction H as [|a lv Ha H IH]; intros [|b lv'] H' E'; cbn in E'.
  - injection E' as E'. auto.
  - injection E' as <- E'. inversion H' as [|? ? Hb _]; subst. discriminate Hb.
  - injection E' as -> E'. discriminate Ha.
  - injection E' as <- E'. inversion H' as [|? ? Hb Hl]; subst. destruct (IH lv' Hl E') as [-> ->]. auto.
Qed.

Theorem log_fields ct s : returns (regex_match log_regex ct s) (fun res =>
  (matched res = true <-> exists lv msg, log_line s lv msg)
  /\ forall lv msg, log_line s lv msg -> map (cell_content s) (groups res) = [s; lv; msg]
       /\ option_map (cell_content s) (group_named (ast log_regex) res (str "level")) = Some lv
       /\ option_map (cell_content s) (group_named (ast log_regex) res (str "msg")) = Some msg).
Proof.
  assert (Hu : usable log_regex ct) by (unfold log_regex; usable_ct). rewrite log_template in *.
  destruct (match_laid log_pieces [] ct Hu log_followed log_plain s) as (res & E & H1 & H2).
  exists res. split; [exact E|].
  assert (V : matched res = true <-> exists lv msg, log_line s lv msg).
  { etransitivity; [exact H1|]. split.
    - intros (l & Hl). apply log_laid in Hl as (lv & msg & H & _). eauto.
    - intros (lv & msg & H). eexists. apply log_laid. eauto. }
  split; [exact V|]. intros lv msg H. destruct (H2 (proj2 V (ex_intro _ lv (ex_intro _ msg H)))) as (l & Hl & Hg).
  apply log_laid in Hl as (lv' & msg' & H' & ->). destruct (log_unique _ _ _ _ _ H H') as [-> ->].
  assert (G : map (cell_content s) (groups res) = [s; lv; msg]).
  { rewrite Hg. destruct H as (Es & _). cbn [map]. clear - Es.
    change (slice s 0 (length s) :: slice s 1 (1 + length lv) :: [slice s (4 + length lv) (length s)] = [s; lv; msg]).
    rewrite slice_all. f_equal. f_equal; [|f_equal].
    - rewrite Es. exact (slice_of (str "[") lv (str "]: " ++ msg)).
    - assert (L1 : 4 + length lv = length (str "[" ++ lv ++ str "]: ")).
      { rewrite !app_length. cbn [List.length str String.list_ascii_of_string]. lia. }
      assert (E' : s = (str "[" ++ lv ++ str "]: ") ++ msg ++ []) by (rewrite Es, app_nil_r, <- !app_assoc; reflexivity).
      assert (L2 : length s = length (str "[" ++ lv ++ str "]: ") + length msg).
      { rewrite E' at 1. rewrite app_length, app_nil_r. reflexivity. }
      rewrite L1, L2. rewrite E' at 1. apply slice_of. }
  split; [exact G|]. rewrite Hg in G. cbn [map] in G.
  assert (G1 : cell_content s (Some (1, 1 + length lv)) = lv) by congruence.
  assert (G2 : cell_content s (Some (4 + length lv, length s)) = msg) by congruence.
  change (ast (mk_regex (template log_pieces) [])) with (template log_pieces). unfold group_named.
  replace (unique_position (Some (str "level")) (group_names (template log_pieces))) with (Some 1)
    by (vm_compute; reflexivity).
  replace (unique_position (Some (str "msg")) (group_names (template log_pieces))) with (Some 2)
    by (vm_compute; reflexivity).
  rewrite Hg. cbn [nth_error option_map map]. rewrite G1, G2. auto.
Qed.
