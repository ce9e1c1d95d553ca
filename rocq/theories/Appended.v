(** Text appended to a text: what is found in the first part does not change (C86). *)
From Verif Require Import Matcher Api Basics Safe Spec Calls Lift Matching Paths Walk Exact Actual Uniform Scans Records.
From Coq Require Import Lia.

(** Read leftwards without tests of places. *)
Fixpoint reads_back (n : node) : bool :=
  match n with
  | Empty | Wild | Lit _ | Range _ _ | CSet _ => true
  | Neg x => is_class x
  | Seq l | Alt l => forallb reads_back l
  | Cap _ _ x | Rep _ _ _ x => reads_back x
  | _ => false
  end.

(** A test of a place. *)
Definition is_test (n : node) : bool :=
  match n with BeginLine | BeginInput | Look _ _ | Neg _ => true | _ => false end.

(** Nothing looks at what comes behind a match and no decision is final: no [$],
    [\Z], [\b], lookahead, atomic group or possessive repetition; [^], [\A] and
    lookbehinds for words are possible. *)
Fixpoint open_ended (n : node) : bool :=
  match n with
  | Empty | BeginLine | BeginInput | Wild | Lit _ | Range _ _ | CSet _ => true
  | Neg x => is_class x || (is_test x && open_ended x)
  | Seq l | Alt l => forallb open_ended l
  | Cap _ _ x => open_ended x
  | Rep md _ _ x => match md with Possessive => false | _ => open_ended x end
  | Look Behind x => reads_back x
  | _ => false
  end.

Lemma reads_back_free n : reads_back n = true -> backref_free n = true.
Proof.
  induction n using node_ind'; cbn [reads_back backref_free]; intros Hn; auto; try discriminate.
  - now apply class_free.
  - rewrite forallb_forall in *. rewrite Forall_forall in H. auto.
  - rewrite forallb_forall in *. rewrite Forall_forall in H. auto.
Qed.

Lemma open_free n : open_ended n = true -> backref_free n = true.
Proof.
  induction n using node_ind'; cbn [open_ended backref_free]; intros Hn; auto; try discriminate.
  - apply orb_prop in Hn as [Hn|Hn]; [now apply class_free|]. apply andb_prop in Hn as [_ Hn]. auto.
  - rewrite forallb_forall in *. rewrite Forall_forall in H. auto.
  - rewrite forallb_forall in *. rewrite Forall_forall in H. auto.
  - destruct md; try discriminate; auto.
  - destruct d; [discriminate|]. now apply reads_back_free.
Qed.

Section Appended.
  Variable cf : config.
  Variables s t : list ascii.
  Local Notation L := (length s).
  Local Notation st := (s ++ t).

  Definition low (e : nat) : bool := Nat.leb e L.

  Lemma char_low p i : i < L -> char_at st p i = char_at s p i.
  Proof. intros H. unfold char_at. now rewrite nth_error_app1. Qed.

  Lemma before_low p i : i <= L -> char_before st p i = char_before s p i.
  Proof. intros H. destruct i as [|i]; [reflexivity|]. cbn. now apply char_low. Qed.

  Lemma map_zero l : map (fun j => 0 + j) l = l.
  Proof. apply map_id. Qed.

  (** ** To the left *)

  Lemma walk_left n : reads_back n = true -> forall back i, i <= L ->
    walk cf st true back n i = walk cf s true back n i.
  Proof.
    assert (R : forall p i, i <= L -> read_char st true p i = read_char s true p i)
      by (intros p i Hi; unfold read_char; now rewrite before_low).
    induction n using node_ind'; intros Hn back i Hi; cbn [reads_back] in Hn; try discriminate; cbn [walk]; auto.
    - rewrite Hn. auto.
    - change (walk cf st true back (Seq l) i = walk cf s true back (Seq l) i).
      rewrite !walk_Seq. rewrite forallb_forall in Hn. rewrite Forall_forall in H.
      assert (HF : forall y, In y (if back then rev l else l) -> forall i, i <= L ->
                     walk cf st true back y i = walk cf s true back y i).
      { intros y Hy j Hj. apply H; auto; [|apply Hn]; destruct back; auto; now apply in_rev. }
      clear H Hn. revert i Hi. induction (if back then rev l else l) as [|y r IH]; intros i Hi; [reflexivity|].
      cbn [map chain_paths]. rewrite HF by (auto; now left). apply flat_map_ext_in. intros j Hj. apply IH.
      + intros z Hz. apply HF. now right.
      + exact (moves_le s true _ i j (walk_moves cf s y true back) Hi Hj).
    - apply flat_map_ext_in. intros y Hy. rewrite forallb_forall in Hn. rewrite Forall_forall in H. now apply H; auto.
    - pose proof (piece_rep cf [] s t true (walk cf st true back n) (walk cf s true back n)) as P.
      cbn [app length] in P. cbv zeta in P |- *.
      specialize (P ltac:(intros j Hj; rewrite map_zero; now apply IHn) (walk_moves cf s n true back) md lo hi i Hi).
      rewrite map_zero in P. exact P.
  Qed.

  (** ** To the right *)

  Lemma filter_flat {A} (p : nat -> bool) (f : A -> list nat) l :
    filter p (flat_map f l) = flat_map (fun a => filter p (f a)) l.
  Proof. induction l as [|a l IH]; [reflexivity|]. cbn. now rewrite filter_app, IH. Qed.

  Lemma high l : (forall j, In j l -> L < j) -> filter low l = [].
  Proof.
    induction l as [|j l IH]; intros H; [reflexivity|]. cbn. unfold low at 1.
    rewrite (proj2 (Nat.leb_gt _ _)) by (apply H; now left). apply IH. intros k Hk. apply H. now right.
  Qed.

  (** [f] is [g] without the ends behind [s]. *)
  Definition cut (f g : nat -> list nat) : Prop := forall i, i <= L -> f i = filter low (g i).

  Lemma cut_flat f g (l : list nat) : (forall i, In i l -> i <= L -> f i = filter low (g i)) ->
    (forall i j, In i l -> In j (g i) -> i <= j) ->
    flat_map f (filter low l) = filter low (flat_map g l).
  Proof.
    induction l as [|i l IH]; intros Hf Hg; [reflexivity|]. cbn. rewrite filter_app, <- IH.
    - unfold low at 1. destruct (Nat.leb_spec i L) as [H|H].
      + cbn. rewrite Hf by (auto; now left). reflexivity.
      + rewrite (high (g i)); [reflexivity|]. intros j Hj. specialize (Hg i j (or_introl eq_refl) Hj). lia.
    - intros k Hk. apply Hf. now right.
    - intros k j Hk. apply Hg. now right.
  Qed.

  Lemma grows g i j : moves st false g -> i <= length st -> In j (g i) -> i <= j <= length st.
  Proof. intros M Hi Hj. exact (M i j Hi Hj). Qed.

  Section Loops.
    Variables f g : nat -> list nat.
    Hypothesis C : cut f g.
    Hypothesis M : moves st false g.

    Lemma below i : i <= L -> i <= length st.
    Proof. rewrite app_length. lia. Qed.

    Lemma cut_times n : cut (times f n) (times g n).
    Proof.
      induction n as [|n IH]; intros i Hi.
      - cbn. unfold low. now rewrite (proj2 (Nat.leb_le _ _) Hi).
      - cbn [times]. rewrite C by exact Hi. apply cut_flat.
        + intros k _ Hk. now apply IH.
        + intros k j Hk Hj. apply (grows (times g n)) in Hj; [lia|now apply moves_times|].
          now apply (grows g i k M (below i Hi)) in Hk.
    Qed.

    Definition plenty (l : nat) (fu : nat) (b : quantifier) (i : nat) : Prop :=
      match b with Fin n => N.to_nat n < fu | Inf => l - i < fu end.

    Lemma low_here i : i <= L -> filter low [i] = [i].
    Proof. intros H. cbn. unfold low. now rewrite (proj2 (Nat.leb_le _ _) H). Qed.

    Lemma cut_more : forall fu fu' b i, i <= L -> plenty L fu b i -> plenty (length st) fu' b i ->
      more_first f fu b i = filter low (more_first g fu' b i).
    Proof.
      induction fu as [|fu IH]; intros fu' b i Hi E E'; [destruct b; cbn in E; lia|].
      destruct fu' as [|fu']; [destruct b; cbn in E'; lia|]. cbn [more_first]. destruct b as [n|].
      - destruct (N.eqb_spec n 0); [now rewrite low_here|]. rewrite filter_app, low_here, C by exact Hi. f_equal.
        apply cut_flat.
        + intros k _ Hk. cbn in E, E'. apply IH; cbn; lia.
        + intros k j Hk Hj. apply (grows (more_first g fu' (Fin (n - 1)))) in Hj; [lia|now apply moves_more|].
          now apply (grows g i k M (below i Hi)) in Hk.
      - rewrite filter_app, low_here, C by exact Hi. f_equal. apply cut_flat.
        + intros k Hk Hl. destruct (Nat.eqb_spec i k) as [|N]; [reflexivity|].
          apply (grows g i k M (below i Hi)) in Hk. cbn in E, E'. rewrite app_length in *. apply IH; cbn; rewrite ?app_length; lia.
        + intros k j Hk Hj. destruct (Nat.eqb i k); [destruct Hj|].
          apply (grows g i k M (below i Hi)) in Hk.
          apply (grows (more_first g fu' Inf)) in Hj; [lia|now apply moves_more|lia].
    Qed.

    Lemma cut_fewer : forall fu fu' b i, i <= L -> plenty L fu b i -> plenty (length st) fu' b i ->
      fewer_first f fu b i = filter low (fewer_first g fu' b i).
    Proof.
      induction fu as [|fu IH]; intros fu' b i Hi E E'; [destruct b; cbn in E; lia|].
      destruct fu' as [|fu']; [destruct b; cbn in E'; lia|]. cbn [fewer_first]. destruct b as [n|].
      - destruct (N.eqb_spec n 0); [now rewrite low_here|].
        change (i :: flat_map (fewer_first g fu' (Fin (n - 1))) (g i)) with ([i] ++ flat_map (fewer_first g fu' (Fin (n - 1))) (g i)).
        rewrite filter_app, low_here, C by exact Hi. cbn [app]. f_equal.
        apply cut_flat.
        + intros k _ Hk. cbn in E, E'. apply IH; cbn; lia.
        + intros k j Hk Hj. apply (grows (fewer_first g fu' (Fin (n - 1)))) in Hj; [lia|now apply moves_fewer|].
          now apply (grows g i k M (below i Hi)) in Hk.
      - set (h := fun j => if Nat.eqb i j then [] else fewer_first g fu' Inf j).
        change (i :: flat_map h (g i)) with ([i] ++ flat_map h (g i)).
        rewrite filter_app, low_here, C by exact Hi. cbn [app]. f_equal. unfold h. apply cut_flat.
        + intros k Hk Hl. destruct (Nat.eqb_spec i k) as [|N]; [reflexivity|].
          apply (grows g i k M (below i Hi)) in Hk. cbn in E, E'. rewrite app_length in *. apply IH; cbn; rewrite ?app_length; lia.
        + intros k j Hk Hj. destruct (Nat.eqb i k); [destruct Hj|].
          apply (grows g i k M (below i Hi)) in Hk.
          apply (grows (fewer_first g fu' Inf)) in Hj; [lia|now apply moves_fewer|lia].
    Qed.
  End Loops.

  Lemma test_result n i : is_test n = true -> is_class n = false -> open_ended n = true ->
    walk cf st false false n i = [] \/ walk cf st false false n i = [i].
  Proof.
    destruct n; cbn [is_test is_class open_ended walk]; intros Ht Hc Ho; try discriminate.
    - destruct (at_line_start cf st i); auto.
    - destruct (Nat.eqb i 0); auto.
    - rewrite Hc. destruct (walk cf st false false n i); auto.
    - destruct (xorb false _); destruct (walk _ _ _ _ _ _); auto.
  Qed.

  Theorem walk_cut n : open_ended n = true -> cut (walk cf s false false n) (walk cf st false false n).
  Proof.
    assert (I : forall (b : bool) i, i <= L -> (if b then [i] else []) = filter low (if b then [i] else [])).
    { intros [|] i Hi; [|reflexivity]. now rewrite low_here. }
    assert (R : forall p i, i <= L -> read_char s false p i = filter low (read_char st false p i)).
    { intros p i Hi. unfold read_char. destruct (Nat.eq_dec i L) as [->|N].
      - unfold char_at at 1. rewrite (proj2 (nth_error_None s L)) by lia. symmetry. apply high.
        intros j Hj. destruct (char_at st p L); [destruct Hj as [<-|[]]; lia|destruct Hj].
      - rewrite char_low by lia. destruct (char_at s p i); [|reflexivity]. cbn [filter]. unfold low.
        now rewrite (proj2 (Nat.leb_le (S i) L)) by lia. }
    induction n using node_ind'; intros Hn i Hi; cbn [open_ended] in Hn; try discriminate.
    - cbn [walk]. now rewrite low_here.
    - cbn [walk]. replace (at_line_start cf s i) with (at_line_start cf st i); [now apply I|].
      unfold at_line_start. now rewrite before_low.
    - cbn [walk]. now apply I.
    - cbn [walk]. now apply R.
    - cbn [walk]. now apply R.
    - cbn [walk]. now apply R.
    - cbn [walk]. now apply R.
    - cbn [walk]. destruct (is_class n) eqn:Ec; [now apply R|]. cbn [orb] in Hn. apply andb_prop in Hn as [Ht Ho].
      rewrite (IHn Ho i Hi). destruct (test_result n i Ht Ec Ho) as [->| ->].
      + symmetry. now apply low_here.
      + rewrite low_here by exact Hi. reflexivity.
    - rewrite !walk_Seq. rewrite forallb_forall in Hn. rewrite Forall_forall in H. revert i Hi.
      induction l as [|y r IH]; intros i Hi; [symmetry; now apply low_here|]. cbn [map chain_paths].
      rewrite (H y) by (auto; try apply Hn; now left). apply cut_flat.
      + intros k _ Hk. apply IH; auto.
        * intros z Hz. apply H. now right.
        * intros z Hz. apply Hn. now right.
      + intros k j Hk Hj. apply (grows _ i k (walk_moves cf st y false false) (below i Hi)) in Hk.
        apply (grows (chain_paths (map (walk cf st false false) r))) in Hj; [lia| |lia].
        apply moves_chain. apply Forall_forall. intros z Hz. apply in_map_iff in Hz as (w & <- & _). apply walk_moves.
    - cbn [walk]. rewrite filter_flat. apply flat_map_ext_in. intros y Hy. rewrite forallb_forall in Hn.
      rewrite Forall_forall in H. now apply H; auto.
    - cbn [walk]. now apply IHn.
    - assert (Ho : open_ended n = true) by (destruct md; auto; discriminate).
      pose proof (walk_moves cf st n false false) as M. specialize (IHn Ho).
      assert (P : forall b k, k <= L -> plenty L (any_fuel s b) b k /\ plenty (length st) (any_fuel st b) b k)
        by (intros [m|] k Hk; cbn; lia).
      cbn [walk]. set (b := remaining hi lo).
      assert (Hmore : flat_map (more_first (walk cf s false false n) (any_fuel s b) b) (times (walk cf s false false n) (N.to_nat lo) i)
                = filter low (flat_map (more_first (walk cf st false false n) (any_fuel st b) b) (times (walk cf st false false n) (N.to_nat lo) i))).
      { rewrite (cut_times _ _ IHn M (N.to_nat lo) i Hi). apply cut_flat.
        - intros k _ Hk. destruct (P b k Hk). now apply cut_more.
        - intros k j Hk Hj. apply (grows _ i k (moves_times _ _ _ _ M) (below i Hi)) in Hk.
          apply (grows _ k j (moves_more _ _ _ M _ _)) in Hj; lia. }
      assert (Hfewer : flat_map (fewer_first (walk cf s false false n) (any_fuel s b) b) (times (walk cf s false false n) (N.to_nat lo) i)
                = filter low (flat_map (fewer_first (walk cf st false false n) (any_fuel st b) b) (times (walk cf st false false n) (N.to_nat lo) i))).
      { rewrite (cut_times _ _ IHn M (N.to_nat lo) i Hi). apply cut_flat.
        - intros k _ Hk. destruct (P b k Hk). now apply cut_fewer.
        - intros k j Hk Hj. apply (grows _ i k (moves_times _ _ _ _ M) (below i Hi)) in Hk.
          apply (grows _ k j (moves_fewer _ _ _ M _ _)) in Hj; lia. }
      destruct md; [destruct (ungreedy cf); assumption|destruct (ungreedy cf); assumption|discriminate].
    - destruct d; [discriminate|]. cbn [walk xorb negb]. rewrite <- (walk_left n Hn true i Hi).
      destruct (walk cf st true true n i); [reflexivity|]. now rewrite low_here.
  Qed.

  (** ** The answer at an offset *)

  Section Answer.
    Variable n : node.
    Hypothesis Ho : open_ended n = true.

    Lemma none_appended i : i <= L -> actual cf st n i = None -> actual cf s n i = None.
    Proof. intros Hi. unfold actual. rewrite (walk_cut n Ho i Hi). now destruct (walk cf st false false n i). Qed.

    Lemma same_appended i e : i <= L -> actual cf st n i = Some e -> e <= L -> actual cf s n i = Some e.
    Proof.
      intros Hi. unfold actual. rewrite (walk_cut n Ho i Hi). destruct (walk cf st false false n i) as [|j l]; [discriminate|].
      cbn. intros [= ->] He. unfold low. now rewrite (proj2 (Nat.leb_le _ _) He).
    Qed.

    Lemma some_appended i e : i <= L -> actual cf s n i = Some e -> e <= L /\ exists e', actual cf st n i = Some e'.
    Proof.
      intros Hi E. split.
      - unfold actual in E. rewrite (walk_cut n Ho i Hi) in E.
        destruct (filter low (walk cf st false false n i)) as [|j l] eqn:F; [discriminate|]. injection E as ->.
        assert (In e (e :: l)) as K by now left. rewrite <- F in K. apply filter_In in K as [_ K]. now apply Nat.leb_le in K.
      - destruct (actual cf st n i) as [e'|] eqn:E'; [now exists e'|]. now rewrite none_appended in E.
    Qed.

    Lemma whole_appended : In L (walk cf s false false n 0) -> In L (walk cf st false false n 0).
    Proof. rewrite (walk_cut n Ho 0 (Nat.le_0_l _)). intros H. now apply filter_In in H. Qed.
  End Answer.
End Appended.

(** ** Scans *)

Section Scan.
  Variables from from' : nat -> option (option nat).   (* in [s] and in [s ++ t] *)
  Variables len len' : nat.
  Hypothesis Hlen : len <= len'.
  Hypothesis Hnone : forall i, i <= len -> from' i = Some None -> from i = Some None.
  Hypothesis Hsame : forall i e, i <= len -> from' i = Some (Some e) -> e <= len -> from i = Some (Some e).

  Definition within (be : nat * nat) : bool := Nat.leb (snd be) len.

  Lemma filter_nothing l : (forall be, In be l -> len < snd be) -> filter within l = [].
  Proof.
    induction l as [|be l IH]; intros H; [reflexivity|]. cbn. unfold within at 1.
    rewrite (proj2 (Nat.leb_gt _ _)) by (apply H; now left). apply IH. intros x Hx. apply H. now right.
  Qed.

  Lemma within_true b e : e <= len -> within (b, e) = true.
  Proof. intros H. now apply Nat.leb_le. Qed.

  Lemma adjacent_behind p l : adjacent_scan from' len' p l -> forall be, In be l -> p <= snd be.
  Proof.
    induction 1 as [p H|p H|p e l H He Hl IH]; intros be Hb; cbn in Hb; [easy| |].
    - destruct Hb as [<-|[]]. cbn. lia.
    - destruct Hb as [<-|Hb]; [cbn; lia|]. specialize (IH be Hb). lia.
  Qed.

  Lemma adjacent_cut p l' : adjacent_scan from' len' p l' -> p <= len ->
    forall l, adjacent_scan from len p l -> exists rest, l = filter within l' ++ rest.
  Proof.
    induction 1 as [p H|p H|p e l' H He Hl IH]; intros Hp l A.
    - now exists l.
    - apply (Hsame p p Hp) in H; [|exact Hp]. inversion A; subst.
      + congruence.
      + exists []. cbn [filter]. now rewrite within_true.
      + assert (e = p) by congruence. lia.
    - destruct (Nat.le_gt_cases e len) as [Le|Gt].
      + apply (Hsame p e Hp) in H; [|exact Le]. inversion A; subst.
        * congruence.
        * assert (e = p) by congruence. lia.
        * assert (e0 = e) as -> by congruence. destruct (IH Le l0 ltac:(assumption)) as (rest & ->).
          exists rest. cbn [filter]. now rewrite within_true.
      + exists l. rewrite filter_nothing; [reflexivity|]. intros be [<-|Hb]; [exact Gt|].
        pose proof (adjacent_behind _ _ Hl be Hb). lia.
  Qed.

  Lemma next_unique p i e i' e' : next_match from len p i e -> next_match from len p i' e' -> i = i' /\ e = e'.
  Proof.
    intros (A1 & A2 & A3) (B1 & B2 & B3). destruct (Nat.lt_trichotomy i i') as [Hl|[<-|Hl]].
    - rewrite B3 in A2 by lia. discriminate.
    - split; congruence.
    - rewrite A3 in B2 by lia. discriminate.
  Qed.

  Lemma next_cut p i e : next_match from' len' p i e -> i <= e <= len -> next_match from len p i e.
  Proof.
    intros (A1 & A2 & A3) He. split; [lia|]. split; [apply Hsame; auto; lia|].
    intros i' Hi'. apply Hnone; [lia|]. now apply A3.
  Qed.

  Lemma leftmost_behind p l : leftmost_scan from' len' p l -> forall be, In be l -> p <= snd be.
  Proof.
    induction 1 as [p H|p i (H & _)|p i e l (H & _) He Hl IH]; intros be Hb; cbn in Hb; [easy| |].
    - destruct Hb as [<-|[]]. cbn. lia.
    - destruct Hb as [<-|Hb]; [cbn; lia|]. specialize (IH be Hb). lia.
  Qed.

  Lemma leftmost_cut p l' : leftmost_scan from' len' p l' -> p <= len ->
    forall l, leftmost_scan from len p l -> exists rest, l = filter within l' ++ rest.
  Proof.
    induction 1 as [p H|p i H|p i e l' H He Hl IH]; intros Hp l A.
    - now exists l.
    - destruct (Nat.le_gt_cases i len) as [Le|Gt].
      + apply next_cut in H; [|lia]. inversion A as [? N|? j N|? j e ? N Hj]; subst.
        * destruct H as (H1 & H2 & _). rewrite N in H2 by lia. discriminate.
        * destruct (next_unique _ _ _ _ _ H N) as [<- _]. exists []. cbn [filter]. now rewrite within_true.
        * destruct (next_unique _ _ _ _ _ H N) as [<- <-]. lia.
      + exists l. rewrite filter_nothing; [reflexivity|]. now intros be [<-|[]].
    - destruct (Nat.le_gt_cases e len) as [Le|Gt].
      + apply next_cut in H; [|lia]. inversion A as [? N|? j N|? j e' l0 N Hj Hl0]; subst.
        * destruct H as (H1 & H2 & _). rewrite N in H2 by lia. discriminate.
        * destruct (next_unique _ _ _ _ _ H N) as [<- ->]. lia.
        * destruct (next_unique _ _ _ _ _ H N) as [<- <-]. destruct (IH Le l0 Hl0) as (rest & ->).
          exists rest. cbn [filter]. now rewrite within_true.
      + exists l. rewrite filter_nothing; [reflexivity|]. intros be [<-|Hb]; [exact Gt|].
        pose proof (leftmost_behind _ _ Hl be Hb). lia.
  Qed.
End Scan.

(** ** The calls *)

Section Calls.
  Variables (r : regex) (ct : category) (s t : list ascii).
  Hypothesis U : usable r ct.
  Hypothesis Ho : open_ended (ast r) = true.
  Local Notation cf := (config_of (flags r) ct).

  Theorem match_appended : exists a b, regex_match r ct s = Returned a /\ regex_match_prefix r ct (s ++ t) = Returned b
    /\ (matched a = true -> matched b = true).
  Proof.
    pose proof (open_free _ Ho) as Hb.
    destruct (match_exact r ct s U Hb) as (a & Ea & A), (match_prefix_exact r ct (s ++ t) U Hb) as (b & Eb & B).
    exists a, b. split; [exact Ea|]. split; [exact Eb|]. intros Ma. apply A in Ma.
    apply (whole_appended cf s t _ Ho) in Ma. unfold actual in B.
    destruct (walk cf (s ++ t) false false (ast r) 0); [destruct Ma|]. cbn in B. tauto.
  Qed.

  Theorem prefix_appended : exists a b, regex_match_prefix r ct s = Returned a
    /\ regex_match_prefix r ct (s ++ t) = Returned b
    /\ (matched a = true -> matched b = true)
    /\ (forall e, matched b = true -> group0 (groups b) = Some (0, e) -> e <= length s ->
        matched a = true /\ group0 (groups a) = Some (0, e)).
  Proof.
    pose proof (open_free _ Ho) as Hb.
    destruct (match_prefix_exact r ct s U Hb) as (a & Ea & A), (match_prefix_exact r ct (s ++ t) U Hb) as (b & Eb & B).
    exists a, b. split; [exact Ea|]. split; [exact Eb|]. split.
    - intros Ma. destruct (actual cf s (ast r) 0) as [e|] eqn:E; [|congruence].
      destruct (some_appended cf s t _ Ho 0 e (Nat.le_0_l _) E) as (_ & e' & E'). rewrite E' in B. apply B.
    - intros e Mb Gb He. destruct (actual cf (s ++ t) (ast r) 0) as [e'|] eqn:E; [|congruence].
      destruct B as [_ B]. assert (e' = e) as -> by congruence.
      rewrite (same_appended cf s t _ Ho 0 e (Nat.le_0_l _) E He) in A. exact A.
  Qed.

  Theorem search_appended : exists a b, regex_search r ct s = Returned a
    /\ regex_search r ct (s ++ t) = Returned b
    /\ (matched a = true -> matched b = true
        /\ exists i e i' e', group0 (groups a) = Some (i, e) /\ group0 (groups b) = Some (i', e') /\ i' <= i)
    /\ (forall i e, matched b = true -> group0 (groups b) = Some (i, e) -> e <= length s ->
        matched a = true /\ group0 (groups a) = Some (i, e)).
  Proof.
    pose proof (open_free _ Ho) as Hb.
    destruct (search_exact r ct s U Hb) as (a & Ea & A1 & A2), (search_exact r ct (s ++ t) U Hb) as (b & Eb & B1 & B2).
    exists a, b. split; [exact Ea|]. split; [exact Eb|]. split.
    - intros Ma. destruct (A1 Ma) as (i & e & Hi & Ga & E & _).
      destruct (some_appended cf s t _ Ho i e Hi E) as (_ & e' & E').
      assert (Mb : matched b = true).
      { destruct (matched b); [reflexivity|]. rewrite B2 in E' by (auto; rewrite app_length; lia). discriminate. }
      split; [exact Mb|]. destruct (B1 Mb) as (i' & e2 & Hi' & Gb & Eb' & N). exists i, e, i', e2.
      split; [exact Ga|]. split; [exact Gb|]. destruct (Nat.le_gt_cases i' i) as [|Gt]; [assumption|].
      rewrite N in E' by exact Gt. discriminate.
    - intros i e Mb Gb He. destruct (B1 Mb) as (i' & e' & Hi & Gb' & E & N).
      assert (i' = i /\ e' = e) as [-> ->] by (split; congruence).
      assert (Hie : i <= e).
      { unfold actual in E. destruct (walk cf (s ++ t) false false (ast r) i) as [|j l] eqn:W; [discriminate|].
        injection E as ->. assert (K : In e (walk cf (s ++ t) false false (ast r) i)) by (rewrite W; now left).
        apply (grows s t _ i e (walk_moves cf (s ++ t) _ false false) Hi) in K. lia. }
      assert (Hl : i <= length s) by lia.
      pose proof (same_appended cf s t _ Ho i e Hl E He) as E1.
      assert (Ma : matched a = true).
      { destruct (matched a); [reflexivity|]. rewrite A2 in E1 by auto. discriminate. }
      split; [exact Ma|]. destruct (A1 Ma) as (i2 & e2 & Hi2 & Ga & E2 & N2).
      destruct (Nat.lt_trichotomy i i2) as [Lt|[<-|Lt]].
      + rewrite N2 in E1 by exact Lt. discriminate.
      + congruence.
      + rewrite (none_appended cf s t _ Ho i2 Hi2) in E2; [discriminate|]. apply N. exact Lt.
  Qed.

  Lemma from_none i : i <= length s -> prefix_from cf (ast r) (s ++ t) i = Some None -> prefix_from cf (ast r) s i = Some None.
  Proof.
    pose proof (open_free _ Ho) as Hb. intros Hi. rewrite !from_actual by (auto; rewrite ?app_length; lia).
    intros [= E]. f_equal. now apply (none_appended cf s t).
  Qed.

  Lemma from_same i e : i <= length s -> prefix_from cf (ast r) (s ++ t) i = Some (Some e) -> e <= length s ->
    prefix_from cf (ast r) s i = Some (Some e).
  Proof.
    pose proof (open_free _ Ho) as Hb. intros Hi. rewrite !from_actual by (auto; rewrite ?app_length; lia).
    intros [= E] He. f_equal. now apply (same_appended cf s t).
  Qed.

  Lemma map_some_inj (l l' : list (nat * nat)) : map Some l = map Some l' -> l = l'.
  Proof.
    revert l'. induction l as [|x l IH]; intros [|y l'] H; cbn in H; try discriminate; [reflexivity|].
    injection H as -> H. f_equal. now apply IH.
  Qed.

  Theorem tokens_appended : exists k l bs bs', tokenize r ct s = Returned k /\ tokenize r ct (s ++ t) = Returned l
    /\ map (fun x => group0 (groups x)) k = map Some bs /\ map (fun x => group0 (groups x)) l = map Some bs'
    /\ exists rest, bs = filter (fun be => Nat.leb (snd be) (length s)) bs' ++ rest.
  Proof.
    destruct (tokenize_scan r ct s U) as (k & Ek & _ & bs & Bk & Sk).
    destruct (tokenize_scan r ct (s ++ t) U) as (l & El & _ & bs' & Bl & Sl).
    exists k, l, bs, bs'. do 4 (split; [assumption|]).
    eapply (adjacent_cut (prefix_from cf (ast r) s) (prefix_from cf (ast r) (s ++ t)) (length s) (length (s ++ t)));
      eauto using from_none, from_same; rewrite ?app_length; lia.
  Qed.

  Theorem found_appended : exists k l bs bs', find_all r ct s = Returned k /\ find_all r ct (s ++ t) = Returned l
    /\ map (fun x => group0 (groups x)) k = map Some bs /\ map (fun x => group0 (groups x)) l = map Some bs'
    /\ exists rest, bs = filter (fun be => Nat.leb (snd be) (length s)) bs' ++ rest.
  Proof.
    pose proof (open_free _ Ho) as Hb.
    destruct (find_all_scan r ct s U Hb) as (k & Ek & _ & bs & Bk & Sk).
    destruct (find_all_scan r ct (s ++ t) U Hb) as (l & El & _ & bs' & Bl & Sl).
    exists k, l, bs, bs'. do 4 (split; [assumption|]).
    eapply (leftmost_cut (prefix_from cf (ast r) s) (prefix_from cf (ast r) (s ++ t)) (length s) (length (s ++ t)));
      eauto using from_none, from_same; rewrite ?app_length; lia.
  Qed.
End Calls.
