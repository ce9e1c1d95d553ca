(** The ranges found in a text, with two passes of finite memory. *)
From Verif Require Import Matcher Api Basics Spec Paths Adequacy Walk Exact Actual Rewrites Calls Machines Memory
  Uniform Scans Records.

(** A mark on offsets made with finite memory in two passes: the state of one machine that
    has read the text before the offset, from left to right, and the state of another one
    that has read the text behind it, from right to left, decide together. *)
Definition two_passes (mark : list ascii -> nat -> Prop) : Prop :=
  exists (lsize lstart : nat) (lstep : nat -> ascii -> nat)
         (rsize rstart : nat) (rstep : ascii -> nat -> nat) (decide : nat -> nat -> bool),
    forall s i, i <= length s ->
      fold_left lstep (firstn i s) lstart < lsize
      /\ fold_right rstep rstart (skipn i s) < rsize
      /\ (mark s i <-> decide (fold_left lstep (firstn i s) lstart) (fold_right rstep rstart (skipn i s)) = true).

(** The same with the machines given. *)
Definition passes (mark : list ascii -> nat -> Prop) : Type :=
  {lsize : nat & {lstart : nat & {lstep : nat -> ascii -> nat
  & {rsize : nat & {rstart : nat & {rstep : ascii -> nat -> nat & {decide : nat -> nat -> bool
  | forall s i, i <= length s ->
      fold_left lstep (firstn i s) lstart < lsize
      /\ fold_right rstep rstart (skipn i s) < rsize
      /\ (mark s i <-> decide (fold_left lstep (firstn i s) lstart) (fold_right rstep rstart (skipn i s)) = true)}}}}}}}.

Lemma passes_two mark : passes mark -> two_passes mark.
Proof. intros (a & b & c & d & e & f & g & H). now exists a, b, c, d, e, f, g. Qed.

Lemma passes_of (mark : list ascii -> nat -> Prop) (b : list ascii -> nat -> bool) : regular b ->
  (forall s i, i <= length s -> (mark s i <-> b s i = true)) -> passes mark.
Proof.
  intros (P & Q & fp & fq & p0 & ps & q0 & qs & g & Hg) Hm.
  set (ep := fun p => index_of (eq_dec fp) p (all fp)). set (dp := fun n => nth n (all fp) p0).
  set (eq := fun q => index_of (eq_dec fq) q (all fq)). set (dq := fun n => nth n (all fq) q0).
  assert (Hp : forall p, ep p < length (all fp) /\ dp (ep p) = p) by (intros; apply index_of_in, all_in).
  assert (Hq : forall q, eq q < length (all fq) /\ dq (eq q) = q) by (intros; apply index_of_in, all_in).
  exists (length (all fp)), (ep p0), (fun n c => ep (ps (dp n) c)),
    (length (all fq)), (eq q0), (fun c n => eq (qs c (dq n))), (fun n k => g (dp n) (dq k)).
  intros s i Hi.
  assert (El : forall l p, fold_left (fun n c => ep (ps (dp n) c)) l (ep p) = ep (fold_left ps l p)).
  { induction l as [|c l IH]; intros p; [reflexivity|]. cbn [fold_left]. destruct (Hp p) as [_ ->]. apply IH. }
  assert (Er : forall l, fold_right (fun c n => eq (qs c (dq n))) (eq q0) l = eq (fold_right qs q0 l)).
  { induction l as [|c l IH]; [reflexivity|]. cbn [fold_right]. rewrite IH. now destruct (Hq (fold_right qs q0 l)) as [_ ->]. }
  rewrite El, Er. destruct (Hp (fold_left ps (firstn i s) p0)) as [H1 ->].
  destruct (Hq (fold_right qs q0 (skipn i s))) as [H2 ->].
  split; [assumption|]. split; [assumption|]. rewrite Hm, Hg by assumption. reflexivity.
Qed.

(** ** Machines reading labels from left to right *)

Section Left.
  Variables (A Z : Set) (fz : finite Z) (z0 : Z) (zstep : ascii -> A -> Z -> Z) (ann : list ascii -> nat -> A).

  Fixpoint zrun (t : list ascii) (i : nat) : Z :=
    match i with
    | 0 => z0
    | S j => match nth_error t j with Some c => zstep c (ann t j) (zrun t j) | None => zrun t j end
    end.

  Lemma regular_left : regular ann -> regular zrun.
  Proof.
    intros Ha.
    set (M := mk_machine A unit Z fz z0 (fun c a x _ => zstep c a x) (fun _ _ v => v)).
    pose proof (regular_rev _ (regular_state M _ None (regular_rev _ Ha))) as H.
    eapply regular_ext; [|exact H]. cbn beta. intros t i Hi. clear H. induction i as [|i IH].
    - rewrite Nat.sub_0_r. rewrite (st_end M) by now rewrite rev_length. reflexivity.
    - destruct (nth_error t i) as [c|] eqn:Ec; [|apply nth_error_None in Ec; lia].
      assert (Er : nth_error (rev t) (length t - S i) = Some c).
      { rewrite nth_error_nth' with (d := c) by (rewrite rev_length; lia).
        rewrite rev_nth by lia. replace (length t - S (length t - S i)) with i by lia.
        f_equal. now apply nth_error_nth. }
      rewrite (st_step M _ _ _ _ _ Er). cbn [zrun]. rewrite Ec.
      replace (S (length t - S i)) with (length t - i) by lia. rewrite IH by lia. cbn [M upd].
      rewrite rev_involutive, rev_length. now replace (length t - (length t - i)) with i by lia.
  Qed.
End Left.

(** ** The ranges found one after the other *)

Section Ranges.
  (** [e]: the end of the match from an offset.  [keep]: offsets without a match are
      skipped.  [once]: only the first match. *)
  Variables (keep once : bool) (e : nat -> option nat) (len : nat).

  Definition next_from (p i j : nat) : Prop :=
    p <= i <= len /\ e i = Some j /\ (forall q, p <= q < i -> e q = None) /\ (keep = false -> i = p).

  Inductive ranges : nat -> list (nat * nat) -> Prop :=
  | rg_none p : (forall i, p <= i <= len -> keep = true \/ i = p -> e i = None) -> ranges p []
  | rg_empty p i : next_from p i i -> ranges p [(i, i)]
  | rg_once p i j : once = true -> next_from p i j -> i < j <= len -> ranges p [(i, j)]
  | rg_more p i j l : once = false -> next_from p i j -> i < j <= len -> ranges j l -> ranges p ((i, j) :: l).

  Lemma ranges_ge p l : ranges p l -> forall a b, In (a, b) l -> p <= a /\ a <= b <= len.
  Proof.
    induction 1 as [q Hno|q i Hn|q i k Ho Hn Hij|q i k l' Ho Hn Hij Hl' IH]; intros x y Hxy.
    - easy.
    - destruct Hxy as [[= <- <-]|[]]. destruct Hn as (Hi & _). lia.
    - destruct Hxy as [[= <- <-]|[]]. destruct Hn as (Hi & _). lia.
    - destruct Hn as (Hi & _). destruct Hxy as [[= <- <-]|Hxy]; [lia|]. apply IH in Hxy. lia.
  Qed.

  (** A range that ends where it all begins is empty. *)
  Lemma ranges_first p l i : ranges p l -> In (i, p) l -> i = p.
  Proof. intros Hl Hi. apply (ranges_ge p l Hl) in Hi. lia. Qed.
End Ranges.

Lemma pack_ext {P T : Set} (f g : P -> T) l : (forall x, f x = g x) -> pack f l = pack g l.
Proof. intros H. induction l as [|x r IH]; cbn; [reflexivity|]. now rewrite H, IH. Qed.

Section Process.
  Variables (F : family) (A : Set) (ann : list ascii -> nat -> A) (M : machine A bool).
  Hypothesis HF : inside F.
  Hypothesis HM : computes ann F M.
  Variables (keep once : bool).

  (** The label of an offset: that of [F], and the state of the machine behind the offset when
      no end further on is the right one. *)
  Definition behind (t : list ascii) (i : nat) : St M := st M (ann t) (fun _ => Some false) t i.
  Definition label (t : list ascii) (i : nat) : A * St M := (ann t i, behind t i).

  Definition any_end (l : A * St M) : bool :=
    match out M (snd l) (fst l) (Some false) with Some _ => true | None => false end.
  Definition ends_here (l : A * St M) : bool :=
    match out M (snd l) (fst l) (Some true) with Some true => true | _ => false end.

  (** Done; between ranges; in a range, with the character read last and a table that tells
      for every state behind it whether the right end is reached. *)
  Definition Z : Set := option (option (table (st_fin M) (option bool) * ascii)).
  Definition fin_Z : finite Z :=
    fin_option (fin_option (fin_prod (fin_tuple (fin_option fin_bool) _) fin_ascii)).

  Definition at_end (l : A * St M) (z : Z) : bool :=
    match z with
    | Some (Some (G, c)) =>
        match entry (st_fin M) None G (upd M c (fst l) (snd l) (Some true)) with Some true => true | _ => false end
    | _ => false
    end.
  Definition free (l : A * St M) (z : Z) : bool :=
    match z with Some None => true | Some (Some _) => negb once && at_end l z | None => false end.

  Definition zstep (c : ascii) (l : A * St M) (z : Z) : Z :=
    if free l z then
      if any_end l then
        if ends_here l then None
        else Some (Some (tab (st_fin M) (fun y => out M y (fst l) (Some false)), c))
      else if keep then Some None else None
    else
      match z with
      | Some (Some (G, c')) =>
          if at_end l z then None
          else Some (Some (tab (st_fin M) (fun y => entry (st_fin M) None G (upd M c' (fst l) y (Some false))), c))
      | _ => None
      end.

  Definition zs : list ascii -> nat -> Z := zrun _ _ (Some None) zstep label.

  Definition begins (t : list ascii) (i : nat) : bool := free (label t i) (zs t i) && any_end (label t i).
  Definition finishes (t : list ascii) (i : nat) : bool :=
    at_end (label t i) (zs t i) || (free (label t i) (zs t i) && ends_here (label t i)).

  Lemma regular_marks : regular ann -> (regular begins * regular finishes)%type.
  Proof.
    intros Ha. assert (Hl : regular label) by (apply regular_pair; [assumption|now apply (regular_state M)]).
    pose proof (regular_left _ _ fin_Z (Some None) zstep label Hl) as Hz.
    split.
    - exact (regular_map (fun p : (A * St M) * Z => free (fst p) (snd p) && any_end (fst p)) _ (regular_pair _ _ Hl Hz)).
    - exact (regular_map (fun p : (A * St M) * Z => at_end (fst p) (snd p) || (free (fst p) (snd p) && ends_here (fst p))) _
               (regular_pair _ _ Hl Hz)).
  Qed.

  Variable t : list ascii.
  Let e (i : nat) : option nat := hd_error (F t i).

  Lemma scan_first (k : nat -> bool) l : scan (fun j => Some (k j)) l = option_map k (hd_error l).
  Proof. now destruct l. Qed.

  Lemma any_end_spec i : i <= length t -> any_end (label t i) = match e i with Some _ => true | None => false end.
  Proof.
    intros Hi. unfold any_end, label, behind, e. cbn [fst snd].
    rewrite <- (HM t (fun _ => Some false) i Hi), scan_first. now destruct (F t i).
  Qed.

  Lemma ends_here_spec i : i <= length t -> ends_here (label t i) = true <-> e i = Some i.
  Proof.
    intros Hi. unfold ends_here, label, behind, e. cbn [fst snd].
    pose proof (HM t (fun j => Some (Nat.eqb i j)) i Hi) as H. cbn beta in H. rewrite Nat.eqb_refl in H.
    rewrite (st_ext M (ann t) _ (fun _ => Some false) t i Hi) in H.
    - rewrite <- H, scan_first. destruct (F t i) as [|j r]; cbn; [easy|].
      destruct (Nat.eqb_spec i j); split; congruence.
    - intros j Hj. destruct (Nat.eqb_spec i j); [lia|reflexivity].
  Qed.

  (** The state at [p] from the one at [p + d], when no end between them is the right one. *)
  Fixpoint through (p d : nat) (y : St M) : St M :=
    match d with
    | 0 => y
    | S d' => match nth_error t (p + d') with
              | Some c => through p d' (upd M c (ann t (p + S d')) y (Some false))
              | None => y
              end
    end.

  Lemma through_st p k d : (forall j, p < j <= p + d -> k j = Some false) -> p + d <= length t ->
    st M (ann t) k t p = through p d (st M (ann t) k t (p + d)).
  Proof.
    induction d as [|d IH]; intros Hk Hd; cbn [through]; [now rewrite Nat.add_0_r|].
    rewrite IH by (try lia; intros; apply Hk; lia).
    destruct (nth_error t (p + d)) as [c|] eqn:Ec; [|apply nth_error_None in Ec; lia].
    rewrite (st_step M _ _ _ _ _ Ec). replace (S (p + d)) with (p + S d) by lia.
    rewrite (Hk (p + S d)) by lia. reflexivity.
  Qed.

  Definition reached (p d : nat) (y : St M) : option bool := out M (through p d y) (ann t p) (Some false).

  Lemma at_end_spec p d c : p + S d <= length t -> nth_error t (p + d) = Some c ->
    at_end (label t (p + S d)) (Some (Some (tab (st_fin M) (reached p d), c))) = true
    <-> e p = Some (p + S d).
  Proof.
    intros Hd Hc. cbn [at_end]. rewrite entry_tab. unfold label, behind, e. cbn [fst snd].
    set (q := p + S d). set (k := fun j => Some (Nat.eqb q j)).
    pose proof (HM t k p ltac:(lia)) as H. unfold k at 3 in H. replace (Nat.eqb q p) with false in H
      by (symmetry; apply Nat.eqb_neq; lia).
    rewrite (through_st p k d) in H; [|intros j Hj; unfold k; destruct (Nat.eqb_spec q j); [lia|reflexivity]|lia].
    rewrite (st_step M _ _ _ _ _ Hc) in H. replace (S (p + d)) with q in H by lia.
    unfold k at 3 in H. rewrite Nat.eqb_refl in H.
    rewrite (st_ext M (ann t) k (fun _ => Some false) t q) in H;
      [|lia|intros j Hj; unfold k; destruct (Nat.eqb_spec q j); [lia|reflexivity]].
    unfold reached. rewrite <- H. unfold k. rewrite scan_first. destruct (F t p) as [|j r]; cbn; [easy|].
    destruct (Nat.eqb_spec q j); split; congruence.
  Qed.

  Lemma zs_step i c : nth_error t i = Some c -> zs t (S i) = zstep c (label t i) (zs t i).
  Proof. intros H. unfold zs. cbn [zrun]. now rewrite H. Qed.

  Lemma has_char i : i < length t -> exists c, nth_error t i = Some c.
  Proof.
    intros H. destruct (nth_error t i) as [c|] eqn:E; [now exists c|]. apply nth_error_None in E. lia.
  Qed.

  Lemma stays_done p q : zs t p = None -> p <= q <= length t -> zs t q = None.
  Proof.
    intros Hp. induction q as [|q IH]; intros Hq; [now replace 0 with p by lia|].
    destruct (Nat.eq_dec p (S q)) as [->|Hn]; [assumption|].
    destruct (has_char q) as [c Hc]; [lia|]. rewrite (zs_step q c Hc), IH by lia. reflexivity.
  Qed.

  (** In a range. *)
  Lemma in_range p j : free (label t p) (zs t p) = true -> e p = Some j -> p < j <= length t ->
    forall d, p + S d <= j -> exists c, nth_error t (p + d) = Some c
      /\ zs t (p + S d) = Some (Some (tab (st_fin M) (reached p d), c)).
  Proof.
    intros Hf He Hj. induction d as [|d IH]; intros Hd.
    - destruct (has_char p) as [c Hc]; [lia|]. rewrite !Nat.add_0_r, Nat.add_1_r. exists c. split; [assumption|].
      rewrite (zs_step p c Hc). unfold zstep. rewrite Hf, any_end_spec, He by lia.
      destruct (ends_here (label t p)) eqn:Eh; [apply ends_here_spec in Eh; [|lia]; rewrite He in Eh; injection Eh; lia|].
      reflexivity.
    - destruct IH as (c & Hc & Ez); [lia|].
      assert (Hn : at_end (label t (p + S d)) (zs t (p + S d)) = false).
      { apply not_true_is_false. rewrite Ez. intros H. apply at_end_spec in H; [|lia|assumption].
        rewrite He in H. injection H. lia. }
      destruct (has_char (p + S d)) as [c' Hc']; [lia|]. exists c'. split; [assumption|].
      replace (p + S (S d)) with (S (p + S d)) by lia. rewrite (zs_step _ c' Hc').
      unfold zstep. assert (Hnf : free (label t (p + S d)) (zs t (p + S d)) = false).
      { unfold free. rewrite Hn, andb_false_r. rewrite Ez. reflexivity. }
      rewrite Hnf, Hn. rewrite Ez. do 3 f_equal. apply pack_ext. intros y. rewrite entry_tab.
      unfold reached. cbn [through fst label]. now rewrite Hc.
  Qed.

  Lemma in_range_marks p j : free (label t p) (zs t p) = true -> e p = Some j -> p < j <= length t ->
    (forall q, p < q < j -> begins t q = false /\ finishes t q = false)
    /\ at_end (label t j) (zs t j) = true /\ free (label t j) (zs t j) = negb once
    /\ (once = true -> forall q, j < q <= length t -> zs t q = None).
  Proof.
    intros Hf He Hj. pose proof (in_range p j Hf He Hj) as H.
    assert (G : forall q, p < q <= j -> exists z, zs t q = Some (Some z)
      /\ (at_end (label t q) (zs t q) = true <-> q = j)).
    { intros q Hq. destruct (H (q - S p)) as (c & Hc & Ez); [lia|].
      replace (p + S (q - S p)) with q in Ez by lia. eexists. split; [exact Ez|]. rewrite Ez.
      pose proof (at_end_spec p (q - S p) c ltac:(lia) Hc) as S. replace (p + Datatypes.S (q - Datatypes.S p)) with q in S by lia.
      rewrite S, He. split; [intros [= E]; lia|intros ->; reflexivity]. }
    assert (Gf : forall q, p < q <= j -> free (label t q) (zs t q) = negb once && at_end (label t q) (zs t q)).
    { intros q Hq. destruct (G q Hq) as (z & Ez & _). unfold free. rewrite Ez. reflexivity. }
    split.
    { intros q Hq. destruct (G q ltac:(lia)) as (z & Ez & Ha).
      assert (Hn : at_end (label t q) (zs t q) = false) by (apply not_true_is_false; rewrite Ha; lia).
      unfold begins, finishes. rewrite Gf, Hn, andb_false_r by lia. now split. }
    destruct (G j ltac:(lia)) as (z & Ez & Ha). assert (Hend : at_end (label t j) (zs t j) = true) by now apply Ha.
    split; [assumption|]. rewrite Gf, Hend, andb_true_r by lia. split; [reflexivity|].
    intros Ho q Hq. apply (stays_done (S j)); [|lia]. destruct (has_char j) as [c Hc]; [lia|].
    rewrite (zs_step j c Hc). unfold zstep. rewrite Gf, Hend, Ho by lia. cbn [negb andb]. rewrite Ez.
    now destruct z as [G0 c0].
  Qed.

  (** Between ranges. *)
  Lemma skipping p i : free (label t p) (zs t p) = true -> p <= i <= length t ->
    (forall q, p <= q < i -> e q = None) -> (keep = false -> i = p) ->
    free (label t i) (zs t i) = true /\ (forall q, p < q <= i -> zs t q = Some None).
  Proof.
    intros Hf. induction i as [|i IH]; intros Hi He Hk.
    - replace p with 0 in * by lia. split; [assumption|]. intros q Hq. lia.
    - destruct (Nat.eq_dec p (S i)) as [->|Hn]; [split; [assumption|intros q Hq; lia]|].
      destruct keep eqn:Ek; [|specialize (Hk eq_refl); lia].
      destruct IH as [H1 H2]; [lia|intros q Hq; apply He; lia|discriminate|].
      destruct (has_char i) as [c Hc]; [lia|].
      assert (E : zs t (S i) = Some None).
      { rewrite (zs_step i c Hc). unfold zstep. rewrite H1, any_end_spec, He, Ek by lia. reflexivity. }
      rewrite E. split; [reflexivity|]. intros q Hq. destruct (Nat.eq_dec q (S i)) as [->|]; [assumption|].
      apply H2. lia.
  Qed.

  Lemma marks_of p l : ranges keep once e (length t) p l -> p <= length t ->
    free (label t p) (zs t p) = true ->
    (forall q, p <= q <= length t -> (begins t q = true <-> exists j, In (q, j) l))
    /\ (forall q, p < q <= length t -> (finishes t q = true <-> exists i, In (i, q) l))
    /\ (ends_here (label t p) = true <-> In (p, p) l).
  Proof.
    assert (Hskip : forall p i, p <= i <= length t -> (forall q, p < q <= i -> zs t q = Some None) ->
      (forall q, p <= q < i -> e q = None) ->
      (forall q, p <= q < i -> begins t q = false) /\ (forall q, p < q < i -> finishes t q = false)).
    { intros p0 i Hi Hz He. split.
      - intros q Hq. unfold begins. rewrite any_end_spec, He by lia. apply andb_false_r.
      - intros q Hq. unfold finishes. rewrite Hz by lia. cbn [at_end orb].
        destruct (ends_here (label t q)) eqn:Eh; [|apply andb_false_r].
        apply ends_here_spec in Eh; [|lia]. rewrite He in Eh by lia. discriminate. }
    assert (Hdone : forall q, zs t q = None -> begins t q = false /\ finishes t q = false).
    { intros q Hq. unfold begins, finishes. rewrite Hq. now split. }
    assert (Hbegin : forall i j, i <= length t -> free (label t i) (zs t i) = true -> e i = Some j -> begins t i = true).
    { intros i j Hi H1 H2. unfold begins. now rewrite H1, any_end_spec, H2 by assumption. }
    induction 1 as [p Hno|p i Hn|p i j Ho Hn Hij|p i j l Ho Hn Hij Hl IH]; intros Hp Hf.
    - (* nothing *)
      assert (Hall : forall q, p <= q <= length t -> begins t q = false /\ (p < q -> finishes t q = false)).
      { destruct keep eqn:Ek.
        - assert (He : forall q, p <= q <= length t -> e q = None) by (intros; apply Hno; auto).
          destruct (skipping p (length t) Hf) as [_ Hz]; [lia|intros; apply He; lia|congruence|].
          intros q Hq. split; [unfold begins; rewrite any_end_spec, He by lia; apply andb_false_r|].
          intros Hpq. unfold finishes. rewrite Hz by lia. cbn [at_end orb].
          destruct (ends_here (label t q)) eqn:Eh; [|apply andb_false_r].
          apply ends_here_spec in Eh; [|lia]. rewrite He in Eh by lia. discriminate.
        - assert (He : e p = None) by (apply Hno; auto).
          intros q Hq. destruct (Nat.eq_dec q p) as [->|Hne].
          + split; [unfold begins; rewrite any_end_spec, He by lia; apply andb_false_r|lia].
          + assert (Hz : zs t q = None).
            { apply (stays_done (S p)); [|lia]. destruct (has_char p) as [c Hc]; [lia|].
              rewrite (zs_step p c Hc). unfold zstep. rewrite Hf, any_end_spec, He, Ek by lia. reflexivity. }
            destruct (Hdone q Hz). auto. }
      split; [|split].
      + intros q Hq. destruct (Hall q Hq) as [-> _]. split; [discriminate|intros (j & [])].
      + intros q Hq. destruct (Hall q ltac:(lia)) as [_ H]. rewrite H by lia. split; [discriminate|intros (i & [])].
      + split; [|easy]. intros Eh. apply ends_here_spec in Eh; [|assumption].
        rewrite (Hno p) in Eh; [discriminate|lia|now right].
    - (* an empty range *)
      destruct Hn as (Hi & He & Hbefore & Hk).
      destruct (skipping p i Hf Hi Hbefore Hk) as [Hfi Hz].
      destruct (Hskip p i Hi Hz Hbefore) as [Hb Hfin].
      assert (Hd : forall q, i < q <= length t -> zs t q = None).
      { intros q Hq. apply (stays_done (S i)); [|lia]. destruct (has_char i) as [c Hc]; [lia|].
        rewrite (zs_step i c Hc). unfold zstep. rewrite Hfi, any_end_spec, He by lia.
        now rewrite (proj2 (ends_here_spec i ltac:(lia)) He). }
      split; [|split].
      + intros q Hq. destruct (Nat.lt_trichotomy q i) as [H|[->|H]].
        * rewrite Hb by lia. split; [discriminate|]. intros (j & [[= <- _]|[]]). lia.
        * rewrite (Hbegin i i) by (auto; lia). split; [|reflexivity]. intros _. exists i. now left.
        * destruct (Hdone q (Hd q ltac:(lia))) as [-> _]. split; [discriminate|]. intros (j & [[= <- _]|[]]). lia.
      + intros q Hq. destruct (Nat.lt_trichotomy q i) as [H|[->|H]].
        * rewrite Hfin by lia. split; [discriminate|]. intros (j & [[= _ <-]|[]]). lia.
        * unfold finishes. rewrite Hfi, (proj2 (ends_here_spec i ltac:(lia)) He), orb_true_r.
          split; [|reflexivity]. intros _. exists i. now left.
        * destruct (Hdone q (Hd q ltac:(lia))) as [_ ->]. split; [discriminate|]. intros (j & [[= _ <-]|[]]). lia.
      + rewrite ends_here_spec by assumption. split.
        * intros Ep. destruct (Nat.eq_dec p i) as [->|Hne]; [now left|]. rewrite Hbefore in Ep by lia. discriminate.
        * intros [[= <-]|[]]. assumption.
    - (* one range *)
      destruct Hn as (Hi & He & Hbefore & Hk).
      destruct (skipping p i Hf Hi Hbefore Hk) as [Hfi Hz].
      destruct (Hskip p i Hi Hz Hbefore) as [Hb Hfin].
      destruct (in_range_marks i j Hfi He Hij) as (Hin & Hend & Hfj & Hafter). specialize (Hafter Ho).
      assert (Hbj : begins t j = false) by (unfold begins; now rewrite Hfj, Ho).
      assert (Hni : finishes t i = at_end (label t i) (zs t i)).
      { unfold finishes. rewrite Hfi. destruct (ends_here (label t i)) eqn:Eh; [|apply orb_false_r].
        apply ends_here_spec in Eh; [|lia]. rewrite He in Eh. injection Eh. lia. }
      split; [|split].
      + intros q Hq. destruct (Nat.lt_trichotomy q i) as [H|[->|H]].
        * rewrite Hb by lia. split; [discriminate|]. intros (k & [[= <- _]|[]]). lia.
        * rewrite (Hbegin i j) by (auto; lia). split; [|reflexivity]. intros _. exists j. now left.
        * assert (E : begins t q = false).
          { destruct (Nat.lt_trichotomy q j) as [Hqj|[->|Hqj]]; [apply Hin; lia|assumption|apply Hdone, Hafter; lia]. }
          rewrite E. split; [discriminate|]. intros (k & [[= <- _]|[]]). lia.
      + intros q Hq. destruct (Nat.eq_dec q j) as [->|Hne].
        * unfold finishes. rewrite Hend. split; [|reflexivity]. intros _. exists i. now left.
        * assert (E : finishes t q = false).
          { destruct (Nat.lt_trichotomy q i) as [H|[->|H]].
            - apply Hfin. lia.
            - rewrite Hni, Hz by lia. reflexivity.
            - destruct (Nat.lt_ge_cases q j); [apply Hin; lia|apply Hdone, Hafter; lia]. }
          rewrite E. split; [discriminate|]. intros (k & [[= _ <-]|[]]). lia.
      + split.
        * intros Eh. apply ends_here_spec in Eh; [|assumption]. destruct (Nat.eq_dec p i) as [->|Hne].
          -- rewrite He in Eh. injection Eh. lia.
          -- rewrite Hbefore in Eh by lia. discriminate.
        * intros [[= -> ->]|[]]. lia.
    - (* a range and more *)
      destruct Hn as (Hi & He & Hbefore & Hk).
      destruct (skipping p i Hf Hi Hbefore Hk) as [Hfi Hz].
      destruct (Hskip p i Hi Hz Hbefore) as [Hb Hfin].
      destruct (in_range_marks i j Hfi He Hij) as (Hin & Hend & Hfj & _).
      destruct IH as (I1 & I2 & I3); [lia|now rewrite Hfj, Ho|].
      assert (Hge : forall a b, In (a, b) l -> j <= a /\ a <= b <= length t).
      { exact (ranges_ge keep once e (length t) j l Hl). }
      assert (Hni : finishes t i = at_end (label t i) (zs t i)).
      { unfold finishes. rewrite Hfi. destruct (ends_here (label t i)) eqn:Eh; [|apply orb_false_r].
        apply ends_here_spec in Eh; [|lia]. rewrite He in Eh. injection Eh. lia. }
      split; [|split].
      + intros q Hq. destruct (Nat.lt_ge_cases q j) as [Hqj|Hqj].
        * destruct (Nat.lt_trichotomy q i) as [H|[->|H]].
          -- rewrite Hb by lia. split; [discriminate|]. intros (k & [[= <- _]|Hkl]); [lia|]. apply Hge in Hkl. lia.
          -- rewrite (Hbegin i j) by (auto; lia). split; [|reflexivity]. intros _. exists j. now left.
          -- destruct (Hin q ltac:(lia)) as [-> _]. split; [discriminate|].
             intros (k & [[= <- _]|Hkl]); [lia|]. apply Hge in Hkl. lia.
        * rewrite I1 by lia. split; intros (k & Hkl); exists k; [now right|].
          destruct Hkl as [[= <- _]|Hkl]; [lia|assumption].
      + intros q Hq. destruct (Nat.lt_trichotomy q j) as [Hqj|[->|Hqj]].
        * assert (E : finishes t q = false).
          { destruct (Nat.lt_trichotomy q i) as [H|[->|H]].
            - apply Hfin. lia.
            - rewrite Hni, Hz by lia. reflexivity.
            - apply Hin; lia. }
          rewrite E. split; [discriminate|]. intros (k & [[= _ <-]|Hkl]); [lia|]. apply Hge in Hkl. lia.
        * unfold finishes. rewrite Hend. split; [|reflexivity]. intros _. exists i. now left.
        * rewrite I2 by lia. split; intros (k & Hkl); exists k; [now right|].
          destruct Hkl as [[= _ <-]|Hkl]; [lia|assumption].
      + split.
        * intros Eh. apply ends_here_spec in Eh; [|assumption]. destruct (Nat.eq_dec p i) as [->|Hne].
          -- rewrite He in Eh. injection Eh. lia.
          -- rewrite Hbefore in Eh by lia. discriminate.
        * intros [[= -> ->]|Hpl]; [lia|]. apply Hge in Hpl. lia.
  Qed.

  Lemma marks_from_start l : ranges keep once e (length t) 0 l ->
    forall q, q <= length t -> (begins t q = true <-> exists j, In (q, j) l)
      /\ (finishes t q = true <-> exists i, In (i, q) l).
  Proof.
    intros Hl q Hq. destruct (marks_of 0 l Hl (Nat.le_0_l _) eq_refl) as (H1 & H2 & H3).
    split; [apply H1; lia|]. destruct (Nat.eq_dec q 0) as [->|Hn]; [|apply H2; lia].
    unfold finishes. cbn [zs zrun at_end free orb andb]. change (free (label t 0) (zs t 0)) with true.
    change (at_end (label t 0) (zs t 0)) with false. cbn [orb andb]. rewrite H3. split.
    - intros H. now exists 0.
    - intros (i & Hi). now rewrite (ranges_first keep once e (length t) 0 l i Hl Hi) in Hi.
  Qed.
End Process.

(** ** The calls *)

(** Where the ranges of the results begin and end. *)
Definition begins_in (l : list match_res) (i : nat) : Prop :=
  exists x j, In x l /\ group0 (groups x) = Some (i, j).
Definition ends_in (l : list match_res) (j : nat) : Prop :=
  exists x i, In x l /\ group0 (groups x) = Some (i, j).

(** The results of a call that finds one or nothing. *)
Definition found (o : call match_res) : call (list match_res) :=
  match o with
  | Returned res => Returned (if matched res then [res] else [])
  | UndefinedBehaviour => UndefinedBehaviour
  | DoesNotCompile => DoesNotCompile
  | DoesNotReturn => DoesNotReturn
  end.

(** Both marks can be made in two passes. *)
Definition marked_in_two_passes (o : list ascii -> call (list match_res)) : Prop :=
  two_passes (fun s i => exists l, o s = Returned l /\ begins_in l i)
  /\ two_passes (fun s i => exists l, o s = Returned l /\ ends_in l i).

(** The same with the machines given. *)
Definition marking (o : list ascii -> call (list match_res)) : Type :=
  (passes (fun s i => exists l, o s = Returned l /\ begins_in l i)
   * passes (fun s i => exists l, o s = Returned l /\ ends_in l i))%type.

Lemma marking_two o : marking o -> marked_in_two_passes o.
Proof. intros [H1 H2]. split; now apply passes_two. Qed.

(** The results are the ranges found one after the other by the first ends of [F]. *)
Definition ranging (o : list ascii -> call (list match_res)) (F : family) (keep once : bool) : Prop :=
  forall s, exists l bounds, o s = Returned l /\ map (fun x => group0 (groups x)) l = map Some bounds
     /\ ranges keep once (fun i => hd_error (F s i)) (length s) 0 bounds.

Lemma marked (o : list ascii -> call (list match_res)) F keep once : inside F -> machinable F ->
  ranging o F keep once ->
  marking o.
Proof.
  intros HF (A & a & Ha & Hm) Ho. destruct (Hm bool fin_bool) as [M HM].
  destruct (regular_marks A a M keep once Ha) as [Hb He].
  assert (Hin : forall (l : list match_res) bounds p, map (fun x => group0 (groups x)) l = map Some bounds ->
    (In p bounds <-> exists x, In x l /\ group0 (groups x) = Some p)).
  { intros l bounds p E. split.
    - intros H. apply (in_map Some) in H. rewrite <- E in H. apply in_map_iff in H as (x & Hx & Hl). now exists x.
    - intros (x & Hl & Hx). apply (in_map (fun x => group0 (groups x))) in Hl. rewrite E, Hx in Hl.
      apply in_map_iff in Hl as (q & [= ->] & Hq). assumption. }
  split.
  - apply (passes_of _ _ Hb). intros s i Hi. destruct (Ho s) as (l & bounds & E & Em & Hr).
    destruct (marks_from_start F A a M HM keep once s bounds Hr i Hi) as [-> _]. split.
    + intros (l' & E' & x & j & Hx & Hg). rewrite E in E'. injection E' as <-. exists j.
      apply (Hin l bounds (i, j) Em). now exists x.
    + intros (j & Hj). exists l. split; [assumption|]. apply (Hin l bounds (i, j) Em) in Hj as (x & Hx & Hg).
      now exists x, j.
  - apply (passes_of _ _ He). intros s i Hi. destruct (Ho s) as (l & bounds & E & Em & Hr).
    destruct (marks_from_start F A a M HM keep once s bounds Hr i Hi) as [_ ->]. split.
    + intros (l' & E' & x & j & Hx & Hg). rewrite E in E'. injection E' as <-. exists j.
      apply (Hin l bounds (j, i) Em). now exists x.
    + intros (j & Hj). exists l. split; [assumption|]. apply (Hin l bounds (j, i) Em) in Hj as (x & Hx & Hg).
      now exists x, j.
Qed.

Section Calls.
  Variables (r : regex) (ct : category).
  Hypothesis Hu : usable r ct.
  Hypothesis Hb : backref_free (ast r) = true.

  Let cf := config_of (flags r) ct.
  Let F : family := fun t i => walk cf t false false (ast r) i.

  Lemma from_F s i : i <= length s -> prefix_from cf (ast r) s i = Some (hd_error (F s i)).
  Proof. intros Hi. now rewrite from_actual by assumption. Qed.

  Lemma next_F s p i j : next_match (prefix_from cf (ast r) s) (length s) p i j ->
    next_from true (fun i => hd_error (F s i)) (length s) p i j.
  Proof.
    intros (Hi & E & Hn). split; [assumption|]. rewrite from_F in E by lia. injection E as E.
    split; [assumption|]. split; [|discriminate]. intros q Hq. specialize (Hn q Hq).
    rewrite from_F in Hn by lia. now injection Hn.
  Qed.

  Lemma find_all_ranges : ranging (find_all r ct) F true false.
  Proof.
    intros s. destruct (find_all_scan r ct s Hu Hb) as (l & E & _ & bounds & Em & Hs). exists l, bounds.
    split; [assumption|]. split; [assumption|]. fold cf in Hs. clear E Em.
    assert (H0 : 0 <= length s) by lia. revert H0.
    induction Hs as [p Hn|p i Hn|p i j bs Hn Hij Hl IH]; intros Hp.
    - apply rg_none. intros i Hi _. specialize (Hn i Hi). rewrite from_F in Hn by lia. now injection Hn.
    - apply rg_empty. now apply next_F.
    - apply rg_more; [reflexivity|now apply next_F|assumption|]. apply IH. lia.
  Qed.

  Theorem find_all_marked : marking (find_all r ct).
  Proof. exact (marked _ F true false (F_inside r ct) (F_machinable r ct Hb) find_all_ranges). Qed.

  Lemma tokenize_ranges : ranging (tokenize r ct) F false false.
  Proof.
    intros s. destruct (tokenize_scan r ct s Hu) as (l & E & _ & bounds & Em & Hs). exists l, bounds.
    split; [assumption|]. split; [assumption|]. fold cf in Hs. clear E Em.
    assert (H0 : 0 <= length s) by lia. revert H0.
    assert (Hone : forall p j, p <= length s -> prefix_from cf (ast r) s p = Some (Some j) ->
      next_from false (fun i => hd_error (F s i)) (length s) p p j).
    { intros p j Hp Hj. rewrite from_F in Hj by assumption. injection Hj as Hj. split; [lia|].
      split; [assumption|]. split; [intros q Hq; lia|reflexivity]. }
    induction Hs as [p Hn|p Hn|p j bs Hn Hij Hl IH]; intros Hp.
    - apply rg_none. intros i Hi [H| ->]; [discriminate|]. rewrite from_F in Hn by lia. now injection Hn.
    - apply rg_empty. now apply Hone.
    - apply rg_more; [reflexivity|now apply Hone|assumption|]. apply IH. lia.
  Qed.

  Theorem tokenize_marked : marking (tokenize r ct).
  Proof. exact (marked _ F false false (F_inside r ct) (F_machinable r ct Hb) tokenize_ranges). Qed.

  Lemma search_ranges : ranging (fun s => found (regex_search r ct s)) F true true.
  Proof.
    intros s. destruct (search_exact r ct s Hu Hb) as (res & E & H1 & H2). rewrite E. cbn [found].
    unfold actual in H1, H2. fold cf in H1, H2. destruct (matched res).
    - destruct (H1 eq_refl) as (i & j & Hi & Hg & Hj & Hn). exists [res], [(i, j)].
      split; [reflexivity|]. split; [cbn; now rewrite Hg|].
      assert (Hnext : next_from true (fun i => hd_error (F s i)) (length s) 0 i j).
      { split; [lia|]. split; [assumption|]. split; [intros q Hq; apply Hn; lia|discriminate]. }
      assert (Hij : i <= j <= length s).
      { apply (F_inside r ct s i j Hi). fold cf. fold F. destruct (F s i) as [|x y] eqn:Ex; unfold F in Ex; rewrite Ex in Hj |- *; [discriminate|].
        injection Hj as ->. now left. }
      destruct (Nat.eq_dec i j) as [Hij'|Hne]; [subst j; now apply rg_empty|].
      apply rg_once; [reflexivity|assumption|lia].
    - exists [], []. split; [reflexivity|]. split; [reflexivity|]. apply rg_none. intros i Hi _. apply H2; [reflexivity|lia].
  Qed.

  Theorem search_marked : marking (fun s => found (regex_search r ct s)).
  Proof. exact (marked _ F true true (F_inside r ct) (F_machinable r ct Hb) search_ranges). Qed.
End Calls.
