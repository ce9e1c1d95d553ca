(** Patterns that describe the fields of a text (C75): pieces one behind the other,
    some of them in a capturing group. *)
From Verif Require Import Matcher Api Basics Safe Cong Impl Spec Paths Mirror Adequacy Calls
  Lift Matching Actual Exact Tracks Tracking Contained.
From Coq Require Import Lia Arith NArith Bool.

(** ** Specification *)

(** Characters to be skipped, or a field to be handed out. *)
Inductive piece := Plain (x : node) | Field (nm : group_name) (x : node).

Definition inside (p : piece) : node := match p with Plain x | Field _ x => x end.

(** The pieces, the fields as groups with the numbers from [k] on. *)
Fixpoint numbered (k : N) (ps : list piece) : list node :=
  match ps with
  | [] => []
  | Plain x :: r => x :: numbered k r
  | Field nm x :: r => Cap k nm x :: numbered (N.succ k) r
  end.

Definition template (ps : list piece) : node := Seq (numbered 1 ps).

(** [w] is one of the texts described by the tree. *)
Definition described (cf : config) (x : node) (w : list ascii) : Prop := matches cf w x 0 (length w).

(** The text [w] is one text for every piece; [f] are those of the fields. *)
Inductive divides (cf : config) : list piece -> list ascii -> list (list ascii) -> Prop :=
| div_none : divides cf [] [] []
| div_plain x r u w f : described cf x u -> divides cf r w f -> divides cf (Plain x :: r) (u ++ w) f
| div_field nm x r u w f : described cf x u -> divides cf r w f ->
    divides cf (Field nm x :: r) (u ++ w) (u :: f).

(** The pieces look only at their own characters and contain no groups. *)
Definition simple_pieces (ps : list piece) : Prop :=
  Forall (fun p => self_contained (inside p) = true /\ capture_count (inside p) = 0) ps.

(** Every piece ends where the next one begins: its texts do not contain the
    character that the next piece consists of; the last piece needs no such
    sign. *)
Fixpoint delimited (cf : config) (ps : list piece) : Prop :=
  match ps with
  | [] => True
  | p :: r =>
      delimited cf r /\
      match r with
      | [] => True
      | q :: _ => (forall u, described cf (inside p) u -> length u = 1)
                  \/ exists d, inside q = Lit d
                       /\ forall u, described cf (inside p) u -> Forall (fun a => accepts cf (Lit d) a = false) u
      end
  end.

(** ** Offsets *)

Definition slice (s : list ascii) (i j : nat) : list ascii := firstn (j - i) (skipn i s).

Lemma slice_length s i j : i <= j -> j <= length s -> length (slice s i j) = j - i.
Proof. intros H1 H2. unfold slice. rewrite firstn_length, skipn_length. lia. Qed.

Lemma skipn_twice {A} (s : list A) m n : skipn m (skipn n s) = skipn (m + n) s.
Proof.
  revert s. induction n as [|n IH]; intros s; [now rewrite Nat.add_0_r|].
  rewrite Nat.add_succ_r. destruct s; cbn; [apply skipn_nil|apply IH].
Qed.

Lemma slice_app s i j k : i <= j -> j <= k -> slice s i k = slice s i j ++ slice s j k.
Proof.
  intros H1 H2. unfold slice. replace (k - i) with ((j - i) + (k - j)) by lia.
  rewrite <- (firstn_skipn (j - i) (skipn i s)) at 1. rewrite firstn_app.
  rewrite firstn_firstn, Nat.min_r by lia.
  rewrite skipn_twice. replace (j - i + i) with j by lia.
  destruct (Nat.le_gt_cases (j - i) (length (skipn i s))) as [Hl|Hl].
  - rewrite firstn_length_le by lia. f_equal. f_equal; lia.
  - rewrite skipn_length in Hl. rewrite (skipn_all2 (n := j) s) by lia. now rewrite !firstn_nil.
Qed.

Lemma slice_nil s i : slice s i i = [].
Proof. unfold slice. now rewrite Nat.sub_diag. Qed.

Lemma slice_all s : slice s 0 (length s) = s.
Proof. unfold slice. rewrite Nat.sub_0_r. cbn [skipn]. apply firstn_all. Qed.

Lemma slice_split s i j : i <= j -> j <= length s ->
  s = firstn i s ++ slice s i j ++ skipn j s.
Proof.
  intros H1 H2. unfold slice. rewrite <- (firstn_skipn i s) at 1. f_equal.
  rewrite <- (firstn_skipn (j - i) (skipn i s)) at 1. f_equal. rewrite skipn_twice. f_equal. lia.
Qed.

Lemma slice_of x u y : slice (x ++ u ++ y) (length x) (length x + length u) = u.
Proof.
  unfold slice. replace (length x + length u - length x) with (length u) by lia.
  rewrite skipn_app, skipn_all, Nat.sub_diag. cbn [app skipn].
  rewrite firstn_app, Nat.sub_diag, firstn_all. cbn [firstn]. apply app_nil_r.
Qed.

(** A self-contained tree describes the slices it matches. *)
Lemma described_slice cf s x i j : self_contained x = true -> i <= j -> j <= length s ->
  (matches cf s x i j <-> described cf x (slice s i j)).
Proof.
  intros Hx Hi Hj. unfold described. rewrite slice_length by auto.
  pose proof (matches_part cf (firstn i s) (slice s i j) (skipn j s) x Hx 0 (j - i)) as H.
  rewrite <- slice_split, slice_length in H by auto. rewrite <- H by lia.
  rewrite firstn_length_le by lia. replace (i + 0) with i by lia. now replace (i + (j - i)) with j by lia.
Qed.

(** What the proofs need of the pieces. *)
Definition sound_pieces (ps : list piece) : Prop :=
  Forall (fun p => backref_free (inside p) = true /\ groups_of (inside p) = []) ps.
Definition formed_pieces (ps : list piece) : Prop :=
  Forall (fun p => well_formed (inside p) = true) ps.

(** Where the pieces lie; [l] are the fields. *)
Section Laid.
  Variable cf : config.
  Variable s : list ascii.

  Fixpoint laid (ps : list piece) (i j : nat) (l : list (nat * nat)) : Prop :=
    match ps with
    | [] => i = j /\ l = []
    | Plain x :: r => exists k, In k (paths cf s x i) /\ laid r k j l
    | Field _ x :: r => exists k l', l = (i, k) :: l' /\ In k (paths cf s x i) /\ laid r k j l'
    end.

  Lemma piece_bounds x i k : i <= length s -> In k (paths cf s x i) -> i <= k <= length s.
  Proof. intros Hi H. exact (paths_bounded cf s x i k Hi H). Qed.

  Lemma laid_bounds ps : forall i j l, i <= length s -> laid ps i j l -> i <= j <= length s.
  Proof.
    induction ps as [|[x|nm x] r IH]; cbn; intros i j l Hi H.
    - destruct H as [-> _]. lia.
    - destruct H as (k & Hm & H). pose proof (piece_bounds _ _ _ Hi Hm). apply IH in H; lia.
    - destruct H as (k & l' & _ & Hm & H). pose proof (piece_bounds _ _ _ Hi Hm). apply IH in H; lia.
  Qed.

  Lemma piece_described x i k : self_contained x = true -> well_formed x = true -> i <= length s ->
    In k (paths cf s x i) -> described cf x (slice s i k).
  Proof.
    intros Hx Hw Hi Hk. pose proof (piece_bounds _ _ _ Hi Hk).
    apply (proj1 (described_slice cf s x i k Hx ltac:(lia) ltac:(lia))).
    apply in_paths; auto. now apply contained_possessive_free.
  Qed.

  Lemma laid_divides ps : simple_pieces ps -> formed_pieces ps -> forall i j l, i <= length s -> laid ps i j l ->
    divides cf ps (slice s i j) (map (fun v => slice s (fst v) (snd v)) l).
  Proof.
    induction 1 as [|p r [Hp _] Hr IH]; cbn; intros Hf i j l Hi H.
    - destruct H as [-> ->]. rewrite slice_nil. constructor.
    - apply Forall_cons_iff in Hf as [Hw Hf]. specialize (IH Hf). destruct p as [x|nm x]; cbn in Hp, Hw.
      + destruct H as (k & Hm & H). pose proof (piece_bounds _ _ _ Hi Hm).
        assert (Hk : k <= length s) by lia. pose proof (laid_bounds _ _ _ _ Hk H).
        rewrite (slice_app s i k j) by lia. constructor; [|now apply IH]. now apply piece_described.
      + destruct H as (k & l' & -> & Hm & H). pose proof (piece_bounds _ _ _ Hi Hm).
        assert (Hk : k <= length s) by lia. pose proof (laid_bounds _ _ _ _ Hk H).
        rewrite (slice_app s i k j) by lia. cbn [map fst snd]. constructor; [|now apply IH]. now apply piece_described.
  Qed.

  Lemma described_piece x u y t : self_contained t = true -> well_formed t = true -> s = x ++ u ++ y ->
    described cf t u -> In (length x + length u) (paths cf s t (length x)).
  Proof.
    intros Ht Hw E Hu. apply in_paths; auto; [now apply contained_possessive_free|rewrite E, app_length; lia|].
    unfold described in Hu. rewrite E.
    apply (matches_part cf x u y t Ht 0 (length u)) in Hu; try lia. now rewrite Nat.add_0_r in Hu.
  Qed.

  Lemma divides_laid ps w f : divides cf ps w f -> simple_pieces ps -> formed_pieces ps -> forall x y, s = x ++ w ++ y ->
    exists l, laid ps (length x) (length x + length w) l.
  Proof.
    induction 1 as [|t r u w f Hu Hd IH|nm t r u w f Hu Hd IH]; intros Hs Hf x y E.
    - exists []. cbn. split; [lia|reflexivity].
    - apply Forall_cons_iff in Hs as [[Ht _] Hr]. apply Forall_cons_iff in Hf as [Hw Hf]. cbn [inside] in Ht, Hw.
      destruct (IH Hr Hf (x ++ u) y) as (l & Hl); [rewrite E; now rewrite <- !app_assoc|].
      exists l. cbn. exists (length x + length u). split.
      + apply (described_piece x u (w ++ y)); auto. now rewrite <- app_assoc in E.
      + rewrite !app_length in *. now rewrite Nat.add_assoc.
    - apply Forall_cons_iff in Hs as [[Ht _] Hr]. apply Forall_cons_iff in Hf as [Hw Hf]. cbn [inside] in Ht, Hw.
      destruct (IH Hr Hf (x ++ u) y) as (l & Hl); [rewrite E; now rewrite <- !app_assoc|].
      exists ((length x, length x + length u) :: l). cbn. exists (length x + length u), l. split; [reflexivity|]. split.
      + apply (described_piece x u (w ++ y)); auto. now rewrite <- app_assoc in E.
      + rewrite !app_length in *. now rewrite Nat.add_assoc.
  Qed.
End Laid.

(** Delimited pieces divide a text in one way. *)
Lemma free_app_inj (p : ascii -> bool) : forall u u' a a' v v',
  u ++ a :: v = u' ++ a' :: v' -> p a = true -> p a' = true ->
  Forall (fun b => p b = false) u -> Forall (fun b => p b = false) u' -> u = u' /\ a :: v = a' :: v'.
Proof.
  induction u as [|b u IH]; intros [|b' u'] a a' v v' E Ha Ha' H H'; cbn in E.
  - auto.
  - injection E as -> _. inversion H'; congruence.
  - injection E as -> _. inversion H; congruence.
  - injection E as -> E. inversion H; inversion H'; subst. destruct (IH _ _ _ _ _ E Ha Ha'); auto.
    subst. auto.
Qed.

Lemma described_lit cf d u : described cf (Lit d) u -> exists a, u = [a] /\ accepts cf (Lit d) a = true.
Proof.
  unfold described. cbn [matches]. destruct u as [|a [|b u]]; unfold char_at; cbn [length nth_error]; intros H.
  - destruct H; discriminate.
  - exists a. tauto.
  - destruct H; discriminate.
Qed.

(** The text of the first piece and the rest. *)
Lemma divides_cons cf p r w f : divides cf (p :: r) w f ->
  exists u v g, w = u ++ v /\ described cf (inside p) u /\ divides cf r v g
    /\ f = match p with Plain _ => g | Field _ _ => u :: g end.
Proof. intros H. inversion H; subst; eauto 10. Qed.

Lemma delimited_unique cf ps : delimited cf ps -> forall w f f', divides cf ps w f -> divides cf ps w f' -> f = f'.
Proof.
  induction ps as [|p r IH]; intros Hd w f f' H H'.
  - inversion H; inversion H'; congruence.
  - destruct Hd as [Hr Hd].
    destruct (divides_cons _ _ _ _ _ H) as (u & v & g & -> & Hu & Hv & ->).
    destruct (divides_cons _ _ _ _ _ H') as (u' & v' & g' & E & Hu' & Hv' & ->).
    assert (Hs : u = u' /\ v = v').
    { destruct r as [|q r].
      - inversion Hv; inversion Hv'; subst. rewrite !app_nil_r in E. auto.
      - destruct Hd as [Hd|(d & Eq & Hd)].
        + pose proof (Hd _ Hu). pose proof (Hd _ Hu').
          destruct u as [|a [|]], u' as [|a' [|]]; try discriminate. cbn in E. injection E as -> ->. auto.
        + destruct (divides_cons _ _ _ _ _ Hv) as (a & t & ? & -> & Ha & _).
          destruct (divides_cons _ _ _ _ _ Hv') as (a' & t' & ? & -> & Ha' & _).
          rewrite Eq in Ha, Ha'. apply described_lit in Ha as (b & -> & Hb). apply described_lit in Ha' as (b' & -> & Hb').
          cbn [app] in *. exact (free_app_inj (accepts cf (Lit d)) _ _ _ _ _ _ E Hb Hb' (Hd _ Hu) (Hd _ Hu')). }
    destruct Hs as [<- <-]. rewrite (IH Hr _ _ _ Hv Hv'). reflexivity.
Qed.

(** ** The groups of the calls *)

Lemma no_refs x : backref_free x = true -> refs_of x = [].
Proof.
  intros Hb. destruct (refs_of x) as [|b l] eqn:E; [reflexivity|]. exfalso.
  assert (Hin : In b (refs_of x)) by (rewrite E; cbn; auto). clear E l. revert Hb Hin.
  induction x using node_ind'; cbn [backref_free refs_of]; auto; try discriminate.
  - rewrite forallb_forall, Forall_forall in *. intros Hb Hin.
    apply in_flat_map in Hin as (x & Hx & Hin). eauto.
  - rewrite forallb_forall, Forall_forall in *. intros Hb Hin.
    apply in_flat_map in Hin as (x & Hx & Hin). eauto.
Qed.

Lemma no_groups_of x : capture_count x = 0 -> groups_of x = [].
Proof.
  assert (Hl : forall l, Forall (fun x => capture_count x = 0 -> groups_of x = []) l ->
    list_sum (map capture_count l) = 0 -> flat_map groups_of l = []).
  { induction 1 as [|y l Hy Hl IH]; [reflexivity|]. cbn [map flat_map].
    change (list_sum (capture_count y :: map capture_count l))
      with (capture_count y + list_sum (map capture_count l)).
    intros E. rewrite Hy, IH by lia. reflexivity. }
  induction x using node_ind'; cbn [capture_count groups_of]; auto; try lia.
Qed.

Section Found.
  Variable cf : config.
  Variable s : list ascii.

  (** A piece leaves the groups alone. *)
  Lemma piece_tracks x i e y : backref_free x = true -> groups_of x = [] ->
    In y (tracks cf s x (i, e)) -> In (fst y) (paths cf s x i) /\ forall b, snd y b = e b.
  Proof.
    intros Hb Hg Hy.
    assert (Hc : forall b, closed [b] [b] x = true).
    { intros b. apply closed_parts. rewrite no_refs, Hg by exact Hb. easy. }
    assert (H : forall b, In (fst y) (paths cf s x i) /\ e b = snd y b).
    { intros b. destruct (sim_closed cf s [b] [b] x e (fun b H => H) (Hc b) i e) as [E H].
      - intros c _. reflexivity.
      - rewrite fill_free in E by exact Hb. split.
        + rewrite <- E. now apply in_map.
        + apply (H y Hy). cbn. auto. }
    split; [apply (H Empty)|]. intros b. symmetry. apply H.
  Qed.

  Lemma piece_reached x i e j : backref_free x = true -> groups_of x = [] ->
    In j (paths cf s x i) -> exists e', In (j, e') (tracks cf s x (i, e)).
  Proof.
    intros Hb Hg Hm.
    assert (Hc : closed [] [] x = true).
    { apply closed_parts. rewrite no_refs, Hg by exact Hb. easy. }
    destruct (sim_closed cf s [] [] x e (fun b H => H) Hc i e) as [E _]; [easy|].
    rewrite fill_free in E by exact Hb. rewrite <- E in Hm.
    apply in_map_iff in Hm as ([k e'] & <- & Hin). eauto.
  Qed.

  Lemma template_tracks ps : sound_pieces ps -> forall k i e y,
    In y (tracks cf s (Seq (numbered k ps)) (i, e)) ->
    exists l, laid cf s ps i (fst y) l
      /\ (forall m v, nth_error l m = Some v -> group_of y (k + N.of_nat m) = Some v)
      /\ forall id, (id < k)%N -> group_of y id = e (Backref id).
  Proof.
    induction 1 as [|p r (Hb & Hg) Hr IH]; intros k i e y Hy.
    - cbn in Hy. destruct Hy as [<-|[]]. exists []. cbn. split; [auto|]. split; [now intros []|reflexivity].
    - destruct p as [x|nm x]; cbn [inside] in *; cbn [numbered] in Hy; rewrite tracks_Seq in Hy;
        apply in_flat_map in Hy as ([j e1] & Hz & Hy).
      + destruct (piece_tracks x i e _ Hb Hg Hz) as [Hm He]. cbn [fst snd] in *.
        destruct (IH k j e1 y Hy) as (l & Hl & Hv & Ho). exists l. split; [cbn; eauto|]. split; [exact Hv|].
        intros id Hid. rewrite Ho by exact Hid. apply He.
      + cbn [tracks] in Hz. apply in_map_iff in Hz as ([j' e0] & E & Hz). cbn [fst snd] in E.
        injection E as <- <-.
        destruct (piece_tracks x i e _ Hb Hg Hz) as [Hm He]. cbn [fst snd] in *.
        destruct (IH (N.succ k) j' _ y Hy) as (l & Hl & Hv & Ho).
        exists ((i, j') :: l). split; [cbn; eauto 6|]. split.
        * intros [|m] v E; cbn in E.
          -- injection E as <-. rewrite N.add_0_r, Ho by lia. unfold with_group, calls. now rewrite N.eqb_refl.
          -- apply Hv in E. now replace (k + N.of_nat (S m))%N with (N.succ k + N.of_nat m)%N by lia.
        * intros id Hid. rewrite Ho by lia. unfold with_group, calls.
          destruct (N.eqb_spec id k); [lia|]. apply He.
  Qed.

  Lemma template_reached ps : sound_pieces ps -> forall k i e j l, laid cf s ps i j l ->
    exists e', In (j, e') (tracks cf s (Seq (numbered k ps)) (i, e)).
  Proof.
    induction 1 as [|p r (Hb & Hg) Hr IH]; intros k i e j l H.
    - destruct H as [-> _]. exists e. cbn. auto.
    - destruct p as [x|nm x]; cbn [inside] in *; cbn [numbered].
      + destruct H as (m & Hm & H). destruct (piece_reached x i e m Hb Hg Hm) as (e1 & H1).
        destruct (IH k m e1 j l H) as (e2 & H2). exists e2. rewrite tracks_Seq. apply in_flat_map. eauto.
      + destruct H as (m & l' & _ & Hm & H). destruct (piece_reached x i e m Hb Hg Hm) as (e1 & H1).
        destruct (IH (N.succ k) m (with_group e1 k nm (i, m)) j l' H) as (e2 & H2).
        exists e2. rewrite tracks_Seq. apply in_flat_map. exists (m, with_group e1 k nm (i, m)). split; [|exact H2].
        cbn [tracks]. apply in_map_iff. exists (m, e1). auto.
  Qed.
End Found.

Fixpoint field_count (ps : list piece) : nat :=
  match ps with [] => 0 | Plain _ :: r => field_count r | Field _ _ :: r => S (field_count r) end.

Lemma laid_length cf s ps : forall i j l, laid cf s ps i j l -> length l = field_count ps.
Proof.
  induction ps as [|[x|nm x] r IH]; cbn; intros i j l H.
  - now destruct H as [_ ->].
  - destruct H as (k & _ & H). eauto.
  - destruct H as (k & l' & -> & _ & H). cbn. f_equal. eauto.
Qed.

Lemma scope_closed refs set seen n : closed refs set n = true -> scope refs set seen n = Some (set, seen).
Proof. intros H. destruct n; cbn [scope]; now rewrite H. Qed.

Lemma numbered_scope refs ps : (forall b, In b refs -> exists id, b = Backref id) -> sound_pieces ps ->
  forall k set seen, (forall b, In b seen -> exists id, b = Backref id /\ (id < k)%N) ->
  exists o, scope_seq refs set seen (numbered k ps) = Some o.
Proof.
  intros Hrefs. induction 1 as [|p r (Hb & Hg) Hr IH]; intros k set seen Hseen; [cbn; eauto|].
  assert (Hc : closed refs set (inside p) = true).
  { apply closed_parts. rewrite no_refs, Hg by exact Hb. easy. }
  destruct p as [x|nm x]; cbn [inside numbered scope_seq] in *.
  - rewrite (scope_closed _ _ _ _ Hc). now apply IH.
  - assert (Hall : exists set' seen', scope refs set seen (Cap k nm x) = Some (set', seen')
      /\ forall b, In b seen' -> exists id, b = Backref id /\ (id < N.succ k)%N).
    { cbn [scope]. destruct (closed refs set (Cap k nm x)).
      - exists set, seen. split; [reflexivity|]. intros b Hin. destruct (Hseen b Hin) as (id & -> & Hid).
        exists id. split; [reflexivity|lia].
      - rewrite (scope_closed _ _ _ _ Hc).
        assert (Hnew : forall b, In b (callers refs k nm) -> b = Backref k).
        { intros b Hin. apply filter_In in Hin as [Hin Hcall]. destruct (Hrefs b Hin) as (id & ->).
          cbn in Hcall. apply N.eqb_eq in Hcall. now subst. }
        destruct (existsb (listed seen) (callers refs k nm)) eqn:E.
        + exfalso. apply existsb_exists in E as (b & Hin & Hlist). apply Hnew in Hin as ->.
          apply listed_in in Hlist. destruct (Hseen _ Hlist) as (id & E & Hid). injection E as <-. lia.
        + eexists. eexists. split; [reflexivity|]. intros b Hin. apply in_app_or in Hin as [Hin|Hin].
          * exists k. split; [now apply Hnew|lia].
          * destruct (Hseen b Hin) as (id & -> & Hid). exists id. split; [reflexivity|lia]. }
    destruct Hall as (set' & seen' & -> & Hs'). now apply IH.
Qed.

Lemma numbered_refs ps : sound_pieces ps -> forall k, flat_map refs_of (numbered k ps) = [].
Proof.
  induction 1 as [|p r (Hb & _) Hr IH]; intros k; [reflexivity|]. apply no_refs in Hb.
  destruct p; cbn in *; now rewrite Hb, IH.
Qed.

Lemma template_traceable ids ps : sound_pieces ps -> traceable ids (template ps) = true.
Proof.
  intros H. unfold traceable, template. cbn [refs_of]. rewrite numbered_refs, app_nil_r by exact H.
  set (refs := map Backref ids).
  destruct (closed refs [] (Seq (numbered 1 ps))) eqn:E; [now rewrite (scope_closed _ _ _ _ E)|].
  destruct (numbered_scope refs ps) with (k := 1%N) (set := @nil node) (seen := @nil node) as (o & Ho); auto.
  - intros b Hin. apply in_map_iff in Hin as (id & <- & _). eauto.
  - easy.
  - cbn [scope]. rewrite E. unfold scope_seq in Ho. now rewrite Ho.
Qed.

Lemma numbered_contained ps : simple_pieces ps -> forall k, forallb self_contained (numbered k ps) = true.
Proof.
  induction 1 as [|p r [Hp _] Hr IH]; intros k; [reflexivity|]. destruct p; cbn in *; now rewrite Hp, IH.
Qed.

Lemma numbered_count ps : Forall (fun p => capture_count (inside p) = 0) ps -> forall k,
  list_sum (map capture_count (numbered k ps)) = field_count ps.
Proof.
  induction 1 as [|p r Hp Hr IH]; intros k; [reflexivity|].
  destruct p; cbn [numbered map inside field_count] in *.
  - change (capture_count x + list_sum (map capture_count (numbered k r)) = field_count r). rewrite Hp. apply IH.
  - change (capture_count x + 1 + list_sum (map capture_count (numbered (N.succ k) r)) = S (field_count r)).
    rewrite Hp, IH. lia.
Qed.

Lemma numbered_formed ps : forall k, forallb well_formed (numbered k ps) = true -> formed_pieces ps.
Proof.
  induction ps as [|p r IH]; intros k Hw; [constructor|].
  destruct p; cbn [numbered forallb inside] in *; apply andb_true_iff in Hw as [H1 H2];
    (constructor; [exact H1|exact (IH _ H2)]).
Qed.

Lemma cells_eq (l : list (nat * nat)) : forall c : caps, length c = length l ->
  (forall m v, nth_error l m = Some v -> nth m c None = Some v) -> c = map Some l.
Proof.
  induction l as [|v l IH]; intros [|x c] Hl H; try discriminate; [reflexivity|].
  cbn. f_equal.
  - exact (H 0 v eq_refl).
  - apply IH; [now injection Hl|]. intros m w E. exact (H (S m) w E).
Qed.

(** ** Pieces of any kind *)

Section Any.
  Variables (ps : list piece) (fl : list regex_flag) (ct : category).
  Let r := mk_regex (template ps) fl.
  Let cf := config_of fl ct.
  Hypothesis Hu : usable r ct.
  Hypothesis Hf : followed r.
  Hypothesis Hs : Forall (fun p => backref_free (inside p) = true /\ capture_count (inside p) = 0) ps.

  Lemma any_sound : sound_pieces ps.
  Proof. eapply Forall_impl; [|exact Hs]. intros p [H1 H2]. split; [exact H1|now apply no_groups_of]. Qed.

  Definition ids : list N := map N.of_nat (List.seq 1 (field_count ps)).

  Lemma ids_positive id : In id ids -> id <> 0%N.
  Proof. intros H. apply in_map_iff in H as (n & <- & Hn). apply in_seq in Hn. lia. Qed.

  Lemma count : capture_count (template ps) = field_count ps.
  Proof.
    unfold template. cbn [capture_count]. apply numbered_count. eapply Forall_impl; [|exact Hs]. now intros p [_ H].
  Qed.

  Lemma shown s y i c e0 : In y (tracks cf s (template ps) (i, e0)) ->
    shows ids y c -> length c = S (field_count ps) -> group0 c = Some (i, fst y) ->
    exists l, laid cf s ps i (fst y) l /\ c = Some (i, fst y) :: map Some l.
  Proof.
    intros Hy Hsh Hl Hg. destruct (template_tracks cf s ps any_sound 1 i e0 y Hy) as (l & Hlaid & Hv & _).
    exists l. split; [exact Hlaid|].
    pose proof (laid_length _ _ _ _ _ _ Hlaid) as Hn.
    destruct c as [|c0 c]; [discriminate|]. cbn in Hg, Hl. subst c0. f_equal.
    apply cells_eq; [congruence|].
    intros m v E. pose proof (Hv m v E) as Hg.
    assert (Hin : In (1 + N.of_nat m)%N ids).
    { apply in_map_iff. exists (S m). split; [lia|]. apply in_seq.
      assert (m < length l) by (apply nth_error_Some; congruence). lia. }
    pose proof (Hsh _ v Hin Hg) as H. now replace (N.to_nat (1 + N.of_nat m)) with (S m) in H by lia.
  Qed.

  Theorem match_laid s : returns (regex_match r ct s) (fun res =>
    (matched res = true <-> exists l, laid cf s ps 0 (length s) l)
    /\ (matched res = true -> exists l, laid cf s ps 0 (length s) l
          /\ groups res = Some (0, length s) :: map Some l)).
  Proof.
    destruct (match_tracks ids r ct s Hu Hf (template_traceable _ _ any_sound) ids_positive)
      as (res & E & H).
    destruct (groups_valid r ct s Hu) as ((res' & E' & [Hn _] & e & Hg & He) & _).
    assert (res' = res) by congruence. subst res'. unfold group_count in Hn. cbn [ast r] in Hn. rewrite count in Hn.
    exists res. split; [exact E|].
    change (config_of (flags r) ct) with cf in H. cbn [ast r] in H.
    assert (G : matched res = true -> exists l, laid cf s ps 0 (length s) l
          /\ groups res = Some (0, length s) :: map Some l).
    { intros Hm. destruct (first_whole cf s (template ps)) as [y|] eqn:Ey; [|congruence].
      destruct H as [_ Hsh]. apply find_some in Ey as [Hy Ey]. apply Nat.eqb_eq in Ey.
      destruct (shown s y 0 (groups res) no_groups) as (l & Hd & Hc); auto; [rewrite Hg, He, Ey; auto|].
      rewrite Ey in *. eauto. }
    split; [|exact G]. split.
    - intros Hm. destruct (G Hm) as (l & Hd & _). eauto.
    - intros (l & Hl). destruct (template_reached cf s ps any_sound 1 0 no_groups _ l Hl) as (e' & Hin).
      destruct (first_whole cf s (template ps)) as [y|] eqn:Ey; [tauto|]. exfalso.
      apply (find_none _ _ Ey) in Hin. cbn in Hin. now rewrite Nat.eqb_refl in Hin.
  Qed.
End Any.

(** ** Self-contained pieces *)

Section Call.
  Variables (ps : list piece) (fl : list regex_flag) (ct : category).
  Let r := mk_regex (template ps) fl.
  Let cf := config_of fl ct.
  Hypothesis Hu : usable r ct.
  Hypothesis Hs : simple_pieces ps.

  Lemma call_formed : formed_pieces ps.
  Proof.
    assert (W : well_formed (template ps) = true) by (destruct Hu as [Hc _]; exact (compiles_well_formed _ _ _ _ _ Hc)).
    unfold template in W. cbn [well_formed] in W.
    apply numbered_formed with 1%N; auto. now destruct (numbered 1 ps).
  Qed.

  Lemma call_followed : followed r.
  Proof.
    assert (H : self_contained (template ps) = true) by (cbn; now apply numbered_contained).
    apply contained_fragment in H as (_ & H1 & H2 & _). split; assumption.
  Qed.

  Lemma call_plain : Forall (fun p => backref_free (inside p) = true /\ capture_count (inside p) = 0) ps.
  Proof.
    eapply Forall_impl; [|exact Hs]. intros p [H1 H2]. split; [|exact H2]. now apply contained_fragment in H1.
  Qed.

  Lemma contents s i j l : i <= length s -> laid cf s ps i j l ->
    exists f, divides cf ps (slice s i j) f
      /\ map (cell_content s) (Some (i, j) :: map Some l) = slice s i j :: f.
  Proof.
    intros Hi Hl. exists (map (fun v => slice s (fst v) (snd v)) l).
    split; [now apply (laid_divides cf s ps Hs call_formed)|].
    cbn [map]. f_equal. rewrite map_map. apply map_ext. now intros [a b].
  Qed.

  Theorem match_fields s : returns (regex_match r ct s) (fun res =>
    (matched res = true <-> exists f, divides cf ps s f)
    /\ (matched res = true -> exists f, divides cf ps s f /\ map (cell_content s) (groups res) = s :: f)).
  Proof.
    destruct (match_laid ps fl ct Hu call_followed call_plain s) as (res & E & H1 & H2).
    exists res. split; [exact E|].
    assert (G : matched res = true -> exists f, divides cf ps s f /\ map (cell_content s) (groups res) = s :: f).
    { intros Hm. destruct (H2 Hm) as (l & Hl & ->).
      destruct (contents s 0 _ l (Nat.le_0_l _) Hl) as (f & Hd & Hc). rewrite slice_all in *. eauto. }
    split; [|exact G]. split.
    - intros Hm. destruct (G Hm) as (f & Hd & _). eauto.
    - intros (f & Hd). apply H1.
      exact (divides_laid cf s ps s f Hd Hs call_formed [] [] (eq_sym (app_nil_r s))).
  Qed.

  Lemma first_divides s i : i <= length s ->
    (first_state cf s (template ps) i <> None
     <-> exists x u y f, s = x ++ u ++ y /\ length x = i /\ divides cf ps u f).
  Proof.
    intros Hi. unfold first_state. split.
    - intros H. destruct (tracks cf s (template ps) (i, no_groups)) as [|y l] eqn:E; [easy|].
      destruct (template_tracks cf s ps (any_sound ps call_plain) 1 i no_groups y) as (l' & Hlaid & _).
      { unfold template in E. rewrite E. cbn. auto. }
      pose proof (laid_bounds _ _ _ _ _ _ Hi Hlaid) as B. apply laid_divides in Hlaid; auto using call_formed.
      exists (firstn i s), (slice s i (fst y)), (skipn (fst y) s). eexists. split; [apply slice_split; lia|].
      split; [apply firstn_length_le; lia|exact Hlaid].
    - intros (x & u & y & f & Es & Hx & Hd).
      destruct (divides_laid cf s ps u f Hd Hs call_formed x y Es) as (l & Hl).
      rewrite Hx in Hl. destruct (template_reached cf s ps (any_sound ps call_plain) 1 i no_groups _ l Hl) as (e' & Hin).
      unfold template. now destruct (tracks cf s _ _).
  Qed.

  Theorem search_fields s : returns (regex_search r ct s) (fun res =>
    (matched res = true <-> exists x u y f, s = x ++ u ++ y /\ divides cf ps u f)
    /\ (matched res = true -> exists x u y f, s = x ++ u ++ y /\ divides cf ps u f
          /\ map (cell_content s) (groups res) = u :: f
          /\ forall x' u' y' f', s = x' ++ u' ++ y' -> divides cf ps u' f' -> length x <= length x')).
  Proof.
    destruct (search_tracks (ids ps) r ct s Hu call_followed (template_traceable _ _ (any_sound ps call_plain)) (ids_positive ps))
      as (res & E & H1 & H2).
    change (config_of (flags r) ct) with cf in *. cbn [ast r] in *.
    destruct (groups_valid r ct s Hu) as (_ & _ & (res' & E' & [Hn _] & _) & _).
    assert (res' = res) by congruence. subst res'. unfold group_count in Hn. cbn [ast r] in Hn.
    rewrite (count ps call_plain) in Hn.
    exists res. split; [exact E|].
    assert (G : matched res = true -> exists x u y f, s = x ++ u ++ y /\ divides cf ps u f
          /\ map (cell_content s) (groups res) = u :: f
          /\ forall x' u' y' f', s = x' ++ u' ++ y' -> divides cf ps u' f' -> length x <= length x').
    { intros Hm. destruct (H1 Hm) as (i & y & Hi & Hg & Ey & Hsh & Hf).
      assert (Hy : In y (tracks cf s (template ps) (i, no_groups))).
      { unfold first_state in Ey. destruct (tracks cf s (template ps) (i, no_groups)); [discriminate|].
        injection Ey as <-. cbn. auto. }
      destruct (shown ps fl ct call_plain s y i (groups res) no_groups Hy Hsh Hn Hg) as (l & Hl & ->).
      pose proof (laid_bounds _ _ _ _ _ _ Hi Hl) as B.
      destruct (contents s i _ l Hi Hl) as (f & Hd & Hc).
      exists (firstn i s), (slice s i (fst y)), (skipn (fst y) s), f.
      split; [apply slice_split; lia|]. split; [exact Hd|]. split; [exact Hc|].
      intros x' u' y' f' Es' Hd'. rewrite firstn_length_le by lia.
      destruct (le_lt_dec i (length x')) as [Hle|Hlt]; [exact Hle|]. exfalso.
      apply (proj2 (first_divides s (length x') ltac:(lia))); [eauto 10|]. now apply Hf. }
    split; [|exact G]. split.
    - intros Hm. destruct (G Hm) as (x & u & y & f & Es & Hd & _). eauto 6.
    - intros (x & u & y & f & Es & Hd). destruct (matched res) eqn:Em; [reflexivity|]. exfalso.
      assert (Hi : length x <= length s) by (rewrite Es, app_length; lia).
      apply (proj2 (first_divides s (length x) Hi)); [eauto 8|]. now apply H2.
  Qed.

  Theorem prefix_fields s : returns (regex_match_prefix r ct s) (fun res =>
    (matched res = true <-> exists u y f, s = u ++ y /\ divides cf ps u f)
    /\ (matched res = true -> exists u y f, s = u ++ y /\ divides cf ps u f
          /\ map (cell_content s) (groups res) = u :: f)).
  Proof.
    destruct (match_prefix_tracks (ids ps) r ct s Hu call_followed (template_traceable _ _ (any_sound ps call_plain)) (ids_positive ps))
      as (res & E & H).
    change (config_of (flags r) ct) with cf in *. cbn [ast r] in *.
    destruct (groups_valid r ct s Hu) as (_ & (res' & E' & [Hn _] & _) & _).
    assert (res' = res) by congruence. subst res'. unfold group_count in Hn. cbn [ast r] in Hn.
    rewrite (count ps call_plain) in Hn.
    exists res. split; [exact E|].
    pose proof (first_divides s 0 (Nat.le_0_l _)) as F.
    assert (G : matched res = true -> exists u y f, s = u ++ y /\ divides cf ps u f
          /\ map (cell_content s) (groups res) = u :: f).
    { intros Hm. destruct (first_state cf s (template ps) 0) as [y|] eqn:Ey; [|congruence].
      destruct H as (_ & Hg & Hsh).
      assert (Hy : In y (tracks cf s (template ps) (0, no_groups))).
      { unfold first_state in Ey. destruct (tracks cf s (template ps) (0, no_groups)); [discriminate|].
        injection Ey as <-. cbn. auto. }
      destruct (shown ps fl ct call_plain s y 0 (groups res) no_groups Hy Hsh Hn Hg) as (l & Hl & ->).
      pose proof (laid_bounds _ _ _ _ _ _ (Nat.le_0_l _) Hl) as B.
      destruct (contents s 0 _ l (Nat.le_0_l _) Hl) as (f & Hd & Hc).
      exists (slice s 0 (fst y)), (skipn (fst y) s), f. split; [|auto].
      exact (slice_split s 0 (fst y) (Nat.le_0_l _) (proj2 B)). }
    split; [|exact G]. split.
    - intros Hm. destruct (G Hm) as (u & y & f & Es & Hd & _). eauto 6.
    - intros (u & y & f & Es & Hd).
      destruct (first_state cf s (template ps) 0) as [z|]; [tauto|]. exfalso.
      apply F; [|reflexivity]. exists [], u, y, f. auto.
  Qed.

  (** With delimited pieces the fields are known from the text. *)
  Theorem match_delimited s f : delimited cf ps -> divides cf ps s f ->
    returns (regex_match r ct s) (fun res => matched res = true /\ map (cell_content s) (groups res) = s :: f).
  Proof.
    intros Hd H. destruct (match_fields s) as (res & E & H1 & H2). exists res. split; [exact E|].
    assert (Hm : matched res = true) by (apply H1; eauto). split; [exact Hm|].
    destruct (H2 Hm) as (f' & Hf & ->). now rewrite (delimited_unique cf ps Hd s f f').
  Qed.
End Call.
