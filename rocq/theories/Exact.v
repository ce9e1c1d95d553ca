(** The matcher follows [walk] (Walk.v) on every tree without backreferences, and
    on every tree whose backreferences stand for known texts. *)
From Verif Require Import Matcher Basics Safe Impl Spec Paths Mirror Adequacy Calls Lift Matching Api Results Walk.

(** ** Generalities *)

Lemma map_flat_map {A B C} (g : B -> C) (f : A -> list B) l :
  map g (flat_map f l) = flat_map (fun x => map g (f x)) l.
Proof. induction l as [|x r IH]; cbn; [reflexivity|]. now rewrite map_app, IH. Qed.

Lemma flat_map_map {A B C} (f : B -> list C) (g : A -> B) l :
  flat_map f (map g l) = flat_map (fun x => f (g x)) l.
Proof. induction l as [|x r IH]; cbn; [reflexivity|]. now rewrite IH. Qed.

Lemma chain_paths_app fs1 fs2 i :
  chain_paths (fs1 ++ fs2) i = flat_map (chain_paths fs2) (chain_paths fs1 i).
Proof.
  revert i. induction fs1 as [|f r IH]; intros i; cbn; [now rewrite app_nil_r|].
  rewrite (flat_map_ext _ _ IH).
  generalize (f i). intros l. induction l as [|x t IHl]; cbn; [reflexivity|].
  now rewrite flat_map_app, IHl.
Qed.

Lemma forallb_false {A} (p : A -> bool) l :
  forallb p l = false <-> exists x, In x l /\ p x = false.
Proof.
  induction l as [|y r IH]; cbn; [split; [discriminate|now intros (x & [] & _)]|].
  rewrite andb_false_iff, IH. split.
  - intros [H|(x & H1 & H2)]; eauto.
  - intros (x & [->|H1] & H2); eauto.
Qed.

Lemma existsb_false {A} (p : A -> bool) l :
  existsb p l = false <-> forall x, In x l -> p x = false.
Proof.
  induction l as [|y r IH]; cbn; [split; easy|]. rewrite orb_false_iff, IH. split.
  - intros [H1 H2] x [<-|H]; auto.
  - auto.
Qed.

Lemma may_be_empty_invert n : may_be_empty (invert n) = may_be_empty n.
Proof. now rewrite !may_be_empty_zlm, zlm_invert. Qed.

Section Exact.
  Variable cf : config.
  Variable base : list ascii.
  Local Notation L := (length base).

  (** ** Reading leftwards *)

  (** Offsets seen from the other end. *)
  Definition pos (left : bool) (i : nat) : nat := if left then L - i else i.

  Definition side (left : bool) : list ascii := if left then rev base else base.

  Lemma side_length left : length (side left) = L.
  Proof. destruct left; [apply rev_length|reflexivity]. Qed.

  Lemma pos_pos left i : i <= L -> pos left (pos left i) = i.
  Proof. destruct left; cbn; lia. Qed.

  Lemma pos_le left i : i <= L -> pos left i <= L.
  Proof. destruct left; cbn; lia. Qed.

  Lemma pos_eqb left i j : i <= L -> j <= L -> Nat.eqb (pos left i) (pos left j) = Nat.eqb i j.
  Proof.
    intros Hi Hj. destruct left; cbn; [|reflexivity].
    destruct (Nat.eqb_spec i j), (Nat.eqb_spec (L - i) (L - j)); lia.
  Qed.

  (** [walk] in the offsets of the reading direction. *)
  Definition seen (left : bool) (f : nat -> list nat) (i : nat) : list nat :=
    map (pos left) (f (pos left i)).
  Definition W (left back : bool) (n : node) : nat -> list nat :=
    seen left (walk cf base left back n).

  (** The direction of reading. *)
  Definition ahead_of (left : bool) (i j : nat) : Prop := if left then j <= i else i <= j <= L.
  Definition moves (left : bool) (f : nat -> list nat) : Prop :=
    forall i j, i <= L -> In j (f i) -> ahead_of left i j.

  Lemma ahead_refl left i : i <= L -> ahead_of left i i.
  Proof. destruct left; cbn; lia. Qed.
  Lemma ahead_trans left i j k : ahead_of left i j -> ahead_of left j k -> ahead_of left i k.
  Proof. destruct left; cbn; lia. Qed.
  Lemma ahead_le left i j : i <= L -> ahead_of left i j -> j <= L.
  Proof. destruct left; cbn; lia. Qed.

  Lemma moves_le left f i j : moves left f -> i <= L -> In j (f i) -> j <= L.
  Proof. intros H Hi Hj. eapply ahead_le; eauto. Qed.

  Lemma moves_single left : moves left (fun i => [i]).
  Proof. intros i j Hi [<-|[]]. now apply ahead_refl. Qed.

  Lemma moves_flat left f g : moves left f -> moves left g -> moves left (fun i => flat_map g (f i)).
  Proof.
    intros Hf Hg i j Hi Hj. apply in_flat_map in Hj as (k & Hk & Hj).
    apply (ahead_trans left i k); [now apply Hf|]. apply Hg; auto. apply (moves_le left f i k); auto.
  Qed.

  Lemma moves_times left f n : moves left f -> moves left (times f n).
  Proof.
    intros Hf. induction n as [|n IH]; cbn; [apply moves_single|]. now apply moves_flat.
  Qed.

  Lemma moves_app left f g : moves left f -> moves left g -> moves left (fun i => f i ++ g i).
  Proof. intros Hf Hg i j Hi Hj. apply in_app_or in Hj as [Hj|Hj]; auto. Qed.

  Lemma moves_more left f : moves left f -> forall fu b, moves left (more_first f fu b).
  Proof.
    intros Hf. induction fu as [|fu IH]; intros b i j Hi; cbn; [easy|]. destruct b as [n|].
    - destruct (N.eqb n 0); [now apply moves_single|].
      apply (moves_app left (fun i => flat_map (more_first f fu (Fin (n - 1))) (f i)) (fun i => [i]));
        auto using moves_single, moves_flat.
    - intros Hj. apply in_app_or in Hj as [Hj|Hj]; [|now apply (moves_single left)].
      apply in_flat_map in Hj as (k & Hk & Hj). destruct (Nat.eqb i k); [easy|].
      apply (ahead_trans left i k); [now apply Hf|]. eapply IH; eauto. apply (moves_le left f i k); auto.
  Qed.

  Lemma moves_fewer left f : moves left f -> forall fu b, moves left (fewer_first f fu b).
  Proof.
    intros Hf. induction fu as [|fu IH]; intros b i j Hi; cbn; [easy|]. destruct b as [n|].
    - destruct (N.eqb n 0); [now apply moves_single|]. intros [<-|Hj]; [now apply ahead_refl|].
      apply (moves_flat left f _ Hf (IH (Fin (n - 1)))); auto.
    - intros [<-|Hj]; [now apply ahead_refl|].
      apply in_flat_map in Hj as (k & Hk & Hj). destruct (Nat.eqb i k); [easy|].
      apply (ahead_trans left i k); [now apply Hf|]. eapply IH; eauto. apply (moves_le left f i k); auto.
  Qed.

  Lemma moves_commit left f : moves left f -> forall fu b i, i <= L -> ahead_of left i (commit f fu b i).
  Proof.
    intros Hf. induction fu as [|fu IH]; intros b i Hi; cbn; [now apply ahead_refl|].
    specialize (Hf i). destruct (f i) as [|j l].
    { destruct b; now apply ahead_refl. }
    assert (Hj : ahead_of left i j) by (apply Hf; cbn; auto).
    destruct b as [n|].
    - destruct (N.eqb n 0); [now apply ahead_refl|].
      eapply ahead_trans; [exact Hj|]. apply IH. eapply ahead_le; eauto.
    - destruct (Nat.eqb i j); [now apply ahead_refl|].
      eapply ahead_trans; [exact Hj|]. apply IH. eapply ahead_le; eauto.
  Qed.

  Lemma moves_if left (b : nat -> bool) : moves left (fun i => if b i then [i] else []).
  Proof. intros i j Hi. destruct (b i); [apply moves_single; auto|easy]. Qed.

  Lemma moves_read left p : moves left (read_char base left p).
  Proof.
    intros i j Hi. unfold read_char. destruct left.
    - destruct (char_before base p i) eqn:E; [|easy]. intros [<-|[]]. cbn. lia.
    - destruct (char_at base p i) eqn:E; [|easy]. apply char_at_lt in E.
      intros [<-|[]]. cbn. lia.
  Qed.

  (** The clause for concatenations. *)
  Lemma walk_Seq left back l i :
    walk cf base left back (Seq l) i
    = chain_paths (map (walk cf base left back) (if back then rev l else l)) i.
  Proof.
    cbn [walk]. destruct back.
    - revert i. induction l as [|x r IH]; intros i; [reflexivity|].
      cbn [rev]. rewrite map_app, chain_paths_app, <- IH. cbn [map chain_paths].
      apply flat_map_ext. intros a. now rewrite flat_map_single.
    - revert i. induction l as [|x r IH]; intros i; cbn; [reflexivity|]. now apply flat_map_ext.
  Qed.

  Lemma moves_chain left fs : Forall (moves left) fs -> moves left (chain_paths fs).
  Proof.
    induction 1 as [|f r Hf Hr IH]; cbn; [apply moves_single|]. now apply moves_flat.
  Qed.

  Theorem walk_moves n : forall left back, moves left (walk cf base left back n).
  Proof.
    induction n using node_ind'; intros left back.
    - apply moves_single.
    - destruct left; [apply (moves_if true (at_line_end cf base))|apply (moves_if false (at_line_start cf base))].
    - destruct left; [apply (moves_if true (fun i => Nat.eqb i L))|apply (moves_if false (fun i => Nat.eqb i 0))].
    - destruct left; [apply (moves_if true (at_line_start cf base))|apply (moves_if false (at_line_end cf base))].
    - destruct left; [apply (moves_if true (fun i => Nat.eqb i 0))|apply (moves_if false (fun i => Nat.eqb i L))].
    - apply (moves_if left (at_word_boundary base)).
    - apply moves_read.
    - apply moves_read.
    - apply moves_read.
    - apply moves_read.
    - cbn [walk]. destruct (is_class n); [apply moves_read|].
      intros i j Hi. destruct (walk cf base left back n i); [now apply moves_single|easy].
    - intros i j Hi. rewrite walk_Seq. apply moves_chain; auto. rewrite Forall_map.
      assert (HF : Forall (fun x => moves left (walk cf base left back x)) l)
        by (eapply Forall_impl; [|exact H]; cbn; auto).
      destruct back; [now apply Forall_rev|assumption].
    - intros i j Hi Hj. cbn [walk] in Hj. apply in_flat_map in Hj as (x & Hx & Hj).
      rewrite Forall_forall in H. eapply H; eauto.
    - apply IHn.
    - intros i j Hi. cbn [walk]. set (f := walk cf base left back n).
      assert (Hf : moves left f) by apply IHn.
      assert (Hg : forall g, moves left g -> In j (flat_map g (times f (N.to_nat lo) i)) -> ahead_of left i j).
      { intros g Hg. apply moves_flat with (f := times f (N.to_nat lo)); auto using moves_times. }
      destruct md.
      + destruct (ungreedy cf); apply Hg; auto using moves_more, moves_fewer.
      + destruct (ungreedy cf); apply Hg; auto using moves_more, moves_fewer.
      + intros Hj. apply in_map_iff in Hj as (k & <- & Hk). apply in_firstn in Hk.
        apply (moves_times left f) in Hk; auto.
        eapply ahead_trans; [exact Hk|]. apply moves_commit; auto. eapply ahead_le; eauto.
    - intros i j _ [].
    - intros i j _ [].
    - intros i j Hi. cbn [walk].
      destruct (if xorb back _ then _ else _); [easy|]. now apply moves_single.
  Qed.

  Lemma seen_bounded left f : moves left f -> bounded (side left) (seen left f).
  Proof.
    intros Hf i j Hi Hj. rewrite side_length in *. unfold seen in Hj.
    apply in_map_iff in Hj as (k & <- & Hk). apply Hf in Hk; [|now apply pos_le].
    destruct left; cbn in *; lia.
  Qed.

  Lemma W_bounded left back n : bounded (side left) (W left back n).
  Proof. apply seen_bounded, walk_moves. Qed.

  (** ** [seen] goes through the operations on paths *)

  Lemma seen_flat left f g i : moves left f -> i <= L ->
    seen left (fun i => flat_map g (f i)) i = flat_map (seen left g) (seen left f i).
  Proof.
    intros Hf Hi. unfold seen. rewrite map_flat_map, flat_map_map.
    apply flat_map_ext_in. intros j Hj. rewrite pos_pos; [reflexivity|].
    apply (moves_le left f (pos left i) j); auto. now apply pos_le.
  Qed.

  Lemma seen_times left f n : moves left f -> forall i, i <= L ->
    seen left (times f n) i = times (seen left f) n i.
  Proof.
    intros Hf. induction n as [|n IH]; intros i Hi; cbn [times].
    - unfold seen. cbn. now rewrite pos_pos.
    - rewrite (seen_flat left f (times f n)) by auto. apply flat_map_ext_in. intros j Hj.
      apply IH. apply (seen_bounded left f Hf) in Hj; rewrite side_length in *; lia.
  Qed.

  Lemma seen_chain left fs : Forall (moves left) fs -> forall i, i <= L ->
    seen left (chain_paths fs) i = chain_paths (map (seen left) fs) i.
  Proof.
    induction 1 as [|f r Hf Hr IH]; intros i Hi; cbn [map chain_paths].
    - unfold seen. cbn. now rewrite pos_pos.
    - rewrite (seen_flat left f (chain_paths r)) by auto. apply flat_map_ext_in. intros j Hj.
      apply IH. apply (seen_bounded left f Hf) in Hj; rewrite side_length in *; lia.
  Qed.

  Lemma seen_more left f : moves left f -> forall fu b i, i <= L ->
    seen left (more_first f fu b) i = more_first (seen left f) fu b i.
  Proof.
    intros Hf. induction fu as [|fu IH]; intros b i Hi; [reflexivity|].
    assert (Hin : forall j, In j (seen left f i) -> j <= L).
    { intros j Hj. apply (seen_bounded left f Hf) in Hj; rewrite side_length in *; lia. }
    cbn [more_first]. destruct b as [n|].
    - unfold seen at 1. cbn [more_first]. destruct (N.eqb n 0); [cbn; now rewrite pos_pos|].
      rewrite map_app. cbn [map]. rewrite pos_pos by assumption. f_equal.
      change (seen left (fun i => flat_map (more_first f fu (Fin (n - 1))) (f i)) i
              = flat_map (more_first (seen left f) fu (Fin (n - 1))) (seen left f i)).
      rewrite seen_flat by auto. apply flat_map_ext_in. intros j Hj. apply IH. auto.
    - unfold seen at 1. cbn [more_first]. rewrite map_app. cbn [map]. rewrite pos_pos by assumption.
      f_equal. unfold seen at 2. rewrite map_flat_map, flat_map_map. apply flat_map_ext_in.
      intros j Hj. assert (Hj' : j <= L) by (apply (moves_le left f (pos left i) j); auto; now apply pos_le).
      rewrite <- (pos_eqb left i) by auto using pos_le. rewrite pos_pos by assumption.
      destruct (Nat.eqb (pos left i) j); [reflexivity|].
      rewrite <- IH by auto using pos_le. unfold seen. now rewrite pos_pos.
  Qed.

  Lemma seen_fewer left f : moves left f -> forall fu b i, i <= L ->
    seen left (fewer_first f fu b) i = fewer_first (seen left f) fu b i.
  Proof.
    intros Hf. induction fu as [|fu IH]; intros b i Hi; [reflexivity|].
    assert (Hin : forall j, In j (seen left f i) -> j <= L).
    { intros j Hj. apply (seen_bounded left f Hf) in Hj; rewrite side_length in *; lia. }
    cbn [fewer_first]. destruct b as [n|].
    - unfold seen at 1. cbn [fewer_first]. destruct (N.eqb n 0); [cbn; now rewrite pos_pos|].
      cbn [map]. rewrite pos_pos by assumption. f_equal.
      change (seen left (fun i => flat_map (fewer_first f fu (Fin (n - 1))) (f i)) i
              = flat_map (fewer_first (seen left f) fu (Fin (n - 1))) (seen left f i)).
      rewrite seen_flat by auto. apply flat_map_ext_in. intros j Hj. apply IH. auto.
    - unfold seen at 1. cbn [fewer_first map]. rewrite pos_pos by assumption.
      f_equal. unfold seen at 2. rewrite map_flat_map, flat_map_map. apply flat_map_ext_in.
      intros j Hj. assert (Hj' : j <= L) by (apply (moves_le left f (pos left i) j); auto; now apply pos_le).
      rewrite <- (pos_eqb left i) by auto using pos_le. rewrite pos_pos by assumption.
      destruct (Nat.eqb (pos left i) j); [reflexivity|].
      rewrite <- IH by auto using pos_le. unfold seen. now rewrite pos_pos.
  Qed.

  Lemma seen_commit left f : moves left f -> forall fu b i, i <= L ->
    pos left (commit f fu b (pos left i)) = commit (seen left f) fu b i.
  Proof.
    intros Hf. induction fu as [|fu IH]; intros b i Hi; cbn [commit]; [now rewrite pos_pos|].
    change (seen left f i) with (map (pos left) (f (pos left i))).
    pose proof (Hf (pos left i)) as Hm.
    destruct (f (pos left i)) as [|j l]; cbn [map].
    { destruct b; cbn [map]; now rewrite pos_pos. }
    assert (Hj : j <= L).
    { eapply (ahead_le left (pos left i)); [now apply pos_le|].
      apply Hm; [now apply pos_le|cbn; auto]. }
    destruct b as [n|].
    - destruct (N.eqb n 0); [now rewrite pos_pos|].
      rewrite <- IH by auto using pos_le. now rewrite pos_pos.
    - rewrite <- (pos_eqb left i) by auto using pos_le. rewrite pos_pos by assumption.
      destruct (Nat.eqb (pos left i) j); [now rewrite pos_pos|].
      rewrite <- IH by auto using pos_le. now rewrite pos_pos.
  Qed.

  (** ** The clauses of [W] *)

  Lemma W_Seq left back l i : i <= L ->
    W left back (Seq l) i = chain_paths (map (W left back) (if back then rev l else l)) i.
  Proof.
    intros Hi. unfold W at 1.
    transitivity (seen left (chain_paths (map (walk cf base left back) (if back then rev l else l))) i).
    { unfold seen. now rewrite walk_Seq. }
    rewrite seen_chain; auto.
    - rewrite map_map. reflexivity.
    - rewrite Forall_map. apply Forall_forall. intros x _. apply walk_moves.
  Qed.

  Lemma W_Alt left back l i : W left back (Alt l) i = flat_map (fun x => W left back x i) l.
  Proof. unfold W, seen. cbn [walk]. apply map_flat_map. Qed.

  Lemma W_Cap left back id nm x i : W left back (Cap id nm x) i = W left back x i.
  Proof. reflexivity. Qed.

  Definition loop_walk (left back : bool) (md : match_mode) (b : quantifier) (x : node) (i : nat)
    : list nat :=
    match md with
    | Possessive => [commit (W left back x) (any_fuel base b) b i]
    | _ => loop_paths cf (side left) (W left back) md b x i
    end.

  Lemma any_fuel_ok b s i : length s = L -> fuel_ok s (any_fuel base b) b i.
  Proof. intros H. unfold fuel_ok, any_fuel. rewrite H. destruct b; lia. Qed.

  Lemma W_Rep left back md lo hi x i : i <= L ->
    W left back (Rep md lo hi x) i
    = rep_paths md lo (loop_walk left back md (remaining hi lo) x) (W left back x) i.
  Proof.
    intros Hi. unfold rep_paths. set (b := remaining hi lo).
    set (f := walk cf base left back x). assert (Hf : moves left f) by apply walk_moves.
    assert (Hfw : bounded (side left) (seen left f)) by now apply seen_bounded.
    assert (Ht : forall n j, In j (times (W left back x) n i) -> j <= L).
    { intros n j Hj. apply (times_bounded _ _ n Hfw) in Hj; rewrite side_length in *; lia. }
    assert (Hmore : seen left (fun i => flat_map (more_first f (any_fuel base b) b)
                                          (times f (N.to_nat lo) i)) i
                    = flat_map (greedy_paths (side left) (W left back x) b)
                        (times (W left back x) (N.to_nat lo) i)).
    { rewrite (seen_flat left (times f (N.to_nat lo))) by auto using moves_times. rewrite seen_times by auto.
      apply flat_map_ext_in. intros j Hj. apply Ht in Hj. rewrite seen_more by auto.
      unfold greedy_paths. apply (more_first_fuel (side left)); auto using any_fuel_ok, side_length, bound_fuel_ok.
      now rewrite side_length. }
    assert (Hfewer : seen left (fun i => flat_map (fewer_first f (any_fuel base b) b)
                                          (times f (N.to_nat lo) i)) i
                    = flat_map (lazy_paths (side left) (W left back x) b)
                        (times (W left back x) (N.to_nat lo) i)).
    { rewrite (seen_flat left (times f (N.to_nat lo))) by auto using moves_times. rewrite seen_times by auto.
      apply flat_map_ext_in. intros j Hj. apply Ht in Hj. rewrite seen_fewer by auto.
      unfold lazy_paths. apply (fewer_first_fuel (side left)); auto using any_fuel_ok, side_length, bound_fuel_ok.
      now rewrite side_length. }
    unfold loop_walk, loop_paths. destruct md.
    - destruct (ungreedy cf) eqn:U; rewrite <- ?Hmore, <- ?Hfewer; unfold W, seen;
        cbn [walk]; now rewrite U.
    - destruct (ungreedy cf) eqn:U; rewrite <- ?Hmore, <- ?Hfewer; unfold W, seen;
        cbn [walk]; now rewrite U.
    - assert (Et : times (W left back x) (N.to_nat lo) i = seen left (times f (N.to_nat lo)) i)
        by (rewrite seen_times by auto; reflexivity).
      rewrite Et.
      change (map (pos left) (map (commit f (any_fuel base b) b)
                (firstn 1 (times f (N.to_nat lo) (pos left i))))
              = flat_map (fun i => [commit (W left back x) (any_fuel base b) b i])
                  (firstn 1 (map (pos left) (times f (N.to_nat lo) (pos left i))))).
      pose proof (moves_times left f (N.to_nat lo) Hf (pos left i)) as Hm.
      destruct (times f (N.to_nat lo) (pos left i)) as [|j l]; [reflexivity|].
      cbn [firstn map flat_map app]. f_equal.
      assert (Hj : j <= L).
      { eapply (ahead_le left (pos left i)); [now apply pos_le|].
        apply Hm; [now apply pos_le|cbn; auto]. }
      unfold W. fold f. rewrite <- (pos_pos left j Hj) at 1. apply seen_commit; auto using pos_le.
  Qed.

  Lemma loop_walk_0 left back md x j : loop_walk left back md (Fin 0) x j = [j].
  Proof.
    unfold loop_walk. destruct md; try apply loop_paths_0. cbn.
    destruct (W left back x j); reflexivity.
  Qed.

  (** Zero-width tests. *)
  Lemma seen_if left (b : bool) i : i <= L ->
    map (pos left) (if b then [pos left i] else []) = if b then [i] else [].
  Proof. intros Hi. destruct b; cbn; [now rewrite pos_pos|reflexivity]. Qed.

  Lemma seen_read left p i : seen left (read_char base left p) i
    = if char_at (side left) p i then [S i] else [].
  Proof.
    unfold seen, read_char, pos, side. destruct left.
    - destruct (Nat.le_gt_cases L i) as [H|H].
      + replace (L - i) with 0 by lia. cbn. now rewrite char_at_out by (rewrite rev_length; lia).
      + rewrite char_before_mirror by lia. replace (L - (L - i)) with i by lia.
        destruct (char_at (rev base) p i); [|reflexivity]. cbn. f_equal. lia.
    - now destruct (char_at base p i).
  Qed.

  Lemma W_class left back n : is_class n = true -> forall i j,
    In j (W left back n i) <-> j = S i /\ char_at (side left) (accepts cf n) i = true.
  Proof.
    assert (H1 : forall p (i j : nat), In j (seen left (read_char base left p) i)
                   <-> j = S i /\ char_at (side left) p i = true).
    { intros p i j. rewrite seen_read. destruct (char_at (side left) p i); cbn; intuition congruence. }
    induction n using node_ind'; intros Hc i j; try discriminate;
      try (unfold W; cbn [walk]; apply H1).
    - cbn in Hc. unfold W. cbn [walk]. rewrite Hc. apply H1.
    - cbn in Hc. destruct l as [|x [|y r]]; try discriminate.
      inversion H as [|? ? Hx _]; subst. cbn [accepts]. rewrite <- (Hx Hc).
      unfold W, seen. rewrite walk_Seq. replace (if back then rev [x] else [x]) with [x] by now destruct back.
      cbn [map chain_paths]. now rewrite flat_map_single.
    - rewrite W_Alt. cbn in Hc. destruct l as [|x r]; try discriminate.
      assert (Hall : forall y, In y (x :: r) -> is_class y = true).
      { apply andb_true_iff in Hc as [Hx Hr]. rewrite forallb_forall in Hr.
        intros y [->|Hy]; auto. }
      rewrite Forall_forall in H. rewrite in_flat_map. cbn [accepts].
      unfold char_at in *. destruct (nth_error (side left) i) eqn:E.
      + rewrite existsb_exists. split.
        * intros (y & Hy & Hm). apply H in Hm as [-> Ha]; auto. rewrite E in Ha. eauto.
        * intros [-> (y & Hy & Ha)]. exists y. split; auto. apply H; auto. now rewrite E.
      + split; [|now intros []].
        intros (y & Hy & Hm). apply H in Hm as [-> Ha]; auto. now rewrite E in Ha.
    - cbn in Hc. destruct hi as [h|]; try discriminate.
      apply andb_true_iff in Hc as [Hc Hn]. apply andb_true_iff in Hc as [E1 E2].
      apply N.eqb_eq in E1, E2. subst. cbn [accepts]. rewrite <- (IHn Hn).
      unfold W, seen. cbn [walk]. change (N.to_nat 1) with 1. cbn [remaining].
      change (1 - 1)%N with 0%N. cbn [any_fuel N.to_nat].
      set (t := times (walk cf base left back n) 1 (pos left i)).
      assert (Et : t = walk cf base left back n (pos left i)) by (unfold t; cbn; apply flat_map_single).
      assert (Em : flat_map (more_first (walk cf base left back n) 1 (Fin 0)) t = t)
        by (cbn; apply flat_map_single).
      assert (Ef : flat_map (fewer_first (walk cf base left back n) 1 (Fin 0)) t = t)
        by (cbn; apply flat_map_single).
      rewrite Em, Ef, Et.
      destruct md; try (now destruct (ungreedy cf)).
      assert (Hone : forall j, In j (map (pos left) (walk cf base left back n (pos left i))) -> j = S i).
      { intros j' Hj'. now apply (IHn Hn i j') in Hj'. }
      destruct (walk cf base left back n (pos left i)) as [|a l] eqn:Ew; [reflexivity|].
      cbn [firstn map commit]. rewrite Ew || idtac.
      assert (Ec : commit (walk cf base left back n) 1 (Fin 0) a = a).
      { cbn. destruct (walk cf base left back n a); reflexivity. }
      change (In j [pos left (commit (walk cf base left back n) 1 (Fin 0) a)]
              <-> In j (map (pos left) (a :: l))).
      rewrite Ec. split.
      + intros [<-|[]]. cbn. auto.
      + intros Hj. apply Hone in Hj. subst j. left. apply Hone. cbn. auto.
  Qed.

  Theorem W_consuming left back n : may_be_empty n = false -> consuming (side left) (W left back n).
  Proof.
    assert (H2 : forall p i j, In j (seen left (read_char base left p) i) -> i < j).
    { intros p i j. rewrite seen_read. destruct (char_at (side left) p i); [|easy].
      intros [<-|[]]. lia. }
    induction n using node_ind'; intros He; try discriminate; intros i j Hi;
      pose proof Hi as HiL; rewrite side_length in HiL;
      try (unfold W; cbn [walk]; solve [eauto | intros []]).
    - cbn [may_be_empty] in He. unfold W. cbn [walk]. destruct (is_class n); [eauto|discriminate].
    - rewrite W_Seq by assumption. apply (chain_paths_consuming (side left)); auto.
      + rewrite Forall_map. apply Forall_forall. intros x _. apply W_bounded.
      + cbn [may_be_empty] in He.
        assert (Hx : exists x, In x l /\ may_be_empty x = false).
        { clear - He. induction l as [|x r IH]; [discriminate|]. cbn in He.
          destruct (may_be_empty x) eqn:E.
          - destruct (IH He) as (y & ? & ?). exists y. cbn. auto.
          - exists x. cbn. auto. }
        destruct Hx as (x & Hx & Hex). rewrite Exists_exists. exists (W left back x).
        rewrite Forall_forall in H. split; [|now apply H].
        apply in_map. destruct back; [now apply -> in_rev|assumption].
    - rewrite W_Alt, in_flat_map. intros (x & Hx & Hj).
      rewrite Forall_forall in H. apply (H x Hx); auto.
      cbn in He. destruct (may_be_empty x) eqn:E; [|reflexivity].
      rewrite <- He. symmetry. apply existsb_exists. eauto.
    - rewrite W_Cap. now apply IHn.
    - cbn [may_be_empty] in He. apply orb_false_iff in He as [Hlo He].
      apply N.eqb_neq in Hlo. specialize (IHn He).
      pose proof (W_bounded left back n) as Hb.
      rewrite W_Rep by assumption.
      assert (Hlb : bounded (side left) (loop_walk left back md (remaining hi lo) n)).
      { unfold loop_walk, loop_paths. intros i' j' Hi' Hj'. destruct md.
        - destruct (ungreedy cf); revert Hj'; [apply lazy_bounded|apply greedy_bounded]; auto.
        - destruct (ungreedy cf); revert Hj'; [apply greedy_bounded|apply lazy_bounded]; auto.
        - destruct Hj' as [<-|[]]. rewrite side_length in *.
          pose proof (walk_moves n left back) as Hm.
          unfold W. rewrite <- (seen_commit left _ Hm _ _ i' Hi').
          pose proof (moves_commit left _ Hm (any_fuel base (remaining hi lo)) (remaining hi lo)
                        (pos left i') (pos_le left i' Hi')).
          destruct left; cbn in *; lia. }
      assert (Hg : forall l, (forall k, In k l -> In k (times (W left back n) (N.to_nat lo) i)) ->
        In j (flat_map (loop_walk left back md (remaining hi lo) n) l) -> i < j).
      { intros l Hl Hj. apply in_flat_map in Hj as (k & Hk & Hj). apply Hl in Hk.
        pose proof (times_consuming _ _ (N.to_nat lo) Hb IHn ltac:(lia) _ _ Hi Hk).
        pose proof (times_bounded _ _ (N.to_nat lo) Hb _ _ Hi Hk).
        apply Hlb in Hj; lia. }
      unfold rep_paths. destruct md; apply Hg; auto. intros k Hk. eapply in_firstn; eauto.
  Qed.
End Exact.

(** ** The matcher *)

(** [wocc rd v n r v' id y]: running [n] at reverse-iterator layer [rd], where it
    is inverted iff [v], runs the body [y] of a group [id] at layer [r], inverted
    iff [v']. *)
Inductive wocc : nat -> bool -> node -> nat -> bool -> N -> node -> Prop :=
| wocc_here rd v id nm x : wocc rd v (Cap id nm x) rd v id x
| wocc_cap rd v id nm x r v' i y : wocc rd v x r v' i y -> wocc rd v (Cap id nm x) r v' i y
| wocc_seq rd v l x r v' i y : In x l -> wocc rd v x r v' i y -> wocc rd v (Seq l) r v' i y
| wocc_alt rd v l x r v' i y : In x l -> wocc rd v x r v' i y -> wocc rd v (Alt l) r v' i y
| wocc_rep rd v md lo hi x r v' i y :
    hi <> Fin 0 -> wocc rd v x r v' i y -> wocc rd v (Rep md lo hi x) r v' i y
| wocc_neg rd v x r v' i y : wocc rd v x r v' i y -> wocc rd v (Neg x) r v' i y
| wocc_ahead rd v x r v' i y : wocc rd false x r v' i y -> wocc rd v (Look Ahead x) r v' i y
| wocc_behind rd v x r v' i y :
    wocc (S rd) true (invert x) r v' i y -> wocc rd v (Look Behind x) r v' i y.

(** [bocc rd v n r v' b]: running [n] at layer [rd], inverted iff [v], runs the
    backreference [b] at layer [r], inverted iff [v']. *)
Inductive bocc : nat -> bool -> node -> nat -> bool -> node -> Prop :=
| bocc_id rd v id : bocc rd v (Backref id) rd v (Backref id)
| bocc_name rd v nm : bocc rd v (NBackref nm) rd v (NBackref nm)
| bocc_cap rd v id nm x r v' b : bocc rd v x r v' b -> bocc rd v (Cap id nm x) r v' b
| bocc_seq rd v l x r v' b : In x l -> bocc rd v x r v' b -> bocc rd v (Seq l) r v' b
| bocc_alt rd v l x r v' b : In x l -> bocc rd v x r v' b -> bocc rd v (Alt l) r v' b
| bocc_rep rd v md lo hi x r v' b :
    hi <> Fin 0 -> bocc rd v x r v' b -> bocc rd v (Rep md lo hi x) r v' b
| bocc_neg rd v x r v' b : bocc rd v x r v' b -> bocc rd v (Neg x) r v' b
| bocc_ahead rd v x r v' b : bocc rd false x r v' b -> bocc rd v (Look Ahead x) r v' b
| bocc_behind rd v x r v' b :
    bocc (S rd) true (invert x) r v' b -> bocc rd v (Look Behind x) r v' b.

Lemma backref_free_invert n : backref_free (invert n) = backref_free n.
Proof.
  induction n using node_ind'; cbn [invert backref_free]; auto.
  - rewrite reverse_pack_rev, forallb_rev, forallb_map. now apply forallb_ext_Forall.
  - rewrite forallb_map. now apply forallb_ext_Forall.
Qed.

Lemma backref_free_bocc rd v n r v' b : bocc rd v n r v' b -> backref_free n = false.
Proof.
  induction 1; cbn [backref_free]; auto.
  - apply forallb_false. eauto.
  - apply forallb_false. eauto.
  - now rewrite backref_free_invert in IHbocc.
Qed.

(** The group a backreference refers to. *)
Definition refers (names : list group_name) (b : node) (i : nat) : Prop :=
  match b with
  | Backref id => i = N.to_nat id
  | NBackref nm => unique_position (Some nm) names = Some i
  | _ => False
  end.

Section Fill.
  Variable cf : config.
  Variable said : node -> list ascii.

  Lemma fill_free n : backref_free n = true -> fill said n = n.
  Proof.
    induction n using node_ind'; cbn [backref_free fill]; intros Hb; try reflexivity; try discriminate;
      try (rewrite IHn by assumption; reflexivity).
    - f_equal. rewrite <- (map_id l) at 2. rewrite forallb_forall in Hb. rewrite Forall_forall in H.
      apply map_ext_in. auto.
    - f_equal. rewrite <- (map_id l) at 2. rewrite forallb_forall in Hb. rewrite Forall_forall in H.
      apply map_ext_in. auto.
  Qed.

  Lemma text_node_class t : is_class (text_node t) = false.
  Proof. unfold text_node. destruct t as [|a [|b t]]; reflexivity. Qed.

  Lemma fill_class n : is_class (fill said n) = is_class n.
  Proof.
    induction n using node_ind'; try reflexivity; try apply text_node_class.
    - exact IHn.
    - destruct l as [|x [|y r]]; try reflexivity. inversion H; subst. cbn. assumption.
    - destruct l as [|x r]; [reflexivity|]. inversion H; subst. cbn [fill map is_class]. f_equal; auto.
      rewrite forallb_map. now apply forallb_ext_Forall.
    - destruct hi; [|reflexivity]. cbn. now rewrite IHn.
  Qed.

  Lemma fill_of_class n : is_class n = true -> fill said n = n.
  Proof.
    induction n using node_ind'; cbn [fill]; intros Hc; try reflexivity; try discriminate.
    - cbn in Hc. now rewrite IHn.
    - destruct l as [|x [|y r]]; try discriminate. inversion H; subst. cbn in Hc |- *. now rewrite H2.
    - f_equal. rewrite <- (map_id l) at 2. cbn [is_class] in Hc. destruct l as [|x r]; [discriminate|].
      apply andb_true_iff in Hc as [Hx Hr]. rewrite forallb_forall in Hr. rewrite Forall_forall in H.
      apply map_ext_in. intros y [<-|Hy]; apply H; cbn; auto.
    - cbn in Hc. destruct hi; [|discriminate]. apply andb_true_iff in Hc as [_ Hc]. now rewrite IHn.
  Qed.

  Lemma fill_empty n : may_be_empty n = false -> may_be_empty (fill said n) = false.
  Proof.
    induction n using node_ind'; cbn [fill may_be_empty]; intros He; try reflexivity; try discriminate; auto.
    - now rewrite fill_class.
    - apply forallb_false in He as (x & Hx & He). apply forallb_false.
      exists (fill said x). split; [now apply in_map|]. rewrite Forall_forall in H. auto.
    - apply existsb_false. intros y Hy. apply in_map_iff in Hy as (x & <- & Hx).
      rewrite Forall_forall in H. apply H; auto. eapply existsb_false; eauto.
    - apply orb_false_iff in He as [H1 H2]. now rewrite H1, IHn.
  Qed.
End Fill.

Section Matcher.
  Variable cf : config.
  Variable names : list group_name.
  Variable base : list ascii.
  Local Notation L := (length base).

  (** The texts of the backreferences. *)
  Variable said : node -> list ascii.

  Variable Inv : caps -> Prop.
  Variable Cl : N -> Prop.
  Variable Q : nat -> N -> nat -> nat -> Prop.
  Hypothesis Inv_length : forall id c, Cl id -> Inv c -> length c = length names.
  Hypothesis Inv_clear : forall id c c', Cl id -> Inv c -> clear_cell (N.to_nat id) c = Some c' -> Inv c'.
  Hypothesis Inv_store : forall r id nm b e c c',
    Inv c -> b <= e -> e <= L -> Q r id b e -> store names base r id nm b e c = Some c' ->
    Inv c'.

  (** The ends of the runs of the tree [t], inverted iff [v], at layer [rd]. *)
  Definition ends (rd : nat) (v : bool) (t : node) : nat -> list nat :=
    W cf base (Nat.odd rd) v (fill said (if v then invert t else t)).

  Lemma side_view rd : side base (Nat.odd rd) = view base rd.
  Proof. unfold side, view. rewrite <- Nat.negb_even. now destruct (Nat.even rd). Qed.

  Lemma ends_class rd v x : is_class x = true -> forall i j,
    In j (ends rd v x i) <-> j = S i /\ char_at (view base rd) (accepts cf x) i = true.
  Proof.
    intros Hx i j. rewrite <- side_view. unfold ends.
    assert (Hc : is_class (if v then invert x else x) = true)
      by (destruct v; [now rewrite is_class_invert|assumption]).
    rewrite fill_of_class, W_class by assumption.
    destruct v; [|reflexivity]. unfold char_at.
    destruct (nth_error _ i); [now rewrite accepts_invert|reflexivity].
  Qed.

  Lemma ends_bounded rd v x : bounded (view base rd) (ends rd v x).
  Proof. rewrite <- side_view. apply W_bounded. Qed.

  Lemma ends_consuming rd v x : may_be_empty x = false -> consuming (view base rd) (ends rd v x).
  Proof.
    intros H. rewrite <- side_view. apply W_consuming, fill_empty.
    destruct v; [now rewrite may_be_empty_invert|assumption].
  Qed.

  Lemma ends_Alt rd v l i : ends rd v (Alt l) i = flat_map (fun x => ends rd v x i) l.
  Proof.
    unfold ends. destruct v; cbn [invert fill]; rewrite W_Alt, !flat_map_map; reflexivity.
  Qed.

  Lemma ends_Seq rd v l i : i <= L -> ends rd v (Seq l) i = chain_paths (map (ends rd v) l) i.
  Proof.
    intros Hi. unfold ends. destruct v.
    - rewrite invert_Seq. cbn [fill]. rewrite W_Seq by assumption.
      rewrite <- map_rev, rev_involutive, !map_map. reflexivity.
    - cbn [fill]. rewrite W_Seq, map_map by assumption. reflexivity.
  Qed.

  Lemma ends_Rep rd v md lo hi x i : i <= L ->
    ends rd v (Rep md lo hi x) i
    = rep_paths md lo (loop_walk cf base (Nat.odd rd) v md (remaining hi lo) (fill said (if v then invert x else x)))
        (ends rd v x) i.
  Proof. intros Hi. unfold ends. destruct v; cbn [invert fill]; now rewrite W_Rep by assumption. Qed.

  (** Possessive loops, with the check for empty iterations. *)
  Lemma adq_possessive_commit s f x mx w : length s = L -> bounded s f ->
    (may_be_empty x = false -> consuming s f) -> adq_matcher base Inv mx f ->
    forall fuel fu b Y (P : caps -> nat -> Y -> Prop) cur c k kp,
    w_ok x w b -> enough base fuel b cur -> fuel_ok s fu b cur -> cur <= L -> Inv c ->
    (forall c', Inv c' -> adq Inv P (k (commit f fu b cur) c') (kp (commit f fu b cur))) ->
    adq Inv P (possessive_generic fuel mx w b cur c k) (kp (commit f fu b cur)).
  Proof.
    intros Hs Hb Hcons Hmx. induction fuel as [|fuel IH]; intros fu b Y P cur c k kp Hw He Hf Hc Hi Hk.
    { unfold enough in He. destruct b; lia. }
    destruct fu as [|fu]. { unfold fuel_ok in Hf. destruct b; lia. }
    cbn [possessive_generic]. destruct (bound_is_zero b) eqn:Hz.
    { apply bound_is_zero_spec in Hz. subst b.
      assert (E : commit f (S fu) (Fin 0) cur = cur) by (cbn; now destruct (f cur)).
      rewrite E in *. auto. }
    assert (Hrun := adq_run base Inv mx f cur c Hmx Hc Hi).
    destruct (mx cur c success) as [c' e [|]| | |]; try contradiction; cbn in Hrun |- *;
      destruct Hrun as [Hi' Hr].
    - cbn [commit] in Hk. destruct (f cur) as [|j l] eqn:Ef; [discriminate|]. cbn in Hr. injection Hr as <-.
      assert (Hj : In e (f cur)) by (rewrite Ef; cbn; auto).
      pose proof (Hb cur e ltac:(lia) Hj) as Hjb. rewrite Hs in Hjb.
      destruct b as [n|].
      + assert (w = false) by (apply Hw; discriminate). subst w. cbn [andb].
        cbn in Hz. rewrite Hz in *. apply IH; auto; try lia.
        * unfold w_ok. split; [reflexivity|discriminate].
        * unfold enough in *. cbn. apply N.eqb_neq in Hz. lia.
        * unfold fuel_ok in *. apply N.eqb_neq in Hz. lia.
      + destruct (Nat.eqb_spec cur e) as [Ee|Hne].
        * destruct w; cbn [andb]; [auto|]. exfalso.
          assert (consuming s f) as Hcs by (apply Hcons, Hw; reflexivity).
          apply Hcs in Hj; lia.
        * rewrite andb_false_r. apply IH; auto; try lia.
          -- unfold enough in *. cbn. lia.
          -- unfold fuel_ok in *. lia.
    - cbn [commit] in Hk. destruct (f cur) as [|j l] eqn:Ef; [|discriminate].
      destruct b; auto.
  Qed.

  Lemma adq_between_walk rd v md b w x mx : adq_matcher base Inv mx (ends rd v x) ->
    w_ok x w b ->
    adq_matcher base Inv (between_bounds cf (view base rd) md b w x mx)
      (loop_walk cf base (Nat.odd rd) v md b (fill said (if v then invert x else x))).
  Proof.
    intros Hmx Hw. pose proof (view_length base rd) as Hs.
    assert (Hcommit : adq_matcher base Inv (between_bounds cf (view base rd) Possessive b w x mx)
              (fun i => [commit (ends rd v x) (any_fuel base b) b i])).
    { intros Y P cur c k kp Hc Hi Hk. rewrite first_some_single. unfold between_bounds.
      pose proof (enough_loop_fuel base (view base rd) Hs b cur) as He.
      pose proof (any_fuel_ok base b (view base rd) cur Hs) as Hf.
      assert (Hcl : forall mx' w', adq_matcher base Inv mx' (ends rd v x) -> w_ok x w' b ->
        adq Inv P (possessive_generic (loop_fuel b (length (view base rd)) cur) mx' w' b cur c k)
          (kp (commit (ends rd v x) (any_fuel base b) b cur))).
      { intros mx' w' Hm' Hw'. apply (adq_possessive_commit (view base rd) (ends rd v x) x mx' w' Hs);
          auto using ends_bounded, ends_consuming. intros c' Hi'. apply Hk; cbn; auto. }
      destruct (trivial x) eqn:T; [|now apply Hcl].
      rewrite possessive_trivial_generic. rewrite trivial_is_class in T. apply Hcl.
      - apply adq_class; auto using ends_class.
      - split; [auto|]. intros _ _. now apply class_not_empty. }
    assert (Hother : md <> Possessive ->
      adq_matcher base Inv (between_bounds cf (view base rd) md b w x mx)
        (loop_paths cf (view base rd) (ends rd v) md b x)).
    { intros Hmd. apply adq_between; auto using ends_class, ends_bounded, ends_consuming. easy. }
    rewrite <- side_view in *. destruct md; cbn [loop_walk]; auto.
    - apply Hother. discriminate.
    - apply Hother. discriminate.
  Qed.

  Definition groups_ok_walk (rd : nat) (v : bool) (n : node) : Prop :=
    forall r v' id y, wocc rd v n r v' id y -> Cl id /\ forall b e, b <= L ->
      In e (ends r v' y b) -> Q r id b e.

  Lemma ends_test rd v n (b : nat -> bool) :
    (forall i, i <= L -> walk cf base (Nat.odd rd) v (fill said (if v then invert n else n)) (pos base (Nat.odd rd) i)
               = if b i then [pos base (Nat.odd rd) i] else []) ->
    forall i, i <= L -> ends rd v n i = if b i then [i] else [].
  Proof.
    intros H i Hi. unfold ends, W, seen. rewrite H by assumption. now apply seen_if.
  Qed.

  Lemma at_line_end_mirror s i : i <= length s ->
    at_line_end cf s (length s - i) = at_line_start cf (rev s) i.
  Proof.
    intros Hi. unfold at_line_end, at_line_start. f_equal.
    - destruct (Nat.eqb_spec (length s - i) (length s)), (Nat.eqb_spec i 0); lia.
    - f_equal. rewrite <- (char_before_mirror' s is_newline (length s - i)) by lia.
      f_equal. lia.
  Qed.

  Lemma at_line_start_mirror s i : i <= length s ->
    at_line_start cf s (length s - i) = at_line_end cf (rev s) i.
  Proof.
    intros Hi. unfold at_line_end, at_line_start. rewrite rev_length. f_equal.
    - destruct (Nat.eqb_spec (length s - i) 0), (Nat.eqb_spec i (length s)); lia.
    - f_equal. rewrite (char_before_mirror s is_newline (length s - i)) by lia.
      f_equal. lia.
  Qed.

  Lemma at_word_boundary_mirror s i : i <= length s ->
    at_word_boundary s (length s - i) = at_word_boundary (rev s) i.
  Proof.
    intros Hi. unfold at_word_boundary. rewrite xorb_comm. f_equal.
    - rewrite <- (char_before_mirror' s is_word_char (length s - i)) by lia. f_equal. lia.
    - rewrite (char_before_mirror s is_word_char (length s - i)) by lia. f_equal. lia.
  Qed.

  Lemma ends_BeginLine rd v i : i <= L ->
    ends rd v BeginLine i = if at_line_start cf (view base rd) i then [i] else [].
  Proof.
    apply (ends_test rd v BeginLine (at_line_start cf (view base rd))). clear i. intros i Hi.
    rewrite <- side_view. replace (fill said (if v then invert BeginLine else BeginLine)) with BeginLine by now destruct v.
    cbn [walk]. destruct (Nat.odd rd); cbn [pos side]; [|reflexivity].
    now rewrite at_line_end_mirror.
  Qed.

  Lemma ends_EndLine rd v i : i <= L ->
    ends rd v EndLine i = if at_line_end cf (view base rd) i then [i] else [].
  Proof.
    apply (ends_test rd v EndLine (at_line_end cf (view base rd))). clear i. intros i Hi.
    rewrite <- side_view. replace (fill said (if v then invert EndLine else EndLine)) with EndLine by now destruct v.
    cbn [walk]. destruct (Nat.odd rd); cbn [pos side]; [|reflexivity].
    now rewrite at_line_start_mirror.
  Qed.

  Lemma ends_WordB rd v i : i <= L ->
    ends rd v WordB i = if at_word_boundary (view base rd) i then [i] else [].
  Proof.
    apply (ends_test rd v WordB (at_word_boundary (view base rd))). clear i. intros i Hi.
    rewrite <- side_view. replace (fill said (if v then invert WordB else WordB)) with WordB by now destruct v.
    cbn [walk]. destruct (Nat.odd rd); cbn [pos side]; [|reflexivity].
    now rewrite at_word_boundary_mirror.
  Qed.

  Lemma ends_BeginInput rd v i : i <= L ->
    ends rd v BeginInput i = if Nat.eqb i 0 then [i] else [].
  Proof.
    apply (ends_test rd v BeginInput (fun i => Nat.eqb i 0)). clear i. intros i Hi.
    replace (fill said (if v then invert BeginInput else BeginInput)) with BeginInput by now destruct v.
    cbn [walk]. destruct (Nat.odd rd); cbn [pos]; [|reflexivity].
    destruct (Nat.eqb_spec (L - i) L), (Nat.eqb_spec i 0); auto; lia.
  Qed.

  Lemma ends_EndInput rd v i : i <= L ->
    ends rd v EndInput i = if Nat.eqb i L then [i] else [].
  Proof.
    apply (ends_test rd v EndInput (fun i => Nat.eqb i L)). clear i. intros i Hi.
    replace (fill said (if v then invert EndInput else EndInput)) with EndInput by now destruct v.
    cbn [walk]. destruct (Nat.odd rd); cbn [pos]; [|reflexivity].
    destruct (Nat.eqb_spec (L - i) 0), (Nat.eqb_spec i L); auto; lia.
  Qed.

  Lemma ends_Neg rd v x i : i <= L -> is_class x = false ->
    ends rd v (Neg x) i = match ends rd v x i with [] => [i] | _ => [] end.
  Proof.
    intros Hi Hx. unfold ends, W, seen.
    assert (E : walk cf base (Nat.odd rd) v (fill said (if v then invert (Neg x) else Neg x)) (pos base (Nat.odd rd) i)
      = match walk cf base (Nat.odd rd) v (fill said (if v then invert x else x)) (pos base (Nat.odd rd) i) with
        | [] => [pos base (Nat.odd rd) i] | _ => [] end).
    { destruct v; cbn [invert fill walk]; rewrite fill_class, ?is_class_invert, Hx; reflexivity. }
    rewrite E. clear E. destruct (walk _ _ _ _ _ _); [|reflexivity]. cbn. now rewrite pos_pos.
  Qed.

  Lemma ends_Ahead rd v x i : i <= L ->
    ends rd v (Look Ahead x) i = match ends rd false x i with [] => [] | _ => [i] end.
  Proof.
    intros Hi. unfold ends, W, seen.
    assert (E : walk cf base (Nat.odd rd) v (fill said (if v then invert (Look Ahead x) else Look Ahead x))
                  (pos base (Nat.odd rd) i)
      = match walk cf base (Nat.odd rd) false (fill said x) (pos base (Nat.odd rd) i) with
        | [] => [] | _ => [pos base (Nat.odd rd) i] end) by (destruct v; reflexivity).
    rewrite E. clear E. destruct (walk _ _ _ _ _ _); [reflexivity|]. cbn. now rewrite pos_pos.
  Qed.

  Lemma ends_Behind rd v x i : i <= L ->
    ends rd v (Look Behind x) i
    = match ends (S rd) true (invert x) (L - i) with [] => [] | _ => [i] end.
  Proof.
    intros Hi. unfold ends, W, seen. rewrite invert_invert.
    assert (Eo : Nat.odd (S rd) = negb (Nat.odd rd)) by (rewrite Nat.odd_succ, <- Nat.negb_odd; reflexivity).
    assert (Ep : pos base (Nat.odd (S rd)) (L - i) = pos base (Nat.odd rd) i).
    { rewrite Eo. destruct (Nat.odd rd); cbn; lia. }
    rewrite Ep, Eo.
    assert (E : walk cf base (Nat.odd rd) v (fill said (if v then invert (Look Behind x) else Look Behind x))
                  (pos base (Nat.odd rd) i)
      = match walk cf base (negb (Nat.odd rd)) true (fill said x) (pos base (Nat.odd rd) i) with
        | [] => [] | _ => [pos base (Nat.odd rd) i] end) by (destruct v; reflexivity).
    rewrite E. clear E. destruct (walk _ _ _ _ _ _); [reflexivity|]. cbn. now rewrite pos_pos.
  Qed.

  (** The captures tell what the backreference says.  In a lookbehind nested in
      a lookaround nothing is said: the code compares the text backwards. *)
  Definition known (r : nat) (v : bool) (b : node) : Prop :=
    (r = 0 /\ v = false \/ r = 1 /\ v = true)
    /\ exists i, refers names b i
         /\ forall c, Inv c -> exists val, nth_error c i = Some val
              /\ valid_range base val /\ cell_content base val = said b.

  Definition refs_known (rd : nat) (v : bool) (n : node) : Prop :=
    forall r v' b, bocc rd v n r v' b -> known r v' b.

  Lemma lit_accepts a b : accepts cf (Lit a) b = true <-> (a = b \/ (icase cf = true /\ other_case a = b)).
  Proof.
    cbn. unfold either_case. rewrite <- other_case_eqb, orb_true_iff, andb_true_iff, !Ascii.eqb_eq.
    reflexivity.
  Qed.

  Lemma repeats_cons s i a t : repeats cf s i (a :: t)
    <-> char_at s (accepts cf (Lit a)) i = true /\ repeats cf s (S i) t.
  Proof.
    unfold repeats, char_at. destruct (skipn i s) as [|b r] eqn:E.
    - assert (Hn : nth_error s i = None).
      { apply nth_error_None. apply (f_equal (@length _)) in E. rewrite skipn_length in E. cbn in E. lia. }
      rewrite Hn. cbn. split; [intros H; inversion H|now intros []].
    - destruct (skipn_cons_nth s i b r E) as [-> ->]. cbn [length firstn]. rewrite lit_accepts. split.
      + intros H. inversion H; subst. auto.
      + intros [H1 H2]. now constructor.
  Qed.

  Lemma in_chain_text rd v t : forall i j,
    In j (chain_paths (map (W cf base (Nat.odd rd) v) (map Lit t)) i)
    <-> j = i + length t /\ repeats cf (view base rd) i t.
  Proof.
    induction t as [|a t IH]; intros i j; cbn [map chain_paths length].
    - rewrite Nat.add_0_r. cbn. split; [intros [<-|[]]; split; [reflexivity|constructor]|].
      intros [-> _]. auto.
    - rewrite repeats_cons, in_flat_map. split.
      + intros (k & Hk & Hj). apply W_class in Hk as [-> Ha]; [|reflexivity].
        rewrite side_view in Ha. apply IH in Hj as [-> Hj]. repeat split; auto. lia.
      + intros (-> & Ha & Hr). exists (S i). split.
        * apply W_class; [reflexivity|]. now rewrite side_view.
        * apply IH. split; [lia|assumption].
  Qed.

  Lemma chain_Empty rd v i : i <= L -> W cf base (Nat.odd rd) v Empty i = [i].
  Proof. intros Hi. unfold W, seen. cbn. now rewrite pos_pos. Qed.

  Lemma ends_backref rd v b i j : fill said b = text_node (said b) -> invert b = b ->
    (rd = 0 /\ v = false \/ rd = 1 /\ v = true) -> i <= L ->
    let t := match rd with 0 => said b | _ => rev (said b) end in
    In j (ends rd v b i) <-> j = i + length t /\ repeats cf (view base rd) i t.
  Proof.
    intros Hf Hinv Hrv Hi t. unfold ends.
    replace (if v then invert b else b) with b by (destruct v; auto). rewrite Hf. unfold text_node.
    rewrite W_Seq by assumption.
    destruct Hrv as [[-> ->]|[-> ->]]; subst t; cbn match.
    - rewrite map_app, chain_paths_app, in_flat_map. cbn [map chain_paths]. split.
      + intros (k & Hk & Hj). apply (in_chain_text 0 false) in Hk as [-> Hr].
        rewrite chain_Empty in Hj; [cbn in Hj; destruct Hj as [<-|[]]; auto|].
        destruct (said b) as [|a r]; [cbn; lia|].
        apply repeats_fits in Hr; [|discriminate]. now rewrite view_length in Hr.
      + intros [-> Hr]. exists (i + length (said b)). split; [now apply (in_chain_text 0 false)|].
        rewrite chain_Empty; [cbn; auto|]. destruct (said b) as [|a r]; [cbn; lia|].
        apply repeats_fits in Hr; [|discriminate]. now rewrite view_length in Hr.
    - rewrite rev_app_distr. cbn [rev app map chain_paths]. rewrite (chain_Empty 1 true) by assumption.
      cbn [flat_map]. rewrite app_nil_r. rewrite <- map_rev. apply (in_chain_text 1 true).
  Qed.

  Lemma adq_backref rd v b i : fill said b = text_node (said b) -> invert b = b ->
    (rd = 0 /\ v = false \/ rd = 1 /\ v = true) ->
    (forall c, Inv c -> exists val, nth_error c i = Some val
              /\ valid_range base val /\ cell_content base val = said b) ->
    adq_matcher base Inv (backref_match cf base rd i) (ends rd v b).
  Proof.
    intros Hf Hinv Hrv Hv Y P cur c k kp Hc Hi Hk.
    destruct (Hv c Hi) as (val & Hn & Hval & Hsaid).
    pose proof (ends_backref rd v b cur) as He.
    pose proof (backref_match_spec cf base rd i cur c k val Hc Hn Hval) as Hb.
    cbn zeta in He, Hb. rewrite Hsaid in Hb.
    set (t := match rd with 0 => said b | _ => rev (said b) end) in *.
    destruct Hb as [H1 H2]. destruct (ends rd v b cur) as [|j l] eqn:E.
    - destruct H2 as [e ->]; [|now apply adq_non_match].
      intros Hr. apply (He (cur + length t)); auto.
    - assert (Hj : j = cur + length t /\ repeats cf (view base rd) cur t) by (apply He; cbn; auto).
      destruct Hj as [-> Hr]. rewrite H1 by assumption.
      rewrite (first_some_const _ _ (cur + length t)); [apply Hk; cbn; auto| |discriminate].
      intros j Hj. now apply He in Hj.
  Qed.

  Theorem exact_filled : forall f rd v n,
    compiles cf names f rd n = true -> lines_ok cf n -> refs_known rd v n ->
    groups_ok_walk rd v n ->
    adq_matcher base Inv (m cf names base f rd n) (ends rd v n).
  Proof.
    induction f as [|f IH]; intros rd v n Hcm Hl Hr Hg; [discriminate|].
    pose proof (view_length base rd) as Hs.
    set (s := view base rd) in *.
    assert (Htriv : is_class n = true -> (forall cur c k, m cf names base (S f) rd n cur c k
              = match_trivial s (match_one cf n) cur c k) ->
              adq_matcher base Inv (m cf names base (S f) rd n) (ends rd v n)).
    { intros Hx E Y P cur c k kp Hc Hi Hk. rewrite E.
      apply (adq_class cf base Inv s Hs (ends rd v)); auto. intros. now apply ends_class. }
    assert (Hcond : forall (b : bool) Y (P : caps -> nat -> Y -> Prop) (cur : nat) c k kp, Inv c ->
              (forall j c', In j (if b then [cur] else []) -> Inv c' -> adq Inv P (k j c') (kp j)) ->
              adq Inv P (assert_that b cur c k) (first_some kp (if b then [cur] else []))).
    { intros b Y P cur c k kp Hi Hk. unfold assert_that. destruct b.
      - rewrite first_some_single. apply Hk; cbn; auto.
      - now apply adq_non_match. }
    destruct n.
    - (* Empty *) apply (adq_ext _ _ _ (fun i => [i])).
      { intros i Hi. unfold ends, W, seen. destruct v; cbn; now rewrite pos_pos. }
      intros Y P cur c k kp Hc Hi Hk. cbn [m] in *. rewrite first_some_single. apply Hk; cbn; auto.
    - (* BeginLine *) apply (adq_ext _ _ _ (fun i => if at_line_start cf s i then [i] else [])).
      { intros i Hi. symmetry. now apply ends_BeginLine. }
      intros Y P cur c k kp Hc Hi Hk. cbn [m] in *. fold s.
      unfold at_line_start in *. destruct (Nat.eqb_spec cur 0) as [->|Hn]; cbn [orb] in *.
      + rewrite first_some_single. apply Hk; cbn; auto.
      + destruct (multiline cf) eqn:ML; cbn [andb] in *; [|now apply adq_non_match].
        destruct Hl as [Hl|[Hl|Hl]]; try discriminate; [|congruence]. rewrite Hl.
        destruct cur as [|cur]; [easy|]. cbn [char_before] in *.
        replace (S cur - 1) with cur by lia. unfold deref, char_at in *.
        pose proof (nth_error_at base s Hs cur ltac:(lia)) as Hne.
        destruct (nth_error s cur); [|lia]. rewrite linebreak_newline. now apply Hcond.
    - (* BeginInput *) apply (adq_ext _ _ _ (fun i => if Nat.eqb i 0 then [i] else [])).
      { intros i Hi. symmetry. now apply ends_BeginInput. }
      intros Y P cur c k kp Hc Hi Hk. cbn [m] in *. now apply Hcond.
    - (* EndLine *) apply (adq_ext _ _ _ (fun i => if at_line_end cf s i then [i] else [])).
      { intros i Hi. symmetry. now apply ends_EndLine. }
      intros Y P cur c k kp Hc Hi Hk. cbn [m] in *. fold s.
      unfold at_line_end in *. destruct (Nat.eqb_spec cur (length s)) as [->|Hn]; cbn [orb] in *.
      + rewrite first_some_single. apply Hk; cbn; auto.
      + destruct (multiline cf) eqn:ML; cbn [andb] in *; [|now apply adq_non_match].
        unfold deref, char_at in *.
        pose proof (nth_error_at base s Hs cur ltac:(lia)) as Hne.
        destruct (nth_error s cur); [|lia]. rewrite linebreak_newline. now apply Hcond.
    - (* EndInput *) apply (adq_ext _ _ _ (fun i => if Nat.eqb i L then [i] else [])).
      { intros i Hi. symmetry. now apply ends_EndInput. }
      intros Y P cur c k kp Hc Hi Hk. cbn [m] in *. fold s. rewrite Hs. now apply Hcond.
    - (* WordB *) apply (adq_ext _ _ _ (fun i => if at_word_boundary s i then [i] else [])).
      { intros i Hi. symmetry. now apply ends_WordB. }
      intros Y P cur c k kp Hc Hi Hk. cbn [m] in *. fold s.
      cbn [compiles] in Hcm. rewrite Hcm. cbn [negb].
      unfold at_word_boundary in *.
      assert (Hahead : forall b, b = char_before s is_word_char cur ->
        adq Inv P (if Nat.eqb cur (length s) then assert_that (xorb b false) cur c k
             else deref s cur (fun a => assert_that (xorb b (match_one cf n_word a)) cur c k))
          (first_some kp (if xorb (char_before s is_word_char cur) (char_at s is_word_char cur)
                          then [cur] else []))).
      { intros b Eb. rewrite <- Eb in *. unfold char_at, deref in *.
        pose proof (nth_error_at base s Hs cur ltac:(lia)) as Hne.
        destruct (nth_error s cur) as [a|].
        - destruct (Nat.eqb_spec cur (length s)); [lia|]. rewrite word_word_char. now apply Hcond.
        - destruct (Nat.eqb_spec cur (length s)); [|lia]. now apply Hcond. }
      destruct cur as [|cur].
      + cbn [Nat.eqb]. now apply Hahead.
      + cbn [Nat.eqb]. replace (S cur - 1) with cur by lia.
        pose proof (nth_error_at base s Hs cur ltac:(lia)) as Hne.
        unfold deref at 1. destruct (nth_error s cur) as [a|] eqn:E; [|lia].
        rewrite word_word_char. apply Hahead. cbn [char_before]. unfold char_at. now rewrite E.
    - (* Wild *) apply Htriv; reflexivity.
    - (* Lit *) apply Htriv; reflexivity.
    - (* Range *) apply Htriv; reflexivity.
    - (* CSet *) apply Htriv; reflexivity.
    - (* Neg *) cbn [compiles] in Hcm. apply andb_true_iff in Hcm as [Hta Hcm].
      destruct (is_assertion n) eqn:A.
      + pose proof (is_assertion_not_trivial n A) as T. rewrite trivial_is_class in T.
        apply (adq_ext _ _ _ (fun i => match ends rd v n i with [] => [i] | _ => [] end)).
        { intros i Hi. symmetry. now apply ends_Neg. }
        intros Y P cur c k kp Hc Hi Hk. cbn [m]. rewrite A.
        assert (Hx : adq_matcher base Inv (m cf names base f rd n) (ends rd v n)).
        { apply IH; auto; [now intros r v' b Ho; apply Hr; constructor|]. intros r v' id y Ho. apply Hg. now constructor. }
        pose proof (adq_run _ _ _ _ cur c Hx Hc Hi) as Hrun.
        destruct (m cf names base f rd n cur c success) as [c' e [|]| | |]; try contradiction;
          cbn in Hrun |- *; destruct Hrun as [Hi' Hrr].
        * destruct (ends rd v n cur); [discriminate|]. cbn. auto.
        * destruct (ends rd v n cur); [|discriminate]. rewrite first_some_single.
          apply Hk; cbn; auto.
      + rewrite orb_false_r in Hta. rewrite trivial_is_class in Hta.
        apply Htriv; [exact Hta|]. intros. cbn [m]. now rewrite A.
    - (* Seq *) cbn [compiles] in Hcm.
      destruct l as [|x0 r0] eqn:El; [discriminate|]. rewrite <- El in *.
      assert (Hne : l <> []) by (subst; discriminate).
      apply (adq_ext _ _ _ (chain_paths (map (ends rd v) l))).
      { intros. now rewrite ends_Seq. }
      apply (adq_seq cf base Inv s Hs (ends rd v) (ends_class rd v) (m cf names base f rd)); auto.
      + pose proof (lines_ok_list cf l Hl) as Hll. rewrite Forall_forall in Hll |- *.
        rewrite forallb_forall in Hcm. intros x Hx.
        apply IH; auto; [intros r v' b Ho; apply Hr; econstructor; eauto|].
        intros r v' id y Ho. apply Hg. econstructor; eauto.
      + apply Forall_forall. intros x _ i j. rewrite <- Hs. apply ends_bounded.
    - (* Alt *) cbn [compiles] in Hcm.
      destruct l as [|x0 r0] eqn:El; [discriminate|]. rewrite <- El in *.
      assert (Hne : l <> []) by (subst; discriminate).
      apply (adq_ext _ _ _ (fun i => flat_map (fun x => ends rd v x i) l)).
      { intros. now rewrite ends_Alt. }
      apply (adq_alt cf base Inv s Hs (ends rd v) (ends_class rd v) (ends_Alt rd v)
               (m cf names base f rd)); auto.
      pose proof (lines_ok_list cf l Hl) as Hll. rewrite Forall_forall in Hll |- *.
      rewrite forallb_forall in Hcm. intros x Hx.
      apply IH; auto; [intros r v' b Ho; apply Hr; econstructor; eauto|].
      intros r v' id y Ho. apply Hg. econstructor; eauto.
    - (* Cap *) cbn [compiles] in Hcm.
      apply andb_true_iff in Hcm as [Hcm Hcn]. apply andb_true_iff in Hcm as [Hnm Hrd].
      assert (Hx : adq_matcher base Inv (m cf names base f rd n) (ends rd v n)).
      { apply IH; auto; [now intros r v' b Ho; apply Hr; constructor|]. intros r v' i y Ho. apply Hg. now constructor. }
      apply (adq_ext _ _ _ (ends rd v n)). { intros. unfold ends. now destruct v. }
      intros Y P cur c k kp Hc Hi Hk. cbn [m] in *.
      destruct (Hg _ _ _ _ (wocc_here rd v id name n)) as [Hcl _].
      assert (Hid : N.to_nat id < length names).
      { destruct (nth_error names (N.to_nat id)) eqn:E; [|discriminate].
        apply nth_error_Some. congruence. }
      assert (E : first_some kp (ends rd v n cur)
                  = match first_some kp (ends rd v n cur) with Some x => Some x | None => None end)
        by now destruct (first_some kp (ends rd v n cur)).
      rewrite E. apply adq_or_else.
      + apply Hx; auto. intros j c' Hj Hi'.
        assert (Hb : cur <= j <= L) by (rewrite <- Hs; apply (ends_bounded rd v n); auto; fold s; lia).
        assert (Hst : exists c'', store names base rd id name cur j c' = Some c'').
        { unfold store. destruct (nth_error names (N.to_nat id)); [|discriminate].
          rewrite Hnm. pose proof (Inv_length _ _ Hcl Hi').
          destruct rd as [|[|rd]]; [apply set_cell_some; lia|apply set_cell_some; lia|discriminate]. }
        destruct Hst as [c'' Hst]. rewrite Hst. apply Hk; auto.
        refine (Inv_store rd id name cur j c' c'' Hi' _ _ _ Hst); try lia.
        eapply Hg; [constructor|lia|eassumption].
      + intros _ c' Hi'. pose proof (Inv_length _ _ Hcl Hi').
        destruct (clear_cell_some (N.to_nat id) c') as [c'' E']; [lia|]. rewrite E'.
        apply adq_non_match. eauto.
    - (* Rep *) cbn [compiles] in Hcm.
      apply andb_true_iff in Hcm as [Hcm _].
      apply (adq_ext _ _ _ (rep_paths mode lo
        (loop_walk cf base (Nat.odd rd) v mode (remaining hi lo) (fill said (if v then invert n else n))) (ends rd v n))).
      { intros i Hi. symmetry. now apply ends_Rep. }
      apply (adq_rep_parts cf base Inv s Hs (ends rd v) (ends_class rd v) (ends_bounded rd v)).
      + destruct hi as [h|].
        * apply andb_true_iff in Hcm as [_ Hcm].
          destruct (N.eqb_spec h 0) as [->|Hh]; [auto|]. cbn [orb] in Hcm. right.
          apply IH; auto; [intros r v' b Ho; apply Hr; constructor; auto; congruence|].
          intros r v' id y Ho. apply Hg. constructor; auto. congruence.
        * right. apply IH; auto; [intros r v' b Ho; apply Hr; constructor; auto; discriminate|].
          intros r v' id y Ho. apply Hg. constructor; auto. discriminate.
      + destruct hi; auto. apply andb_true_iff in Hcm as [Hcm _]. now apply N.leb_le.
      + intros ->. cbn [remaining]. rewrite N.sub_diag. apply loop_walk_0.
      + intros _ Hmx. apply adq_between_walk; auto.
        unfold w_ok. rewrite <- may_be_empty_zlm. destruct hi; cbn; split; easy.
    - (* Backref *) destruct (Hr _ _ _ (bocc_id rd v id)) as (Hrv & i & Hi & Hv). cbn in Hi. subst i.
      apply adq_backref; eauto.
    - (* NBackref *) destruct (Hr _ _ _ (bocc_name rd v name)) as (Hrv & i & Hi & Hv). cbn in Hi.
      intros Y P cur c k kp. cbn [m]. rewrite Hi. apply adq_backref; eauto.
    - (* Look *) destruct d.
      + cbn [compiles] in Hcm.
        apply (adq_ext _ _ _ (fun i => match ends rd false n i with [] => [] | _ => [i] end)).
        { intros i Hi. symmetry. now apply ends_Ahead. }
        intros Y P cur c k kp Hc Hi Hk. cbn [m] in *. fold s.
        assert (Hx : adq_matcher base Inv (m cf names base f rd n) (ends rd false n)).
        { apply IH; auto; [now intros r v' b Ho; apply Hr; constructor|]. intros r v' id y Ho. apply Hg. now constructor. }
        destruct (trivial n) eqn:T.
        * rewrite trivial_is_class in T. unfold deref.
          pose proof (ends_class rd false n T cur) as Hp. fold s in Hp. unfold char_at in Hp.
          pose proof (nth_error_at base s Hs cur Hc) as Hne.
          destruct (nth_error s cur) as [a|].
          -- destruct (Nat.eqb_spec cur (length s)); [lia|]. rewrite match_one_accepts.
             assert (E : (match ends rd false n cur with [] => [] | _ => [cur] end)
                         = if accepts cf n a then [cur] else []).
             { destruct (accepts cf n a) eqn:Ha.
               - assert (Hin : In (S cur) (ends rd false n cur)) by (apply Hp; auto).
                 now destruct (ends rd false n cur).
               - rewrite (in_empty (ends rd false n cur)); [reflexivity|].
                 intros j Hj. now apply Hp in Hj. }
             rewrite E in *. now apply Hcond.
          -- destruct (Nat.eqb_spec cur (length s)); [|lia].
             rewrite (in_empty (ends rd false n cur)); [now apply adq_non_match|].
             intros j Hj. now apply Hp in Hj.
        * pose proof (adq_run _ _ _ _ cur c Hx Hc Hi) as Hrun.
          destruct (m cf names base f rd n cur c success) as [c' e [|]| | |]; try contradiction;
            cbn [adq on_result] in Hrun |- *; destruct Hrun as [Hi' Hrr].
          -- destruct (ends rd false n cur); [discriminate|]. rewrite first_some_single.
             apply Hk; cbn; auto.
          -- destruct (ends rd false n cur); [|discriminate]. cbn. auto.
      + cbn [compiles] in Hcm.
        apply andb_true_iff in Hcm as [Hbi Hcm].
        apply (adq_ext _ _ _ (fun i => match ends (S rd) true (invert n) (L - i) with [] => [] | _ => [i] end)).
        { intros i Hi. symmetry. now apply ends_Behind. }
        intros Y P cur c k kp Hc Hi Hk. cbn [m] in *. fold s. rewrite Hbi. cbn [negb].
        destruct (trivial n) eqn:T.
        * rewrite trivial_is_class in T. unfold deref.
          assert (Ti : is_class (invert n) = true) by now rewrite is_class_invert.
          assert (E : match ends (S rd) true (invert n) (L - cur) with [] => [] | _ => [cur] end
                      = if char_before s (accepts cf n) cur then [cur] else []).
          { pose proof (ends_class (S rd) true (invert n) Ti (L - cur)) as Hp.
            rewrite view_S in Hp. fold s in Hp. rewrite (char_before_mirror s) by lia. rewrite Hs.
            assert (Ea : char_at (rev s) (accepts cf (invert n)) (L - cur)
                         = char_at (rev s) (accepts cf n) (L - cur)).
            { unfold char_at. destruct (nth_error (rev s) (L - cur)); [apply accepts_invert|reflexivity]. }
            rewrite Ea in Hp. destruct (char_at (rev s) (accepts cf n) (L - cur)).
            - assert (Hin : In (S (L - cur)) (ends (S rd) true (invert n) (L - cur))) by (apply Hp; auto).
              now destruct (ends (S rd) true (invert n) (L - cur)).
            - rewrite (in_empty (ends (S rd) true (invert n) (L - cur))); [reflexivity|].
              intros j Hj. now apply Hp in Hj. }
          rewrite E in *. destruct cur as [|cur]; cbn [Nat.eqb char_before] in *.
          -- now apply adq_non_match.
          -- replace (S cur - 1) with cur by lia. unfold char_at in *.
             pose proof (nth_error_at base s Hs cur ltac:(lia)) as Hne.
             destruct (nth_error s cur) as [a|]; [|lia].
             rewrite match_one_accepts. now apply Hcond.
        * assert (Hx : adq_matcher base Inv (m cf names base f (S rd) (invert n))
                         (ends (S rd) true (invert n))).
          { apply IH; auto.
            - unfold lines_ok in *. rewrite has_begin_line_invert. exact Hl.
            - intros r v' b Ho. apply Hr. now constructor.
            - intros r v' id y Ho. apply Hg. now constructor. }
          rewrite Hs.
          assert (Hlc : L - cur <= L) by lia.
          pose proof (adq_run _ _ _ _ (L - cur) c Hx Hlc Hi) as Hrun.
          clear IH Hx.
          destruct (m cf names base f (S rd) (invert n) (L - cur) c success) as [c' e [|]| | |];
            try contradiction; cbn [adq] in Hrun; cbn [on_result]; destruct Hrun as [Hi' Hrr].
          -- destruct (ends (S rd) true (invert n) (L - cur)); [discriminate|].
             rewrite first_some_single. apply Hk; cbn; auto.
          -- destruct (ends (S rd) true (invert n) (L - cur)); [|discriminate]. cbn. auto.
  Qed.

  (** At the outer level. *)
  Lemma ends_top n i : ends 0 false n i = walk cf base false false (fill said n) i.
  Proof. unfold ends, W, seen. cbn. apply map_id. Qed.

  Lemma refs_known_free rd v n : backref_free n = true -> refs_known rd v n.
  Proof. intros H r v' b Ho. apply backref_free_bocc in Ho. congruence. Qed.
End Matcher.
