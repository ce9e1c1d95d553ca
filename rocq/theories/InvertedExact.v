(** What an inverted tree does with a reversed text, for every tree without
    backreferences (C74): it is [walk] (Walk.v) from the end towards the beginning,
    with the parts of a concatenation from the last to the first. *)
From Verif Require Import Matcher Api Traits Basics Spec Paths Mirror Walk Calls Matching Exact Actual Laws Inverted.
From Verif Require Boolean.
From Coq Require Import Lia.

(** ** Inversion exchanges the order of the parts *)

Section Order.
  Variable cf : config.
  Variable s : list ascii.

  Lemma walk_invert n : forall left back i, walk cf s left (negb back) (invert n) i = walk cf s left back n i.
  Proof.
    induction n using node_ind'; intros left back i; try reflexivity.
    - cbn [invert walk]. change (CSet (map invert l)) with (invert (CSet l)).
      unfold read_char, char_before, char_at.
      destruct left.
      + destruct i as [|i]; [reflexivity|]. destruct (nth_error s i); [now rewrite accepts_invert|reflexivity].
      + destruct (nth_error s i); [now rewrite accepts_invert|reflexivity].
    - cbn [invert walk]. rewrite is_class_invert. destruct (is_class n) eqn:C.
      + change (Neg (invert n)) with (invert (Neg n)). unfold read_char, char_before, char_at.
        destruct left.
        * destruct i as [|i]; [reflexivity|]. destruct (nth_error s i); [now rewrite accepts_invert|reflexivity].
        * destruct (nth_error s i); [now rewrite accepts_invert|reflexivity].
      + now rewrite IHn.
    - rewrite invert_Seq. rewrite !walk_Seq.
      replace (if negb back then rev (rev (map invert l)) else rev (map invert l))
        with (map invert (if back then rev l else l))
        by (destruct back; cbn [negb]; rewrite ?rev_involutive, ?map_rev; reflexivity).
      assert (F : Forall (fun n => forall left back i,
                 walk cf s left (negb back) (invert n) i = walk cf s left back n i) (if back then rev l else l))
        by (destruct back; [now apply Forall_rev|exact H]).
      revert i. induction F as [|x r Hx _ IH]; intros i; [reflexivity|].
      cbn [map chain_paths]. rewrite Hx. apply flat_map_ext. exact IH.
    - cbn [invert walk]. induction H as [|x l Hx _ IH]; [reflexivity|]. cbn. now rewrite Hx, IH.
    - cbn [invert walk]. apply IHn.
    - cbn [invert walk]. specialize (IHn left back).
      set (f := walk cf s left (negb back) (invert n)) in *. set (g := walk cf s left back n) in *.
      rewrite (Boolean.times_pointwise f g IHn).
      rewrite (flat_map_ext (more_first f _ _) _ (Boolean.more_pointwise f g IHn _ _)).
      rewrite (flat_map_ext (fewer_first f _ _) _ (Boolean.fewer_pointwise f g IHn _ _)).
      destruct md; try reflexivity. apply map_ext, Boolean.commit_pointwise, IHn.
    - cbn [invert walk]. destruct d, back; reflexivity.
  Qed.
End Order.

(** ** Reversing the text exchanges the directions *)

Section Mirror.
  Variable cf : config.
  Variable s : list ascii.
  Let L := length s.
  Let mu i := L - i.
  Local Ltac none := split; [reflexivity|constructor].

  Definition mirrored (f g : nat -> list nat) : Prop :=
    forall i, i <= L -> f i = map mu (g (mu i)) /\ Forall (fun j => j <= L) (g (mu i)).

  Lemma mu_mu i : i <= L -> mu (mu i) = i.
  Proof. unfold mu. lia. Qed.
  Lemma mu_le i : mu i <= L.
  Proof. unfold mu. lia. Qed.
  Lemma mu_eqb i j : i <= L -> j <= L -> Nat.eqb (mu i) (mu j) = Nat.eqb i j.
  Proof. intros Hi Hj. unfold mu. destruct (Nat.eqb_spec i j), (Nat.eqb_spec (L - i) (L - j)); lia. Qed.

  Lemma mirrored_if (b c : nat -> bool) : (forall i, i <= L -> b i = c (mu i)) ->
    mirrored (fun i => if b i then [i] else []) (fun i => if c i then [i] else []).
  Proof.
    intros H i Hi. rewrite (H i Hi). destruct (c (mu i)); cbn; [rewrite mu_mu by exact Hi|];
      (split; [reflexivity|repeat constructor; apply mu_le]).
  Qed.

  Lemma mirrored_flat f g f' g' : mirrored f g -> mirrored f' g' ->
    mirrored (fun i => flat_map f' (f i)) (fun i => flat_map g' (g i)).
  Proof.
    intros H H' i Hi. destruct (H i Hi) as [E B]. rewrite E. clear E.
    induction B as [|j l Hj _ IH]; [none|]. destruct IH as [I1 I2]. cbn.
    destruct (H' (mu j) (mu_le j)) as [E' B']. rewrite mu_mu in E', B' by exact Hj.
    rewrite E', I1, map_app. split; [reflexivity|]. apply Forall_app. now split.
  Qed.

  Lemma mirrored_app f g f' g' : mirrored f g -> mirrored f' g' ->
    mirrored (fun i => f i ++ f' i) (fun i => g i ++ g' i).
  Proof.
    intros H H' i Hi. destruct (H i Hi) as [E B], (H' i Hi) as [E' B']. rewrite E, E', map_app.
    split; [reflexivity|]. apply Forall_app. now split.
  Qed.

  Lemma mirrored_one : mirrored (fun i => [i]) (fun i => [i]).
  Proof. exact (mirrored_if (fun _ => true) (fun _ => true) (fun _ _ => eq_refl)). Qed.

  (** Going on after a step that moved. *)
  Lemma mirrored_moved f g f' g' : mirrored f g -> mirrored f' g' ->
    mirrored (fun i => flat_map (fun j => if Nat.eqb i j then [] else f' j) (f i))
             (fun i => flat_map (fun j => if Nat.eqb i j then [] else g' j) (g i)).
  Proof.
    intros H H' i Hi. destruct (H i Hi) as [E B]. rewrite E. clear E.
    induction B as [|j l Hj _ IH]; [none|]. destruct IH as [I1 I2]. cbn.
    destruct (H' (mu j) (mu_le j)) as [E' B']. rewrite mu_mu in E', B' by exact Hj.
    rewrite <- (mu_mu i Hi) at 1. rewrite mu_eqb by (exact Hj || apply mu_le).
    rewrite I1. destruct (Nat.eqb (mu i) j); [split; [reflexivity|exact I2]|]. rewrite E', map_app. split; [reflexivity|].
    apply Forall_app. now split.
  Qed.

  Section Loop.
    Variables f g : nat -> list nat.
    Hypothesis H : mirrored f g.

    Lemma mirrored_times n : mirrored (times f n) (times g n).
    Proof. induction n as [|n IH]; [exact mirrored_one|]. now apply mirrored_flat. Qed.

    Lemma mirrored_more fu : forall b, mirrored (more_first f fu b) (more_first g fu b).
    Proof.
      induction fu as [|fu IH]; intros b i Hi; [none|]. cbn. destruct b as [n|].
      - destruct (N.eqb n 0); [now apply mirrored_one|].
        refine (mirrored_app _ _ (fun i => [i]) (fun i => [i]) (mirrored_flat _ _ _ _ H (IH _)) mirrored_one i Hi).
      - refine (mirrored_app _ _ (fun i => [i]) (fun i => [i]) (mirrored_moved _ _ _ _ H (IH _)) mirrored_one i Hi).
    Qed.

    Lemma mirrored_fewer fu : forall b, mirrored (fewer_first f fu b) (fewer_first g fu b).
    Proof.
      induction fu as [|fu IH]; intros b i Hi; [none|]. cbn. destruct b as [n|].
      - destruct (N.eqb n 0); [now apply mirrored_one|].
        refine (mirrored_app (fun i => [i]) (fun i => [i]) _ _ mirrored_one (mirrored_flat _ _ _ _ H (IH _)) i Hi).
      - refine (mirrored_app (fun i => [i]) (fun i => [i]) _ _ mirrored_one (mirrored_moved _ _ _ _ H (IH _)) i Hi).
    Qed.

    Lemma mirrored_commit fu : forall b i, i <= L ->
      commit f fu b i = mu (commit g fu b (mu i)) /\ commit g fu b (mu i) <= L.
    Proof.
      induction fu as [|fu IH]; intros b i Hi.
      { cbn. rewrite mu_mu by exact Hi. split; [reflexivity|apply mu_le]. }
      cbn. destruct (H i Hi) as [E B]. rewrite E.
      destruct (g (mu i)) as [|j l]; cbn.
      { destruct b; (rewrite mu_mu by exact Hi; split; [reflexivity|apply mu_le]). }
      inversion_clear B. destruct b as [n|].
      - destruct (N.eqb n 0).
        { rewrite mu_mu by exact Hi. split; [reflexivity|apply mu_le]. }
        destruct (IH (Fin (n - 1)) (mu j) (mu_le j)) as [I1 I2]. rewrite mu_mu in I1, I2 by assumption. now split.
      - rewrite <- (mu_mu i Hi) at 1. rewrite mu_eqb by (assumption || apply mu_le).
        destruct (Nat.eqb (mu i) j).
        { rewrite mu_mu by exact Hi. split; [reflexivity|apply mu_le]. }
        destruct (IH Inf (mu j) (mu_le j)) as [I1 I2]. rewrite mu_mu in I1, I2 by assumption. now split.
    Qed.
  End Loop.

  Lemma mirrored_read left p : mirrored (read_char (rev s) left p) (read_char s (negb left) p).
  Proof.
    intros i Hi. unfold read_char. destruct left; cbn [negb].
    - rewrite <- (char_before_mirror' s p (mu i)) by apply mu_le.
      fold L. fold (mu (mu i)). rewrite mu_mu by exact Hi.
      destruct (char_before (rev s) p i) eqn:E; cbn; [|now split].
      assert (i <> 0) by (intros ->; discriminate E).
      split; [f_equal; unfold mu; lia|repeat constructor; unfold mu; lia].
    - rewrite (char_before_mirror s p (mu i)) by apply mu_le.
      fold L. fold (mu (mu i)). rewrite mu_mu by exact Hi.
      destruct (char_at (rev s) p i) eqn:E; cbn; [|now split].
      assert (i < L).
      { unfold char_at in E. destruct (nth_error (rev s) i) eqn:N; [|discriminate].
        assert (nth_error (rev s) i <> None) as G by congruence. apply nth_error_Some in G.
        now rewrite rev_length in G. }
      split; [f_equal; unfold mu; lia|repeat constructor; unfold mu; lia].
  Qed.

  Lemma mirrored_walk n : forall left back,
    mirrored (walk cf (rev s) left back n) (walk cf s (negb left) back n).
  Proof.
    assert (AL : forall b : nat -> bool, forall c, (forall i, i <= L -> b i = c (mu i)) ->
              mirrored (fun i => if b i then [i] else []) (fun i => if c i then [i] else []))
      by (intros; now apply mirrored_if).
    induction n using node_ind'; intros left back.
    - exact mirrored_one.
    - apply AL. intros i Hi. unfold mu, L. destruct left; cbn [negb].
      + symmetry. now apply at_line_start_mirror.
      + symmetry. now apply at_line_end_mirror.
    - apply AL. intros i Hi. rewrite rev_length. fold L. unfold mu. destruct left; cbn [negb];
        match goal with |- Nat.eqb ?a ?b = Nat.eqb ?c ?d => destruct (Nat.eqb_spec a b), (Nat.eqb_spec c d); lia end.
    - apply AL. intros i Hi. unfold mu, L. destruct left; cbn [negb].
      + symmetry. now apply at_line_end_mirror.
      + symmetry. now apply at_line_start_mirror.
    - apply AL. intros i Hi. rewrite rev_length. fold L. unfold mu. destruct left; cbn [negb];
        match goal with |- Nat.eqb ?a ?b = Nat.eqb ?c ?d => destruct (Nat.eqb_spec a b), (Nat.eqb_spec c d); lia end.
    - apply AL. intros i Hi. unfold mu, L. symmetry. now apply at_word_boundary_mirror.
    - apply mirrored_read.
    - apply mirrored_read.
    - apply mirrored_read.
    - apply mirrored_read.
    - cbn [walk]. destruct (is_class n); [apply mirrored_read|].
      intros i Hi. destruct (IHn left back i Hi) as [E _]. rewrite E.
      destruct (walk cf s (negb left) back n (mu i)); cbn; [|now split].
      rewrite mu_mu by exact Hi. split; [reflexivity|repeat constructor; apply mu_le].
    - intros i Hi. rewrite !walk_Seq.
      assert (F : Forall (fun n => forall left back, mirrored (walk cf (rev s) left back n) (walk cf s (negb left) back n))
                (if back then rev l else l)) by (destruct back; [now apply Forall_rev|exact H]).
      revert i Hi. induction F as [|x r Hx _ IH]; [exact mirrored_one|].
      cbn [map chain_paths]. exact (mirrored_flat _ _ _ _ (Hx left back) IH).
    - intros i Hi. cbn [walk]. induction H as [|x l Hx _ IH]; [none|]. cbn.
      destruct IH as [I1 I2], (Hx left back i Hi) as [E B]. rewrite E, I1, map_app.
      split; [reflexivity|]. apply Forall_app. now split.
    - apply IHn.
    - intros i Hi. cbn [walk]. specialize (IHn left back).
      assert (A : any_fuel (rev s) (remaining hi lo) = any_fuel s (remaining hi lo))
        by (unfold any_fuel; now rewrite rev_length).
      rewrite A.
      pose proof (mirrored_flat _ _ _ _ (mirrored_times _ _ IHn (N.to_nat lo))
                    (mirrored_more _ _ IHn (any_fuel s (remaining hi lo)) (remaining hi lo)) i Hi) as M.
      pose proof (mirrored_flat _ _ _ _ (mirrored_times _ _ IHn (N.to_nat lo))
                    (mirrored_fewer _ _ IHn (any_fuel s (remaining hi lo)) (remaining hi lo)) i Hi) as F.
      destruct md; [destruct (ungreedy cf); assumption|destruct (ungreedy cf); assumption|].
      destruct (mirrored_times _ _ IHn (N.to_nat lo) i Hi) as [E B]. rewrite E.
      destruct (times (walk cf s (negb left) back n) (N.to_nat lo) (mu i)) as [|j l]; cbn; [none|].
      inversion_clear B.
      destruct (mirrored_commit _ _ IHn (any_fuel s (remaining hi lo)) (remaining hi lo) (mu j) (mu_le j)) as [C1 C2].
      rewrite mu_mu in C1, C2 by assumption. rewrite C1. split; [reflexivity|repeat constructor; exact C2].
    - intros i Hi. none.
    - intros i Hi. none.
    - intros i Hi. cbn [walk].
      set (behind := xorb back match d with Ahead => false | Behind => true end).
      assert (E : (if behind then walk cf (rev s) (negb left) true n i else walk cf (rev s) left false n i)
                  = map mu (if behind then walk cf s (negb (negb left)) true n (mu i) else walk cf s (negb left) false n (mu i))).
      { destruct behind; now apply IHn. }
      rewrite E. destruct (if behind then _ else walk cf s _ _ _ _); cbn; [none|].
      rewrite mu_mu by exact Hi. split; [reflexivity|repeat constructor; apply mu_le].
  Qed.
End Mirror.

Lemma walk_reversed cf s n i : i <= length s ->
  walk cf (rev s) false false (invert n) i
  = map (fun j => length s - j) (walk cf s true true n (length s - i)).
Proof.
  intros Hi. rewrite (proj1 (mirrored_walk cf s (invert n) false false i Hi)).
  change false with (negb true) at 2. now rewrite walk_invert.
Qed.

(** ** Calls *)

Section Calls.
  Variable n : node.
  Variable fl : list regex_flag.
  Variable ct : category.
  Let r := mk_regex (invert n) fl.
  Let cf := config_of fl ct.
  Hypothesis U : usable r ct.
  Hypothesis B : backref_free n = true.

  Lemma inverted_free : backref_free (ast r) = true.
  Proof. cbn [ast r]. now rewrite backref_free_invert. Qed.

  Lemma actual_reversed s i : i <= length s ->
    actual cf (rev s) (invert n) i
    = option_map (fun j => length s - j) (hd_error (walk cf s true true n (length s - i))).
  Proof. intros Hi. unfold actual. rewrite walk_reversed by exact Hi. now destruct (walk _ _ _ _ _ _). Qed.

  Theorem inverted_match_exact s :
    exists res, regex_match r ct (rev s) = Returned res
      /\ (matched res = true <-> In 0 (walk cf s true true n (length s))).
  Proof.
    destruct (match_exact r ct (rev s) U inverted_free) as (res & E & H). exists res. split; [exact E|].
    rewrite H. cbn [ast flags r]. fold cf. rewrite walk_reversed, rev_length, Nat.sub_0_r by lia.
    rewrite in_map_iff. split.
    - intros (j & Hj & Hi). apply walk_le in Hi as Hl; [|lia].
      now replace 0 with j by lia.
    - intros Hi. exists 0. split; [lia|exact Hi].
  Qed.

  Theorem inverted_prefix_exact s :
    exists res, regex_match_prefix r ct (rev s) = Returned res
      /\ match hd_error (walk cf s true true n (length s)) with
         | Some e => matched res = true /\ group0 (groups res) = Some (0, length s - e)
         | None => matched res = false
         end.
  Proof.
    destruct (match_prefix_exact r ct (rev s) U inverted_free) as (res & E & H). exists res. split; [exact E|].
    cbn [ast flags r] in H. fold cf in H. rewrite actual_reversed, Nat.sub_0_r in H by lia.
    now destruct (hd_error _).
  Qed.

  Theorem inverted_search_exact s :
    exists res, regex_search r ct (rev s) = Returned res
      /\ (matched res = true -> exists i j, i <= j <= length s
            /\ group0 (groups res) = Some (length s - j, length s - i)
            /\ hd_error (walk cf s true true n j) = Some i
            /\ forall j', j < j' <= length s -> walk cf s true true n j' = [])
      /\ (matched res = false -> forall j, j <= length s -> walk cf s true true n j = []).
  Proof.
    destruct (search_exact r ct (rev s) U inverted_free) as (res & E & H1 & H2). exists res. split; [exact E|].
    cbn [ast flags r] in H1, H2. fold cf in H1, H2. rewrite rev_length in H1, H2.
    assert (N : forall i, i <= length s -> actual cf (rev s) (invert n) i = None ->
              walk cf s true true n (length s - i) = []).
    { intros i Hi Hn. rewrite actual_reversed in Hn by exact Hi. now destruct (walk _ _ _ _ _ _). }
    split.
    - intros M. destruct (H1 M) as (i & e & Hi & G & A & F). rewrite actual_reversed in A by exact Hi.
      destruct (hd_error (walk cf s true true n (length s - i))) as [k|] eqn:K; [|discriminate].
      injection A as A.
      assert (Hk : k <= length s - i).
      { apply (walk_back cf s true n); [lia|]. destruct (walk cf s true true n (length s - i)); [discriminate|].
        injection K as ->. now left. }
      exists k, (length s - i). split; [lia|]. split; [|split; [exact K|]].
      + rewrite G. f_equal. f_equal; [lia|exact (eq_sym A)].
      + intros j' Hj. replace j' with (length s - (length s - j')) by lia. apply N; [lia|]. apply F. lia.
    - intros M j Hj. replace j with (length s - (length s - j)) by lia. apply N; [lia|]. apply H2; [exact M|lia].
  Qed.
End Calls.
