(** A group nobody refers to can be made non-capturing: specification and proofs (C97). *)
From Verif Require Import Matcher Api Basics Spec Calls Walk Tracks Explore Explored Follows Searches.
From Coq Require Import Lia.

(** ** Specification *)

(** A list without the element at the place [k]. *)
Definition without {A : Type} (k : nat) (l : list A) : list A := firstn k l ++ skipn (S k) l.

(** The number of a group after the group [k] is gone. *)
Definition shifted (k id : N) : N := if N.ltb k id then (id - 1)%N else id.

(** The tree in which the group [k] is not captured; the groups behind it move up. *)
Fixpoint uncaptured (k : N) (n : node) : node :=
  match n with
  | Cap id name x =>
      if N.eqb id k then uncaptured k x else Cap (shifted k id) name (uncaptured k x)
  | Backref id => Backref (shifted k id)
  | Neg x => Neg (uncaptured k x)
  | Seq l => Seq (map (uncaptured k) l)
  | Alt l => Alt (map (uncaptured k) l)
  | Rep mode lo hi x => Rep mode lo hi (uncaptured k x)
  | Look d x => Look d (uncaptured k x)
  | _ => n
  end.

(** Nothing refers to the group of this number and name. *)
Fixpoint unreferenced (k : N) (name : group_name) (n : node) : Prop :=
  match n with
  | Backref id => id <> k
  | NBackref nm => name <> Some nm
  | Neg x | Cap _ _ x | Rep _ _ _ x | Look _ x => unreferenced k name x
  | Seq l | Alt l => fold_right and True (map (unreferenced k name) l)
  | _ => True
  end.

(** No character fits two of the classes. *)
Definition exclusive_classes (cf : config) (l : list node) : Prop :=
  ForallOrdPairs (fun x y => forall a, accepts cf x a = true -> accepts cf y a = false) l.

(** The parentheses separate nothing: a negation does not become the negation of a class,
    and where the last alternatives become classes, they were classes before or no
    character fits two of them. *)
Fixpoint separates_nothing (cf : config) (k : N) (n : node) : Prop :=
  match n with
  | Neg x => is_class (uncaptured k x) = is_class x /\ separates_nothing cf k x
  | Seq l => fold_right and True (map (separates_nothing cf k) l)
  | Alt l =>
      fold_right and True (map (separates_nothing cf k) l)
      /\ forall l1 l2, l = l1 ++ l2 -> forallb is_class (map (uncaptured k) l2) = true ->
           forallb is_class l2 = true \/ exclusive_classes cf (map (uncaptured k) l2)
  | Cap _ _ x | Rep _ _ _ x | Look _ x => separates_nothing cf k x
  | _ => True
  end.

(** The numbers and names of the groups in the order of their opening parentheses. *)
Fixpoint groups_of (n : node) : list (N * group_name) :=
  match n with
  | CSet l | Seq l | Alt l => flat_map groups_of l
  | Neg x | Rep _ _ _ x | Look _ x => groups_of x
  | Cap id name x => (id, name) :: groups_of x
  | _ => []
  end.

(** The groups are numbered in this order from 1 on, and sets contain none. *)
Definition in_order (n : node) : Prop :=
  map fst (groups_of n) = map N.of_nat (seq 1 (length (groups_of n))).
Fixpoint bare_sets (n : node) : Prop :=
  match n with
  | CSet l => flat_map groups_of l = []
  | Seq l | Alt l => fold_right and True (map bare_sets l)
  | Neg x | Cap _ _ x | Rep _ _ _ x | Look _ x => bare_sets x
  | _ => True
  end.

(** The same result, except that the group [k] is missing. *)
Definition lacks (k : nat) (x y : match_res) : Prop :=
  matched y = matched x /\ tl (groups y) = tl (without k (groups x))
  /\ (matched x = true -> groups y = without k (groups x)).
Definition both_return {A : Type} (R : A -> A -> Prop) (a b : call A) : Prop :=
  exists x y, a = Returned x /\ b = Returned y /\ R x y.

(** ** Lists *)

Lemma without_nil {A} k : @without A k [] = [].
Proof. unfold without. now rewrite firstn_nil, skipn_nil. Qed.
Lemma without_0 {A} (v : A) r : without 0 (v :: r) = r.
Proof. reflexivity. Qed.
Lemma without_S {A} k (v : A) r : without (S k) (v :: r) = v :: without k r.
Proof. reflexivity. Qed.

Definition moved (k p : nat) : nat := if Nat.ltb k p then p - 1 else p.

Lemma moved_S k p : moved (S k) (S p) = S (moved k p).
Proof. unfold moved. change (S k <? S p) with (k <? p). destruct (Nat.ltb_spec k p); lia. Qed.

Lemma moved_0 p : moved 0 (S p) = p.
Proof. unfold moved. cbn. lia. Qed.

Lemma nth_without {A} (d : A) : forall g k p, p <> k -> nth (moved k p) (without k g) d = nth p g d.
Proof.
  induction g as [|v g IH]; intros k p H; [rewrite without_nil; now destruct p, (moved k _)|].
  destruct k as [|k], p as [|p]; try congruence.
  - rewrite moved_0, without_0. reflexivity.
  - reflexivity.
  - rewrite moved_S, without_S. cbn [nth]. apply IH. congruence.
Qed.

Lemma update_nil p h : update p h [] = [].
Proof. now destruct p. Qed.

Lemma without_update h : forall g k p, p <> k -> without k (update p h g) = update (moved k p) h (without k g).
Proof.
  induction g as [|v g IH]; intros k p H; [now rewrite update_nil, without_nil, update_nil|].
  destruct k as [|k], p as [|p]; try congruence.
  - rewrite moved_0. reflexivity.
  - reflexivity.
  - rewrite moved_S. cbn [update]. rewrite !without_S. cbn [update]. f_equal. apply IH. congruence.
Qed.

Lemma without_updated h : forall g k, without k (update k h g) = without k g.
Proof.
  induction g as [|v g IH]; intros [|k]; cbn [update]; try reflexivity. rewrite !without_S. f_equal. apply IH.
Qed.

Lemma same_text_eq a b : same_text a b = true -> a = b.
Proof. unfold same_text. destruct (list_eq_dec ascii_dec a b); [auto|discriminate]. Qed.

Lemma place_without nm : forall (names : list group_name) k, nth_error names k <> Some (Some nm) ->
  Explore.place nm names <> k \/ length names <= k.
Proof.
  induction names as [|x names IH]; intros k H; [right; cbn; lia|].
  destruct k as [|k]; cbn [nth_error Explore.place] in *.
  - left. destruct x as [x|]; [|discriminate]. destruct (same_text nm x) eqn:E; [|discriminate].
    apply same_text_eq in E. subst. now elim H.
  - destruct x as [x|]; [destruct (same_text nm x); [left; discriminate|]|]; destruct (IH k H); cbn; [left|right|left|right]; lia.
Qed.

Lemma place_moved nm : forall (names : list group_name) k, k < length names -> nth_error names k <> Some (Some nm) ->
  Explore.place nm (without k names) = moved k (Explore.place nm names).
Proof.
  induction names as [|x names IH]; intros k L H; [cbn in L; lia|].
  destruct k as [|k].
  - rewrite without_0. cbn [Explore.place nth_error] in *. destruct x as [x|]; [|now rewrite moved_0].
    destruct (same_text nm x) eqn:E; [apply same_text_eq in E; subst; now elim H|]. now rewrite moved_0.
  - rewrite without_S. cbn [Explore.place nth_error length] in *. destruct x as [x|].
    + destruct (same_text nm x); [reflexivity|]. rewrite moved_S. f_equal. apply IH; [lia|assumption].
    + rewrite moved_S. f_equal. apply IH; [lia|assumption].
Qed.

(** ** Searches *)

Inductive similar (k : nat) : search -> search -> Prop :=
| sim_stop g : similar k (Stop g) (Stop (without k g))
| sim_found i g m1 m2 : (forall g', similar k (m1 g') (m2 (without k g'))) ->
    similar k (Found i g m1) (Found i (without k g) m2).

Section Similar.
  Variable k : nat.
  Local Notation sim := (similar k).

  Lemma sim_one i g : sim (one i g) (one i (without k g)).
  Proof. constructor. intros g'. constructor. Qed.

  Lemma sim_test b i g : sim (test b i g) (test b i (without k g)).
  Proof. unfold test. destruct b; [apply sim_one|constructor]. Qed.

  Lemma sim_first t1 t2 : sim t1 t2 -> sim (first_only t1) (first_only t2).
  Proof. intros [g|i g m1 m2 H]; cbn; [constructor|apply sim_one]. Qed.

  Lemma sim_otherwise t1 t2 h1 h2 : sim t1 t2 -> (forall g, sim (h1 g) (h2 (without k g))) ->
    sim (otherwise t1 h1) (otherwise t2 h2).
  Proof. intros H Hh. induction H as [g|i g m1 m2 H IH]; cbn; [apply Hh|constructor; exact IH]. Qed.

  Lemma sim_followed t1 t2 f1 f2 : sim t1 t2 -> (forall i g, sim (f1 i g) (f2 i (without k g))) ->
    sim (followed_by t1 f1) (followed_by t2 f2).
  Proof.
    intros H Hf. induction H as [g|i g m1 m2 H IH]; cbn; [constructor|]. apply sim_otherwise; [apply Hf|exact IH].
  Qed.

  (** Going on with nothing. *)
  Lemma sim_ends t1 t2 f : sim t1 t2 -> (forall i g, f i g = one i g) -> sim (followed_by t1 f) t2.
  Proof.
    intros H Hf. induction H as [g|i g m1 m2 H IH]; cbn; [constructor|]. rewrite Hf. cbn. constructor. exact IH.
  Qed.

  Lemma sim_stop_inv t h : sim t (Stop h) -> exists g, t = Stop g /\ without k g = h.
  Proof. intros H. inversion H; subst. eauto. Qed.

  Lemma sim_one_inv t j h : sim t (one j h) -> exists g m, t = Found j g m /\ without k g = h
    /\ forall g', exists g2, m g' = Stop g2 /\ without k g2 = without k g'.
  Proof.
    intros H. inversion H as [|i g m1 m2 M]; subst. exists g, m1. split; [reflexivity|]. split; [reflexivity|].
    intros g'. specialize (M g'). now apply sim_stop_inv in M.
  Qed.

  Lemma sim_captured p rg t1 t2 : p <> k -> sim t1 t2 -> sim (captured p rg t1) (captured (moved k p) rg t2).
  Proof.
    intros Hp H. induction H as [g|i g m1 m2 H IH]; cbn; rewrite <- (without_update _ g k p Hp); constructor. exact IH.
  Qed.

  Lemma sim_dropped rg t1 t2 : sim t1 t2 -> sim (captured k rg t1) t2.
  Proof.
    intros H. induction H as [g|i g m1 m2 H IH]; cbn.
    - rewrite <- (without_updated (option_map (fun v => (fst v, fst v))) g k). constructor.
    - rewrite <- (without_updated (fun _ => Some (rg i)) g k). constructor. exact IH.
  Qed.

  Section Loops.
    Variables f1 f2 : nat -> caps -> search.
    Hypothesis Hf : forall i g, sim (f1 i g) (f2 i (without k g)).

    Lemma sim_chain n : forall i g, sim (chain (repeat f1 n) i g) (chain (repeat f2 n) i (without k g)).
    Proof. induction n as [|n IH]; intros i g; cbn; [apply sim_one|]. apply sim_followed; [apply Hf|exact IH]. Qed.

    Lemma sim_starting md n i g : sim (starting f1 md n i g) (starting f2 md n i (without k g)).
    Proof. unfold starting. destruct md; [apply sim_chain|apply sim_chain|apply sim_first, sim_chain]. Qed.

    Lemma sim_more fu : forall b i g, sim (trying_more f1 fu b i g) (trying_more f2 fu b i (without k g)).
    Proof.
      induction fu as [|fu IH]; intros b i g; cbn; [constructor|]. destruct (none_left b); [apply sim_one|].
      apply sim_otherwise; [|apply sim_one]. apply sim_followed; [apply Hf|]. intros j g'.
      destruct (idle b i j); [constructor|apply IH].
    Qed.

    Lemma sim_fewer fu : forall b i g, sim (trying_fewer f1 fu b i g) (trying_fewer f2 fu b i (without k g)).
    Proof.
      induction fu as [|fu IH]; intros b i g; cbn; [constructor|]. destruct (none_left b); [apply sim_one|].
      constructor. intros g0. apply sim_followed; [apply Hf|]. intros j g'.
      destruct (idle b i j); [constructor|apply IH].
    Qed.

    Lemma sim_committing fu : forall b i g, sim (committing f1 fu b i g) (committing f2 fu b i (without k g)).
    Proof.
      induction fu as [|fu IH]; intros b i g; cbn; [constructor|]. destruct (none_left b); [apply sim_one|].
      destruct (Hf i g) as [g'|j g' m1 m2 _]; [apply sim_one|]. destruct (idle b i j); [apply sim_one|apply IH].
    Qed.

    Lemma sim_looping cf base md b i g :
      sim (looping cf base f1 md b i g) (looping cf base f2 md b i (without k g)).
    Proof.
      unfold looping. destruct md; [destruct (ungreedy cf)|destruct (ungreedy cf)|];
        auto using sim_more, sim_fewer, sim_committing.
    Qed.
  End Loops.

  Lemma sim_chains : forall fs1 fs2, Forall2 (fun f1 f2 => forall i g, sim (f1 i g) (f2 i (without k g))) fs1 fs2 ->
    forall i g, sim (chain fs1 i g) (chain fs2 i (without k g)).
  Proof.
    induction 1 as [|f1 f2 fs1 fs2 H F IH]; intros i g; cbn; [apply sim_one|]. apply sim_followed; [apply H|exact IH].
  Qed.
End Similar.

(** ** Classes *)

Lemma uncaptured_class k n : is_class n = true -> uncaptured k n = n.
Proof.
  induction n using node_ind'; intros C; try reflexivity; try discriminate C.
  - cbn [uncaptured]. f_equal. now apply IHn.
  - destruct l as [|x [|y r]]; try discriminate C. cbn. inversion H as [|? ? Hx ?]; subst. f_equal. f_equal. now apply Hx.
  - destruct l as [|x r]; [discriminate C|]. cbn [is_class] in C. apply andb_true_iff in C as [H1 H2].
    inversion H as [|? ? Hx Hr]; subst. cbn. f_equal. f_equal; [now apply Hx|].
    rewrite forallb_forall in H2. rewrite Forall_forall in Hr. rewrite <- (map_id r) at 2. apply map_ext_in. intros y Hy.
    apply Hr; auto.
  - cbn [uncaptured]. destruct hi as [h|]; [|discriminate C]. cbn [is_class] in C. apply andb_true_iff in C as [_ C].
    f_equal. now apply IHn.
Qed.

Lemma uncaptured_classes k l : forallb is_class l = true -> map (uncaptured k) l = l.
Proof.
  intros H. rewrite forallb_forall in H. rewrite <- (map_id l) at 2. apply map_ext_in. intros x Hx.
  apply uncaptured_class. auto.
Qed.

(** A character is read or not. *)
Lemma reads_char base left i : exists c j, forall p g, reads base left p i g
  = match c with Some a => if p a then one j g else Stop g | None => Stop g end.
Proof.
  unfold reads, read_char, char_before, char_at. destruct left.
  - destruct i as [|i]; [exists None, 0; reflexivity|]. exists (nth_error base i), (S i - 1). intros p g.
    destruct (nth_error base i) as [a|]; [destruct (p a)|]; reflexivity.
  - exists (nth_error base i), (S i). intros p g. destruct (nth_error base i) as [a|]; [destruct (p a)|]; reflexivity.
Qed.

Lemma sim_reads k base left p i g : similar k (reads base left p i g) (reads base left p i (without k g)).
Proof.
  destruct (reads_char base left i) as (c & j & H). rewrite !H. destruct c as [a|]; [destruct (p a)|]; [apply sim_one|constructor|constructor].
Qed.

Lemma is_class_alt x r : is_class (Alt (x :: r)) = forallb is_class (x :: r).
Proof. reflexivity. Qed.

(** ** Trees *)

Section Trees.
  Variable cf : config.
  Variable names : list group_name.
  Variable base : list ascii.
  Variable k : N.
  Local Notation K := (N.to_nat k).
  Hypothesis Hk : K < length names.
  Local Notation sim := (similar K).
  Local Notation E1 := (explore cf names base).
  Local Notation E2 := (explore cf (without K names) base).

  Definition as_before (x : node) : Prop := forall d b i g,
    sim (E1 d b x i g) (E2 d b (uncaptured k x) i (without K g)).

  Lemma all_hold {A} (P : A -> Prop) l : fold_right and True (map P l) <-> Forall P l.
  Proof.
    induction l as [|x l IH]; cbn; [split; auto|]. rewrite IH. split; [intros []; auto|]. intros H. now inversion H.
  Qed.

  Lemma exclusive_alts d b i : forall l, Forall as_before l -> forallb is_class (map (uncaptured k) l) = true ->
    exclusive_classes cf (map (uncaptured k) l) -> forall g,
    sim (any cf base (Nat.odd d) (E1 d b) l i g)
        (reads base (Nat.odd d) (accepts cf (Alt (map (uncaptured k) l))) i (without K g)).
  Proof.
    destruct (reads_char base (Nat.odd d) i) as (c & j & Hr).
    induction l as [|x l IH]; intros HF HC HX g.
    { cbn [any is_class]. rewrite Hr. destruct c; cbn; constructor. }
    inversion HF as [|? ? Fx Fl]; subst. cbn [map] in HX. inversion HX as [|? ? Xx Xl]; subst.
    cbn [map forallb] in HC. apply andb_true_iff in HC as [Cx Cl].
    cbn [any]. rewrite is_class_alt. destruct (forallb is_class (x :: l)) eqn:C0.
    { rewrite (uncaptured_classes k _ C0). apply sim_reads. }
    specialize (Fx d b i g). rewrite (E_class cf (without K names) base d b _ Cx), Hr in Fx.
    specialize (IH Fl Cl Xl). rewrite Hr. cbn [map]. cbn [accepts existsb].
    destruct c as [a|]; [|].
    - change (existsb (fun x0 => accepts cf x0 a) (map (uncaptured k) l)) with (accepts cf (Alt (map (uncaptured k) l)) a).
      destruct (accepts cf (uncaptured k x) a) eqn:A; cbn [orb].
      + destruct (sim_one_inv _ _ _ _ Fx) as (g1 & m & T & W & M). rewrite T, <- W. cbn [otherwise]. constructor. intros h.
        destruct (M h) as (h2 & M1 & M2). rewrite M1, <- M2. cbn [otherwise].
        assert (N : accepts cf (Alt (map (uncaptured k) l)) a = false).
        { cbn [accepts]. apply Bool.not_true_iff_false. intros T'. apply existsb_exists in T' as (y & Y1 & Y2).
          rewrite Forall_forall in Xx. rewrite (Xx y Y1 a A) in Y2. discriminate. }
        specialize (IH h2). rewrite Hr, N in IH. exact IH.
      + destruct (sim_stop_inv _ _ _ Fx) as (g1 & T & W). rewrite T, <- W. cbn [otherwise].
        specialize (IH g1). rewrite Hr in IH. exact IH.
    - destruct (sim_stop_inv _ _ _ Fx) as (g1 & T & W). rewrite T, <- W. cbn [otherwise].
      specialize (IH g1). rewrite Hr in IH. exact IH.
  Qed.

  Lemma alts_before d b i : forall l, Forall as_before l ->
    (forall l1 l2, l = l1 ++ l2 -> forallb is_class (map (uncaptured k) l2) = true ->
       forallb is_class l2 = true \/ exclusive_classes cf (map (uncaptured k) l2)) -> forall g,
    sim (any cf base (Nat.odd d) (E1 d b) l i g)
        (any cf base (Nat.odd d) (E2 d b) (map (uncaptured k) l) i (without K g)).
  Proof.
    induction l as [|x l IH]; intros HF HS g; [constructor|].
    destruct (forallb is_class (map (uncaptured k) (x :: l))) eqn:C2.
    - replace (any cf base (Nat.odd d) (E2 d b) (map (uncaptured k) (x :: l)) i (without K g))
        with (reads base (Nat.odd d) (accepts cf (Alt (map (uncaptured k) (x :: l)))) i (without K g)).
      2:{ cbn [map any]. rewrite is_class_alt. cbn [map] in C2. now rewrite C2. }
      destruct (HS [] (x :: l) eq_refl C2) as [C1|X].
      + rewrite (uncaptured_classes k _ C1). cbn [any]. rewrite is_class_alt, C1. apply sim_reads.
      + now apply exclusive_alts.
    - assert (C1 : forallb is_class (x :: l) = false).
      { apply Bool.not_true_iff_false. intros T. rewrite (uncaptured_classes k _ T), T in C2. discriminate. }
      inversion HF as [|? ? Fx Fl]; subst. cbn [map any]. rewrite !is_class_alt. cbn [map] in C2. rewrite C1, C2.
      apply sim_otherwise; [apply Fx|]. apply IH; [assumption|]. intros l1 l2 -> C. apply (HS (x :: l1) l2); auto.
  Qed.

  Lemma class_same x d b i g : is_class x = true -> sim (E1 d b x i g) (E2 d b x i (without K g)).
  Proof. intros H. rewrite !E_class by assumption. apply sim_reads. Qed.

  Theorem trees_as_before n : separates_nothing cf k n ->
    (forall name, nth_error names K = Some name -> unreferenced k name n) -> as_before n.
  Proof.
    destruct (nth_error names K) as [name|] eqn:HN; [|apply nth_error_None in HN; lia].
    intros HS HU. specialize (HU name eq_refl). revert HS HU.
    induction n using node_ind'; intros HS HU dp bk p g.
    all: try (cbn [uncaptured explore is_class]; first [apply sim_one | apply sim_test]; fail).
    1-4: cbn [uncaptured]; apply class_same; reflexivity.
    - (* Neg *) cbn [uncaptured separates_nothing unreferenced] in *. destruct HS as [HC HS]. destruct (is_class n) eqn:C.
      + rewrite (uncaptured_class k n C). apply class_same. exact C.
      + cbn [explore is_class]. rewrite C, HC. destruct (IHn HS HU dp bk p g); [apply sim_one|constructor].
    - (* Seq *) cbn [separates_nothing unreferenced] in *. rewrite all_hold in HS, HU.
      assert (F : Forall as_before l).
      { rewrite Forall_forall in *. intros x Hx. apply H; auto. }
      destruct (is_class (Seq l)) eqn:C1; [rewrite (uncaptured_class k _ C1); now apply class_same|].
      rewrite E_Seq by assumption. cbn [uncaptured]. destruct (is_class (Seq (map (uncaptured k) l))) eqn:C2.
      + destruct l as [|x [|y r]]; try discriminate C2. replace (if bk then rev [x] else [x]) with [x] by now destruct bk.
        cbn [map chain] in *. rewrite (E_class cf (without K names) base dp bk (Seq [uncaptured k x]) C2). apply sim_ends; [|reflexivity].
        inversion F as [|? ? Fx _]; subst. specialize (Fx dp bk p g). rewrite (E_class _ _ _ dp bk (uncaptured k x)) in Fx by exact C2.
        exact Fx.
      + rewrite E_Seq by assumption. apply sim_chains.
        assert (G : forall l, Forall as_before l ->
          Forall2 (fun f1 f2 => forall i g, sim (f1 i g) (f2 i (without K g))) (map (E1 dp bk) l) (map (E2 dp bk) (map (uncaptured k) l))).
        { clear. induction 1; cbn; constructor; auto. }
        destruct bk; [|now apply G]. rewrite <- map_rev. apply G. now apply Forall_rev.
    - (* Alt *) cbn [separates_nothing unreferenced] in *. destruct HS as [HS HA]. rewrite all_hold in HS, HU.
      assert (F : Forall as_before l).
      { rewrite Forall_forall in *. intros x Hx. apply H; auto. }
      assert (G : forall nm l g0, explore cf nm base dp bk (Alt l) p g0 = any cf base (Nat.odd dp) (explore cf nm base dp bk) l p g0).
      { intros nm l0 g0. destruct (is_class (Alt l0)) eqn:C; [|now apply E_Alt].
        rewrite E_class by exact C. destruct l0 as [|x l0]; [discriminate|]. cbn [any]. now rewrite C. }
      cbn [uncaptured]. rewrite !G. now apply alts_before.
    - (* Cap *) cbn [separates_nothing unreferenced] in *. specialize (IHn HS HU dp bk p g). cbn [uncaptured].
      destruct (N.eqb_spec id k) as [->|Hi]; cbn [explore is_class].
      + now apply sim_dropped.
      + replace (N.to_nat (shifted k id)) with (moved K (N.to_nat id)).
        * apply sim_captured; [lia|exact IHn].
        * unfold moved, shifted. destruct (N.ltb_spec k id), (Nat.ltb_spec K (N.to_nat id)); lia.
    - (* Rep *) cbn [separates_nothing unreferenced] in *. specialize (IHn HS HU). cbn [uncaptured].
      destruct (is_class (Rep md lo hi n)) eqn:C1.
      { pose proof (uncaptured_class k _ C1) as U. cbn [uncaptured] in U. rewrite U. now apply class_same. }
      rewrite E_Rep by assumption.
      destruct (is_class (Rep md lo hi (uncaptured k n))) eqn:C2.
      + rewrite (E_class cf (without K names) base dp bk _ C2). destruct hi as [hi|]; [|discriminate]. cbn [is_class] in C2.
        apply andb_true_iff in C2 as [C2 Cx]. apply andb_true_iff in C2 as [Q1 Q2].
        apply N.eqb_eq in Q1, Q2. subst. cbn [remaining]. change (1 - 1)%N with 0%N.
        specialize (IHn dp bk p g). rewrite (E_class _ _ _ dp bk _ Cx) in IHn.
        apply sim_ends.
        * unfold starting. change (N.to_nat 1) with 1. cbn [repeat chain accepts].
          assert (S : sim (followed_by (E1 dp bk n p g) one) (reads base (Nat.odd dp) (accepts cf (uncaptured k n)) p (without K g)))
            by (apply sim_ends; [exact IHn|reflexivity]).
          destruct md; try exact S. apply sim_first in S.
          replace (first_only (reads base (Nat.odd dp) (accepts cf (uncaptured k n)) p (without K g)))
            with (reads base (Nat.odd dp) (accepts cf (uncaptured k n)) p (without K g)) in S; [exact S|].
          unfold reads. destruct (read_char _ _ _ _); reflexivity.
        * intros j h. unfold looping. destruct md; [destruct (ungreedy cf)|destruct (ungreedy cf)|]; reflexivity.
      + rewrite E_Rep by assumption. apply sim_followed; [now apply sim_starting|]. intros j h. now apply sim_looping.
    - (* Backref *) cbn [unreferenced uncaptured explore is_class] in *. unfold read_text, text_in.
      replace (N.to_nat (shifted k id)) with (moved K (N.to_nat id))
        by (unfold moved, shifted; destruct (N.ltb_spec k id), (Nat.ltb_spec K (N.to_nat id)); lia).
      rewrite nth_without by lia. destruct (Nat.odd dp); apply sim_test.
    - (* NBackref *) cbn [unreferenced uncaptured explore is_class] in *. unfold read_text, text_in.
      assert (W : nth_error names K <> Some (Some nm)) by (rewrite HN; intros W; injection W as W; now apply HU).
      rewrite (place_moved nm names K Hk W). destruct (place_without nm names K W) as [P|P]; [|lia].
      rewrite nth_without by assumption. destruct (Nat.odd dp); apply sim_test.
    - (* Look *) cbn [separates_nothing unreferenced uncaptured explore is_class] in *.
      specialize (IHn HS HU).
      destruct (xorb bk (match d with Ahead => false | Behind => true end)).
      + destruct (IHn (S dp) true p g); [constructor|apply sim_one].
      + destruct (IHn dp false p g); [constructor|apply sim_one].
  Qed.
End Trees.

(** ** Names *)

Lemma names_of n : names_in n = map snd (groups_of n).
Proof.
  assert (G : forall l, Forall (fun n => names_in n = map snd (groups_of n)) l ->
    flat_map names_in l = map snd (flat_map groups_of l)).
  { induction 1 as [|x l Hx Hl IH]; [reflexivity|]. cbn. now rewrite map_app, Hx, IH. }
  induction n using node_ind'; cbn; try reflexivity; auto. now rewrite IHn.
Qed.

Lemma flat_map_bare (f : node -> list (N * group_name)) l : flat_map f l = [] -> forall x, In x l -> f x = [].
Proof.
  induction l as [|y l IH]; cbn; intros H x; [intros []|]. apply app_eq_nil in H as [H1 H2]. intros [<-|Hx]; auto.
Qed.

Lemma groups_uncaptured k n : bare_sets n -> groups_of (uncaptured k n)
  = map (fun p => (shifted k (fst p), snd p)) (filter (fun p => negb (N.eqb (fst p) k)) (groups_of n)).
Proof.
  assert (G : forall l, Forall (fun n => bare_sets n -> groups_of (uncaptured k n)
      = map (fun p => (shifted k (fst p), snd p)) (filter (fun p => negb (N.eqb (fst p) k)) (groups_of n))) l ->
    fold_right and True (map bare_sets l) -> flat_map groups_of (map (uncaptured k) l)
      = map (fun p => (shifted k (fst p), snd p)) (filter (fun p => negb (N.eqb (fst p) k)) (flat_map groups_of l))).
  { induction 1 as [|x l Hx Hl IH]; cbn; [reflexivity|]. intros [B1 B2].
    rewrite filter_app, map_app, (Hx B1), (IH B2). reflexivity. }
  induction n using node_ind'; cbn [bare_sets]; intros B; try reflexivity.
  - cbn. now rewrite B.
  - cbn [uncaptured groups_of]. auto.
  - cbn [uncaptured groups_of]. auto.
  - cbn [uncaptured groups_of]. auto.
  - cbn [uncaptured groups_of filter fst]. destruct (N.eqb_spec id k); cbn [negb]; [auto|]. cbn [groups_of map fst snd]. f_equal. auto.
  - cbn [uncaptured groups_of]. auto.
  - cbn [uncaptured groups_of]. auto.
Qed.

Lemma filter_number k : forall (l : list (N * group_name)) off, map fst l = map N.of_nat (seq off (length l)) ->
  map snd (filter (fun p => negb (N.eqb (fst p) k)) l)
  = if Nat.leb off (N.to_nat k) then without (N.to_nat k - off) (map snd l) else map snd l.
Proof.
  induction l as [|[id nm] l IH]; intros off H; cbn [length seq map] in *.
  { cbn. destruct (off <=? _); [now rewrite without_nil|reflexivity]. }
  cbn [fst] in H. injection H as H1 H2. specialize (IH (S off) H2). cbn [filter fst].
  destruct (N.eqb_spec id k) as [E|E]; cbn [negb].
  - rewrite IH. subst k. rewrite H1, Nat2N.id. rewrite (proj2 (Nat.leb_le off off)) by lia.
    rewrite (proj2 (Nat.leb_gt (S off) off)) by lia. rewrite Nat.sub_diag. reflexivity.
  - cbn [map snd]. rewrite IH. assert (N.to_nat k <> off) by lia.
    destruct (Nat.leb_spec off (N.to_nat k)).
    + rewrite (proj2 (Nat.leb_le _ _)) by lia. replace (N.to_nat k - off) with (S (N.to_nat k - S off)) by lia.
      now rewrite without_S.
    + now rewrite (proj2 (Nat.leb_gt _ _)) by lia.
Qed.

Lemma names_uncaptured k n : (1 <= k)%N -> in_order n -> bare_sets n ->
  all_names (uncaptured k n) = without (N.to_nat k) (all_names n).
Proof.
  intros Hk Ho Hb. unfold all_names. rewrite !names_of, (groups_uncaptured k n Hb), map_map. cbn [snd].
  change (fun x : N * group_name => snd x) with (@snd N group_name). rewrite (filter_number k _ 1 Ho), (proj2 (Nat.leb_le _ _)) by lia.
  replace (N.to_nat k) with (S (N.to_nat k - 1)) at 2 by lia. now rewrite without_S.
Qed.

Lemma map_without {A B} (f : A -> B) k l : map f (without k l) = without k (map f l).
Proof. unfold without. now rewrite map_app, firstn_map, skipn_map. Qed.

Lemma tl_without {A} k (l : list A) : tl (without (S k) l) = without k (tl l).
Proof. destruct l; [|reflexivity]. rewrite without_nil. cbn [tl]. now rewrite without_nil. Qed.

Lemma number_of k nm : forall (l : list (N * group_name)) off, map fst l = map N.of_nat (seq off (length l)) ->
  In (k, nm) l -> off <= N.to_nat k /\ nth_error (map snd l) (N.to_nat k - off) = Some nm.
Proof.
  induction l as [|[id x] l IH]; intros off H HI; [destruct HI|]. cbn [length seq map fst] in H. injection H as H1 H2.
  destruct HI as [E|E].
  - injection E as -> ->. subst. rewrite Nat2N.id, Nat.sub_diag. split; [lia|reflexivity].
  - destruct (IH (S off) H2 E) as [L N]. split; [lia|]. replace (N.to_nat k - off) with (S (N.to_nat k - S off)) by lia. exact N.
Qed.

(** ** Calls *)

Lemma sim_first_end k p t1 t2 : similar k t1 t2 ->
  first_end p t2 = (fst (first_end p t1), without k (snd (first_end p t1))).
Proof.
  induction 1 as [g|i g m1 m2 H IH]; cbn; [reflexivity|]. destruct (p i); [reflexivity|apply IH].
Qed.

Section Answers.
  Variable cf : config.
  Variable n : node.
  Variable k : N.
  Variable name : group_name.
  Variable s : list ascii.
  Local Notation K := (N.to_nat k).
  Hypothesis Ho : in_order n.
  Hypothesis Hb : bare_sets n.
  Hypothesis Hin : In (k, name) (groups_of n).
  Hypothesis Hu : unreferenced k name n.
  Hypothesis Hs : separates_nothing cf k n.
  Local Notation n2 := (uncaptured k n).

  Lemma number_positive : (1 <= k)%N.
  Proof. destruct (number_of k name _ 1 Ho Hin). lia. Qed.

  Lemma names2 : all_names n2 = without K (all_names n).
  Proof. apply names_uncaptured; auto. apply number_positive. Qed.

  Lemma start2 : no_groups n2 = without K (no_groups n).
  Proof. unfold no_groups. rewrite names2. apply map_without. Qed.

  Lemma explore2 i g : similar K (explore cf (all_names n) s 0 false n i g) (explore cf (all_names n2) s 0 false n2 i (without K g)).
  Proof.
    rewrite names2. destruct (number_of k name _ 1 Ho Hin) as [L N]. rewrite <- names_of in N.
    assert (A : nth_error (all_names n) K = Some name).
    { unfold all_names. replace K with (S (K - 1)) by lia. exact N. }
    apply trees_as_before; [apply nth_error_Some; congruence|exact Hs|]. intros x Hx. rewrite A in Hx. injection Hx as <-. exact Hu.
  Qed.

  Lemma full2 : full_match cf n2 s = (fst (full_match cf n s), without K (snd (full_match cf n s))).
  Proof. unfold full_match. rewrite start2. apply sim_first_end, explore2. Qed.

  Lemma first_match2 : forall count i g,
    first_match cf (all_names n2) s n2 count i (without K g)
    = (fst (first_match cf (all_names n) s n count i g), without K (snd (first_match cf (all_names n) s n count i g))).
  Proof.
    induction count as [|c IH]; intros i g; cbn [first_match]; rewrite (sim_first_end K _ _ _ (explore2 i g));
      destruct (first_end _ (explore cf (all_names n) s 0 false n i g)) as [[j|] g']; cbn [fst snd]; try reflexivity.
    apply IH.
  Qed.

  Lemma repeated2 step1 step2 : (forall i, step2 i = (fst (step1 i), without K (snd (step1 i)))) ->
    forall fuel i, repeated step2 fuel i = map (without K) (repeated step1 fuel i).
  Proof.
    intros H. induction fuel as [|fu IH]; intros i; cbn [repeated]; [reflexivity|]. rewrite H.
    destruct (step1 i) as [[[b e]|] g]; cbn [fst snd]; [|reflexivity]. cbn [map]. f_equal.
    - pose proof number_positive. replace K with (S (K - 1)) by lia. now rewrite without_S, tl_without.
    - destruct (b =? e); [reflexivity|apply IH].
  Qed.
End Answers.

Lemma lacking k x y : (1 <= k)%N -> matched y = matched x -> forall g,
  (if matched x then exists v, groups x = v :: tl g /\ groups y = v :: tl (without (N.to_nat k) g)
   else tl (groups x) = tl g /\ tl (groups y) = tl (without (N.to_nat k) g)) ->
  lacks (N.to_nat k) x y.
Proof.
  intros Hk Hm g. replace (N.to_nat k) with (S (N.to_nat k - 1)) by lia. unfold lacks.
  destruct (matched x) eqn:E; [intros (v & E1 & E2)|intros (E1 & E2)].
  - rewrite E1, E2, without_S. rewrite tl_without. auto.
  - rewrite E2, !tl_without, E1. repeat split; congruence.
Qed.

Lemma lacking_all k l1 l2 : Forall (fun x => matched x = true) l1 -> Forall (fun x => matched x = true) l2 ->
  map groups l2 = map (without k) (map groups l1) -> Forall2 (lacks k) l1 l2.
Proof.
  intros H1. revert l2. induction H1 as [|x l1 Hx Hl IH]; intros [|y l2] H2 E; try discriminate; constructor.
  - cbn in E. injection E as E _. inversion H2; subst. unfold lacks. rewrite E. repeat split; congruence.
  - apply IH; [now inversion H2|]. now injection E.
Qed.

Theorem uncaptured_calls n k name fl ct s :
  in_order n -> bare_sets n -> In (k, name) (groups_of n) -> unreferenced k name n ->
  separates_nothing (config_of fl ct) k n ->
  let r1 := mk_regex n fl in let r2 := mk_regex (uncaptured k n) fl in
  usable r1 ct -> usable r2 ct ->
  let K := N.to_nat k in
  both_return (lacks K) (regex_match r1 ct s) (regex_match r2 ct s)
  /\ both_return (lacks K) (regex_match_prefix r1 ct s) (regex_match_prefix r2 ct s)
  /\ both_return (lacks K) (regex_search r1 ct s) (regex_search r2 ct s)
  /\ both_return (Forall2 (lacks K)) (tokenize r1 ct s) (tokenize r2 ct s)
  /\ both_return (Forall2 (lacks K)) (find_all r1 ct s) (find_all r2 ct s).
Proof.
  intros Ho Hb Hin Hu Hs r1 r2 U1 U2 K. set (cf := config_of fl ct) in *.
  pose proof (number_positive n k name Ho Hin) as Hk.
  assert (P2 : forall i, prefix_match cf (uncaptured k n) s i
    = (fst (prefix_match cf n s i), without K (snd (prefix_match cf n s i)))).
  { intros i. unfold prefix_match. rewrite (start2 n k name Ho Hb Hin). now apply (first_match2 cf n k name). }
  assert (S2 : forall i, search_match cf (uncaptured k n) s i
    = (fst (search_match cf n s i), without K (snd (search_match cf n s i)))).
  { intros i. unfold search_match. rewrite (start2 n k name Ho Hb Hin). now apply (first_match2 cf n k name). }
  repeat split.
  - destruct (match_explored r1 ct s U1) as (x & X1 & X2). destruct (match_explored r2 ct s U2) as (y & Y1 & Y2).
    exists x, y. split; [exact X1|]. split; [exact Y1|]. change (config_of (flags r1) ct) with cf in X2.
    change (config_of (flags r2) ct) with cf in Y2. cbn [ast r1 r2] in *. rewrite (full2 cf n k name s) in Y2 by assumption.
    destruct (full_match cf n s) as [[e|] g]; cbn [fst snd] in *; destruct X2 as [X2 X3], Y2 as [Y2 Y3];
      apply (lacking k x y Hk) with (g := g); try congruence; rewrite X2; eauto.
  - destruct (match_prefix_explored r1 ct s U1) as (x & X1 & X2). destruct (match_prefix_explored r2 ct s U2) as (y & Y1 & Y2).
    exists x, y. split; [exact X1|]. split; [exact Y1|]. change (config_of (flags r1) ct) with cf in X2.
    change (config_of (flags r2) ct) with cf in Y2. cbn [ast r1 r2] in *. rewrite P2 in Y2.
    destruct (prefix_match cf n s 0) as [[e|] g]; cbn [fst snd] in *; destruct X2 as [X2 X3], Y2 as [Y2 Y3];
      apply (lacking k x y Hk) with (g := g); try congruence; rewrite X2; eauto.
  - destruct (search_explored r1 ct s U1) as (x & X1 & X2). destruct (search_explored r2 ct s U2) as (y & Y1 & Y2).
    exists x, y. split; [exact X1|]. split; [exact Y1|]. change (config_of (flags r1) ct) with cf in X2.
    change (config_of (flags r2) ct) with cf in Y2. cbn [ast r1 r2] in *. rewrite S2 in Y2.
    destruct (search_match cf n s 0) as [[e|] g]; cbn [fst snd] in *; destruct X2 as [X2 X3], Y2 as [Y2 Y3];
      apply (lacking k x y Hk) with (g := g); try congruence; rewrite X2; [eauto|]. rewrite X3, Y3. auto.
  - destruct (tokenize_explored r1 ct s U1) as (l1 & X1 & X2 & X3). destruct (tokenize_explored r2 ct s U2) as (l2 & Y1 & Y2 & Y3).
    exists l1, l2. split; [exact X1|]. split; [exact Y1|]. apply lacking_all; auto. rewrite X3, Y3.
    unfold all_tokens. now apply (repeated2 n k name).
  - destruct (find_all_explored r1 ct s U1) as (l1 & X1 & X2 & X3). destruct (find_all_explored r2 ct s U2) as (l2 & Y1 & Y2 & Y3).
    exists l1, l2. split; [exact X1|]. split; [exact Y1|]. apply lacking_all; auto. rewrite X3, Y3.
    unfold all_matches. now apply (repeated2 n k name).
Qed.

(** ** A test for [separates_nothing] *)

Fixpoint keeps_classes (k : N) (n : node) : bool :=
  match n with
  | Neg x => Bool.eqb (is_class (uncaptured k x)) (is_class x) && keeps_classes k x
  | Seq l => forallb (keeps_classes k) l
  | Alt l => forallb (keeps_classes k) l && forallb (fun x => Bool.eqb (is_class (uncaptured k x)) (is_class x)) l
  | Cap _ _ x | Rep _ _ _ x | Look _ x => keeps_classes k x
  | _ => true
  end.

Lemma keeps_separates cf k n : keeps_classes k n = true -> separates_nothing cf k n.
Proof.
  assert (G : forall l, Forall (fun n => keeps_classes k n = true -> separates_nothing cf k n) l ->
    forallb (keeps_classes k) l = true -> fold_right and True (map (separates_nothing cf k) l)).
  { induction 1 as [|x l Hx Hl IH]; cbn; [auto|]. intros H. apply andb_true_iff in H as [H1 H2]. auto. }
  induction n using node_ind'; cbn [keeps_classes separates_nothing]; intros C; auto.
  - apply andb_true_iff in C as [C1 C2]. apply Bool.eqb_prop in C1. auto.
  - apply andb_true_iff in C as [C1 C2]. split; [auto|]. intros l1 l2 -> C. left.
    rewrite forallb_forall in *. intros x Hx. specialize (C2 x (in_or_app _ _ _ (or_intror Hx))). apply Bool.eqb_prop in C2.
    rewrite <- C2. apply C. now apply in_map.
Qed.
