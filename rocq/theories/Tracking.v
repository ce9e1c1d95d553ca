(** The matcher follows [tracks] (Tracks.v) on trees whose backreferences are
    [scoped]. *)
From Verif Require Import Matcher Api Basics Safe Cong Impl Spec Paths Mirror Adequacy Calls Lift
  Matching Equiv Results Walk Exact Actual Tracks.

(** ** Names of backreferences *)

Lemma same_text_eq a b : same_text a b = true <-> a = b.
Proof. unfold same_text. destruct (list_eq_dec ascii_dec a b); split; congruence. Qed.

Definition is_ref (b : node) : Prop :=
  match b with Backref _ | NBackref _ => True | _ => False end.

Lemma same_ref_eq a b : same_ref a b = true -> a = b.
Proof.
  destruct a, b; cbn; try discriminate; intros H.
  - apply N.eqb_eq in H. congruence.
  - apply same_text_eq in H. congruence.
Qed.

Lemma same_ref_refl b : is_ref b -> same_ref b b = true.
Proof.
  destruct b; cbn; try easy; intros _.
  - apply N.eqb_refl.
  - now apply same_text_eq.
Qed.

Lemma listed_in l b : listed l b = true -> In b l.
Proof.
  unfold listed. rewrite existsb_exists. intros (x & Hx & E). apply same_ref_eq in E. now subst.
Qed.

Lemma in_listed l b : is_ref b -> In b l -> listed l b = true.
Proof.
  intros Hr Hb. unfold listed. apply existsb_exists. exists b. split; auto. now apply same_ref_refl.
Qed.

Lemma refs_of_ref n b : In b (refs_of n) -> is_ref b.
Proof.
  induction n using node_ind'; cbn [refs_of]; try easy; auto.
  - rewrite in_flat_map. rewrite Forall_forall in H. intros (x & Hx & Hb). eauto.
  - rewrite in_flat_map. rewrite Forall_forall in H. intros (x & Hx & Hb). eauto.
  - intros [<-|[]]. exact I.
  - intros [<-|[]]. exact I.
Qed.

(** Filling looks only at the backreferences of the tree. *)
Lemma fill_ext s1 s2 n : (forall b, In b (refs_of n) -> s1 b = s2 b) -> fill s1 n = fill s2 n.
Proof.
  induction n using node_ind'; cbn [refs_of fill]; intros He; try reflexivity;
    try (rewrite IHn by assumption; reflexivity).
  - f_equal. apply map_ext_in. rewrite Forall_forall in H. intros x Hx. apply H; auto.
    intros b Hb. apply He. apply in_flat_map. eauto.
  - f_equal. apply map_ext_in. rewrite Forall_forall in H. intros x Hx. apply H; auto.
    intros b Hb. apply He. apply in_flat_map. eauto.
  - rewrite He by (cbn; auto). reflexivity.
  - rewrite He by (cbn; auto). reflexivity.
Qed.

Lemma fill_zero_width said n : zero_width n = true -> zero_width (fill said n) = true.
Proof.
  induction n using node_ind'; cbn [zero_width fill]; auto; try discriminate.
  - now rewrite fill_class.
  - rewrite forallb_map, !forallb_forall. rewrite Forall_forall in H. auto.
  - rewrite forallb_map, !forallb_forall. rewrite Forall_forall in H. auto.
  - destruct hi; auto. rewrite !orb_true_iff. intuition.
Qed.

Lemma fill_well_formed said n : well_formed n = true -> well_formed (fill said n) = true.
Proof.
  induction n using node_ind'; cbn [well_formed fill]; auto.
  - rewrite fill_class, !andb_true_iff, !orb_true_iff. intuition auto using fill_zero_width.
  - destruct l as [|x r]; [auto|]. cbn [map]. inversion H; subst. cbn [forallb].
    rewrite !andb_true_iff, forallb_map, !forallb_forall. rewrite Forall_forall in H3. intuition.
  - destruct l as [|x r]; [auto|]. cbn [map]. inversion H; subst. cbn [forallb].
    rewrite !andb_true_iff, forallb_map, !forallb_forall. rewrite Forall_forall in H3. intuition.
  - destruct hi; auto. rewrite !andb_true_iff, !orb_true_iff. intuition.
  - intros _. unfold text_node. destruct (said (Backref id)) as [|a r] eqn:E; [reflexivity|].
    cbn [map app]. apply forallb_forall. intros x [<-|Hx]; [reflexivity|].
    apply in_app_or in Hx as [Hx|[<-|[]]]; [|reflexivity]. apply in_map_iff in Hx as (? & <- & _). reflexivity.
  - intros _. unfold text_node. destruct (said (NBackref _)) as [|a r] eqn:E; [reflexivity|].
    cbn [map app]. apply forallb_forall. intros x [<-|Hx]; [reflexivity|].
    apply in_app_or in Hx as [Hx|[<-|[]]]; [|reflexivity]. apply in_map_iff in Hx as (? & <- & _). reflexivity.
Qed.

Lemma fill_possessive_ok said n : possessive_ok n = true -> possessive_ok (fill said n) = true.
Proof.
  induction n using node_ind'; cbn [possessive_ok fill]; auto.
  - rewrite forallb_map, !forallb_forall. rewrite Forall_forall in H. auto.
  - rewrite forallb_map, !forallb_forall. rewrite Forall_forall in H. auto.
  - destruct md; auto. destruct hi; auto. rewrite !andb_true_iff, !negb_true_iff.
    intros [H1 H2]. split; auto. now apply fill_empty.
  - intros _. unfold text_node. cbn [possessive_ok]. rewrite forallb_app. cbn. rewrite andb_true_r.
    apply forallb_forall. intros x Hx. apply in_map_iff in Hx as (? & <- & _). reflexivity.
  - intros _. unfold text_node. cbn [possessive_ok]. rewrite forallb_app. cbn. rewrite andb_true_r.
    apply forallb_forall. intros x Hx. apply in_map_iff in Hx as (? & <- & _). reflexivity.
Qed.

Lemma text_reversible t : reversible (text_node t) = true.
Proof.
  unfold text_node. cbn [reversible]. rewrite forallb_app. cbn. rewrite andb_true_r.
  apply forallb_forall. intros x Hx. apply in_map_iff in Hx as (? & <- & _). reflexivity.
Qed.

Lemma fill_reversible said n : reversible n = true -> reversible (fill said n) = true.
Proof.
  induction n using node_ind'; cbn [reversible fill]; auto; try discriminate.
  - rewrite forallb_map, !forallb_forall. rewrite Forall_forall in H. auto.
  - rewrite forallb_map, !forallb_forall. rewrite Forall_forall in H. auto.
  - destruct md; auto. intros Hc.
    rewrite <- (fill_class said (Rep Possessive lo hi n)) in Hc. exact Hc.
  - now rewrite fill_class.
Qed.

Lemma fill_lookbehind_ok said n : lookbehind_ok n = true -> lookbehind_ok (fill said n) = true.
Proof.
  induction n using node_ind'; cbn [lookbehind_ok fill]; auto.
  - rewrite forallb_map, !forallb_forall. rewrite Forall_forall in H. auto.
  - rewrite forallb_map, !forallb_forall. rewrite Forall_forall in H. auto.
  - intros _. unfold text_node. cbn [lookbehind_ok]. rewrite forallb_app. cbn. rewrite andb_true_r.
    apply forallb_forall. intros x Hx. apply in_map_iff in Hx as (? & <- & _). reflexivity.
  - intros _. unfold text_node. cbn [lookbehind_ok]. rewrite forallb_app. cbn. rewrite andb_true_r.
    apply forallb_forall. intros x Hx. apply in_map_iff in Hx as (? & <- & _). reflexivity.
  - destruct d; auto using fill_reversible.
Qed.

(** ** Trees that capture nothing that is called *)

Section Closed.
  Variable cf : config.
  Variable s : list ascii.
  Local Notation L := (length s).
  Local Notation tracks := (tracks cf s).

  (** [f] on states acts like [g] on offsets, and keeps [ok]. *)
  Definition sim (ok : env -> Prop) (f : state -> list state) (g : nat -> list nat) : Prop :=
    forall i e, ok e -> map fst (f (i, e)) = g i /\ forall y, In y (f (i, e)) -> ok (snd y).

  Lemma sim_flat ok f1 g1 f2 g2 : sim ok f1 g1 -> sim ok f2 g2 ->
    sim ok (fun x => flat_map f2 (f1 x)) (fun i => flat_map g2 (g1 i)).
  Proof.
    intros H1 H2 i e He. destruct (H1 i e He) as [<- H1b]. split.
    - rewrite map_flat_map, flat_map_map. clear -H1b H2. induction (f1 (i, e)) as [|[j e'] r IH]; [reflexivity|].
      cbn [flat_map]. f_equal.
      + apply H2. apply (H1b (j, e')). cbn. auto.
      + apply IH. intros y Hy. apply H1b. cbn. auto.
    - intros y Hy. apply in_flat_map in Hy as ([j e'] & Hx & Hy).
      apply (H2 j e'); auto. apply (H1b _ Hx).
  Qed.

  Lemma sim_one ok : sim ok (fun x => [x]) (fun i => [i]).
  Proof. intros i e He. split; [reflexivity|]. intros y [<-|[]]. exact He. Qed.

  Lemma sim_app ok f1 g1 f2 g2 : sim ok f1 g1 -> sim ok f2 g2 ->
    sim ok (fun x => f1 x ++ f2 x) (fun i => g1 i ++ g2 i).
  Proof.
    intros H1 H2 i e He. destruct (H1 i e He) as [<- H1b], (H2 i e He) as [<- H2b]. split.
    - apply map_app.
    - intros y Hy. apply in_app_or in Hy as [Hy|Hy]; auto.
  Qed.

  Lemma sim_times ok f g n : sim ok f g -> sim ok (times_on f n) (times g n).
  Proof. intros H. induction n as [|n IH]; [apply sim_one|]. cbn. now apply sim_flat. Qed.

  (** The guard of unbounded loops. *)
  Lemma sim_guard ok f g (h : state -> list state) (h' : nat -> list nat) : sim ok f g -> sim ok h h' ->
    sim ok (fun x => flat_map (fun y => if Nat.eqb (fst x) (fst y) then [] else h y) (f x))
           (fun i => flat_map (fun j => if Nat.eqb i j then [] else h' j) (g i)).
  Proof.
    intros H1 H2 i e He. destruct (H1 i e He) as [<- H1b]. cbn [fst]. split.
    - rewrite map_flat_map, flat_map_map. clear -H1b H2. induction (f (i, e)) as [|[j e'] r IH]; [reflexivity|].
      cbn [flat_map fst]. f_equal.
      + destruct (Nat.eqb i j); [reflexivity|]. apply H2. apply (H1b (j, e')). cbn. auto.
      + apply IH. intros y Hy. apply H1b. cbn. auto.
    - intros y Hy. apply in_flat_map in Hy as ([j e'] & Hx & Hy). cbn [fst] in Hy.
      destruct (Nat.eqb i j); [destruct Hy|]. apply (H2 j e'); auto. apply (H1b _ Hx).
  Qed.

  Lemma sim_more ok f g fu : sim ok f g -> forall b, sim ok (more_on f fu b) (more_first g fu b).
  Proof.
    intros H. induction fu as [|fu IH]; intros b.
    { intros i e He. split; [reflexivity|easy]. }
    destruct b as [n|]; cbn [more_on more_first].
    - destruct (N.eqb n 0); [apply sim_one|]. apply sim_app; [|apply sim_one]. now apply sim_flat.
    - apply (sim_app ok (fun x => flat_map (fun y => if Nat.eqb (fst x) (fst y) then [] else more_on f fu Inf y) (f x)));
        [|apply sim_one]. now apply sim_guard.
  Qed.

  Lemma sim_fewer ok f g fu : sim ok f g -> forall b, sim ok (fewer_on f fu b) (fewer_first g fu b).
  Proof.
    intros H. induction fu as [|fu IH]; intros b.
    { intros i e He. split; [reflexivity|easy]. }
    destruct b as [n|]; cbn [fewer_on fewer_first].
    - destruct (N.eqb n 0); [apply sim_one|].
      apply (sim_app ok (fun x => [x]) (fun i => [i]) (fun x => flat_map (fewer_on f fu (Fin (n - 1))) (f x)));
        [apply sim_one|]. now apply sim_flat.
    - apply (sim_app ok (fun x => [x]) (fun i => [i])
        (fun x => flat_map (fun y => if Nat.eqb (fst x) (fst y) then [] else fewer_on f fu Inf y) (f x)));
        [apply sim_one|]. now apply sim_guard.
  Qed.

  Lemma sim_test ok (b : nat -> bool) :
    sim ok (fun x => if b (fst x) then [x] else []) (fun i => if b i then [i] else []).
  Proof.
    intros i e He. cbn [fst]. destruct (b i); (split; [reflexivity|]); [|easy].
    intros y [<-|[]]. exact He.
  Qed.

  Lemma sim_char ok p : sim ok (fun x => if char_at s p (fst x) then [(S (fst x), snd x)] else [])
                          (fun i => if char_at s p i then [S i] else []).
  Proof.
    intros i e He. cbn [fst snd]. destruct (char_at s p i); (split; [reflexivity|]); [|easy].
    intros y [<-|[]]. exact He.
  Qed.

  Lemma sim_ext ok f f' g g' : (forall i e, f (i, e) = f' (i, e)) -> (forall i, g i = g' i) ->
    sim ok f g -> sim ok f' g'.
  Proof. intros Hf Hg H i e He. rewrite <- Hf, <- Hg. now apply H. Qed.

  Definition agree (b1 : list node) (e e' : env) : Prop := forall b, In b b1 -> e b = e' b.

  Lemma occurs_text t : forall i, paths cf s (text_node t) i = if occurs cf s t i then [i + length t] else [].
  Proof.
    unfold text_node. cbn [paths].
    induction t as [|a t IH]; intros i; [cbn; now rewrite Nat.add_0_r|].
    cbn [map app occurs length]. 
    change (paths cf s (Lit a) i) with (if char_at s (accepts cf (Lit a)) i then [S i] else []).
    destruct (char_at s (accepts cf (Lit a)) i); [|reflexivity]. cbn [flat_map andb].
    rewrite app_nil_r, IH. replace (S i + length t) with (i + S (length t)) by lia. reflexivity.
  Qed.

  Variable refs : list node.

  Lemma with_group_agree set id nm v e : (forall b, In b set -> In b refs) ->
    callers refs id nm = [] -> agree set e (with_group e id nm v).
  Proof.
    intros Hs Hc b Hb. unfold with_group. destruct (calls b id nm) eqn:E; [|reflexivity].
    assert (Hin : In b (callers refs id nm)) by (apply filter_In; auto). now rewrite Hc in Hin.
  Qed.

  Lemma tracks_Seq x r y : tracks (Seq (x :: r)) y = flat_map (tracks (Seq r)) (tracks x y).
  Proof. destruct y as [i e]. cbn. apply flat_map_ext. now intros [j e']. Qed.

  Lemma tracks_Alt l y : tracks (Alt l) y = flat_map (fun x => tracks x y) l.
  Proof. now destruct y. Qed.

  Lemma closed_parts set n : closed refs set n = true <->
    (forall b, In b (refs_of n) -> listed set b = true)
    /\ forall id nm, In (id, nm) (groups_of n) -> callers refs id nm = [].
  Proof.
    unfold closed. rewrite andb_true_iff, !forallb_forall. split.
    - intros [H1 H2]. split; auto. intros id nm Hg. specialize (H2 _ Hg). cbn in H2.
      now destruct (callers refs id nm).
    - intros [H1 H2]. split; auto. intros [id nm] Hg. cbn. now rewrite (H2 _ _ Hg).
  Qed.

  Theorem sim_closed set n e0 : (forall b, In b set -> In b refs) -> closed refs set n = true ->
    sim (agree set e0) (tracks n) (paths cf s (fill (text_of s e0) n)).
  Proof.
    intros Hs. rewrite closed_parts. induction n using node_ind'; intros [Hr Hg].
    - eapply sim_ext; [reflexivity|reflexivity|apply sim_one].
    - eapply sim_ext; [reflexivity|reflexivity|apply sim_test].
    - eapply sim_ext; [reflexivity|reflexivity|apply (sim_test _ (fun i => Nat.eqb i 0))].
    - eapply sim_ext; [reflexivity|reflexivity|apply sim_test].
    - eapply sim_ext; [reflexivity|reflexivity|apply (sim_test _ (fun i => Nat.eqb i L))].
    - eapply sim_ext; [reflexivity|reflexivity|apply sim_test].
    - eapply sim_ext; [reflexivity|reflexivity|apply sim_char].
    - eapply sim_ext; [reflexivity|reflexivity|apply sim_char].
    - eapply sim_ext; [reflexivity|reflexivity|apply sim_char].
    - eapply sim_ext; [reflexivity|reflexivity|apply sim_char].
    - (* Neg *) cbn [fill]. specialize (IHn (conj Hr Hg)).
      destruct (is_class n) eqn:Hcl.
      + eapply sim_ext; [| |apply (sim_char _ (accepts cf (Neg n)))].
        * intros i e. cbn [Tracks.tracks fst snd]. now rewrite Hcl.
        * intros i. cbn [paths]. rewrite fill_class, Hcl. rewrite fill_of_class by assumption. reflexivity.
      + intros i e He. cbn [Tracks.tracks paths]. rewrite fill_class, Hcl.
        destruct (IHn i e He) as [<- _]. destruct (tracks n (i, e)); cbn; (split; [reflexivity|]); [|easy].
        intros y [<-|[]]. exact He.
    - (* Seq *) cbn [fill].
      assert (Hall : Forall (fun x => sim (agree set e0) (tracks x) (paths cf s (fill (text_of s e0) x))) l).
      { rewrite Forall_forall in H |- *. intros x Hx. apply H; auto. split.
        - intros b Hb. apply Hr. cbn [refs_of]. apply in_flat_map. eauto.
        - intros id nm Hi. apply Hg. cbn [groups_of]. apply in_flat_map. eauto. }
      clear H Hr Hg. induction Hall as [|x r Hx Hr IH].
      + eapply sim_ext; [reflexivity|reflexivity|apply sim_one].
      + eapply sim_ext; [| |apply (sim_flat _ _ _ _ _ Hx IH)]; [|reflexivity].
        intros i e. symmetry. apply tracks_Seq.
    - (* Alt *) cbn [fill].
      assert (Hall : Forall (fun x => sim (agree set e0) (tracks x) (paths cf s (fill (text_of s e0) x))) l).
      { rewrite Forall_forall in H |- *. intros x Hx. apply H; auto. split.
        - intros b Hb. apply Hr. cbn [refs_of]. apply in_flat_map. eauto.
        - intros id nm Hi. apply Hg. cbn [groups_of]. apply in_flat_map. eauto. }
      clear H Hr Hg. induction Hall as [|x r Hx Hr IH].
      + intros i e He. split; [reflexivity|easy].
      + eapply sim_ext; [| |apply (sim_app _ _ _ _ _ Hx IH)]; reflexivity.
    - (* Cap *) cbn [fill]. assert (IH : sim (agree set e0) (tracks n) (paths cf s (fill (text_of s e0) n))).
      { apply IHn. split; [exact Hr|]. intros i nm' Hi. apply Hg. cbn. auto. }
      intros i e He. destruct (IH i e He) as [E Hok]. cbn [Tracks.tracks paths]. split.
      + rewrite map_map. cbn [fst]. exact E.
      + intros y Hy. apply in_map_iff in Hy as (z & <- & Hz). cbn [snd].
        intros b Hb. rewrite (Hok z Hz b Hb).
        apply (with_group_agree set id nm (i, fst z) (snd z)); auto. apply Hg. cbn. auto.
    - (* Rep *) cbn [fill]. specialize (IHn (conj Hr Hg)).
      set (f := tracks n) in *. set (g := paths cf s (fill (text_of s e0) n)) in *.
      set (b := remaining hi lo).
      assert (Hm : sim (agree set e0) (fun z => more_on f (bound_fuel s b (fst z)) b z)
                     (fun i => greedy_paths s g b i)).
      { intros i e He. cbn [fst]. apply (sim_more _ _ _ (bound_fuel s b i) IHn b i e He). }
      assert (Hf : sim (agree set e0) (fun z => fewer_on f (bound_fuel s b (fst z)) b z)
                     (fun i => lazy_paths s g b i)).
      { intros i e He. cbn [fst]. apply (sim_fewer _ _ _ (bound_fuel s b i) IHn b i e He). }
      pose proof (sim_times _ _ _ (N.to_nat lo) IHn) as Ht.
      pose proof (sim_flat _ _ _ _ _ Ht Hm) as HM. pose proof (sim_flat _ _ _ _ _ Ht Hf) as HF.
      assert (HP : sim (agree set e0)
        (fun x => firstn 1 (flat_map (fun z => more_on f (bound_fuel s b (fst z)) b z) (times_on f (N.to_nat lo) x)))
        (fun i => firstn 1 (flat_map (greedy_paths s g b) (times g (N.to_nat lo) i)))).
      { intros i e He. destruct (HM i e He) as [E Hok]. split.
        - etransitivity; [symmetry; apply firstn_map|]. f_equal. exact E.
        - intros y Hy. apply Hok. eapply in_firstn; eauto. }
      intros i e He. cbn [Tracks.tracks paths]. fold f g b.
      destruct md; [destruct (ungreedy cf); [exact (HF i e He)|exact (HM i e He)]
                   |destruct (ungreedy cf); [exact (HM i e He)|exact (HF i e He)]
                   |exact (HP i e He)].
    - (* Backref *) intros i e He. cbn [Tracks.tracks fill]. rewrite occurs_text.
      assert (Hb : e0 (Backref id) = e (Backref id)).
      { apply He. apply listed_in, Hr. cbn. auto. }
      assert (Ht : text_of s e (Backref id) = text_of s e0 (Backref id))
        by (unfold text_of; now rewrite Hb).
      rewrite Ht. destruct (occurs _ _ _ _); (split; [reflexivity|]); [|easy]. intros y [<-|[]]. exact He.
    - (* NBackref *) intros i e He. cbn [Tracks.tracks fill]. rewrite occurs_text.
      assert (Hb : e0 (NBackref nm) = e (NBackref nm)).
      { apply He. apply listed_in, Hr. cbn. auto. }
      assert (Ht : text_of s e (NBackref nm) = text_of s e0 (NBackref nm))
        by (unfold text_of; now rewrite Hb).
      rewrite Ht. destruct (occurs _ _ _ _); (split; [reflexivity|]); [|easy]. intros y [<-|[]]. exact He.
    - (* Look *) specialize (IHn (conj Hr Hg)). intros i e He. cbn [fill Tracks.tracks paths]. destruct d.
      + destruct (IHn i e He) as [<- Hok]. destruct (tracks n (i, e)) as [|z l]; [split; [reflexivity|easy]|].
        cbn. split; [reflexivity|]. intros y [<-|[]]. cbn [snd]. apply Hok. left. reflexivity.
      + assert (E : forall k, existsb (fun z => Nat.eqb i (fst z)) (tracks n (k, e))
                              = existsb (Nat.eqb i) (paths cf s (fill (text_of s e0) n) k)).
        { intros k. destruct (IHn k e He) as [<- _]. clear. induction (tracks n (k, e)) as [|z r IH]; [reflexivity|].
          cbn. now rewrite IH. }
        assert (E' : existsb (fun k => existsb (fun z => Nat.eqb i (fst z)) (tracks n (k, e))) (List.seq 0 (S i))
                     = existsb (fun k => existsb (Nat.eqb i) (paths cf s (fill (text_of s e0) n) k)) (List.seq 0 (S i))).
        { clear -E. induction (List.seq 0 (S i)) as [|k r IH]; [reflexivity|]. cbn. now rewrite E, IH. }
        rewrite E'. clear E E'. destruct (existsb _ _); (split; [reflexivity|]); [|easy]. intros y [<-|[]]. exact He.
  Qed.
End Closed.

(** ** Groups and backreferences that are run *)

Lemma class_nothing n : is_class n = true -> groups_of n = [] /\ refs_of n = [].
Proof.
  induction n using node_ind'; cbn [is_class groups_of refs_of]; intros Hc; try easy; auto.
  - destruct l as [|x [|y r]]; try discriminate. inversion H; subst. destruct (H2 Hc) as [E1 E2].
    cbn. now rewrite E1, E2.
  - destruct l as [|x r]; [discriminate|]. apply andb_true_iff in Hc as [Hx Hr].
    rewrite forallb_forall in Hr. rewrite Forall_forall in H.
    assert (E : forall y, In y (x :: r) -> groups_of y = [] /\ refs_of y = []).
    { intros y Hy. apply H; auto. destruct Hy as [<-|Hy]; auto. }
    clear -E. induction (x :: r) as [|y l IH]; [auto|]. cbn.
    destruct (E y) as [-> ->]; [cbn; auto|]. cbn. apply IH. intros z Hz. apply E. cbn. auto.
  - destruct hi; [|discriminate]. apply andb_true_iff in Hc as [_ Hc]. auto.
Qed.

Lemma groups_of_invert n g : In g (groups_of (invert n)) <-> In g (groups_of n).
Proof.
  induction n using node_ind'; cbn [invert groups_of]; try reflexivity; auto.
  - rewrite reverse_pack_rev, !in_flat_map. rewrite Forall_forall in H. split.
    + intros (x & Hx & Hg). rewrite <- in_rev in Hx. apply in_map_iff in Hx as (y & <- & Hy).
      exists y. split; auto. now apply H.
    + intros (y & Hy & Hg). exists (invert y). rewrite <- in_rev. split; [now apply in_map|].
      now apply H.
  - rewrite !in_flat_map. rewrite Forall_forall in H. split.
    + intros (x & Hx & Hg). apply in_map_iff in Hx as (y & <- & Hy). exists y. split; auto. now apply H.
    + intros (y & Hy & Hg). exists (invert y). split; [now apply in_map|]. now apply H.
  - cbn. now rewrite IHn.
Qed.

Lemma name_eqb_eq a b : name_eqb a b = true -> a = b.
Proof.
  assert (H : forall x y, chars_eqb x y = true -> x = y).
  { induction x as [|c x IH]; intros [|d y] E; cbn in E; try discriminate; auto.
    apply andb_true_iff in E as [E1 E2]. apply Ascii.eqb_eq in E1. f_equal; auto. }
  destruct a, b; cbn; try discriminate; auto. intros E. f_equal. auto.
Qed.

Lemma wocc_group cf names rd v n r v' id y : wocc rd v n r v' id y ->
  forall f, compiles cf names f rd n = true ->
  exists nm, In (id, nm) (groups_of n) /\ nth_error names (N.to_nat id) = Some nm.
Proof.
  induction 1; intros f Hc; (destruct f as [|f]; [discriminate|]); cbn [compiles] in Hc; cbn [groups_of].
  - apply andb_true_iff in Hc as [Hc _]. apply andb_true_iff in Hc as [Hc _].
    destruct (nth_error names (N.to_nat id)) as [nm'|] eqn:E; [|discriminate].
    apply name_eqb_eq in Hc. subst nm'. exists nm. cbn. auto.
  - apply andb_true_iff in Hc as [_ Hc]. destruct (IHwocc f Hc) as (nm' & H1 & H2). exists nm'. cbn. auto.
  - assert (Hx : compiles cf names f rd x = true) by (destruct l; [easy|]; rewrite forallb_forall in Hc; auto).
    destruct (IHwocc f Hx) as (nm' & H1 & H2). exists nm'. split; auto. apply in_flat_map. eauto.
  - assert (Hx : compiles cf names f rd x = true) by (destruct l; [easy|]; rewrite forallb_forall in Hc; auto).
    destruct (IHwocc f Hx) as (nm' & H1 & H2). exists nm'. split; auto. apply in_flat_map. eauto.
  - apply (IHwocc f). apply andb_true_iff in Hc as [Hc _]. destruct hi as [h|]; auto.
    apply andb_true_iff in Hc as [_ Hc]. destruct (N.eqb_spec h 0); [subst; easy|]. exact Hc.
  - apply andb_true_iff in Hc as [_ Hc]. eauto.
  - eauto.
  - apply andb_true_iff in Hc as [_ Hc]. destruct (trivial x) eqn:T.
    + exfalso. rewrite trivial_is_class in T. apply class_nothing in T as [T _].
      assert (Hn : forall g, ~ In g (groups_of (invert x))).
      { intros g. rewrite groups_of_invert, T. easy. }
      clear -H Hn. assert (exists nm, In (i, nm) (groups_of (invert x))) as [nm Hin]; [|now apply Hn in Hin].
      clear Hn. induction H; cbn [groups_of]; try (destruct IHwocc as [nm' Hnm]);
        try (exists nm'; try apply in_flat_map; eauto; fail).
      * eexists. left. reflexivity.
      * exists nm'. cbn. auto.
      * rewrite groups_of_invert in Hnm. eauto.
    + destruct (IHwocc f Hc) as (nm' & H1 & H2). rewrite groups_of_invert in H1. eauto.
Qed.

Lemma bocc_plain rd v n r v' b : bocc rd v n r v' b -> v = false -> lookbehind_ok n = true ->
  r = rd /\ v' = false /\ In b (refs_of n).
Proof.
  induction 1; intros Hv Hl; cbn [lookbehind_ok refs_of] in *; auto.
  - repeat split; auto. cbn. auto.
  - repeat split; auto. cbn. auto.
  - rewrite forallb_forall in Hl. destruct IHbocc as (-> & -> & Hb); auto.
    repeat split; auto. apply in_flat_map. eauto.
  - rewrite forallb_forall in Hl. destruct IHbocc as (-> & -> & Hb); auto.
    repeat split; auto. apply in_flat_map. eauto.
  - exfalso. apply backref_free_bocc in H. rewrite backref_free_invert in H.
    assert (backref_free x = true); [|congruence]. clear -Hl.
    induction x using node_ind'; cbn [reversible backref_free] in *; auto.
    + rewrite forallb_forall in Hl |- *. rewrite Forall_forall in H. auto.
    + rewrite forallb_forall in Hl |- *. rewrite Forall_forall in H. auto.
    + destruct md; auto. cbn in Hl. destruct hi; [|discriminate]. apply andb_true_iff in Hl as [_ Hl].
      apply IHx. clear -Hl. induction x using node_ind'; cbn [is_class reversible] in *; auto; try discriminate.
      * destruct l as [|a [|b r]]; try discriminate. inversion H; subst. cbn. rewrite andb_true_r. auto.
      * destruct l as [|a r]; [discriminate|]. cbn [forallb]. inversion H; subst.
        apply andb_true_iff in Hl as [Ha Hr]. rewrite forallb_forall in Hr. rewrite Forall_forall in H3.
        rewrite H2 by assumption. cbn. apply forallb_forall. auto.
      * destruct md; auto; destruct hi; try discriminate; apply andb_true_iff in Hl as [_ Hl]; auto.
    + destruct (class_nothing x Hl) as [_ E]. clear -E.
      induction x using node_ind'; cbn [backref_free refs_of] in *; auto; try discriminate.
      * apply forallb_forall. rewrite Forall_forall in H. intros y Hy. apply H; auto.
        apply in_empty. intros b Hb. assert (Hin : In b (flat_map refs_of l)) by (apply in_flat_map; eauto).
        rewrite E in Hin. destruct Hin.
      * apply forallb_forall. rewrite Forall_forall in H. intros y Hy. apply H; auto.
        apply in_empty. intros b Hb. assert (Hin : In b (flat_map refs_of l)) by (apply in_flat_map; eauto).
        rewrite E in Hin. destruct Hin.
Qed.

Lemma bocc_refers cf names rd v n r v' b : bocc rd v n r v' b -> v = false -> lookbehind_ok n = true ->
  forall f, compiles cf names f rd n = true -> exists i, refers names b i.
Proof.
  induction 1; intros Hv Hl f Hc; (destruct f as [|f]; [discriminate|]); cbn [compiles lookbehind_ok] in *.
  - exists (N.to_nat id). reflexivity.
  - apply andb_true_iff in Hc as [_ Hc]. cbn. destruct (unique_position (Some nm) names); [eauto|discriminate].
  - apply andb_true_iff in Hc as [_ Hc]. eauto.
  - rewrite forallb_forall in Hl.
    assert (Hx : compiles cf names f rd x = true) by (destruct l; [easy|]; rewrite forallb_forall in Hc; auto).
    eauto.
  - rewrite forallb_forall in Hl.
    assert (Hx : compiles cf names f rd x = true) by (destruct l; [easy|]; rewrite forallb_forall in Hc; auto).
    eauto.
  - apply (IHbocc Hv Hl f). apply andb_true_iff in Hc as [Hc _]. destruct hi as [h|]; auto.
    apply andb_true_iff in Hc as [_ Hc]. destruct (N.eqb_spec h 0); [subst; easy|]. exact Hc.
  - apply andb_true_iff in Hc as [_ Hc]. eauto.
  - eauto.
  - exfalso. assert (Hb : bocc rd v (Look Behind x) r v' b) by now constructor.
    apply bocc_plain in Hb as (_ & _ & Hb); auto. cbn in Hb. clear -Hb Hl.
    induction x using node_ind'; cbn [reversible refs_of] in *; auto; try discriminate.
    + apply in_flat_map in Hb as (y & Hy & Hb). rewrite forallb_forall in Hl. rewrite Forall_forall in H. eauto.
    + apply in_flat_map in Hb as (y & Hy & Hb). rewrite forallb_forall in Hl. rewrite Forall_forall in H. eauto.
    + destruct md; auto. apply class_nothing in Hl as [_ Hl]. cbn in Hl. rewrite Hl in Hb. easy.
    + apply class_nothing in Hl as [_ Hl]. rewrite Hl in Hb. easy.
Qed.

Lemma unique_position_eq nm names i j : unique_position nm names = Some i ->
  nth_error names j = Some nm -> j = i.
Proof.
  unfold unique_position. intros Hu Hj.
  assert (Hin : In j (positions_of nm names 0)).
  { replace j with (0 + j) by lia. generalize 0 as o. clear Hu i. revert j Hj.
    induction names as [|x r IH]; intros j Hj o; [now destruct j|]. cbn [positions_of].
    destruct j as [|j]; cbn in Hj.
    - injection Hj as ->. assert (E : name_eqb nm nm = true).
      { clear. destruct nm as [t|]; [|reflexivity]. cbn. induction t as [|a t IHt]; [reflexivity|].
        cbn. now rewrite Ascii.eqb_refl. }
      rewrite E. cbn. left. lia.
    - apply in_or_app. right. replace (o + S j) with (S o + j) by lia. auto. }
  destruct (positions_of nm names 0) as [|a [|b r]]; try discriminate. injection Hu as ->.
  destruct Hin as [<-|[]]. reflexivity.
Qed.

Lemma unique_position_nth nm names i : unique_position nm names = Some i -> nth_error names i = Some nm.
Proof.
  unfold unique_position. intros Hu.
  assert (Hin : In i (positions_of nm names 0)).
  { destruct (positions_of nm names 0) as [|a [|b r]]; try discriminate. injection Hu as ->. cbn. auto. }
  clear Hu. assert (H : forall l o j, In j (positions_of nm l o) ->
    exists d, j = o + d /\ nth_error l d = Some nm).
  { clear. induction l as [|x r IH]; intros o j Hj; [easy|]. cbn [positions_of] in Hj.
    apply in_app_or in Hj as [Hj|Hj].
    - destruct (name_eqb nm x) eqn:E; [|easy]. apply name_eqb_eq in E. subst x.
      destruct Hj as [<-|[]]. exists 0. split; [lia|reflexivity].
    - destruct (IH _ _ Hj) as (d & -> & Hd). exists (S d). split; [lia|exact Hd]. }
  destruct (H _ _ _ Hin) as (d & -> & Hd). exact Hd.
Qed.

Lemma refers_calls names b i id nm : refers names b i -> nth_error names (N.to_nat id) = Some nm ->
  (i = N.to_nat id <-> calls b id nm = true).
Proof.
  destruct b; cbn [refers calls]; try easy; intros Hr Hn.
  - subst i. rewrite N.eqb_eq. split; [apply Nnat.N2Nat.inj|congruence].
  - split.
    + intros ->. apply unique_position_nth in Hr. rewrite Hn in Hr. injection Hr as ->.
      now apply same_text_eq.
    + destruct nm as [t|]; [|discriminate]. rewrite same_text_eq. intros ->.
      symmetry. eapply unique_position_eq; eauto.
Qed.

(** ** The matcher *)

Fixpoint first_of {X A} (kp : X -> option A) (l : list X) : option A :=
  match l with
  | [] => None
  | x :: r => match kp x with Some a => Some a | None => first_of kp r end
  end.

Lemma first_of_app {X A} (kp : X -> option A) l1 l2 :
  first_of kp (l1 ++ l2) = match first_of kp l1 with Some x => Some x | None => first_of kp l2 end.
Proof. induction l1 as [|x r IH]; cbn; [reflexivity|]. destruct (kp x); auto. Qed.

Lemma first_of_flat {X Y A} (kp : Y -> option A) (g : X -> list Y) l :
  first_of kp (flat_map g l) = first_of (fun x => first_of kp (g x)) l.
Proof.
  induction l as [|x r IH]; cbn; [reflexivity|]. rewrite first_of_app.
  destruct (first_of kp (g x)); auto.
Qed.

Lemma first_of_map {X Y A} (kp : Y -> option A) (g : X -> Y) l :
  first_of kp (map g l) = first_of (fun x => kp (g x)) l.
Proof. induction l as [|x r IH]; cbn; [reflexivity|]. now rewrite IH. Qed.

Lemma lookbehind_ok_plain n : lookbehind_ok n = true -> lookbehind_plain n = true.
Proof.
  induction n using node_ind'; cbn [lookbehind_ok lookbehind_plain]; auto.
  - rewrite !forallb_forall. rewrite Forall_forall in H. auto.
  - rewrite !forallb_forall. rewrite Forall_forall in H. auto.
  - destruct d; auto. clear IHn. induction n using node_ind'; cbn [reversible possessive_free]; auto.
    + rewrite !forallb_forall. rewrite Forall_forall in H. auto.
    + rewrite !forallb_forall. rewrite Forall_forall in H. auto.
    + destruct md; auto.
    + intros Hc. clear IHn. induction n using node_ind'; cbn [is_class possessive_free] in *; auto; try discriminate.
      * destruct l as [|a [|b r]]; try discriminate. inversion H; subst. cbn. rewrite andb_true_r. auto.
      * destruct l as [|a r]; [discriminate|]. cbn [forallb]. inversion H; subst.
        apply andb_true_iff in Hc as [Ha Hr]. rewrite forallb_forall in Hr. rewrite Forall_forall in H3.
        rewrite H2 by assumption. cbn. apply forallb_forall. auto.
      * destruct hi; [|discriminate]. destruct md; auto; apply andb_true_iff in Hc as [_ Hc']; auto.
Qed.

Lemma adq_weaken {A} (I1 I2 : caps -> Prop) (P : caps -> nat -> A -> Prop) o r :
  (forall c, I1 c -> I2 c) -> adq I1 P o r -> adq I2 P o r.
Proof. intros H. destruct o as [c e [|]| | |]; cbn; try easy. intros [H1 H2]. auto. Qed.

Lemma adq_none {A B} (I1 I2 : caps -> Prop) (P1 : caps -> nat -> A -> Prop) (P2 : caps -> nat -> B -> Prop) o r1 r2 :
  adq I1 P1 o r1 -> adq I2 P2 o r2 -> r1 = None -> r2 = None.
Proof.
  destruct o as [c e [|]| | |]; cbn; try easy. now intros (x & -> & _).
Qed.

(** The states with the same offset fail together. *)
Lemma first_of_offsets {X A} (kp : nat * X -> option A) (l : list (nat * X)) :
  (forall y z, In y l -> In z l -> fst y = fst z -> kp y = None -> kp z = None) ->
  first_of kp l
  = first_some (fun j => match find (fun y => Nat.eqb (fst y) j) l with Some y => kp y | None => None end)
      (map fst l).
Proof.
  enough (G : forall l' pre,
    (forall y z, In y (pre ++ l') -> In z (pre ++ l') -> fst y = fst z -> kp y = None -> kp z = None) ->
    (forall y, In y pre -> kp y = None) ->
    first_of kp l'
    = first_some (fun j => match find (fun y => Nat.eqb (fst y) j) (pre ++ l') with
                           | Some y => kp y | None => None end) (map fst l')).
  { intros H. apply (G l []); [exact H|easy]. }
  clear l. induction l' as [|y r IH]; intros pre H Hpre; [reflexivity|]. cbn [first_of map first_some].
  assert (E : match find (fun z => Nat.eqb (fst z) (fst y)) (pre ++ y :: r) with
              | Some z => kp z | None => None end = kp y).
  { destruct (find (fun z => Nat.eqb (fst z) (fst y)) pre) as [z|] eqn:Ez.
    - assert (F : find (fun z => Nat.eqb (fst z) (fst y)) (pre ++ y :: r) = Some z).
      { clear -Ez. induction pre as [|w p IHp]; [discriminate|]. cbn in *.
        destruct (Nat.eqb (fst w) (fst y)); auto. }
      rewrite F. apply find_some in Ez as [Hz Ez]. apply Nat.eqb_eq in Ez.
      rewrite Hpre by assumption. symmetry. apply (H z y); auto; apply in_or_app; cbn; auto.
    - assert (F : find (fun z => Nat.eqb (fst z) (fst y)) (pre ++ y :: r) = Some y).
      { clear -Ez. induction pre as [|w p IHp]; cbn in *; [now rewrite Nat.eqb_refl|].
        destruct (Nat.eqb (fst w) (fst y)); [discriminate|auto]. }
      now rewrite F. }
  rewrite E. destruct (kp y) eqn:Ey; [reflexivity|].
  rewrite (IH (pre ++ [y])).
  - rewrite <- app_assoc. reflexivity.
  - rewrite <- app_assoc. exact H.
  - intros z Hz. apply in_app_or in Hz as [Hz|[<-|[]]]; auto.
Qed.

Section Track.
  Variable cf : config.
  Variable names : list group_name.
  Variable base : list ascii.
  Variable refs : list node.
  Local Notation L := (length base).
  Local Notation tracks := (tracks cf base).
  Hypothesis Hrefs : forall b, In b refs -> is_ref b.

  (** The captures hold what the path has captured, for all groups that are
      called. *)
  Definition Inv (e : env) (c : caps) : Prop :=
    length c = length names
    /\ forall b v, In b refs -> e b = Some v -> forall i, refers names b i ->
         nth_error c i = Some (Some v) /\ valid_range base (Some v).

  Definition extends (e e' : env) : Prop := forall b v, In b refs -> e b = Some v -> e' b = Some v.

  Lemma Inv_extends e e' c : extends e e' -> Inv e' c -> Inv e c.
  Proof. intros He [H1 H2]. split; auto. intros b v Hb E. apply H2; auto. Qed.

  Definition fits (e : env) (set seen : list node) : Prop :=
    (forall b, In b set -> In b refs /\ e b <> None)
    /\ (forall b, In b refs -> e b <> None -> In b seen).

  Lemma closed_more set n : (forall b, In b set -> In b refs) -> closed refs set n = true ->
    closed refs refs n = true.
  Proof.
    rewrite !closed_parts. intros Hs [H1 H2]. split; auto.
    intros b Hb. apply in_listed; [eapply refs_of_ref; eauto|]. apply Hs. apply listed_in; auto.
  Qed.

  Lemma closed_agree set n e i y : (forall b, In b set -> In b refs) -> closed refs set n = true ->
    In y (tracks n (i, e)) -> agree refs e (snd y).
  Proof.
    intros Hs Hc Hy. pose proof (sim_closed cf base refs refs n e (fun b H => H) (closed_more _ _ Hs Hc)) as Hsim.
    apply (Hsim i e); auto. intros b _. reflexivity.
  Qed.

  Lemma agree_Inv e e' c : agree refs e e' -> Inv e c <-> Inv e' c.
  Proof.
    intros Ha. unfold Inv. split; intros [H1 H2]; (split; [assumption|]); intros b v Hb E; apply H2; auto.
    - now rewrite Ha.
    - now rewrite <- Ha.
  Qed.

  (** Clearing or storing a group that nobody calls. *)
  Lemma Inv_set e id nm v c c' : nth_error names (N.to_nat id) = Some nm ->
    (forall b, In b refs -> e b <> None -> calls b id nm = false) ->
    Inv e c -> set_cell (N.to_nat id) v c = Some c' -> Inv e c'.
  Proof.
    intros Hn Hcl [Hl Hi] E. split; [apply set_cell_length in E; congruence|].
    intros b w Hb He i Hr. rewrite (set_cell_nth _ _ _ _ i E).
    destruct (Nat.eqb_spec i (N.to_nat id)) as [Ei|_]; [|now apply (Hi b w)].
    exfalso. apply (refers_calls names b i id nm Hr Hn) in Ei. rewrite Hcl in Ei; congruence.
  Qed.

  Definition uncalled (id : N) : Prop :=
    exists nm, nth_error names (N.to_nat id) = Some nm /\ callers refs id nm = [].

  Lemma no_callers id nm b : callers refs id nm = [] -> In b refs -> calls b id nm = false.
  Proof.
    intros Hc Hb. destruct (calls b id nm) eqn:E; [|reflexivity].
    assert (Hin : In b (callers refs id nm)) by (apply filter_In; auto). rewrite Hc in Hin. destruct Hin.
  Qed.

  Lemma track_closed f n set e : closed refs set n = true ->
    compiles cf names f 0 n = true -> lines_ok cf n -> possessive_ok n = true -> lookbehind_ok n = true ->
    (forall b, In b set -> In b refs /\ e b <> None) ->
    forall A (P : caps -> nat -> A -> Prop) i c k kp, i <= L -> Inv e c ->
      (forall y c', In y (tracks n (i, e)) -> Inv (snd y) c' -> adq (Inv (snd y)) P (k (fst y) c') (kp y)) ->
      adq (Inv e) P (m cf names base f 0 n i c k) (first_of kp (tracks n (i, e))).
  Proof.
    intros Hcl Hcm Hl Hp Hb Hset A P i c k kp Hi Hinv Hk.
    assert (Hs : forall b, In b set -> In b refs) by (intros b H; now apply Hset).
    pose proof (closed_more set n Hs Hcl) as Hclr.
    destruct (sim_closed cf base refs refs n e (fun b H => H) Hclr i e (fun b _ => eq_refl)) as [Ef Hag].
    assert (Hw : walk cf base false false (fill (text_of base e) n) i = paths cf base (fill (text_of base e) n) i).
    { rewrite walk_order.
      - rewrite as_read_same; [reflexivity|]. now apply fill_lookbehind_ok.
      - now apply fill_possessive_ok.
      - apply lookbehind_ok_plain. now apply fill_lookbehind_ok.
      - apply fill_well_formed. eapply compiles_well_formed. eassumption.
      - assumption. }
    set (kp0 := fun j => match find (fun y => Nat.eqb (fst y) j) (tracks n (i, e)) with
                         | Some y => kp y | None => None end).
    assert (Ek : first_of kp (tracks n (i, e)) = first_some kp0 (map fst (tracks n (i, e)))).
    { apply first_of_offsets. intros y z Hy Hz E.
      apply (adq_none (Inv (snd y)) (Inv (snd z)) P P (k (fst y) c)).
      - apply Hk; auto. apply (agree_Inv e); auto.
      - rewrite E. apply Hk; auto. apply (agree_Inv e); auto. }
    assert (Ee : map fst (tracks n (i, e)) = ends cf base (text_of base e) 0 false n i).
    { etransitivity; [exact Ef|]. now rewrite <- Hw, <- ends_top. }
    rewrite Ek, Ee.
    refine (exact_filled cf names base (text_of base e) (Inv e) uncalled (fun _ id _ _ => uncalled id) _ _ _
              f 0 false n Hcm Hl _ _ A P i c k kp0 Hi Hinv _).
    - intros id c0 _ [H _]. exact H.
    - intros id c0 c0' (nm & Hn & Hc) Hi0 E. unfold clear_cell in E.
      destruct (nth_error c0 (N.to_nat id)); [|discriminate].
      eapply Inv_set; eauto. intros b Hbr _. eapply no_callers; eauto.
    - intros r id nm b t c0 c0' Hi0 _ _ (nm' & Hn & Hc) E. unfold store in E.
      rewrite Hn in E. destruct (name_eqb nm nm') eqn:En; [|discriminate].
      destruct r as [|[|r]]; try discriminate;
        (eapply Inv_set; [exact Hn| |exact Hi0|exact E]; intros b' Hbr _; eapply no_callers; eauto).
    - intros r v' b Ho. pose proof (bocc_plain _ _ _ _ _ _ Ho eq_refl Hb) as (-> & -> & Hin).
      split; [auto|]. destruct (bocc_refers cf names _ _ _ _ _ _ Ho eq_refl Hb f Hcm) as [j Hj].
      exists j. split; [exact Hj|]. intros c0 [_ Hi0].
      apply closed_parts in Hcl as [Hcl _]. apply Hcl, listed_in in Hin.
      destruct (Hset b Hin) as [Hbr Hne]. destruct (e b) as [[p q]|] eqn:Eb; [|congruence].
      destruct (Hi0 b (p, q) Hbr Eb j Hj) as [H1 H2]. exists (Some (p, q)). repeat split; auto; try apply H2.
      unfold text_of. rewrite Eb. reflexivity.
    - intros r v' id y Ho. destruct (wocc_group cf names _ _ _ _ _ _ _ Ho f Hcm) as (nm & Hg & Hn).
      assert (Hu : uncalled id). { exists nm. split; auto. apply closed_parts in Hcl as [_ Hcl]. eauto. }
      split; [exact Hu|]. intros. exact Hu.
    - intros j c' Hj Hi'. rewrite <- Ee in Hj. apply in_map_iff in Hj as (y & <- & Hy).
      unfold kp0. destruct (find _ _) as [z|] eqn:Ez.
      + apply find_some in Ez as [Hz Ez]. apply Nat.eqb_eq in Ez. rewrite <- Ez.
        apply (adq_weaken (Inv (snd z))); [intros c0 Hc0; eapply agree_Inv; eauto|].
        apply Hk; auto. apply (agree_Inv e); auto.
      + exfalso. apply (find_none _ _ Ez) in Hy. now rewrite Nat.eqb_refl in Hy.
  Qed.

  (** ** Offsets only grow *)

  Definition bounded_on (f : state -> list state) : Prop :=
    forall i e y, i <= L -> In y (f (i, e)) -> i <= fst y <= L.

  Lemma bounded_flat f g : bounded_on f -> bounded_on g -> bounded_on (fun x => flat_map g (f x)).
  Proof.
    intros Hf Hg i e y Hi Hy. apply in_flat_map in Hy as ([j e'] & Hz & Hy).
    apply Hf in Hz; auto. cbn in Hz. apply Hg in Hy; lia.
  Qed.

  Lemma bounded_one : bounded_on (fun x => [x]).
  Proof. intros i e y Hi [<-|[]]. cbn. lia. Qed.

  Lemma bounded_app f g : bounded_on f -> bounded_on g -> bounded_on (fun x => f x ++ g x).
  Proof. intros Hf Hg i e y Hi Hy. apply in_app_or in Hy as [Hy|Hy]; eauto. Qed.

  Lemma bounded_times f n : bounded_on f -> bounded_on (times_on f n).
  Proof. intros H. induction n as [|n IH]; [apply bounded_one|]. cbn. now apply bounded_flat. Qed.

  Lemma bounded_guard f g : bounded_on f -> bounded_on g ->
    bounded_on (fun x => flat_map (fun y => if Nat.eqb (fst x) (fst y) then [] else g y) (f x)).
  Proof.
    intros Hf Hg i e y Hi Hy. apply in_flat_map in Hy as ([j e'] & Hz & Hy). cbn [fst] in Hy.
    apply Hf in Hz; auto. cbn in Hz. destruct (Nat.eqb i j); [destruct Hy|]. apply Hg in Hy; lia.
  Qed.

  Lemma bounded_more f fu : bounded_on f -> forall b, bounded_on (more_on f fu b).
  Proof.
    intros H. induction fu as [|fu IH]; intros b; [easy|]. destruct b as [n|]; cbn [more_on].
    - destruct (N.eqb n 0); [apply bounded_one|]. apply bounded_app; [|apply bounded_one]. now apply bounded_flat.
    - apply (bounded_app (fun x => flat_map (fun y => if Nat.eqb (fst x) (fst y) then [] else more_on f fu Inf y) (f x)));
        [|apply bounded_one]. now apply bounded_guard.
  Qed.

  Lemma bounded_fewer f fu : bounded_on f -> forall b, bounded_on (fewer_on f fu b).
  Proof.
    intros H. induction fu as [|fu IH]; intros b; [easy|]. destruct b as [n|]; cbn [fewer_on].
    - destruct (N.eqb n 0); [apply bounded_one|].
      apply (bounded_app (fun x => [x]) (fun x => flat_map (fewer_on f fu (Fin (n - 1))) (f x)));
        [apply bounded_one|]. now apply bounded_flat.
    - apply (bounded_app (fun x => [x])
        (fun x => flat_map (fun y => if Nat.eqb (fst x) (fst y) then [] else fewer_on f fu Inf y) (f x)));
        [apply bounded_one|]. now apply bounded_guard.
  Qed.

  Lemma occurs_le t : forall i, i <= L -> occurs cf base t i = true -> i + length t <= L.
  Proof.
    induction t as [|a t IH]; intros i Hi Ho; cbn [occurs length] in *; [lia|].
    apply andb_true_iff in Ho as [H1 H2]. apply char_at_lt in H1. apply IH in H2; lia.
  Qed.

  Lemma tracks_bounded n : bounded_on (tracks n).
  Proof.
    induction n using node_ind'; intros i e y Hi Hy; cbn [Tracks.tracks] in Hy.
    - destruct Hy as [<-|[]]. cbn. lia.
    - destruct (at_line_start _ _ _); [|easy]. destruct Hy as [<-|[]]. cbn. lia.
    - destruct (Nat.eqb _ _); [|easy]. destruct Hy as [<-|[]]. cbn. lia.
    - destruct (at_line_end _ _ _); [|easy]. destruct Hy as [<-|[]]. cbn. lia.
    - destruct (Nat.eqb _ _); [|easy]. destruct Hy as [<-|[]]. cbn. lia.
    - destruct (at_word_boundary _ _); [|easy]. destruct Hy as [<-|[]]. cbn. lia.
    - destruct (char_at _ _ _) eqn:E; [|easy]. apply char_at_lt in E. destruct Hy as [<-|[]]. cbn. lia.
    - destruct (char_at _ _ _) eqn:E; [|easy]. apply char_at_lt in E. destruct Hy as [<-|[]]. cbn. lia.
    - destruct (char_at _ _ _) eqn:E; [|easy]. apply char_at_lt in E. destruct Hy as [<-|[]]. cbn. lia.
    - destruct (char_at _ _ _) eqn:E; [|easy]. apply char_at_lt in E. destruct Hy as [<-|[]]. cbn. lia.
    - destruct (is_class n).
      + destruct (char_at _ _ _) eqn:E; [|easy]. apply char_at_lt in E. destruct Hy as [<-|[]]. cbn. lia.
      + destruct (tracks n (i, e)); [|easy]. destruct Hy as [<-|[]]. cbn. lia.
    - revert i e y Hi Hy. change (bounded_on (tracks (Seq l))).
      induction H as [|x r Hx Hr IH]; [apply bounded_one|].
      intros i e y Hi Hy. rewrite tracks_Seq in Hy. exact (bounded_flat _ _ Hx IH i e y Hi Hy).
    - apply in_flat_map in Hy as (x & Hx & Hy). rewrite Forall_forall in H. exact (H x Hx i e y Hi Hy).
    - apply in_map_iff in Hy as (z & <- & Hz). cbn. exact (IHn i e z Hi Hz).
    - set (b := remaining hi lo) in *.
      assert (Hm : bounded_on (fun z => more_on (tracks n) (bound_fuel base b (fst z)) b z)).
      { intros j e' z Hj Hz. cbn [fst] in Hz. exact (bounded_more _ _ IHn b j e' z Hj Hz). }
      assert (Hf : bounded_on (fun z => fewer_on (tracks n) (bound_fuel base b (fst z)) b z)).
      { intros j e' z Hj Hz. cbn [fst] in Hz. exact (bounded_fewer _ _ IHn b j e' z Hj Hz). }
      pose proof (bounded_times _ (N.to_nat lo) IHn) as Ht.
      pose proof (bounded_flat _ _ Ht Hm) as HM. pose proof (bounded_flat _ _ Ht Hf) as HF.
      destruct md; [destruct (ungreedy cf)|destruct (ungreedy cf)|apply in_firstn in Hy];
        first [exact (HM i e y Hi Hy)|exact (HF i e y Hi Hy)].
    - destruct (occurs _ _ _ _) eqn:E; [|easy]. apply occurs_le in E; auto. destruct Hy as [<-|[]]. cbn. lia.
    - destruct (occurs _ _ _ _) eqn:E; [|easy]. apply occurs_le in E; auto. destruct Hy as [<-|[]]. cbn. lia.
    - destruct d.
      + destruct (tracks n (i, e)); [easy|]. destruct Hy as [<-|[]]. cbn. lia.
      + destruct (existsb _ _); [|easy]. destruct Hy as [<-|[]]. cbn. lia.
  Qed.

  (** ** What is captured on a path *)

  Fixpoint scope_seq (set seen : list node) (l : list node) : option (list node * list node) :=
    match l with
    | [] => Some (set, seen)
    | x :: r =>
        match scope refs set seen x with
        | Some (set', seen') => scope_seq set' seen' r
        | None => None
        end
    end.

  Definition scope_alt (set seen : list node) :=
    fix all (seen' l : list node) : option (list node * list node) :=
      match l with
      | [] => Some (set, seen')
      | x :: r =>
          match scope refs set seen x with
          | Some (_, seen2) => all (seen2 ++ seen') r
          | None => None
          end
      end.

  Lemma scope_cases set seen n o : scope refs set seen n = Some o ->
    closed refs set n = true /\ o = (set, seen)
    \/ match n with
       | Cap id nm x => exists set1 seen1, scope refs set seen x = Some (set1, seen1)
           /\ (forall b, In b (callers refs id nm) -> ~ In b seen1)
           /\ o = (callers refs id nm ++ set1, callers refs id nm ++ seen1)
       | Seq l => scope_seq set seen l = Some o
       | Alt l => scope_alt set seen seen l = Some o
       | Look Ahead x => scope refs set seen x = Some o
       | Rep md lo hi x => md = Possessive /\ lo = 1%N /\ hi = Fin 1 /\ scope refs set seen x = Some o
       | _ => False
       end.
  Proof.
    intros H. destruct (closed refs set n) eqn:C.
    { left. split; [reflexivity|]. destruct n; cbn [scope] in H; rewrite C in H; congruence. }
    right. destruct n; cbn [scope] in H; rewrite C in H; try discriminate; try exact H.
    - destruct (scope refs set seen n) as [[set1 seen1]|]; [|discriminate].
      destruct (existsb (listed seen1) (callers refs id name)) eqn:E; [discriminate|].
      injection H as <-. exists set1, seen1. repeat split; auto.
      intros b Hb Hin. rewrite existsb_false in E. specialize (E b Hb).
      rewrite in_listed in E; [discriminate| |assumption]. apply Hrefs. apply filter_In in Hb. apply Hb.
    - destruct mode; try discriminate. destruct lo as [|[?|?|]]; try discriminate.
      destruct hi as [[|[?|?|]]|]; try discriminate. auto.
    - destruct d; [exact H|discriminate].
  Qed.

  Lemma extends_refl e : extends e e.
  Proof. intros b v _ E. exact E. Qed.
  Lemma extends_trans e1 e2 e3 : extends e1 e2 -> extends e2 e3 -> extends e1 e3.
  Proof. intros H1 H2 b v Hb E. auto. Qed.

  Lemma scope_step n : forall set seen set' seen' e i y,
    scope refs set seen n = Some (set', seen') -> fits e set seen -> In y (tracks n (i, e)) ->
    fits (snd y) set' seen' /\ extends e (snd y).
  Proof.
    induction n using node_ind'; intros set seen set' seen' e i y Hsc Hf Hy;
      (apply scope_cases in Hsc as [[Hcl Ho]|Hsc];
       [injection Ho as -> ->;
        assert (Ha : agree refs e (snd y)) by (eapply closed_agree; [|exact Hcl|exact Hy]; intros q Hb; now apply Hf);
        split;
        [destruct Hf as [H1 H2]; split;
         [intros q Hb; destruct (H1 q Hb) as [Hb1 Hb2]; split; [assumption|]; now rewrite <- Ha
         |intros q Hb Hne; apply H2; auto; now rewrite Ha]
        |intros q v Hb E; now rewrite <- Ha]|]); try contradiction.
    - (* Seq *) revert set seen set' seen' e i y Hsc Hf Hy.
      induction H as [|x r Hx Hr IH]; intros set seen set' seen' e i y Hsc Hf Hy.
      + cbn in Hsc. injection Hsc as -> ->. destruct Hy as [<-|[]]. split; [exact Hf|apply extends_refl].
      + rewrite tracks_Seq in Hy. apply in_flat_map in Hy as ([j e'] & Hz & Hy).
        cbn [scope_seq] in Hsc. destruct (scope refs set seen x) as [[set1 seen1]|] eqn:E; [|discriminate].
        destruct (Hx _ _ _ _ _ _ _ E Hf Hz) as [Hf1 He1]. cbn [snd] in *.
        destruct (IH _ _ _ _ _ _ _ Hsc Hf1 Hy) as [Hf2 He2]. split; auto. eapply extends_trans; eauto.
    - (* Alt *) rewrite tracks_Alt in Hy.
      assert (G : forall l acc, (forall x, In x l -> In x l) -> Forall (fun n => forall set seen set' seen' e i y,
          scope refs set seen n = Some (set', seen') -> fits e set seen -> In y (tracks n (i, e)) ->
          fits (snd y) set' seen' /\ extends e (snd y)) l ->
        scope_alt set seen acc l = Some (set', seen') -> 
        set' = set /\ (forall b, In b acc -> In b seen')
        /\ (In y (flat_map (fun x => tracks x (i, e)) l) ->
            extends e (snd y) /\ forall b, In b refs -> snd y b <> None -> In b seen')).
      { clear H Hsc Hy l. induction l as [|x r IH]; intros acc _ Hall Hsc.
        - cbn in Hsc. injection Hsc as <- <-. repeat split; auto; easy.
        - inversion Hall as [|? ? Hx Hr]; subst. cbn [scope_alt] in Hsc.
          destruct (scope refs set seen x) as [[set1 seen1]|] eqn:E; [|discriminate].
          destruct (IH _ (fun _ H => H) Hr Hsc) as (H1 & H2 & H3). repeat split; auto.
          + intros b Hb. apply H2. apply in_or_app. auto.
          + cbn in H. apply in_app_or in H as [H|H]; [|now apply H3].
            now apply (Hx _ _ _ _ _ _ _ E Hf H).
          + cbn in H. apply in_app_or in H as [H|H]; [|now apply H3].
            intros b Hb Hne. apply H2, in_or_app. left.
            now apply (Hx _ _ _ _ _ _ _ E Hf H). }
      destruct (G l seen (fun _ H => H) H Hsc) as (-> & H2 & H3). destruct (H3 Hy) as [He Hs].
      split; [|exact He]. split; [|exact Hs]. intros b Hb. destruct Hf as [Hf1 _].
      destruct (Hf1 b Hb) as [Hb1 Hb2]. split; auto. destruct (e b) as [v|] eqn:Eb; [|congruence].
      rewrite (He b v Hb1 Eb). discriminate.
    - (* Cap *) destruct Hsc as (set1 & seen1 & Hsc & Hnew & Ho). injection Ho as -> ->.
      cbn [Tracks.tracks] in Hy. apply in_map_iff in Hy as (z & <- & Hz). cbn [snd].
      destruct (IHn _ _ _ _ _ _ _ Hsc Hf Hz) as [[Hf1 Hf2] He]. split; [split|].
      + intros b Hb. unfold with_group. apply in_app_or in Hb as [Hb|Hb].
        * apply filter_In in Hb as [Hb Hc]. rewrite Hc. split; [assumption|discriminate].
        * destruct (Hf1 b Hb) as [H1 H2]. split; auto. destruct (calls b id nm); [discriminate|assumption].
      + intros b Hb. unfold with_group. intros Hne. apply in_or_app.
        destruct (calls b id nm) eqn:Ec; [left; apply filter_In; auto|right; auto].
      + intros b v Hb E. unfold with_group. destruct (calls b id nm) eqn:Ec; [|now apply He].
        exfalso. apply (Hnew b); [apply filter_In; auto|]. apply Hf2; auto. rewrite (He b v Hb E). discriminate.
    - (* Rep *) destruct Hsc as (-> & -> & -> & Hsc).
      apply (IHn _ _ _ _ _ i y Hsc Hf). 
      cbn [Tracks.tracks] in Hy. apply in_firstn in Hy. cbn [N.to_nat Pos.to_nat Pos.iter_op remaining] in Hy.
      change (1 - 1)%N with 0%N in Hy. change (Pos.to_nat 1) with 1 in Hy. cbn [times_on] in Hy.
      apply in_flat_map in Hy as (z & Hz & Hy). apply in_flat_map in Hz as (w & Hw & Hz).
      destruct Hz as [<-|[]]. cbn in Hy. destruct Hy as [<-|[]]. exact Hw.
    - (* Look *) destruct d; [|contradiction]. cbn [Tracks.tracks] in Hy.
      destruct (tracks n (i, e)) as [|z l] eqn:E; [destruct Hy|]. destruct Hy as [<-|[]]. cbn [snd].
      apply (IHn _ _ _ _ _ i z Hsc Hf). rewrite E. cbn. auto.
  Qed.
  (** ** Following the path *)

  Lemma class_closed set n : is_class n = true -> closed refs set n = true.
  Proof.
    intros H. apply class_nothing in H as [H1 H2]. apply closed_parts. rewrite H1, H2. split; easy.
  Qed.

  Lemma scope_seen n : forall set seen set' seen', scope refs set seen n = Some (set', seen') ->
    forall b, In b seen -> In b seen'.
  Proof.
    induction n using node_ind'; intros set seen set' seen' Hsc q Hq;
      (apply scope_cases in Hsc as [[Hcl Ho]|Hsc]; [now injection Ho as -> ->|]); try contradiction.
    - revert set seen Hsc Hq. induction H as [|x r Hx Hr IH]; intros set seen Hsc Hq; cbn [scope_seq] in Hsc.
      + now injection Hsc as -> ->.
      + destruct (scope refs set seen x) as [[set1 seen1]|] eqn:E; [|discriminate].
        apply (IH _ _ Hsc). exact (Hx _ _ _ _ E q Hq).
    - assert (G : forall l acc, scope_alt set seen acc l = Some (set', seen') -> In q acc -> In q seen').
      { clear. induction l as [|x r IH]; intros acc Hsc Hq; cbn [scope_alt] in Hsc.
        - now injection Hsc as -> ->.
        - destruct (scope refs set seen x) as [[set1 seen1]|] eqn:E; [|discriminate].
          apply (IH _ Hsc). apply in_or_app. auto. }
      now apply (G l seen).
    - destruct Hsc as (set1 & seen1 & Hsc & _ & Ho). injection Ho as -> ->. apply in_or_app. right. eauto.
    - destruct Hsc as (_ & _ & _ & Hsc). eauto.
    - destruct d; [eauto|contradiction].
  Qed.

  (** [track f]: with fuel [f] the matcher follows the states. *)
  Definition follows (n : node) (mx : nat -> caps -> (nat -> caps -> outcome) -> outcome) (e : env) : Prop :=
    forall A (P : caps -> nat -> A -> Prop) i c k kp, i <= L -> Inv e c ->
      (forall y c', In y (tracks n (i, e)) -> Inv (snd y) c' -> adq (Inv (snd y)) P (k (fst y) c') (kp y)) ->
      adq (Inv e) P (mx i c k) (first_of kp (tracks n (i, e))).

  (** The state reached first. *)
  Lemma follows_run n mx e i c : follows n mx e -> i <= L -> Inv e c ->
    adq (Inv e) (fun c' j y => j = fst y /\ Inv (snd y) c') (mx i c success) (hd_error (tracks n (i, e))).
  Proof.
    intros H Hi Hc.
    assert (E : first_of (@Some state) (tracks n (i, e)) = hd_error (tracks n (i, e)))
      by now destruct (tracks n (i, e)).
    rewrite <- E. apply H; auto. intros y c' _ Hc'. exists y. auto.
  Qed.

  Theorem track : forall f n set seen o e,
    scope refs set seen n = Some o -> fits e set seen ->
    compiles cf names f 0 n = true -> lines_ok cf n -> possessive_ok n = true -> lookbehind_ok n = true ->
    follows n (m cf names base f 0 n) e.
  Proof.
    induction f as [|f IH]; intros n set seen [set' seen'] e Hsc Hf Hcm Hl Hp Hb; [discriminate|].
    destruct (scope_cases _ _ _ _ Hsc) as [[Hcl Ho]|Hsc'].
    { unfold follows. eapply track_closed; eauto. apply Hf. }
    destruct n; try contradiction.
    - (* Seq *)
      cbn [possessive_ok lookbehind_ok] in Hp, Hb.
      intros A P i c k kp. change (m cf names base (S f) 0 (Seq l)) with (seq_match cf base (m cf names base f 0) l).
      assert (Hne : l <> []) by (cbn in Hcm; now destruct l).
      clear Hsc. revert set seen e Hsc' Hf Hcm Hl Hp Hb Hne i c k kp.
      induction l as [|x r IHl]; [easy|]. intros set seen e Hsc Hf Hcm Hl Hp Hb _ i c k kp Hi Hc Hk.
      cbn [scope_seq] in Hsc. destruct (scope refs set seen x) as [[set1 seen1]|] eqn:Ex; [|discriminate].
      cbn [compiles] in Hcm. pose proof (lines_ok_list cf (x :: r) Hl) as Hll.
      inversion Hll as [|? ? Hlx Hlr]; subst.
      pose proof Hcm as Hcm'. pose proof Hp as Hp'. pose proof Hb as Hb'.
      cbn [forallb] in Hcm, Hp, Hb. apply andb_true_iff in Hcm as [Hcx Hcr], Hp as [Hpx Hpr], Hb as [Hbx Hbr].
      pose proof (IH x set seen _ e Ex Hf Hcx Hlx Hpx Hbx) as Hx.
      destruct r as [|y r'].
      + cbn [seq_match].
        assert (E : tracks (Seq [x]) (i, e) = tracks x (i, e)).
        { rewrite tracks_Seq. clear. induction (tracks x (i, e)) as [|z l IH]; [reflexivity|]. cbn [flat_map].
          rewrite IH. now destruct z. }
        rewrite E in *. now apply Hx.
      + remember (y :: r') as r eqn:Er.
        destruct (forallb trivial (x :: r)) eqn:T.
        * change (seq_match cf base (m cf names base f 0) (x :: r)) with (m cf names base (S f) 0 (Seq (x :: r))).
          assert (Hcl : closed refs set (Seq (x :: r)) = true).
          { apply closed_parts. cbn [refs_of groups_of]. rewrite forallb_forall in T. split.
            - intros b Hin. apply in_flat_map in Hin as (z & Hz & Hin). specialize (T z Hz).
              rewrite trivial_is_class in T. apply class_nothing in T as [_ T]. now rewrite T in Hin.
            - intros id nm Hin. apply in_flat_map in Hin as (z & Hz & Hin). specialize (T z Hz).
              rewrite trivial_is_class in T. apply class_nothing in T as [T _]. now rewrite T in Hin. }
          refine (track_closed (S f) (Seq (x :: r)) set e Hcl Hcm' Hl Hp' Hb' _ A P i c k kp Hi Hc Hk).
          apply Hf.
        * rewrite seq_match_cons by (subst; discriminate). rewrite T. rewrite tracks_Seq.
          rewrite first_of_flat. apply Hx; auto. intros [j e'] c' Hy Hc'. cbn [fst snd].
          destruct (scope_step _ _ _ _ _ _ _ _ Ex Hf Hy) as [Hf1 _]. cbn [snd] in Hf1.
          assert (Hj : i <= j <= L) by exact (tracks_bounded x i e (j, e') Hi Hy).
          apply (IHl set1 seen1); auto; try lia.
          -- subst r. exact Hcr.
          -- destruct Hl as [Hl|[Hl|Hl]]; [left|right; left|right; right]; auto.
             cbn [has_begin_line existsb] in Hl. now apply orb_false_iff in Hl as [_ Hl].
          -- subst r. discriminate.
          -- intros z c'' Hz Hc''. apply Hk; auto. rewrite tracks_Seq. apply in_flat_map. eauto.
    - (* Alt *)
      cbn [possessive_ok lookbehind_ok] in Hp, Hb.
      intros A P i c k kp. change (m cf names base (S f) 0 (Alt l)) with (alt_match cf base (m cf names base f 0) l).
      assert (Hne : l <> []) by (cbn in Hcm; now destruct l).
      clear Hsc. revert Hsc' Hcm Hl Hp Hb Hne c. generalize seen at 2 as acc.
      induction l as [|x r IHl]; [easy|]. intros acc Hsc Hcm Hl Hp Hb _ c Hi Hc Hk.
      cbn [scope_alt] in Hsc. destruct (scope refs set seen x) as [[set1 seen1]|] eqn:Ex; [|discriminate].
      cbn [compiles] in Hcm. pose proof (lines_ok_list cf (x :: r) Hl) as Hll.
      inversion Hll as [|? ? Hlx Hlr]; subst.
      pose proof Hcm as Hcm'. pose proof Hp as Hp'. pose proof Hb as Hb'.
      cbn [forallb] in Hcm, Hp, Hb. apply andb_true_iff in Hcm as [Hcx Hcr], Hp as [Hpx Hpr], Hb as [Hbx Hbr].
      pose proof (IH x set seen _ e Ex Hf Hcx Hlx Hpx Hbx) as Hx.
      rewrite tracks_Alt in Hk |- *. cbn [flat_map] in Hk |- *.
      destruct r as [|y r'].
      + cbn [alt_match flat_map] in *. rewrite app_nil_r in *. now apply Hx.
      + remember (y :: r') as r eqn:Er.
        destruct (forallb trivial (x :: r)) eqn:T.
        * change (seq_match cf base (m cf names base f 0) (x :: r)) with (m cf names base (S f) 0 (Alt (x :: r))).
          assert (Hcl : closed refs set (Alt (x :: r)) = true).
          { apply class_closed. now rewrite <- trivial_is_class, trivial_Alt. }
          refine (track_closed (S f) (Alt (x :: r)) set e Hcl Hcm' Hl Hp' Hb' _ A P i c k kp Hi Hc _);
            [apply Hf|].
          intros z c' Hz. rewrite tracks_Alt in Hz. now apply Hk.
        * rewrite alt_match_cons by (subst; discriminate). rewrite T. rewrite first_of_app.
          apply adq_or_else.
          -- apply Hx; auto. intros z c' Hz. apply Hk. apply in_or_app. auto.
          -- intros _ c' Hc'. rewrite <- (tracks_Alt cf base r (i, e)). apply (IHl (seen1 ++ acc)); auto.
             ++ subst r. exact Hcr.
             ++ destruct Hl as [Hl|[Hl|Hl]]; [left|right; left|right; right]; auto.
                cbn [has_begin_line existsb] in Hl. now apply orb_false_iff in Hl as [_ Hl].
             ++ subst r. discriminate.
             ++ intros z c'' Hz. rewrite tracks_Alt in Hz. apply Hk. apply in_or_app. auto.
    - (* Cap *)
      destruct Hsc' as (set1 & seen1 & Hx & Hnew & Ho). cbn [compiles] in Hcm.
      apply andb_true_iff in Hcm as [Hcm Hcn]. apply andb_true_iff in Hcm as [Hnm _].
      destruct (nth_error names (N.to_nat id)) as [nm'|] eqn:En; [|discriminate].
      pose proof (name_eqb_eq _ _ Hnm). subst nm'.
      pose proof (IH n set seen _ e Hx Hf Hcn Hl Hp Hb) as Hmx.
      assert (Hid : N.to_nat id < length names) by (apply nth_error_Some; congruence).
      intros A P i c k kp Hi Hc Hk. cbn [m Tracks.tracks] in *.
      rewrite first_of_map.
      match goal with |- adq _ _ _ ?r =>
        assert (E : r = match r with Some x => Some x | None => None end) by now destruct r end.
      rewrite E. clear E. apply adq_or_else.
      + apply (Hmx A P i c); auto. intros [j e'] c' Hy Hc'. cbn [fst snd] in *.
        destruct (scope_step _ _ _ _ _ _ _ _ Hx Hf Hy) as [Hf1 _]. cbn [snd] in Hf1.
        assert (Hj : i <= j <= L) by exact (tracks_bounded n i e (j, e') Hi Hy).
        assert (Hex : extends e' (with_group e' id name (i, j))).
        { intros b v Hbr Ev. unfold with_group. destruct (calls b id name) eqn:Ec; [|exact Ev].
          exfalso. apply (Hnew b); [apply filter_In; auto|]. apply Hf1; auto. congruence. }
        destruct (set_cell_some (N.to_nat id) (Some (i, j)) c') as [c'' Es]; [destruct Hc' as [-> _]; lia|].
        assert (Hst : store names base 0 id name i j c' = Some c'').
        { unfold store. now rewrite En, Hnm. }
        rewrite Hst. apply (adq_weaken (Inv (with_group e' id name (i, j)))).
        { intros c0. now apply Inv_extends. }
        apply (Hk (j, with_group e' id name (i, j)) c'').
        * apply in_map_iff. exists (j, e'). auto.
        * cbn [snd]. destruct Hc' as [Hlen Hc']. split; [apply set_cell_length in Es; congruence|].
          intros b v Hbr Ev q Hq. rewrite (set_cell_nth _ _ _ _ q Es).
          pose proof (refers_calls names b q id name Hq En) as Hqc.
          unfold with_group in Ev. destruct (calls b id name).
          -- destruct Hqc as [_ ->]; [|reflexivity]. rewrite Nat.eqb_refl. injection Ev as <-.
             split; [reflexivity|]. cbn. lia.
          -- destruct (Nat.eqb_spec q (N.to_nat id)) as [->|_]; [|now apply (Hc' b v)].
             destruct Hqc as [Hqc _]. now specialize (Hqc eq_refl).
      + intros _ c' Hc'. destruct (clear_cell_some (N.to_nat id) c') as [c'' Es]; [destruct Hc' as [-> _]; lia|].
        rewrite Es. apply adq_non_match. unfold clear_cell in Es.
        destruct (nth_error c' (N.to_nat id)); [|discriminate].
        eapply Inv_set; eauto. intros b Hbr Hne. destruct (calls b id name) eqn:Ec; [|reflexivity].
        exfalso. apply (Hnew b); [apply filter_In; auto|]. eapply scope_seen; [exact Hx|]. now apply Hf.
    - (* Rep *)
      destruct Hsc' as (-> & -> & -> & Hx). cbn [possessive_ok lookbehind_ok] in Hp, Hb.
      destruct (trivial n) eqn:T.
      { unfold follows. eapply (track_closed (S f)); eauto; [|apply Hf]. apply class_closed.
        now rewrite <- trivial_is_class, trivial_Rep, T. }
      assert (Hcn : compiles cf names f 0 n = true).
      { cbn [compiles] in Hcm. apply andb_true_iff in Hcm as [Hcm _]. apply andb_true_iff in Hcm as [_ Hcm]. exact Hcm. }
      pose proof (IH n set seen _ e Hx Hf Hcn Hl Hp Hb) as Hmx.
      intros A P i c k kp Hi Hc Hk.
      assert (E : tracks (Rep Possessive 1 (Fin 1) n) (i, e) = firstn 1 (tracks n (i, e))).
      { cbn [Tracks.tracks remaining]. change (1 - 1)%N with 0%N. change (N.to_nat 1) with 1. cbn [times_on].
        f_equal. clear. induction (tracks n (i, e)) as [|z r IH]; [reflexivity|]. cbn. cbn in IH. now rewrite IH. }
      rewrite E in *. cbn [m]. unfold rep_match. cbn [N.eqb Pos.eqb]. unfold fixed_match. cbn [N.eqb Pos.eqb].
      rewrite T. pose proof (follows_run _ _ _ i c Hmx Hi Hc) as Hrun.
      destruct (m cf names base f 0 n i c success) as [c' j [|]| | |]; try contradiction; cbn in Hrun; cbn [on_result].
      + destruct Hrun as (y & Ey & -> & Hy). destruct (tracks n (i, e)) as [|z r] eqn:Et; [discriminate|].
        injection Ey as <-. cbn [firstn first_of].
        assert (Hz : In z (tracks n (i, e))) by (rewrite Et; cbn; auto).
        destruct (scope_step _ _ _ _ _ _ _ _ Hx Hf Hz) as [_ Hex].
        match goal with |- adq _ _ _ ?r => replace r with (kp z) by now destruct (kp z) end.
        apply (adq_weaken (Inv (snd z))); [intros c0; now apply Inv_extends|]. apply Hk; cbn; auto.
      + destruct Hrun as [Hc' Et]. destruct (tracks n (i, e)); [|discriminate]. now apply adq_non_match.
    - (* Look *)
      destruct d; [|contradiction]. cbn [possessive_ok lookbehind_ok] in Hp, Hb.
      destruct (trivial n) eqn:T.
      { unfold follows. eapply (track_closed (S f)); eauto; [|apply Hf].
        rewrite trivial_is_class in T. apply class_nothing in T as [T1 T2]. apply closed_parts.
        cbn [refs_of groups_of]. rewrite T1, T2. split; easy. }
      cbn [compiles] in Hcm.
      pose proof (IH n set seen _ e Hsc' Hf Hcm Hl Hp Hb) as Hmx.
      intros A P i c k kp Hi Hc Hk. cbn [m Tracks.tracks] in *. rewrite T.
      pose proof (follows_run _ _ _ i c Hmx Hi Hc) as Hrun.
      destruct (m cf names base f 0 n i c success) as [c' j [|]| | |]; try contradiction; cbn in Hrun; cbn [on_result].
      + destruct Hrun as (y & Ey & -> & Hy). destruct (tracks n (i, e)) as [|z r] eqn:Et; [discriminate|].
        injection Ey as <-. cbn [first_of].
        assert (Hz : In z (tracks n (i, e))) by (rewrite Et; cbn; auto).
        destruct (scope_step _ _ _ _ _ _ _ _ Hsc' Hf Hz) as [_ Hex].
        match goal with |- adq _ _ _ ?r => replace r with (kp (i, snd z)) by now destruct (kp (i, snd z)) end.
        apply (adq_weaken (Inv (snd z))); [intros c0; now apply Inv_extends|].
        apply (Hk (i, snd z)); cbn; auto.
      + destruct Hrun as [Hc' Et]. destruct (tracks n (i, e)); [|discriminate]. now apply adq_non_match.
  Qed.
End Track.

(** ** Calls *)

Section Runs.
  Variable cf : config.
  Variable n : node.
  Variable s : list ascii.
  Variable ids : list N.
  Hypothesis Hruns : runs cf n.
  Hypothesis Hsc : traceable ids n = true.
  Hypothesis Hpos : possessive_ok n = true.
  Hypothesis Hlb : lookbehind_ok n = true.

  Let refs := map Backref ids ++ refs_of n.
  Let inv (c : caps) : Prop := length c = length (group_names n).
  Local Notation L := (length s).

  (** The captures hold the groups of the state. *)
  Definition shows (y : state) (c : caps) : Prop :=
    forall id v, In id ids -> group_of y id = Some v -> nth (N.to_nat id) c None = Some v.

  Lemma node_follows : follows cf (group_names n) s refs n (node_match cf (group_names n) s 0 n) no_groups.
  Proof.
    unfold traceable in Hsc. fold refs in Hsc.
    destruct (scope refs [] [] n) as [o|] eqn:E; [|discriminate]. destruct Hruns as [Hc Hl].
    unfold node_match. eapply (track cf (group_names n) s refs); eauto.
    - intros b Hb. apply in_app_or in Hb as [Hb|Hb].
      + apply in_map_iff in Hb as (id & <- & _). exact I.
      + eapply refs_of_ref; eauto.
    - split; [easy|]. intros b _ H. now contradiction H.
  Qed.

  Lemma Inv_start c : inv c -> Inv (group_names n) s refs no_groups c.
  Proof. intros H. split; [exact H|]. discriminate. Qed.

  Lemma Inv_shows y c : Inv (group_names n) s refs (snd y) c -> shows y c.
  Proof.
    intros [Hl H] id v Hid E.
    destruct (H (Backref id) v) with (i := N.to_nat id) as [H1 _]; auto.
    - apply in_or_app. left. now apply in_map.
    - reflexivity.
    - now apply nth_error_nth.
  Qed.

  Lemma shows_group0 y c v w : (forall id, In id ids -> id <> 0%N) -> shows y c -> shows y (set_group0 v w c).
  Proof.
    intros H0 H id q Hid E. rewrite <- (H id q Hid E). pose proof (H0 id Hid).
    unfold set_group0. destruct c as [|x r]; [reflexivity|].
    destruct (N.to_nat id) as [|k] eqn:Ek; [lia|reflexivity].
  Qed.

  Lemma run_track cur c : cur <= L -> inv c ->
    result_ok (fun c' e b => inv c' /\ if b then exists y, first_state cf s n cur = Some y /\ e = fst y /\ shows y c'
                                       else first_state cf s n cur = None)
      (node_match cf (group_names n) s 0 n cur c success).
  Proof.
    intros H1 H2. pose proof (follows_run _ _ _ _ _ _ _ _ _ node_follows H1 (Inv_start c H2)) as H.
    destruct (node_match _ _ _ _ _ _ _ _) as [c' e [|]| | |]; cbn in H |- *; auto.
    - destruct H as (y & E & -> & Hy). split; [apply Hy|]. exists y. repeat split; auto. now apply Inv_shows.
    - destruct H as [Hc E]. split; [apply Hc|exact E].
  Qed.

  Lemma whole_track cur c : cur <= L -> inv c ->
    result_ok (fun c' e b => inv c' /\
      let r := find (fun y => Nat.eqb (fst y) L) (tracks cf s n (cur, no_groups)) in
      if b then exists y, r = Some y /\ e = L /\ shows y c' else r = None)
      (node_match cf (group_names n) s 0 n cur c (equals L)).
  Proof.
    intros H1 H2.
    assert (H : adq (Inv (group_names n) s refs no_groups)
        (fun c' j y => j = L /\ Inv (group_names n) s refs (snd y) c')
        (node_match cf (group_names n) s 0 n cur c (equals L))
        (first_of (fun y => if Nat.eqb (fst y) L then Some y else None) (tracks cf s n (cur, no_groups)))).
    { apply node_follows; auto using Inv_start. intros y c' _ Hc'. unfold equals.
      destruct (Nat.eqb_spec (fst y) L) as [E|_]; cbn; auto. exists y. auto. }
    assert (E : forall l, first_of (fun y => if Nat.eqb (fst y) L then Some y else None) l
                          = find (fun y : state => Nat.eqb (fst y) L) l).
    { induction l as [|y r IH]; [reflexivity|]. cbn. now destruct (Nat.eqb (fst y) L). }
    rewrite E in H.
    destruct (node_match _ _ _ _ _ _ _ _) as [c' e [|]| | |]; cbn in H |- *; auto.
    - destruct H as (y & Ey & -> & Hy). split; [apply Hy|]. exists y. repeat split; auto. now apply Inv_shows.
    - destruct H as [Hc Ec]. split; [apply Hc|exact Ec].
  Qed.

  Hypothesis Hids : forall id, In id ids -> id <> 0%N.

  Lemma match_method_track c : inv c ->
    result_ok (fun c' e b => inv c' /\ group0 c' = Some (0, e) /\
      if b then exists y, first_whole cf s n = Some y /\ e = L /\ shows y c' else first_whole cf s n = None)
      (match_method cf n s 0 c).
  Proof.
    intros H. pose proof (whole_track 0 c ltac:(lia) H) as H1. unfold match_method.
    destruct (node_match _ _ _ _ _ _ _ _) as [c' e b| | |]; cbn in H1 |- *; auto.
    destruct H1 as [Hi H1]. unfold inv. rewrite set_group0_length. split; auto.
    split; [now apply (group0_set_length n)|]. destruct b; [|exact H1].
    destruct H1 as (y & E & He & Hs). exists y. repeat split; auto. now apply shows_group0.
  Qed.

  Lemma match_prefix_method_track cur c : cur <= L -> inv c ->
    result_ok (fun c' e b => inv c' /\ group0 c' = Some (cur, e) /\
      if b then exists y, first_state cf s n cur = Some y /\ e = fst y /\ shows y c'
      else first_state cf s n cur = None)
      (match_prefix_method cf n s cur c).
  Proof.
    intros H0 H. pose proof (run_track cur c H0 H) as H1. unfold match_prefix_method.
    destruct (node_match _ _ _ _ _ _ _ _) as [c' e b| | |]; cbn in H1 |- *; auto.
    destruct H1 as [Hi H1]. unfold inv. rewrite set_group0_length. split; auto.
    split; [now apply (group0_set_length n)|]. destruct b; [|exact H1].
    destruct H1 as (y & E & He & Hs). exists y. repeat split; auto. now apply shows_group0.
  Qed.

  Lemma search_loop_track : forall fuel cur c, L - cur < fuel -> cur <= L -> inv c ->
    result_ok (fun c' e b => inv c' /\
      if b then exists i y, cur <= i <= L /\ group0 c' = Some (i, e) /\ first_state cf s n i = Some y
                  /\ e = fst y /\ shows y c' /\ forall i', cur <= i' < i -> first_state cf s n i' = None
      else forall i, cur <= i <= L -> first_state cf s n i = None)
      (search_loop fuel cf n s cur c).
  Proof.
    induction fuel as [|fuel IH]; intros cur c Hf Hc Hg; [lia|]. cbn [search_loop].
    pose proof (run_track cur c Hc Hg) as H.
    destruct (node_match _ _ _ _ _ _ _ _) as [c' e b| | |]; cbn in H; try contradiction.
    destruct H as [Hi H]. destruct b.
    - destruct H as (y & E & He & Hs). cbn. unfold inv. rewrite set_group0_length. split; auto.
      exists cur, y. split; [lia|]. split; [now apply (group0_set_length n)|]. do 2 (split; [assumption|]).
      split; [now apply shows_group0|]. intros. lia.
    - destruct (Nat.eqb_spec cur L).
      + cbn. split; auto. intros i Hi'. assert (i = cur) by lia. now subst.
      + specialize (IH (S cur) c' ltac:(lia) ltac:(lia) Hi).
        destruct (search_loop _ _ _ _ _ _) as [c'' e' b| | |]; cbn in *; auto.
        destruct IH as [I1 I2]. split; auto. destruct b.
        * destruct I2 as (i & y & Hle & G & Ey & He & Hs & Hm). exists i, y. repeat split; auto; try lia.
          intros i' Hi'. destruct (Nat.eq_dec i' cur) as [->|]; auto. apply Hm. lia.
        * intros i Hi'. destruct (Nat.eq_dec i cur) as [->|]; auto. apply I2. lia.
  Qed.
End Runs.

Definition followed (r : regex) : Prop := possessive_ok (ast r) = true /\ lookbehind_ok (ast r) = true.

Theorem match_tracks ids r ct s : usable r ct -> followed r -> traceable ids (ast r) = true ->
  (forall id, In id ids -> id <> 0%N) ->
  returns (regex_match r ct s) (fun res =>
    match first_whole (config_of (flags r) ct) s (ast r) with
    | Some y => matched res = true /\ shows ids y (groups res)
    | None => matched res = false
    end).
Proof.
  intros Hu [Hp Hl] Hs H0. apply invoke_returns; [apply Hu|].
  eapply result_ok_weaken; [apply (match_method_track _ _ _ ids); auto; apply initial_length|].
  cbn. intros c e [|] (_ & _ & H).
  - destruct H as (y & -> & _ & H). auto.
  - now rewrite H.
Qed.

Theorem match_prefix_tracks ids r ct s : usable r ct -> followed r -> traceable ids (ast r) = true ->
  (forall id, In id ids -> id <> 0%N) ->
  returns (regex_match_prefix r ct s) (fun res =>
    match first_state (config_of (flags r) ct) s (ast r) 0 with
    | Some y => matched res = true /\ group0 (groups res) = Some (0, fst y) /\ shows ids y (groups res)
    | None => matched res = false
    end).
Proof.
  intros Hu [Hp Hl] Hs H0. apply invoke_returns; [apply Hu|].
  eapply result_ok_weaken; [apply (match_prefix_method_track _ _ _ ids); auto; [lia|apply initial_length]|].
  cbn. intros c e [|] (_ & G & H).
  - destruct H as (y & -> & -> & H). auto.
  - now rewrite H.
Qed.

Theorem search_tracks ids r ct s : usable r ct -> followed r -> traceable ids (ast r) = true ->
  (forall id, In id ids -> id <> 0%N) ->
  let f := first_state (config_of (flags r) ct) s (ast r) in
  returns (regex_search r ct s) (fun res =>
    (matched res = true -> exists i y, i <= length s /\ group0 (groups res) = Some (i, fst y)
       /\ f i = Some y /\ shows ids y (groups res) /\ forall i', i' < i -> f i' = None)
    /\ (matched res = false -> forall i, i <= length s -> f i = None)).
Proof.
  intros Hu [Hp Hl] Hs H0 f. apply invoke_returns; [apply Hu|].
  eapply result_ok_weaken; [apply (search_loop_track _ _ _ ids); auto; [lia|apply initial_length]|].
  cbn. intros c e [|] (_ & H); split; try discriminate.
  - intros _. destruct H as (i & y & Hle & G & Ey & -> & Hy & Hm). exists i, y. repeat split; auto; try lia.
    intros i' Hi'. apply Hm. lia.
  - intros _ i Hi. apply H. lia.
Qed.

(** ** Only the ends *)

Lemma first_whole_in cf s n :
  (exists y, first_whole cf s n = Some y) <-> In (length s) (ends_with_groups cf s n 0).
Proof.
  unfold first_whole, ends_with_groups. rewrite in_map_iff. split.
  - intros (y & E). apply find_some in E as [Hy E]. apply Nat.eqb_eq in E. eauto.
  - intros (y & E & Hy). destruct (find _ _) as [z|] eqn:F; [eauto|].
    apply (find_none _ _ F) in Hy. apply Nat.eqb_neq in Hy. congruence.
Qed.

Lemma first_state_end cf s n i :
  preferred_with_groups cf s n i = option_map fst (first_state cf s n i).
Proof.
  unfold preferred_with_groups, ends_with_groups, first_state. now destruct (tracks cf s n (i, no_groups)).
Qed.

Theorem match_backrefs r ct s : usable r ct -> followed r -> scoped (ast r) = true ->
  returns (regex_match r ct s) (fun res =>
    matched res = true <-> In (length s) (ends_with_groups (config_of (flags r) ct) s (ast r) 0)).
Proof.
  intros Hu Hf Hs. destruct (match_tracks [] r ct s Hu Hf Hs) as (res & E & H); [easy|].
  exists res. split; auto. rewrite <- first_whole_in. destruct (first_whole _ _ _) as [y|].
  - split; [eauto|]. intros _. apply H.
  - rewrite H. split; [discriminate|]. now intros [y Ey].
Qed.

Theorem match_prefix_backrefs r ct s : usable r ct -> followed r -> scoped (ast r) = true ->
  returns (regex_match_prefix r ct s) (fun res =>
    match preferred_with_groups (config_of (flags r) ct) s (ast r) 0 with
    | Some e => matched res = true /\ group0 (groups res) = Some (0, e)
    | None => matched res = false
    end).
Proof.
  intros Hu Hf Hs. destruct (match_prefix_tracks [] r ct s Hu Hf Hs) as (res & E & H); [easy|].
  exists res. split; auto. rewrite first_state_end. destruct (first_state _ _ _ _); cbn; tauto.
Qed.

Theorem search_backrefs r ct s : usable r ct -> followed r -> scoped (ast r) = true ->
  let p := preferred_with_groups (config_of (flags r) ct) s (ast r) in
  returns (regex_search r ct s) (fun res =>
    (matched res = true -> exists i e, i <= length s /\ group0 (groups res) = Some (i, e)
       /\ p i = Some e /\ forall i', i' < i -> p i' = None)
    /\ (matched res = false -> forall i, i <= length s -> p i = None)).
Proof.
  intros Hu Hf Hs p. destruct (search_tracks [] r ct s Hu Hf Hs) as (res & E & H1 & H2); [easy|].
  exists res. split; auto. split.
  - intros Em. destruct (H1 Em) as (i & y & Hle & G & Ey & _ & Hm). exists i, (fst y). repeat split; auto.
    + unfold p. now rewrite first_state_end, Ey.
    + intros i' Hi'. unfold p. now rewrite first_state_end, Hm.
  - intros Em i Hi. unfold p. now rewrite first_state_end, H2.
Qed.

(** ** What the groups hold *)

Theorem groups_of_match r ct s id : usable r ct -> followed r -> traceable [id] (ast r) = true -> id <> 0%N ->
  returns (regex_match r ct s) (fun res => matched res = true ->
    exists y, first_whole (config_of (flags r) ct) s (ast r) = Some y
      /\ forall v, group_of y id = Some v -> nth (N.to_nat id) (groups res) None = Some v).
Proof.
  intros Hu Hf Hs H0. destruct (match_tracks [id] r ct s Hu Hf Hs) as (res & E & H).
  { now intros i [<-|[]]. }
  exists res. split; auto. intros Em. destruct (first_whole _ _ _) as [y|]; [|congruence].
  exists y. split; [reflexivity|]. intros v. apply H. cbn. auto.
Qed.

Theorem groups_of_match_prefix r ct s id : usable r ct -> followed r -> traceable [id] (ast r) = true -> id <> 0%N ->
  returns (regex_match_prefix r ct s) (fun res => matched res = true ->
    exists y, first_state (config_of (flags r) ct) s (ast r) 0 = Some y
      /\ forall v, group_of y id = Some v -> nth (N.to_nat id) (groups res) None = Some v).
Proof.
  intros Hu Hf Hs H0. destruct (match_prefix_tracks [id] r ct s Hu Hf Hs) as (res & E & H).
  { now intros i [<-|[]]. }
  exists res. split; auto. intros Em. destruct (first_state _ _ _ _) as [y|]; [|congruence].
  exists y. split; [reflexivity|]. intros v. apply H. cbn. auto.
Qed.

Theorem groups_of_search r ct s id : usable r ct -> followed r -> traceable [id] (ast r) = true -> id <> 0%N ->
  returns (regex_search r ct s) (fun res => matched res = true ->
    exists i y, group0 (groups res) = Some (i, fst y)
      /\ first_state (config_of (flags r) ct) s (ast r) i = Some y
      /\ forall v, group_of y id = Some v -> nth (N.to_nat id) (groups res) None = Some v).
Proof.
  intros Hu Hf Hs H0. destruct (search_tracks [id] r ct s Hu Hf Hs) as (res & E & H & _).
  { now intros i [<-|[]]. }
  exists res. split; auto. intros Em. destruct (H Em) as (i & y & _ & G & Ey & Hy & _).
  exists i, y. repeat split; auto. intros v. apply Hy. cbn. auto.
Qed.

(** ** Without backreferences *)

Theorem tracks_paths cf s n i : backref_free n = true -> ends_with_groups cf s n i = paths cf s n i.
Proof.
  intros Hb. unfold ends_with_groups.
  assert (Hc : closed [] [] n = true).
  { apply closed_parts. split; [|reflexivity]. intros b Hin. exfalso. revert Hb Hin. clear.
    induction n using node_ind'; cbn [backref_free refs_of]; auto; try discriminate.
    - rewrite forallb_forall, Forall_forall in *. intros Hb Hin.
      apply in_flat_map in Hin as (x & Hx & Hin). eauto.
    - rewrite forallb_forall, Forall_forall in *. intros Hb Hin.
      apply in_flat_map in Hin as (x & Hx & Hin). eauto. }
  destruct (sim_closed cf s [] [] n no_groups (fun b H => H) Hc i no_groups) as [E _]; [easy|].
  rewrite E, fill_free; auto.
Qed.
