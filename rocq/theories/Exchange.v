(** Rewritings that keep every attempt together with the content of all groups:
    specification and proofs (C88). *)
From Verif Require Import Matcher Api Basics Safe Impl Spec Paths Mirror Adequacy Calls Lift Matching
  Results Walk Exact Relate Tracks Tracking Explore Explored Follows Searches.
From Verif Require Rewrites.
From Coq Require Import Lia.

(** ** Specification *)

Definition then_ := Rewrites.then_.
Definition maybe := Rewrites.maybe.

(** No group is set or read. *)
Fixpoint groupless (n : node) : bool :=
  match n with
  | Cap _ _ _ | Backref _ | NBackref _ => false
  | Seq l | Alt l => forallb groupless l
  | Neg x | Rep _ _ _ x | Look _ x => groupless x
  | _ => true
  end.

(** There is one attempt, and giving it up leaves the groups alone. *)
Fixpoint plain (n : node) : bool :=
  is_class n ||
  match n with
  | Empty | BeginLine | BeginInput | EndLine | EndInput | WordB | Neg _ | Look _ _
  | Backref _ | NBackref _ | Rep Possessive _ _ _ => true
  | Seq l => forallb plain l
  | _ => false
  end.

(** Every match takes a character. *)
Fixpoint consumes (n : node) : bool :=
  is_class n ||
  match n with
  | Seq l => existsb consumes l
  | Alt l => forallb consumes l
  | Cap _ _ x => consumes x
  | Rep _ lo _ x => negb (N.eqb lo 0) && consumes x
  | _ => false
  end.

(** [keeps cf back x y]: [y] arises from [x] by these laws, used anywhere and any
    number of times.  [back]: the parts of a concatenation are read from the last to
    the first (in the bodies of lookbehinds, see [walk]). *)
Inductive keeps (cf : config) : bool -> node -> node -> Prop :=
| kp_refl b x : keeps cf b x x
| kp_sym b x y : keeps cf b x y -> keeps cf b y x
| kp_trans b x y z : keeps cf b x y -> keeps cf b y z -> keeps cf b x z
(* anywhere *)
| kp_seq b l1 x y l2 : keeps cf b x y -> keeps cf b (Seq (l1 ++ x :: l2)) (Seq (l1 ++ y :: l2))
| kp_alt b l1 x y l2 : is_class x = false -> is_class y = false -> keeps cf b x y ->
    keeps cf b (Alt (l1 ++ x :: l2)) (Alt (l1 ++ y :: l2))
| kp_rep b md lo hi x y : keeps cf b x y -> keeps cf b (Rep md lo hi x) (Rep md lo hi y)
| kp_cap b id nm x y : keeps cf b x y -> keeps cf b (Cap id nm x) (Cap id nm y)
| kp_look (b : bool) d x y : keeps cf (xorb b (match d with Ahead => false | Behind => true end)) x y ->
    keeps cf b (Look d x) (Look d y)
| kp_neg b x y : is_class x = false -> is_class y = false -> keeps cf b x y -> keeps cf b (Neg x) (Neg y)
(* concatenations and alternatives *)
| kp_empty b : keeps cf b Empty (Seq [])
| kp_seq_one b x : keeps cf b (Seq [x]) x
| kp_seq_flat b l1 l2 l3 : keeps cf b (Seq (l1 ++ Seq l2 :: l3)) (Seq (l1 ++ l2 ++ l3))
| kp_alt_one b x : keeps cf b (Alt [x]) x
| kp_alt_last b l1 l2 : l2 <> [] -> keeps cf b (Alt (l1 ++ [Alt l2])) (Alt (l1 ++ l2))
| kp_alt_flat b l1 l2 y l3 : is_class y = false ->
    keeps cf b (Alt (l1 ++ Alt (l2 ++ [y]) :: l3)) (Alt (l1 ++ (l2 ++ [y]) ++ l3))
| kp_suffix b l y z : is_class y = false ->
    keeps cf b (then_ b (Alt (l ++ [y])) z) (Alt (map (fun x => then_ b x z) (l ++ [y])))
| kp_prefix b x l y : groupless x = true -> plain x = true -> is_class y = false ->
    keeps cf b (then_ b x (Alt (l ++ [y]))) (Alt (map (then_ b x) (l ++ [y])))
(* single characters *)
| kp_chars b x y : is_class x = true -> is_class y = true ->
    (forall c, accepts cf x c = accepts cf y c) -> keeps cf b x y
| kp_alt_chars b l1 x y l2 : is_class x = true -> is_class y = true ->
    (forall c, accepts cf x c = accepts cf y c) -> keeps cf b (Alt (l1 ++ x :: l2)) (Alt (l1 ++ y :: l2))
(* loops *)
| kp_none b md x : keeps cf b (Rep md 0 (Fin 0) x) Empty
| kp_once b md x : md <> Possessive -> keeps cf b (Rep md 1 (Fin 1) x) x
| kp_optional b md x : md <> Possessive -> keeps cf b (Rep md 0 (Fin 1) x) (maybe cf md x)
| kp_optional_atomic b x : keeps cf b (Rep Possessive 0 (Fin 1) x) (Rep Possessive 1 (Fin 1) (Alt [x; Empty]))
| kp_exactly b md md' n x : md <> Possessive -> md' <> Possessive ->
    keeps cf b (Rep md n (Fin n) x) (Rep md' n (Fin n) x)
| kp_counts b md n m x : md <> Possessive ->
    keeps cf b (Rep md (n + m) (Fin (n + m)) x) (then_ b (Rep md n (Fin n) x) (Rep md m (Fin m) x))
| kp_split b md lo hi x :
    keeps cf b (Rep md lo hi x) (then_ b (Rep md lo (Fin lo) x) (Rep md 0 (remaining hi lo) x))
| kp_unfold b md n x : md <> Possessive ->
    keeps cf b (Rep md 0 (Fin (1 + n)) x) (maybe cf md (then_ b x (Rep md 0 (Fin n) x)))
| kp_unfold_star b md x : md <> Possessive -> consumes x = true ->
    keeps cf b (Rep md 0 Inf x) (maybe cf md (then_ b x (Rep md 0 Inf x)))
(* atomic groups and tests *)
| kp_atomic b x : plain x = true -> keeps cf b (Rep Possessive 1 (Fin 1) x) x
| kp_fixed b md n x : plain x = true -> keeps cf b (Rep md n (Fin n) x) (Rep Possessive n (Fin n) x)
| kp_test_order b x y : Rewrites.tests x = true -> Rewrites.tests y = true ->
    groupless x = true -> groupless y = true -> keeps cf b (Seq [x; y]) (Seq [y; x])
| kp_test_twice b x : Rewrites.tests x = true -> groupless x = true -> keeps cf b (Seq [x; x]) x
| kp_test_atomic b d x : keeps cf b (Look d (Rep Possessive 1 (Fin 1) x)) (Look d x)
(* possessive loops *)
| kp_commit b md lo hi x : md <> Possessive -> Gaps.early cf md = false ->
    hi <> Inf \/ may_be_empty x = false \/ plain x = true ->
    keeps cf b (Rep Possessive lo hi x) (Rep Possessive 1 (Fin 1) (Rep md lo hi x))
| kp_commit_body b lo hi x : (lo <= 1)%N ->
    keeps cf b (Rep Possessive lo hi x) (Rep Possessive lo hi (Rep Possessive 1 (Fin 1) x))
| kp_commit_lazy b md lo hi x : md <> Possessive -> Gaps.early cf md = true ->
    keeps cf b (Rep Possessive 1 (Fin 1) (Rep md lo hi x)) (Rep Possessive lo (Fin lo) x).

(** ** Proofs *)

Section Same.
  Variable names : list group_name.
  Variable base : list ascii.
  Local Notation L := (length base).
  Local Notation gd := (good names base).
  Local Notation sound := (sound names base).
  Local Notation finder := (finder names base).

  (** The same attempts with the same groups. *)
  Fixpoint same (t u : search) : Prop :=
    match t, u with
    | Stop g, Stop g' => g = g'
    | Found i g m, Found i' g' m' => i = i' /\ g = g' /\ forall h, gd h -> same (m h) (m' h)
    | _, _ => False
    end.

  Lemma same_refl t : same t t.
  Proof. induction t as [g|i g m IH]; cbn; auto. Qed.

  Lemma same_sym t : forall u, same t u -> same u t.
  Proof.
    induction t as [g|i g m IH]; intros [g'|i' g' m']; cbn; try tauto; auto.
    intros (-> & -> & H). auto.
  Qed.

  Lemma same_trans t : forall u v, same t u -> same u v -> same t v.
  Proof.
    induction t as [g|i g m IH]; intros [g'|i' g' m'] [g''|i'' g'' m'']; cbn; try tauto; try congruence.
    intros (-> & -> & H) (-> & -> & H'). split; [auto|]. split; [auto|]. intros h Hh. eapply IH; eauto.
  Qed.

  Lemma same_sound P t : forall u, same t u -> sound P t -> sound P u.
  Proof.
    induction t as [g|i g m IH]; intros [g'|i' g' m']; cbn; try tauto.
    - now intros ->.
    - intros (-> & -> & H) (H1 & H2 & H3). split; [auto|]. split; [auto|]. intros h Hh. eapply IH; eauto.
  Qed.

  Lemma same_otherwise P t h h' : forall u, same t u -> sound P t ->
    (forall g, gd g -> same (h g) (h' g)) -> same (otherwise t h) (otherwise u h').
  Proof.
    induction t as [g|i g m IH]; intros [g'|i' g' m']; cbn; try tauto.
    - intros -> Hg H. auto.
    - intros (-> & -> & H) (H1 & H2 & H3) Hh. split; [auto|]. split; [auto|]. intros k Hk. eapply IH; eauto.
  Qed.

  Lemma same_followed P t f f' : forall u, same t u -> sound P t ->
    (forall i g, P i -> gd g -> same (f i g) (f' i g) /\ exists Q, sound Q (f i g)) ->
    same (followed_by t f) (followed_by u f').
  Proof.
    induction t as [g|i g m IH]; intros [g'|i' g' m']; cbn; try tauto.
    intros (-> & -> & H) (H1 & H2 & H3) Hf. destruct (Hf i' g' H1 H2) as [S1 [Q S2]].
    eapply same_otherwise; eauto.
  Qed.

  Lemma same_first t u : same t u -> same (first_only t) (first_only u).
  Proof.
    destruct t, u; cbn; try tauto.
  Qed.

  Lemma same_captured id range t : forall u, same t u -> same (captured id range t) (captured id range u).
  Proof.
    induction t as [g|i g m IH]; intros [g'|i' g' m']; cbn; try tauto.
    - now intros ->.
    - intros (-> & -> & H). split; [auto|]. split; [auto|]. intros h Hh. auto.
  Qed.

  (** The laws hold whatever the groups are; [same] asks for less. *)
  Fixpoint equal (t u : search) : Prop :=
    match t, u with
    | Stop g, Stop g' => g = g'
    | Found i g m, Found i' g' m' => i = i' /\ g = g' /\ forall h, equal (m h) (m' h)
    | _, _ => False
    end.

  Lemma equal_same t : forall u, equal t u -> same t u.
  Proof.
    induction t as [g|i g m IH]; intros [g'|i' g' m']; cbn; try tauto.
    intros (-> & -> & H). auto.
  Qed.
  Lemma equal_refl t : equal t t.
  Proof. induction t as [g|i g m IH]; cbn; auto. Qed.
  Lemma equal_sym t : forall u, equal t u -> equal u t.
  Proof.
    induction t as [g|i g m IH]; intros [g'|i' g' m']; cbn; try tauto; auto.
    intros (-> & -> & H). auto.
  Qed.
  Lemma equal_trans t : forall u v, equal t u -> equal u v -> equal t v.
  Proof.
    induction t as [g|i g m IH]; intros [g'|i' g' m'] [g''|i'' g'' m'']; cbn; try tauto; try congruence.
    intros (-> & -> & H) (-> & -> & H'). split; [auto|]. split; [auto|]. intros h. eapply IH; eauto.
  Qed.
  Lemma equal_otherwise t h k : forall u, equal t u -> (forall g, equal (h g) (k g)) ->
    equal (otherwise t h) (otherwise u k).
  Proof.
    induction t as [g|i g m IH]; intros [g'|i' g' m']; cbn; try tauto.
    - intros -> H. auto.
    - intros (-> & -> & H) H'. auto.
  Qed.
  Lemma equal_otherwise_assoc t h k :
    equal (otherwise (otherwise t h) k) (otherwise t (fun g => otherwise (h g) k)).
  Proof. induction t as [g|i g m IH]; cbn; auto using equal_refl. Qed.
  Lemma equal_followed t f k : (forall i g, equal (f i g) (k i g)) -> equal (followed_by t f) (followed_by t k).
  Proof.
    intros H. induction t as [g|i g m IH]; cbn; auto. apply equal_otherwise; auto.
  Qed.
  Lemma equal_followed_otherwise t h f :
    equal (followed_by (otherwise t h) f) (otherwise (followed_by t f) (fun g => followed_by (h g) f)).
  Proof.
    induction t as [g|i g m IH]; cbn; auto using equal_refl.
    eapply equal_trans; [|apply equal_sym, equal_otherwise_assoc].
    apply equal_otherwise; auto using equal_refl.
  Qed.
  Lemma equal_followed_assoc t f k :
    equal (followed_by (followed_by t f) k) (followed_by t (fun i g => followed_by (f i g) k)).
  Proof.
    induction t as [g|i g m IH]; cbn; auto using equal_refl.
    eapply equal_trans; [apply equal_followed_otherwise|]. apply equal_otherwise; auto using equal_refl.
  Qed.
  Lemma equal_otherwise_stop t : equal (otherwise t Stop) t.
  Proof. induction t as [g|i g m IH]; cbn; auto. Qed.
  Lemma equal_followed_one t : equal (followed_by t one) t.
  Proof. induction t as [g|i g m IH]; cbn; auto. Qed.

  Definition eqf (f f' : nat -> caps -> search) : Prop :=
    forall i g, i <= L -> gd g -> same (f i g) (f' i g).

  Lemma eqf_refl f : eqf f f.
  Proof. intros i g _ _. apply same_refl. Qed.
  Lemma eqf_sym f h : eqf f h -> eqf h f.
  Proof. intros H i g Hi Hg. apply same_sym. auto. Qed.
  Lemma eqf_trans f h k : eqf f h -> eqf h k -> eqf f k.
  Proof. intros H H' i g Hi Hg. eapply same_trans; [apply H|apply H']; auto. Qed.

  Lemma eqf_followed left t u f f' i : i <= L -> same t u -> sound (beyond base left true i) t -> finder left true f ->
    eqf f f' -> same (followed_by t f) (followed_by u f').
  Proof.
    intros Hi H1 H2 H3 H4. eapply same_followed; [exact H1|exact H2|]. intros j g (Hj & _) Hg.
    split; [now apply H4|]. eexists. now apply H3.
  Qed.

  (** Concatenations. *)
  Lemma chain_app fs hs i g : equal (chain (fs ++ hs) i g) (followed_by (chain fs i g) (chain hs)).
  Proof.
    revert i g. induction fs as [|f fs IH]; intros i g; cbn [chain app].
    - cbn. apply equal_sym. apply equal_otherwise_stop.
    - eapply equal_trans; [|apply equal_sym, equal_followed_assoc]. apply equal_followed. exact IH.
  Qed.

  Lemma eqf_chain left fs fs' : Forall (finder left true) fs -> Forall2 eqf fs fs' -> eqf (chain fs) (chain fs').
  Proof.
    intros Hf H. induction H as [|f f' fs fs' E H IH]; [apply eqf_refl|]. inversion Hf; subst.
    intros i g Hi Hg. cbn [chain]. apply (eqf_followed left _ _ _ _ i); auto.
    now apply finder_chain.
  Qed.

  (** Loops. *)
  Section Loop.
    Variable left : bool.
    Variables f f' : nat -> caps -> search.
    Hypothesis Ff : finder left true f.
    Hypothesis E : eqf f f'.

    Lemma eqf_repeat n : eqf (chain (repeat f n)) (chain (repeat f' n)).
    Proof.
      apply (eqf_chain left).
      - apply Forall_forall. intros y Hy. apply repeat_spec in Hy. now subst.
      - induction n as [|n IH]; cbn; constructor; auto.
    Qed.

    Lemma eqf_more fu : forall b, eqf (trying_more f fu b) (trying_more f' fu b).
    Proof.
      induction fu as [|fu IH]; intros b i g Hi Hg; cbn [trying_more]; [apply same_refl|].
      destruct (none_left b); [apply same_refl|].
      assert (FF : finder left true (fun j g' => if idle b i j then Stop g' else trying_more f fu (one_less b) j g')).
      { intros j k Hj Hk. destruct (idle b i j); [exact Hk|]. eapply finder_more; eauto. }
      eapply same_otherwise.
      - apply (eqf_followed left _ _ _ _ i); [exact Hi|now apply E|now apply Ff|exact FF|].
        intros j k Hj Hk. destruct (idle b i j); [apply same_refl|]. now apply IH.
      - apply (finder_followed names base left true true); [exact Hi|now apply Ff|exact FF].
      - intros k _. apply same_refl.
    Qed.

    Lemma eqf_fewer fu : forall b, eqf (trying_fewer f fu b) (trying_fewer f' fu b).
    Proof.
      induction fu as [|fu IH]; intros b i g Hi Hg; cbn [trying_fewer]; [apply same_refl|].
      destruct (none_left b); [apply same_refl|]. cbn [same]. split; [auto|]. split; [auto|]. intros h Hh.
      assert (FF : finder left true (fun j g' => if idle b i j then Stop g' else trying_fewer f fu (one_less b) j g')).
      { intros j k Hj Hk. destruct (idle b i j); [exact Hk|]. eapply finder_fewer; eauto. }
      apply (eqf_followed left _ _ _ _ i); [exact Hi|now apply E|now apply Ff|exact FF|].
      intros j k Hj Hk. destruct (idle b i j); [apply same_refl|]. now apply IH.
    Qed.

    Lemma eqf_commit fu : forall b, eqf (committing f fu b) (committing f' fu b).
    Proof.
      induction fu as [|fu IH]; intros b i g Hi Hg; cbn [committing]; [apply same_refl|].
      destruct (none_left b); [apply same_refl|].
      pose proof (E i g Hi Hg) as H. pose proof (Ff i g Hi Hg) as S.
      destruct (f i g) as [g1|j g1 m], (f' i g) as [g2|j' g2 m']; cbn in H; try tauto.
      - subst. apply same_refl.
      - destruct H as (-> & -> & _). destruct (idle b i j'); [apply same_refl|]. destruct S as ((Hj & _) & Hg2 & _).
        now apply IH.
    Qed.
  End Loop.
End Same.
