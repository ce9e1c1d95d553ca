(** Rewritings that keep the order of trial, and with it the matched ranges:
    specification and proofs (C87). *)
From Verif Require Import Matcher Api Basics Safe Spec Paths Walk Calls Exact Actual Adequacy Equiv Linear Gaps Ordered.
From Verif Require Import Lift Matching.
From Verif Require Uniform Scans Records.
From Coq Require Import Lia.

(** ** Specification *)

(** [back]: the parts of a concatenation are read from the last to the first, which is
    how the bodies of lookbehinds are read.  Then this is [yx], otherwise [xy]. *)
Definition then_ (back : bool) (x y : node) : node := if back then Seq [y; x] else Seq [x; y].

(** Every match from a place has the same end. *)
Fixpoint single (n : node) : bool :=
  is_class n ||
  match n with
  | Empty | BeginLine | BeginInput | EndLine | EndInput | WordB | Neg _ | Look _ _ => true
  | Seq l => forallb single l
  | Alt [] => true
  | Alt [x] => single x
  | Cap _ _ x => single x
  | Rep Possessive _ _ _ => true
  | Rep _ lo (Fin hi) x => N.eqb lo hi && single x
  | _ => false
  end.

(** Tests of a place. *)
Definition tests (n : node) : bool :=
  match n with
  | BeginLine | BeginInput | EndLine | EndInput | WordB | Look _ _ => true
  | Neg x => negb (is_class x)
  | _ => false
  end.

(** A match of the tree takes a character of this kind first. *)
Inductive begins (cf : config) (back : bool) : node -> (ascii -> bool) -> Prop :=
| bg_class x : is_class x = true -> begins cf back x (accepts cf x)
| bg_first x l p : back = false -> begins cf back x p -> begins cf back (Seq (x :: l)) p
| bg_last x l p : back = true -> begins cf back x p -> begins cf back (Seq (l ++ [x])) p
| bg_test t l p : back = false -> tests t = true -> begins cf back (Seq l) p -> begins cf back (Seq (t :: l)) p
| bg_nil p : begins cf back (Alt []) p
| bg_alt x l p : begins cf back x p -> begins cf back (Alt l) p -> begins cf back (Alt (x :: l)) p
| bg_cap id nm x p : begins cf back x p -> begins cf back (Cap id nm x) p
| bg_rep md lo hi x p : lo <> 0%N -> begins cf back x p -> begins cf back (Rep md lo hi x) p
| bg_more x (p q : ascii -> bool) : (forall a, p a = true -> q a = true) -> begins cf back x p -> begins cf back x q.

(** At no place both have a match. *)
Inductive exclusive (cf : config) (back : bool) : node -> node -> Prop :=
| ex_chars x y p q : begins cf back x p -> begins cf back y q -> disjoint p q = true -> exclusive cf back x y
| ex_guard t l1 l2 : back = false -> tests t = true -> exclusive cf back (Seq (t :: l1)) (Seq (Neg t :: l2))
| ex_sym x y : exclusive cf back x y -> exclusive cf back y x.

(** The order of [x] and of nothing in a loop that can have another [x]. *)
Definition maybe (cf : config) (md : match_mode) (x : node) : node :=
  if early cf md then Alt [Empty; x] else Alt [x; Empty].

(** [rewrites cf left back x y]: [y] arises from [x] by these laws, used anywhere and
    any number of times.  [left] and [back] tell how the trees are read (both [false]
    for a whole expression, see [walk]). *)
Inductive rewrites (cf : config) : bool -> bool -> node -> node -> Prop :=
| rw_refl a b x : rewrites cf a b x x
| rw_sym a b x y : rewrites cf a b x y -> rewrites cf a b y x
| rw_trans a b x y z : rewrites cf a b x y -> rewrites cf a b y z -> rewrites cf a b x z
(* anywhere *)
| rw_seq a b l1 x y l2 : rewrites cf a b x y -> rewrites cf a b (Seq (l1 ++ x :: l2)) (Seq (l1 ++ y :: l2))
| rw_alt a b l1 x y l2 : rewrites cf a b x y -> rewrites cf a b (Alt (l1 ++ x :: l2)) (Alt (l1 ++ y :: l2))
| rw_rep a b md lo hi x y : rewrites cf a b x y -> rewrites cf a b (Rep md lo hi x) (Rep md lo hi y)
| rw_ahead a (b : bool) d x y : xorb b (match d with Ahead => false | Behind => true end) = false ->
    rewrites cf a false x y -> rewrites cf a b (Look d x) (Look d y)
| rw_behind a (b : bool) d x y : xorb b (match d with Ahead => false | Behind => true end) = true ->
    rewrites cf (negb a) true x y -> rewrites cf a b (Look d x) (Look d y)
| rw_neg a b x y : is_class x = false -> is_class y = false -> rewrites cf a b x y ->
    rewrites cf a b (Neg x) (Neg y)
(* concatenations and alternatives *)
| rw_cap a b id nm x : rewrites cf a b (Cap id nm x) x
| rw_empty a b : rewrites cf a b Empty (Seq [])
| rw_seq_one a b x : rewrites cf a b (Seq [x]) x
| rw_seq_flat a b l1 l2 l3 : rewrites cf a b (Seq (l1 ++ Seq l2 :: l3)) (Seq (l1 ++ l2 ++ l3))
| rw_alt_one a b x : rewrites cf a b (Alt [x]) x
| rw_alt_flat a b l1 l2 l3 : rewrites cf a b (Alt (l1 ++ Alt l2 :: l3)) (Alt (l1 ++ l2 ++ l3))
| rw_alt_again a b l1 x l2 l3 : rewrites cf a b (Alt (l1 ++ x :: l2 ++ x :: l3)) (Alt (l1 ++ x :: l2 ++ l3))
| rw_swap a b l1 x y l2 : exclusive cf b x y ->
    rewrites cf a b (Alt (l1 ++ x :: y :: l2)) (Alt (l1 ++ y :: x :: l2))
| rw_suffix a b l z : rewrites cf a b (then_ b (Alt l) z) (Alt (map (fun x => then_ b x z) l))
| rw_prefix a b x l : single x = true ->
    rewrites cf a b (then_ b x (Alt l)) (Alt (map (fun y => then_ b x y) l))
(* single characters *)
| rw_chars a b x y : is_class x = true -> is_class y = true ->
    (forall c, accepts cf x c = accepts cf y c) -> rewrites cf a b x y
| rw_both a x y z : is_class x = true -> is_class y = true -> is_class z = true ->
    (forall c, accepts cf z c = accepts cf x c && accepts cf y c) ->
    rewrites cf a false (Seq [Look Ahead x; y]) z
| rw_but a x y z : is_class x = true -> is_class y = true -> is_class z = true ->
    (forall c, accepts cf z c = negb (accepts cf x c) && accepts cf y c) ->
    rewrites cf a false (Seq [Neg (Look Ahead x); y]) z
(* loops *)
| rw_none a b md x : rewrites cf a b (Rep md 0 (Fin 0) x) Empty
| rw_once a b md x : md <> Possessive -> rewrites cf a b (Rep md 1 (Fin 1) x) x
| rw_optional a b md x : md <> Possessive -> rewrites cf a b (Rep md 0 (Fin 1) x) (maybe cf md x)
| rw_exactly a b md md' n x : md <> Possessive -> md' <> Possessive ->
    rewrites cf a b (Rep md n (Fin n) x) (Rep md' n (Fin n) x)
| rw_counts a b md n m x : md <> Possessive ->
    rewrites cf a b (Rep md (n + m) (Fin (n + m)) x) (then_ b (Rep md n (Fin n) x) (Rep md m (Fin m) x))
| rw_split a b md lo hi x : md <> Possessive ->
    rewrites cf a b (Rep md lo hi x) (then_ b (Rep md lo (Fin lo) x) (Rep md 0 (remaining hi lo) x))
| rw_unfold a b md hi x : md <> Possessive -> hi <> Fin 0 ->
    rewrites cf a b (Rep md 0 hi x) (maybe cf md (then_ b x (Rep md 0 (less hi) x)))
| rw_star_twice a b md x : md <> Possessive ->
    rewrites cf a b (then_ b (Rep md 0 Inf x) (Rep md 0 Inf x)) (Rep md 0 Inf x)
| rw_star_star a b md x : md <> Possessive ->
    rewrites cf a b (Rep md 0 Inf (Rep md 0 Inf x)) (Rep md 0 Inf x)
(* atomic groups and tests *)
| rw_atomic a b x : single x = true -> rewrites cf a b (Rep Possessive 1 (Fin 1) x) x
| rw_fixed a b md n x : single x = true -> rewrites cf a b (Rep md n (Fin n) x) (Rep Possessive n (Fin n) x)
| rw_test_order a b x y : tests x = true -> tests y = true -> rewrites cf a b (Seq [x; y]) (Seq [y; x])
| rw_test_twice a b x : tests x = true -> rewrites cf a b (Seq [x; x]) x
| rw_test_atomic a b d x : rewrites cf a b (Look d (Rep Possessive 1 (Fin 1) x)) (Look d x).

(** ** Proofs *)

Section Sound.
  Variable cf : config.
  Variable s : list ascii.
  Local Notation L := (length s).
  Local Notation W := (W cf s).

  Lemma W_inside a b x i j : i <= L -> In j (W a b x i) -> i <= j <= L.
  Proof. intros Hi Hj. pose proof (W_bounded cf s a b x i j) as H. rewrite side_length in H. auto. Qed.

  Lemma W_moves a b x : bounded (side s a) (W a b x).
  Proof. apply W_bounded. Qed.

  Lemma W_Empty a b i : i <= L -> W a b Empty i = [i].
  Proof. intros Hi. unfold Exact.W, seen. cbn. now rewrite pos_pos. Qed.

  Lemma W_then a b x y i : i <= L -> W a b (then_ b x y) i = flat_map (W a b y) (W a b x i).
  Proof.
    intros Hi. unfold then_. destruct b; rewrite W_Seq by assumption; cbn [rev app map chain_paths];
      apply flat_map_eq; intros j; now rewrite flat_map_single.
  Qed.

  Lemma chain_app fs gs i : chain_paths (fs ++ gs) i = flat_map (chain_paths gs) (chain_paths fs i).
  Proof. apply chain_paths_app. Qed.

  Lemma W_loop a b md lo hi x i : md <> Possessive -> i <= L ->
    W a b (Rep md lo hi x) i
    = flat_map (loop (side s a) (early cf md) (W a b x) (remaining hi lo)) (times (W a b x) (N.to_nat lo) i).
  Proof.
    intros Hm Hi. rewrite W_Rep by assumption. unfold rep_paths, loop_walk, loop_paths, loop, early.
    destruct md; [| |easy]; destruct (ungreedy cf); reflexivity.
  Qed.

  Lemma W_loop_0 a b md hi x i : md <> Possessive -> i <= L ->
    W a b (Rep md 0 hi x) i = loop (side s a) (early cf md) (W a b x) hi i.
  Proof.
    intros Hm Hi. rewrite W_loop by assumption. cbn [N.to_nat times flat_map]. rewrite app_nil_r.
    replace (remaining hi 0) with hi by (destruct hi; cbn; now rewrite ?N.sub_0_r). reflexivity.
  Qed.

  Lemma W_exactly a b md n x i : md <> Possessive -> i <= L ->
    W a b (Rep md n (Fin n) x) i = times (W a b x) (N.to_nat n) i.
  Proof.
    intros Hm Hi. rewrite W_loop by assumption. cbn [remaining]. rewrite N.sub_diag.
    rewrite (flat_map_eq _ (fun j => [j])); [apply flat_map_single|]. intros j. apply loop_0.
  Qed.

  Lemma W_fixed a b n x i : i <= L ->
    W a b (Rep Possessive n (Fin n) x) i = firstn 1 (times (W a b x) (N.to_nat n) i).
  Proof.
    intros Hi. rewrite W_Rep by assumption. unfold rep_paths. cbn [remaining]. rewrite N.sub_diag.
    rewrite (flat_map_eq _ (fun j => [j])); [apply flat_map_single|]. intros j. apply loop_walk_0.
  Qed.

  Lemma W_maybe a b md x i : i <= L -> W a b (maybe cf md x) i = choose (early cf md) (W a b x i) [i].
  Proof.
    intros Hi. unfold maybe, choose. destruct (early cf md); rewrite W_Alt; cbn [flat_map];
      rewrite W_Empty by assumption; now rewrite app_nil_r.
  Qed.

  Lemma W_char a b x i : is_class x = true -> i <= L ->
    alike (W a b x i) (if char_at (side s a) (accepts cf x) i then [S i] else []).
  Proof.
    intros Hc Hi. pose proof (W_class cf s a b x Hc i) as H.
    destruct (char_at (side s a) (accepts cf x) i).
    - apply alike_same.
      + intros E. assert (In (S i) (W a b x i)) by now apply H. now rewrite E in *.
      + intros j Hj. now apply H in Hj.
    - destruct (W a b x i) as [|j l]; [apply alike_refl|]. assert (G : In j (j :: l)) by (cbn; auto).
      now apply H in G.
  Qed.

  (** Lookarounds. *)
  Definition body_left (a b : bool) (d : direction) : bool :=
    if xorb b (match d with Ahead => false | Behind => true end) then negb a else a.
  Definition body_back (b : bool) (d : direction) : bool :=
    xorb b (match d with Ahead => false | Behind => true end).

  Lemma W_Look a b d x i : i <= L ->
    W a b (Look d x) i
    = match W (body_left a b d) (body_back b d) x (pos s (body_left a b d) (pos s a i)) with [] => [] | _ => [i] end.
  Proof.
    intros Hi. unfold Exact.W, seen. rewrite pos_pos by now apply pos_le. cbn [Walk.walk].
    unfold body_left, body_back. destruct (xorb b _).
    - destruct (Walk.walk cf s (negb a) true x (pos s a i)); cbn; [reflexivity|]. now rewrite pos_pos.
    - destruct (Walk.walk cf s a false x (pos s a i)); cbn; [reflexivity|]. now rewrite pos_pos.
  Qed.

  Lemma W_Neg a b x i : i <= L -> is_class x = false ->
    W a b (Neg x) i = match W a b x i with [] => [i] | _ => [] end.
  Proof.
    intros Hi Hc. unfold Exact.W, seen. cbn [Walk.walk]. rewrite Hc.
    destruct (Walk.walk cf s a b x (pos s a i)); cbn; [|reflexivity]. now rewrite pos_pos.
  Qed.

  (** Tests stay where they are. *)
  Lemma W_test a b t i : tests t = true -> i <= L -> W a b t i = [] \/ W a b t i = [i].
  Proof.
    intros Ht Hi.
    assert (G : forall c : bool, map (pos s a) (if c then [pos s a i] else []) = []
                                 \/ map (pos s a) (if c then [pos s a i] else []) = [i])
      by (intros c; rewrite seen_if by assumption; destruct c; auto).
    destruct t; try discriminate; try (unfold Exact.W, seen; cbn [Walk.walk]; apply G).
    - cbn in Ht. rewrite W_Neg by (auto; now destruct (is_class t)). destruct (W a b t i); auto.
    - rewrite W_Look by assumption. destruct (W _ _ t _); auto.
  Qed.

  Lemma chain_single (fs : list (nat -> list nat)) :
    Forall (fun f => forall i j k, i <= L -> In j (f i) -> In k (f i) -> j = k) fs ->
    Forall (fun f => forall i j, i <= L -> In j (f i) -> j <= L) fs ->
    forall i j k, i <= L -> In j (chain_paths fs i) -> In k (chain_paths fs i) -> j = k.
  Proof.
    induction fs as [|f fs IH]; intros F B i j k Hi; cbn [chain_paths].
    - intros [<-|[]] [<-|[]]. reflexivity.
    - inversion F; subst. inversion B; subst. rewrite !in_flat_map. intros (u & Hu & Hj) (v & Hv & Hk).
      assert (u = v) as <- by eauto. eapply IH; [eassumption|eassumption| |exact Hj|exact Hk]; eauto.
  Qed.

  Lemma times_single (f : nat -> list nat) n :
    (forall i j k, i <= L -> In j (f i) -> In k (f i) -> j = k) ->
    (forall i j, i <= L -> In j (f i) -> j <= L) ->
    forall i j k, i <= L -> In j (times f n i) -> In k (times f n i) -> j = k.
  Proof.
    intros F B. induction n as [|n IH]; intros i j k Hi; cbn [times].
    - intros [<-|[]] [<-|[]]. reflexivity.
    - rewrite !in_flat_map. intros (u & Hu & Hj) (v & Hv & Hk).
      assert (u = v) as <- by eauto. apply (IH u j k); eauto.
  Qed.

  Lemma single_class a b x : is_class x = true ->
    forall i j k, i <= L -> In j (W a b x i) -> In k (W a b x i) -> j = k.
  Proof. intros Hc i j k _ Hj Hk. apply (W_class cf s a b x Hc) in Hj as [-> _], Hk as [-> _]. reflexivity. Qed.

  Lemma single_sound x : single x = true -> forall a b i j k, i <= L ->
    In j (W a b x i) -> In k (W a b x i) -> j = k.
  Proof.
    assert (T : forall t, tests t = true -> forall a b i j k, i <= L -> In j (W a b t i) -> In k (W a b t i) -> j = k).
    { intros t Ht a b i j k Hi Hj Hk. destruct (W_test a b t i Ht Hi) as [E|E]; rewrite E in *; [easy|].
      destruct Hj as [<-|[]], Hk as [<-|[]]. reflexivity. }
    assert (B : forall a b y i j, i <= L -> In j (W a b y i) -> j <= L) by (intros; eapply W_inside; eauto).
    induction x using node_ind'; intros Hs lf bk i j k Hi;
      try (apply T; auto; reflexivity); try (apply single_class; auto; reflexivity);
      try discriminate.
    - rewrite W_Empty by assumption. intros [<-|[]] [<-|[]]. reflexivity.
    - destruct (is_class x) eqn:C; [apply single_class; auto|]. apply T; auto. cbn. now rewrite C.
    - destruct (is_class (Seq l)) eqn:C; [now apply single_class|]. cbn [single] in Hs. rewrite C in Hs. cbn [orb] in Hs.
      rewrite W_Seq by assumption. rewrite forallb_forall in Hs. rewrite Forall_forall in H.
      apply chain_single; auto; rewrite Forall_map; apply Forall_forall; intros y Hy.
      + assert (In y l) by (destruct bk; [now apply in_rev|assumption]). intros; eapply H; eauto.
      + intros; eapply B; eauto.
    - destruct (is_class (Alt l)) eqn:C; [now apply single_class|]. cbn [single] in Hs. rewrite C in Hs. cbn [orb] in Hs.
      rewrite W_Alt. destruct l as [|x [|y l]]; [easy| |discriminate].
      cbn [flat_map]. rewrite app_nil_r. inversion H; subst. eauto.
    - cbn [single] in Hs. rewrite W_Cap. cbn in Hs. eauto.
    - destruct (is_class (Rep md lo hi x)) eqn:C; [now apply single_class|]. cbn [single] in Hs. rewrite C in Hs. cbn [orb] in Hs.
      destruct (match md with Possessive => true | _ => false end) eqn:P.
      + destruct md; try discriminate. rewrite W_Rep by assumption. cbn [rep_paths].
        destruct (times (W lf bk x) (N.to_nat lo) i) as [|u l]; [easy|]. cbn. intros [<-|[]] [<-|[]]. reflexivity.
      + assert (Hm : md <> Possessive) by (intros ->; discriminate).
        destruct hi as [h|]; [|destruct md; discriminate].
        assert (Hs' : N.eqb lo h && single x = true) by (destruct md; auto; easy).
        apply andb_prop in Hs' as [E Hx]. apply N.eqb_eq in E. subst h. rewrite W_exactly by assumption.
        apply times_single; eauto.
  Qed.

  Lemma single_list a b x i : single x = true -> i <= L ->
    W a b x i = [] \/ exists e, e <= L /\ alike (W a b x i) [e].
  Proof.
    intros Hs Hi. destruct (W a b x i) as [|e l] eqn:E; [auto|right]. exists e. split.
    - eapply W_inside; [exact Hi|]. rewrite E. cbn. auto.
    - apply alike_same; [easy|]. intros j Hj. rewrite <- E in Hj.
      eapply single_sound; eauto. rewrite E. cbn. auto.
  Qed.

  (** First characters. *)
  Lemma begins_sound b x p : begins cf b x p -> forall a i, i <= L -> W a b x i <> [] ->
    char_at (side s a) p i = true.
  Proof.
    assert (N : forall A (l : list A), l <> [] -> exists y, In y l)
      by (intros A [|y l] H; [easy|exists y; cbn; auto]).
    assert (N' : forall A (l : list A) y, In y l -> l <> []) by (intros A [|z l] y H; easy).
    induction 1 as [x C|x l p -> _ IH|x l p -> _ IH|t l p -> T _ IH|p|x l p _ IH1 _ IH2|id nm x p _ IH|md lo hi x p Hlo _ IH|x p q Hpq _ IH];
      intros a i Hi Hn.
    - apply N in Hn as (j & Hj). now apply (W_class cf s a b x C) in Hj.
    - rewrite W_Seq in Hn by assumption. cbn [map chain_paths] in Hn. apply N in Hn as (j & Hj).
      apply in_flat_map in Hj as (k & Hk & _). eauto.
    - rewrite W_Seq in Hn by assumption. rewrite rev_app_distr in Hn. cbn [rev app map chain_paths] in Hn.
      apply N in Hn as (j & Hj). apply in_flat_map in Hj as (k & Hk & _). eauto.
    - rewrite W_Seq in Hn by assumption. cbn [map chain_paths] in Hn. apply N in Hn as (j & Hj).
      apply in_flat_map in Hj as (k & Hk & Hj). destruct (W_test a false t i T Hi) as [E|E]; rewrite E in Hk; [easy|].
      destruct Hk as [<-|[]]. apply IH; auto. rewrite W_Seq by assumption. eauto.
    - now rewrite W_Alt in Hn.
    - rewrite W_Alt in Hn. cbn [flat_map] in Hn. apply N in Hn as (j & Hj). apply in_app_or in Hj as [Hj|Hj]; [eauto|].
      apply IH2; auto. rewrite W_Alt. eauto.
    - rewrite W_Cap in Hn. auto.
    - rewrite W_Rep in Hn by assumption. apply N in Hn as (j & Hj). apply IH; auto.
      assert (T : times (W a b x) (N.to_nat lo) i <> []).
      { unfold rep_paths in Hj. destruct md; apply in_flat_map in Hj as (k & Hk & _); try (apply in_firstn in Hk); eauto. }
      destruct (N.to_nat lo) as [|m] eqn:E; [lia|]. cbn [times] in T. intros E0. now rewrite E0 in T.
    - specialize (IH a i Hi Hn). unfold char_at in *. destruct (nth_error (side s a) i); auto.
  Qed.

  Lemma exclusive_sound b x y : exclusive cf b x y -> forall a i, i <= L -> W a b x i = [] \/ W a b y i = [].
  Proof.
    induction 1 as [x y p q Hx Hy D|t l1 l2 -> T|x y _ IH]; intros a i Hi.
    - destruct (W a b x i) as [|u l] eqn:Ex; [auto|right]. destruct (W a b y i) as [|v m] eqn:Ey; [auto|exfalso].
      assert (P : char_at (side s a) p i = true) by (eapply begins_sound; eauto; rewrite Ex; easy).
      assert (Q : char_at (side s a) q i = true) by (eapply begins_sound; eauto; rewrite Ey; easy).
      unfold char_at in P, Q. destruct (nth_error (side s a) i) as [c|]; [|discriminate].
      unfold disjoint in D. rewrite forallb_forall in D. specialize (D c (all_bytes_in c)). now rewrite P, Q in D.
    - rewrite !W_Seq by assumption. cbn [map chain_paths].
      assert (C : is_class t = false) by (destruct t; try discriminate; auto; cbn in T |- *; now destruct (is_class t)).
      rewrite W_Neg by assumption. destruct (W_test a false t i T Hi) as [E|E]; rewrite E; cbn; auto.
    - destruct (IH a i Hi); auto.
  Qed.

  Lemma alike_chain fs gs : Forall2 (fun f g => forall i, i <= L -> alike (f i) (g i)) fs gs ->
    Forall (fun f => forall i j, i <= L -> In j (f i) -> j <= L) fs ->
    forall i, i <= L -> alike (chain_paths fs i) (chain_paths gs i).
  Proof.
    induction 1 as [|f g fs gs E _ IH]; intros B i Hi; cbn [chain_paths]; [apply alike_refl|].
    inversion B; subst. apply alike_flat; auto. intros j Hj. apply IH; auto. eauto.
  Qed.

  Lemma alike_loop a b md lo hi x y : (forall i, i <= L -> alike (W a b x i) (W a b y i)) ->
    forall i, i <= L -> alike (W a b (Rep md lo hi x) i) (W a b (Rep md lo hi y) i).
  Proof.
    intros E i Hi. pose proof (W_moves a b x) as B.
    assert (E' : forall j, j <= length (side s a) -> alike (W a b x j) (W a b y j))
      by (intros j Hj; rewrite side_length in Hj; auto).
    assert (Hi' : i <= length (side s a)) by now rewrite side_length.
    assert (Ht : alike (times (W a b x) (N.to_nat lo) i) (times (W a b y) (N.to_nat lo) i)) by now apply (alike_times (side s a)).
    destruct (match md with Possessive => true | _ => false end) eqn:P.
    - destruct md; try discriminate. rewrite !W_Rep by assumption. cbn [rep_paths].
      pose proof (alike_hd _ _ Ht) as H. pose proof (times_bounded _ _ (N.to_nat lo) B i) as T.
      destruct (times (W a b x) (N.to_nat lo) i) as [|u l], (times (W a b y) (N.to_nat lo) i) as [|v m];
        cbn in H; try discriminate; [apply alike_refl|]. injection H as <-. cbn [firstn flat_map loop_walk].
      apply alike_eq. do 2 f_equal. apply (alike_commit (side s a)); auto. destruct (T u Hi'); cbn; auto.
    - assert (Hm : md <> Possessive) by (intros ->; discriminate). rewrite !W_loop by assumption.
      apply alike_flat; [exact Ht|]. intros j Hj. apply (times_bounded _ _ (N.to_nat lo) B) in Hj; [|exact Hi'].
      unfold loop, lazy_paths, greedy_paths. destruct (early cf md).
      + apply (alike_fewer (side s a)); auto. lia.
      + apply (alike_more (side s a)); auto. lia.
  Qed.

  Lemma times_app f n m i : times f (n + m) i = flat_map (times f m) (times f n i).
  Proof.
    revert i. induction n as [|n IH]; intros i; cbn [times Nat.add flat_map]; [now rewrite app_nil_r|].
    rewrite flat_map_flat_map. apply flat_map_eq. exact IH.
  Qed.

  Lemma moves_le_chain a b l i j : i <= L -> In j (chain_paths (map (W a b) l) i) -> j <= L.
  Proof.
    revert i. induction l as [|x l IH]; intros i Hi; cbn [map chain_paths]; [intros [<-|[]]; auto|].
    rewrite in_flat_map. intros (k & Hk & Hj). apply W_inside in Hk; auto. eapply IH; [|exact Hj]. lia.
  Qed.

  Theorem rewrites_sound a b x y : rewrites cf a b x y ->
    forall i, i <= L -> alike (W a b x i) (W a b y i).
  Proof.
    assert (LS : forall c, length (side s c) = L) by (intros; apply side_length).
    induction 1; intros i Hi.
    - apply alike_refl.
    - apply alike_sym. auto.
    - eapply alike_trans; eauto.
    - (* seq *) rewrite !W_Seq by assumption.
      apply alike_chain; auto.
      + assert (F : Forall2 (fun u v => forall i, i <= L -> alike (W a b u i) (W a b v i)) (l1 ++ x :: l2) (l1 ++ y :: l2)).
        { assert (R : forall l, Forall2 (fun u v => forall i, i <= L -> alike (W a b u i) (W a b v i)) l l)
            by (induction l; constructor; auto using alike_refl).
          apply Forall2_app; auto. }
        destruct b; [|clear -F; induction F; cbn; constructor; auto].
        assert (F' : Forall2 (fun u v => forall i, i <= L -> alike (W a true u i) (W a true v i))
                       (rev (l1 ++ x :: l2)) (rev (l1 ++ y :: l2))).
        { clear -F. induction F; cbn; [constructor|]. apply Forall2_app; auto. }
        clear -F'. induction F'; cbn; constructor; auto.
      + rewrite Forall_map. apply Forall_forall. intros u _ k j Hk Hj. eapply W_inside; eauto.
    - (* alt *) rewrite !W_Alt, !flat_map_app. cbn [flat_map]. apply alike_app; [apply alike_refl|].
      apply alike_app; [auto|apply alike_refl].
    - now apply alike_loop.
    - (* ahead *) rewrite !W_Look by assumption. unfold body_left, body_back. rewrite H.
      pose proof (alike_nil _ _ (IHrewrites (pos s a (pos s a i)) ltac:(auto using pos_le))) as E.
      destruct (W a false x _), (W a false y _); try apply alike_refl; exfalso; destruct E; intuition discriminate.
    - (* behind *) rewrite !W_Look by assumption. unfold body_left, body_back. rewrite H.
      pose proof (alike_nil _ _ (IHrewrites (pos s (negb a) (pos s a i)) ltac:(auto using pos_le))) as E.
      destruct (W (negb a) true x _), (W (negb a) true y _); try apply alike_refl; exfalso; destruct E; intuition discriminate.
    - (* neg *) rewrite !W_Neg by assumption. pose proof (alike_nil _ _ (IHrewrites i Hi)) as E.
      destruct (W a b x i), (W a b y i); try apply alike_refl; exfalso; destruct E; intuition discriminate.
    - apply alike_refl.
    - rewrite W_Empty, W_Seq by assumption. apply alike_eq. destruct b; reflexivity.
    - rewrite W_Seq by assumption. apply alike_eq. destruct b; cbn; apply flat_map_single.
    - (* seq flat *) rewrite !W_Seq by assumption. apply alike_eq. destruct b.
      + rewrite !rev_app_distr. cbn [rev]. rewrite <- !app_assoc. rewrite !map_app, !(chain_app (map (W a true) (rev l3))).
        apply flat_map_ext_in. intros j Hj. assert (Hj' : j <= L).
        { apply (moves_le_chain a true (rev l3)) in Hj; auto. }
        cbn [map app chain_paths]. rewrite W_Seq by assumption. rewrite chain_app. reflexivity.
      + rewrite !map_app, !(chain_app (map (W a false) l1)). apply flat_map_ext_in. intros j Hj.
        assert (Hj' : j <= L) by (apply (moves_le_chain a false l1) in Hj; auto).
        cbn [map chain_paths]. rewrite W_Seq by assumption. rewrite chain_app. reflexivity.
    - rewrite W_Alt. cbn [flat_map]. rewrite app_nil_r. apply alike_refl.
    - rewrite !W_Alt, !flat_map_app. cbn [flat_map]. rewrite W_Alt. apply alike_refl.
    - (* again *) rewrite !W_Alt. rewrite !flat_map_app. cbn [flat_map]. rewrite !flat_map_app. cbn [flat_map].
      set (A := flat_map _ l1). set (X := W a b x i). set (B := flat_map _ l2). set (C := flat_map _ l3).
      apply alike_app; [apply alike_refl|]. rewrite !(app_assoc X B). apply alike_absorb.
      apply incl_appl, incl_refl.
    - (* swap *) rewrite !W_Alt. rewrite !flat_map_app. cbn [flat_map].
      apply alike_app; [apply alike_refl|]. destruct (exclusive_sound b x y H a i Hi) as [E|E]; rewrite E; cbn [app];
        rewrite ?app_nil_r; apply alike_refl.
    - (* suffix *) rewrite W_then by assumption. rewrite !W_Alt. rewrite flat_map_flat_map, flat_map_map.
      apply alike_eq. apply flat_map_eq. intros x. now rewrite W_then.
    - (* prefix *) rewrite W_then by assumption. rewrite W_Alt, flat_map_map.
      rewrite (flat_map_eq _ (fun y => flat_map (W a b y) (W a b x i))) by (intros y; now rewrite W_then).
      destruct (single_list a b x i H Hi) as [E|(e & He & E)].
      + rewrite E. cbn [flat_map]. apply alike_eq. clear. induction l; cbn; auto.
      + eapply alike_trans; [apply alike_flat_l; exact E|]. cbn [flat_map]. rewrite app_nil_r, W_Alt.
        apply alike_flat_r. intros y _. apply alike_sym. eapply alike_trans; [apply alike_flat_l; exact E|].
        cbn [flat_map]. rewrite app_nil_r. apply alike_refl.
    - (* chars *) eapply alike_trans; [now apply W_char|]. apply alike_sym. eapply alike_trans; [now apply W_char|].
      unfold char_at. destruct (nth_error (side s a) i); [|apply alike_refl]. rewrite H1. apply alike_refl.
    - (* both *) apply alike_sym. eapply alike_trans; [now apply W_char|]. apply alike_sym.
      rewrite W_Seq by assumption. cbn [map chain_paths]. rewrite W_Look by assumption.
      unfold body_left, body_back. cbn [xorb]. rewrite pos_pos by assumption.
      pose proof (W_char a false x i H Hi) as X. pose proof (W_char a false y i H0 Hi) as Y.
      unfold char_at in *. destruct (nth_error (side s a) i) as [c|].
      + rewrite H2. pose proof (alike_nil _ _ X) as Xn. destruct (accepts cf x c); cbn [andb].
        * destruct (W a false x i); [exfalso; destruct Xn; intuition discriminate|].
          cbn [flat_map]. rewrite flat_map_single, app_nil_r. exact Y.
        * destruct Xn as [_ Xn]. rewrite Xn by reflexivity. apply alike_refl.
      + pose proof (alike_nil _ _ X) as [_ Xn]. rewrite Xn by reflexivity. apply alike_refl.
    - (* but *) apply alike_sym. eapply alike_trans; [now apply W_char|]. apply alike_sym.
      rewrite W_Seq by assumption. cbn [map chain_paths]. rewrite W_Neg by auto. rewrite W_Look by assumption.
      unfold body_left, body_back. cbn [xorb]. rewrite pos_pos by assumption.
      pose proof (W_char a false x i H Hi) as X. pose proof (W_char a false y i H0 Hi) as Y.
      unfold char_at in *. destruct (nth_error (side s a) i) as [c|].
      + rewrite H2. pose proof (alike_nil _ _ X) as Xn. destruct (accepts cf x c); cbn [andb negb].
        * destruct (W a false x i); [exfalso; destruct Xn; intuition discriminate|]. apply alike_refl.
        * destruct Xn as [_ Xn]. rewrite Xn by reflexivity.
          cbn [flat_map]. rewrite flat_map_single, app_nil_r. exact Y.
      + pose proof (alike_nil _ _ X) as [_ Xn]. rewrite Xn by reflexivity.
        cbn [flat_map]. rewrite flat_map_single, app_nil_r. exact Y.
    - (* none *) rewrite W_Empty by assumption. apply alike_eq.
      destruct (match md with Possessive => true | _ => false end) eqn:P.
      + destruct md; try discriminate. now rewrite W_fixed.
      + rewrite W_exactly by (auto; intros ->; discriminate). reflexivity.
    - (* once *) rewrite W_exactly by assumption. apply alike_eq. apply times_one.
    - (* optional *) rewrite W_loop_0, W_maybe by assumption.
      eapply alike_trans; [apply (step_unfold (side s a)); auto using W_moves; [now rewrite LS|discriminate]|].
      apply choose_alike; [|apply alike_refl]. cbn [less]. change (1 - 1)%N with 0%N. apply alike_eq.
      rewrite (flat_map_eq _ (fun j => [j])) by (intros; apply loop_0). apply flat_map_single.
    - (* exactly *) rewrite !W_exactly by assumption. apply alike_refl.
    - (* counts *) rewrite W_then by assumption. rewrite !W_exactly by assumption.
      rewrite N2Nat.inj_add, times_app. apply alike_eq. apply flat_map_ext_in. intros j Hj.
      apply (times_bounded _ _ _ (W_moves a b x)) in Hj; rewrite LS in *; auto. rewrite W_exactly by (auto; lia). reflexivity.
    - (* split *) rewrite W_then by assumption. rewrite W_loop, W_exactly by assumption.
      apply alike_eq. apply flat_map_ext_in. intros j Hj.
      apply (times_bounded _ _ _ (W_moves a b x)) in Hj; rewrite LS in *; auto. rewrite W_loop_0 by (auto; lia). reflexivity.
    - (* unfold *) rewrite W_loop_0, W_maybe, W_then by assumption.
      eapply alike_trans; [apply (step_unfold (side s a)); auto using W_moves; now rewrite LS|].
      apply choose_alike; [|apply alike_refl]. apply alike_eq. apply flat_map_ext_in. intros j Hj.
      apply W_inside in Hj; auto. rewrite W_loop_0 by (auto; lia). reflexivity.
    - (* twice *) rewrite W_then by assumption. rewrite W_loop_0 by assumption.
      rewrite (flat_map_ext_in _ (loop (side s a) (early cf md) (W a b x) Inf)).
      + apply (star_twice (side s a) (W a b x) (W_moves a b x) _ (L - i)); rewrite LS; lia.
      + intros j Hj. apply (loop_bounded (side s a)) in Hj; rewrite ?LS in *; auto using W_moves. apply W_loop_0; auto. lia.
    - (* star star *) rewrite !W_loop_0 by assumption.
      eapply alike_trans; [|apply (star_star (side s a) (W a b x) (early cf md) (W_moves a b x) (L - i)); rewrite LS; lia].
      unfold loop at 1 2, lazy_paths, greedy_paths. destruct (early cf md) eqn:Ee.
      + apply (alike_fewer (side s a)); auto using W_moves; rewrite ?LS; auto.
        intros j Hj. rewrite W_loop_0 by (auto; lia). rewrite Ee. apply alike_refl.
      + apply (alike_more (side s a)); auto using W_moves; rewrite ?LS; auto.
        intros j Hj. rewrite W_loop_0 by (auto; lia). rewrite Ee. apply alike_refl.
    - (* atomic *) rewrite W_fixed by assumption. change (N.to_nat 1) with 1. rewrite times_one.
      destruct (single_list a b x i H Hi) as [E|(e & He & E)].
      + rewrite E. apply alike_refl.
      + eapply alike_trans; [|apply alike_sym; exact E]. apply alike_hd in E.
        destruct (W a b x i); cbn in E; [discriminate|]. injection E as ->. apply alike_refl.
    - (* fixed *) rewrite W_fixed by assumption.
      assert (T : alike (times (W a b x) (N.to_nat n) i) (firstn 1 (times (W a b x) (N.to_nat n) i))).
      { pose proof (times_single (W a b x) (N.to_nat n) (single_sound x H a b)) as T.
        specialize (T ltac:(intros k j Hk Hj; eapply W_inside; eauto) i).
        destruct (times (W a b x) (N.to_nat n) i) as [|e l]; [apply alike_refl|].
        cbn [firstn]. apply alike_same; [easy|]. intros j Hj. apply T; cbn; auto. }
      destruct (match md with Possessive => true | _ => false end) eqn:P.
      + destruct md; try discriminate. rewrite W_fixed by assumption. apply alike_refl.
      + rewrite W_exactly by (auto; intros ->; discriminate). exact T.
    - (* test order *) rewrite !W_Seq by assumption. apply alike_eq.
      destruct (W_test a b x i H Hi) as [Ex|Ex], (W_test a b y i H0 Hi) as [Ey|Ey];
        destruct b; cbn [rev app map chain_paths]; rewrite ?Ex, ?Ey; cbn [flat_map app]; rewrite ?Ex, ?Ey; reflexivity.
    - (* test twice *) rewrite !W_Seq by assumption. apply alike_eq.
      destruct (W_test a b x i H Hi) as [Ex|Ex];
        destruct b; cbn [rev app map chain_paths]; rewrite ?Ex; cbn [flat_map app]; rewrite ?Ex; reflexivity.
    - (* test atomic *) rewrite !W_Look by assumption.
      rewrite W_fixed by auto using pos_le. change (N.to_nat 1) with 1. rewrite times_one.
      destruct (W _ _ x _); cbn; apply alike_refl.
  Qed.
End Sound.

(** ** Calls *)

Section Ranges.
  Variables from from' : nat -> option (option nat).
  Variable len : nat.
  Hypothesis E : forall i, i <= len -> from i = from' i.

  Lemma adjacent_equal p l : Scans.adjacent_scan from len p l -> p <= len ->
    forall l', Scans.adjacent_scan from' len p l' -> l = l'.
  Proof.
    induction 1 as [p H|p H|p e l H He Hl IH]; intros Hp l' H'; rewrite E in H by lia.
    - inversion H'; subst; congruence.
    - inversion H' as [|? G|? e' l0 G Hj Hl0]; subst; [congruence|reflexivity|]. assert (e' = p) by congruence. lia.
    - inversion H' as [|? G|? e' l0 G Hj Hl0]; subst; [congruence| |].
      + assert (p = e) by congruence. lia.
      + assert (e' = e) as -> by congruence. f_equal. apply IH; auto. lia.
  Qed.

  Lemma next_equal p i e : Scans.next_match from len p i e -> Scans.next_match from' len p i e.
  Proof.
    intros (H1 & H2 & H3). split; [exact H1|]. rewrite <- E by lia. split; [exact H2|].
    intros i' Hi'. rewrite <- E by lia. auto.
  Qed.

  Lemma leftmost_equal p l : Scans.leftmost_scan from len p l -> p <= len -> Scans.leftmost_scan from' len p l.
  Proof.
    induction 1 as [p H|p i H|p i e l H He Hl IH]; intros Hp.
    - apply Scans.ls_none. intros i Hi. rewrite <- E by lia. auto.
    - apply Scans.ls_empty. now apply next_equal.
    - apply Scans.ls_more; [now apply next_equal|exact He|]. apply IH. lia.
  Qed.
End Ranges.

(** Both calls return results with the same ranges. *)
Definition same_ranges (o1 o2 : call (list match_res)) : Prop :=
  exists k l, o1 = Returned k /\ o2 = Returned l
    /\ map (fun x => group0 (groups x)) k = map (fun x => group0 (groups x)) l.

Theorem rewritten_answers n1 n2 fl ct s : rewrites (config_of fl ct) false false n1 n2 ->
  let r1 := mk_regex n1 fl in let r2 := mk_regex n2 fl in
  usable r1 ct -> backref_free n1 = true -> usable r2 ct -> backref_free n2 = true ->
  same_answers r1 r2 ct s
  /\ same_ranges (tokenize r1 ct s) (tokenize r2 ct s)
  /\ same_ranges (find_all r1 ct s) (find_all r2 ct s).
Proof.
  intros Hr r1 r2 U1 R1 U2 R2. set (cf := config_of fl ct) in *.
  assert (A : forall i, i <= length s -> alike (Walk.walk cf s false false n1 i) (Walk.walk cf s false false n2 i)).
  { intros i Hi. rewrite <- !W_right. now apply rewrites_sound. }
  assert (P : forall i, i <= length s -> actual cf s n1 i = actual cf s n2 i).
  { intros i Hi. unfold actual. now apply alike_hd, A. }
  assert (F : forall i, i <= length s -> Uniform.prefix_from cf n1 s i = Uniform.prefix_from cf n2 s i).
  { intros i Hi. rewrite !Records.from_actual by auto. now rewrite P. }
  split; [|split].
  - unfold same_answers, same_answer. split; [|split].
    + destruct (groups_valid _ ct s U1) as [(a & Ea & _ & e1 & Ga & Ma) _].
      destruct (groups_valid _ ct s U2) as [(b & Eb & _ & e2 & Gb & Mb) _].
      destruct (match_exact _ ct s U1 R1) as (a' & Ea' & Ha).
      destruct (match_exact _ ct s U2 R2) as (b' & Eb' & Hb).
      rewrite Ea in Ea'. injection Ea' as <-. rewrite Eb in Eb'. injection Eb' as <-.
      cbn [ast flags r1 r2] in *. fold cf in Ha, Hb.
      rewrite (alike_in _ _ (A 0 ltac:(lia))) in Ha. rewrite <- Hb in Ha.
      exists a, b. do 2 (split; [assumption|]).
      assert (Em : matched a = matched b) by (destruct (matched a), (matched b); intuition congruence).
      split; [exact Em|]. intros H. rewrite Ga, Gb, Ma, Mb; congruence.
    + destruct (match_prefix_exact _ ct s U1 R1) as (a & Ea & Ha).
      destruct (match_prefix_exact _ ct s U2 R2) as (b & Eb & Hb).
      cbn [ast flags r1 r2] in *. fold cf in Ha, Hb. rewrite P in Ha by lia.
      exists a, b. do 2 (split; [assumption|]).
      destruct (actual cf s n2 0); intuition congruence.
    + destruct (search_exact _ ct s U1 R1) as (a & Ea & G & G').
      destruct (search_exact _ ct s U2 R2) as (b & Eb & B & B').
      cbn [ast flags r1 r2] in *. fold cf in G, G', B, B'.
      exists a, b. do 2 (split; [assumption|]). destruct (matched a), (matched b).
      * split; auto. intros _.
        destruct (G eq_refl) as (i & e & Li & -> & Hi & Hi'), (B eq_refl) as (j & e' & Lj & -> & Hj & Hj').
        destruct (Nat.lt_trichotomy i j) as [Hlt|[->|Hlt]].
        -- rewrite P, (Hj' i) in Hi by lia. discriminate.
        -- rewrite P in Hi by lia. congruence.
        -- rewrite <- P, (Hi' j) in Hj by lia. discriminate.
      * destruct (G eq_refl) as (i & e & Li & _ & Hi & _). rewrite P, B' in Hi by auto. discriminate.
      * destruct (B eq_refl) as (i & e & Li & _ & Hi & _). rewrite <- P, G' in Hi by auto. discriminate.
      * split; [reflexivity|discriminate].
  - destruct (Scans.tokenize_scan r1 ct s U1) as (k & Ek & _ & bs & Bk & Sk).
    destruct (Scans.tokenize_scan r2 ct s U2) as (l & El & _ & bs' & Bl & Sl).
    exists k, l. split; [exact Ek|]. split; [exact El|]. rewrite Bk, Bl. f_equal.
    eapply adjacent_equal; [exact F|exact Sk|lia|exact Sl].
  - destruct (Scans.find_all_scan r1 ct s U1 R1) as (k & Ek & _ & bs & Bk & Sk).
    destruct (Scans.find_all_scan r2 ct s U2 R2) as (l & El & _ & bs' & Bl & Sl).
    exists k, l. split; [exact Ek|]. split; [exact El|]. rewrite Bk, Bl. f_equal.
    eapply Records.scan_unique; [|exact Sl]. eapply leftmost_equal; [exact F|exact Sk|lia].
Qed.
