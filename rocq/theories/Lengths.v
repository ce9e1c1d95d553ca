(** How long matches are (C71). *)
From Verif Require Import Matcher Api Basics Safe Cong Impl Spec Paths Mirror Adequacy Calls
  Lift Matching Actual Walk Exact Tracks Explore Explored Follows Searches Contained.
From Coq Require Import Lia.

(** ** The lengths of the texts that a tree can match *)

(** A sum of [k] numbers with the property. *)
Fixpoint sum_of (P : nat -> Prop) (k d : nat) : Prop :=
  match k with
  | 0 => d = 0
  | S k' => exists a b, d = a + b /\ P a /\ sum_of P k' b
  end.

(** Nothing is assumed about the text of a backreference.  (Repetitions whose
    bounds are in the wrong order do not compile; they are taken as exact.) *)
Fixpoint possible_length (n : node) (d : nat) {struct n} : Prop :=
  match n with
  | Empty | BeginLine | BeginInput | EndLine | EndInput | WordB | Look _ _ => d = 0
  | Wild | Lit _ | Range _ _ | CSet _ => d = 1
  | Neg x => if is_class x then d = 1 else d = 0
  | Seq l =>
      (fix parts (l : list node) (d : nat) : Prop :=
         match l with
         | [] => d = 0
         | x :: r => exists a b, d = a + b /\ possible_length x a /\ parts r b
         end) l d
  | Alt l =>
      (fix any (l : list node) : Prop :=
         match l with
         | [] => False
         | x :: r => possible_length x d \/ any r
         end) l
  | Cap _ _ x => possible_length x d
  | Rep _ lo hi x =>
      exists k, (lo <= N.of_nat k)%N /\ match hi with Fin h => (N.of_nat k <= N.max lo h)%N | Inf => True end
        /\ sum_of (possible_length x) k d
  | Backref _ | NBackref _ => True
  end.

(** Bounds for them that can be computed. *)
Fixpoint shortest (n : node) : N :=
  match n with
  | Wild | Lit _ | Range _ _ | CSet _ => 1
  | Neg x => if is_class x then 1 else 0
  | Seq l => fold_right (fun x m => shortest x + m) 0 l
  | Alt l =>
      (fix least (l : list node) : N :=
         match l with
         | [] => 0
         | [x] => shortest x
         | x :: r => N.min (shortest x) (least r)
         end) l
  | Cap _ _ x => shortest x
  | Rep _ lo _ x => lo * shortest x
  | _ => 0
  end%N.

(** [None]: there is no bound. *)
Fixpoint longest (n : node) : option N :=
  match n with
  | Wild | Lit _ | Range _ _ | CSet _ => Some 1
  | Neg x => Some (if is_class x then 1 else 0)
  | Seq l =>
      fold_right (fun x m => match longest x, m with Some a, Some b => Some (a + b) | _, _ => None end) (Some 0) l
  | Alt l =>
      fold_right (fun x m => match longest x, m with Some a, Some b => Some (N.max a b) | _, _ => None end) (Some 0) l
  | Cap _ _ x => longest x
  | Rep _ lo hi x =>
      match longest x, hi with
      | Some 0, _ => Some 0
      | _, Fin 0 => if N.eqb lo 0 then Some 0 else option_map (N.mul lo) (longest x)
      | Some a, Fin h => Some (N.max lo h * a)
      | _, _ => None
      end
  | Backref _ | NBackref _ => None
  | _ => Some 0
  end%N.

Definition up_to (m : option N) (d : nat) : Prop :=
  match m with Some m => (N.of_nat d <= m)%N | None => True end.

Lemma possible_Seq l d : possible_length (Seq l) d <->
  match l with [] => d = 0 | x :: r => exists a b, d = a + b /\ possible_length x a /\ possible_length (Seq r) b end.
Proof. destruct l; reflexivity. Qed.

Lemma possible_Alt l d : possible_length (Alt l) d <-> exists x, In x l /\ possible_length x d.
Proof.
  induction l as [|x r IH]; cbn [In].
  - split; [intros []|intros (x & [] & _)].
  - change (possible_length (Alt (x :: r)) d) with (possible_length x d \/ possible_length (Alt r) d).
    rewrite IH. split.
    + intros [H|(y & H1 & H2)]; eauto.
    + intros (y & [->|H1] & H2); eauto.
Qed.

Lemma sum_bounds (P : nat -> Prop) lo hi k : (forall d, P d -> (lo <= N.of_nat d)%N /\ up_to hi d) ->
  forall d, sum_of P k d -> (N.of_nat k * lo <= N.of_nat d)%N
    /\ match hi with Some h => (N.of_nat d <= N.of_nat k * h)%N | None => True end.
Proof.
  intros H. induction k as [|k IH]; intros d; cbn [sum_of].
  - intros ->. destruct hi; cbn; lia.
  - intros (a & b & -> & Ha & Hb). apply H in Ha as [A1 A2]. apply IH in Hb as [B1 B2].
    destruct hi as [h|]; cbn [up_to] in A2; nia.
Qed.

Lemma length_bounds n : forall j, possible_length n j -> (shortest n <= N.of_nat j)%N /\ up_to (longest n) j.
Proof.
  induction n using node_ind'; intros j Hd; try (cbn in *; lia).
  - (* Neg *) cbn in *. destruct (is_class n); lia.
  - (* Seq *) revert j Hd. induction H as [|x r Hx _ IH]; intros j Hd; apply possible_Seq in Hd.
    + subst. cbn. lia.
    + destruct Hd as (a & b & -> & Ha & Hb). apply Hx in Ha as [A1 A2]. apply IH in Hb as [B1 B2].
      change (shortest (Seq (x :: r))) with (shortest x + shortest (Seq r))%N.
      change (longest (Seq (x :: r)))
        with (match longest x, longest (Seq r) with Some u, Some v => Some (u + v)%N | _, _ => None end).
      destruct (longest x) as [u|]; [|split; [lia|exact I]].
      destruct (longest (Seq r)) as [v|]; cbn [up_to] in *; [lia|split; [lia|exact I]].
  - (* Alt *) apply possible_Alt in Hd as (x & Hx & Hd). rewrite Forall_forall in H. apply H in Hd as [H1 H2]; [|exact Hx].
    clear H. split.
    + induction l as [|y [|z r] IH]; [destruct Hx| |].
      * destruct Hx as [->|[]]. exact H1.
      * change (N.min (shortest y) (shortest (Alt (z :: r))) <= N.of_nat j)%N.
        destruct Hx as [->|Hx]; [lia|]. specialize (IH Hx). lia.
    + induction l as [|y r IH]; [destruct Hx|]. cbn [longest fold_right].
      destruct Hx as [->|Hx].
      * destruct (longest x); [|exact I]. destruct (fold_right _ _ r); cbn in *; [lia|exact I].
      * specialize (IH Hx). cbn [longest] in IH. destruct (longest y); [|exact I].
        destruct (fold_right _ _ r); cbn in *; [lia|exact I].
  - (* Cap *) now apply IHn.
  - (* Rep *) destruct Hd as (k & H1 & H2 & H3). destruct (sum_bounds _ _ _ _ IHn j H3) as [H4 H5].
    split; [cbn [shortest]; nia|]. cbn [longest].
    destruct (longest n) as [[|p]|]; cbn [up_to].
    + lia.
    + destruct hi as [[|q]|]; cbn [up_to]; try exact I; [|nia].
      destruct (N.eqb_spec lo 0) as [->|Hl]; cbn [option_map up_to]; nia.
    + destruct hi as [[|q]|]; cbn [up_to]; try exact I.
      destruct (N.eqb_spec lo 0) as [->|Hl]; cbn [option_map up_to]; [|exact I].
      destruct k; [|lia]. cbn in H3. lia.
Qed.

(** ** The traits of the library (traits.hpp) *)

Lemma sum_one (P : nat -> Prop) j : sum_of P 1 j <-> P j.
Proof.
  cbn. split.
  - intros (a & b & -> & Ha & ->). now rewrite Nat.add_0_r.
  - intros H. exists j, 0. auto.
Qed.

Lemma sum_iff (P Q : nat -> Prop) k : (forall j, P j <-> Q j) -> forall j, sum_of P k j <-> sum_of Q k j.
Proof.
  intros H. induction k as [|k IH]; intros j; cbn; [reflexivity|].
  split; intros (a & b & E & Ha & Hb); exists a, b; (split; [exact E|]); split; try (now apply H); now apply IH.
Qed.

Lemma class_length n : is_class n = true -> forall j, possible_length n j <-> j = 1.
Proof.
  induction n using node_ind'; intros Hc j; try discriminate Hc; try reflexivity.
  - cbn in *. now rewrite Hc.
  - destruct l as [|x [|y r]]; try discriminate. inversion_clear H as [|? ? Hx _].
    change (is_class x = true) in Hc. specialize (Hx Hc).
    cbn [possible_length]. split.
    + intros (a & b & -> & Ha & ->). apply Hx in Ha. lia.
    + intros ->. exists 1, 0. split; [reflexivity|]. split; [now apply Hx|reflexivity].
  - rewrite possible_Alt. destruct l as [|x r]; [discriminate|]. cbn [is_class] in Hc.
    apply andb_true_iff in Hc as [Hx Hr]. rewrite forallb_forall in Hr. rewrite Forall_forall in H.
    assert (G : forall y, In y (x :: r) -> possible_length y j <-> j = 1).
    { intros y Hy. apply H; [exact Hy|]. destruct Hy as [<-|Hy]; auto. }
    split.
    + intros (y & Hy & Hj). now apply (G y).
    + intros Hj. exists x. split; [now left|]. apply G; [now left|exact Hj].
  - cbn [is_class] in Hc. destruct hi as [h|]; [|discriminate].
    apply andb_true_iff in Hc as [Hc Hn]. apply andb_true_iff in Hc as [H1 H2].
    apply N.eqb_eq in H1, H2. subst lo h. cbn [possible_length].
    split.
    + intros (k & K1 & K2 & Hk). assert (k = 1) by lia. subst k.
      apply (proj1 (sum_one _ _)) in Hk. now apply IHn.
    + intros ->. exists 1. split; [cbn; lia|]. split; [cbn; lia|]. apply (proj2 (sum_one _ _)). now apply IHn.
Qed.

Lemma trivial_length n : trivial n = true -> forall j, possible_length n j <-> j = 1.
Proof. rewrite trivial_is_class. apply class_length. Qed.

Lemma sum_zero (P : nat -> Prop) k : P 0 -> sum_of P k 0.
Proof. intros H. induction k as [|k IH]; cbn; [reflexivity|]. exists 0, 0. auto. Qed.

Lemma zlm_length n : zlm n = true <-> possible_length n 0.
Proof.
  induction n using node_ind'; try (cbn; split; [auto|auto]; discriminate).
  - cbn [zlm possible_length]. rewrite trivial_is_class. destruct (is_class n); cbn; split; auto; discriminate.
  - induction H as [|x r Hx _ IH]; [cbn; split; auto|]. rewrite possible_Seq.
    change (zlm (Seq (x :: r))) with (zlm x && zlm (Seq r)). rewrite andb_true_iff, IH, Hx. split.
    + intros [H1 H2]. exists 0, 0. auto.
    + intros (a & b & E & Ha & Hb). assert (a = 0) by lia. assert (b = 0) by lia. now subst.
  - rewrite possible_Alt. cbn [zlm]. rewrite existsb_exists. rewrite Forall_forall in H.
    split; intros (x & Hx & Hz); exists x; (split; [exact Hx|]); now apply (H x Hx).
  - exact IHn.
  - cbn [zlm possible_length]. rewrite orb_true_iff. unfold is_zero. rewrite N.eqb_eq. split.
    + intros [->|Hz].
      * exists 0. cbn. split; [lia|]. split; [destruct hi; [lia|exact I]|reflexivity].
      * exists (N.to_nat lo). split; [lia|]. split; [destruct hi; [lia|exact I]|].
        apply sum_zero. now apply IHn.
    + intros ([|k] & H1 & _ & Hk); [left; lia|]. right. destruct Hk as (a & b & E & Ha & _).
      apply IHn. now replace a with 0 in Ha by lia.
Qed.

Lemma assertion_length n : is_assertion n = true -> forall j, possible_length n j <-> j = 0.
Proof.
  induction n using node_ind'; intros Ha j; try discriminate Ha; try reflexivity.
  - cbn in Ha. cbn [possible_length]. rewrite <- trivial_is_class, is_assertion_not_trivial by exact Ha. reflexivity.
  - destruct l as [|x [|y r]]; try discriminate. inversion_clear H as [|? ? Hx _].
    change (is_assertion x = true) in Ha. specialize (Hx Ha). cbn [possible_length]. split.
    + intros (a & b & -> & H1 & ->). apply Hx in H1. lia.
    + intros ->. exists 0, 0. split; [reflexivity|]. split; [now apply Hx|reflexivity].
  - destruct l as [|x [|y r]]; try discriminate. inversion_clear H as [|? ? Hx _].
    change (is_assertion x = true) in Ha. rewrite possible_Alt. split.
    + intros (y & [<-|[]] & Hj). now apply Hx.
    + intros Hj. exists x. split; [now left|now apply Hx].
  - assert (E : lo = 1%N /\ hi = Fin 1 /\ is_assertion n = true).
    { cbn in Ha. destruct md, lo as [|[| |]], hi as [[|[| |]]|]; try discriminate Ha; auto. }
    destruct E as (-> & -> & E). cbn [possible_length]. split.
    + intros (k & K1 & K2 & Hk). assert (k = 1) by lia. subst k. apply (proj1 (sum_one _ _)) in Hk. now apply IHn.
    + intros ->. exists 1. split; [cbn; lia|]. split; [cbn; lia|]. apply (proj2 (sum_one _ _)). now apply IHn.
Qed.

(** ** The ends of every search *)

(** The trees inside a tree. *)
Fixpoint subtrees (n : node) : list node :=
  n :: match n with
       | CSet l | Seq l | Alt l => flat_map subtrees l
       | Neg x | Cap _ _ x | Rep _ _ _ x | Look _ x => subtrees x
       | _ => []
       end.

(** What group [i] can hold: nothing, an empty text, or a text as long as what
    one of the groups of that number can match. *)
Definition fits (n : node) (i : nat) (v : cell) : Prop :=
  match v with
  | None => True
  | Some (b, e) =>
      b <= e /\ (b = e \/ exists id nm x, In (Cap id nm x) (subtrees n) /\ N.to_nat id = i
                         /\ possible_length x (e - b))
  end.

Section Ends.
  Variable cf : config.
  Variable names : list group_name.
  Variable s : list ascii.
  Variable whole : node.

  Definition fitting (g : caps) : Prop := forall i, fits whole i (nth i g None).

  Fixpoint ends (P : nat -> Prop) (t : search) : Prop :=
    match t with
    | Stop g => fitting g
    | Found i g more => P i /\ fitting g /\ forall g', fitting g' -> ends P (more g')
    end.

  Lemma ends_mono (P Q : nat -> Prop) t : (forall i, P i -> Q i) -> ends P t -> ends Q t.
  Proof.
    intros H. induction t as [g|i g more IH]; cbn; [auto|].
    intros (H1 & H2 & H3). auto.
  Qed.

  Lemma ends_one (P : nat -> Prop) i g : P i -> fitting g -> ends P (one i g).
  Proof. intros H1 H2. cbn. auto. Qed.

  Lemma ends_test (P : nat -> Prop) b i g : (b = true -> P i) -> fitting g -> ends P (test b i g).
  Proof. intros H1 H2. destruct b; [now apply ends_one; auto|exact H2]. Qed.

  Lemma ends_first P t : ends P t -> ends P (first_only t).
  Proof. destruct t; cbn; [auto|]. intros (H1 & H2 & _). auto. Qed.

  Lemma ends_otherwise P t h : ends P t -> (forall g, fitting g -> ends P (h g)) -> ends P (otherwise t h).
  Proof.
    intros Ht Hh. induction t as [g|i g more IH]; cbn in *; [auto|].
    destruct Ht as (H1 & H2 & H3). auto.
  Qed.

  Lemma ends_followed (P Q : nat -> Prop) t f : ends P t ->
    (forall i g, P i -> fitting g -> ends Q (f i g)) -> ends Q (followed_by t f).
  Proof.
    intros Ht Hf. induction t as [g|i g more IH]; cbn in *; [auto|].
    destruct Ht as (H1 & H2 & H3). apply ends_otherwise; auto.
  Qed.

  Lemma fitting_update i h g : fitting g -> (forall v, fits whole i v -> fits whole i (h v)) -> fitting (update i h g).
  Proof.
    intros Hg Hh j. specialize (Hg j).
    assert (E : nth j (update i h g) None = nth j g None \/ (i = j /\ nth j (update i h g) None = h (nth j g None))).
    { clear. revert i j. induction g as [|v r IH]; intros i j; [left; now destruct i|].
      destruct i as [|i], j as [|j]; cbn; auto. destruct (IH i j) as [E|[-> E]]; auto. }
    destruct E as [->|[-> ->]]; auto.
  Qed.

  (** [j] lies [d] to the left or to the right of [i]. *)
  Definition away (left : bool) (i d j : nat) : Prop := if left then j + d = i else i + d = j.
  Definition after (left : bool) (P : nat -> Prop) (i j : nat) : Prop := exists d, P d /\ away left i d j.

  Lemma after_self left (P : nat -> Prop) i : P 0 -> after left P i i.
  Proof. intros H. exists 0. split; [exact H|]. destruct left; cbn; lia. Qed.

  Lemma after_after left (P Q R : nat -> Prop) i j k : (forall a b, P a -> Q b -> R (a + b)) ->
    after left P i j -> after left Q j k -> after left R i k.
  Proof.
    intros H (a & Ha & A) (b & Hb & B). exists (a + b). split; [auto|].
    destruct left; cbn in *; lia.
  Qed.

  Definition strides (left : bool) (P : nat -> Prop) (f : nat -> caps -> search) : Prop :=
    forall i g, fitting g -> ends (after left P i) (f i g).

  Lemma strides_mono left (P Q : nat -> Prop) f : (forall d, P d -> Q d) -> strides left P f -> strides left Q f.
  Proof.
    intros H Hf i g Hg. eapply ends_mono; [|now apply Hf]. intros j (a & Ha & A). exists a. auto.
  Qed.

  Lemma strides_one left (P : nat -> Prop) : P 0 -> strides left P one.
  Proof. intros H i g Hg. apply ends_one; [now apply after_self|exact Hg]. Qed.

  Lemma strides_then left (P Q R : nat -> Prop) t f i : (forall a b, P a -> Q b -> R (a + b)) ->
    ends (after left P i) t -> strides left Q f -> ends (after left R i) (followed_by t f).
  Proof.
    intros H Ht Hf. eapply ends_followed; [exact Ht|]. intros j g Hj Hg.
    eapply ends_mono; [|now apply Hf]. intros k Hk. eapply after_after; eauto.
  Qed.

  Lemma strides_reads left p : strides left (fun d => d = 1) (reads s left p).
  Proof.
    intros i g Hg. unfold reads, read_char. destruct left.
    - destruct i as [|i]; cbn; [exact Hg|]. destruct (char_at s p i); [|exact Hg].
      apply ends_one; [|exact Hg]. exists 1. cbn. lia.
    - destruct (char_at s p i); [|exact Hg]. apply ends_one; [|exact Hg]. exists 1. cbn. lia.
  Qed.

  Section Loops.
    Variable left : bool.
    Variable P : nat -> Prop.
    Variable f : nat -> caps -> search.
    Hypothesis Hf : strides left P f.

    Lemma strides_chain k : strides left (sum_of P k) (chain (repeat f k)).
    Proof.
      induction k as [|k IH]; intros i g Hg; cbn [repeat chain].
      - now apply strides_one.
      - eapply strides_then; [|now apply Hf|exact IH]. intros a b Ha Hb. cbn. eauto.
    Qed.

    Definition some_of (b : quantifier) (d : nat) : Prop :=
      exists k, match b with Fin h => (N.of_nat k <= h)%N | Inf => True end /\ sum_of P k d.

    Lemma some_none b : some_of b 0.
    Proof. exists 0. split; [destruct b; [cbn; lia|exact I]|reflexivity]. Qed.

    Lemma some_more b d1 d2 : none_left b = false -> P d1 -> some_of (one_less b) d2 -> some_of b (d1 + d2).
    Proof.
      intros Hb H1 (k & Hk & H2). exists (S k). split; [|cbn; eauto].
      destruct b as [h|]; [|exact I]. cbn in *. apply N.eqb_neq in Hb. lia.
    Qed.

    Lemma strides_more : forall fuel b, strides left (some_of b) (trying_more f fuel b).
    Proof.
      induction fuel as [|fu IH]; intros b i g Hg; cbn [trying_more]; [exact Hg|].
      destruct (none_left b) eqn:Hb; [apply strides_one; [apply some_none|exact Hg]|].
      apply ends_otherwise; [|intros; apply strides_one; [apply some_none|assumption]].
      eapply ends_followed; [now apply Hf|]. intros j g' Hj Hg'. cbn beta.
      destruct (idle b i j); [exact Hg'|]. eapply ends_mono; [|now apply IH].
      intros k Hk. eapply after_after; [|exact Hj|exact Hk]. intros a c Ha Hc. now apply some_more.
    Qed.

    Lemma strides_fewer : forall fuel b, strides left (some_of b) (trying_fewer f fuel b).
    Proof.
      induction fuel as [|fu IH]; intros b i g Hg; cbn [trying_fewer]; [exact Hg|].
      destruct (none_left b) eqn:Hb; [apply strides_one; [apply some_none|exact Hg]|].
      cbn [ends]. split; [apply after_self, some_none|]. split; [exact Hg|]. intros g0 Hg0.
      eapply ends_followed; [now apply Hf|]. intros j g' Hj Hg'. cbn beta.
      destruct (idle b i j); [exact Hg'|]. eapply ends_mono; [|now apply IH].
      intros k Hk. eapply after_after; [|exact Hj|exact Hk]. intros a c Ha Hc. now apply some_more.
    Qed.

    Lemma strides_commit : forall fuel b, strides left (some_of b) (committing f fuel b).
    Proof.
      induction fuel as [|fu IH]; intros b i g Hg; cbn [committing]; [exact Hg|].
      destruct (none_left b) eqn:Hb; [apply strides_one; [apply some_none|exact Hg]|].
      pose proof (Hf i g Hg) as Hx. destruct (f i g) as [g'|j g' more]; cbn [ends] in Hx.
      - apply strides_one; [apply some_none|exact Hx].
      - destruct Hx as (Hj & Hg' & _). destruct (idle b i j); [apply strides_one; [apply some_none|exact Hg']|].
        eapply ends_mono; [|now apply IH].
        intros k Hk. eapply after_after; [|exact Hj|exact Hk]. intros a c Ha Hc. now apply some_more.
    Qed.

    Lemma strides_looping md b : strides left (some_of b) (looping cf s f md b).
    Proof.
      unfold looping. destruct md; [destruct (ungreedy cf)|destruct (ungreedy cf)|];
        auto using strides_more, strides_fewer, strides_commit.
    Qed.

    Lemma strides_starting md n : strides left (sum_of P (N.to_nat n)) (starting f md n).
    Proof.
      unfold starting. destruct md; try apply strides_chain.
      intros i g Hg. apply ends_first. now apply strides_chain.
    Qed.

    Lemma sum_plus k1 : forall k2 a b, sum_of P k1 a -> sum_of P k2 b -> sum_of P (k1 + k2) (a + b).
    Proof.
      induction k1 as [|k1 IH]; intros k2 a b Ha Hb; cbn in *; [now subst|].
      destruct Ha as (x & y & -> & Hx & Hy). exists x, (y + b). split; [lia|]. auto.
    Qed.
  End Loops.

  Local Notation E := (explore cf names s).

  Lemma strides_text d t : strides (Nat.odd d) (fun _ => True) (fun i g => read_text cf s d (t g) i g).
  Proof.
    intros i g Hg. unfold read_text. destruct (Nat.odd d).
    - apply ends_test; auto. intros H. apply andb_true_iff in H as [H _]. apply Nat.leb_le in H.
      exists (length (t g)). cbn. lia.
    - apply ends_test; auto. intros _. exists (length (t g)). cbn. lia.
  Qed.

  Lemma subtrees_self n : In n (subtrees n).
  Proof. destruct n; now left. Qed.

  Lemma explore_strides n : (forall x, In x (subtrees n) -> In x (subtrees whole)) ->
    forall dp bk, strides (Nat.odd dp) (possible_length n) (E dp bk n).
  Proof.
    induction n using node_ind'; intros Hsub dp bk i g Hg;
      match goal with |- context [possible_length ?n] => destruct (is_class n) eqn:Hc end;
      try discriminate Hc;
      try (rewrite E_class by exact Hc; eapply strides_mono; [|apply strides_reads|exact Hg];
           intros j ->; now apply class_length);
      try (cbn [explore]; apply ends_test; auto; intros _; now apply after_self).
    - now apply strides_one.
    - (* Neg *) cbn [explore]. rewrite Hc. cbn [possible_length]. cbn [is_class] in Hc. rewrite Hc.
      assert (Hs : forall x, In x (subtrees n) -> In x (subtrees whole)) by (intros x Hx; apply Hsub; now right).
      pose proof (IHn Hs dp bk i g Hg) as Hn. destruct (E dp bk n i g); cbn [ends] in Hn.
      + now apply strides_one.
      + apply Hn.
    - (* Seq *) rewrite E_Seq by exact Hc.
      assert (G : forall l', (forall x, In x l' -> In x l) ->
                strides (Nat.odd dp) (possible_length (Seq l')) (chain (map (E dp bk) l'))).
      { induction l' as [|x r IH]; intros Hl i0 g0 Hg0; cbn [map chain].
        - now apply strides_one.
        - eapply strides_then; [|apply (proj1 (Forall_forall _ _) H x); [now apply Hl; left| |exact Hg0]|apply IH].
          + intros a b Ha Hb. apply possible_Seq. eauto.
          + intros y Hy. apply Hsub. right. apply in_flat_map. exists x. split; [apply Hl; now left|exact Hy].
          + intros y Hy. apply Hl. now right. }
      destruct bk; [|now apply G].
      eapply ends_mono; [|apply G; [intros x Hx; now apply in_rev|exact Hg]].
      intros j (a & Ha & A). exists a. split; [|exact A]. clear - Ha.
      assert (F : forall l1 x l2 d, possible_length (Seq (l1 ++ x :: l2)) d ->
                exists u v, d = u + v /\ possible_length x u /\ possible_length (Seq (l1 ++ l2)) v).
      { induction l1 as [|y r IH]; intros x l2 d; cbn [app]; rewrite possible_Seq.
        - intros (u & v & H). eauto.
        - intros (u & v & -> & Hu & Hv). apply IH in Hv as (p & q & -> & Hp & Hq).
          exists p, (u + q). split; [lia|]. split; [exact Hp|]. apply possible_Seq. eauto. }
      revert a Ha. induction l as [|x r IH]; intros a Ha; [exact Ha|].
      cbn [rev] in Ha. apply F in Ha as (u & v & -> & Hu & Hv). rewrite app_nil_r in Hv.
      apply possible_Seq. exists u, v. auto.
    - (* Alt *) rewrite E_Alt by exact Hc.
      assert (G : forall l', (forall x, In x l' -> In x l) -> forall g0, fitting g0 ->
                ends (after (Nat.odd dp) (possible_length (Alt l')) i) (any cf s (Nat.odd dp) (E dp bk) l' i g0)).
      { induction l' as [|x r IH]; intros Hl g0 Hg0; cbn [any]; [exact Hg0|].
        destruct (is_class (Alt (x :: r))) eqn:Hcl.
        - eapply strides_mono; [|apply strides_reads|exact Hg0]. intros j ->. now apply class_length.
        - apply ends_otherwise.
          + eapply ends_mono; [|apply (proj1 (Forall_forall _ _) H x); [now apply Hl; left| |exact Hg0]].
            * intros j (a & Ha & A). exists a. split; [now left|exact A].
            * intros y Hy. apply Hsub. right. apply in_flat_map. exists x. split; [apply Hl; now left|exact Hy].
          + intros g1 Hg1. eapply ends_mono; [|apply IH; [intros y Hy; apply Hl; now right|exact Hg1]].
            intros j (a & Ha & A). exists a. split; [now right|exact A]. }
      now apply G.
    - (* Cap *) cbn [explore]. cbn [is_class possible_length].
      assert (Hs : forall x, In x (subtrees n) -> In x (subtrees whole)) by (intros x Hx; apply Hsub; now right).
      pose proof (IHn Hs dp bk i g Hg) as Hn. pose proof (Hsub _ (or_introl eq_refl)) as Hme.
      clear - Hn Hme. revert Hn. generalize (E dp bk n i g). intros t.
      induction t as [g1|j g1 more IH]; cbn [captured ends].
      + intros Hg1. apply fitting_update; [exact Hg1|]. intros [[b e]|]; cbn; auto.
      + intros (H1 & H2 & H3). split; [exact H1|]. split; [|auto].
        apply fitting_update; [exact H2|]. intros _ _. destruct H1 as (a & Ha & A).
        cbn. destruct (Nat.odd dp); cbn in *; (split; [lia|]); right; do 3 eexists;
          (split; [exact Hme|]); (split; [reflexivity|]).
        * now replace (i - j) with a by lia.
        * now replace (j - i) with a by lia.
    - (* Rep *) rewrite E_Rep by exact Hc.
      assert (Hs : forall x, In x (subtrees n) -> In x (subtrees whole)) by (intros x Hx; apply Hsub; now right).
      assert (Hf : strides (Nat.odd dp) (possible_length n) (E dp bk n)) by (intros ? ?; now apply IHn).
      eapply strides_then; [|exact (strides_starting _ _ _ Hf md lo i g Hg)|exact (strides_looping _ _ _ Hf md (remaining hi lo))].
      intros a b Ha (k & Hk & Hb). cbn [possible_length]. exists (N.to_nat lo + k).
      split; [lia|]. split; [destruct hi; cbn in Hk; [lia|exact I]|]. now apply sum_plus.
    - (* Backref *) cbn [explore is_class]. now apply (strides_text dp (fun g => text_in s g (N.to_nat id))).
    - (* NBackref *) cbn [explore is_class]. now apply (strides_text dp (fun g => text_in s g (place nm names))).
    - (* Look *) cbn [explore is_class possible_length].
      set (behind := xorb bk _). clearbody behind.
      assert (Hsu : forall x, In x (subtrees n) -> In x (subtrees whole)) by (intros x Hx; apply Hsub; now right).
      assert (Hs : exists P, ends P (if behind then E (S dp) true n i g else E dp false n i g)).
      { destruct behind; [exists (after (Nat.odd (S dp)) (possible_length n) i)|exists (after (Nat.odd dp) (possible_length n) i)];
        now apply IHn. }
      destruct Hs as (P & Hs).
      destruct (if behind then E (S dp) true n i g else E dp false n i g); cbn [ends] in Hs; [exact Hs|].
      apply ends_one; [now apply after_self|apply Hs].
  Qed.

  Lemma first_end_ends p P t : ends P t ->
    fitting (snd (first_end p t)) /\ forall j, fst (first_end p t) = Some j -> P j.
  Proof.
    induction t as [g|i g more IH]; cbn [first_end ends].
    - intros H. split; [exact H|discriminate].
    - intros (H1 & H2 & H3). destruct (p i).
      + cbn. split; [exact H2|]. congruence.
      + auto.
  Qed.
End Ends.

(** ** Calls *)

(** A result: the whole match, if there is one, and what the groups hold. *)
Definition well_sized (n : node) (res : match_res) : Prop :=
  (matched res = true ->
     exists b e, group0 (groups res) = Some (b, e) /\ b <= e /\ possible_length n (e - b))
  /\ forall i, 0 < i -> fits n i (nth i (groups res) None).

Section Calls.
  Variable cf : config.
  Variable n : node.
  Variable s : list ascii.
  Local Notation fitting := (fitting n).

  Lemma start_fitting : fitting (no_groups n).
  Proof.
    intros i. unfold no_groups.
    assert (E : nth i (map (fun _ : group_name => (None : cell)) (all_names n)) None = None).
    { generalize (all_names n). intros l. revert i. induction l as [|x r IH]; intros [|i]; cbn; auto. }
    unfold cell in *. now rewrite E.
  Qed.

  Lemma attempt_fitting p i g : fitting g ->
    fitting (snd (first_end p (explore cf (all_names n) s 0 false n i g)))
    /\ forall j, fst (first_end p (explore cf (all_names n) s 0 false n i g)) = Some j ->
         i <= j /\ possible_length n (j - i).
  Proof.
    intros Hg.
    destruct (first_end_ends n p _ _ (explore_strides cf (all_names n) s n n (fun x H => H) 0 false i g Hg)) as [H1 H2].
    split; [exact H1|]. intros j Hj. apply H2 in Hj as (a & Ha & A). cbn in A.
    split; [lia|]. now replace (j - i) with a by lia.
  Qed.

  Lemma first_match_fitting : forall count i g, fitting g ->
    fitting (snd (first_match cf (all_names n) s n count i g))
    /\ forall b e, fst (first_match cf (all_names n) s n count i g) = Some (b, e) ->
         b <= e /\ possible_length n (e - b).
  Proof.
    induction count as [|count IH]; intros i g Hg; destruct (attempt_fitting (fun _ => true) i g Hg) as [H1 H2];
      cbn [first_match]; destruct (first_end _ _) as [[j|] g']; cbn [fst snd] in *.
    1,3: split; [exact H1|]; intros b e Hbe; injection Hbe as <- <-; now apply H2.
    - split; [exact H1|discriminate].
    - now apply IH.
  Qed.

  Lemma fits_tl g v i : fitting g -> 0 < i -> fits n i (nth i (v :: tl g) None).
  Proof.
    intros Hg Hi. destruct i as [|i]; [lia|]. cbn [nth]. specialize (Hg (S i)). destruct g; [|exact Hg].
    now destruct i.
  Qed.

  Lemma sized_found b e g : fitting g -> b <= e -> possible_length n (e - b) ->
    forall res, matched res = true -> groups res = Some (b, e) :: tl g -> well_sized n res.
  Proof.
    intros Hg H1 H2 res Hm E. split.
    - intros _. exists b, e. rewrite E. auto.
    - intros i Hi. rewrite E. now apply fits_tl.
  Qed.

  Lemma sized_failed g res : fitting g -> matched res = false -> tl (groups res) = tl g -> well_sized n res.
  Proof.
    intros Hg Hm E. split; [congruence|]. intros [|i] Hi; [lia|].
    destruct (groups res) as [|v r]; cbn [tl] in E; [exact I|]. subst r. now apply fits_tl.
  Qed.

  Lemma repeated_sized step : (forall i g b e, step i = (Some (b, e), g) -> b <= e /\ possible_length n (e - b) /\ fitting g) ->
    forall fuel i l, Forall (fun x => matched x = true) l -> map groups l = repeated step fuel i ->
    Forall (well_sized n) l.
  Proof.
    intros Hstep. induction fuel as [|fuel IH]; intros i l Hm E; cbn [repeated] in E.
    - destruct l; [constructor|discriminate].
    - destruct (step i) as [[[b e]|] g] eqn:Es.
      + destruct l as [|x r]; [constructor|]. cbn [map] in E. injection E as E1 E2.
        inversion_clear Hm as [|? ? Hx Hr]. destruct (Hstep _ _ _ _ Es) as (H1 & H2 & H3).
        constructor; [now apply (sized_found b e g)|].
        destruct (Nat.eqb b e); [|now apply (IH e)]. destruct r; [constructor|discriminate].
      + destruct l; [constructor|discriminate].
  Qed.
End Calls.

(** The results of all calls. *)
Theorem results_sized r ct s : usable r ct ->
  exists a b c l1 l2, regex_match r ct s = Returned a /\ regex_match_prefix r ct s = Returned b
    /\ regex_search r ct s = Returned c /\ tokenize r ct s = Returned l1 /\ find_all r ct s = Returned l2
    /\ Forall (well_sized (ast r)) (a :: b :: c :: l1 ++ l2).
Proof.
  intros Hu.
  destruct (match_explored r ct s Hu) as (x & E1 & H1). destruct (match_prefix_explored r ct s Hu) as (y & E2 & H2).
  destruct (search_explored r ct s Hu) as (z & E3 & H3). destruct (tokenize_explored r ct s Hu) as (l1 & E4 & F1 & H4).
  destruct (find_all_explored r ct s Hu) as (l2 & E5 & F2 & H5).
  exists x, y, z, l1, l2. repeat (split; [assumption|]). clear Hu E1 E2 E3 E4 E5.
  set (cf := config_of (flags r) ct) in *. set (n := ast r) in *. clearbody cf n.
  pose proof (start_fitting n) as H0.
  constructor; [|constructor; [|constructor]].
  - unfold full_match in H1. destruct (attempt_fitting cf n s (Nat.eqb (length s)) 0 _ H0) as [G1 G2].
    destruct (first_end _ _) as [[e|] g]; destruct H1 as [M1 M2]; cbn [fst snd] in *.
    + destruct (G2 e eq_refl). now apply (sized_found n 0 e g).
    + now apply (sized_failed n g).
  - unfold prefix_match in H2. destruct (first_match_fitting cf n s 0 0 _ H0) as [G1 G2].
    destruct (first_match _ _ _ _ _ _ _) as [[[b e]|] g]; destruct H2 as [M1 M2]; cbn [fst snd] in *.
    + destruct (G2 b e eq_refl). now apply (sized_found n b e g).
    + now apply (sized_failed n g).
  - unfold search_match in H3. destruct (first_match_fitting cf n s (length s - 0) 0 _ H0) as [G1 G2].
    destruct (first_match _ _ _ _ _ _ _) as [[[b e]|] g]; destruct H3 as [M1 M2]; cbn [fst snd] in *.
    + destruct (G2 b e eq_refl). now apply (sized_found n b e g).
    + apply (sized_failed n g); auto. now rewrite M2.
  - apply Forall_app. split.
    + eapply repeated_sized; [|exact F1|exact H4]. intros i g b e Es.
      destruct (first_match_fitting cf n s 0 i _ H0) as [G1 G2]. unfold prefix_match in Es. rewrite Es in *.
      cbn [fst snd] in *. destruct (G2 b e eq_refl). auto.
    + eapply repeated_sized; [|exact F2|exact H5]. intros i g b e Es.
      destruct (first_match_fitting cf n s (length s - i) i _ H0) as [G1 G2]. unfold search_match in Es. rewrite Es in *.
      cbn [fst snd] in *. destruct (G2 b e eq_refl). auto.
Qed.

(** ** Every possible length occurs *)

(** Every class of characters accepts something. *)
Fixpoint inhabited (cf : config) (n : node) : Prop :=
  if is_class n then exists a, accepts cf n a = true
  else match n with
       | Seq l | Alt l =>
           (fix all (l : list node) : Prop :=
              match l with [] => True | x :: r => inhabited cf x /\ all r end) l
       | Cap _ _ x | Rep _ _ _ x => inhabited cf x
       | _ => True
       end.

Section Attained.
  Variable cf : config.
  Local Notation mt := (matches cf).

  Definition attains (n : node) (d : nat) : Prop := exists u, length u = d /\ mt u n 0 d.

  (** Matches of a part are matches in the whole. *)
  Lemma part_before n u v : self_contained n = true -> mt u n 0 (length u) -> mt (u ++ v) n 0 (length u).
  Proof.
    intros Hn H. apply (matches_part cf [] u v n Hn 0 (length u)); auto; lia.
  Qed.
  Lemma part_after n u v i j : self_contained n = true -> i <= j -> j <= length v -> mt v n i j ->
    mt (u ++ v) n (length u + i) (length u + j).
  Proof.
    intros Hn Hi Hj H. rewrite <- (app_nil_r v) at 1. now apply (matches_part cf u v [] n Hn i j).
  Qed.

  Lemma attains_class n : is_class n = true -> (exists a, accepts cf n a = true) -> attains n 1.
  Proof.
    intros Hc (a & Ha). exists [a]. split; [reflexivity|]. apply (matches_class cf [a] n Hc).
    split; [reflexivity|exact Ha].
  Qed.

  Lemma attains_parts l : Forall (fun x => self_contained x = true /\ forall d, possible_length x d -> attains x d) l ->
    forall d, possible_length (Seq l) d -> attains (Seq l) d.
  Proof.
    induction 1 as [|x r [Hs Hx] Hr IH]; intros d Hd; apply possible_Seq in Hd.
    - subst d. exists []. split; reflexivity.
    - destruct Hd as (a & b & -> & Ha & Hb). apply Hx in Ha as (u & Hu & U). apply IH in Hb as (v & Hv & V).
      exists (u ++ v). split; [rewrite app_length; lia|]. subst a b.
      change (exists k, mt (u ++ v) x 0 k /\ mt (u ++ v) (Seq r) k (length u + length v)).
      exists (length u). split; [now apply part_before|].
      rewrite <- (Nat.add_0_r (length u)) at 1. apply part_after; auto; [|lia].
      cbn. apply forallb_forall. intros y Hy. rewrite Forall_forall in Hr. now apply Hr.
  Qed.

  Lemma sum_parts x k d : sum_of (possible_length x) k d <-> possible_length (Seq (repeat x k)) d.
  Proof.
    revert d. induction k as [|k IH]; intros d; cbn [repeat]; rewrite possible_Seq; [reflexivity|].
    cbn [sum_of]. split; intros (a & b & E & Ha & Hb); exists a, b; (split; [exact E|]); (split; [exact Ha|]); now apply IH.
  Qed.

  Lemma iterate_parts s x k : forall i j, iterate (mt s x) k i j <-> mt s (Seq (repeat x k)) i j.
  Proof.
    induction k as [|k IH]; intros i j; [reflexivity|]. cbn [repeat].
    change (mt s (Seq (x :: repeat x k)) i j) with (exists m, mt s x i m /\ mt s (Seq (repeat x k)) m j).
    cbn [iterate]. split; intros (m & Hm & H); exists m; (split; [exact Hm|]); now apply IH.
  Qed.

  (** Bounds in the right order, as the library requires. *)
  Fixpoint ordered (n : node) : bool :=
    match n with
    | Rep _ lo hi x =>
        match hi with Fin h => N.leb lo h && (N.eqb h 0 || ordered x) | Inf => ordered x end
    | Seq l | Alt l => forallb ordered l
    | Cap _ _ x => ordered x
    | _ => true
    end.

  Lemma inhabited_list l : (fix all (l : list node) : Prop :=
      match l with [] => True | x :: r => inhabited cf x /\ all r end) l <-> Forall (inhabited cf) l.
  Proof.
    induction l as [|x r IH]; [split; constructor|]. rewrite IH. split.
    - intros [H1 H2]. now constructor.
    - intros H. now inversion_clear H.
  Qed.

  Lemma attained n : self_contained n = true -> ordered n = true -> inhabited cf n ->
    forall d, possible_length n d -> attains n d.
  Proof.
    induction n using node_ind'; intros Hs Ho Hi j Hd;
      match goal with |- attains ?n j => destruct (is_class n) eqn:Hc end;
      try (apply class_length in Hd; [|exact Hc]; subst j; apply attains_class; [exact Hc|];
           cbn [inhabited] in Hi; rewrite ?Hc in Hi; exact Hi);
      try discriminate Hs; try discriminate Hc.
    - cbn in Hd. subst j. exists []. split; reflexivity.
    - cbn in Hs. cbn [is_class] in Hc. rewrite Hc in Hs. discriminate.
    - cbn [inhabited] in Hi. rewrite Hc in Hi. apply inhabited_list in Hi.
      cbn in Hs, Ho. rewrite forallb_forall in Hs, Ho. rewrite Forall_forall in H, Hi.
      apply attains_parts; [|exact Hd]. apply Forall_forall. intros x Hx. split; auto.
    - cbn [inhabited] in Hi. rewrite Hc in Hi. apply inhabited_list in Hi.
      cbn in Hs, Ho. rewrite forallb_forall in Hs, Ho. rewrite Forall_forall in H, Hi.
      apply possible_Alt in Hd as (x & Hx & Hd). destruct (H x Hx (Hs x Hx) (Ho x Hx) (Hi x Hx) j Hd) as (u & Hu & U).
      exists u. split; [exact Hu|]. apply matches_Alt. eauto.
    - cbn [inhabited is_class] in Hi. destruct (IHn Hs Ho Hi j Hd) as (u & Hu & U). exists u. split; [exact Hu|exact U].
    - assert (Hx : self_contained n = true) by (destruct md; [exact Hs|exact Hs|discriminate]).
      cbn [inhabited] in Hi. rewrite Hc in Hi. cbn [ordered] in Ho.
      destruct Hd as (k & H1 & H2 & H3).
      assert (Hk : allowed lo hi k).
      { split; [exact H1|]. destruct hi as [h|]; [|exact I]. apply andb_true_iff in Ho as [Hb _].
        apply N.leb_le in Hb. lia. }
      assert (G : k = 0 \/ ordered n = true).
      { destruct hi as [h|]; [|now right]. apply andb_true_iff in Ho as [Hb Ho].
        apply orb_true_iff in Ho as [Ho|Ho]; [left|now right]. apply N.eqb_eq in Ho. subst h.
        destruct Hk as [_ Hk]. lia. }
      apply (proj1 (sum_parts _ _ _)) in H3.
      assert (A : attains (Seq (repeat n k)) j).
      { destruct G as [->|G].
        - cbn in H3. subst j. exists []. split; reflexivity.
        - apply attains_parts; [|exact H3]. apply Forall_forall. intros x Hr. apply repeat_spec in Hr. subst x.
          split; auto. }
      destruct A as (u & Hu & U). exists u. split; [exact Hu|]. cbn [matches]. exists k. split; [exact Hk|].
      now apply iterate_parts.
  Qed.

  Lemma compiles_ordered names n : self_contained n = true -> forall f rd, compiles cf names f rd n = true ->
    ordered n = true.
  Proof.
    induction n using node_ind'; intros Hs [|f] rd Hc; try discriminate; try reflexivity; cbn [compiles] in Hc.
    - cbn in *. destruct l as [|x r]; [discriminate|]. rewrite forallb_forall in *. rewrite Forall_forall in H.
      intros y Hy. apply (H y Hy (Hs y Hy) f rd). now apply Hc.
    - cbn in *. destruct l as [|x r]; [discriminate|]. rewrite forallb_forall in *. rewrite Forall_forall in H.
      intros y Hy. apply (H y Hy (Hs y Hy) f rd). now apply Hc.
    - cbn in *. apply andb_true_iff in Hc as [_ Hc]. now apply (IHn Hs f rd).
    - assert (Hx : self_contained n = true) by (destruct md; [exact Hs|exact Hs|discriminate]).
      apply andb_true_iff in Hc as [Hc _]. cbn [ordered]. destruct hi as [h|]; [|now apply (IHn Hx f rd)].
      apply andb_true_iff in Hc as [-> Hc]. cbn. apply orb_true_iff in Hc as [->|Hc]; [reflexivity|].
      apply orb_true_iff. right. now apply (IHn Hx f rd).
  Qed.
End Attained.

Theorem lengths_attained r ct d : usable r ct -> self_contained (ast r) = true ->
  inhabited (config_of (flags r) ct) (ast r) -> possible_length (ast r) d ->
  exists u, length u = d /\ is_word r ct u.
Proof.
  intros Hu Hs Hi Hd. assert (Ho : ordered (ast r) = true) by (destruct Hu as [Hc _]; eapply compiles_ordered; eauto).
  destruct (attained _ _ Hs Ho Hi d Hd) as (u & Hl & U). exists u. split; [exact Hl|].
  apply is_word_matches; auto. now rewrite Hl.
Qed.
