(** Programs over range objects and their iterators: specification and proofs (C89). *)
From Verif Require Import Matcher Api Adapter Cursors.
From Coq Require Import Lia.

(** ** Specification *)

(** Every range object is a position in the list of matches, every iterator stands for a
    range object: two iterators of one range object always show the same, and advancing
    one advances the other.  A position is [None] after the lifetime of the range object. *)
Inductive expected :=
| Nothing
| Element (k : nat)       (* the match number [k], or a negative result behind the last match *)
| Is_element (k : nat).   (* whether there is a match number [k] *)

Definition put {A : Type} (i : nat) (x : A) (l : list A) : list A := firstn i l ++ x :: skipn (S i) l.

(** The range object an iterator stands for, and its position. *)
Definition position_of (ps : list (option nat)) (ts : list (option nat)) (i : nat) : option (nat * nat) :=
  match nth_error ts i with
  | Some (Some r) => match nth_error ps r with Some (Some k) => Some (r, k) | _ => None end
  | _ => None
  end.

(** What a program shows that starts with range objects at the positions [ps] and with
    iterators of the range objects [ts]; [None] for a program with undeclared variables,
    with a use of a default-constructed iterator, of a range object after its lifetime or
    of an iterator of it, or with [it++]. *)
Fixpoint expect (ps : list (option nat)) (ts : list (option nat)) (p : list operation) : option (list expected) :=
  match p with
  | [] => Some []
  | o :: p' =>
      match o with
      | O_begin r =>
          match nth_error ps r with
          | Some (Some _) => option_map (cons Nothing) (expect ps (ts ++ [Some r]) p')
          | _ => None
          end
      | O_default => option_map (cons Nothing) (expect ps (ts ++ [None]) p')
      | O_copy i =>
          match nth_error ts i with
          | Some t => option_map (cons Nothing) (expect ps (ts ++ [t]) p')
          | None => None
          end
      | O_assign i j =>
          match nth_error ts i, nth_error ts j with
          | Some _, Some t => option_map (cons Nothing) (expect ps (put i t ts) p')
          | _, _ => None
          end
      | O_copy_range r =>
          match nth_error ps r with
          | Some (Some k) => option_map (cons Nothing) (expect (ps ++ [Some k]) ts p')
          | _ => None
          end
      | O_assign_range r q =>
          match nth_error ps r, nth_error ps q with
          | Some (Some _), Some (Some k) => option_map (cons Nothing) (expect (put r (Some k) ps) ts p')
          | _, _ => None
          end
      | O_destroy r =>
          match nth_error ps r with
          | Some (Some _) => option_map (cons Nothing) (expect (put r None ps) ts p')
          | _ => None
          end
      | O_read i =>
          match position_of ps ts i with
          | Some (r, k) => option_map (cons (Element k)) (expect ps ts p')
          | None => None
          end
      | O_test i =>
          match position_of ps ts i with
          | Some (r, k) => option_map (cons (Is_element k)) (expect ps ts p')
          | None => None
          end
      | O_next i =>
          match position_of ps ts i with
          | Some (r, k) => option_map (cons Nothing) (expect (put r (Some (S k)) ps) ts p')
          | None => None
          end
      | O_post _ => None
      end
  end.

(** What is shown is as expected, given the list of the matches. *)
Definition as_expected (l : list match_res) (x : shown) (e : expected) : Prop :=
  match e, x with
  | Nothing, Shows_nothing => True
  | Element k, Shows_result m =>
      match nth_error l k with Some m' => m = m' | None => matched m = false end
  | Is_element k, Shows_bool b => b = Nat.ltb k (length l)
  | _, _ => False
  end.

(** The variables an operation uses: range objects and iterators. *)
Definition ranges_used (o : operation) : list nat :=
  match o with
  | O_begin r | O_copy_range r | O_destroy r => [r]
  | O_assign_range r q => [r; q]
  | _ => []
  end.
Definition iterators_used (o : operation) : list nat :=
  match o with
  | O_copy i | O_read i | O_test i | O_next i | O_post i => [i]
  | O_assign i j => [i; j]
  | _ => []
  end.

(** The operations that create a range object or an iterator. *)
Definition creates_range (o : operation) : bool := match o with O_copy_range _ => true | _ => false end.
Definition creates_iterator (o : operation) : bool :=
  match o with O_begin _ | O_default | O_copy _ => true | _ => false end.

(** Every variable is created by an earlier operation ([nr] range objects and [nc]
    iterators exist from the beginning), and [it++] does not occur. *)
Definition proper (nr nc : nat) (p : list operation) : Prop :=
  forall p1 o p2, p = p1 ++ o :: p2 ->
    (forall i, o <> O_post i)
    /\ (forall r, In r (ranges_used o) -> r < nr + length (filter creates_range p1))
    /\ (forall i, In i (iterators_used o) -> i < nc + length (filter creates_iterator p1)).

(** ** Proofs *)

Lemma proper_cons nr nc o p :
  proper nr nc (o :: p) <->
  (forall i, o <> O_post i) /\ (forall r, In r (ranges_used o) -> r < nr)
  /\ (forall i, In i (iterators_used o) -> i < nc)
  /\ proper (nr + (if creates_range o then 1 else 0)) (nc + (if creates_iterator o then 1 else 0)) p.
Proof.
  split.
  - intros H. destruct (H [] o p eq_refl) as (H1 & H2 & H3). cbn in H2, H3.
    split; [assumption|]. split; [intros r R; specialize (H2 r R); lia|].
    split; [intros i R; specialize (H3 i R); lia|].
    intros p1 o' p2 ->. destruct (H (o :: p1) o' p2 eq_refl) as (K1 & K2 & K3).
    split; [assumption|]. cbn in K2, K3. split.
    + intros r R. specialize (K2 r R). destruct (creates_range o); cbn in K2; lia.
    + intros i R. specialize (K3 i R). destruct (creates_iterator o); cbn in K3; lia.
  - intros (H1 & H2 & H3 & H4) [|o1 p1] o' p2 E; injection E as <- E.
    + cbn. split; [assumption|]. split; intros x R; [specialize (H2 x R)|specialize (H3 x R)]; lia.
    + subst p. destruct (H4 p1 o' p2 eq_refl) as (K1 & K2 & K3). split; [assumption|]. cbn. split.
      * intros r R. specialize (K2 r R). destruct (creates_range o); cbn; lia.
      * intros i R. specialize (K3 i R). destruct (creates_iterator o); cbn; lia.
Qed.

Lemma proper_compiles : forall p nr nc, program_compiles nr nc p = true <-> proper nr nc p.
Proof.
  induction p as [|o p IH]; intros nr nc; cbn [program_compiles].
  { split; [intros _ [|x p1] o p2 E; discriminate|reflexivity]. }
  rewrite proper_cons.
  destruct o as [r| |i|i j|r|r q|d|i|i|i|i]; cbn [creates_range creates_iterator ranges_used iterators_used];
    rewrite ?andb_true_iff, ?Nat.ltb_lt, ?IH, ?Nat.add_0_r, ?Nat.add_1_r; cbn [In].
  all: try (split;
    [intros H; (split; [discriminate|]); (split; [intros x X; intuition (subst; auto)|]);
     (split; [intros x X; intuition (subst; auto)|]); tauto
    |intros (H1 & H2 & H3 & H4); auto 10]; fail).
  split; [discriminate|intros (H1 & _); now destruct (H1 i)].
Qed.

Lemma assign_put {A} (x : A) : forall l i, i < length l -> assign i x l = put i x l.
Proof.
  induction l as [|y l IH]; intros [|i] H; cbn in *; try lia; [reflexivity|].
  unfold put. cbn. f_equal. apply IH. lia.
Qed.

Lemma put_Forall2 {A B} (R : A -> B -> Prop) : forall l l', Forall2 R l l' -> forall i x y, R x y -> i < length l ->
  Forall2 R (put i x l) (put i y l').
Proof.
  induction 1 as [|a b l l' H F IH]; intros [|i] x y Hx Hi; cbn in *; try lia; unfold put; cbn; constructor; auto.
  apply IH; auto. lia.
Qed.

Lemma Forall2_nth {A B} (R : A -> B -> Prop) l l' : Forall2 R l l' -> forall i,
  match nth_error l i, nth_error l' i with
  | Some x, Some y => R x y
  | None, None => True
  | _, _ => False
  end.
Proof. induction 1 as [|a b l l' H F IH]; intros [|i]; cbn; auto; apply IH. Qed.

Section Proofs.
  Variable mt : method.
  Variable cf : config.
  Variable n : node.
  Variable s : list ascii.
  Variable l : list match_res.

  (** The generator behind the match number [k - 1]. *)
  Inductive at_position : adapter -> nat -> Prop :=
  | at_match a a' k m : nth_error l k = Some m -> matched m = true -> current_result a = m ->
      compute_next mt cf n s a = Returned a' -> at_position a' (S k) -> at_position a k
  | at_end a a' k : length l <= k -> matched (current_result a) = false ->
      active (source a) = false -> compute_next mt cf n s a = Returned a' -> at_position a k.

  Lemma stays_ended a k : active (source a) = false -> length l <= k -> matched (current_result a) = false -> at_position a k.
  Proof.
    intros H1 H2 H3. eapply at_end; auto. unfold compute_next, construct, next. rewrite H1. reflexivity.
  Qed.

  Lemma at_next a k : at_position a k -> exists a', compute_next mt cf n s a = Returned a' /\ at_position a' (S k).
  Proof.
    intros H. destruct H as [a a' k m H1 H2 H3 H4 H5|a a' k H1 H2 H3 H4]; [eauto|].
    unfold compute_next, construct, next in *. rewrite H3 in *. eexists. split; [reflexivity|].
    apply stays_ended; cbn; auto.
  Qed.

  Lemma at_shows a k : at_position a k ->
    match nth_error l k with Some m' => current_result a = m' | None => matched (current_result a) = false end
    /\ adapter_active a = Nat.ltb k (length l).
  Proof.
    unfold adapter_active. intros H. destruct H as [a a' k m H1 H2 H3 H4 H5|a a' k H1 H2 H3 H4].
    - rewrite H1. split; [assumption|]. rewrite H3, H2. symmetry. apply Nat.ltb_lt. apply nth_error_Some. congruence.
    - rewrite (proj2 (nth_error_None l k) H1). split; [assumption|]. rewrite H2. symmetry. now apply Nat.ltb_ge.
  Qed.

  Definition at_place (a : option adapter) (k : option nat) : Prop :=
    match a, k with
    | Some a, Some k => at_position a k
    | None, None => True
    | _, _ => False
    end.

  Definition related (w : world) (ps : list (option nat)) (ts : list (option nat)) : Prop :=
    Forall2 at_place (ranges w) ps /\ cursors w = ts
    /\ Forall (fun t => match t with Some r => r < length ps | None => True end) ts.

  Lemma put_length {A} (x : A) i m : i < length m -> length (put i x m) = length m.
  Proof.
    revert i. induction m as [|y m IH]; intros [|i] H; unfold put; cbn in *; try lia. f_equal. apply IH. lia.
  Qed.

  Lemma put_Forall {A} (P : A -> Prop) (x : A) m : Forall P m -> P x -> forall i, Forall P (put i x m).
  Proof.
    intros H Hx. induction H as [|y m Hy F IH]; intros [|i]; unfold put; cbn; auto.
    constructor; [assumption|]. apply IH.
  Qed.

  Lemma performs_as_expected : forall p w ps ts es, related w ps ts -> expect ps ts p = Some es ->
    exists xs, performs mt cf n s w p = Returned xs /\ Forall2 (as_expected l) xs es.
  Proof.
    induction p as [|o p IH]; intros w ps ts es HR HE; cbn [expect] in HE.
    { injection HE as <-. exists []. split; [reflexivity|constructor]. }
    destruct HR as (HA & HC & HT). assert (HL : length (ranges w) = length ps) by (clear - HA; induction HA; cbn; congruence).
    assert (step : forall w' x e ps' ts', perform mt cf n s w o = Returned (w', x) -> as_expected l x e ->
      related w' ps' ts' -> option_map (cons e) (expect ps' ts' p) = Some es ->
      exists xs, performs mt cf n s w (o :: p) = Returned xs /\ Forall2 (as_expected l) xs es).
    { intros w' x e ps' ts' H1 H2 H3 H4. destruct (expect ps' ts' p) as [es'|] eqn:E; [|discriminate].
      cbn in H4. injection H4 as <-. destruct (IH _ _ _ _ H3 E) as (xs & X1 & X2). exists (x :: xs).
      split; [|now constructor]. cbn [performs]. rewrite H1, X1. reflexivity. }
    assert (living : forall r k, nth_error ps r = Some (Some k) ->
      exists a, nth_error (ranges w) r = Some (Some a) /\ at_position a k /\ r < length ps).
    { intros r k H. pose proof (Forall2_nth _ _ _ HA r) as N. rewrite H in N.
      destruct (nth_error (ranges w) r) as [[a|]|]; [|contradiction|contradiction].
      exists a. split; [reflexivity|]. split; [exact N|]. apply nth_error_Some. congruence. }
    assert (ended : forall r, nth_error ps r = Some None -> nth_error (ranges w) r = Some None).
    { intros r H. pose proof (Forall2_nth _ _ _ HA r) as N. rewrite H in N.
      destruct (nth_error (ranges w) r) as [[a|]|]; [contradiction|reflexivity|contradiction]. }
    assert (pointee : forall i r k, position_of ps ts i = Some (r, k) -> nth_error ts i = Some (Some r)
      /\ exists a, nth_error (ranges w) r = Some (Some a) /\ at_position a k /\ r < length ps).
    { unfold position_of. intros i r k H. destruct (nth_error ts i) as [[r'|]|]; try discriminate.
      destruct (nth_error ps r') as [[k'|]|] eqn:E; try discriminate. injection H as -> ->. split; [reflexivity|].
      now apply living. }
    destruct o as [r| |i|i j|r|r q|d|i|i|i|i].
    - destruct (nth_error ps r) as [[k|]|] eqn:E; try discriminate. destruct (living _ _ E) as (a & A1 & A2 & A3).
      eapply (step _ Shows_nothing Nothing); [cbn; unfold declared_range; rewrite A1; reflexivity|exact I| |exact HE].
      unfold related; cbn. rewrite HC. split; [assumption|]. split; [reflexivity|]. apply Forall_app. auto.
    - eapply (step _ Shows_nothing Nothing); [reflexivity|exact I| |exact HE].
      unfold related; cbn. rewrite HC. split; [assumption|]. split; [reflexivity|]. apply Forall_app. auto.
    - destruct (nth_error ts i) as [t|] eqn:E; [|discriminate].
      eapply (step _ Shows_nothing Nothing); [cbn; unfold declared_cursor; rewrite HC, E; reflexivity|exact I| |exact HE].
      unfold related; cbn. split; [assumption|]. split; [now rewrite ?HC|]. apply Forall_app. split; [assumption|].
      constructor; [|constructor]. rewrite Forall_forall in HT. apply HT. eapply nth_error_In; eauto.
    - destruct (nth_error ts i) as [t0|] eqn:E0; [|discriminate]. destruct (nth_error ts j) as [t|] eqn:E; [|discriminate].
      assert (i < length ts) by (apply nth_error_Some; congruence).
      eapply (step _ Shows_nothing Nothing); [cbn; unfold declared_cursor; rewrite HC, E0, E; reflexivity|exact I| |exact HE].
      unfold related; cbn. rewrite assign_put by (rewrite ?HC; congruence). split; [assumption|]. split; [now rewrite ?HC|].
      apply put_Forall; [assumption|]. rewrite Forall_forall in HT. apply HT. eapply nth_error_In; eauto.
    - destruct (nth_error ps r) as [[k|]|] eqn:E; try discriminate. destruct (living _ _ E) as (a & A1 & A2 & A3).
      eapply (step _ Shows_nothing Nothing); [cbn; unfold declared_range; rewrite A1; reflexivity|exact I| |exact HE].
      unfold related; cbn. split; [apply Forall2_app; auto|]. split; [assumption|].
      eapply Forall_impl; [|exact HT]. intros [x|]; auto. rewrite app_length. lia.
    - destruct (nth_error ps r) as [[k0|]|] eqn:E0; try discriminate.
      destruct (nth_error ps q) as [[k|]|] eqn:E; try discriminate.
      destruct (living _ _ E0) as (a0 & A1 & A2 & A3). destruct (living _ _ E) as (a & B1 & B2 & B3).
      eapply (step _ Shows_nothing Nothing); [cbn; unfold declared_range; rewrite A1, B1; reflexivity|exact I| |exact HE].
      unfold related; cbn. rewrite assign_put by lia. split; [apply put_Forall2; auto; lia|]. split; [congruence|].
      rewrite put_length by lia. assumption.
    - destruct (nth_error ps d) as [[k|]|] eqn:E; try discriminate. destruct (living _ _ E) as (a & A1 & A2 & A3).
      eapply (step _ Shows_nothing Nothing); [cbn; unfold declared_range; rewrite A1; reflexivity|exact I| |exact HE].
      unfold related; cbn. rewrite assign_put by lia. split; [apply put_Forall2; auto; [exact I|lia]|]. split; [congruence|].
      rewrite put_length by lia. assumption.
    - destruct (position_of ps ts i) as [[r k]|] eqn:E; [|discriminate]. destruct (pointee _ _ _ E) as (E1 & a & A1 & A2 & A3).
      eapply step; [cbn; unfold target, declared_cursor, declared_range; rewrite HC, E1, A1; reflexivity| | |exact HE].
      + cbn. apply (at_shows _ _ A2).
      + now split.
    - destruct (position_of ps ts i) as [[r k]|] eqn:E; [|discriminate]. destruct (pointee _ _ _ E) as (E1 & a & A1 & A2 & A3).
      eapply step; [cbn; unfold target, declared_cursor, declared_range; rewrite HC, E1, A1; reflexivity| | |exact HE].
      + cbn. apply (at_shows _ _ A2).
      + now split.
    - destruct (position_of ps ts i) as [[r k]|] eqn:E; [|discriminate]. destruct (pointee _ _ _ E) as (E1 & a & A1 & A2 & A3).
      destruct (at_next _ _ A2) as (a' & B1 & B2).
      eapply (step _ Shows_nothing Nothing); [cbn; unfold target, declared_cursor, declared_range; rewrite HC, E1, A1, B1; reflexivity|exact I| |exact HE].
      unfold related; cbn. rewrite assign_put by lia. split; [apply put_Forall2; auto; lia|]. split; [congruence|].
      rewrite put_length by lia. assumption.
    - discriminate.
  Qed.

  (** Proper programs whose behaviour is not foreseen follow a null pointer. *)
  Lemma performs_unforeseen : forall p w ps ts, related w ps ts -> expect ps ts p = None ->
    program_compiles (length ps) (length ts) p = true -> performs mt cf n s w p = UndefinedBehaviour.
  Proof.
    induction p as [|o p IH]; intros w ps ts HR HE HP; cbn [expect] in HE; [discriminate|].
    destruct HR as (HA & HC & HT). assert (HL : length (ranges w) = length ps) by (clear - HA; induction HA; cbn; congruence).
    assert (step : forall w' x e ps' ts', perform mt cf n s w o = Returned (w', x) ->
      related w' ps' ts' -> option_map (cons e) (expect ps' ts' p) = None ->
      program_compiles (length ps') (length ts') p = true ->
      performs mt cf n s w (o :: p) = UndefinedBehaviour).
    { intros w' x e ps' ts' H1 H3 H4 H5. destruct (expect ps' ts' p) as [es'|] eqn:E; [discriminate|].
      cbn [performs]. rewrite H1, (IH _ _ _ H3 E H5). reflexivity. }
    assert (living : forall r k, nth_error ps r = Some (Some k) ->
      exists a, nth_error (ranges w) r = Some (Some a) /\ at_position a k /\ r < length ps).
    { intros r k H. pose proof (Forall2_nth _ _ _ HA r) as N. rewrite H in N.
      destruct (nth_error (ranges w) r) as [[a|]|]; [|contradiction|contradiction].
      exists a. split; [reflexivity|]. split; [exact N|]. apply nth_error_Some. congruence. }
    assert (ended : forall r, nth_error ps r = Some None -> nth_error (ranges w) r = Some None).
    { intros r H. pose proof (Forall2_nth _ _ _ HA r) as N. rewrite H in N.
      destruct (nth_error (ranges w) r) as [[a|]|]; [contradiction|reflexivity|contradiction]. }
    assert (pointee : forall i r k, position_of ps ts i = Some (r, k) -> nth_error ts i = Some (Some r)
      /\ exists a, nth_error (ranges w) r = Some (Some a) /\ at_position a k /\ r < length ps).
    { unfold position_of. intros i r k H. destruct (nth_error ts i) as [[r'|]|]; try discriminate.
      destruct (nth_error ps r') as [[k'|]|] eqn:E; try discriminate. injection H as -> ->. split; [reflexivity|].
      now apply living. }
    destruct o as [r| |i|i j|r|r q|d|i|i|i|i]; cbn [program_compiles post_increment] in HP;
      try discriminate; rewrite ?andb_true_iff, ?Nat.ltb_lt in HP.
    - destruct HP as [P1 P2]. destruct (nth_error ps r) as [[k|]|] eqn:E; [| |apply nth_error_None in E; lia];
        [|cbn [performs perform]; unfold declared_range; rewrite (ended _ E); reflexivity].
      destruct (living _ _ E) as (a & A1 & A2 & A3).
      eapply (step _ Shows_nothing Nothing); [cbn; unfold declared_range; rewrite A1; reflexivity| |exact HE|].
      + unfold related; cbn. rewrite HC. split; [assumption|]. split; [reflexivity|]. apply Forall_app. auto.
      + now rewrite app_length, Nat.add_1_r.
    - eapply (step _ Shows_nothing Nothing); [reflexivity| |exact HE|].
      + unfold related; cbn. rewrite HC. split; [assumption|]. split; [reflexivity|]. apply Forall_app. auto.
      + now rewrite app_length, Nat.add_1_r.
    - destruct HP as [P1 P2]. destruct (nth_error ts i) as [t|] eqn:E; [|apply nth_error_None in E; lia].
      eapply (step _ Shows_nothing Nothing); [cbn; unfold declared_cursor; rewrite HC, E; reflexivity| |exact HE|].
      + unfold related; cbn. split; [assumption|]. split; [now rewrite ?HC|]. apply Forall_app. split; [assumption|].
        constructor; [|constructor]. rewrite Forall_forall in HT. apply HT. eapply nth_error_In; eauto.
      + now rewrite app_length, Nat.add_1_r.
    - destruct HP as [[P0 P1] P2]. destruct (nth_error ts i) as [t0|] eqn:E0; [|apply nth_error_None in E0; lia].
      destruct (nth_error ts j) as [t|] eqn:E; [|apply nth_error_None in E; lia].
      eapply (step _ Shows_nothing Nothing); [cbn; unfold declared_cursor; rewrite HC, E0, E; reflexivity| |exact HE|].
      + unfold related; cbn. rewrite assign_put by (rewrite ?HC; congruence). split; [assumption|]. split; [now rewrite ?HC|].
        apply put_Forall; [assumption|]. rewrite Forall_forall in HT. apply HT. eapply nth_error_In; eauto.
      + now rewrite put_length.
    - destruct HP as [P1 P2]. destruct (nth_error ps r) as [[k|]|] eqn:E; [| |apply nth_error_None in E; lia];
        [|cbn [performs perform]; unfold declared_range; rewrite (ended _ E); reflexivity].
      destruct (living _ _ E) as (a & A1 & A2 & A3).
      eapply (step _ Shows_nothing Nothing); [cbn; unfold declared_range; rewrite A1; reflexivity| |exact HE|].
      + unfold related; cbn. split; [apply Forall2_app; auto|]. split; [assumption|].
        eapply Forall_impl; [|exact HT]. intros [x|]; auto. rewrite app_length. lia.
      + now rewrite app_length, Nat.add_1_r.
    - destruct HP as [[P0 P1] P2]. destruct (nth_error ps r) as [[k0|]|] eqn:E; [| |apply nth_error_None in E; lia];
        [|cbn [performs perform]; unfold declared_range; rewrite (ended _ E); reflexivity].
      destruct (living _ _ E) as (a0 & A1 & A2 & A3).
      destruct (nth_error ps q) as [[k|]|] eqn:E2; [| |apply nth_error_None in E2; lia];
        [|cbn [performs perform]; unfold declared_range; rewrite A1, (ended _ E2); reflexivity].
      destruct (living _ _ E2) as (a & B1 & B2 & B3).
      eapply (step _ Shows_nothing Nothing); [cbn; unfold declared_range; rewrite A1, B1; reflexivity| |exact HE|].
      + unfold related; cbn. rewrite assign_put by lia. split; [apply put_Forall2; auto; lia|]. split; [congruence|].
        rewrite put_length by lia. assumption.
      + now rewrite put_length.
    - destruct HP as [P1 P2]. destruct (nth_error ps d) as [[k|]|] eqn:E; [| |apply nth_error_None in E; lia];
        [|cbn [performs perform]; unfold declared_range; rewrite (ended _ E); reflexivity].
      destruct (living _ _ E) as (a & A1 & A2 & A3).
      eapply (step _ Shows_nothing Nothing); [cbn; unfold declared_range; rewrite A1; reflexivity| |exact HE|].
      + unfold related; cbn. rewrite assign_put by lia. split; [apply put_Forall2; auto; [exact I|lia]|]. split; [congruence|].
        rewrite put_length by lia. assumption.
      + now rewrite put_length.
    - destruct HP as [P1 P2]. destruct (nth_error ts i) as [[r|]|] eqn:E; [| |apply nth_error_None in E; lia].
      + assert (r < length ps).
        { rewrite Forall_forall in HT. apply (HT (Some r)). eapply nth_error_In; eauto. }
        destruct (nth_error ps r) as [[k|]|] eqn:E2; [| |apply nth_error_None in E2; lia].
        * assert (E3 : position_of ps ts i = Some (r, k)) by (unfold position_of; now rewrite E, E2).
          rewrite E3 in HE. destruct (pointee _ _ _ E3) as (_ & a & A1 & A2 & A3).
          eapply step; [cbn; unfold target, declared_cursor, declared_range; rewrite HC, E, A1; reflexivity| |exact HE|exact P2].
          now split.
        * cbn [performs perform]. unfold target, declared_cursor, declared_range. rewrite HC, E, (ended _ E2). reflexivity.
      + cbn [performs perform]. unfold target, declared_cursor. rewrite HC, E. reflexivity.
    - destruct HP as [P1 P2]. destruct (nth_error ts i) as [[r|]|] eqn:E; [| |apply nth_error_None in E; lia].
      + assert (r < length ps).
        { rewrite Forall_forall in HT. apply (HT (Some r)). eapply nth_error_In; eauto. }
        destruct (nth_error ps r) as [[k|]|] eqn:E2; [| |apply nth_error_None in E2; lia].
        * assert (E3 : position_of ps ts i = Some (r, k)) by (unfold position_of; now rewrite E, E2).
          rewrite E3 in HE. destruct (pointee _ _ _ E3) as (_ & a & A1 & A2 & A3).
          eapply step; [cbn; unfold target, declared_cursor, declared_range; rewrite HC, E, A1; reflexivity| |exact HE|exact P2].
          now split.
        * cbn [performs perform]. unfold target, declared_cursor, declared_range. rewrite HC, E, (ended _ E2). reflexivity.
      + cbn [performs perform]. unfold target, declared_cursor. rewrite HC, E. reflexivity.
    - destruct HP as [P1 P2]. destruct (nth_error ts i) as [[r|]|] eqn:E; [| |apply nth_error_None in E; lia].
      + assert (r < length ps).
        { rewrite Forall_forall in HT. apply (HT (Some r)). eapply nth_error_In; eauto. }
        destruct (nth_error ps r) as [[k|]|] eqn:E2; [| |apply nth_error_None in E2; lia].
        * assert (E3 : position_of ps ts i = Some (r, k)) by (unfold position_of; now rewrite E, E2).
          rewrite E3 in HE. destruct (pointee _ _ _ E3) as (_ & a & A1 & A2 & A3).
          destruct (at_next _ _ A2) as (a' & B1 & B2).
          eapply (step _ Shows_nothing Nothing); [cbn; unfold target, declared_cursor, declared_range; rewrite HC, E, A1, B1; reflexivity| |exact HE|now rewrite put_length].
          unfold related; cbn. rewrite assign_put by lia. split; [apply put_Forall2; auto; lia|]. split; [congruence|].
          rewrite put_length by lia. assumption.
        * cbn [performs perform]. unfold target, declared_cursor, declared_range. rewrite HC, E, (ended _ E2). reflexivity.
      + cbn [performs perform]. unfold target, declared_cursor. rewrite HC, E. reflexivity.
  Qed.
End Proofs.

(** What is foreseen compiles. *)
Lemma expect_compiles : forall p ps ts es,
  Forall (fun t => match t with Some r => r < length ps | None => True end) ts ->
  expect ps ts p = Some es -> program_compiles (length ps) (length ts) p = true.
Proof.
  induction p as [|o p IH]; intros ps ts es F H; cbn [expect program_compiles] in *; [reflexivity|].
  assert (rec : forall e ps' ts', option_map (cons e) (expect ps' ts' p) = Some es ->
    Forall (fun t => match t with Some r => r < length ps' | None => True end) ts' ->
    program_compiles (length ps') (length ts') p = true).
  { intros e ps' ts' K F'. destruct (expect ps' ts' p) eqn:E; [|discriminate]. eapply IH; eauto. }
  assert (known : forall A (l : list A) i x, nth_error l i = Some x -> i < length l).
  { intros A l i x K. apply nth_error_Some. congruence. }
  assert (member : forall i t, nth_error ts i = Some t -> match t with Some r => r < length ps | None => True end).
  { intros i t K. rewrite Forall_forall in F. apply F. eapply nth_error_In; eauto. }
  destruct o as [r| |i|i j|r|r q|d|i|i|i|i].
  - destruct (nth_error ps r) as [[k|]|] eqn:E; try discriminate. rewrite (proj2 (Nat.ltb_lt _ _) (known _ _ _ _ E)).
    apply rec in H; [now rewrite app_length, Nat.add_1_r in H|]. apply Forall_app. split; [assumption|].
    constructor; [eauto|constructor].
  - apply rec in H; [now rewrite app_length, Nat.add_1_r in H|]. apply Forall_app. auto.
  - destruct (nth_error ts i) as [t|] eqn:E; [|discriminate]. rewrite (proj2 (Nat.ltb_lt _ _) (known _ _ _ _ E)).
    apply rec in H; [now rewrite app_length, Nat.add_1_r in H|]. apply Forall_app. split; [assumption|].
    constructor; [now apply (member i)|constructor].
  - destruct (nth_error ts i) as [t0|] eqn:E; [|discriminate]. destruct (nth_error ts j) as [t|] eqn:E2; [|discriminate].
    rewrite (proj2 (Nat.ltb_lt _ _) (known _ _ _ _ E)), (proj2 (Nat.ltb_lt _ _) (known _ _ _ _ E2)).
    apply rec in H; [rewrite put_length in H; eauto|]. apply put_Forall; [assumption|now apply (member j)].
  - destruct (nth_error ps r) as [[k|]|] eqn:E; try discriminate. rewrite (proj2 (Nat.ltb_lt _ _) (known _ _ _ _ E)).
    apply rec in H; [now rewrite app_length, Nat.add_1_r in H|].
    eapply Forall_impl; [|exact F]. intros [x|]; auto. rewrite app_length. lia.
  - destruct (nth_error ps r) as [[k0|]|] eqn:E; try discriminate. destruct (nth_error ps q) as [[k|]|] eqn:E2; try discriminate.
    rewrite (proj2 (Nat.ltb_lt _ _) (known _ _ _ _ E)), (proj2 (Nat.ltb_lt _ _) (known _ _ _ _ E2)).
    apply rec in H; rewrite put_length in *; eauto.
  - destruct (nth_error ps d) as [[k|]|] eqn:E; try discriminate. rewrite (proj2 (Nat.ltb_lt _ _) (known _ _ _ _ E)).
    apply rec in H; rewrite put_length in *; eauto.
  - unfold position_of in H. destruct (nth_error ts i) as [[r|]|] eqn:E; try discriminate.
    destruct (nth_error ps r) as [[k|]|] eqn:E2; try discriminate. rewrite (proj2 (Nat.ltb_lt _ _) (known _ _ _ _ E)).
    now apply rec in H.
  - unfold position_of in H. destruct (nth_error ts i) as [[r|]|] eqn:E; try discriminate.
    destruct (nth_error ps r) as [[k|]|] eqn:E2; try discriminate. rewrite (proj2 (Nat.ltb_lt _ _) (known _ _ _ _ E)).
    now apply rec in H.
  - unfold position_of in H. destruct (nth_error ts i) as [[r|]|] eqn:E; try discriminate.
    destruct (nth_error ps r) as [[k|]|] eqn:E2; try discriminate. rewrite (proj2 (Nat.ltb_lt _ _) (known _ _ _ _ E)).
    apply rec in H; rewrite put_length in *; eauto.
  - discriminate.
Qed.

Lemma generator_at_positions mt cf n s l : forall f g l2 l1, range_elements f mt cf n s g = Returned l2 -> l = l1 ++ l2 ->
  exists a, construct mt cf n s g = Returned a /\ at_position mt cf n s l a (length l1).
Proof.
  induction f as [|f IH]; intros g l2 l1 H ->; cbn in H; [discriminate|].
  destruct (next mt cf n s g) as [[r g']| | |] eqn:E; try discriminate.
  exists (mk_adapter g' r). split; [unfold construct; now rewrite E|].
  destruct (matched r) eqn:Em.
  - destruct (range_elements f mt cf n s g') as [l3| | |] eqn:E3; try discriminate. injection H as <-.
    destruct (IH g' l3 (l1 ++ [r]) E3) as (a & A1 & A2).
    { now rewrite <- app_assoc. }
    eapply at_match with (m := r).
    + rewrite nth_error_app2, Nat.sub_diag by lia. reflexivity.
    + assumption.
    + reflexivity.
    + exact A1.
    + rewrite app_length in A2. cbn in A2. now rewrite Nat.add_1_r in A2.
  - injection H as <-. apply stays_ended; cbn.
    + unfold next in E. destruct (active g) eqn:Ea; [|injection E as <- <-; assumption].
      unfold to_call in E. destruct (mt cf n s (current g) (initial_captures n)) as [c e b| | |]; try discriminate.
      injection E as <- <-. cbn in *. now rewrite Em.
    + rewrite app_nil_r. lia.
    + assumption.
Qed.

Theorem iterators_share mt r ct s l p es : range_of mt r ct s = Returned l -> expect [Some 0] [] p = Some es ->
  exists xs, with_range mt r ct s p = Returned xs /\ Forall2 (as_expected l) xs es.
Proof.
  unfold range_of, with_range. intros H HE. destruct (compilable _ _); [|discriminate].
  pose proof (expect_compiles p [Some 0] [] es (Forall_nil _) HE) as HP. cbn [length] in HP. rewrite HP. cbn [andb].
  destruct (generator_at_positions _ _ _ _ l _ _ l [] H eq_refl) as (a & A1 & A2). rewrite A1.
  eapply performs_as_expected; [|exact HE]. repeat split; cbn; auto.
Qed.

Theorem iterators_exact mt r ct s l p : range_of mt r ct s = Returned l ->
  (with_range mt r ct s p = DoesNotCompile <-> ~ proper 1 0 p)
  /\ (with_range mt r ct s p = UndefinedBehaviour <-> proper 1 0 p /\ expect [Some 0] [] p = None)
  /\ ((exists xs, with_range mt r ct s p = Returned xs) <-> exists es, expect [Some 0] [] p = Some es)
  /\ with_range mt r ct s p <> DoesNotReturn.
Proof.
  intros H. rewrite <- (proper_compiles p 1 0).
  destruct (expect [Some 0] [] p) as [es|] eqn:HE.
  - pose proof (expect_compiles p [Some 0] [] es (Forall_nil _) HE) as HP. cbn [length] in HP.
    destruct (iterators_share _ _ _ _ _ _ _ H HE) as (xs & X & _). rewrite X, HP.
    repeat split; try congruence; try (intros [? ?]; congruence); eauto.
  - destruct (program_compiles 1 0 p) eqn:HP.
    + assert (X : with_range mt r ct s p = UndefinedBehaviour).
      { unfold range_of, with_range in *. destruct (compilable _ _); [|discriminate]. rewrite HP. cbn [andb].
        destruct (generator_at_positions _ _ _ _ l _ _ l [] H eq_refl) as (a & A1 & A2). rewrite A1.
        eapply performs_unforeseen with (l := l); [|exact HE|exact HP]. repeat split; cbn; auto. }
      rewrite X. repeat split; try congruence; intros [? ?]; congruence.
    + assert (X : with_range mt r ct s p = DoesNotCompile).
      { unfold with_range. rewrite HP, andb_false_r. reflexivity. }
      rewrite X. repeat split; try congruence; try (intros [? ?]; congruence).
Qed.
