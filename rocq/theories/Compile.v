(** Which trees compile, exactly (C44, C52). *)
From Verif Require Import Parser Api Basics Steps Typing Shape Scan.
From Coq Require Import Lia.

(** ** The parts of a tree *)

(** Is a lookaround in a part that is read backwards ([rev]) itself one that
    reads backwards? *)
Definition backwards (d : direction) (rev : bool) : bool :=
  match d, rev with Behind, false | Ahead, true => true | _, _ => false end.

(** [part k rev n k' rev' x]: [x] is a part of [n] that is used in matching, [k]
    and [k'] count the levels of backward matching above.  The body of a
    repetition that allows no iteration is not used. *)
Inductive part (k : nat) (rev : bool) : node -> nat -> bool -> node -> Prop :=
| part_self n : part k rev n k rev n
| part_set l y k' rev' x : In y l -> part k rev y k' rev' x -> part k rev (CSet l) k' rev' x
| part_seq l y k' rev' x : In y l -> part k rev y k' rev' x -> part k rev (Seq l) k' rev' x
| part_alt l y k' rev' x : In y l -> part k rev y k' rev' x -> part k rev (Alt l) k' rev' x
| part_neg y k' rev' x : part k rev y k' rev' x -> part k rev (Neg y) k' rev' x
| part_cap id nm y k' rev' x : part k rev y k' rev' x -> part k rev (Cap id nm y) k' rev' x
| part_rep md lo hi y k' rev' x : hi <> Fin 0 -> part k rev y k' rev' x -> part k rev (Rep md lo hi y) k' rev' x
| part_look d y k' rev' x : backwards d rev = false -> part k false y k' rev' x -> part k rev (Look d y) k' rev' x
| part_back d y k' rev' x : backwards d rev = true -> part (S k) true y k' rev' x -> part k rev (Look d y) k' rev' x.

(** What each part demands of the iterators and of the groups. *)
Definition sound (bidirectional : bool) (names : list group_name) (k : nat) (rev : bool) (n : node) : Prop :=
  match n with
  | WordB => bidirectional = true
  | Range a b => (code a <= code b)%N
  | Rep _ lo hi x =>
      match hi with Fin h => (lo <= h)%N | Inf => True end /\ (trivial x = true -> (lo < 2 ^ 63)%N)
  | Cap id nm _ => nth_error names (N.to_nat id) = Some nm /\ k <= 1
  | Backref id => bidirectional = true /\ N.to_nat id < length names
  | NBackref nm => bidirectional = true
      /\ exists i, nth_error names i = Some (Some nm) /\ forall j, nth_error names j = Some (Some nm) -> j = i
  | Look d _ => backwards d rev = true -> bidirectional = true
  | _ => True
  end.

(** ** Proof *)

Section Checks.
  Variable cf : config.
  Variable names : list group_name.

  Definition local (k : nat) (rev : bool) (n : node) : bool :=
    match n with
    | WordB => is_bidirectional cf
    | Range a b => N.leb (code a) (code b)
    | Rep _ lo hi x =>
        match hi with Fin h => N.leb lo h | Inf => true end && (negb (trivial x) || N.ltb lo (2 ^ 63))
    | Cap id nm _ =>
        match nth_error names (N.to_nat id) with Some nm' => name_eqb nm nm' | None => false end && Nat.leb k 1
    | Backref id => is_bidirectional cf && Nat.ltb (N.to_nat id) (length names)
    | NBackref nm =>
        is_bidirectional cf && match unique_position (Some nm) names with Some _ => true | None => false end
    | Look d _ => negb (backwards d rev) || is_bidirectional cf
    | _ => true
    end.

  Fixpoint checks (k : nat) (rev : bool) (n : node) : bool :=
    local k rev n &&
    match n with
    | CSet l | Seq l | Alt l => forallb (checks k rev) l
    | Neg x | Cap _ _ x => checks k rev x
    | Rep _ _ hi x => match hi with Fin 0 => true | _ => checks k rev x end
    | Look d x => if backwards d rev then checks (S k) true x else checks k false x
    | _ => true
    end.

  Lemma unique_spec nm :
    (exists i, unique_position (Some nm) names = Some i)
    <-> exists i, nth_error names i = Some (Some nm) /\ forall j, nth_error names j = Some (Some nm) -> j = i.
  Proof.
    unfold unique_position.
    assert (P : forall l k i, In i (positions_of (Some nm) l k) <-> exists j, i = k + j /\ nth_error l j = Some (Some nm)).
    { induction l as [|x l IH]; intros k i; cbn [positions_of].
      - split; [intros []|]. intros (j & _ & H). now destruct j.
      - rewrite in_app_iff, IH. split.
        + intros [H|(j & -> & H)].
          * destruct (name_eqb (Some nm) x) eqn:E; [|destruct H]. destruct H as [<-|[]].
            apply name_eqb_eq in E. exists 0. split; [lia|now subst].
          * exists (S j). split; [lia|exact H].
        + intros ([|j] & -> & H).
          * left. injection H as ->. rewrite (proj2 (name_eqb_eq _ _) eq_refl). left. lia.
          * right. exists j. split; [lia|exact H]. }
    assert (N : forall l k, NoDup (positions_of (Some nm) l k)).
    { induction l as [|x l IH]; intros k; cbn [positions_of]; [constructor|].
      destruct (name_eqb (Some nm) x); [|apply IH]. cbn [app]. constructor; [|apply IH].
      rewrite P. intros (j & E & _). lia. }
    specialize (P names 0). specialize (N names 0). cbn [plus] in P.
    destruct (positions_of (Some nm) names 0) as [|i [|j r]] eqn:E.
    - split; [intros [? [=]]|]. intros (i & H & _). exfalso. apply (proj2 (P i)). now exists i.
    - split; [|eauto]. intros _. destruct (proj1 (P i) (or_introl eq_refl)) as (j & -> & H).
      exists j. split; [exact H|]. intros j' H'. destruct (proj2 (P j')) as [E'|[]]; [now exists j'|]. cbn in E'. congruence.
    - split; [intros [? [=]]|]. intros (a & H & U).
      destruct (proj1 (P i) ltac:(cbn; auto)) as (i' & -> & Hi). destruct (proj1 (P j) ltac:(cbn; auto)) as (j' & -> & Hj).
      apply U in Hi, Hj. subst. cbn in N. inversion N as [|? ? X]. subst. destruct X. now left.
  Qed.

  Lemma local_sound k rev n : local k rev n = true <-> sound (is_bidirectional cf) names k rev n.
  Proof.
    destruct n; cbn [local sound]; try tauto; rewrite ?Bool.andb_true_iff.
    - apply N.leb_le.
    - rewrite Nat.leb_le. destruct (nth_error names (N.to_nat id)) as [nm'|].
      + rewrite name_eqb_eq. split; intros [A B]; split; congruence.
      + split; intros [A B]; congruence.
    - rewrite Bool.orb_true_iff, Bool.negb_true_iff, N.ltb_lt. destruct hi as [h|]; rewrite ?N.leb_le;
        destruct (trivial n); intuition congruence.
    - rewrite Nat.ltb_lt. tauto.
    - rewrite <- unique_spec. destruct (unique_position (Some name) names) as [i|]; split; intros [A B]; split; eauto.
      + discriminate.
      + destruct B as [? [=]].
    - rewrite Bool.orb_true_iff, Bool.negb_true_iff. destruct (backwards d rev); intuition congruence.
  Qed.

  Lemma checks_parts n : forall k rev,
    checks k rev n = true <-> forall k' rev' x, part k rev n k' rev' x -> sound (is_bidirectional cf) names k' rev' x.
  Proof.
    induction n using node_ind'; intros k rev; cbn [checks]; rewrite Bool.andb_true_iff, local_sound.
    all: try (split; [intros [A B] k' rev' z P; inversion P; subst; exact A|intros A; split; [apply A; constructor|reflexivity]]).
    1,3,4: rewrite Forall_forall in H; rewrite forallb_forall; split;
      [intros [A B] k' rev' z P; inversion P; subst; [exact A|]; eapply H; eauto
      |intros A; split; [apply A; constructor|]; intros y Hy; apply H; auto; intros k' rev' z P; apply A; econstructor; eauto].
    - rewrite IHn. split.
      + intros [A B] k' rev' z P. inversion P; subst; [exact A|]. now apply B.
      + intros A. split; [apply A; constructor|]. intros k' rev' z P. apply A. now constructor.
    - rewrite IHn. split.
      + intros [A B] k' rev' z P. inversion P; subst; [exact A|]. now apply B.
      + intros A. split; [apply A; constructor|]. intros k' rev' z P. apply A. now constructor.
    - assert (Z : hi = Fin 0 \/ hi <> Fin 0) by (destruct hi as [[|h]|]; [now left|right; discriminate..]).
      destruct Z as [->|Z].
      + split.
        * intros [A _] k' rev' z P. inversion P; subst; [exact A|]. congruence.
        * intros A. split; [apply A; constructor|reflexivity].
      + replace (match hi with Fin 0 => true | _ => checks k rev n end) with (checks k rev n)
          by (destruct hi as [[|h]|]; congruence).
        rewrite IHn. split.
        * intros [A B] k' rev' z P. inversion P; subst; [exact A|]. now apply B.
        * intros A. split; [apply A; constructor|]. intros k' rev' z P. apply A. now constructor.
    - destruct (backwards d rev) eqn:E; rewrite IHn; split.
      + intros [A B] k' rev' z P. inversion P; subst; [exact A|congruence|now apply B].
      + intros A. split; [apply A; constructor|]. intros k' rev' z P. apply A. now apply part_back.
      + intros [A B] k' rev' z P. inversion P; subst; [exact A|now apply B|congruence].
      + intros A. split; [apply A; constructor|]. intros k' rev' z P. apply A. now apply part_look.
  Qed.

  Lemma checks_invert n : forall k, checks k false (invert n) = checks k true n.
  Proof.
    induction n using node_ind'; intros k; try reflexivity.
    - cbn [invert checks local andb]. rewrite forallb_map. apply forallb_ext_Forall. eapply Forall_impl; [|exact H]. auto.
    - cbn [invert checks local andb]. auto.
    - rewrite invert_Seq. cbn [checks local andb]. rewrite forallb_rev, forallb_map. apply forallb_ext_Forall.
      eapply Forall_impl; [|exact H]. auto.
    - cbn [invert checks local andb]. rewrite forallb_map. apply forallb_ext_Forall. eapply Forall_impl; [|exact H]. auto.
    - cbn [invert checks local]. now rewrite IHn.
    - cbn [invert checks local]. rewrite trivial_invert, IHn. reflexivity.
    - cbn [invert checks local]. now destruct d.
  Qed.

  Lemma checks_trivial n : shaped n = true -> trivial n = true -> forall k rev k' rev',
    checks k rev n = checks k' rev' n.
  Proof.
    induction n using node_ind'; intros Hs Ht k rev k' rev'; try reflexivity; try discriminate Ht.
    - cbn [checks local andb shaped] in *. apply forallb_ext_Forall. rewrite forallb_forall in Hs.
      rewrite Forall_forall in H |- *. intros x Hx. specialize (Hs x Hx). apply Bool.andb_true_iff in Hs. now apply H.
    - cbn [checks local andb shaped trivial] in *. apply Bool.andb_true_iff in Hs. now apply IHn.
    - destruct l as [|x [|y r]]; try discriminate Ht. cbn [checks local andb shaped forallb trivial] in *.
      rewrite Bool.andb_true_r in *. inversion H as [|? ? Hx Hr]; subst. rewrite ?Bool.andb_true_r. now apply Hx.
    - destruct l as [|x r]; [discriminate Ht|]. cbn [checks local andb shaped] in *.
      apply forallb_ext_Forall. rewrite Forall_forall in H |- *. intros y Hy. apply H; auto.
      + rewrite forallb_forall in Hs. now apply Hs.
      + cbn [trivial] in Ht. apply Bool.andb_true_iff in Ht as [T1 T2]. rewrite forallb_forall in T2.
        destruct Hy as [<-|Hy]; auto.
    - cbn [checks local shaped trivial] in *.
      assert (T : trivial n = true) by (destruct lo as [|[]]; try discriminate Ht; destruct hi as [[|[]]|]; try discriminate Ht; exact Ht).
      f_equal. rewrite (IHn Hs T k rev k' rev'). reflexivity.
  Qed.

  Lemma compiles_checks : forall f rd n, size n <= f -> shaped n = true ->
    compiles cf names f rd n = checks rd false n.
  Proof.
    induction f as [|f IH]; intros rd n Hf Hs; [pose proof (size_pos n); lia|].
    assert (L : forall l, list_sum (map size l) <= f -> forallb shaped l = true ->
      forallb (compiles cf names f rd) l = forallb (checks rd false) l).
    { intros l H1 H2. apply forallb_ext_Forall. rewrite Forall_forall. intros x Hx.
      rewrite forallb_forall in H2. pose proof (size_in_sum _ _ Hx). apply IH; [lia|auto]. }
    destruct n; cbn [compiles checks local andb]; rewrite ?Bool.andb_true_r; try reflexivity; cbn [shaped] in Hs.
    - rewrite size_CSet in Hf. rewrite forallb_forall in Hs. apply forallb_ext_Forall, Forall_forall. intros x Hx.
      specialize (Hs x Hx). apply Bool.andb_true_iff in Hs as [-> Hs]. pose proof (size_in_sum _ _ Hx).
      apply IH; [lia|exact Hs].
    - cbn [size] in Hf. apply Bool.andb_true_iff in Hs as [-> Hs]. apply IH; [lia|exact Hs].
    - rewrite size_Seq in Hf. destruct l as [|x l]; [discriminate|]. apply L; [lia|exact Hs].
    - rewrite size_Alt in Hf. destruct l as [|x l]; [discriminate|]. apply L; [lia|exact Hs].
    - cbn [size] in Hf. rewrite (IH rd n) by (auto; lia). reflexivity.
    - cbn [size] in Hf. rewrite (IH rd n) by (auto; lia). destruct hi as [[|h]|]; cbn [N.eqb orb andb];
        destruct (checks rd false n); rewrite ?Bool.andb_true_r, ?Bool.andb_false_r; try reflexivity.
    - cbn [size] in Hf. destruct d; cbn [backwards negb orb andb].
      + apply IH; [lia|exact Hs].
      + f_equal. destruct (trivial n) eqn:T.
        * rewrite (IH rd n) by (auto; lia). now apply checks_trivial.
        * rewrite (IH (S rd) (invert n)) by (rewrite ?size_invert, ?shaped_invert; auto; lia). apply checks_invert.
  Qed.
End Checks.

(** A tree of the parser compiles exactly if every part of it that is used in
    matching satisfies its demands. *)
Theorem compiles_exactly p n cf : parse p = P_ok n ->
  (compilable cf n = true
   <-> forall k rev x, part 0 false n k rev x -> sound (is_bidirectional cf) (None :: scan InText p) k rev x).
Proof.
  intros E. unfold compilable. rewrite compiles_checks; [|lia|eapply parse_shaped; eauto].
  rewrite checks_parts. unfold group_names. now rewrite (parse_scan p n E).
Qed.
