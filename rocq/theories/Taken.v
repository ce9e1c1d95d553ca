(** Programs that take texts out of a result: specification and proofs (C91). *)
From Verif Require Import Matcher Api Exceptions Moves.
From Coq Require Import Lia.

(** ** Specification *)

(** [gone i] says that the text [i] was taken away.  A text is taken away only by a use of
    the whole result as an expiring value that is not constant, and not by reading the
    content. *)
Definition takes_away (matched : bool) (u : use) (i : nat) : bool :=
  match u with
  | U_group Expiring j => Nat.eqb i j
  | U_each Expiring => true
  | U_optional Expiring => matched
  | _ => false
  end.

(** The texts that a statement hands out. *)
Definition asks_for (matched : bool) (n : nat) (u : use) : list nat :=
  match u with
  | U_group _ i | U_content _ i => [i]
  | U_each _ | U_transform _ => seq 0 n
  | U_optional _ => if matched then seq 0 n else []
  end.

(** Statements that compile: existing groups, no content of a constant expiring result. *)
Definition well_formed (n : nat) (u : use) : bool :=
  match u with
  | U_content ConstExpiring _ => false
  | U_group _ i | U_content _ i => Nat.ltb i n
  | _ => true
  end.

(** What the program sees: the texts, unless an earlier statement took them away. *)
Fixpoint sees (matched : bool) (texts : list (list ascii)) (gone : nat -> bool) (p : list use)
  : list (list (option (list ascii))) :=
  match p with
  | [] => []
  | u :: p' =>
      map (fun i => if gone i then None else nth_error texts i) (asks_for matched (length texts) u)
      :: sees matched texts (fun i => gone i || takes_away matched u i) p'
  end.

(** ** Proofs *)

Definition state (texts : list (list ascii)) (gone : nat -> bool) : list stored :=
  map (fun i => if gone i then None else nth_error texts i) (seq 0 (length texts)).

Lemma state_nth texts gone i : i < length texts ->
  nth_error (state texts gone) i = Some (if gone i then None else nth_error texts i).
Proof.
  intros H. unfold state. rewrite nth_error_map.
  replace (nth_error (seq 0 (length texts)) i) with (Some i); [reflexivity|].
  symmetry. rewrite (nth_error_nth' _ 0) by (now rewrite seq_length). now rewrite seq_nth.
Qed.

Lemma state_ext texts g1 g2 : (forall i, g1 i = g2 i) -> state texts g1 = state texts g2.
Proof. intros H. unfold state. apply map_ext. intros i. now rewrite H. Qed.

Lemma leave_same : forall l i x, nth_error l i = Some x -> leave i x l = l.
Proof. induction l as [|y l IH]; intros [|i] x H; cbn in *; try discriminate; [now injection H as ->|]. f_equal. auto. Qed.

Lemma leave_map (f : nat -> stored) x : forall n a i, leave i x (map f (seq a n))
  = map (fun k => if Nat.eqb k (a + i) then x else f k) (seq a n).
Proof.
  induction n as [|n IH]; intros a i; [now destruct i|]. destruct i as [|i]; cbn.
  - rewrite Nat.add_0_r, Nat.eqb_refl. f_equal. apply map_ext_in. intros k Hk. apply in_seq in Hk.
    destruct (Nat.eqb_spec k a); [lia|reflexivity].
  - replace (Nat.eqb a (a + S i)) with false by (symmetry; apply Nat.eqb_neq; lia). f_equal.
    rewrite IH. now rewrite Nat.add_succ_r.
Qed.

Lemma leave_state texts gone i : leave i None (state texts gone)
  = state texts (fun k => gone k || Nat.eqb k i).
Proof.
  unfold state. rewrite leave_map. apply map_ext. intros k. cbn. destruct (Nat.eqb k i), (gone k); reflexivity.
Qed.

Lemma all_moved l : initialise_all Expiring l = (l, map (fun _ => None) l).
Proof. induction l as [|x l IH]; cbn; [reflexivity|]. now rewrite IH. Qed.

Lemma all_copied q l : q <> Expiring -> initialise_all q l = (l, l).
Proof. intros H. induction l as [|x l IH]; cbn; [reflexivity|]. rewrite IH. now destruct q. Qed.

Lemma state_gone texts gone : map (fun _ => None) (state texts gone) = state texts (fun i => gone i || true).
Proof.
  unfold state. rewrite map_map. apply map_ext. intros i. now rewrite Bool.orb_true_r.
Qed.

Lemma state_stays texts gone : state texts gone = state texts (fun i => gone i || false).
Proof. apply state_ext. intros i. now rewrite Bool.orb_false_r. Qed.

Lemma statement_spec m texts gone u : well_formed (length texts) u = true ->
  statement m (state texts gone) u
  = Returned (map (fun i => if gone i then None else nth_error texts i) (asks_for m (length texts) u),
              state texts (fun i => gone i || takes_away m u i)).
Proof.
  destruct u as [q i|q i|q|q|q]; cbn [well_formed statement asks_for takes_away]; intros H.
  - apply Nat.ltb_lt in H. rewrite (state_nth _ _ _ H).
    destruct q; cbn; rewrite ?leave_state, <- ?state_stays; rewrite ?leave_same by (now apply state_nth); reflexivity.
  - destruct q; try discriminate; apply Nat.ltb_lt in H; rewrite (state_nth _ _ _ H); cbn;
      rewrite <- ?state_stays; rewrite ?leave_same by (now apply state_nth); reflexivity.
  - destruct q; cbn [each_category member moved]; rewrite ?all_moved, ?all_copied by discriminate;
      rewrite ?state_gone, <- ?state_stays; reflexivity.
  - cbn [transform_category]. rewrite all_copied by discriminate. rewrite <- state_stays. now destruct q.
  - destruct m; [|destruct q; now rewrite <- state_stays].
    destruct q; rewrite ?all_moved, ?all_copied by discriminate; rewrite ?state_gone, <- ?state_stays; reflexivity.
Qed.

Lemma statements_spec m texts : forall p gone, forallb (well_formed (length texts)) p = true ->
  statements m (state texts gone) p = Returned (sees m texts gone p).
Proof.
  induction p as [|u p IH]; intros gone H; [reflexivity|].
  cbn [forallb] in H. apply Bool.andb_true_iff in H. destruct H as [H1 H2].
  cbn [statements sees]. rewrite statement_spec by assumption. now rewrite IH.
Qed.

Lemma state_start texts : map Some texts = state texts (fun _ => false).
Proof.
  unfold state. cbn. induction texts as [|x l IH]; [reflexivity|]. cbn. f_equal. rewrite IH, <- seq_shift, map_map. reflexivity.
Qed.

Theorem texts_taken mt r ct s res p : invoke mt r ct s = Returned res ->
  forallb (well_formed (length (groups res))) p = true ->
  use_owner mt r ct s p
  = Returned (sees (matched res) (map (cell_content s) (groups res)) (fun _ => false) p).
Proof.
  intros H W. unfold use_owner. rewrite H. cbn. rewrite state_start. apply statements_spec. now rewrite map_length.
Qed.
