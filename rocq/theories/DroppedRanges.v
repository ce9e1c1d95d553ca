(** Without backreferences a dropped group changes no range, whatever the alternatives:
    specification and proofs (C97). *)
From Verif Require Import Matcher Api Basics Spec Calls Equiv Rewrites.
From Verif Require Import Dropped.
Lemma seq_all cf a b pre l l' : Forall2 (rewrites cf a b) l l' ->
  rewrites cf a b (Seq (pre ++ l)) (Seq (pre ++ l')).
Proof.
  intros F. revert pre. induction F as [|x y l l' R F IH]; intros pre; [constructor|].
  eapply rw_trans; [apply rw_seq, R|].
  specialize (IH (pre ++ [y])). now rewrite <- !app_assoc in IH.
Qed.

Lemma alt_all cf a b pre l l' : Forall2 (rewrites cf a b) l l' ->
  rewrites cf a b (Alt (pre ++ l)) (Alt (pre ++ l')).
Proof.
  intros F. revert pre. induction F as [|x y l l' R F IH]; intros pre; [constructor|].
  eapply rw_trans; [apply rw_alt, R|].
  specialize (IH (pre ++ [y])). now rewrite <- !app_assoc in IH.
Qed.

(** A negated node is a character class with the parentheses exactly if it is one without. *)
Fixpoint same_negations (k : N) (n : node) : Prop :=
  match n with
  | Neg x => is_class (uncaptured k x) = is_class x /\ same_negations k x
  | Cap _ _ x | Rep _ _ _ x | Look _ x => same_negations k x
  | Seq l | Alt l => fold_right and True (map (same_negations k) l)
  | _ => True
  end.

Lemma class_kept k n : is_class n = true -> uncaptured k n = n.
Proof.
  assert (G : forall l, Forall (fun n => is_class n = true -> uncaptured k n = n) l ->
    forallb is_class l = true -> map (uncaptured k) l = l).
  { induction 1 as [|x l Hx Hl IH]; cbn [forallb map]; [reflexivity|].
    intros E. apply andb_prop in E as [E1 E2]. now rewrite Hx, IH. }
  induction n using node_ind'; cbn [is_class]; intros E; try discriminate; try reflexivity.
  - cbn. now rewrite IHn.
  - destruct l as [|x [|y l]]; try discriminate. cbn. inversion H; subst. now rewrite H2.
  - destruct l as [|x l]; [discriminate|]. cbn [uncaptured]. now rewrite G.
  - destruct hi; try discriminate. apply andb_prop in E as [_ E]. cbn. now rewrite IHn.
Qed.

Lemma uncaptured_rewrites cf k n : same_negations k n -> backref_free n = true ->
  forall a b, rewrites cf a b n (uncaptured k n).
Proof.
  assert (G : forall l, Forall (fun n => same_negations k n -> backref_free n = true ->
      forall a b, rewrites cf a b n (uncaptured k n)) l ->
    fold_right and True (map (same_negations k) l) -> forallb backref_free l = true ->
    forall a b, Forall2 (rewrites cf a b) l (map (uncaptured k) l)).
  { induction 1 as [|x l Hx Hl IH]; cbn; intros S B a b; constructor; apply andb_prop in B as [B1 B2]; [apply Hx|apply IH]; easy. }
  induction n using node_ind'; cbn [same_negations uncaptured backref_free]; intros S B u v;
    try discriminate; try apply rw_refl.
  - destruct S as [S1 S2]. destruct (is_class n) eqn:E.
    + rewrite class_kept by exact E. apply rw_refl.
    + apply rw_neg; auto.
  - apply (seq_all cf u v []), G; assumption.
  - apply (alt_all cf u v []), G; assumption.
  - destruct (N.eqb id k).
    + eapply rw_trans; [apply rw_cap|auto].
    + eapply rw_trans; [apply rw_cap|]. eapply rw_trans; [apply IHn; assumption|]. apply rw_sym, rw_cap.
  - apply rw_rep; auto.
  - match goal with |- rewrites _ _ _ (Look ?q _) _ =>
      destruct (xorb v (match q with Ahead => false | Behind => true end)) eqn:E end.
    + apply rw_behind; auto.
    + apply rw_ahead; auto.
Qed.

Lemma backref_free_uncaptured k n : backref_free n = true -> backref_free (uncaptured k n) = true.
Proof.
  assert (G : forall l, Forall (fun n => backref_free n = true -> backref_free (uncaptured k n) = true) l ->
    forallb backref_free l = true -> forallb backref_free (map (uncaptured k) l) = true).
  { induction 1 as [|x l Hx Hl IH]; cbn [forallb map]; [reflexivity|].
    intros E. apply andb_prop in E as [E1 E2]. now rewrite Hx, IH. }
  induction n using node_ind'; cbn [uncaptured backref_free]; intros E; try discriminate; auto.
  destruct (N.eqb id k); cbn [backref_free]; auto.
Qed.

Theorem uncaptured_ranges k n fl ct s :
  same_negations k n -> backref_free n = true ->
  let r1 := mk_regex n fl in let r2 := mk_regex (uncaptured k n) fl in
  usable r1 ct -> usable r2 ct ->
  same_answers r1 r2 ct s
  /\ same_ranges (tokenize r1 ct s) (tokenize r2 ct s)
  /\ same_ranges (find_all r1 ct s) (find_all r2 ct s).
Proof.
  intros S B r1 r2 U1 U2. apply rewritten_answers; auto using uncaptured_rewrites, backref_free_uncaptured.
Qed.
