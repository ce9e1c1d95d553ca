(** The comparison by which Conformance.v checks trees is equality. *)
From Coq Require Import Bool NArith.
From Verif Require Import Matcher Basics Equality Tracking.

Lemma list_eqb_eq {A} (f : A -> A -> bool) : (forall x y, f x y = true <-> x = y) ->
  forall l1 l2, list_eqb f l1 l2 = true <-> l1 = l2.
Proof.
  intros Hf l1. induction l1 as [|x l1 IH]; intros [|y l2]; cbn; try (split; congruence).
  rewrite Bool.andb_true_iff, Hf, IH. split; [intros [-> ->]|intros [= -> ->]]; auto.
Qed.

Lemma mode_eqb_eq a b : mode_eqb a b = true <-> a = b.
Proof. destruct a, b; cbn; split; congruence. Qed.

Lemma direction_eqb_eq a b : direction_eqb a b = true <-> a = b.
Proof. destruct a, b; cbn; split; congruence. Qed.

Lemma quantifier_eqb_eq a b : quantifier_eqb a b = true <-> a = b.
Proof. destruct a, b; cbn; rewrite ?N.eqb_eq; split; congruence. Qed.

Lemma chars_eqb_eq a b : chars_eqb a b = true <-> a = b.
Proof.
  revert b. induction a as [|x a IH]; intros [|y b]; cbn; try (split; congruence).
  rewrite Bool.andb_true_iff, Ascii.eqb_eq, IH. split; [intros [-> ->]|intros [= -> ->]]; auto.
Qed.

Lemma name_eqb_iff a b : name_eqb a b = true <-> a = b.
Proof.
  destruct a, b; cbn; rewrite ?chars_eqb_eq; split; congruence.
Qed.

Lemma names_eqb_eq a b : names_eqb a b = true <-> a = b.
Proof. apply list_eqb_eq, name_eqb_iff. Qed.

Lemma node_eqb_eq a : forall b, node_eqb a b = true <-> a = b.
Proof.
  assert (Hl : forall l, Forall (fun x => forall y, node_eqb x y = true <-> x = y) l -> forall l',
    (fix go (l1 l2 : list node) : bool := match l1, l2 with
       | [], [] => true
       | x :: r1, y :: r2 => node_eqb x y && go r1 r2
       | _, _ => false
       end) l l' = true <-> l = l').
  { induction 1 as [|x l Hx Hl IH]; intros [|y l']; try (split; congruence).
    rewrite Bool.andb_true_iff, Hx, IH. split; [intros [-> ->]|intros [= -> ->]]; auto. }
  induction a using node_ind'; intros z; destruct z; cbn [node_eqb]; try (split; congruence);
    rewrite ?Bool.andb_true_iff, ?Ascii.eqb_eq, ?N.eqb_eq, ?chars_eqb_eq, ?name_eqb_iff, ?mode_eqb_eq,
      ?quantifier_eqb_eq, ?direction_eqb_eq, ?IHa; try (split; [intuition congruence|intros [= ]; subst; auto]);
    try (rewrite Hl by assumption; split; congruence).
Qed.
