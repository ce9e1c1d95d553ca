(** Which characters a call sees of its argument. *)
From Verif Require Import Matcher Api Adapter Basics.

Notation nul := ("000"%char : ascii).

(** What an argument is meant to hold.  A string literal has a NUL behind its
    characters; the text behind a pointer ends at the first NUL. *)
Definition holds (a : argument) (memory text : list ascii) : Prop :=
  match a with
  | A_literal => memory = text ++ [nul]
  | A_pointer => ~ In nul text /\ exists rest, memory = text ++ nul :: rest
  | A_string_view | A_object _ _ => memory = text
  end.

Definition in_memory (a : argument) : bool :=
  match a with A_literal | A_pointer => true | A_string_view | A_object _ _ => false end.

Lemma up_to_nul_spec memory :
  match up_to_nul memory with
  | Returned text => ~ In nul text /\ exists rest, memory = text ++ nul :: rest
  | e => e = UndefinedBehaviour /\ ~ In nul memory
  end.
Proof.
  induction memory as [|c r IH]; cbn [up_to_nul]; [now split|].
  destruct (Ascii.eqb_spec c nul) as [->|N]; [split; [easy|now exists r]|].
  destruct (up_to_nul r) as [t| | |] eqn:E.
  { destruct IH as (H & rest & ->). split; [|now exists rest].
    intros [F|F]; [now apply N|now apply H]. }
  all: destruct IH as [E1 H]; split; [exact E1|]; intros [F|F]; [now apply N|now apply H].
Qed.

Lemma first_nul_unique : forall t1 r1 t2 r2, ~ In nul t1 -> ~ In nul t2 ->
  t1 ++ nul :: r1 = t2 ++ nul :: r2 -> t1 = t2.
Proof.
  induction t1 as [|c t1 IH]; intros r1 t2 r2 H1 H2 E; destruct t2 as [|d t2]; cbn in E.
  - reflexivity.
  - injection E as E1 _. destruct H2. left. congruence.
  - injection E as E1 _. destruct H1. left. congruence.
  - injection E as E1 E2. subst d. f_equal.
    apply (IH r1 t2 r2); auto; [intros F; apply H1; now right|intros F; apply H2; now right].
Qed.

Lemma up_to_nul_returns memory text : up_to_nul memory = Returned text <->
  ~ In nul text /\ exists rest, memory = text ++ nul :: rest.
Proof.
  pose proof (up_to_nul_spec memory) as H. split.
  - intros E. now rewrite E in H.
  - intros (N & rest & E). destruct (up_to_nul memory) as [t| | |].
    + destruct H as (N' & rest' & E'). f_equal. rewrite E in E'. symmetry.
      now apply (first_nul_unique _ _ _ _ N N' E').
    + destruct H as [_ H]. destruct H. rewrite E. apply in_elt.
    + destruct H as [_ H]. destruct H. rewrite E. apply in_elt.
    + destruct H as [_ H]. destruct H. rewrite E. apply in_elt.
Qed.

Lemma text_seen_by_kind t rvalue a memory :
  text_seen t rvalue a memory = if in_memory a then up_to_nul memory else Returned memory.
Proof.
  unfold text_seen, overload_of. destruct a; cbn [is_char_range negb in_memory]; try reflexivity.
  - destruct (_ && _)%bool; reflexivity.
  - destruct (_ && _)%bool; reflexivity.
Qed.

(** Exactly what is seen. *)
Theorem seen_exactly t rvalue a memory :
  (in_memory a = false -> text_seen t rvalue a memory = Returned memory)
  /\ (in_memory a = true ->
       (forall text, text_seen t rvalue a memory = Returned text <->
          ~ In nul text /\ exists rest, memory = text ++ nul :: rest)
       /\ (text_seen t rvalue a memory = UndefinedBehaviour <-> ~ In nul memory)).
Proof.
  rewrite text_seen_by_kind. destruct (in_memory a); (split; [try easy|try easy]).
  intros _. split; [intros text; apply up_to_nul_returns|].
  pose proof (up_to_nul_spec memory) as H.
  destruct (up_to_nul memory) as [t'| | |]; (split; [intros E|intros N]); try discriminate.
  - destruct H as (_ & rest & ->). destruct N. apply in_elt.
  - apply H.
  - reflexivity.
  - discriminate (proj1 H).
  - discriminate (proj1 H).
Qed.

Theorem seen_held t rvalue a memory text : holds a memory text ->
  (a = A_literal -> ~ In nul text) -> text_seen t rvalue a memory = Returned text.
Proof.
  intros H N. rewrite text_seen_by_kind. destruct a; cbn [in_memory holds] in *.
  - apply up_to_nul_returns. split; [now apply N|now exists []].
  - apply up_to_nul_returns. exact H.
  - now subst.
  - now subst.
Qed.
