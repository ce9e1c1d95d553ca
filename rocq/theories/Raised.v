(** Facts about the model of exceptions. *)
From Verif Require Import Exceptions.
From Coq Require Import Lia.

Lemma each_done {A B} (f : A -> effect B) (g : A -> B) l :
  (forall a, In a l -> f a = Done (g a)) -> each f l = Done (map g l).
Proof.
  induction l as [|a l IH]; intros H; cbn; [reflexivity|].
  rewrite (H a) by now left. cbn. rewrite IH by (intros; apply H; now right). reflexivity.
Qed.

(** A list of copies fails exactly if one of them does. *)
Lemma each_copies fails texts :
  each (copy_text fails) texts = if existsb fails texts then Throws else Done texts.
Proof.
  induction texts as [|t l IH]; cbn; [reflexivity|]. unfold copy_text at 1.
  destruct (fails t); cbn; [reflexivity|]. rewrite IH. now destruct (existsb fails l).
Qed.

Lemma each_owned fails s l :
  each (own_group fails s) l
  = if existsb (fun v => fails (cell_content s v)) l then Terminates else Done (map (cell_content s) l).
Proof.
  induction l as [|v l IH]; [reflexivity|]. cbn [each existsb map].
  assert (E : own_group fails s v = if fails (cell_content s v) then Terminates else Done (cell_content s v)).
  { unfold own_group, copy_text. now destruct (fails _). }
  rewrite E. destruct (fails (cell_content s v)); [reflexivity|]. cbn [and_then orb]. rewrite IH.
  now destruct (existsb _ l).
Qed.

Lemma memory_owner_exact fails s r :
  as_memory_owner_call fails s r
  = if existsb (fun v => fails (cell_content s v)) (groups r) then Terminates
    else Done (as_memory_owner s r).
Proof. unfold as_memory_owner_call, declared. rewrite each_owned. now destruct (existsb _ _). Qed.

Lemma owned_optional_exact fails q r :
  owned_as_optional fails q r
  = if owned_matched r then
      match q with
      | Expiring => Done (Some r)
      | ConstExpiring => if existsb fails (owned_groups r) then Terminates else Done (Some r)
      | _ => if existsb fails (owned_groups r) then Throws else Done (Some r)
      end
    else Done None.
Proof.
  destruct r as [l b]. unfold owned_as_optional. cbn [owned_matched owned_groups].
  destruct b; [|now destruct q]. rewrite each_copies.
  destruct q; cbn; try reflexivity; now destruct (existsb fails l).
Qed.
