(** Nothing is saved by making an expression atomic or by only looking ahead: proofs (C61, C62). *)
From Verif Require Import Costs Costing Basics.
From Coq Require Import Lia.
Local Open Scope nat_scope.

Lemma steps_kept o f g : steps o <= steps (c_on_result o f g) /\ depth o <= depth (c_on_result o f g).
Proof. unfold c_on_result. destruct (out o) as [c e []| | |]; unfold after; cbn [steps depth]; lia. Qed.

Lemma steps_of_prefix cf n s cur c :
  steps (c_match_prefix_method cf n s cur c) = steps (c_node_match cf (group_names n) s 0 n cur c c_success)
  /\ depth (c_match_prefix_method cf n s cur c) = depth (c_node_match cf (group_names n) s 0 n cur c c_success).
Proof. unfold c_match_prefix_method. destruct (out _); split; reflexivity. Qed.

Theorem atomic_costs cf x s cur c :
  steps (c_match_prefix_method cf x s cur c)
    <= steps (c_match_prefix_method cf (Rep Possessive 1 (Fin 1) x) s cur c)
  /\ depth (c_match_prefix_method cf x s cur c)
    <= depth (c_match_prefix_method cf (Rep Possessive 1 (Fin 1) x) s cur c)
  /\ (trivial x = false ->
      steps (c_match_prefix_method cf x s cur c) < steps (c_match_prefix_method cf (Look Ahead x) s cur c)
      /\ depth (c_match_prefix_method cf x s cur c) < depth (c_match_prefix_method cf (Look Ahead x) s cur c)).
Proof.
  rewrite !(proj1 (steps_of_prefix _ _ _ _ _)), !(proj2 (steps_of_prefix _ _ _ _ _)).
  change (group_names (Rep Possessive 1 (Fin 1) x)) with (group_names x).
  change (group_names (Look Ahead x)) with (group_names x).
  unfold c_node_match. cbn [size c_m]. unfold c_rep_match, c_fixed_match. cbn [N.eqb Pos.eqb].
  destruct (trivial x); [split; [apply le_n|split; [apply le_n|discriminate]]|].
  pose proof (steps_kept (c_m cf (group_names x) s (size x) 0 x cur c c_success)) as H.
  cbn [called steps depth]. split; [|split; [|intros _; split]];
    match goal with |- context [c_on_result _ ?f ?g] => specialize (H f g) end; lia.
Qed.
