(** What possessive loops mean for every lower bound (C11): proofs. *)
From Verif Require Import Matcher Api Basics Spec Matching Equiv Explore Calls Exchange Exchanged Commits.
From Verif Require Lift Gaps Rewrites.

(** The parts of a concatenation at this place of the pattern are read from the last to the
    first: it is in the bodies of an odd number of lookbehinds. *)
Fixpoint read_backwards (C : ctx) (back : bool) : bool :=
  match C with
  | Hole => back
  | CSeq _ C _ | CAlt _ C _ | CCap _ _ C | CRep _ _ _ C => read_backwards C back
  | CLook d C | CNegLook d C =>
      read_backwards C (xorb back (match d with Ahead => false | Behind => true end))
  end.

Section Contexts.
  Variable cf : config.
  Variables x y : node.
  Hypothesis Hx : is_class x = false.
  Hypothesis Hy : is_class y = false.

  Lemma plug_keeps_at C : forall b, keeps cf (read_backwards C b) x y -> keeps cf b (plug C x) (plug C y).
  Proof.
    induction C as [|l1 C IH l2|l1 C IH l2|id nm C IH|md lo hi C IH|d C IH|d C IH]; intros b; cbn [plug read_backwards]; intros H;
      auto using kp_seq, kp_cap, kp_rep, kp_look.
    - destruct (plug_class cf x y) with (C := C) as [IC IA]; [congruence|congruence|].
      destruct (is_class (plug C x)) eqn:K.
      + apply kp_alt_chars; auto.
      + apply kp_alt; auto.
    - apply kp_neg; auto using kp_look.
  Qed.
End Contexts.

Section Results.
  Variables (C : ctx) (lo : N) (hi : quantifier) (x : node) (fl : list regex_flag) (ct : category) (s : list ascii).
  Hypothesis Hu : ~ In F_ungreedy fl.

  Theorem possessive_in_two :
    names_in x = [] -> is_class (Rep Possessive lo hi x) = false ->
    let first := atomic (Rep Greedy lo (Fin lo) x) in
    let rest := atomic (Rep Greedy 0 (remaining hi lo) (atomic x)) in
    let r1 := mk_regex (plug C (Rep Possessive lo hi x)) fl in
    let r2 := mk_regex (plug C (if read_backwards C false then Seq [rest; first] else Seq [first; rest])) fl in
    usable r1 ct -> usable r2 ct -> same_results ct s r1 r2.
  Proof.
    intros Hn Hc first rest r1 r2 U1 U2. apply kept_results; auto.
    - apply plug_keeps_at; [exact Hc|now destruct (read_backwards C false)|].
      set (b := read_backwards C false). eapply kp_trans; [apply kp_split|].
      change (if b then Seq [rest; first] else Seq [first; rest]) with (Rewrites.then_ b first rest).
      unfold Exchange.then_, Rewrites.then_.
      assert (K1 : keeps (config_of fl ct) b (Rep Possessive lo (Fin lo) x) first).
      { apply kp_commit; [discriminate|now apply greedy_late|left; discriminate]. }
      assert (K2 : keeps (config_of fl ct) b (Rep Possessive 0 (remaining hi lo) x) rest).
      { eapply kp_trans; [now apply kp_commit_body|].
        apply kp_commit; [discriminate|now apply greedy_late|]. right. right. unfold atomic. cbn [plain]. apply orb_true_r. }
      destruct b.
      + eapply kp_trans; [exact (kp_seq _ true [] _ _ [_] K2)|exact (kp_seq _ true [rest] _ _ [] K1)].
      + eapply kp_trans; [exact (kp_seq _ false [] _ _ [_] K1)|exact (kp_seq _ false [first] _ _ [] K2)].
    - unfold all_names. f_equal. apply plug_names. destruct (read_backwards C false); cbn; rewrite Hn; reflexivity.
  Qed.
End Results.

Lemma loop_no_class lo hi x : hi <> Fin lo -> is_class (Rep Possessive lo hi x) = false.
Proof.
  intros H. destruct hi as [h|]; [|reflexivity]. cbn [is_class].
  destruct (N.eqb_spec lo 1) as [->|]; [|reflexivity]. destruct (N.eqb_spec h 1) as [->|]; [now destruct H|reflexivity].
Qed.
