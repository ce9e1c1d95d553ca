(** Basic facts about trees, texts and the static functions. *)
From Verif Require Import Matcher.
From Coq Require Export Wf_nat.

(** ** Induction over trees *)

Section NodeInd.
  Variable P : node -> Prop.
  Hypothesis HEmpty : P Empty.
  Hypothesis HBeginLine : P BeginLine.
  Hypothesis HBeginInput : P BeginInput.
  Hypothesis HEndLine : P EndLine.
  Hypothesis HEndInput : P EndInput.
  Hypothesis HWordB : P WordB.
  Hypothesis HWild : P Wild.
  Hypothesis HLit : forall c, P (Lit c).
  Hypothesis HRange : forall a b, P (Range a b).
  Hypothesis HCSet : forall l, Forall P l -> P (CSet l).
  Hypothesis HNeg : forall x, P x -> P (Neg x).
  Hypothesis HSeq : forall l, Forall P l -> P (Seq l).
  Hypothesis HAlt : forall l, Forall P l -> P (Alt l).
  Hypothesis HCap : forall id nm x, P x -> P (Cap id nm x).
  Hypothesis HRep : forall md lo hi x, P x -> P (Rep md lo hi x).
  Hypothesis HBackref : forall id, P (Backref id).
  Hypothesis HNBackref : forall nm, P (NBackref nm).
  Hypothesis HLook : forall d x, P x -> P (Look d x).

  Fixpoint node_ind' (n : node) : P n :=
    let lst := fix lst (l : list node) : Forall P l :=
      match l with
      | [] => Forall_nil P
      | x :: r => Forall_cons x (node_ind' x) (lst r)
      end in
    match n with
    | Empty => HEmpty
    | BeginLine => HBeginLine
    | BeginInput => HBeginInput
    | EndLine => HEndLine
    | EndInput => HEndInput
    | WordB => HWordB
    | Wild => HWild
    | Lit c => HLit c
    | Range a b => HRange a b
    | CSet l => HCSet l (lst l)
    | Neg x => HNeg x (node_ind' x)
    | Seq l => HSeq l (lst l)
    | Alt l => HAlt l (lst l)
    | Cap i nm x => HCap i nm x (node_ind' x)
    | Rep md lo hi x => HRep md lo hi x (node_ind' x)
    | Backref i => HBackref i
    | NBackref nm => HNBackref nm
    | Look d x => HLook d x (node_ind' x)
    end.
End NodeInd.

(** ** Lists *)

Lemma map_ext_Forall {A B} (f g : A -> B) l :
  Forall (fun x => f x = g x) l -> map f l = map g l.
Proof. induction 1; cbn; congruence. Qed.

Lemma forallb_map {A B} (f : A -> B) (p : B -> bool) l :
  forallb p (map f l) = forallb (fun x => p (f x)) l.
Proof. induction l; cbn; congruence. Qed.

Lemma existsb_map {A B} (f : A -> B) (p : B -> bool) l :
  existsb p (map f l) = existsb (fun x => p (f x)) l.
Proof. induction l; cbn; congruence. Qed.

Lemma forallb_ext_Forall {A} (p q : A -> bool) l :
  Forall (fun x => p x = q x) l -> forallb p l = forallb q l.
Proof. induction 1; cbn; congruence. Qed.

Lemma existsb_ext_Forall {A} (p q : A -> bool) l :
  Forall (fun x => p x = q x) l -> existsb p l = existsb q l.
Proof. induction 1; cbn; congruence. Qed.

Lemma forallb_rev {A} (p : A -> bool) l : forallb p (rev l) = forallb p l.
Proof.
  induction l; cbn; [reflexivity|].
  rewrite forallb_app, IHl; cbn. rewrite andb_true_r, andb_comm. reflexivity.
Qed.

Lemma existsb_rev {A} (p : A -> bool) l : existsb p (rev l) = existsb p l.
Proof.
  induction l; cbn; [reflexivity|].
  rewrite existsb_app, IHl; cbn. rewrite orb_false_r, orb_comm. reflexivity.
Qed.

Lemma list_sum_rev l : list_sum (rev l) = list_sum l.
Proof.
  induction l as [|a l IHl]; [reflexivity|].
  cbn [rev]. rewrite list_sum_app, IHl. unfold list_sum. cbn [fold_right]. lia.
Qed.

Lemma forallb_forall' {A} (p : A -> bool) l :
  forallb p l = true -> Forall (fun x => p x = true) l.
Proof. rewrite forallb_forall, Forall_forall. auto. Qed.

Lemma rev_nil_iff {A} (l : list A) : rev l = [] <-> l = [].
Proof.
  split; intros H; [|now subst].
  apply (f_equal (@length A)) in H. rewrite rev_length in H. destruct l; cbn in H; auto; lia.
Qed.

Lemma rev_singleton {A} (l : list A) x : rev l = [x] <-> l = [x].
Proof.
  split; intros H; [|now subst].
  rewrite <- (rev_involutive l), H. reflexivity.
Qed.

Lemma nth_error_rev {A} (l : list A) i :
  i < length l -> nth_error (rev l) i = nth_error l (length l - 1 - i).
Proof.
  intros Hi.
  destruct (nth_error l (length l - 1 - i)) as [a|] eqn:E.
  - pose proof E as E'. apply nth_error_nth with (d := a) in E'.
    rewrite (nth_error_nth' (rev l) a) by (rewrite rev_length; lia).
    rewrite rev_nth by lia.
    replace (length l - S i) with (length l - 1 - i) by lia. now rewrite E'.
  - apply nth_error_None in E. lia.
Qed.

(** ** [reverse_pack] is list reversal *)

Lemma reverse_pack_rev {A} (l : list A) : reverse_pack l = rev l.
Proof.
  remember (length l) as n eqn:Hn. revert l Hn.
  induction n as [n IH] using lt_wf_ind; intros l Hn.
  destruct l as [|a [|b [|c [|d r]]]]; cbn; try reflexivity.
  rewrite (IH (length r)); cbn in *; try lia; try reflexivity.
  now rewrite <- !app_assoc.
Qed.

(** ** Sizes *)

Lemma size_Seq l : size (Seq l) = S (list_sum (map size l)).
Proof.
  cbn [size]. f_equal. induction l as [|x r IH]; [reflexivity|]. cbn [map].
  change (list_sum (size x :: map size r)) with (size x + list_sum (map size r)).
  now rewrite <- IH.
Qed.
Lemma size_Alt l : size (Alt l) = S (list_sum (map size l)).
Proof.
  cbn [size]. f_equal. induction l as [|x r IH]; [reflexivity|]. cbn [map].
  change (list_sum (size x :: map size r)) with (size x + list_sum (map size r)).
  now rewrite <- IH.
Qed.
Lemma size_CSet l : size (CSet l) = S (list_sum (map size l)).
Proof.
  cbn [size]. f_equal. induction l as [|x r IH]; [reflexivity|]. cbn [map].
  change (list_sum (size x :: map size r)) with (size x + list_sum (map size r)).
  now rewrite <- IH.
Qed.

Lemma size_pos n : 0 < size n.
Proof. destruct n; cbn; lia. Qed.

Lemma list_sum_in l x : In x l -> x <= list_sum l.
Proof.
  induction l as [|a l IHl]; intros H; [easy|].
  change (list_sum (a :: l)) with (a + list_sum l).
  destruct H as [->|H]; [lia|]. apply IHl in H. lia.
Qed.

Lemma size_in_sum l x : In x l -> size x <= list_sum (map size l).
Proof. intros H. apply list_sum_in. now apply in_map. Qed.

Lemma list_sum_le_Forall l f :
  list_sum (map size l) <= f -> Forall (fun x => size x <= f) l.
Proof.
  intros H. apply Forall_forall. intros x Hx. apply size_in_sum in Hx. lia.
Qed.

(** ** Inversion preserves the static functions *)

Lemma size_invert n : size (invert n) = size n.
Proof.
  induction n using node_ind'; cbn [invert]; try reflexivity;
    try (cbn [size]; now rewrite IHn).
  - rewrite !size_CSet, map_map. now rewrite (map_ext_Forall _ size).
  - rewrite reverse_pack_rev, !size_Seq, map_rev, list_sum_rev, map_map.
    now rewrite (map_ext_Forall _ size).
  - rewrite !size_Alt, map_map. now rewrite (map_ext_Forall _ size).
Qed.

Lemma invert_Seq l : invert (Seq l) = Seq (rev (map invert l)).
Proof. cbn [invert]. now rewrite reverse_pack_rev. Qed.

Lemma trivial_Seq l : trivial (Seq l) = match l with [x] => trivial x | _ => false end.
Proof. reflexivity. Qed.
Lemma trivial_Alt l :
  trivial (Alt l) = match l with [] => false | _ => forallb trivial l end.
Proof. destruct l; reflexivity. Qed.
Lemma trivial_Rep md lo hi x :
  trivial (Rep md lo hi x)
  = (N.eqb lo 1 && match hi with Fin h => N.eqb h 1 | Inf => false end && trivial x)%bool.
Proof.
  cbn. destruct lo as [|[p|p|]]; cbn; try reflexivity.
  destruct hi as [[|[p|p|]]|]; cbn; reflexivity.
Qed.

Lemma rev_map_singleton {A B} (f : A -> B) l :
  match rev (map f l) with [x] => true | _ => false end
  = match l with [x] => true | _ => false end.
Proof.
  destruct l as [|a [|b r]]; cbn; try reflexivity.
  destruct (rev (map f r)) as [|y [|z t]]; reflexivity.
Qed.

Lemma trivial_invert n : trivial (invert n) = trivial n.
Proof.
  induction n using node_ind'; try reflexivity.
  - cbn [invert trivial]. assumption.
  - rewrite invert_Seq, !trivial_Seq.
    destruct l as [|a [|b r]]; cbn.
    + reflexivity.
    + now inversion H.
    + destruct (rev (map invert r)) as [|y [|z t]]; reflexivity.
  - cbn [invert]. rewrite !trivial_Alt. destruct l; [reflexivity|].
    change (map invert (n :: l)) with (invert n :: map invert l).
    change (invert n :: map invert l) with (map invert (n :: l)).
    destruct (map invert (n :: l)) eqn:E; [discriminate|]. rewrite <- E.
    rewrite forallb_map. now apply forallb_ext_Forall.
  - cbn [invert]. rewrite !trivial_Rep. now rewrite IHn.
Qed.

Lemma zlm_invert n : zlm (invert n) = zlm n.
Proof.
  induction n using node_ind'; try reflexivity.
  - cbn [invert zlm]. now rewrite trivial_invert.
  - rewrite invert_Seq. cbn [zlm]. rewrite forallb_rev, forallb_map.
    now apply forallb_ext_Forall.
  - cbn [invert zlm]. rewrite existsb_map. now apply existsb_ext_Forall.
  - cbn [invert zlm]. assumption.
  - cbn [invert zlm]. now rewrite IHn.
Qed.

Lemma is_assertion_Rep md lo hi x :
  is_assertion (Rep md lo hi x)
  = (match md with Possessive => false | _ => true end
     && N.eqb lo 1 && match hi with Fin h => N.eqb h 1 | Inf => false end
     && is_assertion x)%bool.
Proof.
  cbn. destruct md; cbn; try reflexivity;
  (destruct lo as [|[p|p|]]; cbn; try reflexivity;
   destruct hi as [[|[p|p|]]|]; cbn; reflexivity).
Qed.

Lemma is_assertion_invert n : is_assertion (invert n) = is_assertion n.
Proof.
  induction n using node_ind'; try reflexivity.
  - cbn [invert is_assertion]. assumption.
  - rewrite invert_Seq. destruct l as [|a [|b r]].
    + reflexivity.
    + cbn. now inversion H.
    + cbn. destruct (rev (map invert r)) as [|y [|z t]]; reflexivity.
  - destruct l as [|a [|b r]]; try reflexivity. cbn. now inversion H.
  - cbn [invert]. rewrite !is_assertion_Rep. now rewrite IHn.
Qed.

Lemma match_one_invert cf n a : match_one cf (invert n) a = match_one cf n a.
Proof.
  induction n using node_ind'; try reflexivity.
  - cbn [invert match_one]. rewrite existsb_map. now apply existsb_ext_Forall.
  - cbn [invert match_one]. now rewrite IHn.
  - rewrite invert_Seq. destruct l as [|x [|y r]].
    + reflexivity.
    + cbn. now inversion H.
    + cbn. destruct (rev (map invert r)) as [|z [|z' t]]; reflexivity.
  - cbn [invert match_one]. rewrite existsb_map. now apply existsb_ext_Forall.
  - cbn [invert match_one]. assumption.
Qed.

(** A trivially matchable node is neither a zero-length matcher nor an
    assertion. *)
Lemma zlm_trivial n : trivial n = true -> zlm n = false.
Proof.
  induction n using node_ind'; cbn; try discriminate; try reflexivity.
  - intros ->. reflexivity.
  - destruct l as [|x [|y r]]; try discriminate. intros Hx. cbn.
    inversion H; subst. rewrite H2; auto.
  - destruct l as [|x r]; try discriminate. intros Hx.
    apply andb_true_iff in Hx as [Hx Hr]. inversion H; subst. cbn.
    rewrite H2 by assumption. cbn. clear -H3 Hr.
    induction r; cbn in *; [reflexivity|]. inversion H3; subst.
    apply andb_true_iff in Hr as [? ?]. rewrite H1, IHr; auto.
  - destruct lo as [|[p|p|]]; try discriminate.
    destruct hi as [[|[p|p|]]|]; try discriminate. assumption.
Qed.

Lemma is_assertion_zlm n : is_assertion n = true -> zlm n = true.
Proof.
  induction n using node_ind'; cbn; try discriminate; try reflexivity.
  - intros Hx. apply IHn in Hx. destruct (trivial n) eqn:T; [|reflexivity].
    apply zlm_trivial in T. congruence.
  - destruct l as [|x [|y r]]; try discriminate. intros Hx. cbn.
    inversion H; subst. now rewrite H2.
  - destruct l as [|x [|y r]]; try discriminate. intros Hx. cbn.
    inversion H; subst. now rewrite H2.
  - intros Hx. rewrite IHn; [apply orb_true_r|].
    destruct md, lo as [|[p|p|]], hi as [[|[q|q|]]|]; try discriminate; assumption.
Qed.

Lemma is_assertion_not_trivial n : is_assertion n = true -> trivial n = false.
Proof.
  intros H. apply is_assertion_zlm in H. destruct (trivial n) eqn:T; [|reflexivity].
  apply zlm_trivial in T. congruence.
Qed.

(** ** Texts *)

Lemma view_length base rd : length (view base rd) = length base.
Proof. unfold view. destruct (Nat.even rd); [reflexivity|apply rev_length]. Qed.

Lemma view_S base rd : view base (S rd) = rev (view base rd).
Proof.
  unfold view. rewrite Nat.even_succ, <- Nat.negb_even.
  destruct (Nat.even rd); cbn; [reflexivity|symmetry; apply rev_involutive].
Qed.

Lemma view_0 base : view base 0 = base.
Proof. reflexivity. Qed.

Lemma deref_in s i f : i < length s -> exists a, nth_error s i = Some a /\ deref s i f = f a.
Proof.
  intros H. unfold deref. destruct (nth_error s i) eqn:E; [eauto|].
  apply nth_error_None in E. lia.
Qed.

(** ** Cells *)

Lemma set_cell_length i v c c' : set_cell i v c = Some c' -> length c' = length c.
Proof.
  revert i c'. induction c as [|x r IH]; intros [|i] c'; cbn; try discriminate.
  - intros E; inversion E. reflexivity.
  - destruct (set_cell i v r) eqn:E; cbn; [|discriminate].
    intros E'; inversion E'. cbn. f_equal. eauto.
Qed.

Lemma set_cell_some i v c : i < length c -> exists c', set_cell i v c = Some c'.
Proof.
  revert i. induction c as [|x r IH]; intros [|i]; cbn; try lia; eauto.
  intros H. destruct (IH i) as [c' ->]; [lia|]. cbn. eauto.
Qed.

Lemma set_cell_nth i v c c' j :
  set_cell i v c = Some c' ->
  nth_error c' j = if Nat.eqb j i then Some v else nth_error c j.
Proof.
  revert i c' j. induction c as [|x r IH]; intros [|i] c' j; cbn; try discriminate.
  - intros E; inversion E; subst. destruct j; reflexivity.
  - destruct (set_cell i v r) eqn:E; cbn; [|discriminate].
    intros E'; inversion E'; subst. destruct j; cbn; [reflexivity|]. eauto.
Qed.

Lemma clear_cell_length i c c' : clear_cell i c = Some c' -> length c' = length c.
Proof.
  unfold clear_cell. destruct (nth_error c i); [|discriminate]. apply set_cell_length.
Qed.

Lemma clear_cell_some i c : i < length c -> exists c', clear_cell i c = Some c'.
Proof.
  intros H. unfold clear_cell. destruct (nth_error c i) eqn:E.
  - now apply set_cell_some.
  - apply nth_error_None in E. lia.
Qed.

(** ** Characters *)

Lemma chars_eqb_refl a : chars_eqb a a = true.
Proof. induction a; cbn; [reflexivity|]. now rewrite Ascii.eqb_refl. Qed.
Lemma chars_eqb_eq a b : chars_eqb a b = true <-> a = b.
Proof.
  split; [|intros ->; apply chars_eqb_refl].
  revert b. induction a; intros [|y b]; cbn; try discriminate; [reflexivity|].
  rewrite andb_true_iff. intros [E1 E2]. apply Ascii.eqb_eq in E1. f_equal; auto.
Qed.
Lemma name_eqb_eq a b : name_eqb a b = true <-> a = b.
Proof.
  destruct a, b; cbn; try (split; congruence).
  rewrite chars_eqb_eq. split; congruence.
Qed.

(** ** Unfolding of sequences and alternations *)

Lemma seq_match_cons cf s mm x r cur c k : r <> [] ->
  seq_match cf s mm (x :: r) cur c k
  = if forallb trivial (x :: r) then
      if distance_less_than cf (N.of_nat (length (x :: r))) (length s) cur
      then non_match cur c
      else if is_random cf
      then trivial_block_random s (map (match_one cf) (x :: r)) cur c k
      else sequence_block_forward s (map (match_one cf) (x :: r)) cur c k
    else mm x cur c (fun next c' => seq_match cf s mm r next c' k).
Proof. intros H. destruct r; [easy|reflexivity]. Qed.

Lemma alt_match_cons cf s mm x r cur c k : r <> [] ->
  alt_match cf s mm (x :: r) cur c k
  = if forallb trivial (x :: r)
    then match_trivial s (fun a => existsb (fun y => match_one cf y a) (x :: r)) cur c k
    else or_else (mm x cur c k) (fun c' => alt_match cf s mm r cur c' k).
Proof. intros H. destruct r; [easy|reflexivity]. Qed.
