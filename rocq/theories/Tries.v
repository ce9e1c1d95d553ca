(** How many ends a search tries, and what that costs. *)
From Verif Require Import Costs Matcher Basics Safe Impl Spec Paths Mirror Adequacy Calls Lift Matching Api
  Results Walk Exact Relate Tracks Tracking Explore Explored Follows Searches Costing Paying PayingParts PayingNodes.

(** ** Counting *)

(** The ends of a search (Explore.v) that are tried: up to and including the first
    from which [rest] succeeds; every end is tried with the groups that the attempt
    before has left. *)
Fixpoint ends_tried (rest : nat -> caps -> option nat * caps) (t : search) : nat :=
  match t with
  | Stop _ => 0
  | Found i g more =>
      S (match rest i g with
         | (Some _, _) => 0
         | (None, g') => ends_tried rest (more g')
         end)
  end.

Section Counting.
  Variable cf : config.
  Variable names : list group_name.
  Variable s : list ascii.
  Local Notation from := (explore cf names s 0 false).

  (** The parts of a concatenation one after the other. *)
  Fixpoint in_order (l : list node) (i : nat) (g : caps) : search :=
    match l with
    | [] => one i g
    | x :: r => followed_by (from x i g) (in_order r)
    end.

  (** In a concatenation of the parts [l1] and the parts [l2]: the ends of [l1] that
      [l2] is tried with, up to the first one that leads to an end with [p]. *)
  Definition tried_at (p : nat -> bool) (l1 l2 : list node) (i : nat) (g : caps) : nat :=
    ends_tried (fun j g' => first_end p (in_order l2 j g')) (in_order l1 i g).

  (** At [count] consecutive offsets from [i] (see [first_match]). *)
  Fixpoint tried_from (l1 l2 : list node) (count : nat) (i : nat) (g : caps) : nat :=
    tried_at (fun _ => true) l1 l2 i g
    + match first_end (fun _ => true) (in_order (l1 ++ l2) i g) with
      | (Some _, _) => 0
      | (None, g') => match count with 0 => 0 | S count' => tried_from l1 l2 count' (S i) g' end
      end.

  (** At least [m] ends with a property, whatever the groups hold in between. *)
  Fixpoint finds (P : nat -> bool) (m : nat) (t : search) : Prop :=
    match t with
    | Stop _ => m = 0
    | Found i _ more => forall g, finds P (if P i then Nat.pred m else m) (more g)
    end.

  (** Within the first [top] characters: wherever at least [d] of them are left,
      there are two different ways to match one to [d] of them. *)
  Definition ambiguous (top d : nat) (x : node) : Prop :=
    forall i g, i + d <= top ->
    finds (fun j => Nat.ltb i j && Nat.leb j (i + d)) 2 (from x i g).
End Counting.

(** ** Ends that are found in spite of the groups *)

Lemma finds_0 P t : finds P 0 t.
Proof. induction t as [g|i g more IH]; cbn; [reflexivity|]. intros g'. now destruct (P i); apply IH. Qed.

Lemma finds_le P m : forall t m', m' <= m -> finds P m t -> finds P m' t.
Proof.
  intros t. revert m. induction t as [g|i g more IH]; intros m m' Hle H; cbn in *; [lia|].
  intros g'. specialize (H g'). destruct (P i); (eapply IH; [|exact H]); lia.
Qed.

Lemma finds_imp (P Q : nat -> bool) : (forall j, P j = true -> Q j = true) ->
  forall t m, finds P m t -> finds Q m t.
Proof.
  intros HPQ. induction t as [g|i g more IH]; intros m H; cbn in *; [exact H|].
  intros g'. specialize (H g'). destruct (P i) eqn:E.
  - rewrite (HPQ i E). auto.
  - destruct (Q i); [|auto]. apply IH. eapply finds_le; [|exact H]. lia.
Qed.

Lemma finds_otherwise P h m2 : (forall g, finds P m2 (h g)) -> forall t m1, finds P m1 t ->
  finds P (m1 + m2) (otherwise t h).
Proof.
  intros Hh. induction t as [g|i g more IH]; intros m1 H; cbn in *; [subst; apply Hh|].
  intros g'. specialize (IH g' _ (H g')). destruct (P i); [|exact IH].
  destruct m1; cbn in *; [|exact IH]. eapply finds_le; [|exact IH]. lia.
Qed.

Lemma finds_followed P Q f m : (forall i g, P i = true -> finds Q m (f i g)) ->
  forall t q, finds P q t -> finds Q (q * m) (followed_by t f).
Proof.
  intros Hf. induction t as [g|i g more IH]; intros q H; cbn in *; [subst; reflexivity|].
  destruct (P i) eqn:E.
  - destruct q as [|q]; [apply finds_0|]. cbn [Nat.mul]. apply finds_otherwise; [|auto].
    intros g'. exact (IH g' q (H g')).
  - change (q * m) with (0 + q * m). apply finds_otherwise; [|apply finds_0]. intros g'. auto.
Qed.

Lemma finds_here (P : nat -> bool) i g more : P i = true -> finds P 1 (Found i g more).
Proof. intros H. cbn. rewrite H. intros g'. apply finds_0. Qed.

Section Ambiguous.
  Variable s : list ascii.
  Variable f : nat -> caps -> search.
  Variables top d : nat.
  Hypothesis Htop : top <= length s.
  Hypothesis Hd : 0 < d.
  Hypothesis Hf : forall i g, i + d <= top ->
    finds (fun j => Nat.ltb i j && Nat.leb j (i + d)) 2 (f i g).

  Definition all_ends (_ : nat) : bool := true.

  Lemma more_finds : forall q fuel i g, i + q * d <= top -> length s - i < fuel ->
    finds all_ends (2 ^ q) (trying_more f fuel Inf i g).
  Proof.
    induction q as [|q IH]; intros [|fuel] i g Hi Hfu; try lia; cbn [trying_more none_left one_less].
    - change (2 ^ 0) with (0 + 1). apply finds_otherwise; [|apply finds_0]. intros g'. now apply finds_here.
    - rewrite Nat.pow_succ_r', <- (Nat.add_0_r (2 * 2 ^ q)).
      apply finds_otherwise; [intros; apply finds_0|].
      eapply finds_followed; [|apply Hf; cbn in Hi; lia].
      intros j g' Hj. apply andb_true_iff in Hj as [H1 H2]. apply Nat.ltb_lt in H1. apply Nat.leb_le in H2.
      cbn [idle]. destruct (Nat.eqb_spec i j); [lia|]. cbn in Hi. apply IH; lia.
  Qed.

  Lemma fewer_finds : forall q fuel i g, i + q * d <= top -> length s - i < fuel ->
    finds all_ends (2 ^ q) (trying_fewer f fuel Inf i g).
  Proof.
    induction q as [|q IH]; intros [|fuel] i g Hi Hfu; try lia; cbn [trying_fewer none_left one_less].
    - now apply finds_here.
    - cbn [finds all_ends]. intros g0. apply (finds_le _ (2 ^ S q)); [lia|].
      rewrite Nat.pow_succ_r'. eapply finds_followed; [|apply Hf; cbn in Hi; lia].
      intros j g' Hj. apply andb_true_iff in Hj as [H1 H2]. apply Nat.ltb_lt in H1. apply Nat.leb_le in H2.
      cbn [idle]. destruct (Nat.eqb_spec i j); [lia|]. cbn in Hi. apply IH; lia.
  Qed.

  Lemma exactly_finds : forall n i g, i + n * d <= top ->
    finds (fun j => Nat.leb j (i + n * d)) 1 (exactly f n i g).
  Proof.
    induction n as [|n IH]; intros i g Hi; cbn [exactly].
    - apply finds_here. apply Nat.leb_le. lia.
    - apply (finds_le _ (2 * 1)); [lia|]. cbn in Hi.
      eapply finds_followed; [|apply Hf; lia].
      intros j g' Hj. apply andb_true_iff in Hj as [H1 H2]. apply Nat.ltb_lt in H1. apply Nat.leb_le in H2.
      eapply finds_imp; [|apply IH; lia]. intros k Hk. apply Nat.leb_le in Hk. apply Nat.leb_le. cbn. lia.
  Qed.
End Ambiguous.

(** ** When a search fails, all its ends are tried *)

Lemma first_end_otherwise p t h : first_end p (otherwise t h)
  = match first_end p t with (Some e, g) => (Some e, g) | (None, g) => first_end p (h g) end.
Proof.
  induction t as [g|i g more IH]; cbn [otherwise first_end]; [reflexivity|].
  destruct (p i); [reflexivity|]. apply IH.
Qed.

Fixpoint first_rest (rest : nat -> caps -> option nat * caps) (t : search) : option nat * caps :=
  match t with
  | Stop g => (None, g)
  | Found i g more => match rest i g with (Some e, g') => (Some e, g') | (None, g') => first_rest rest (more g') end
  end.

Lemma first_end_followed p f t : first_end p (followed_by t f) = first_rest (fun i g => first_end p (f i g)) t.
Proof.
  induction t as [g|i g more IH]; cbn [followed_by first_end first_rest]; [reflexivity|].
  rewrite first_end_otherwise. destruct (first_end p (f i g)) as [[e|] g']; [reflexivity|]. apply IH.
Qed.

Lemma first_rest_otherwise rest t h : first_rest rest (otherwise t h)
  = match first_rest rest t with (Some e, g) => (Some e, g) | (None, g) => first_rest rest (h g) end.
Proof.
  induction t as [g|i g more IH]; cbn [otherwise first_rest]; [reflexivity|].
  destruct (rest i g) as [[e|] g']; [reflexivity|]. apply IH.
Qed.

Lemma first_rest_followed rest f t :
  first_rest rest (followed_by t f) = first_rest (fun i g => first_rest rest (f i g)) t.
Proof.
  induction t as [g|i g more IH]; cbn [followed_by first_rest]; [reflexivity|].
  rewrite first_rest_otherwise. destruct (first_rest rest (f i g)) as [[e|] g']; [reflexivity|]. apply IH.
Qed.

Lemma first_rest_ext rest rest' t : (forall i g, rest i g = rest' i g) -> first_rest rest t = first_rest rest' t.
Proof.
  intros H. induction t as [g|i g more IH]; cbn [first_rest]; [reflexivity|].
  rewrite H. destruct (rest' i g) as [[e|] g']; [reflexivity|]. apply IH.
Qed.

Lemma tried_otherwise rest t h : ends_tried rest (otherwise t h)
  = ends_tried rest t + match first_rest rest t with (Some _, _) => 0 | (None, g) => ends_tried rest (h g) end.
Proof.
  induction t as [g|i g more IH]; cbn [otherwise first_rest ends_tried]; [reflexivity|].
  destruct (rest i g) as [[e|] g']; [reflexivity|]. rewrite IH. reflexivity.
Qed.

Lemma first_chain p l1 l2 : forall i g, first_end p (chain (l1 ++ l2) i g)
  = first_rest (fun j g' => first_end p (chain l2 j g')) (chain l1 i g).
Proof.
  induction l1 as [|x r IH]; intros i g; cbn [chain app].
  - unfold one. cbn [first_rest]. destruct (first_end p (chain l2 i g)) as [[e|] g']; reflexivity.
  - rewrite first_end_followed, first_rest_followed. apply first_rest_ext. intros. apply IH.
Qed.

Lemma all_tried rest P : forall t m, fst (first_rest rest t) = None -> finds P m t -> m <= ends_tried rest t.
Proof.
  induction t as [g|i g more IH]; intros m H Hm; cbn [first_rest ends_tried finds] in *; [lia|].
  destruct (rest i g) as [[e|] g'] eqn:E; [discriminate|].
  specialize (IH g' _ H (Hm g')). destruct (P i); lia.
Qed.

(** ** Every end costs a step *)

Section Costs.
  Variable cf : config.
  Variable n : node.
  Variable s : list ascii.
  Hypothesis Hruns : runs cf n.
  Local Notation names := (group_names n).
  Local Notation gd := (good names s).
  Local Notation E := (explore cf names s 0 false).

  Lemma in_order_chain l : in_order cf names s l = chain (map (E) l).
  Proof. induction l as [|x r IH]; [reflexivity|]. cbn [in_order map]. rewrite IH. reflexivity. Qed.

  (** All ends of the whole expression. *)
  Lemma whole_paid p (k : ccont) cur c : cur <= length s -> gd c -> polite names s cur (outs k) ->
    (forall j g, j <= length s -> out (k j g) = Res g j (p j)) ->
    ends_tried (fun j g => (if p j then Some j else None, g)) (E n cur c)
    <= steps (c_node_match cf names s 0 n cur c k).
  Proof.
    intros Hc Hg Hk Hp. destruct Hruns as [Hcm Hl].
    eapply Nat.le_trans; [|exact (all_pay cf names s (size n) 0 false n (le_n _) Hcm Hl cur c k Hc Hg Hk)].
    change (Nat.odd 0) with false. cbn [Exact.pos]. change (seen_as cf names s 0 false n) with (E n).
    assert (Ht : sound names s (beyond s false (may_be_empty n) cur) (E n cur c)) by exact (explore_finder cf names s n 0 false cur c Hc Hg).
    revert Ht. generalize (E n cur c). induction s0 as [g|i g more IH]; intros Ht; cbn [ends_tried weight]; [lia|].
    cbn [sound] in Ht. destruct Ht as ((H0 & _) & H2 & H3). cbn [Exact.pos]. rewrite (Hp i g H0).
    destruct (p i); [lia|]. specialize (IH g (H3 g H2)). lia.
  Qed.

  (** At most one end. *)
  Lemma classes_once rest : forall l i g, forallb trivial l = true -> ends_tried rest (chain (map E l) i g) <= 1.
  Proof.
    assert (H : forall l i g, forallb trivial l = true ->
      chain (map E l) i g = Stop g \/ exists j, chain (map E l) i g = one j g).
    { induction l as [|x r IH]; intros i g H; cbn [map chain]; [right; now exists i|].
      cbn [forallb] in H. apply andb_true_iff in H as [Hx Hr].
      pose proof (X_class cf names s 0 false x Hx i g) as R. change (seen_as cf names s 0 false x) with (E x) in R.
      rewrite R. unfold reads. destruct (read_char s (Nat.odd 0) (match_one cf x) i) as [|j ?]; [now left|].
      unfold one at 1 2. cbn [followed_by].
      destruct (IH j g Hr) as [->|[j' ->]]; [left; reflexivity|]. right. exists j'. reflexivity. }
    intros l i g Hl. destruct (H l i g Hl) as [->|[j ->]]; cbn [ends_tried]; [lia|]. unfold one. cbn [ends_tried].
    destruct (rest j g) as [[e|] g']; cbn [ends_tried]; lia.
  Qed.

  Section Parts.
    Variable f : nat.
    Variable p : nat -> bool.
    Variable l2 : list node.
    Hypothesis Hl2 : l2 <> [].
    Local Notation okay := (fun z => size z <= f /\ compiles cf names f 0 z = true /\ lines_ok cf z).
    Local Notation rest := (fun j g' => first_end p (chain (map E l2) j g')).
    Local Notation sq := (c_seq_match cf s (c_m cf names s f 0)).

    Lemma parts_paid k : (forall j g, j <= length s -> out (k j g) = Res g j (p j)) ->
      forall l1 cur c, Forall okay (l1 ++ l2) -> l1 <> [] -> cur <= length s -> gd c -> polite names s cur (outs k) ->
      ends_tried rest (chain (map E l1) cur c) <= steps (sq (l1 ++ l2) cur c k).
    Proof.
      intros Hp. induction l1 as [|x r IH]; intros cur c Hok Hne Hc Hg Hk; [easy|]. clear Hne.
      assert (Hnil : r ++ l2 <> []) by (intros E0; apply app_eq_nil in E0 as [_ E0]; easy).
      assert (Esq : sq (x :: r ++ l2) cur c k
        = called
              (if forallb trivial (x :: r ++ l2) then
                 paid (distance_rounds cf (N.of_nat (length (x :: r ++ l2))) (length s) cur)
                   (if distance_less_than cf (N.of_nat (length (x :: r ++ l2))) (length s) cur
                    then c_non_match cur c
                    else if is_random cf
                    then c_trivial_block_random s (map (match_one cf) (x :: r ++ l2)) cur c k
                    else c_sequence_block_forward s (map (match_one cf) (x :: r ++ l2)) cur c k)
               else c_m cf names s f 0 x cur c (fun next c' => sq (r ++ l2) next c' k))).
      { clear -Hnil. destruct (r ++ l2) as [|y q] eqn:Er; [easy|]. reflexivity. }
      change ((x :: r) ++ l2) with (x :: r ++ l2) in *. rewrite Esq. cbn [called steps]. clear Esq.
      destruct (forallb trivial (x :: r ++ l2)) eqn:T.
      { pose proof (classes_once rest (x :: r) cur c) as Ho.
        change (x :: r ++ l2) with ((x :: r) ++ l2) in T. rewrite forallb_app in T. apply andb_true_iff in T as [T _].
        specialize (Ho T). lia. }
      apply le_S. inversion Hok as [|? ? (X1 & X2 & X3) Hok']; subst.
      set (kk := fun next c' => sq (r ++ l2) next c' k).
      assert (HR : sem names s false (seq_match cf s (m cf names s f 0) (r ++ l2)) (chain (map E (r ++ l2)))).
      { change s with (side s false) at 2. apply sem_seq; [exact Hnil|].
        clear -Hok'. induction (r ++ l2) as [|z q IHq]; constructor; inversion Hok' as [|? ? (H1 & H2 & H3) H4]; subst; [|now apply IHq].
        split; [exact (follows cf names s f 0 false z H1 H2 H3)|].
        split; [exact (X_weak cf names s 0 false z)|exact (X_class cf names s 0 false z)]. }
      assert (HF : finder names s false true (chain (map E (r ++ l2)))).
      { apply finder_chain. rewrite Forall_map. apply Forall_forall. intros z _.
        exact (X_weak cf names s 0 false z). }
      assert (HS : same_matcher (sq (r ++ l2)) (seq_match cf s (m cf names s f 0) (r ++ l2)))
        by (apply same_seq; intros z; apply same_m).
      assert (Hkk : forall j g, j <= length s -> cur <= j -> gd g ->
        norm (out (kk j g)) = match first_rest rest (chain (map E r) j g) with
                              | (Some e, g') => Res g' e true | (None, g') => Res g' 0 false end
        /\ gd (snd (first_rest rest (chain (map E r) j g)))).
      { intros j g Hj Hlj Hg'. unfold kk.
        rewrite (sem_out names s false _ _ _ k j g HS HR Hj Hg' (polite_from _ _ _ _ _ Hk Hlj)). cbn [Exact.pos].
        rewrite <- first_chain, <- map_app.
        destruct (follow_first_end n s p (outs k) (beyond s false true j) (chain (map E (r ++ l2)) j g)) as (H1 & H2 & _).
        - intros i Hi. apply Hi.
        - intros i g1 Hi. now apply Hp.
        - now apply HF.
        - split; [exact H1|exact H2]. }
      assert (HK : polite names s cur (outs kk)).
      { intros j g g' e Hlj Hj Hg' He. destruct (Hkk j g Hj Hlj Hg') as [H1 H2]. unfold outs in He.
        rewrite He in H1. cbn [norm] in H1.
        destruct (first_rest rest (chain (map E r) j g)) as [[e1|] g1]; [discriminate|]. injection H1 as ->. exact H2. }
      eapply Nat.le_trans; [|exact (all_pay cf names s f 0 false x X1 X2 X3 cur c kk Hc Hg HK)].
      change (Nat.odd 0) with false. cbn [Exact.pos]. change (seen_as cf names s 0 false x) with (E x). cbn [map chain].
      assert (Hpart : forall j g, j <= length s -> cur <= j -> gd g ->
        ends_tried rest (chain (map E r) j g) <= S (steps (kk j g))).
      { intros j g Hj Hlj Hg'. destruct r as [|y q].
        - cbn [map chain]. unfold one. cbn [ends_tried]. destruct (rest j g) as [[e|] g']; cbn [ends_tried]; lia.
        - apply le_S. unfold kk. apply IH; auto; [discriminate|]. now apply (polite_from _ _ _ _ _ Hk). }
      assert (Ht : sound names s (beyond s false (may_be_empty x) cur) (E x cur c))
        by exact (explore_finder cf names s x 0 false cur c Hc Hg).
      revert Ht. generalize (E x cur c).
      induction s0 as [g|i g more IHt]; intros Ht; cbn [followed_by ends_tried weight]; [lia|].
      cbn [sound] in Ht. destruct Ht as ((B1 & B2 & _) & G & M). cbn [Exact.pos] in *.
      destruct (Hkk i g B1 B2 G) as [H1 H2]. rewrite tried_otherwise. specialize (Hpart i g B1 B2 G).
      destruct (first_rest rest (chain (map E r) i g)) as [[e1|] g1]; [lia|]. cbn [snd] in H2.
      destruct (out (kk i g)) as [c2 e2 [|]| | |]; cbn [norm] in H1; try discriminate. injection H1 as ->.
      specialize (IHt g1 (M g1 H2)). lia.
    Qed.
  End Parts.

  (** The ends of the first parts of a concatenation. *)
  Lemma part_paid p (k : ccont) l1 l2 cur c : n = Seq (l1 ++ l2) -> l1 <> [] -> l2 <> [] ->
    cur <= length s -> gd c -> polite names s cur (outs k) ->
    (forall j g, j <= length s -> out (k j g) = Res g j (p j)) ->
    tried_at cf names s p l1 l2 cur c <= steps (c_node_match cf names s 0 n cur c k).
  Proof.
    intros Hn H1 H2 Hc Hg Hk Hp. destruct Hruns as [Hcm Hl]. unfold tried_at, c_node_match. unfold compilable in Hcm.
    rewrite !in_order_chain.
    assert (Hz : forall z, In z (l1 ++ l2) -> size z < size n).
    { intros z Hz. rewrite Hn, size_Seq. pose proof (size_in_sum _ z Hz). lia. }
    destruct (size n) as [|f] eqn:Es; [pose proof (size_pos n); lia|].
    assert (Hcm' : compiles cf names (S f) 0 (Seq (l1 ++ l2)) = true) by (rewrite <- Hn; exact Hcm).
    assert (Ecm : c_m cf names s (S f) 0 n cur c k = c_seq_match cf s (c_m cf names s f 0) (l1 ++ l2) cur c k)
      by (rewrite Hn; reflexivity).
    rewrite Ecm. clear Ecm.
    assert (Hl' : lines_ok cf (Seq (l1 ++ l2))) by (rewrite <- Hn; exact Hl).
    pose proof (lines_ok_list cf _ Hl') as Hll.
    assert (Hf : forallb (compiles cf names f 0) (l1 ++ l2) = true).
    { cbn [compiles] in Hcm'. destruct (l1 ++ l2); [discriminate|exact Hcm']. }
    assert (Eq : ends_tried (fun j g' => first_end p (in_order cf names s l2 j g')) (chain (map E l1) cur c)
      = ends_tried (fun j g' => first_end p (chain (map E l2) j g')) (chain (map E l1) cur c))
      by (rewrite in_order_chain; reflexivity).
    rewrite ?Eq. apply parts_paid; auto.
    apply Forall_forall. intros z Hin. split; [specialize (Hz z Hin); lia|].
    rewrite Forall_forall in Hll. split; [|now apply Hll].
    eapply forallb_forall in Hf; eauto.
  Qed.

  (** Over all offsets of a search. *)
  Lemma search_paid l1 l2 : n = Seq (l1 ++ l2) -> l1 <> [] -> l2 <> [] ->
    forall count fuel cur c, cur + count = length s -> count < fuel -> gd c ->
    tried_from cf names s l1 l2 count cur c <= steps (c_search_loop fuel cf n s cur c).
  Proof.
    intros Hn N1 N2.
    assert (HE : forall cur c, E n cur c = in_order cf names s (l1 ++ l2) cur c).
    { intros cur c. rewrite in_order_chain. transitivity (E (Seq (l1 ++ l2)) cur c); [now rewrite <- Hn|].
      apply (E_Seq cf names s 0 false (l1 ++ l2)). destruct l1 as [|? [|]], l2; try easy; reflexivity. }
    induction count as [|count IH]; intros [|fuel] cur c Hcur Hf Hg; try lia; cbn [tried_from c_search_loop];
      pose proof (part_paid (fun _ => true) c_success l1 l2 cur c Hn N1 N2 ltac:(lia) Hg (polite_success _ _ _) (fun _ _ _ => eq_refl)) as H;
      rewrite <- HE.
    - set (x := c_node_match cf names s 0 n cur c c_success) in *.
      destruct (first_end _ _) as [[e|] g]; cbn [round out];
        destruct (out x) as [c' e' [|]| | |]; cbn [with_out after round steps]; lia.
    - destruct (run_first cf n s Hruns cur c ltac:(lia) Hg) as (H1 & H2 & _). unfold at_offset in *.
      unfold node_match in H1.
      rewrite <- (same_m cf names s (size n) 0 n c_success success same_success cur c) in H1.
      change (c_m cf names s (size n) 0 n cur c c_success) with (c_node_match cf names s 0 n cur c c_success) in H1.
      set (x := c_node_match cf names s 0 n cur c c_success) in *. cbn [round out].
      destruct (first_end (fun _ => true) (E n cur c)) as [[e|] g]; cbn [snd] in *.
      + destruct (out x) as [c' e' [|]| | |]; cbn [with_out after round steps]; lia.
      + destruct (out x) as [c' e' [|]| | |]; cbn [norm] in H1; try discriminate. injection H1 as ->.
        cbn [after round steps]. destruct (Nat.eqb_spec cur (length s)); [lia|].
        specialize (IH fuel (S cur) g ltac:(lia) ltac:(lia) H2). lia.
  Qed.
End Costs.

(** ** The calls *)

Section Call.
  Variable r : regex.
  Variable ct : category.
  Variable s : list ascii.
  Hypothesis Hu : usable r ct.
  Local Notation cf := (config_of (flags r) ct).
  Local Notation names := (all_names (ast r)).
  Local Notation g0 := (no_groups (ast r)).

  Lemma match_steps : steps (cost_of c_match_method r ct s)
    = steps (c_node_match cf names s 0 (ast r) 0 g0 (c_equals (length s))).
  Proof. unfold cost_of, c_match_method. cbv zeta. change (group_names (ast r)) with names. change (initial_captures (ast r)) with g0.
    now destruct (out _). Qed.
  Lemma prefix_steps : steps (cost_of c_match_prefix_method r ct s)
    = steps (c_node_match cf names s 0 (ast r) 0 g0 c_success).
  Proof. unfold cost_of, c_match_prefix_method. cbv zeta. change (group_names (ast r)) with names. change (initial_captures (ast r)) with g0.
    now destruct (out _). Qed.

  Lemma equals_out j g : out (c_equals (length s) j g) = Res g j (Nat.eqb (length s) j).
  Proof. unfold c_equals. cbn. now rewrite Nat.eqb_sym. Qed.

  Theorem ends_cost :
    ends_tried (fun j g => (if Nat.eqb (length s) j then Some j else None, g)) (explore cf names s 0 false (ast r) 0 g0)
    <= steps (cost_of c_match_method r ct s).
  Proof.
    rewrite match_steps. apply (whole_paid cf (ast r) s Hu); [lia|apply good_initial|apply polite_equals|].
    intros. apply equals_out.
  Qed.

  Theorem parts_cost l1 l2 : ast r = Seq (l1 ++ l2) -> l1 <> [] -> l2 <> [] ->
    tried_at cf names s (Nat.eqb (length s)) l1 l2 0 g0 <= steps (cost_of c_match_method r ct s)
    /\ tried_at cf names s (fun _ => true) l1 l2 0 g0 <= steps (cost_of c_match_prefix_method r ct s)
    /\ tried_from cf names s l1 l2 (length s) 0 g0 <= steps (cost_of c_search_method r ct s).
  Proof.
    intros Hn H1 H2. rewrite match_steps, prefix_steps. split; [|split].
    - apply (part_paid cf (ast r) s Hu); auto; [lia|apply good_initial|apply polite_equals|]. intros. apply equals_out.
    - apply (part_paid cf (ast r) s Hu); auto; [lia|apply good_initial|apply polite_success].
    - unfold cost_of, c_search_method. rewrite Nat.sub_0_r. apply (search_paid cf (ast r) s Hu); auto; try lia. apply good_initial.
  Qed.
End Call.
