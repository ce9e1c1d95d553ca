(** Three relations between runs that the matcher preserves. *)
From Verif Require Import Basics Spec Safe Cong Impl Relate.
From Verif Require Export Api.

Section Runs.
  Variable cf : config.
  Variable names : list group_name.
  Variable base : list ascii.
  Local Notation L := (length names).
  Local Notation N0 := (length base).

  (** A call that does not return a result. *)
  Definition stuck (o : outcome) : Prop := match o with Res _ _ _ => False | _ => True end.

  (** A failed match that leaves captures [c]. *)
  Definition fails (o : outcome) (c : caps) : Prop := exists e, o = Res c e false.

  (** ** Same captures, same end: the same answer for the same captures *)

  Definition same_out (o1 o2 : outcome) : Prop :=
    match o1, o2 with
    | Res c1 e1 b1, Res c2 e2 b2 =>
        c1 = c2 /\ length c1 = L /\ b1 = b2 /\ (b1 = true -> e1 = e2 /\ e1 <= N0)
    | Undef, Undef | IllFormed, IllFormed | Diverge, Diverge => True
    | _, _ => False
    end.

  Definition pointwise (F1 F2 : run) : Prop :=
    forall c, length c = L -> same_out (F1 c) (F2 c).

  Lemma same_out_sym o1 o2 : same_out o1 o2 -> same_out o2 o1.
  Proof.
    destruct o1, o2; cbn; auto. intros (-> & H & -> & He). repeat split; auto;
      destruct (He H0); subst; auto.
  Qed.

  Lemma same_out_trans o1 o2 o3 : same_out o1 o2 -> same_out o2 o3 -> same_out o1 o3.
  Proof.
    destruct o1, o2, o3; cbn; try easy.
    intros (-> & H & -> & He) (-> & H' & -> & He'). repeat split; auto;
      destruct (He H0), (He' H0); subst; auto.
  Qed.

  Lemma pointwise_sym F1 F2 : pointwise F1 F2 -> pointwise F2 F1.
  Proof. intros H c Hc. apply same_out_sym; auto. Qed.
  Lemma pointwise_trans F1 F2 F3 : pointwise F1 F2 -> pointwise F2 F3 -> pointwise F1 F3.
  Proof. intros H H' c Hc. eapply same_out_trans; eauto. Qed.

  Lemma pointwise_closed : closed names base pointwise pointwise.
  Proof.
    constructor.
    - intros e1 e2 c Hc. cbn. repeat split; auto; discriminate.
    - intros e He c Hc. cbn. auto.
    - intros c _. exact I.
    - intros c _. exact I.
    - intros c _. exact I.
    - intros ops F1 F2 H c Hc. apply H. now rewrite act_length.
    - intros F1 F2 G1 G2 H1 H2 H c Hc. rewrite <- H1, <- H2 by assumption. now apply H.
    - intros F1 F2 H1 H2 HF HH c Hc. specialize (HF c Hc).
      destruct (F1 c) as [c1 e1 b1| | |], (F2 c) as [c2 e2 b2| | |]; cbn in HF |- *; try easy.
      destruct HF as (-> & Hl & -> & He). destruct b2; cbn; auto.
    - intros F1 F2 G1 G2 H1 H2 HF HG HH c Hc. specialize (HF c Hc).
      destruct (F1 c) as [c1 e1 b1| | |], (F2 c) as [c2 e2 b2| | |]; cbn in HF |- *; try easy.
      destruct HF as (-> & Hl & -> & He). destruct b2; cbn; auto.
      destruct (He eq_refl) as [-> Hb]. now apply HG.
  Qed.

  Lemma backref_loop_pair Q P s : closed names base Q P -> length s = N0 ->
    forall t cur k1 k2, cur <= N0 -> pair_cont base P k1 k2 ->
    P (fun c => backref_loop cf s t cur c k1) (fun c => backref_loop cf s t cur c k2).
  Proof.
    intros CP Hs. induction t as [|a t IH]; intros cur k1 k2 Hc Hk; cbn [backref_loop]; [now apply Hk|].
    apply (r_deref _ _ _ _ CP); auto. intros b Hb. destruct (backref_char_eq cf a b).
    - apply IH; auto.
    - apply (r_fail _ _ _ _ CP).
  Qed.

  Lemma pointwise_backref rd i :
    pair_matcher base pointwise (backref_match cf base rd i) (backref_match cf base rd i).
  Proof.
    intros cur k1 k2 Hc Hk c Hlc. unfold backref_match.
    destruct (nth_error c i) as [v|] eqn:E; [|exact I].
    destruct (match v with Some p => p | None => (0, 0) end) as [b e].
    destruct (distance_less_than _ _ _ _); [cbn; repeat split; auto; discriminate|].
    destruct (_ || _); [exact I|].
    exact (backref_loop_pair _ _ _ pointwise_closed (view_length base rd) _ cur k1 k2 Hc Hk c Hlc).
  Qed.

  Lemma pointwise_self f rd n :
    pair_matcher base pointwise (m cf names base f rd n) (m cf names base f rd n).
  Proof.
    apply (self_related cf names base pointwise true); auto using pointwise_closed.
    intros _. apply pointwise_backref.
  Qed.

  (** ** The same operations on any captures *)

  Definition exact (F1 F2 : run) : Prop :=
    (exists ops e, e <= N0 /\ forall c, length c = L ->
        F1 c = Res (act ops c) e true /\ F2 c = Res (act ops c) e true)
    \/ (exists ops, forall c, length c = L -> fails (F1 c) (act ops c) /\ fails (F2 c) (act ops c))
    \/ (exists o, stuck o /\ forall c, length c = L -> F1 c = o /\ F2 c = o).

  Lemma some_caps : exists c : caps, length c = L.
  Proof. exists (repeat None L). apply repeat_length. Qed.

  Lemma exact_sym F1 F2 : exact F1 F2 -> exact F2 F1.
  Proof.
    intros [(ops & e & He & H)|[(ops & H)|(o & Ho & H)]]; [left|right; left|right; right].
    - exists ops, e. split; auto. intros c Hc. apply and_comm, H, Hc.
    - exists ops. intros c Hc. apply and_comm, H, Hc.
    - exists o. split; auto. intros c Hc. apply and_comm, H, Hc.
  Qed.

  Lemma exact_trans F1 F2 F3 : exact F1 F2 -> exact F2 F3 -> exact F1 F3.
  Proof.
    destruct some_caps as [c0 Hc0].
    intros [(ops & e & He & H)|[(ops & H)|(o & Ho & H)]]
           [(ops' & e' & He' & H')|[(ops' & H')|(o' & Ho' & H')]];
      try (exfalso; destruct (H c0 Hc0) as [_ A], (H' c0 Hc0) as [B _]; unfold fails in *;
           repeat match goal with X : exists e : nat, _ |- _ => destruct X as [? X] end;
           rewrite A in B; first [discriminate|rewrite B in Ho; exact Ho|rewrite <- B in Ho'; exact Ho']).
    - left. exists ops, e. split; auto. intros c Hc. destruct (H c Hc) as [A B], (H' c Hc) as [A' B'].
      rewrite B in A'. inversion A'; subst. split; congruence.
    - right; left. exists ops. intros c Hc. destruct (H c Hc) as [A [? B]], (H' c Hc) as [[? A'] [y B']].
      rewrite B in A'. split; auto. exists y. inversion A'. congruence.
    - right; right. exists o. split; auto. intros c Hc. destruct (H c Hc), (H' c Hc). split; congruence.
  Qed.

  Lemma exact_pointwise F1 F2 : exact F1 F2 -> pointwise F1 F2.
  Proof.
    intros [(ops & e & He & H)|[(ops & H)|(o & Ho & H)]] c Hc; specialize (H c Hc).
    - destruct H as [-> ->]. cbn. rewrite act_length. auto.
    - destruct H as [[? ->] [? ->]]. cbn. rewrite act_length. repeat split; auto; discriminate.
    - destruct H as [-> ->]. destruct o; easy.
  Qed.

  Lemma exact_or F1 F2 H1 H2 : exact F1 F2 -> exact H1 H2 ->
    exact (fun c => or_else (F1 c) H1) (fun c => or_else (F2 c) H2).
  Proof.
    intros [(ops & e & He & H)|[(ops & H)|(o & Ho & H)]] HH.
    - left. exists ops, e. split; auto. intros c Hc. destruct (H c Hc) as [-> ->]. auto.
    - destruct HH as [(ops' & e & He & H')|[(ops' & H')|(o & Ho & H')]].
      + left. exists (fun i => comp1 (ops' i) (ops i)), e. split; auto. intros c Hc.
        destruct (H c Hc) as [[? ->] [? ->]]. cbn. rewrite <- act_comp. apply H'. now rewrite act_length.
      + right; left. exists (fun i => comp1 (ops' i) (ops i)). intros c Hc.
        destruct (H c Hc) as [[? ->] [? ->]]. cbn. rewrite <- act_comp. apply H'. now rewrite act_length.
      + right; right. exists o. split; auto. intros c Hc.
        destruct (H c Hc) as [[? ->] [? ->]]. cbn. apply H'. now rewrite act_length.
    - right; right. exists o. split; auto. intros c Hc. destruct (H c Hc) as [-> ->].
      destruct o; easy.
  Qed.

  Lemma exact_act ops F1 F2 : exact F1 F2 -> exact (fun c => F1 (act ops c)) (fun c => F2 (act ops c)).
  Proof.
    intros [(ops' & e & He & H)|[(ops' & H)|(o & Ho & H)]].
    - left. exists (fun i => comp1 (ops' i) (ops i)), e. split; auto. intros c Hc.
      rewrite <- act_comp. apply H. now rewrite act_length.
    - right; left. exists (fun i => comp1 (ops' i) (ops i)). intros c Hc.
      rewrite <- act_comp. apply H. now rewrite act_length.
    - right; right. exists o. split; auto. intros c Hc. apply H. now rewrite act_length.
  Qed.

  Lemma exact_ext F1 F2 G1 G2 :
    (forall c, length c = L -> F1 c = G1 c) -> (forall c, length c = L -> F2 c = G2 c) ->
    exact F1 F2 -> exact G1 G2.
  Proof.
    intros E1 E2 [(ops & e & He & H)|[(ops & H)|(o & Ho & H)]]; [left|right; left|right; right].
    - exists ops, e. split; auto. intros c Hc. rewrite <- E1, <- E2 by assumption. auto.
    - exists ops. intros c Hc. rewrite <- E1, <- E2 by assumption. auto.
    - exists o. split; auto. intros c Hc. rewrite <- E1, <- E2 by assumption. auto.
  Qed.

  Lemma exact_closed : closed names base exact exact.
  Proof.
    constructor.
    - intros e1 e2. right; left. exists (fun _ => Keep). intros c Hc. rewrite act_keep.
      split; eexists; reflexivity.
    - intros e He. left. exists (fun _ => Keep), e. split; auto. intros c Hc. rewrite act_keep. auto.
    - right; right. exists Undef. repeat split.
    - right; right. exists IllFormed. repeat split.
    - right; right. exists Diverge. repeat split.
    - intros ops F1 F2. apply exact_act.
    - apply exact_ext.
    - apply exact_or.
    - intros F1 F2 G1 G2 H1 H2 [(ops & e & He & H)|[(ops & H)|(o & Ho & H)]] HG HH.
      + apply exact_ext with (F1 := fun c => G1 e (act ops c)) (F2 := fun c => G2 e (act ops c)).
        * intros c Hc. destruct (H c Hc) as [-> _]. reflexivity.
        * intros c Hc. destruct (H c Hc) as [_ ->]. reflexivity.
        * apply exact_act. now apply HG.
      + apply exact_ext with (F1 := fun c => H1 (act ops c)) (F2 := fun c => H2 (act ops c)).
        * intros c Hc. destruct (H c Hc) as [[? ->] _]. reflexivity.
        * intros c Hc. destruct (H c Hc) as [_ [? ->]]. reflexivity.
        * now apply exact_act.
      + right; right. exists o. split; auto. intros c Hc. destruct (H c Hc) as [-> ->].
        destruct o; easy.
  Qed.

  (** Trying the same run a second time after it failed changes nothing. *)
  Lemma exact_dup F1 F2 : exact F1 F2 -> exact F1 (fun c => or_else (F2 c) F2).
  Proof.
    intros [(ops & e & He & H)|[(ops & H)|(o & Ho & H)]].
    - left. exists ops, e. split; auto. intros c Hc. destruct (H c Hc) as [-> ->]. auto.
    - right; left. exists ops. intros c Hc. destruct (H c Hc) as [Ha [e Hb]].
      split; auto. rewrite Hb. cbn. destruct (H (act ops c)) as [_ [e' Hb']]; [now rewrite act_length|].
      exists e'. rewrite Hb', act_twice. reflexivity.
    - right; right. exists o. split; auto. intros c Hc. destruct (H c Hc) as [-> ->].
      destruct o; easy.
  Qed.

  Lemma exact_self f rd n : backref_free n = true ->
    pair_matcher base exact (m cf names base f rd n) (m cf names base f rd n).
  Proof.
    intros Hb. apply (self_related cf names base exact false); auto using exact_closed. discriminate.
  Qed.

  (** ** A success of the first run at a chosen end implies a success of the second *)

  Definition succeeds (A : nat -> Prop) (o : outcome) : Prop :=
    match o with Res _ e true => A e | _ => False end.

  Definition succeeds_or_stuck (o : outcome) : Prop :=
    match o with Res _ _ false => False | _ => True end.

  Definition implies (A : nat -> Prop) (F1 F2 : run) : Prop :=
    exact F1 F1 /\ exact F2 F2
    /\ forall c, length c = L -> succeeds A (F1 c) -> succeeds_or_stuck (F2 c).

  Lemma exact_succeeds A F c1 c2 : exact F F -> length c1 = L -> length c2 = L ->
    succeeds A (F c1) -> succeeds A (F c2).
  Proof.
    intros [(ops & e & He & H)|[(ops & H)|(o & Ho & H)]] H1 H2;
      destruct (H c1 H1) as [A1 _], (H c2 H2) as [A2 _]; unfold fails in *.
    - now rewrite A1, A2.
    - destruct A1 as [? ->]. easy.
    - rewrite A1. now destruct o.
  Qed.

  Lemma exact_result_length F c c' e b : exact F F -> length c = L -> F c = Res c' e b -> length c' = L.
  Proof.
    intros [(ops & e' & He & H)|[(ops & H)|(o & Ho & H)]] Hc E; destruct (H c Hc) as [A1 _].
    - rewrite A1 in E. inversion E; subst. now rewrite act_length.
    - destruct A1 as [? A1]. rewrite A1 in E. inversion E; subst. now rewrite act_length.
    - rewrite A1 in E. now subst.
  Qed.

  Lemma implies_closed A : closed names base exact (implies A).
  Proof.
    pose proof exact_closed as E. constructor.
    - intros e1 e2. repeat split; try apply (c_fail _ _ _ _ E). easy.
    - intros e He. repeat split; try now apply (c_succ _ _ _ _ E).
    - repeat split; try apply (c_undef _ _ _ _ E).
    - repeat split; try apply (c_ill _ _ _ _ E).
    - repeat split; try apply (c_div _ _ _ _ E).
    - intros ops F1 F2 (H1 & H2 & H). repeat split; try now apply exact_act.
      intros c Hc. apply H. now rewrite act_length.
    - intros F1 F2 G1 G2 E1 E2 (H1 & H2 & H). repeat split.
      + eapply exact_ext; [exact E1|exact E1|assumption].
      + eapply exact_ext; [exact E2|exact E2|assumption].
      + intros c Hc. rewrite <- E1, <- E2 by assumption. auto.
    - intros F1 F2 H1 H2 (U1 & U2 & HF) (V1 & V2 & HH). repeat split; try now apply exact_or.
      intros c Hc Hs. specialize (HF c Hc).
      destruct (F1 c) as [c1 e1 [|]| | |] eqn:E1; cbn in Hs; try contradiction.
      + specialize (HF Hs). destruct (F2 c) as [c2 e2 [|]| | |]; easy.
      + destruct (F2 c) as [c2 e2 [|]| | |] eqn:E2; cbn; auto.
        assert (L1 := exact_result_length _ _ _ _ _ U1 Hc E1).
        assert (L2 := exact_result_length _ _ _ _ _ U2 Hc E2).
        apply HH; [exact L2|]. exact (exact_succeeds A H1 c1 c2 V1 L1 L2 Hs).
    - intros F1 F2 G1 G2 H1 H2 HQ HG (V1 & V2 & HH).
      assert (U1 : exact F1 F1) by (eapply exact_trans; eauto using exact_sym).
      assert (U2 : exact F2 F2) by (eapply exact_trans; eauto using exact_sym).
      repeat split.
      + apply (c_on _ _ _ _ E); auto. intros e He. apply HG, He.
      + apply (c_on _ _ _ _ E); auto. intros e He. apply HG, He.
      + intros c Hc. destruct HQ as [(ops & e & He & H)|[(ops & H)|(o & Ho & H)]];
          destruct (H c Hc) as [A1 A2]; unfold fails in *.
        * rewrite A1, A2. cbn. apply HG; auto. now rewrite act_length.
        * destruct A1 as [? ->], A2 as [? ->]. cbn. apply HH. now rewrite act_length.
        * rewrite A1, A2. now destruct o.
  Qed.

  Lemma implies_self A f rd n : backref_free n = true ->
    pair_matcher base (implies A) (m cf names base f rd n) (m cf names base f rd n).
  Proof.
    intros Hb. apply (self_related_commit cf names base exact (implies A) false);
      auto using exact_closed, implies_closed; discriminate.
  Qed.
End Runs.
