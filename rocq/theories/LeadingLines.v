(** [^] in front, under [multiline], on forward ranges (C56): which calls are
    undefined behaviour. *)
From Verif Require Import Matcher Basics Safe Impl Spec Calls Lift Matching Api Views Scan Parsed Forward LineStarts Cong.
From Coq Require Import Lia.

Section Leading.
  Variables (l : list node) (fl : list regex_flag).
  Local Notation cf := (config_of fl ForwardIt).
  Local Notation q := (mk_regex (Seq l) fl).
  Local Notation r := (mk_regex (Seq (BeginLine :: l)) fl).
  Hypothesis Hml : flag_test fl F_multiline = true.
  Hypothesis Hq : usable q ForwardIt.

  Lemma l_cons : exists x l', l = x :: l'.
  Proof. destruct Hq as [H _]. destruct l as [|x l']; [discriminate H|eauto]. Qed.

  Lemma leading_names : group_names (Seq (BeginLine :: l)) = group_names (Seq l).
  Proof. reflexivity. Qed.

  Lemma leading_initial : initial_captures (Seq (BeginLine :: l)) = initial_captures (Seq l).
  Proof. reflexivity. Qed.

  Lemma leading_compiles : compilable cf (Seq (BeginLine :: l)) = true.
  Proof.
    destruct Hq as [H _]. destruct l_cons as (x & l' & E). unfold compilable in *. cbn [ast flags] in H.
    rewrite leading_names.
    rewrite (compiles_fuel _ _ (size (Seq (BeginLine :: l))) (S (size (Seq (BeginLine :: l))))) by lia.
    rewrite (compiles_fuel _ _ (size (Seq l)) (S (size (Seq (BeginLine :: l))))) in H by (cbn; lia).
    revert H. generalize (size (Seq (BeginLine :: l))). intros f. subst l. cbn [compiles].
    change (compiles cf (group_names (Seq (x :: l'))) f 0) with (compiles cf (group_names (Seq (x :: l'))) f 0).
    intros H. cbn [forallb]. destruct f; [discriminate H|]. exact H.
  Qed.

  Lemma leading_step s f cur c k :
    m cf (group_names (Seq l)) s (S f) 0 (Seq (BeginLine :: l)) cur c k
    = m cf (group_names (Seq l)) s f 0 BeginLine cur c
        (fun next c' => m cf (group_names (Seq l)) s (S f) 0 (Seq l) next c' k).
  Proof. destruct l_cons as (x & l' & ->). reflexivity. Qed.

  Lemma leading_size : exists f, size (Seq (BeginLine :: l)) = S (S f) /\ size (Seq l) <= S (S f).
  Proof.
    rewrite !size_Seq. cbn [map list_sum fold_right size].
    eexists. split; [reflexivity|]. unfold list_sum. cbn. lia.
  Qed.

  Lemma leading_first s c k :
    node_match cf (group_names (Seq (BeginLine :: l))) s 0 (Seq (BeginLine :: l)) 0 c k
    = node_match cf (group_names (Seq l)) s 0 (Seq l) 0 c k.
  Proof.
    rewrite leading_names. unfold node_match. destruct leading_size as (f & -> & Hf).
    rewrite leading_step. transitivity (m cf (group_names (Seq l)) s (S (S f)) 0 (Seq l) 0 c k); [reflexivity|].
    now apply m_ext.
  Qed.

  Lemma leading_later s cur c k : 0 < cur ->
    node_match cf (group_names (Seq (BeginLine :: l))) s 0 (Seq (BeginLine :: l)) cur c k = Undef.
  Proof.
    intros Hc. rewrite leading_names. unfold node_match. destruct leading_size as (f & -> & Hf).
    rewrite leading_step. cbn [m]. destruct (Nat.eqb_spec cur 0); [lia|].
    cbn [multiline config_of]. now rewrite Hml.
  Qed.

  Variable s : list ascii.

  Lemma leading_match : regex_match r ForwardIt s = regex_match q ForwardIt s.
  Proof.
    unfold regex_match, invoke. cbn [ast flags]. rewrite leading_compiles, (proj1 Hq : compilable cf (Seq l) = true).
    unfold match_method. now rewrite leading_first, leading_initial.
  Qed.

  Lemma leading_prefix : regex_match_prefix r ForwardIt s = regex_match_prefix q ForwardIt s.
  Proof.
    unfold regex_match_prefix, invoke. cbn [ast flags].
    rewrite leading_compiles, (proj1 Hq : compilable cf (Seq l) = true).
    unfold match_prefix_method. now rewrite leading_first, leading_initial.
  Qed.

  (** What the run at the first place gives. *)
  Lemma first_run : exists c e b,
    node_match cf (group_names (Seq (BeginLine :: l))) s 0 (Seq (BeginLine :: l)) 0
      (initial_captures (Seq (BeginLine :: l))) success = Res c e b
    /\ group0 (set_group0 0 e c) = Some (0, e) /\ e <= length s
    /\ regex_match_prefix r ForwardIt s = Returned (mk_res (set_group0 0 e c) b).
  Proof.
    pose proof (match_prefix_method_ok cf (Seq l) s Hq 0 (initial_captures (Seq l)) ltac:(lia)
      (good_initial _ _)) as H. unfold match_prefix_method in H.
    unfold regex_match_prefix, invoke. cbn [ast flags]. rewrite leading_compiles.
    unfold match_prefix_method. rewrite leading_initial, leading_first.
    destruct (node_match cf (group_names (Seq l)) s 0 (Seq l) 0 (initial_captures (Seq l)) success)
      as [c e b| | |]; cbn in H; try contradiction.
    exists c, e, b. repeat split; try apply H.
  Qed.

  Lemma leading_search : exists a, regex_match_prefix r ForwardIt s = Returned a
    /\ (matched a = true -> regex_search r ForwardIt s = Returned a)
    /\ (matched a = false -> s <> [] -> regex_search r ForwardIt s = UndefinedBehaviour)
    /\ (s = [] -> exists b, regex_search r ForwardIt s = Returned b /\ matched b = matched a).
  Proof.
    destruct first_run as (c & e & b & E & G & He & P). eexists. split; [exact P|]. cbn [matched].
    unfold regex_search, invoke. cbn [ast flags]. rewrite leading_compiles.
    unfold search_method. cbn [search_loop]. rewrite E. split; [|split].
    - intros ->. reflexivity.
    - intros -> Hs. destruct s as [|x t]; [easy|]. cbn [length Nat.sub Nat.eqb search_loop].
      now rewrite leading_later by lia.
    - intros ->. destruct b; cbn; eauto.
  Qed.

  Lemma leading_find_all : exists a e, regex_match_prefix r ForwardIt s = Returned a
    /\ group0 (groups a) = Some (0, e)
    /\ (matched a = true -> e = 0 -> find_all r ForwardIt s = Returned [a])
    /\ (matched a = true -> e <> 0 -> find_all r ForwardIt s = UndefinedBehaviour)
    /\ (matched a = false -> s <> [] -> find_all r ForwardIt s = UndefinedBehaviour)
    /\ (matched a = false -> s = [] -> find_all r ForwardIt s = Returned []).
  Proof.
    destruct first_run as (c & e & b & E & G & He & P). exists (mk_res (set_group0 0 e c) b), e.
    split; [exact P|]. split; [exact G|]. cbn [matched].
    unfold find_all, range_of. cbn [ast flags]. rewrite leading_compiles.
    cbn [range_elements]. unfold next at 1 3 5 7. cbn [new_generator active current].
    unfold search_method at 1 2 3 4. cbn [search_loop]. rewrite E.
    split; [|split; [|split]].
    - intros -> ->. cbn [to_call matched]. rewrite G. cbn [cell_is_empty Nat.eqb negb andb next active]. reflexivity.
    - intros -> Hn. cbn [to_call matched]. rewrite G. cbn [cell_is_empty].
      destruct (Nat.eqb_spec 0 e); [lia|]. cbn [negb andb].
      unfold next. cbn [active current]. unfold search_method. cbn [search_loop].
      now rewrite leading_later by lia.
    - intros -> Hs. destruct s as [|x t]; [easy|]. unfold search_method at 1.
      cbn [length Nat.sub Nat.eqb search_loop]. rewrite E. cbn [to_call].
      now rewrite leading_later by lia.
    - intros -> ->. unfold search_method at 1. cbn [length Nat.sub Nat.eqb search_loop]. now rewrite E.
  Qed.

  Lemma leading_tokenize : exists a e, regex_match_prefix r ForwardIt s = Returned a
    /\ group0 (groups a) = Some (0, e)
    /\ (matched a = false -> tokenize r ForwardIt s = Returned [])
    /\ (matched a = true -> e = 0 -> tokenize r ForwardIt s = Returned [a])
    /\ (matched a = true -> e <> 0 -> tokenize r ForwardIt s = UndefinedBehaviour).
  Proof.
    destruct first_run as (c & e & b & E & G & He & P). exists (mk_res (set_group0 0 e c) b), e.
    split; [exact P|]. split; [exact G|]. cbn [matched].
    unfold tokenize, range_of. cbn [ast flags]. rewrite leading_compiles.
    cbn [range_elements]. unfold next at 1 3 5. cbn [new_generator active current].
    split; [|split].
    - intros ->. unfold match_prefix_method at 1. now rewrite E.
    - intros -> ->. unfold match_prefix_method at 1. rewrite E. cbn [to_call matched]. rewrite G. cbn [cell_is_empty Nat.eqb negb andb next active]. reflexivity.
    - intros -> Hn. unfold match_prefix_method at 1. rewrite E. cbn [to_call matched]. rewrite G. cbn [cell_is_empty].
      destruct (Nat.eqb_spec 0 e); [lia|]. cbn [negb andb].
      unfold next. cbn [active current]. unfold match_prefix_method.
      now rewrite leading_later by lia.
  Qed.

  (** On other ranges the same calls are defined. *)
  Lemma leading_agree ct :
    Lift.agree (regex_match r ForwardIt s) (regex_match r ct s)
    /\ Lift.agree (regex_match_prefix r ForwardIt s) (regex_match_prefix r ct s).
  Proof.
    destruct (lax_calls r ct s leading_compiles) as (A & B & _).
    destruct first_run as (c & e & b & _ & _ & _ & P).
    pose proof (match_method_ok cf (Seq l) s Hq 0 (initial_captures (Seq l)) ltac:(lia)
      (good_initial _ _)) as H.
    split.
    - destruct A as [A|A]; [|exact A]. rewrite leading_match in A. unfold regex_match, invoke in A.
      cbn [ast flags] in A. rewrite (proj1 Hq : compilable cf (Seq l) = true) in A.
      destruct (match_method _ _ _ _ _); try discriminate A; contradiction.
    - destruct B as [B|B]; [|exact B]. rewrite P in B. discriminate B.
  Qed.
End Leading.

Theorem leading_calls l fl s ct :
  let q := mk_regex (Seq l) fl in let r := mk_regex (Seq (BeginLine :: l)) fl in
  flag_test fl F_multiline = true -> usable q ForwardIt ->
  regex_match r ForwardIt s = regex_match q ForwardIt s
  /\ Lift.agree (regex_match r ForwardIt s) (regex_match r ct s)
  /\ exists a e, regex_match_prefix r ForwardIt s = Returned a
    /\ regex_match_prefix q ForwardIt s = Returned a
    /\ Lift.agree (Returned a) (regex_match_prefix r ct s)
    /\ group0 (groups a) = Some (0, e)
    /\ (matched a = true -> regex_search r ForwardIt s = Returned a)
    /\ (matched a = false -> s <> [] -> regex_search r ForwardIt s = UndefinedBehaviour)
    /\ (matched a = false -> tokenize r ForwardIt s = Returned [])
    /\ (matched a = true -> e <> 0 -> tokenize r ForwardIt s = UndefinedBehaviour)
    /\ (matched a = true -> e <> 0 -> find_all r ForwardIt s = UndefinedBehaviour)
    /\ (matched a = false -> s <> [] -> find_all r ForwardIt s = UndefinedBehaviour)
    /\ (matched a = true -> e = 0 ->
        tokenize r ForwardIt s = Returned [a] /\ find_all r ForwardIt s = Returned [a])
    /\ (s = [] -> exists b, regex_search r ForwardIt s = Returned b /\ matched b = matched a
        /\ (matched a = false -> find_all r ForwardIt s = Returned [])).
Proof.
  intros q r Hm Hq. destruct (leading_agree l fl Hq s ct) as [A1 A2].
  destruct (leading_search l fl Hm Hq s) as (a & P & S1 & S2 & S3).
  destruct (leading_find_all l fl Hm Hq s) as (a2 & e & P2 & G & F1 & F2 & F3 & F4).
  destruct (leading_tokenize l fl Hm Hq s) as (a3 & e3 & P3 & G3 & T1 & T2 & T3).
  rewrite P in P2, P3. injection P2 as <-. injection P3 as <-. rewrite G in G3. injection G3 as <-.
  split; [now apply leading_match|]. split; [exact A1|]. exists a, e. split; [exact P|].
  split; [rewrite <- P; symmetry; now apply leading_prefix|]. split; [unfold r; rewrite <- P; exact A2|].
  split; [exact G|]. do 6 (split; [assumption|]). split; [auto|].
  intros Hs. destruct (S3 Hs) as (b & Hb & Hb'). exists b. auto.
Qed.
