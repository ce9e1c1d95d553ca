(** Accepted patterns: group numbers, group counts and verdicts (C23, C24, C29, C30). *)
From Verif Require Import Matcher Api Parser Calls Matching Basics Steps Typing Shape Scan.
From Coq Require Import Lia.

Lemma parse_groups p n : parse p = P_ok n -> one_branch n = true ->
  caps_in n = combine (numbers 1 (length (scan InText p))) (scan InText p).
Proof.
  intros H Ho. rewrite <- (parse_scan p n H), names_count. exact (parse_numbers p n H Ho).
Qed.

Lemma parse_group_names p n : parse p = P_ok n -> group_names n = None :: scan InText p.
Proof. intros H. unfold group_names. now rewrite (parse_scan p n H). Qed.

Lemma parse_group_count p n fl ct s : parse p = P_ok n -> usable (mk_regex n fl) ct ->
  let fine res := group_count res = S (length (scan InText p)) in
  (exists res, regex_match (mk_regex n fl) ct s = Returned res /\ fine res)
  /\ (exists res, regex_match_prefix (mk_regex n fl) ct s = Returned res /\ fine res)
  /\ (exists res, regex_search (mk_regex n fl) ct s = Returned res /\ fine res)
  /\ (exists l, tokenize (mk_regex n fl) ct s = Returned l /\ Forall fine l)
  /\ (exists l, find_all (mk_regex n fl) ct s = Returned l /\ Forall fine l).
Proof.
  intros H U. cbv zeta. rewrite <- (parse_scan p n H), names_count.
  destruct (groups_valid (mk_regex n fl) ct s U)
    as ((a & Ha & Fa & _) & (b & Hb & Fb & _) & (c & Hc & Fc & _) & (d & Hd & Fd) & (e & He & Fe) & _).
  cbn [ast] in *.
  split; [exists a; tauto|]. split; [exists b; tauto|]. split; [exists c; tauto|].
  split; [exists d|exists e]; split; auto; eapply Forall_impl; eauto; cbn; tauto.
Qed.

Lemma last_char_app p : forall prev c, last_char prev p = Some c ->
  (p = [] /\ prev = Some c) \/ exists q, p = q ++ [c].
Proof.
  induction p as [|a p IH]; intros prev c H; [left; now split|]. right.
  cbn [last_char] in H. apply IH in H. destruct H as [[-> H]|[q ->]].
  - injection H as ->. now exists [].
  - now exists (a :: q).
Qed.

Lemma parse_total p :
  match parse p with
  | P_ok n => True
  | P_error i => i <= length p
  | P_stuck => exists q c, p = q ++ [c] /\ (c = "=" \/ c = "!" \/ c = ">")%char
  | P_loop => False
  end.
Proof.
  pose proof (parse_verdict p) as H. destruct (parse p) as [n|i| |]; auto.
  destruct (last_char None p) as [c|] eqn:E.
  - apply last_char_app in E. destruct E as [[_ E]|[q E]]; [discriminate|].
    exists q, c. split; auto. destruct H as [H|[H|H]]; injection H; auto.
  - destruct H as [H|[H|H]]; discriminate.
Qed.

Lemma parse_error_first p q i : parse p = P_error i ->
  (forall k, k <= i -> nth_error q k = nth_error p k) -> parse q = P_error i.
Proof. intros H Hk. apply (error_determined _ q _ _ _ _ _ H). exact Hk. Qed.

Lemma parse_well_shaped p n : parse p = P_ok n ->
  shaped n = true
  /\ forall id nm, In (id, nm) (caps_in n) -> (1 <= id <= N.of_nat (capture_count n))%N.
Proof. intros H. split; [exact (parse_shaped p n H)|]. intros id nm Hin. exact (parse_ids p n id nm H Hin). Qed.
