(** Proofs for the notes on the syntax (C51, C52). *)
From Verif Require Import Parser Api Calls Matching Basics Steps Typing Shape Scan Compile Escapes.
From Coq Require Import Lia.

(** ** Empty sets *)

Lemma deref_some s i a k : nth_error s i = Some a -> deref s i k = k a.
Proof. unfold deref. now intros ->. Qed.

Lemma empty_set_fails cf names s cur c k : cur <= length s ->
  exists e, node_match cf names s 0 (CSet []) cur c k = Res c e false.
Proof.
  intros H. unfold node_match. cbn [m size]. cbv zeta. change (view s 0) with s. unfold match_trivial.
  destruct (Nat.eqb_spec cur (length s)) as [E|E]; [unfold non_match; eauto|].
  destruct (nth_error s cur) as [a|] eqn:A; [|apply nth_error_None in A; lia].
  rewrite (deref_some _ _ _ _ A). unfold non_match. cbn. eauto.
Qed.

Lemma full_set_steps cf names s cur c k : cur <= length s ->
  node_match cf names s 0 (Neg (CSet [])) cur c k
  = if Nat.eqb cur (length s) then non_match cur c else k (S cur) c.
Proof.
  intros H. unfold node_match. cbn [m size]. cbv zeta. change (is_assertion (CSet [])) with false. change (view s 0) with s. unfold match_trivial.
  destruct (Nat.eqb_spec cur (length s)) as [E|E]; [easy|].
  destruct (nth_error s cur) as [a|] eqn:A; [|apply nth_error_None in A; lia].
  rewrite (deref_some _ _ _ _ A). reflexivity.
Qed.

Theorem empty_sets fl ct s :
  exists none any, parse (str "[]") = P_ok none /\ parse (str "[^]") = P_ok any
  /\ returns (regex_search (mk_regex none fl) ct s) (fun r => matched r = false)
  /\ returns (regex_match (mk_regex any fl) ct s) (fun r => matched r = true <-> length s = 1).
Proof.
  exists (CSet []), (Neg (CSet [])). split; [reflexivity|]. split; [reflexivity|]. split.
  - unfold regex_search, invoke. cbn [ast]. change (compilable _ _) with true. cbv iota.
    assert (L : forall f cur c, cur <= length s -> length s - cur < f ->
      exists c' e, search_loop f (config_of fl ct) (CSet []) s cur c = Res c' e false).
    { induction f as [|f IH]; intros cur c H F; [lia|]. cbn [search_loop].
      destruct (empty_set_fails (config_of fl ct) (group_names (CSet [])) s cur c success H) as [e ->].
      destruct (Nat.eqb_spec cur (length s)); [unfold non_match; eauto|]. apply IH; lia. }
    unfold search_method. destruct (L (S (length s - 0)) 0 (initial_captures (CSet []))) as (c' & e & E); [lia..|].
    cbn [flags]. rewrite E. now exists (mk_res c' false).
  - unfold regex_match, invoke. cbn [ast flags]. change (compilable _ _) with true. cbv iota.
    unfold match_method. rewrite full_set_steps by lia.
    destruct s as [|a [|b s]]; cbn; eexists; (split; [reflexivity|]); cbn; split; easy || lia.
Qed.

(** ** Undefined groups *)

Theorem undefined_number p n k rev id fl ct s mt K :
  parse p = P_ok n -> part 0 false n k rev (Backref id) -> length (scan InText p) < N.to_nat id ->
  invoke mt (mk_regex n fl) ct s = DoesNotCompile
  /\ range_of mt (mk_regex n fl) ct s = DoesNotCompile
  /\ generator_results mt (mk_regex n fl) ct s K = DoesNotCompile.
Proof.
  intros Hp Hx Hid. unfold invoke, range_of, generator_results. cbn [ast flags].
  destruct (compilable (config_of fl ct) n) eqn:E; [|easy].
  apply (compiles_exactly _ _ _ Hp) with (2 := Hx) in E. cbn in E. lia.
Qed.

Theorem undefined_name p n k rev nm fl ct s mt K :
  parse p = P_ok n -> part 0 false n k rev (NBackref nm) -> ~ In (Some nm) (scan InText p) ->
  invoke mt (mk_regex n fl) ct s = DoesNotCompile
  /\ range_of mt (mk_regex n fl) ct s = DoesNotCompile
  /\ generator_results mt (mk_regex n fl) ct s K = DoesNotCompile.
Proof.
  intros Hp Hx Hid. unfold invoke, range_of, generator_results. cbn [ast flags].
  destruct (compilable (config_of fl ct) n) eqn:E; [|easy].
  apply (compiles_exactly _ _ _ Hp) with (2 := Hx) in E. cbn in E. destruct E as [_ ([|i] & E & _)]; [discriminate|].
  destruct Hid. eapply nth_error_In. exact E.
Qed.
