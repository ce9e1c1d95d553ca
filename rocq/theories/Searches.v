(** The calls answer as [explore] says (Explore.v). *)
From Verif Require Import Matcher Basics Safe Impl Spec Paths Mirror Adequacy Calls Lift Matching Api
  Results Walk Exact Relate Tracks Tracking Explore Explored Follows.

Lemma names_in_spec n : names_in n = capture_name_spec n.
Proof. reflexivity. Qed.

Lemma all_names_spec n : all_names n = group_names n.
Proof. reflexivity. Qed.

Lemma no_groups_spec n : no_groups n = initial_captures n.
Proof. reflexivity. Qed.

Section Answers.
  Variable cf : config.
  Variable n : node.
  Variable s : list ascii.
  Hypothesis Hruns : runs cf n.
  Local Notation names := (group_names n).
  Local Notation gd := (good names s).
  Local Notation E := (explore cf names s 0 false n).

  Lemma node_follows cur c k : cur <= length s -> gd c -> polite names s cur k ->
    norm (node_match cf names s 0 n cur c k) = norm (follow s false (E cur c) k).
  Proof.
    intros Hc Hg Hk. destruct Hruns as [Hcm Hl].
    exact (follows cf names s (size n) 0 false n (le_n _) Hcm Hl cur c k Hc Hg Hk).
  Qed.

  Lemma E_sound i g : i <= length s -> gd g -> sound names s (beyond s false (may_be_empty n) i) (E i g).
  Proof. intros. now apply (explore_finder cf names s n 0 false). Qed.

  (** The first end with a property. *)
  Lemma follow_first_end p (k : cont) (P : nat -> Prop) t : (forall i, P i -> i <= length s) ->
    (forall j c, j <= length s -> k j c = Res c j (p j)) -> sound names s P t ->
    norm (follow s false t k)
    = match first_end p t with (Some e, g) => Res g e true | (None, g) => Res g 0 false end
    /\ gd (snd (first_end p t))
    /\ (forall e, fst (first_end p t) = Some e -> P e /\ p e = true).
  Proof.
    intros HP Hk Ht. induction t as [g|i g more IH]; cbn [follow first_end sound] in *.
    - cbn. repeat split; auto; try apply Ht; discriminate.
    - destruct Ht as (H1 & H2 & H3). cbn [Exact.pos]. rewrite Hk by auto. destruct (p i) eqn:Ep; cbn [or_else].
      + cbn. repeat split; auto; try apply H2; congruence.
      + apply IH. now apply H3.
  Qed.

  Definition at_offset (i : nat) (g : caps) : option nat * caps := first_end (fun _ => true) (E i g).

  Lemma run_first cur c : cur <= length s -> gd c ->
    norm (node_match cf names s 0 n cur c success)
    = match at_offset cur c with (Some e, g) => Res g e true | (None, g) => Res g 0 false end
    /\ gd (snd (at_offset cur c))
    /\ (forall e, fst (at_offset cur c) = Some e -> cur <= e <= length s).
  Proof.
    intros Hc Hg. rewrite node_follows by (auto; apply polite_success).
    destruct (follow_first_end (fun _ => true) success (beyond s false (may_be_empty n) cur) (E cur c)) as (H1 & H2 & H3).
    - intros i Hi. apply Hi.
    - reflexivity.
    - now apply E_sound.
    - split; [exact H1|]. split; [exact H2|]. intros e He. destruct (H3 e He) as [(B1 & B2 & _) _]. cbn in B2. lia.
  Qed.

  Lemma groups_length c : gd c -> exists v r, c = v :: r.
  Proof. intros [H _]. destruct c; [discriminate|eauto]. Qed.

  Lemma set_group0_tl b e c : gd c -> set_group0 b e c = Some (b, e) :: tl c.
  Proof. intros H. destruct (groups_length c H) as (v & r & ->). reflexivity. Qed.

  Lemma prefix_answer cur c : cur <= length s -> gd c ->
    match first_match cf names s n 0 cur c with
    | (Some (b, e), g) => b = cur /\ cur <= e <= length s
        /\ match_prefix_method cf n s cur c = Res (Some (b, e) :: tl g) e true
    | (None, g) => exists e, match_prefix_method cf n s cur c = Res (Some (cur, e) :: tl g) e false
    end.
  Proof.
    intros Hc Hg. destruct (run_first cur c Hc Hg) as (H1 & H2 & H3). unfold at_offset in *.
    cbn [first_match]. unfold match_prefix_method.
    destruct (first_end (fun _ => true) (E cur c)) as [[e|] g]; cbn [fst snd] in *.
    - apply (proj1 (norm_res _ _ _)) in H1. rewrite H1. split; [reflexivity|]. split; [now apply H3|].
      now rewrite set_group0_tl.
    - destruct (node_match cf names s 0 n cur c success) as [c' e' [|]| | |]; cbn [norm] in H1; try discriminate.
      injection H1 as ->. exists e'. now rewrite set_group0_tl.
  Qed.

  Lemma search_answer : forall count fuel cur c, cur + count = length s -> count < fuel -> gd c ->
    match first_match cf names s n count cur c with
    | (Some (b, e), g) => cur <= b <= e /\ e <= length s
        /\ search_loop fuel cf n s cur c = Res (Some (b, e) :: tl g) e true
    | (None, g) => exists e, search_loop fuel cf n s cur c = Res g e false
    end.
  Proof.
    induction count as [|count IH]; intros [|fuel] cur c Hcur Hf Hg; try lia;
      destruct (run_first cur c ltac:(lia) Hg) as (H1 & H2 & H3); unfold at_offset in *;
      cbn [first_match search_loop];
      destruct (first_end (fun _ => true) (E cur c)) as [[e|] g]; cbn [fst snd] in *.
    1,3: apply (proj1 (norm_res _ _ _)) in H1; rewrite H1; specialize (H3 e eq_refl);
      split; [lia|]; split; [lia|]; now rewrite set_group0_tl.
    - destruct (node_match cf names s 0 n cur c success) as [c' e' [|]| | |]; cbn [norm] in H1; try discriminate.
      injection H1 as ->. destruct (Nat.eqb_spec cur (length s)); [|lia]. unfold non_match. eauto.
    - destruct (node_match cf names s 0 n cur c success) as [c' e' [|]| | |]; cbn [norm] in H1; try discriminate.
      injection H1 as ->. destruct (Nat.eqb_spec cur (length s)); [lia|].
      specialize (IH fuel (S cur) g ltac:(lia) ltac:(lia) H2).
      destruct (first_match cf names s n count (S cur) g) as [[[b e]|] g']; [|exact IH].
      destruct IH as (I1 & I2 & I3). split; [lia|]. split; [lia|]. exact I3.
  Qed.

  (** ** Scans *)

  Variable mt : method.
  Variable step : nat -> option (nat * nat) * caps.
  Hypothesis Hstep : forall cur, cur <= length s ->
    match step cur with
    | (Some (b, e), g) => cur <= b <= e /\ e <= length s
        /\ mt cf n s cur (initial_captures n) = Res (Some (b, e) :: tl g) e true
    | (None, g) => exists g' e, mt cf n s cur (initial_captures n) = Res g' e false
    end.

  Lemma scan_answer : forall fuel cur, cur <= length s -> length s - cur < fuel ->
    exists l, range_elements (S fuel) mt cf n s (mk_gen cur true) = Returned l
      /\ Forall (fun x => matched x = true) l /\ map groups l = repeated step fuel cur.
  Proof.
    induction fuel as [|fuel IH]; intros cur Hc Hf; [lia|].
    change (exists l, match next mt cf n s (mk_gen cur true) with
              | Returned (r, g') =>
                  if matched r then
                    match range_elements (S fuel) mt cf n s g' with
                    | Returned l => Returned (r :: l)
                    | o => o
                    end
                  else Returned []
              | UndefinedBehaviour => UndefinedBehaviour
              | DoesNotCompile => DoesNotCompile
              | DoesNotReturn => DoesNotReturn
              end = Returned l /\ Forall (fun x => matched x = true) l
              /\ map groups l = repeated step (S fuel) cur).
    cbn [repeated]. specialize (Hstep cur Hc). unfold next. cbn [active current].
    destruct (step cur) as [[[b e]|] g].
    - destruct Hstep as (H1 & H2 & ->). cbn [to_call matched group0 hd cell_is_empty andb].
      destruct (Nat.eqb_spec b e) as [->|Hn]; cbn [negb].
      + exists [mk_res (Some (e, e) :: tl g) true]. repeat split; auto.
      + destruct (IH e ltac:(lia) ltac:(lia)) as (l & -> & Hl & Hm).
        exists (mk_res (Some (b, e) :: tl g) true :: l). repeat split; auto. cbn. now rewrite Hm.
    - destruct Hstep as (g' & e & ->). exists []. repeat split; auto.
  Qed.
End Answers.

(** ** The calls *)

Theorem match_explored r ct s : usable r ct ->
  exists res, regex_match r ct s = Returned res
    /\ match full_match (config_of (flags r) ct) (ast r) s with
       | (Some e, g) => matched res = true /\ groups res = Some (0, e) :: tl g
       | (None, g) => matched res = false /\ tl (groups res) = tl g
       end.
Proof.
  intros Hu. unfold regex_match, invoke. destruct Hu as [Hc Hl]. rewrite Hc.
  set (cf := config_of (flags r) ct) in *. set (n := ast r) in *.
  assert (Hr : runs cf n) by now split.
  unfold match_method, full_match. change (all_names n) with (group_names n); change (no_groups n) with (initial_captures n).
  destruct (follow_first_end n s (Nat.eqb (length s)) (equals (length s)) (beyond s false (may_be_empty n) 0)
              (explore cf (group_names n) s 0 false n 0 (initial_captures n))) as (H1 & H2 & _).
  - intros i Hi. apply Hi.
  - intros j c _. unfold equals. now rewrite Nat.eqb_sym.
  - apply E_sound; [lia|apply good_initial].
  - rewrite <- (node_follows cf n s Hr) in H1; [|lia|apply good_initial|apply polite_equals].
    destruct (first_end _ _) as [[e|] g]; cbn [snd] in *.
    + apply (proj1 (norm_res _ _ _)) in H1. rewrite H1. cbn [to_call]. eexists. split; [reflexivity|].
      cbn [matched groups]. split; [reflexivity|]. now apply (set_group0_tl n s).
    + destruct (node_match _ _ _ _ _ _ _ _) as [c' e' [|]| | |]; cbn [norm] in H1; try discriminate.
      injection H1 as ->. cbn [to_call]. eexists. split; [reflexivity|]. cbn [matched groups]. split; [reflexivity|].
      now rewrite (set_group0_tl n s).
Qed.

Theorem match_prefix_explored r ct s : usable r ct ->
  exists res, regex_match_prefix r ct s = Returned res
    /\ match prefix_match (config_of (flags r) ct) (ast r) s 0 with
       | (Some be, g) => matched res = true /\ groups res = Some be :: tl g
       | (None, g) => matched res = false /\ tl (groups res) = tl g
       end.
Proof.
  intros Hu. unfold regex_match_prefix, invoke. destruct Hu as [Hc Hl]. rewrite Hc.
  set (cf := config_of (flags r) ct) in *. set (n := ast r) in *.
  assert (Hr : runs cf n) by now split.
  unfold prefix_match. change (all_names n) with (group_names n); change (no_groups n) with (initial_captures n).
  pose proof (prefix_answer cf n s Hr 0 (initial_captures n) ltac:(lia) (good_initial _ _)) as H.
  destruct (first_match _ _ _ _ _ _ _) as [[[b e]|] g].
  - destruct H as (_ & _ & ->). eexists. split; [reflexivity|]. auto.
  - destruct H as [e ->]. eexists. split; [reflexivity|]. auto.
Qed.

Theorem search_explored r ct s : usable r ct ->
  exists res, regex_search r ct s = Returned res
    /\ match search_match (config_of (flags r) ct) (ast r) s 0 with
       | (Some be, g) => matched res = true /\ groups res = Some be :: tl g
       | (None, g) => matched res = false /\ groups res = g
       end.
Proof.
  intros Hu. unfold regex_search, invoke, search_method. destruct Hu as [Hc Hl]. rewrite Hc.
  set (cf := config_of (flags r) ct) in *. set (n := ast r) in *.
  assert (Hr : runs cf n) by now split.
  unfold search_match. change (all_names n) with (group_names n); change (no_groups n) with (initial_captures n); rewrite ?Nat.sub_0_r.
  pose proof (search_answer cf n s Hr (length s) (S (length s)) 0 (initial_captures n) ltac:(lia) ltac:(lia)
                (good_initial _ _)) as H.
  destruct (first_match _ _ _ _ _ _ _) as [[[b e]|] g].
  - destruct H as (_ & _ & ->). eexists. split; [reflexivity|]. auto.
  - destruct H as [e ->]. eexists. split; [reflexivity|]. auto.
Qed.

Theorem tokenize_explored r ct s : usable r ct ->
  exists l, tokenize r ct s = Returned l /\ Forall (fun x => matched x = true) l
    /\ map groups l = all_tokens (config_of (flags r) ct) (ast r) s.
Proof.
  intros Hu. unfold tokenize, range_of. destruct Hu as [Hc Hl]. rewrite Hc.
  set (cf := config_of (flags r) ct) in *. set (n := ast r) in *.
  assert (Hr : runs cf n) by now split.
  apply (scan_answer cf n s match_prefix_method (prefix_match cf n s)); [|lia|lia].
  intros cur Hcur. unfold prefix_match. change (all_names n) with (group_names n); change (no_groups n) with (initial_captures n).
  pose proof (prefix_answer cf n s Hr cur (initial_captures n) Hcur (good_initial _ _)) as H.
  destruct (first_match _ _ _ _ _ _ _) as [[[b e]|] g].
  - destruct H as (-> & H1 & H2). split; [lia|]. split; [lia|]. exact H2.
  - destruct H as [e H]. eauto.
Qed.

Theorem find_all_explored r ct s : usable r ct ->
  exists l, find_all r ct s = Returned l /\ Forall (fun x => matched x = true) l
    /\ map groups l = all_matches (config_of (flags r) ct) (ast r) s.
Proof.
  intros Hu. unfold find_all, range_of. destruct Hu as [Hc Hl]. rewrite Hc.
  set (cf := config_of (flags r) ct) in *. set (n := ast r) in *.
  assert (Hr : runs cf n) by now split.
  apply (scan_answer cf n s search_method (search_match cf n s)); [|lia|lia].
  intros cur Hcur. unfold search_match, search_method. change (all_names n) with (group_names n); change (no_groups n) with (initial_captures n).
  pose proof (search_answer cf n s Hr (length s - cur) (S (length s - cur)) cur (initial_captures n) ltac:(lia) ltac:(lia)
                (good_initial _ _)) as H.
  destruct (first_match _ _ _ _ _ _ _) as [[[b e]|] g].
  - exact H.
  - destruct H as [e H]. eauto.
Qed.
