(** What the example programs compute (C76). *)
From Verif Require Import Matcher Api Basics Safe Cong Impl Spec Paths Mirror Adequacy Calls
  Lift Matching Relate Runs Uniform Generators Scans Actual Exact Tracks Tracking Examples Contained Template.
From Coq Require Import Lia Arith NArith Bool List.
Import ListNotations.
Local Open Scope char_scope.
Local Open Scope nat_scope.

(** ** What simple trees describe *)

Section Described.
  Variable cf : config.

  Lemma iterate_class s c : is_class c = true -> forall n i j,
    iterate (matches cf s c) n i j
    <-> j = i + n /\ forall k, i <= k < j -> char_at s (accepts cf c) k = true.
  Proof.
    intros Hc n. induction n as [|n IH]; intros i j; cbn [iterate].
    - split; [intros ->; split; [lia|intros; lia]|intros [-> _]; lia].
    - split.
      + intros (k & Hk & H). apply (matches_class cf s c Hc) in Hk as [-> Hk]. apply IH in H as [-> H].
        split; [lia|]. intros m Hm. destruct (Nat.eq_dec m i) as [->|]; [exact Hk|]. apply H. lia.
      + intros [-> H]. exists (S i). split.
        * apply (matches_class cf s c Hc). split; [reflexivity|]. apply H. lia.
        * apply IH. split; [lia|]. intros m Hm. apply H. lia.
  Qed.

  Lemma all_chars_at (p : ascii -> bool) u :
    (forall k, k < length u -> char_at u p k = true) <-> Forall (fun a => p a = true) u.
  Proof.
    split.
    - intros H. apply Forall_forall. intros a Ha. apply In_nth_error in Ha as (k & E).
      assert (Hk : k < length u) by (apply nth_error_Some; congruence).
      specialize (H k Hk). unfold char_at in H. now rewrite E in H.
    - intros H k Hk. unfold char_at. destruct (nth_error u k) as [a|] eqn:E.
      + apply nth_error_In in E. rewrite Forall_forall in H. now apply H.
      + apply nth_error_None in E. lia.
  Qed.

  Lemma described_run md lo hi c u : is_class c = true ->
    (described cf (Rep md lo hi c) u
     <-> allowed lo hi (length u) /\ Forall (fun a => accepts cf c a = true) u).
  Proof.
    intros Hc. unfold described. cbn [matches]. split.
    - intros (n & Hn & H). apply (iterate_class u c Hc) in H as [E H]. cbn in E. subst n.
      split; [exact Hn|]. apply all_chars_at. intros k Hk. apply H. lia.
    - intros [Hn H]. exists (length u). split; [exact Hn|]. apply (iterate_class u c Hc).
      split; [reflexivity|]. intros k Hk. apply all_chars_at; [exact H|lia].
  Qed.

  Lemma described_class c u : is_class c = true ->
    (described cf c u <-> exists a, u = [a] /\ accepts cf c a = true).
  Proof.
    intros Hc. unfold described. rewrite (matches_class cf u c Hc). unfold char_at. split.
    - intros [E H]. destruct u as [|a [|]]; try discriminate. cbn in H. eauto.
    - intros (a & -> & H). auto.
  Qed.

  Lemma described_nil u : described cf (Seq []) u <-> u = [].
  Proof. unfold described. cbn. destruct u; cbn; split; congruence. Qed.

  Lemma described_cons x l u : self_contained x = true -> forallb self_contained l = true ->
    (described cf (Seq (x :: l)) u
     <-> exists v w, u = v ++ w /\ described cf x v /\ described cf (Seq l) w).
  Proof.
    intros Hx Hl. assert (Hs : self_contained (Seq l) = true) by exact Hl. split.
    - intros H. unfold described in H. apply (proj1 (matches_Seq cf u (x :: l) 0 (length u))) in H. destruct H as (k & H1 & H2).
      apply (proj2 (matches_Seq cf u l _ _)) in H2.
      pose proof (matches_bounds _ _ _ _ _ (Nat.le_0_l _) H1) as B1.
      exists (slice u 0 k), (slice u k (length u)). split; [|split].
      + rewrite <- slice_app by lia. now rewrite slice_all.
      + apply (proj1 (described_slice cf u x 0 k Hx ltac:(lia) ltac:(lia))), H1.
      + apply (proj1 (described_slice cf u (Seq l) k (length u) Hs ltac:(lia) ltac:(lia))), H2.
    - intros (v & w & -> & Hv & Hw). unfold described. apply (proj2 (matches_Seq cf (v ++ w) (x :: l) 0 (length (v ++ w)))).
      exists (length v). split.
      + exact (proj2 (matches_part cf [] v w x Hx 0 (length v) ltac:(lia) ltac:(lia)) Hv).
      + apply (proj1 (matches_Seq cf (v ++ w) l _ _)).
        pose proof (matches_part cf v w [] (Seq l) Hs 0 (length w) ltac:(lia) ltac:(lia)) as H.
        rewrite !app_nil_r, Nat.add_0_r in H. rewrite app_length. now apply H.
  Qed.
End Described.

(** ** Fixed texts and fields *)

Definition fixed (t : list ascii) : list piece := map (fun a => Plain (Lit a)) t.

Lemma described_char cf a u : icase cf = false -> (described cf (Lit a) u <-> u = [a]).
Proof.
  intros Hi. rewrite described_class by reflexivity. cbn [accepts]. unfold either_case. rewrite Hi. split.
  - intros (b & -> & H). rewrite orb_false_r in H. apply Ascii.eqb_eq in H. now subst.
  - intros ->. exists a. now rewrite Ascii.eqb_refl.
Qed.

Lemma divides_nil cf w f : divides cf [] w f <-> w = [] /\ f = [].
Proof. split; [intros H; now inversion H|intros [-> ->]; constructor]. Qed.

Lemma divides_fixed cf t r w f : icase cf = false ->
  (divides cf (fixed t ++ r) w f <-> exists v, w = t ++ v /\ divides cf r v f).
Proof.
  intros Hi. revert w. induction t as [|a t IH]; intros w; cbn [fixed map app].
  - split; [eauto|]. now intros (v & -> & H).
  - change (map (fun a => Plain (Lit a)) t) with (fixed t). split.
    + intros H. destruct (divides_cons _ _ _ _ _ H) as (u & v & g & -> & Hu & Hv & ->).
      apply (described_char cf a u Hi) in Hu as ->. apply IH in Hv as (v' & -> & Hv). exists v'. auto.
    + intros (v & -> & H). apply (div_plain cf (Lit a) (fixed t ++ r) [a] (t ++ v) f).
      * now apply described_char.
      * apply IH. eauto.
Qed.

Lemma divides_field cf nm x r w f : divides cf (Field nm x :: r) w f <->
  exists u v g, w = u ++ v /\ f = u :: g /\ described cf x u /\ divides cf r v g.
Proof.
  split.
  - intros H. destruct (divides_cons _ _ _ _ _ H) as (u & v & g & -> & Hu & Hv & ->). eauto 8.
  - intros (u & v & g & -> & -> & Hu & Hv). now constructor.
Qed.

Lemma delimited_fixed cf t r : delimited cf r -> delimited cf (fixed t ++ r).
Proof.
  intros H. induction t as [|a t IH]; [exact H|]. cbn [fixed map app delimited].
  change (map (fun a => Plain (Lit a)) t) with (fixed t). split; [exact IH|].
  destruct (fixed t ++ r); [exact I|]. left. intros u Hu. cbn [inside] in Hu.
  apply described_lit in Hu as (b & -> & _). reflexivity.
Qed.

Lemma delimited_field cf nm x d r : delimited cf (Plain (Lit d) :: r) ->
  (forall u, described cf x u -> Forall (fun a => accepts cf (Lit d) a = false) u) ->
  delimited cf (Field nm x :: Plain (Lit d) :: r).
Proof. intros H1 H2. split; [exact H1|]. right. exists d. auto. Qed.

Lemma simple_check ps :
  forallb (fun p => self_contained (inside p) && Nat.eqb (capture_count (inside p)) 0) ps = true -> simple_pieces ps.
Proof.
  intros H. apply Forall_forall. intros p Hp. rewrite forallb_forall in H. apply H in Hp.
  apply andb_true_iff in Hp as [H1 H2]. now apply Nat.eqb_eq in H2.
Qed.

(** ** Characters of the classes *)

Definition is_digit (a : ascii) : bool := Spec.between "0"%char "9"%char a.

Ltac all_bytes a := destruct a as [[] [] [] [] [] [] [] []].

Lemma accepts_word ct a : accepts (config_of [] ct) (tree "\w") a = is_word_char a.
Proof. destruct ct; all_bytes a; vm_compute; reflexivity. Qed.

Lemma accepts_digit ct a : accepts (config_of [] ct) (tree "\d") a = is_digit a.
Proof. destruct ct; all_bytes a; vm_compute; reflexivity. Qed.

Lemma accepts_upper ct a : accepts (config_of [] ct) (tree "[A-Z]") a = Spec.between "A"%char "Z"%char a.
Proof. destruct ct; all_bytes a; vm_compute; reflexivity. Qed.

Lemma accepts_lower ct a : accepts (config_of [] ct) (tree "[a-z]") a = Spec.between "a"%char "z"%char a.
Proof. destruct ct; all_bytes a; vm_compute; reflexivity. Qed.

Definition some (p : ascii -> bool) (w : list ascii) : Prop := w <> [] /\ Forall (fun a => p a = true) w.

Lemma allowed_some (w : list ascii) : allowed 1 Inf (length w) <-> w <> [].
Proof. unfold allowed. destruct w; cbn; split; intuition (try congruence; try lia). Qed.

Lemma Forall_iff {A} (P Q : A -> Prop) l : (forall a, P a <-> Q a) -> Forall P l <-> Forall Q l.
Proof. intros H. split; apply Forall_impl; intros a; apply H. Qed.

Lemma described_some cf md c p w : is_class c = true -> (forall a, accepts cf c a = p a) ->
  (described cf (Rep md 1 Inf c) w <-> some p w).
Proof.
  intros Hc Hp. rewrite described_run by exact Hc. rewrite allowed_some. unfold some.
  apply and_iff_compat_l, Forall_iff. intros a. now rewrite Hp.
Qed.

Lemma disjoint cf d p w : icase cf = false -> p d = false -> Forall (fun a => p a = true) w ->
  Forall (fun a => accepts cf (Lit d) a = false) w.
Proof.
  intros Hi Hd. apply Forall_impl. intros a Ha. cbn [accepts]. unfold either_case. rewrite Hi, orb_false_r.
  apply Ascii.eqb_neq. intros <-. congruence.
Qed.

(** ** example/basic.cpp *)

Lemma usable_all p fl : usable (rx p fl) ForwardIt -> usable (rx p fl) BidirectionalIt ->
  usable (rx p fl) RandomAccessIt -> forall ct, usable (rx p fl) ct.
Proof. now intros H1 H2 H3 []. Qed.

Ltac usable_ct := intros; apply usable_all; show_usable.

Theorem basic_words ct s : returns (regex_match (rx "ab+" []) ct s) (fun res =>
  matched res = true <-> exists k, s = "a"%char :: repeat "b"%char (S k)).
Proof.
  assert (Hu : usable (rx "ab+" []) ct) by usable_ct.
  destruct (match_language _ ct s Hu eq_refl eq_refl) as (res & E & H).
  exists res. split; [exact E|]. etransitivity; [exact H|].
  change (described (config_of [] ct) (Seq [Lit "a"%char; Rep Greedy 1 Inf (Lit "b"%char)]) s
    <-> exists k, s = "a"%char :: repeat "b"%char (S k)).
  rewrite described_cons by reflexivity. split.
  - intros (v & w & -> & Hv & Hw). apply described_cons in Hw as (w' & w'' & -> & Hw & Hn); try reflexivity.
    apply described_nil in Hn as ->. rewrite app_nil_r.
    apply described_char in Hv as ->; [|now destruct ct].
    apply (described_some _ _ _ (Ascii.eqb "b"%char)) in Hw as [Hn Hw]; try reflexivity.
    + destruct w' as [|b w]; [easy|]. exists (length w). cbn [app]. f_equal. clear - Hw.
      change (S (length w)) with (length (b :: w)). induction (b :: w) as [|c l IH]; [reflexivity|].
      inversion Hw as [|? ? Hc Hl]; subst. apply Ascii.eqb_eq in Hc. subst c. cbn. f_equal. now apply IH.
    + intros a. cbn [accepts]. unfold either_case. replace (icase _) with false by now destruct ct. apply orb_false_r.
  - intros (k & ->). exists ["a"%char], (repeat "b"%char (S k)). split; [reflexivity|].
    split; [now apply described_char; destruct ct|].
    apply described_cons; try reflexivity. exists (repeat "b"%char (S k)), []. rewrite app_nil_r.
    split; [reflexivity|]. split; [|now apply described_nil].
    apply (described_some _ _ _ (Ascii.eqb "b"%char)); try reflexivity.
    + intros a. cbn [accepts]. unfold either_case. replace (icase _) with false by now destruct ct. apply orb_false_r.
    + split; [easy|]. apply Forall_forall. intros a Ha. apply repeat_spec in Ha. now subst.
Qed.

(** ** example/extracting_captures.cpp *)

Definition record (s n a c : list ascii) : Prop :=
  s = str "Name: " ++ n ++ str ", age: " ++ a ++ str ", country: " ++ c ++ str ";"
  /\ some is_word_char n /\ some is_digit a /\ some is_word_char c.

Definition record_pieces : list piece :=
  fixed (str "Name: ") ++ Field None (tree "\w+") :: fixed (str ", age: ")
  ++ Field None (tree "\d+") :: fixed (str ", country: ")
  ++ Field (Some (str "country_name")) (tree "\w+") :: fixed (str ";").

Definition record_regex : regex :=
  rx "Name: (\w+), age: (\d+), country: (?<country_name>\w+);" [].

Lemma record_template : record_regex = mk_regex (template record_pieces) [].
Proof. vm_compute. reflexivity. Qed.

Lemma record_simple : simple_pieces record_pieces.
Proof. apply simple_check. vm_compute. reflexivity. Qed.

Lemma word_field ct u : described (config_of [] ct) (tree "\w+") u <-> some is_word_char u.
Proof.
  replace (tree "\w+") with (Rep Greedy 1 Inf (tree "\w")) by (vm_compute; reflexivity). apply described_some; [vm_compute; reflexivity|apply accepts_word].
Qed.

Lemma digit_field ct u : described (config_of [] ct) (tree "\d+") u <-> some is_digit u.
Proof.
  replace (tree "\d+") with (Rep Greedy 1 Inf (tree "\d")) by (vm_compute; reflexivity). apply described_some; [vm_compute; reflexivity|apply accepts_digit].
Qed.

Lemma plain_case ct : icase (config_of [] ct) = false.
Proof. now destruct ct. Qed.

Lemma fixed_last cf t w f : icase cf = false -> (divides cf (fixed t) w f <-> w = t /\ f = []).
Proof.
  intros Hi. pose proof (divides_fixed cf t [] w f Hi) as H. rewrite app_nil_r in H. rewrite H. split.
  - intros (v & -> & Hv). apply divides_nil in Hv as [-> ->]. now rewrite app_nil_r.
  - intros [-> ->]. exists []. rewrite app_nil_r. split; [reflexivity|]. now apply divides_nil.
Qed.

Lemma record_divides ct s f : divides (config_of [] ct) record_pieces s f
  <-> exists n a c, record s n a c /\ f = [n; a; c].
Proof.
  unfold record_pieces, record. rewrite divides_fixed by apply plain_case. split.
  - intros (v & -> & H). apply divides_field in H as (n & v1 & g1 & -> & -> & Hn & H).
    apply divides_fixed in H as (v2 & -> & H); [|apply plain_case].
    apply divides_field in H as (a & v3 & g2 & -> & -> & Ha & H).
    apply divides_fixed in H as (v4 & -> & H); [|apply plain_case].
    apply divides_field in H as (c & v5 & g3 & -> & -> & Hc & H).
    apply fixed_last in H as [-> ->]; [|apply plain_case].
    exists n, a, c. split; [|reflexivity]. split; [reflexivity|].
    split; [exact (proj1 (word_field ct n) Hn)|]. split; [exact (proj1 (digit_field ct a) Ha)|exact (proj1 (word_field ct c) Hc)].
  - intros (n & a & c & (-> & Hn & Ha & Hc) & ->). eexists. split; [reflexivity|].
    apply divides_field. exists n. eexists. eexists. split; [reflexivity|]. split; [reflexivity|].
    split; [exact (proj2 (word_field ct n) Hn)|]. apply divides_fixed; [apply plain_case|]. eexists. split; [reflexivity|].
    apply divides_field. exists a. eexists. eexists. split; [reflexivity|]. split; [reflexivity|].
    split; [exact (proj2 (digit_field ct a) Ha)|]. apply divides_fixed; [apply plain_case|]. eexists. split; [reflexivity|].
    apply divides_field. exists c. eexists. eexists. split; [reflexivity|]. split; [reflexivity|].
    split; [exact (proj2 (word_field ct c) Hc)|]. apply fixed_last; [apply plain_case|]. split; reflexivity.
Qed.

Lemma record_delimited ct : delimited (config_of [] ct) record_pieces.
Proof.
  unfold record_pieces. apply delimited_fixed. apply delimited_field.
  - apply (delimited_fixed _ (str ", age: ")). apply delimited_field.
    + apply (delimited_fixed _ (str ", country: ")). apply delimited_field.
      * apply (delimited_fixed _ (str ";") []). exact I.
      * intros u Hu. destruct (proj1 (word_field ct u) Hu) as [_ Hw]. clear Hu. apply (disjoint _ _ is_word_char); [apply plain_case|reflexivity|exact Hw].
    + intros u Hu. destruct (proj1 (digit_field ct u) Hu) as [_ Hw]. clear Hu. apply (disjoint _ _ is_digit); [apply plain_case|reflexivity|exact Hw].
  - intros u Hu. destruct (proj1 (word_field ct u) Hu) as [_ Hw]. clear Hu. apply (disjoint _ _ is_word_char); [apply plain_case|reflexivity|exact Hw].
Qed.

Lemma record_usable ct : usable record_regex ct.
Proof. unfold record_regex. usable_ct. Qed.

Theorem record_fields ct s : returns (regex_match record_regex ct s) (fun res =>
  (matched res = true <-> exists n a c, record s n a c)
  /\ forall n a c, record s n a c -> map (cell_content s) (groups res) = [s; n; a; c]
       /\ option_map (cell_content s) (group_named (ast record_regex) res (str "country_name")) = Some c).
Proof.
  pose proof (record_usable ct) as Hu. rewrite record_template in *.
  destruct (match_fields record_pieces [] ct Hu record_simple s) as (res & E & H1 & H2).
  exists res. split; [exact E|]. split.
  - rewrite H1. split.
    + intros (f & Hf). apply record_divides in Hf as (n & a & c & Hr & _). eauto.
    + intros (n & a & c & Hr). exists [n; a; c]. apply record_divides. eauto 6.
  - intros n a c Hr.
    assert (Hd : divides (config_of [] ct) record_pieces s [n; a; c]) by (apply record_divides; eauto 6).
    destruct (match_delimited record_pieces [] ct Hu record_simple s _ (record_delimited ct) Hd) as (res' & E' & _ & G).
    assert (res' = res) by congruence. subst res'. split; [exact G|].
    assert (Hl : length (groups res) = length (group_names (template record_pieces))).
    { rewrite <- (map_length (cell_content s)), G. vm_compute. reflexivity. }
    destruct (groups res) as [|c0 [|c1 [|c2 [|c3 [|]]]]] eqn:Eg; try discriminate.
    assert (Hc : group_named (template record_pieces) res (str "country_name") = Some c3).
    { unfold group_named. change (ast (mk_regex (template record_pieces) [])) with (template record_pieces).
      replace (unique_position (Some (str "country_name")) (group_names (template record_pieces))) with (Some 3)
        by (vm_compute; reflexivity).
      now rewrite Eg. }
    change (ast (mk_regex (template record_pieces) [])) with (template record_pieces). rewrite Hc.
    cbn [map] in G. injection G as _ _ _ G. cbn [option_map]. now rewrite G.
Qed.

(** ** example/optional.cpp *)

Definition announcement (s d : list ascii) : Prop :=
  s = str "Today is " ++ d
  /\ exists a w, d = a :: w /\ Spec.between "A"%char "Z"%char a = true /\ some (Spec.between "a"%char "z"%char) w.

Definition today_pieces : list piece :=
  fixed (str "Today is ") ++ [Field (Some (str "day")) (tree "[A-Z][a-z]+")].

Definition today_regex : regex := rx "Today is (?<day>[A-Z][a-z]+)" [].

Lemma today_template : today_regex = mk_regex (template today_pieces) [].
Proof. vm_compute. reflexivity. Qed.

Lemma upper_class : is_class (tree "[A-Z]") = true. Proof. vm_compute. reflexivity. Qed.
Lemma lower_class : is_class (tree "[a-z]") = true. Proof. vm_compute. reflexivity. Qed.
Lemma lower_contained : self_contained (Rep Greedy 1 Inf (tree "[a-z]")) = true. Proof. vm_compute. reflexivity. Qed.

Lemma day_field ct d : described (config_of [] ct) (tree "[A-Z][a-z]+") d
  <-> exists a w, d = a :: w /\ Spec.between "A"%char "Z"%char a = true /\ some (Spec.between "a"%char "z"%char) w.
Proof.
  replace (tree "[A-Z][a-z]+") with (Seq [tree "[A-Z]"; Rep Greedy 1 Inf (tree "[a-z]")]) by (vm_compute; reflexivity).
  rewrite described_cons by (vm_compute; reflexivity). split.
  - intros (v & w & -> & Hv & Hw).
    apply (proj1 (described_class _ _ _ upper_class)) in Hv as (a & -> & Ha).
    rewrite accepts_upper in Ha.
    apply (proj1 (described_cons _ _ [] _ lower_contained eq_refl)) in Hw as (w' & w'' & -> & Hw & Hn).
    apply (proj1 (described_nil _ _)) in Hn as ->. rewrite app_nil_r.
    apply (proj1 (described_some _ _ _ (Spec.between "a"%char "z"%char) _ lower_class (accepts_lower ct))) in Hw.
    exists a, w'. auto.
  - intros (a & w & -> & Ha & Hw). exists [a], w. split; [reflexivity|]. split.
    + apply (proj2 (described_class _ _ _ upper_class)). exists a. now rewrite accepts_upper.
    + apply (proj2 (described_cons _ _ [] _ lower_contained eq_refl)). exists w, [].
      rewrite app_nil_r. split; [reflexivity|]. split; [|exact (proj2 (described_nil _ []) eq_refl)].
      exact (proj2 (described_some _ _ _ (Spec.between "a"%char "z"%char) _ lower_class (accepts_lower ct)) Hw).
Qed.

Lemma today_divides ct s f : divides (config_of [] ct) today_pieces s f
  <-> exists d, announcement s d /\ f = [d].
Proof.
  unfold today_pieces, announcement. rewrite divides_fixed by apply plain_case. split.
  - intros (v & -> & H). apply divides_field in H as (d & v1 & g1 & -> & -> & Hd & H).
    apply divides_nil in H as [-> ->]. exists d. rewrite app_nil_r.
    split; [|reflexivity]. split; [reflexivity|]. exact (proj1 (day_field ct d) Hd).
  - intros (d & (-> & Hd) & ->). exists d. split; [reflexivity|].
    apply divides_field. exists d, [], []. rewrite app_nil_r. split; [reflexivity|]. split; [reflexivity|].
    split; [exact (proj2 (day_field ct d) Hd)|]. apply divides_nil. split; reflexivity.
Qed.

(** example/optional.cpp:21-29 [try_parse_day], with [detail::transform] (8-16) written
    out; the view is represented by its characters. *)
Definition try_parse_day (ct : category) (s : list ascii) : call (option (list ascii)) :=
  match regex_match today_regex ct s with
  | Returned res =>
      match as_optional res with
      | Some r => Returned (option_map (cell_content s) (group_named (ast today_regex) r (str "day")))
      | None => Returned None
      end
  | UndefinedBehaviour => UndefinedBehaviour
  | DoesNotCompile => DoesNotCompile
  | DoesNotReturn => DoesNotReturn
  end.

Lemma today_simple : simple_pieces today_pieces.
Proof. apply simple_check. vm_compute. reflexivity. Qed.

Theorem parsed_day ct s : returns (try_parse_day ct s) (fun o => forall d, o = Some d <-> announcement s d).
Proof.
  assert (Hu : usable today_regex ct) by (unfold today_regex; usable_ct).
  unfold try_parse_day. rewrite today_template in *.
  destruct (match_fields today_pieces [] ct Hu today_simple s) as (res & E & H1 & H2).
  rewrite E. unfold as_optional. destruct (matched res) eqn:Em.
  - destruct (H2 eq_refl) as (f & Hf & G). apply today_divides in Hf as (d & Hd & ->).
    eexists. split; [reflexivity|]. cbv beta.
    destruct (groups res) as [|c0 [|c1 [|]]] eqn:Eg; try discriminate.
    assert (Hc : group_named (template today_pieces) res (str "day") = Some c1).
    { unfold group_named.
      replace (unique_position (Some (str "day")) (group_names (template today_pieces))) with (Some 1)
        by (vm_compute; reflexivity).
      now rewrite Eg. }
    change (ast (mk_regex (template today_pieces) [])) with (template today_pieces). rewrite Hc.
    cbn [map] in G. injection G as _ G. cbn [option_map]. rewrite G. intros d'. split.
    + intros X. injection X as <-. exact Hd.
    + intros [E' _]. destruct Hd as [Ed _]. f_equal. rewrite Ed in E'. now apply app_inv_head in E'.
  - exists None. split; [reflexivity|]. intros d. split; [discriminate|]. intros Hd. exfalso.
    assert (X : false = true) by (apply H1; exists [d]; apply today_divides; eauto). discriminate.
Qed.

(** ** example/structured_bindings.cpp *)

Definition digits (lo hi : nat) (w : list ascii) : Prop :=
  lo <= length w <= hi /\ Forall (fun a => is_digit a = true) w.

Definition date (s d m y : list ascii) : Prop :=
  s = d ++ str "/" ++ m ++ str "/" ++ y /\ digits 1 2 d /\ digits 1 2 m /\ digits 2 4 y.

Definition date_pieces : list piece :=
  Field None (tree "\d{1,2}") :: fixed (str "/") ++ Field None (tree "\d{1,2}") :: fixed (str "/")
  ++ [Field None (tree "\d{2,4}")].

Definition date_regex : regex := rx "(\d{1,2})/(\d{1,2})/(\d{2,4})" [].

Lemma date_template : date_regex = mk_regex (template date_pieces) [].
Proof. vm_compute. reflexivity. Qed.

Lemma date_simple : simple_pieces date_pieces.
Proof. apply simple_check. vm_compute. reflexivity. Qed.

Lemma digits_field ct lo hi u :
  described (config_of [] ct) (Rep Greedy (N.of_nat lo) (Fin (N.of_nat hi)) (tree "\d")) u <-> digits lo hi u.
Proof.
  rewrite described_run by (vm_compute; reflexivity). unfold digits, allowed.
  rewrite (Forall_iff _ (fun a => is_digit a = true)) by (intros a; now rewrite accepts_digit).
  split; intros [H1 H2]; (split; [lia|exact H2]).
Qed.

Lemma short_field ct u : described (config_of [] ct) (tree "\d{1,2}") u <-> digits 1 2 u.
Proof.
  replace (tree "\d{1,2}") with (Rep Greedy (N.of_nat 1) (Fin (N.of_nat 2)) (tree "\d")) by (vm_compute; reflexivity).
  apply digits_field.
Qed.

Lemma year_field ct u : described (config_of [] ct) (tree "\d{2,4}") u <-> digits 2 4 u.
Proof.
  replace (tree "\d{2,4}") with (Rep Greedy (N.of_nat 2) (Fin (N.of_nat 4)) (tree "\d")) by (vm_compute; reflexivity).
  apply digits_field.
Qed.

Lemma date_divides ct s f : divides (config_of [] ct) date_pieces s f
  <-> exists d m y, date s d m y /\ f = [d; m; y].
Proof.
  unfold date_pieces, date. split.
  - intros H. apply divides_field in H as (d & v1 & g1 & -> & -> & Hd & H).
    apply divides_fixed in H as (v2 & -> & H); [|apply plain_case].
    apply divides_field in H as (m & v3 & g2 & -> & -> & Hm & H).
    apply divides_fixed in H as (v4 & -> & H); [|apply plain_case].
    apply divides_field in H as (y & v5 & g3 & -> & -> & Hy & H).
    apply divides_nil in H as [-> ->]. exists d, m, y. rewrite app_nil_r.
    split; [|reflexivity]. split; [reflexivity|].
    split; [exact (proj1 (short_field ct d) Hd)|].
    split; [exact (proj1 (short_field ct m) Hm)|exact (proj1 (year_field ct y) Hy)].
  - intros (d & m & y & (-> & Hd & Hm & Hy) & ->).
    apply divides_field. exists d. eexists. eexists. split; [reflexivity|]. split; [reflexivity|].
    split; [exact (proj2 (short_field ct d) Hd)|].
    apply divides_fixed; [apply plain_case|]. eexists. split; [reflexivity|].
    apply divides_field. exists m. eexists. eexists. split; [reflexivity|]. split; [reflexivity|].
    split; [exact (proj2 (short_field ct m) Hm)|].
    apply divides_fixed; [apply plain_case|]. exists y. split; [reflexivity|].
    apply divides_field. exists y, [], []. rewrite app_nil_r. split; [reflexivity|]. split; [reflexivity|].
    split; [exact (proj2 (year_field ct y) Hy)|]. apply divides_nil. split; reflexivity.
Qed.

(** The bound variables, after [as_memory_owner]. *)
Theorem found_date ct s : returns (regex_search date_regex ct s) (fun res =>
  (matched res = true <-> exists x u z d m y, s = x ++ u ++ z /\ date u d m y)
  /\ (matched res = true -> exists x u z d m y, s = x ++ u ++ z /\ date u d m y
        /\ owned_groups (as_memory_owner s res) = [u; d; m; y]
        /\ forall x' u' z' d' m' y', s = x' ++ u' ++ z' -> date u' d' m' y' -> length x <= length x')).
Proof.
  assert (Hu : usable date_regex ct) by (unfold date_regex; usable_ct). rewrite date_template in *.
  destruct (search_fields date_pieces [] ct Hu date_simple s) as (res & E & H1 & H2).
  exists res. split; [exact E|]. split.
  - etransitivity; [exact H1|]. split.
    + intros (x & u & z & f & Es & Hf). apply date_divides in Hf as (d & m & y & Hd & _). eauto 10.
    + intros (x & u & z & d & m & y & Es & Hd). exists x, u, z, [d; m; y]. split; [exact Es|]. apply date_divides. eauto 6.
  - intros Hm. destruct (H2 Hm) as (x & u & z & f & Es & Hf & G & Hl).
    apply date_divides in Hf as (d & m & y & Hd & ->). exists x, u, z, d, m, y.
    split; [exact Es|]. split; [exact Hd|]. split; [exact G|].
    intros x' u' z' d' m' y' Es' Hd'. apply (Hl x' u' z' [d'; m'; y'] Es'). apply date_divides. eauto 6.
Qed.
