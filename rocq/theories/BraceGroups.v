(** What a brace that does not start a quantifier stands for (C33, in full). *)
From Verif Require Import Parser Basics Normal Syntax Steps Typing Shape Reading Accepted Print Braces.
From Coq Require Import Lia.

(** ** Specification *)

(** Where a reading from the left has arrived: in a set or not. *)
Fixpoint scan (st : reading) (t : text) : reading :=
  match t with
  | [] => st
  | c :: r =>
      scan (match st with
            | Outside => if Ascii.eqb c "\" then Escape else if Ascii.eqb c "[" then Inside else Outside
            | Escape => Outside
            | Inside => if Ascii.eqb c "\" then InsideEscape else if Ascii.eqb c "]" then Outside else Inside
            | InsideEscape => Inside
            end) r
  end.

(** What stands in front of the brace: a piece, or another such brace, which is escaped too. *)
Definition lead (u u' : text) : Prop :=
  (u' = u /\ exists f x, piece f u x) \/ (u = str "{" /\ u' = str "\{").

(** The piece in front of the brace, the brace and the rest of the group, in a group of
    their own. *)
Definition regrouped (last : bool) (p1 p2 t : text) : Prop :=
  exists p0 u u' m p3, p1 = p0 ++ u /\ p2 = m ++ p3 /\ lead u u'
    /\ (exists y, body (u' ++ str "\{" ++ m) y)
    /\ (if last then p3 = [] else hd_error p3 = Some ")"%char)
    /\ t = p0 ++ str "(?:" ++ u' ++ str "\{" ++ m ++ str ")" ++ p3.

Definition inner (p1 p2 t : text) : Prop :=
  (scan Outside p1 = Inside /\ t = escaped p1 p2) \/ (scan Outside p1 = Outside /\ regrouped false p1 p2 t).
Definition outer (p1 p2 t : text) : Prop := scan Outside p1 = Outside /\ regrouped true p1 p2 t.

(** ** Readings *)

Lemma scan_app st a b : scan st (a ++ b) = scan (scan st a) b.
Proof. revert st. induction a as [|c a IH]; intros st; [reflexivity|]. cbn [app scan]. apply IH. Qed.

Lemma scan_neutral t : forallb neutral t = true -> scan Outside t = Outside.
Proof.
  induction t as [|c t IH]; [reflexivity|]. cbn [forallb]. intros H. apply andb_prop in H as [Hc H].
  cbn [scan]. replace (if Ascii.eqb c "\" then Escape else if Ascii.eqb c "[" then Inside else Outside) with Outside; [now apply IH|].
  revert Hc. clear. destruct c as [[] [] [] [] [] [] [] []]; intros Hc; try discriminate Hc; reflexivity.
Qed.

Lemma scan_escape x r : forallb neutral r = true -> scan Outside ("\"%char :: x :: r) = Outside.
Proof. intros H. cbn [scan Ascii.eqb Bool.eqb]. now apply scan_neutral. Qed.

(** No end of the set in this text. *)
Fixpoint unclosed (t : text) : bool :=
  match t with
  | [] => true
  | c :: r => if Ascii.eqb c "\" then match r with [] => true | _ :: r' => unclosed r' end
              else if Ascii.eqb c "]" then false else unclosed r
  end.

Lemma unclosed_prefix a : forall b, unclosed (a ++ b) = true -> unclosed a = true.
Proof.
  assert (G : forall k a b, length a <= k -> unclosed (a ++ b) = true -> unclosed a = true).
  2:{ intros b. now apply (G (length a)). }
  clear a. induction k as [|k IH]; intros [|c a] b Hk H; try reflexivity; cbn in Hk; try lia.
  cbn [unclosed app] in *. destruct (Ascii.eqb c "\").
  - destruct a as [|c' a]; [reflexivity|]. cbn [length app] in *. eapply IH; [lia|exact H].
  - destruct (Ascii.eqb c "]"); [discriminate|]. eapply IH; [lia|exact H].
Qed.

Lemma unclosed_app a : forall b, unescaped a = true -> unclosed a = true -> unclosed (a ++ b) = unclosed b.
Proof.
  assert (G : forall k a b, length a <= k -> unescaped a = true -> unclosed a = true -> unclosed (a ++ b) = unclosed b).
  2:{ intros b. now apply (G (length a)). }
  clear a. induction k as [|k IH]; intros [|c a] b Hk H Hu; try reflexivity; cbn in Hk; try lia.
  cbn [unclosed unescaped app] in *. destruct (Ascii.eqb c "\").
  - destruct a as [|c' a]; [discriminate|]. cbn [length app] in *. apply IH; [lia|exact H|exact Hu].
  - destruct (Ascii.eqb c "]"); [discriminate|]. apply IH; [lia|exact H|exact Hu].
Qed.

Lemma scan_inside a : unescaped a = true -> unclosed a = true -> scan Inside a = Inside.
Proof.
  assert (G : forall k a, length a <= k -> unescaped a = true -> unclosed a = true -> scan Inside a = Inside).
  2:{ now apply (G (length a)). }
  clear a. induction k as [|k IH]; intros [|c a] Hk H Hu; try reflexivity; cbn in Hk; try lia.
  cbn [unclosed unescaped scan] in *. destruct (Ascii.eqb c "\").
  - destruct a as [|c' a]; [discriminate|]. cbn [length scan] in *. apply IH; [lia|exact H|exact Hu].
  - destruct (Ascii.eqb c "]"); [discriminate|]. apply IH; [lia|exact H|exact Hu].
Qed.

Lemma unclosed_neutral t : forallb neutral t = true -> unclosed t = true.
Proof.
  induction t as [|c t IH]; [reflexivity|]. cbn [forallb unclosed]. intros H. apply andb_prop in H as [Hc H].
  revert Hc. destruct (Ascii.eqb_spec c "\"); [subst; discriminate|].
  destruct (Ascii.eqb_spec c "]"); [subst; discriminate|]. intros _. now apply IH.
Qed.

Lemma set_unclosed fresh l t l' : set_body fresh l t l' -> unclosed t = true.
Proof.
  assert (E : forall x e t, forallb neutral e = true -> unclosed t = true -> unclosed (("\"%char :: x :: e) ++ t) = true).
  { intros x e t0 He Ht. cbn. rewrite unclosed_app; [exact Ht|now apply neutral_unescaped|now apply unclosed_neutral]. }
  assert (C : forall c t, among c (str "\]") = false -> unclosed t = true -> unclosed (c :: t) = true).
  { intros c t0 Hc Ht. cbn. destruct (Ascii.eqb_spec c "\"); [subst; discriminate|].
    destruct (Ascii.eqb_spec c "]"); [subst; discriminate|exact Ht]. }
  assert (R : forall e b t, range_end e b -> unclosed t = true -> unclosed ("-"%char :: e ++ t) = true).
  { intros e b t0 He Ht. apply C; [reflexivity|]. apply range_end_text in He.
    destruct He as [[-> Hb]|(x & r & -> & Hr)]; [now apply C|now apply E]. }
  induction 1.
  - reflexivity.
  - apply C; [|exact IHset_body]. revert H. clear. sweep c.
  - now apply C.
  - apply char_escape_text in H. destruct H as (x & r & -> & Hr). now apply E.
  - apply class_escape_text in H. destruct H as (x & r & -> & Hr). now apply E.
  - now apply (R e b).
  - now apply (R e b).
  - reflexivity.
Qed.

Lemma bounds_scan q lo hi : bounds q lo hi -> scan Outside q = Outside.
Proof.
  intros H. apply bounds_neutral in H. destruct H as [H|(d & r & -> & _ & H)]; [now apply scan_neutral|].
  exact (scan_neutral _ H).
Qed.

Local Notation passes t := (scan Outside t = Outside).

Lemma scan_both a b : passes a -> passes b -> passes (a ++ b).
Proof. intros Ha Hb. rewrite scan_app, Ha. exact Hb. Qed.

Lemma syntax_scans :
  (forall f t n, piece f t n -> passes t) /\ (forall f t n, item f t n -> passes t)
  /\ (forall f n t f' n', suffix f n t f' n' -> passes t)
  /\ (forall f n t f' n', more_items f n t f' n' -> passes t)
  /\ (forall f n t f' n', more_branches f n t f' n' -> passes t)
  /\ (forall f t n, branch f t n -> passes t) /\ (forall t n, body t n -> passes t).
Proof.
  apply (pattern_mind (fun _ t _ => passes t) (fun _ t _ => passes t)
    (fun _ _ t _ _ => passes t) (fun _ _ t _ _ => passes t) (fun _ _ t _ _ => passes t)
    (fun _ t _ => passes t) (fun t _ => passes t)).
  - intros c H. revert H. destruct c as [[] [] [] [] [] [] [] []]; intros H; try discriminate H; reflexivity.
  - reflexivity.
  - intros t c H. apply char_escape_text in H. destruct H as (x & r & -> & H). now apply scan_escape.
  - intros t n H. apply class_escape_text in H. destruct H as (x & r & -> & H). now apply scan_escape.
  - intros t l _ H. pose proof (set_unclosed _ _ _ _ H). apply set_text in H as [H1 _].
    change (scan Inside (t ++ str "]") = Outside). rewrite scan_app, scan_inside by assumption. reflexivity.
  - intros t l H. pose proof (set_unclosed _ _ _ _ H). apply set_text in H as [H1 _].
    change (scan Inside (t ++ str "]") = Outside). rewrite scan_app, scan_inside by assumption. reflexivity.
  - intros o F t n Ho _ H. apply opening_neutral in Ho.
    change (scan Outside (o ++ t ++ str ")") = Outside). rewrite scan_app, scan_neutral by exact Ho. now apply scan_both.
  - intros d ds H1 H2 H3. apply (scan_escape d ds). now apply digits_neutral.
  - intros nm H. apply (scan_escape "k" (str "<" ++ nm ++ str ">")). rewrite !forallb_app, (valid_neutral nm H). reflexivity.
  - intros t n H. cbn [anchors In] in H. table H; reflexivity.
  - intros. now apply scan_both.
  - reflexivity.
  - intros f n q lo hi md H. apply scan_both; [eapply bounds_scan; eauto|apply scan_neutral, mode_neutral].
  - intros. apply (scan_both (str "{")); [reflexivity|]. auto using scan_both.
  - reflexivity.
  - intros. now apply scan_both.
  - reflexivity.
  - intros. apply (scan_both (str "|")); [reflexivity|]. auto using scan_both.
  - intros. now apply scan_both.
  - reflexivity.
  - intros. now apply scan_both.
Qed.

(** ** Texts with a brace *)

Definition brace_in (t p1 p2 : text) : Prop := t = raw p1 p2 /\ unescaped p1 = true /\ not_digit p2.

Lemma brace_in_split a b p1 p2 : brace_in (a ++ b) p1 p2 -> unescaped a = true ->
  (exists m, brace_in a p1 m /\ p2 = m ++ b) \/ (exists m, p1 = a ++ m /\ brace_in b m p2).
Proof.
  intros (E & Hu & Hd) Ha. apply split_raw in E. destruct E as [(m & -> & ->)|(m & -> & ->)].
  - left. exists m. split; [|reflexivity]. split; [reflexivity|]. split; [exact Hu|]. now destruct m.
  - right. exists m. split; [reflexivity|]. split; [reflexivity|]. rewrite unescaped_app in Hu by exact Ha. auto.
Qed.

Lemma neutral_brace_in t p1 p2 : forallb neutral t = true -> brace_in t p1 p2 -> False.
Proof. intros H (E & _). eapply neutral_raw; eauto. Qed.
Lemma escape_brace_in e p1 p2 : (exists x r, e = "\"%char :: x :: r /\ forallb neutral r = true) ->
  brace_in e p1 p2 -> False.
Proof. intros H (E & Hu & _). eapply escape_raw; eauto. Qed.

(** ** Moving along *)

Lemma regrouped_left a l m p2 t : regrouped l m p2 t -> regrouped l (a ++ m) p2 (a ++ t).
Proof.
  intros (p0 & u & u' & k & p3 & -> & -> & Hl & Hb & He & ->).
  exists (a ++ p0), u, u', k, p3. rewrite <- !app_assoc. auto 10.
Qed.

Lemma inner_left a m p2 t : passes a -> inner m p2 t -> inner (a ++ m) p2 (a ++ t).
Proof.
  intros Ha [[Hs ->]|[Hs H]]; [left|right]; rewrite scan_app, Ha; (split; [exact Hs|]).
  - symmetry. apply escaped_app_r.
  - now apply regrouped_left.
Qed.
Lemma outer_left a m p2 t : passes a -> outer m p2 t -> outer (a ++ m) p2 (a ++ t).
Proof. intros Ha [Hs H]. split; [now rewrite scan_app, Ha|now apply regrouped_left]. Qed.

Lemma inner_right p1 m b t : inner p1 m t -> inner p1 (m ++ b) (t ++ b).
Proof.
  intros [[Hs ->]|[Hs H]]; [left|right]; (split; [exact Hs|]).
  - symmetry. apply escaped_app_l.
  - destruct H as (p0 & u & u' & k & p3 & -> & -> & Hl & Hb & He & ->).
    exists p0, u, u', k, (p3 ++ b). rewrite <- !app_assoc. repeat (split; [now auto|]). split; [|reflexivity].
    destruct p3; [discriminate He|exact He].
Qed.
Lemma outer_closed p1 m b t : outer p1 m t -> hd_error b = Some ")"%char -> inner p1 (m ++ b) (t ++ b).
Proof.
  intros [Hs H] Hb'. right. split; [exact Hs|].
  destruct H as (p0 & u & u' & k & p3 & -> & -> & Hl & Hb & -> & ->).
  exists p0, u, u', k, b. rewrite <- !app_assoc. auto 10.
Qed.

(** The beginning of the text stays what it was, or is an opening bracket or a backslash. *)
Lemma regrouped_begins l p1 p2 t r : regrouped l p1 p2 t -> not_digit (raw p1 p2 ++ r) -> not_digit (t ++ r).
Proof.
  intros (p0 & u & u' & k & p3 & -> & -> & Hl & Hb & He & ->) H. destruct p0; [reflexivity|]. exact H.
Qed.
Lemma inner_begins p1 p2 t r : inner p1 p2 t -> not_digit (raw p1 p2 ++ r) -> not_digit (t ++ r).
Proof.
  intros [[_ ->]|[_ H]]; [apply not_digit_escaped|eapply regrouped_begins; eauto].
Qed.
Lemma outer_begins p1 p2 t r : outer p1 p2 t -> not_digit (raw p1 p2 ++ r) -> not_digit (t ++ r).
Proof. intros [_ H]. eapply regrouped_begins; eauto. Qed.

Lemma allows_begins f t t' : allows f t -> f <> GroupEnd -> (not_digit t -> not_digit t') -> allows f t'.
Proof. destruct f; cbn; auto. congruence. Qed.

Lemma item_allows f g t n : item g t n -> allows f t -> f <> GroupEnd.
Proof.
  intros Hi Ha ->. apply item_begins in Hi. destruct t as [|c t]; [easy|]. cbn in Ha. subst c. discriminate Hi.
Qed.

(** ** The brace itself *)

Lemma brace_here f n p2 f' n' g u : suffix f n (raw [] p2) f' n' -> not_digit p2 ->
  item g u n -> g <> GroupEnd ->
  f' = GroupEnd /\ body (u ++ str "\{" ++ p2) n'.
Proof.
  intros H Hd Hu Hg. remember (raw [] p2) as t eqn:E. destruct H as [f n|f n q lo hi md Hq|f n t1 f1 n1 t2 f2 n2 t3 f3 n3 H1 H2 H3 Hnd].
  - discriminate E.
  - exfalso. apply bounds_neutral in Hq. destruct Hq as [Hq|(d & q' & -> & Hq1 & Hq2)].
    + eapply (neutral_raw (q ++ mode_text md)); [|exact E]. rewrite forallb_app, Hq. apply mode_neutral.
    + unfold raw in E. cbn [app] in E. injection E as <-. cbn in Hd. congruence.
  - unfold raw in E. cbn [str String.list_ascii_of_string app] in E. injection E as <-. split; [reflexivity|].
    replace (u ++ str "\{" ++ t1 ++ t2 ++ t3) with ((u ++ (str "\{" ++ t1) ++ t2) ++ t3)
      by (rewrite <- !app_assoc; reflexivity).
    eapply y_branches; [|exact H3]. eapply b_items; [exact Hu|].
    eapply m_item; [eapply i_unit; [apply u_escape; now apply ce_self|exact H1]| |exact H2].
    destruct g; [exact I|reflexivity|congruence].
Qed.

Lemma group_item t n : body t n -> item Anything (str "(?:" ++ t ++ str ")") n.
Proof. intros H. apply piece_item, wrap_piece, H. Qed.

Lemma here_regrouped u u' p2 y : lead u u' -> passes u -> body (u' ++ str "\{" ++ p2) y ->
  outer u p2 (str "(?:" ++ (u' ++ str "\{" ++ p2) ++ str ")").
Proof.
  intros Hl Hu Hb. split; [exact Hu|]. exists [], u, u', p2, [].
  split; [reflexivity|]. split; [symmetry; apply app_nil_r|]. split; [exact Hl|]. split; [eauto|]. split; [reflexivity|].
  rewrite <- !app_assoc. reflexivity.
Qed.

Theorem syntax_regrouped :
  (forall f t n, piece f t n -> forall p1 p2, brace_in t p1 p2 -> exists t', inner p1 p2 t' /\ piece f t' n)
  /\ (forall f t n, item f t n -> forall p1 p2, brace_in t p1 p2 ->
        exists t', (inner p1 p2 t' /\ item f t' n)
          \/ (f = GroupEnd /\ outer p1 p2 t' /\ exists f', branch f' t' n))
  /\ (forall f n t f' n', suffix f n t f' n' -> forall p1 p2, brace_in t p1 p2 -> p1 <> [] -> f <> GroupEnd ->
        exists t', (inner p1 p2 t' /\ suffix f n t' f' n')
          \/ (f' = GroupEnd /\ outer p1 p2 t'
              /\ (suffix f n t' GroupEnd n' \/ exists f'', more_items f n t' f'' n')))
  /\ (forall f n t f' n', more_items f n t f' n' -> forall p1 p2, brace_in t p1 p2 ->
        exists t', (inner p1 p2 t' /\ more_items f n t' f' n')
          \/ (f' = GroupEnd /\ outer p1 p2 t' /\ exists f'', more_items f n t' f'' n'))
  /\ (forall f n t f' n', more_branches f n t f' n' -> forall p1 p2, brace_in t p1 p2 ->
        exists t', (inner p1 p2 t' /\ more_branches f n t' f' n')
          \/ (f' = GroupEnd /\ outer p1 p2 t' /\ exists f'', more_branches f n t' f'' n'))
  /\ (forall f t n, branch f t n -> forall p1 p2, brace_in t p1 p2 ->
        exists t', (inner p1 p2 t' /\ branch f t' n)
          \/ (f = GroupEnd /\ outer p1 p2 t' /\ exists f', branch f' t' n))
  /\ (forall t n, body t n -> forall p1 p2, brace_in t p1 p2 ->
        exists t', (inner p1 p2 t' \/ outer p1 p2 t') /\ body t' n).
Proof.
  destruct syntax_passes as (Ppiece & Pitem & Psuffix & Pitems & Pbranches & Pbranch & Pbody).
  destruct syntax_scans as (Spiece & Sitem & Ssuffix & Sitems & Sbranches & Sbranch & Sbody).
  apply pattern_mind.
  - intros c H p1 p2 (E & _). unfold raw in E. destruct p1 as [|x [|y p1]]; try discriminate E.
    injection E as -> _. discriminate H.
  - intros p1 p2 B. exfalso. now apply neutral_brace_in in B.
  - intros t c H p1 p2 B. exfalso. eapply escape_brace_in; [|exact B]. eapply char_escape_text. exact H.
  - intros t n H p1 p2 B. exfalso. eapply escape_brace_in; [|exact B]. eapply class_escape_text. exact H.
  - intros t l Hh H p1 p2 B. apply brace_in_split in B; [|reflexivity].
    destruct B as [(m & B & _)|(m & -> & B)].
    { destruct B as (E & _). destruct m, p1 as [|? []]; discriminate E. }
    pose proof (set_unclosed _ _ _ _ H) as Uc. apply set_text in H as St. apply brace_in_split in B; [|apply St].
    destruct B as [(m' & (E & Hu & _) & ->)|(m' & -> & (E & _))]; [|destruct m' as [|? []]; discriminate E].
    eexists. split; [left; split; [|reflexivity]|].
    + change (scan Inside m = Inside). apply scan_inside; [exact Hu|].
      rewrite E in Uc. unfold raw in Uc. now apply unclosed_prefix in Uc.
    + rewrite escaped_app_r, escaped_app_l. apply u_set; [|now apply (set_body_escaped _ _ _ _ H)].
      subst t. destruct m; [discriminate|exact Hh].
  - intros t l H p1 p2 B. apply brace_in_split in B; [|reflexivity].
    destruct B as [(m & B & _)|(m & -> & B)].
    { destruct B as (E & _). destruct p1 as [|? [|? []]]; discriminate E. }
    pose proof (set_unclosed _ _ _ _ H) as Uc. apply set_text in H as St. apply brace_in_split in B; [|apply St].
    destruct B as [(m' & (E & Hu & _) & ->)|(m' & -> & (E & _))]; [|destruct m' as [|? []]; discriminate E].
    eexists. split; [left; split; [|reflexivity]|].
    + change (scan Inside m = Inside). apply scan_inside; [exact Hu|].
      rewrite E in Uc. unfold raw in Uc. now apply unclosed_prefix in Uc.
    + rewrite escaped_app_r, escaped_app_l. apply u_not_set. now apply (set_body_escaped _ _ _ _ H).
  - intros o F t n Ho Hb IH p1 p2 B. apply brace_in_split in B; [|reflexivity].
    destruct B as [(m & B & _)|(m & -> & B)].
    { destruct B as (E & _). destruct p1 as [|? []]; discriminate E. }
    apply opening_neutral in Ho as On.
    apply brace_in_split in B; [|now apply neutral_unescaped].
    destruct B as [(m' & B & _)|(m' & -> & B)]; [now apply neutral_brace_in in B|].
    apply brace_in_split in B; [|now apply (Pbody t n)].
    destruct B as [(m & B & ->)|(m & -> & (E & _))]; [|destruct m as [|? []]; discriminate E].
    destruct (IH _ _ B) as (t' & Ht & Hb'). exists (str "(" ++ o ++ t' ++ str ")").
    split; [|now apply u_group]. apply inner_left; [reflexivity|]. apply inner_left; [now apply scan_neutral|].
    destruct Ht as [Ht|Ht]; [now apply inner_right|now apply outer_closed].
  - intros d ds H1 H2 H3 p1 p2 B. exfalso. eapply escape_brace_in; [|exact B].
    exists d, ds. split; [reflexivity|now apply digits_neutral].
  - intros nm H p1 p2 B. exfalso. eapply escape_brace_in; [|exact B].
    exists "k"%char, (str "<" ++ nm ++ str ">"). split; [reflexivity|].
    rewrite !forallb_app, (valid_neutral nm H). reflexivity.
  - intros t n H p1 p2 B. exfalso. cbn [anchors In] in H.
    table H; try (now apply neutral_brace_in in B); (eapply escape_brace_in; [|exact B]); do 2 eexists; split; reflexivity.
  - intros f t n t' f' n' Hp IHp Hs IHs p1 p2 B. apply brace_in_split in B; [|now apply (Ppiece f t n)].
    assert (Nf : f <> GroupEnd) by (destruct syntax_reads as (R & _); apply (R f t n Hp)).
    destruct B as [(m & B & ->)|(m & -> & B)].
    + destruct (IHp _ _ B) as (t1 & Ht & Hp'). exists (t1 ++ t'). left. split; [now apply inner_right|]. eapply i_unit; eauto.
    + destruct m as [|c m].
      * destruct B as (-> & _ & Hd). rewrite app_nil_r.
        destruct (brace_here _ _ _ _ _ f t Hs Hd (piece_item _ _ _ Hp) Nf) as [-> Hb].
        eexists. right. split; [reflexivity|]. split; [|exists Anything; apply item_branch, group_item, Hb].
        apply (here_regrouped t t p2 n'); [left; eauto|exact (Spiece _ _ _ Hp)|exact Hb].
      * destruct (IHs _ _ B ltac:(discriminate) Nf) as (t1 & [[Ht Hs']|(-> & Ht & Hs')]); exists (t ++ t1); [left|right].
        -- split; [apply inner_left; [exact (Spiece _ _ _ Hp)|exact Ht]|]. eapply i_unit; eauto.
        -- split; [reflexivity|]. split; [apply outer_left; [exact (Spiece _ _ _ Hp)|exact Ht]|].
           destruct Hs' as [Hs'|(f'' & Hs')].
           ++ exists GroupEnd. apply item_branch. eapply i_unit; eauto.
           ++ exists f''. eapply b_items; [apply piece_item; exact Hp|exact Hs'].
  - intros f n p1 p2 (E & _) _ _. destruct p1; discriminate E.
  - intros f n q lo hi md Hq p1 p2 (E & Hu & Hd) Hn _. exfalso.
    apply bounds_neutral in Hq. destruct Hq as [Hq|(d & q' & -> & Hq1 & Hq2)].
    + eapply (neutral_raw (q ++ mode_text md)); [|exact E]. rewrite forallb_app, Hq. apply mode_neutral.
    + unfold raw in E. destruct p1 as [|x p1]; cbn [app] in E; [easy|].
      injection E as _ E. eapply (neutral_raw ((d :: q') ++ mode_text md)); [|exact E].
      rewrite forallb_app, Hq2. apply mode_neutral.
  - intros f n t1 f1 n1 t2 f2 n2 t3 f3 n3 H1 IH1 H2 IH2 H3 IH3 Hnd p1 p2 B Hn Nf.
    destruct p1 as [|x p1]; [easy|]. clear Hn.
    destruct B as (E & Hu & Hd). unfold raw in E. cbn [str String.list_ascii_of_string app] in E. injection E as <- E.
    assert (B : brace_in (t1 ++ t2 ++ t3) p1 p2).
    { split; [exact E|]. now rewrite unescaped_cons in Hu by discriminate. }
    clear E Hu Hd. change ("{"%char :: p1) with (str "{" ++ p1).
    assert (S1 : passes (str "{")) by reflexivity.
    apply brace_in_split in B; [|now apply (Psuffix _ _ _ _ _ H1)].
    destruct B as [(m & B & ->)|(m & -> & B)].
    + destruct p1 as [|c p1].
      * (* another brace right behind *)
        destruct B as (-> & _ & Hd).
        destruct (brace_here _ _ _ _ _ Anything (str "\{") H1 Hd) as [-> Hb];
          [apply piece_item, u_escape; now apply ce_self|discriminate|].
        apply group_end_items in H2. destruct H2 as (-> & -> & ->).
        apply group_end_branches in H3. destruct H3 as (-> & -> & ->).
        rewrite !app_nil_r. eexists. right. split; [reflexivity|]. split.
        -- apply (here_regrouped (str "{") (str "\{") m n1); [right; split; reflexivity|reflexivity|exact Hb].
        -- right. exists Anything. rewrite <- (app_nil_r (str "(?:" ++ _)).
           eapply m_item; [apply group_item, Hb| |constructor]. destruct f; [exact I|reflexivity|congruence].
      * destruct (IH1 _ _ B ltac:(discriminate) ltac:(discriminate)) as (t1' & [[Ht Hs']|(-> & Ht & Hs')]).
        -- exists (str "{" ++ t1' ++ t2 ++ t3). left. split; [apply inner_left, inner_right; assumption|].
           eapply q_brace; eauto. eapply inner_begins; [exact Ht|]. destruct B as (<- & _). exact Hnd.
        -- apply group_end_items in H2. destruct H2 as (-> & -> & ->).
           apply group_end_branches in H3. destruct H3 as (-> & -> & ->).
           rewrite !app_nil_r in *. exists (str "{" ++ t1'). right. split; [reflexivity|].
           split; [now apply outer_left|]. left.
           assert (Nd : not_digit t1').
           { rewrite <- (app_nil_r t1'). eapply outer_begins; [exact Ht|]. rewrite app_nil_r.
             destruct B as (<- & _). exact Hnd. }
           destruct Hs' as [Hs'|(f'' & Hs')].
           ++ rewrite <- (app_nil_r t1') in Nd |- *. eapply (q_brace f n t1' GroupEnd n1 [] GroupEnd _ [] GroupEnd); [exact Hs'|constructor|constructor|exact Nd].
           ++ rewrite <- (app_nil_r t1') in Nd |- *.
              eapply (q_brace f n [] Anything (Lit "{"%char) t1' f'' _ []); [constructor|apply more_items_cat; exact Hs'|constructor|exact Nd].
    + apply brace_in_split in B; [|now apply (Pitems _ _ _ _ _ H2)].
      destruct B as [(m' & B & ->)|(m' & -> & B)].
      * destruct (IH2 _ _ B) as (t2' & [[Ht Hs']|(-> & Ht & (f'' & Hs'))]).
        -- exists (str "{" ++ t1 ++ t2' ++ t3). left. split.
           ++ apply inner_left; [exact S1|]. apply inner_left; [exact (Ssuffix _ _ _ _ _ H1)|]. now apply inner_right.
           ++ eapply q_brace; eauto. destruct t1; [|exact Hnd]. cbn [app] in *. eapply inner_begins; [exact Ht|].
              destruct B as (<- & _). exact Hnd.
        -- apply group_end_branches in H3. destruct H3 as (-> & -> & ->). rewrite !app_nil_r in *.
           exists (str "{" ++ t1 ++ t2'). right. split; [reflexivity|]. split.
           ++ apply outer_left; [exact S1|]. apply outer_left; [exact (Ssuffix _ _ _ _ _ H1)|exact Ht].
           ++ left. rewrite <- (app_nil_r t2'). eapply (q_brace f n t1 f1 n1 t2' f'' _ []); [exact H1|exact Hs'|constructor|].
              destruct t1; [|exact Hnd]. cbn [app] in *. eapply outer_begins; [exact Ht|]. rewrite app_nil_r.
              destruct B as (<- & _). exact Hnd.
      * assert (Nd : forall t3' g, (inner m' p2 t3' \/ outer m' p2 t3') -> more_branches f2 n2 t3' g n3 ->
          suffix f n (str "{" ++ t1 ++ t2 ++ t3') GroupEnd n3).
        { intros t3' g Ht K. eapply q_brace; [exact H1|exact H2|exact K|].
          destruct t1; [|exact Hnd]. destruct t2; [|exact Hnd]. cbn [app] in *.
          rewrite <- (app_nil_r t3'). destruct B as (E & _). rewrite E, <- (app_nil_r (raw _ _)) in Hnd.
          destruct Ht; [eapply inner_begins|eapply outer_begins]; eauto. }
        destruct (IH3 _ _ B) as (t3' & [[Ht Hs']|(-> & Ht & (f'' & Hs'))]); exists (str "{" ++ t1 ++ t2 ++ t3').
        -- left. split; [|eapply Nd; eauto]. apply inner_left; [exact S1|].
           apply inner_left; [exact (Ssuffix _ _ _ _ _ H1)|]. apply inner_left; [exact (Sitems _ _ _ _ _ H2)|exact Ht].
        -- right. split; [reflexivity|]. split; [|left; eapply Nd; eauto]. apply outer_left; [exact S1|].
           apply outer_left; [exact (Ssuffix _ _ _ _ _ H1)|]. apply outer_left; [exact (Sitems _ _ _ _ _ H2)|exact Ht].
  - intros f n p1 p2 (E & _). destruct p1; discriminate E.
  - intros f n t1 f1 n1 t2 f2 n2 Hi IHi Ha Hm IHm p1 p2 B. pose proof (item_allows _ _ _ _ Hi Ha) as Nf.
    apply brace_in_split in B; [|now apply (Pitem _ _ _ Hi)]. destruct B as [(m & B & ->)|(m & -> & B)].
    + assert (A : forall t', (inner p1 m t' \/ outer p1 m t') -> allows f t').
      { intros t' Ht. eapply allows_begins; [exact Ha|exact Nf|]. intros D. destruct B as (E & _).
        rewrite E, <- (app_nil_r (raw _ _)) in D. rewrite <- (app_nil_r t').
        destruct Ht; [eapply inner_begins|eapply outer_begins]; eauto. }
      destruct (IHi _ _ B) as (t' & [[Ht Hi']|(-> & Ht & (f' & Hi'))]).
      * exists (t' ++ t2). left. split; [now apply inner_right|]. eapply m_item; eauto.
      * apply group_end_items in Hm. destruct Hm as (-> & -> & ->). rewrite app_nil_r.
        exists t'. right. split; [reflexivity|]. split; [exact Ht|]. exists f'. apply branch_more; [exact Hi'|eauto].
    + destruct (IHm _ _ B) as (t' & [[Ht Hm']|(-> & Ht & (f' & Hm'))]); exists (t1 ++ t'); [left|right].
      * split; [apply inner_left; [exact (Sitem _ _ _ Hi)|exact Ht]|]. eapply m_item; eauto.
      * split; [reflexivity|]. split; [apply outer_left; [exact (Sitem _ _ _ Hi)|exact Ht]|]. exists f'. eapply m_item; eauto.
  - intros f n p1 p2 (E & _). destruct p1; discriminate E.
  - intros f n t1 f1 n1 t2 f2 n2 Hi IHi Ha Hm IHm p1 p2 B.
    apply brace_in_split in B; [|reflexivity]. destruct B as [(m & (E & _) & _)|(m & -> & B)].
    { destruct p1 as [|? []]; discriminate E. }
    assert (S1 : passes (str "|")) by reflexivity.
    apply brace_in_split in B; [|now apply (Pbranch _ _ _ Hi)]. destruct B as [(m' & B & ->)|(m' & -> & B)].
    + destruct (IHi _ _ B) as (t' & [[Ht Hi']|(-> & Ht & (f' & Hi'))]).
      * exists (str "|" ++ t' ++ t2). left. split; [apply inner_left, inner_right; assumption|]. eapply o_branch; eauto.
      * apply group_end_branches in Hm. destruct Hm as (-> & -> & ->). rewrite app_nil_r.
        exists (str "|" ++ t'). right. split; [reflexivity|]. split; [now apply outer_left|].
        exists f'. rewrite <- (app_nil_r t'). eapply o_branch; [exact Hi'|exact Ha|constructor].
    + destruct (IHm _ _ B) as (t' & [[Ht Hm']|(-> & Ht & (f' & Hm'))]); exists (str "|" ++ t1 ++ t'); [left|right].
      * split; [apply inner_left; [exact S1|]; apply inner_left; [exact (Sbranch _ _ _ Hi)|exact Ht]|]. eapply o_branch; eauto.
      * split; [reflexivity|]. split; [apply outer_left; [exact S1|]; apply outer_left; [exact (Sbranch _ _ _ Hi)|exact Ht]|].
        exists f'. eapply o_branch; eauto.
  - intros f0 t0 n0 t1 f n Hi IHi Hm IHm p1 p2 B.
    apply brace_in_split in B; [|now apply (Pitem _ _ _ Hi)]. destruct B as [(m & B & ->)|(m & -> & B)].
    + destruct (IHi _ _ B) as (t' & [[Ht Hi']|(-> & Ht & (f' & Hi'))]).
      * exists (t' ++ t1). left. split; [now apply inner_right|]. eapply b_items; eauto.
      * apply group_end_items in Hm. destruct Hm as (-> & -> & ->). rewrite app_nil_r.
        exists t'. right. eauto.
    + destruct (IHm _ _ B) as (t' & [[Ht Hm']|(-> & Ht & (f' & Hm'))]); exists (t0 ++ t'); [left|right].
      * split; [apply inner_left; [exact (Sitem _ _ _ Hi)|exact Ht]|]. eapply b_items; eauto.
      * split; [reflexivity|]. split; [apply outer_left; [exact (Sitem _ _ _ Hi)|exact Ht]|]. exists f'. eapply b_items; eauto.
  - intros p1 p2 (E & _). destruct p1; discriminate E.
  - intros f1 t1 n1 t2 f n Hi IHi Hm IHm p1 p2 B.
    apply brace_in_split in B; [|now apply (Pbranch _ _ _ Hi)]. destruct B as [(m & B & ->)|(m & -> & B)].
    + destruct (IHi _ _ B) as (t' & [[Ht Hi']|(-> & Ht & (f' & Hi'))]).
      * exists (t' ++ t2). split; [left; now apply inner_right|]. eapply y_branches; eauto.
      * apply group_end_branches in Hm. destruct Hm as (-> & -> & ->). rewrite app_nil_r.
        exists t'. split; [now right|]. eapply branch_body; eauto.
    + destruct (IHm _ _ B) as (t' & [[Ht Hm']|(-> & Ht & (f' & Hm'))]); exists (t1 ++ t').
      * split; [left; apply inner_left; [exact (Sbranch _ _ _ Hi)|exact Ht]|]. eapply y_branches; eauto.
      * split; [right; apply outer_left; [exact (Sbranch _ _ _ Hi)|exact Ht]|]. eapply y_branches; eauto.
Qed.

(** In a set the brace is a character; elsewhere the piece in front of it, the brace and
    the rest of the group are one group. *)
Theorem brace_meaning p1 p2 n : unescaped p1 = true -> not_digit p2 ->
  parse (p1 ++ str "{" ++ p2) = P_ok n ->
  (scan Outside p1 = Inside /\ parse (p1 ++ str "\{" ++ p2) = P_ok n)
  \/ (scan Outside p1 = Outside
      /\ exists p0 u u' m p3 y, p1 = p0 ++ u /\ p2 = m ++ p3 /\ lead u u'
           /\ parse (u' ++ str "\{" ++ m) = P_ok y /\ (p3 = [] \/ hd_error p3 = Some ")"%char)
           /\ parse (p0 ++ str "(?:" ++ u' ++ str "\{" ++ m ++ str ")" ++ p3) = P_ok n).
Proof.
  intros H1 H2 P. apply accepted_pattern in P. destruct P as (x & Hx & ->).
  destruct syntax_regrouped as (_ & _ & _ & _ & _ & _ & G).
  destruct (G _ _ Hx p1 p2) as (t' & Ht & Hb); [split; [reflexivity|auto]|].
  apply pattern_parses in Hb.
  assert (R : forall l, regrouped l p1 p2 t' ->
    exists p0 u u' m p3 y, p1 = p0 ++ u /\ p2 = m ++ p3 /\ lead u u'
           /\ parse (u' ++ str "\{" ++ m) = P_ok y /\ (p3 = [] \/ hd_error p3 = Some ")"%char)
           /\ parse (p0 ++ str "(?:" ++ u' ++ str "\{" ++ m ++ str ")" ++ p3) = P_ok (index_captures x)).
  { intros l (p0 & u & u' & m & p3 & E1 & E2 & Hl & (y & Hy) & Hp3 & ->).
    apply pattern_parses in Hy. exists p0, u, u', m, p3, (index_captures y).
    repeat (split; [now auto|]). split; [|exact Hb]. destruct l; auto. }
  destruct Ht as [[[Hs ->]|[Hs Ht]]|[Hs Ht]].
  - left. split; [exact Hs|exact Hb].
  - right. split; [exact Hs|]. exact (R _ Ht).
  - right. split; [exact Hs|]. exact (R _ Ht).
Qed.
