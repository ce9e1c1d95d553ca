(** Braces that do not start a quantifier (C33). *)
From Verif Require Import Parser Basics Normal Syntax Steps Typing Shape Reading Accepted Print.
From Coq Require Import Lia.

(** ** Reading a text from the outside *)

(** The text does not end in the middle of an escape. *)
Fixpoint unescaped (t : text) : bool :=
  match t with
  | [] => true
  | c :: r =>
      if Ascii.eqb c "\" then match r with [] => false | _ :: r' => unescaped r' end
      else unescaped r
  end.

Inductive reading := Outside | Escape | Inside | InsideEscape.

(** No alternation from here to the end of the enclosing group; [d]: number of
    groups that were opened on the way. *)
Fixpoint no_bar (st : reading) (d : nat) (t : text) : bool :=
  match t with
  | [] => true
  | c :: r =>
      match st with
      | Outside =>
          if Ascii.eqb c "\" then no_bar Escape d r
          else if Ascii.eqb c "[" then no_bar Inside d r
          else if Ascii.eqb c "(" then no_bar Outside (S d) r
          else if Ascii.eqb c ")" then match d with 0 => true | S d' => no_bar Outside d' r end
          else if Ascii.eqb c "|" then match d with 0 => false | S _ => no_bar Outside d r end
          else no_bar Outside d r
      | Escape => no_bar Outside d r
      | Inside =>
          if Ascii.eqb c "\" then no_bar InsideEscape d r
          else if Ascii.eqb c "]" then no_bar Outside d r
          else no_bar Inside d r
      | InsideEscape => no_bar Inside d r
      end
  end.

(** ** Facts about texts *)

Lemma unescaped_cons c t : c <> "\"%char -> unescaped (c :: t) = unescaped t.
Proof. intros H. cbn [unescaped]. destruct (Ascii.eqb_spec c "\"); [easy|reflexivity]. Qed.

Lemma unescaped_app t : forall t', unescaped t = true -> unescaped (t ++ t') = unescaped t'.
Proof.
  assert (G : forall k t t', length t <= k -> unescaped t = true -> unescaped (t ++ t') = unescaped t').
  2:{ intros t'. now apply (G (length t)). }
  clear t. induction k as [|k IH]; intros [|c t] t' Hk H; try reflexivity; cbn in Hk; try lia.
  cbn [unescaped app] in *. destruct (Ascii.eqb c "\").
  - destruct t as [|c' t]; [discriminate|]. cbn [length app] in *. apply IH; [lia|exact H].
  - apply IH; [lia|exact H].
Qed.

Lemma unescaped_both t t' : unescaped t = true -> unescaped t' = true -> unescaped (t ++ t') = true.
Proof. intros H H'. now rewrite unescaped_app. Qed.

(** Characters that mean nothing to these readings. *)
Definition neutral (c : ascii) : bool := negb (among c (str "\[()|{]")).

Lemma neutral_unescaped t : forallb neutral t = true -> unescaped t = true.
Proof.
  induction t as [|c t IH]; [reflexivity|]. cbn [forallb]. intros H. apply andb_prop in H. destruct H as [H1 H2].
  rewrite unescaped_cons; [auto|]. intros ->. discriminate.
Qed.

Lemma neutral_no_bar t : forallb neutral t = true -> forall d r, no_bar Outside d (t ++ r) = no_bar Outside d r.
Proof.
  induction t as [|c t IH]; [reflexivity|]. cbn [forallb]. intros H d r. apply andb_prop in H. destruct H as [H1 H2].
  rewrite <- (IH H2 d r). cbn [app]. revert H1. clear.
  destruct c as [[] [] [] [] [] [] [] []]; intros H1; try discriminate H1; reflexivity.
Qed.

Lemma neutral_no_brace t : forallb neutral t = true -> ~ In "{"%char t.
Proof. intros H Hi. rewrite forallb_forall in H. now apply H in Hi. Qed.

Lemma digits_neutral ds : forallb is_digit ds = true -> forallb neutral ds = true.
Proof.
  intros H. rewrite forallb_forall in *. intros c Hc. apply H in Hc. revert Hc. clear. sweep c.
Qed.
Lemma words_neutral ds : forallb is_word ds = true -> forallb neutral ds = true.
Proof.
  intros H. rewrite forallb_forall in *. intros c Hc. apply H in Hc. revert Hc. clear. sweep c.
Qed.
Lemma valid_neutral nm : valid_name nm = true -> forallb neutral nm = true.
Proof.
  intros H. apply words_neutral. unfold valid_name in H. destruct nm; [discriminate|]. now apply andb_prop in H.
Qed.
Lemma nibble_neutral h a : In (h, a) nibbles -> neutral h = true.
Proof. intros H. cbn [nibbles In] in H. now table H. Qed.
Lemma mode_neutral md : forallb neutral (mode_text md) = true.
Proof. now destruct md. Qed.

(** Bounds: nothing special, but for an opening brace. *)
Lemma bounds_neutral q lo hi : bounds q lo hi -> forallb neutral q = true \/
  exists d r, q = "{"%char :: d :: r /\ is_digit d = true /\ forallb neutral (d :: r) = true.
Proof.
  assert (K : forall ds t, numeral_text ds -> forallb neutral t = true ->
    exists d r, "{"%char :: ds ++ t = "{"%char :: d :: r /\ is_digit d = true /\ forallb neutral (d :: r) = true).
  { intros [|d r] t [Hd1 Hd2] Ht; [easy|]. exists d, (r ++ t). split; [reflexivity|].
    split; [cbn in Hd2; now apply andb_prop in Hd2|].
    change (d :: r ++ t) with ((d :: r) ++ t). rewrite forallb_app, digits_neutral by exact Hd2. exact Ht. }
  destruct 1 as [| | |ds H|ds H|ds es H H']; auto; right; texts; apply K; auto.
  cbn [forallb]. rewrite forallb_app, digits_neutral by apply H'. reflexivity.
Qed.

(** Escapes: the backslash, a character, and nothing special. *)
Lemma char_escape_text named special e c : char_escape named special e c ->
  exists x r, e = "\"%char :: x :: r /\ forallb neutral r = true.
Proof.
  destruct 1 as [h1 h2 a b H1 H2|x v H|x H].
  - exists "x"%char, [h1; h2]. split; [reflexivity|]. cbn. now rewrite (nibble_neutral h1 a), (nibble_neutral h2 b).
  - now exists x, [].
  - now exists x, [].
Qed.

Lemma class_escape_text e n : class_escape e n -> exists x r, e = "\"%char :: x :: r /\ forallb neutral r = true.
Proof. destruct 1 as [x n H]. now exists x, []. Qed.

Lemma escape_text_unescaped x r : forallb neutral r = true -> unescaped ("\"%char :: x :: r) = true.
Proof. intros H. cbn. now apply neutral_unescaped. Qed.

Lemma neutral_inside t : forallb neutral t = true -> forall d r, no_bar Inside d (t ++ r) = no_bar Inside d r.
Proof.
  induction t as [|c t IH]; [reflexivity|]. cbn [forallb]. intros H d r. apply andb_prop in H. destruct H as [H1 H2].
  rewrite <- (IH H2 d r). cbn [app]. revert H1. clear.
  destruct c as [[] [] [] [] [] [] [] []]; intros H1; try discriminate H1; reflexivity.
Qed.

Lemma range_end_text e b : range_end e b ->
  (e = [b] /\ among b (str "\]") = false) \/ exists x r, e = "\"%char :: x :: r /\ forallb neutral r = true.
Proof. destruct 1 as [c H|t c H]; [auto|right; eapply char_escape_text; exact H]. Qed.

Lemma inside_char c d r : among c (str "\]") = false -> no_bar Inside d (c :: r) = no_bar Inside d r.
Proof.
  intros H. cbn [no_bar]. unfold among in H. cbn in H. rewrite !orb_false_iff in H. destruct H as (-> & -> & _). reflexivity.
Qed.

Lemma set_text fresh l t l' : set_body fresh l t l' ->
  unescaped t = true /\ forall d r, no_bar Inside d (t ++ str "]" ++ r) = no_bar Outside d r.
Proof.
  assert (E : forall x e t, forallb neutral e = true ->
    unescaped t = true /\ (forall d r, no_bar Inside d (t ++ str "]" ++ r) = no_bar Outside d r) ->
    unescaped (("\"%char :: x :: e) ++ t) = true
    /\ forall d r, no_bar Inside d ((("\"%char :: x :: e) ++ t) ++ str "]" ++ r) = no_bar Outside d r).
  { intros x e t0 He [H1 H2]. split; [apply unescaped_both; [now apply escape_text_unescaped|exact H1]|].
    intros d r. rewrite <- app_assoc. cbn [app no_bar]. rewrite neutral_inside by exact He. apply H2. }
  assert (C : forall c t, among c (str "\]") = false ->
    unescaped t = true /\ (forall d r, no_bar Inside d (t ++ str "]" ++ r) = no_bar Outside d r) ->
    unescaped (c :: t) = true /\ forall d r, no_bar Inside d ((c :: t) ++ str "]" ++ r) = no_bar Outside d r).
  { intros c t0 Hc [H1 H2]. split; [rewrite unescaped_cons; [exact H1|intros ->; discriminate]|].
    intros d r. cbn [app]. rewrite inside_char by exact Hc. apply H2. }
  assert (R : forall e b t, range_end e b ->
    unescaped t = true /\ (forall d r, no_bar Inside d (t ++ str "]" ++ r) = no_bar Outside d r) ->
    unescaped ("-"%char :: e ++ t) = true
    /\ forall d r, no_bar Inside d (("-"%char :: e ++ t) ++ str "]" ++ r) = no_bar Outside d r).
  { intros e b t0 He H. apply C; [reflexivity|]. apply range_end_text in He.
    destruct He as [[-> Hb]|(x & r & -> & Hr)]; [now apply C|now apply E]. }
  induction 1.
  - split; reflexivity.
  - apply C; [|exact IHset_body]. revert H. clear. sweep c.
  - now apply C.
  - apply char_escape_text in H. destruct H as (x & r & -> & Hr). now apply E.
  - apply class_escape_text in H. destruct H as (x & r & -> & Hr). now apply E.
  - now apply (R e b).
  - now apply (R e b).
  - split; reflexivity.
Qed.

(** A complete text of the grammar does not end in an escape; reading goes on
    behind it at the same depth. *)
Definition passes_over (t : text) : Prop :=
  unescaped t = true /\ forall d r, no_bar Outside d (t ++ r) = true -> no_bar Outside d r = true.

Lemma passes_nil : passes_over [].
Proof. split; auto. Qed.
Lemma passes_app t t' : passes_over t -> passes_over t' -> passes_over (t ++ t').
Proof.
  intros [H1 H2] [H3 H4]. split; [now apply unescaped_both|]. intros d r. rewrite <- app_assoc. auto.
Qed.
Lemma passes_neutral t : forallb neutral t = true -> passes_over t.
Proof. intros H. split; [now apply neutral_unescaped|]. intros d r. now rewrite neutral_no_bar. Qed.
Lemma passes_escape x r : forallb neutral r = true -> passes_over ("\"%char :: x :: r).
Proof.
  intros H. split; [now apply escape_text_unescaped|]. intros d r'. cbn [app no_bar Ascii.eqb]. 
  cbn. now rewrite neutral_no_bar.
Qed.
Lemma passes_brace t : passes_over t -> passes_over (str "{" ++ t).
Proof. intros [H1 H2]. split; [exact H1|]. intros d r. cbn. apply H2. Qed.
Lemma passes_bar t : passes_over t -> passes_over (str "|" ++ t).
Proof. intros [H1 H2]. split; [exact H1|]. intros d r. cbn. destruct d; [discriminate|apply H2]. Qed.

Lemma opening_neutral o F : opening o F -> forallb neutral o = true.
Proof.
  destruct 1 as [|nm H| | | | | |]; try reflexivity. rewrite !forallb_app, (valid_neutral nm H). reflexivity.
Qed.

Lemma bounds_pass q lo hi : bounds q lo hi -> passes_over q.
Proof.
  intros H. apply bounds_neutral in H. destruct H as [H|(d & r & -> & _ & H)]; [now apply passes_neutral|].
  apply (passes_brace (d :: r)). now apply passes_neutral.
Qed.

Lemma syntax_passes :
  (forall f t n, piece f t n -> passes_over t) /\ (forall f t n, item f t n -> passes_over t)
  /\ (forall f n t f' n', suffix f n t f' n' -> passes_over t)
  /\ (forall f n t f' n', more_items f n t f' n' -> passes_over t)
  /\ (forall f n t f' n', more_branches f n t f' n' -> passes_over t)
  /\ (forall f t n, branch f t n -> passes_over t) /\ (forall t n, body t n -> passes_over t).
Proof.
  apply (pattern_mind (fun _ t _ => passes_over t) (fun _ t _ => passes_over t)
    (fun _ _ t _ _ => passes_over t) (fun _ _ t _ _ => passes_over t) (fun _ _ t _ _ => passes_over t)
    (fun _ t _ => passes_over t) (fun t _ => passes_over t)).
  - intros c H. split; [cbn; destruct (Ascii.eqb_spec c "\"); [subst; discriminate|reflexivity]|].
    intros d r. cbn [app]. revert H. destruct c as [[] [] [] [] [] [] [] []]; intros H; try discriminate H; auto.
  - now apply passes_neutral.
  - intros t c H. apply char_escape_text in H. destruct H as (x & r & -> & H). now apply passes_escape.
  - intros t n H. apply class_escape_text in H. destruct H as (x & r & -> & H). now apply passes_escape.
  - intros t l _ H. apply set_text in H. destruct H as [H1 H2]. split.
    + texts. rewrite unescaped_cons by discriminate. now apply unescaped_both.
    + intros d r. texts. cbn [no_bar]. cbn [Ascii.eqb Bool.eqb]. rewrite <- app_assoc. now rewrite H2.
  - intros t l H. apply set_text in H. destruct H as [H1 H2]. split.
    + texts. rewrite !unescaped_cons by discriminate. now apply unescaped_both.
    + intros d r. texts. cbn [no_bar]. cbn [Ascii.eqb Bool.eqb]. rewrite <- app_assoc. now rewrite H2.
  - intros o F t n Ho _ [H1 H2]. apply opening_neutral in Ho. split.
    + texts. rewrite unescaped_cons by discriminate. apply unescaped_both; [now apply neutral_unescaped|].
      now apply unescaped_both.
    + intros d r. texts. cbn [no_bar]. cbn [Ascii.eqb Bool.eqb]. rewrite <- !app_assoc.
      rewrite neutral_no_bar by exact Ho. intros H. apply H2 in H. exact H.
  - intros d ds H1 H2 H3. apply (passes_escape d ds). now apply digits_neutral.
  - intros nm H. apply (passes_escape "k" (str "<" ++ nm ++ str ">")). rewrite !forallb_app, (valid_neutral nm H). reflexivity.
  - intros t n H. cbn [anchors In] in H. table H; try (now apply passes_neutral); apply (passes_escape _ []); reflexivity.
  - intros. now apply passes_app.
  - intros. apply passes_nil.
  - intros f n q lo hi md H. apply passes_app; [eapply bounds_pass; eauto|apply passes_neutral, mode_neutral].
  - intros. apply passes_brace. auto using passes_app.
  - intros. apply passes_nil.
  - intros. now apply passes_app.
  - intros. apply passes_nil.
  - intros. apply passes_bar. auto using passes_app.
  - intros. now apply passes_app.
  - apply passes_nil.
  - intros. now apply passes_app.
Qed.

(** ** Escaping a brace *)

Definition raw (p1 p2 : text) : text := p1 ++ "{"%char :: p2.
Definition escaped (p1 p2 : text) : text := p1 ++ "\"%char :: "{"%char :: p2.

Lemma split_raw p1 : forall a b p2, a ++ b = raw p1 p2 ->
  (exists m, a = raw p1 m /\ p2 = m ++ b) \/ (exists m, p1 = a ++ m /\ b = raw m p2).
Proof.
  unfold raw. induction p1 as [|c p1 IH]; intros [|x a] b p2 E; cbn [app] in *.
  - right. now exists [].
  - injection E as -> <-. left. now exists a.
  - right. now exists (c :: p1).
  - injection E as -> E. apply IH in E. destruct E as [(m & -> & ->)|(m & -> & ->)]; [left|right]; now exists m.
Qed.

Lemma neutral_raw t p1 p2 : forallb neutral t = true -> t = raw p1 p2 -> False.
Proof. intros H ->. apply neutral_no_brace in H. apply H. unfold raw. apply in_or_app. cbn. auto. Qed.

Lemma escaped_app_l p1 m b : escaped p1 (m ++ b) = escaped p1 m ++ b.
Proof. unfold escaped. now rewrite <- app_assoc. Qed.
Lemma escaped_app_r a m p2 : escaped (a ++ m) p2 = a ++ escaped m p2.
Proof. unfold escaped. now rewrite <- app_assoc. Qed.

(** An escape contains no other brace. *)
Lemma escape_raw e p1 p2 : (exists x r, e = "\"%char :: x :: r /\ forallb neutral r = true) ->
  unescaped p1 = true -> e = raw p1 p2 -> False.
Proof.
  intros (x & r & -> & Hr) Hu E. unfold raw in E. destruct p1 as [|a [|b p1]]; cbn [app] in E.
  - discriminate E.
  - injection E as <- -> ->. discriminate Hu.
  - injection E as <- <- E. eapply neutral_raw; eauto.
Qed.

Lemma escaped_brace : set_escape (str "\{") "{"%char.
Proof. now apply ce_self. Qed.

Lemma range_end_raw e b p1 p2 : range_end e b -> unescaped p1 = true -> e = raw p1 p2 ->
  range_end (escaped p1 p2) b.
Proof.
  intros H Hu E. destruct H as [c H|t c H].
  - unfold raw in E. destruct p1 as [|x [|y p1]]; cbn [app] in E; try discriminate E.
    injection E as -> <-. apply range_escape, escaped_brace.
  - exfalso. eapply escape_raw; eauto. eapply char_escape_text. exact H.
Qed.

Lemma set_body_escaped fresh l t l' : set_body fresh l t l' -> forall p1 p2, unescaped p1 = true ->
  t = raw p1 p2 -> set_body fresh l (escaped p1 p2) l'.
Proof.
  induction 1 as [fresh l|fresh l c t l' Hc H IH|l t l' H IH|fresh l e c t l' He H IH|fresh l e n t l' He H IH
    |a l e b t l' He H IH|x l e b t l' Hx He H IH|l]; intros p1 p2 Hu E.
  - destruct p1; discriminate E.
  - destruct p1 as [|c' p1]; unfold raw in E; cbn [app] in E.
    + injection E as -> ->. apply (set_escaped fresh l (str "\{") "{"%char); [apply escaped_brace|exact H].
    + injection E as <- E. apply set_char; [exact Hc|]. apply IH; [|exact E].
      rewrite <- Hu. symmetry. apply unescaped_cons. intros ->. discriminate Hc.
  - destruct p1 as [|c' p1]; unfold raw in E; cbn [app] in E; [discriminate E|]. injection E as <- E.
    apply set_dash, IH; [|exact E]. now rewrite unescaped_cons in Hu by discriminate.
  - apply char_escape_text in He as Ht. apply split_raw in E. destruct E as [(m & E & _)|(m & -> & E)].
    + exfalso. eapply escape_raw; eauto.
    + rewrite escaped_app_r. apply (set_escaped _ _ _ _ _ _ He). apply IH; [|exact E].
      destruct Ht as (x & r & -> & Hr). now rewrite unescaped_app in Hu by (now apply escape_text_unescaped).
  - apply class_escape_text in He as Ht. apply split_raw in E. destruct E as [(m & E & _)|(m & -> & E)].
    + exfalso. eapply escape_raw; eauto.
    + rewrite escaped_app_r. apply (set_class _ _ _ _ _ _ He). apply IH; [|exact E].
      destruct Ht as (x & r & -> & Hr). now rewrite unescaped_app in Hu by (now apply escape_text_unescaped).
  - destruct p1 as [|c' p1]; unfold raw in E; cbn [app] in E; [discriminate E|]. injection E as <- E.
    rewrite unescaped_cons in Hu by discriminate. apply split_raw in E. destruct E as [(m & E & ->)|(m & -> & E)].
    + change ("-"%char :: p1) with (["-"%char] ++ p1). rewrite escaped_app_r, escaped_app_l.
      apply (set_range a l (escaped p1 m) b); [eapply range_end_raw; eauto|exact H].
    + change ("-"%char :: e ++ m) with (["-"%char] ++ e ++ m). rewrite !escaped_app_r.
      apply (set_range a l e b); [exact He|]. apply IH; [|exact E].
      rewrite unescaped_app in Hu; [exact Hu|]. apply range_end_text in He.
      destruct He as [[-> Hb]|(x & r & -> & Hr)]; [|now apply escape_text_unescaped].
      rewrite unescaped_cons; [reflexivity|]. intros ->. discriminate Hb.
  - destruct p1 as [|c' p1]; unfold raw in E; cbn [app] in E; [discriminate E|]. injection E as <- E.
    rewrite unescaped_cons in Hu by discriminate. apply split_raw in E. destruct E as [(m & E & ->)|(m & -> & E)].
    + change ("-"%char :: p1) with (["-"%char] ++ p1). rewrite escaped_app_r, escaped_app_l.
      apply (set_class_dash x l (escaped p1 m) b); [exact Hx|eapply range_end_raw; eauto|exact H].
    + change ("-"%char :: e ++ m) with (["-"%char] ++ e ++ m). rewrite !escaped_app_r.
      apply (set_class_dash x l e b); [exact Hx|exact He|]. apply IH; [|exact E].
      rewrite unescaped_app in Hu; [exact Hu|]. apply range_end_text in He.
      destruct He as [[-> Hb]|(y & r & -> & Hr)]; [|now apply escape_text_unescaped].
      rewrite unescaped_cons; [reflexivity|]. intros ->. discriminate Hb.
  - destruct p1 as [|c' p1]; [discriminate E|]. injection E as <- E. destruct p1; discriminate E.
Qed.

(** ** Concatenations *)

Lemma cat_assoc a b c : cat (cat a b) c = cat a (cat b c).
Proof. unfold cat. cbn [parts]. now rewrite <- app_assoc. Qed.

Lemma more_items_app f n t f1 n1 : more_items f n t f1 n1 -> forall t2 f2 n2,
  more_items f1 n1 t2 f2 n2 -> more_items f n (t ++ t2) f2 n2.
Proof.
  induction 1 as [f n|f n t1 f1 n1 t f2 n2 Hi Ha H IH]; intros t2 g m H2; [exact H2|].
  rewrite <- app_assoc. eapply m_item; eauto.
Qed.

Lemma more_items_cat f m t f' m' : more_items f m t f' m' -> forall n,
  more_items f (cat n m) t f' (cat n m').
Proof.
  induction 1 as [f m|f m t1 f1 n1 t f2 n2 Hi Ha H IH]; intros n; [constructor|].
  eapply m_item; eauto. rewrite cat_assoc. apply IH.
Qed.

Lemma item_begins f t n : item f t n -> begins t.
Proof. intros H. destruct syntax_reads as (_ & R & _). apply (R f t n H). Qed.

Lemma branch_more f n g t x : branch g t x -> allows f t -> more_items f n t g (cat n x).
Proof.
  intros H Ha. destruct H as [f0 t0 n0 t1 g x Hi Hm]. eapply m_item; [exact Hi| |now apply more_items_cat].
  apply item_begins in Hi. destruct t0; [easy|exact Ha].
Qed.

Lemma branch_app f t n : branch f t n -> forall t2 f2 n2, more_items f n t2 f2 n2 -> branch f2 (t ++ t2) n2.
Proof.
  destruct 1 as [f0 t0 n0 t1 f n Hi Hm]. intros t2 f2 n2 H2. rewrite <- app_assoc.
  eapply b_items; [exact Hi|]. eapply more_items_app; eauto.
Qed.

(** Nothing follows where the group must end. *)
Lemma group_end_items n t f n' : more_items GroupEnd n t f n' -> t = [] /\ f = GroupEnd /\ n' = n.
Proof.
  intros H. inversion H as [|? ? t1 f1 n1 t2 ? ? Hi Ha Hm]; subst; [auto|].
  apply item_begins in Hi. destruct t1 as [|c t1]; [easy|]. cbn in Ha. subst c. discriminate Hi.
Qed.
Lemma group_end_branches n t f n' : more_branches GroupEnd n t f n' -> t = [] /\ f = GroupEnd /\ n' = n.
Proof. intros H. inversion H; subst; [auto|congruence]. Qed.

(** ** The theorem *)

Definition weaker (f' f : after) : Prop := f' = f \/ f = GroupEnd.

Definition brace_at (t p1 p2 r : text) : Prop :=
  t = raw p1 p2 /\ unescaped p1 = true /\ not_digit p2 /\ no_bar Outside 0 (p2 ++ r) = true.

Lemma brace_split a b p1 p2 r : brace_at (a ++ b) p1 p2 r -> unescaped a = true ->
  (exists m, brace_at a p1 m (b ++ r) /\ p2 = m ++ b) \/ (exists m, p1 = a ++ m /\ brace_at b m p2 r).
Proof.
  intros (E & Hu & Hd & Hb) Ha. apply split_raw in E. destruct E as [(m & -> & ->)|(m & -> & ->)].
  - left. exists m. split; [|reflexivity]. split; [reflexivity|]. split; [exact Hu|].
    split; [now destruct m|]. now rewrite <- app_assoc in Hb.
  - right. exists m. split; [reflexivity|]. split; [reflexivity|]. rewrite unescaped_app in Hu by exact Ha. auto.
Qed.

Lemma neutral_brace t p1 p2 r : forallb neutral t = true -> brace_at t p1 p2 r -> False.
Proof. intros H (E & _). eapply neutral_raw; eauto. Qed.

Lemma escape_brace e p1 p2 r : (exists x r, e = "\"%char :: x :: r /\ forallb neutral r = true) ->
  brace_at e p1 p2 r -> False.
Proof. intros H (E & Hu & _). eapply escape_raw; eauto. Qed.

Lemma allows_escaped f p1 p2 : allows f (raw p1 p2) -> allows f (escaped p1 p2).
Proof. destruct p1, f; cbn; auto. discriminate. Qed.
Lemma not_digit_escaped p1 p2 t : not_digit (raw p1 p2 ++ t) -> not_digit (escaped p1 p2 ++ t).
Proof. destruct p1; cbn; auto. Qed.

Theorem syntax_escaped :
  (forall f t n, piece f t n -> forall p1 p2 r, brace_at t p1 p2 r -> piece f (escaped p1 p2) n)
  /\ (forall f t n, item f t n -> forall p1 p2 r, brace_at t p1 p2 r ->
        exists f', weaker f' f /\ branch f' (escaped p1 p2) n)
  /\ (forall f n t f' n', suffix f n t f' n' -> forall p1 p2 r, brace_at t p1 p2 r -> f <> GroupEnd ->
        exists f'', weaker f'' f' /\
          (suffix f n (escaped p1 p2) f'' n' \/ (f' = GroupEnd /\ more_items f n (escaped p1 p2) f'' n')))
  /\ (forall f n t f' n', more_items f n t f' n' -> forall p1 p2 r, brace_at t p1 p2 r ->
        exists f'', weaker f'' f' /\ more_items f n (escaped p1 p2) f'' n')
  /\ (forall f n t f' n', more_branches f n t f' n' -> forall p1 p2 r, brace_at t p1 p2 r ->
        exists f'', weaker f'' f' /\ more_branches f n (escaped p1 p2) f'' n')
  /\ (forall f t n, branch f t n -> forall p1 p2 r, brace_at t p1 p2 r ->
        exists f', weaker f' f /\ branch f' (escaped p1 p2) n)
  /\ (forall t n, body t n -> forall p1 p2 r, brace_at t p1 p2 r -> body (escaped p1 p2) n).
Proof.
  destruct syntax_passes as (Ppiece & Pitem & Psuffix & Pitems & Pbranches & Pbranch & Pbody).
  apply pattern_mind.
  - intros c H p1 p2 r (E & _). unfold raw in E. destruct p1 as [|x [|y p1]]; try discriminate E.
    injection E as -> _. discriminate H.
  - intros p1 p2 r B. exfalso. now apply neutral_brace in B.
  - intros t c H p1 p2 r B. exfalso. eapply escape_brace; [|exact B]. eapply char_escape_text. exact H.
  - intros t n H p1 p2 r B. exfalso. eapply escape_brace; [|exact B]. eapply class_escape_text. exact H.
  - intros t l Hh H p1 p2 r B. apply brace_split in B; [|reflexivity].
    destruct B as [(m & B & _)|(m & -> & B)].
    { destruct B as (E & _). destruct m, p1 as [|? []]; discriminate E. }
    apply set_text in H as St. apply brace_split in B; [|apply St].
    destruct B as [(m' & (E & Hu & _) & ->)|(m' & -> & (E & _))]; [|destruct m' as [|? []]; discriminate E].
    rewrite escaped_app_r, escaped_app_l. apply u_set; [|now apply (set_body_escaped _ _ _ _ H)].
    subst t. destruct m; [discriminate|exact Hh].
  - intros t l H p1 p2 r B. apply brace_split in B; [|reflexivity].
    destruct B as [(m & B & _)|(m & -> & B)].
    { destruct B as (E & _). destruct p1 as [|? [|? []]]; discriminate E. }
    apply set_text in H as St. apply brace_split in B; [|apply St].
    destruct B as [(m' & (E & Hu & _) & ->)|(m' & -> & (E & _))]; [|destruct m' as [|? []]; discriminate E].
    rewrite escaped_app_r, escaped_app_l. apply u_not_set. now apply (set_body_escaped _ _ _ _ H).
  - intros o F t n Ho Hb IH p1 p2 r B. apply brace_split in B; [|reflexivity].
    destruct B as [(m & B & _)|(m & -> & B)].
    { destruct B as (E & _). destruct p1 as [|? []]; discriminate E. }
    apply opening_neutral in Ho as On.
    apply brace_split in B; [|now apply neutral_unescaped].
    destruct B as [(m' & B & _)|(m' & -> & B)]; [now apply neutral_brace in B|].
    apply brace_split in B; [|now apply (Pbody t n)].
    destruct B as [(m & B & ->)|(m & -> & (E & _))]; [|destruct m as [|? []]; discriminate E].
    rewrite !escaped_app_r, escaped_app_l. apply u_group; [exact Ho|]. eapply IH; eauto.
  - intros d ds H1 H2 H3 p1 p2 r B. exfalso. eapply escape_brace; [|exact B].
    exists d, ds. split; [reflexivity|now apply digits_neutral].
  - intros nm H p1 p2 r B. exfalso. eapply escape_brace; [|exact B].
    exists "k"%char, (str "<" ++ nm ++ str ">"). split; [reflexivity|].
    rewrite !forallb_app, (valid_neutral nm H). reflexivity.
  - intros t n H p1 p2 r B. exfalso. cbn [anchors In] in H.
    table H; try (now apply neutral_brace in B); (eapply escape_brace; [|exact B]); do 2 eexists; split; reflexivity.
  - intros f t n t' f' n' Hp IHp Hs IHs p1 p2 r B. apply brace_split in B; [|now apply (Ppiece f t n)].
    destruct B as [(m & B & ->)|(m & -> & B)].
    + exists f'. split; [now left|]. rewrite escaped_app_l. apply item_branch.
      eapply i_unit; [eapply IHp; eauto|exact Hs].
    + assert (Nf : f <> GroupEnd) by (destruct syntax_reads as (R & _); apply (R f t n Hp)).
      destruct (IHs m p2 r B Nf) as (f'' & W & [K|[-> K]]); rewrite escaped_app_r; exists f''; (split; [exact W|]).
      * apply item_branch. eapply i_unit; eauto.
      * eapply b_items; [apply piece_item; exact Hp|exact K].
  - intros f n p1 p2 r (E & _) _. destruct p1; discriminate E.
  - intros f n q lo hi md Hq p1 p2 r (E & Hu & Hd & _) _. exfalso.
    apply bounds_neutral in Hq. destruct Hq as [Hq|(d & q' & -> & Hq1 & Hq2)].
    + eapply (neutral_raw (q ++ mode_text md)); [|exact E]. rewrite forallb_app, Hq. apply mode_neutral.
    + unfold raw in E. destruct p1 as [|x p1]; cbn [app] in E.
      * injection E as <-. cbn in Hd. congruence.
      * injection E as _ E. eapply (neutral_raw ((d :: q') ++ mode_text md)); [|exact E].
        rewrite forallb_app, Hq2. apply mode_neutral.
  - intros f n t1 f1 n1 t2 f2 n2 t3 f3 n3 H1 IH1 H2 IH2 H3 IH3 Hnd p1 p2 r B Nf.
    destruct p1 as [|x p1].
    + destruct B as (E & _ & _ & Hb). cbn [str String.list_ascii_of_string app] in E. injection E as <-.
      assert (T : t3 = []).
      { destruct H3 as [|f' n' t1' f1' n1' t2' f2' n2' _ _ _]; [reflexivity|exfalso].
        rewrite <- !app_assoc in Hb. apply (Psuffix _ _ _ _ _ H1) in Hb. apply (Pitems _ _ _ _ _ H2) in Hb.
        discriminate Hb. }
      subst t3. inversion H3; subst. exists f3. split; [now right|]. right. split; [reflexivity|].
      rewrite app_nil_r. unfold escaped. cbn [app].
      change ("\"%char :: "{"%char :: t1 ++ t2) with ((str "\{" ++ t1) ++ t2).
      eapply m_item; [eapply i_unit; [apply u_escape; now apply ce_self|exact H1]| |exact H2].
      destruct f; [exact I|reflexivity|congruence].
    + destruct B as (E & B). unfold raw in E. cbn [str String.list_ascii_of_string app] in E. injection E as <- E.
      assert (B' : brace_at (t1 ++ t2 ++ t3) p1 p2 r).
      { split; [exact E|]. now rewrite unescaped_cons in B by discriminate. }
      clear E B. change ("{"%char :: p1) with (str "{" ++ p1). rewrite escaped_app_r.
      exists GroupEnd. split; [now left|]. left.
      apply brace_split in B'; [|now apply (Psuffix _ _ _ _ _ H1)].
      destruct B' as [(m & B & ->)|(m & -> & B)].
      * rewrite escaped_app_l.
        assert (Hnd' : not_digit (escaped p1 m ++ t2 ++ t3)).
        { apply not_digit_escaped. destruct B as (<- & _). exact Hnd. }
        destruct (IH1 _ _ _ B ltac:(discriminate)) as (g & [W|W] & [K|[F K]]);
          [subst g; eapply q_brace; eauto|subst g f1|subst f1|subst f1].
        -- apply group_end_items in H2. destruct H2 as (-> & -> & ->).
           apply group_end_branches in H3. destruct H3 as (-> & -> & ->).
           eapply (q_brace f n [] Anything (Lit "{"%char) (escaped p1 m) GroupEnd _ []).
           ++ constructor.
           ++ apply more_items_cat. exact K.
           ++ constructor.
           ++ exact Hnd'.
        -- apply group_end_items in H2. destruct H2 as (-> & -> & ->).
           apply group_end_branches in H3. destruct H3 as (-> & -> & ->).
           eapply (q_brace f n (escaped p1 m) g n1 [] g _ [] g); [exact K|constructor|constructor|exact Hnd'].
        -- apply group_end_items in H2. destruct H2 as (-> & -> & ->).
           apply group_end_branches in H3. destruct H3 as (-> & -> & ->).
           eapply (q_brace f n [] Anything (Lit "{"%char) (escaped p1 m) g _ [] g).
           ++ constructor.
           ++ apply more_items_cat. exact K.
           ++ constructor.
           ++ exact Hnd'.
      * apply brace_split in B; [|now apply (Pitems _ _ _ _ _ H2)]. rewrite escaped_app_r.
        destruct B as [(m' & B & ->)|(m' & -> & B)].
        -- rewrite escaped_app_l.
           assert (Hnd' : not_digit (t1 ++ escaped m m' ++ t3)).
           { destruct t1 as [|c t1]; [|exact Hnd]. apply not_digit_escaped. destruct B as (<- & _). exact Hnd. }
           destruct (IH2 _ _ _ B) as (g & [->| ->] & K); [eapply q_brace; eauto|].
           apply group_end_branches in H3. destruct H3 as (-> & -> & ->).
           eapply (q_brace f n t1 f1 n1 _ g _ [] g); [exact H1|exact K|constructor|exact Hnd'].
        -- rewrite escaped_app_r. destruct (IH3 _ _ _ B) as (g & _ & K).
           eapply q_brace; [exact H1|exact H2|exact K|].
           destruct t1; [|exact Hnd]. destruct t2; [|exact Hnd]. cbn [app] in *.
           rewrite <- (app_nil_r (escaped m' p2)). apply not_digit_escaped. rewrite app_nil_r.
           destruct B as (<- & _). exact Hnd.
  - intros f n p1 p2 r (E & _). destruct p1; discriminate E.
  - intros f n t1 f1 n1 t2 f2 n2 Hi IHi Ha Hm IHm p1 p2 r B.
    apply brace_split in B; [|now apply (Pitem _ _ _ Hi)]. destruct B as [(m & B & ->)|(m & -> & B)].
    + destruct (IHi _ _ _ B) as (g & W & K). rewrite escaped_app_l.
      assert (A : allows f (escaped p1 m)) by (apply allows_escaped; now destruct B as (<- & _)).
      pose proof (branch_more f n g _ _ K A) as M. destruct W as [->| ->].
      * exists f2. split; [now left|]. eapply more_items_app; eauto.
      * apply group_end_items in Hm. destruct Hm as (-> & -> & ->). exists g. split; [now right|].
        rewrite app_nil_r. exact M.
    + destruct (IHm _ _ _ B) as (g & W & K). exists g. split; [exact W|]. rewrite escaped_app_r. eapply m_item; eauto.
  - intros f n p1 p2 r (E & _). destruct p1; discriminate E.
  - intros f n t1 f1 n1 t2 f2 n2 Hi IHi Ha Hm IHm p1 p2 r B.
    apply brace_split in B; [|reflexivity]. destruct B as [(m & (E & _) & _)|(m & -> & B)].
    { destruct p1 as [|? []]; discriminate E. }
    rewrite escaped_app_r.
    apply brace_split in B; [|now apply (Pbranch _ _ _ Hi)]. destruct B as [(m' & B & ->)|(m' & -> & B)].
    + destruct (IHi _ _ _ B) as (g & W & K). rewrite escaped_app_l. destruct W as [->| ->].
      * exists f2. split; [now left|]. eapply o_branch; eauto.
      * apply group_end_branches in Hm. destruct Hm as (-> & -> & ->). exists g. split; [now right|].
        eapply o_branch; [exact K|exact Ha|constructor].
    + destruct (IHm _ _ _ B) as (g & W & K). exists g. split; [exact W|]. rewrite escaped_app_r. eapply o_branch; eauto.
  - intros f0 t0 n0 t1 f n Hi IHi Hm IHm p1 p2 r B.
    apply brace_split in B; [|now apply (Pitem _ _ _ Hi)]. destruct B as [(m & B & ->)|(m & -> & B)].
    + destruct (IHi _ _ _ B) as (g & W & K). rewrite escaped_app_l. destruct W as [->| ->].
      * exists f. split; [now left|]. eapply branch_app; eauto.
      * apply group_end_items in Hm. destruct Hm as (-> & -> & ->). exists g. split; [now right|].
        rewrite app_nil_r. exact K.
    + destruct (IHm _ _ _ B) as (g & W & K). exists g. split; [exact W|]. rewrite escaped_app_r. eapply b_items; eauto.
  - intros p1 p2 r (E & _). destruct p1; discriminate E.
  - intros f1 t1 n1 t2 f n Hi IHi Hm IHm p1 p2 r B.
    apply brace_split in B; [|now apply (Pbranch _ _ _ Hi)]. destruct B as [(m & B & ->)|(m & -> & B)].
    + destruct (IHi _ _ _ B) as (g & W & K). rewrite escaped_app_l. destruct W as [->| ->].
      * eapply y_branches; eauto.
      * apply group_end_branches in Hm. destruct Hm as (-> & -> & ->). eapply y_branches; [exact K|constructor].
    + destruct (IHm _ _ _ B) as (g & W & K). rewrite escaped_app_r. eapply y_branches; eauto.
Qed.

Theorem brace_is_literal p1 p2 n : unescaped p1 = true -> not_digit p2 -> no_bar Outside 0 p2 = true ->
  parse (p1 ++ str "{" ++ p2) = P_ok n -> parse (p1 ++ str "\{" ++ p2) = P_ok n.
Proof.
  intros H1 H2 H3 P. apply accepted_pattern in P. destruct P as (x & Hx & ->).
  apply pattern_parses. destruct syntax_escaped as (_ & _ & _ & _ & _ & _ & G).
  apply (G _ _ Hx p1 p2 []). split; [reflexivity|]. split; [exact H1|]. split; [exact H2|].
  now rewrite app_nil_r.
Qed.
