(** Sets of characters written in a pattern (C34). *)
From Verif Require Import Matcher Api Parser Basics Safe Cong Impl Spec Paths Mirror Adequacy Calls
  Lift Matching Classes Syntax Typing Shape Reading Accepted Print.
From Coq Require Import Lia.

(** ** The items of a set, and what they accept *)

(** A character with its spelling, a range, a class escape, a literal dash. *)
Inductive piece_of_set :=
| One (w : text) (c : ascii)
| Span (w1 : text) (a : ascii) (w2 : text) (b : ascii)
| Class (c : ascii)
| Dash.

Definition written (x : piece_of_set) : text :=
  match x with
  | One w _ => w
  | Span w1 _ w2 _ => w1 ++ str "-" ++ w2
  | Class c => ["\"%char; c]
  | Dash => str "-"
  end.

(** Ways to write a character: itself, unless it is a backslash, a bracket or a
    dash, or an escape. *)
Definition spelled (w : text) (c : ascii) : Prop :=
  (w = [c] /\ among c (str "\]-") = false) \/ set_escape w c.

(** The bytes of the class escapes. *)
Definition class_tests : list (ascii * (ascii -> bool)) :=
  let digit a := Spec.between "0"%char "9"%char a in
  let word a := Spec.between "a"%char "z"%char a || Spec.between "A"%char "Z"%char a || digit a || in_codes [95%N] a in
  let space := in_codes [32; 9; 10; 11; 12; 13]%N in
  let newline := in_codes [10; 13]%N in
  [("d"%char, digit); ("D"%char, fun a => negb (digit a));
   ("w"%char, word); ("W"%char, fun a => negb (word a));
   ("s"%char, space); ("S"%char, fun a => negb (space a));
   ("R"%char, newline); ("N"%char, fun a => negb (newline a))].

Definition class_test (c : ascii) : ascii -> bool :=
  match find (fun e => Ascii.eqb (fst e) c) class_tests with Some e => snd e | None => fun _ => false end.

Definition covers (x : piece_of_set) (a : ascii) : bool :=
  match x with
  | One _ c => Ascii.eqb c a
  | Span _ lo _ hi => Spec.between lo hi a
  | Class c => class_test c a
  | Dash => Ascii.eqb "-"%char a
  end.

(** Each item is well written; the bounds of ranges are in order. *)
Definition well_written (x : piece_of_set) : Prop :=
  match x with
  | One w c => spelled w c
  | Span w1 a w2 b => spelled w1 a /\ range_end w2 b /\ (N_of_ascii a <= N_of_ascii b)%N
  | Class c => In c (map fst class_tests)
  | Dash => True
  end.

(** Dashes stand at the beginning, behind a range, behind a class or at the
    end (elsewhere they make a range). *)
Fixpoint dashes_ok (prev : option piece_of_set) (l : list piece_of_set) : bool :=
  match l with
  | [] => true
  | x :: r =>
      match x, prev, r with
      | Dash, Some (One _ _), _ :: _ | Dash, Some Dash, _ :: _ => false
      | _, _, _ => true
      end && dashes_ok (Some x) r
  end.

(** A dash Spec.between a class and something else: the code only deals with a
    character behind it, and not with the class [\R]. *)
Fixpoint simple_class_dash (prev : option piece_of_set) (l : list piece_of_set) : bool :=
  match l with
  | [] => true
  | x :: r =>
      match x, prev, r with
      | Dash, Some (Class c), y :: _ =>
          negb (Ascii.eqb c "R"%char) && match y with One _ _ => true | _ => false end
      | _, _, _ => true
      end && simple_class_dash (Some x) r
  end.

(** ** Reading them *)

Lemma spelled_body fresh l w c t l' : spelled w c ->
  set_body false (Lit c :: l) t l' -> set_body fresh l (w ++ t) l'.
Proof. intros [[-> Hc]|He] H; [now apply set_char|eapply set_escaped; eauto]. Qed.

Lemma spelled_end w c : spelled w c -> range_end w c.
Proof.
  intros [[-> Hc]|He]; [|now constructor]. apply range_plain. revert Hc. unfold among. cbn.
  destruct (Ascii.eqb c "\"%char), (Ascii.eqb c "]"%char); easy.
Qed.

(** Elements that occur in the trees of sets. *)
Definition simple_element (x : node) : Prop :=
  (exists c : ascii, x = Lit c) \/ (exists a b, x = Range a b /\ (N_of_ascii a <= N_of_ascii b)%N)
  \/ In x [n_linebreak; Neg n_digit; Neg n_word; Neg n_linebreak; Neg n_whitespace].

Section Case.
Variable cf : config.
Hypothesis Hcase : icase cf = false.

Definition set_accepts (l : list node) (a : ascii) : bool :=
  existsb (fun x => accepts (cf) x a) l.

Lemma lit_accepts c a : accepts (cf) (Lit c) a = Ascii.eqb c a.
Proof. cbn. unfold either_case. rewrite Hcase. apply orb_false_r. Qed.
Lemma range_accepts x y a : accepts (cf) (Range x y) a = Spec.between x y a.
Proof. cbn. unfold either_case. rewrite Hcase. apply orb_false_r. Qed.

Lemma class_nodes c : In c (map fst class_tests) -> exists n,
  class_escape ["\"%char; c] n /\ Forall simple_element (elements n)
  /\ (forall a, set_accepts (elements n) a = class_test c a)
  /\ (c <> "R"%char -> exists x r, elements n = x :: r /\ is_lit x = false).
Proof.
  intros H.
  assert (K : forall n, In (c, n) class_escapes -> Forall simple_element (elements n) ->
    forallb (fun da => forallb (fun a => Bool.eqb (existsb (fun x =>
      accepts (mk_config false da false false false RandomAccessIt) x a) (elements n)) (class_test c a)) all_bytes) [true; false] = true ->
    (c <> "R"%char -> exists x r, elements n = x :: r /\ is_lit x = false) ->
    exists n, class_escape ["\"%char; c] n /\ Forall simple_element (elements n)
      /\ (forall a, set_accepts (elements n) a = class_test c a)
      /\ (c <> "R"%char -> exists x r, elements n = x :: r /\ is_lit x = false)).
  { intros n H1 H2 H3 H4. exists n. split; [now constructor|]. split; [exact H2|]. split; [|exact H4].
    intros a. apply Bool.eqb_prop. rewrite forallb_forall in H3. specialize (H3 (dotall cf)).
    rewrite forallb_forall in H3. rewrite <- (H3 ltac:(destruct (dotall cf); cbn; auto) a (all_bytes_in a)).
    f_equal. unfold set_accepts. clear - Hcase. induction (elements n) as [|x l IH]; [reflexivity|]. cbn [existsb]. rewrite IH. f_equal.
    rewrite <- !match_one_accepts. now apply same_match_one. }
  assert (E : forall a b, (N_of_ascii a <=? N_of_ascii b)%N = true -> simple_element (Range a b)).
  { intros a b L. right. left. apply N.leb_le in L. eauto. }
  assert (F : forall c, simple_element (Lit c)) by (left; eauto).
  assert (G : forall x, In x [n_linebreak; Neg n_digit; Neg n_word; Neg n_linebreak; Neg n_whitespace] -> simple_element x)
    by (right; now right).
  cbn [map fst class_tests In] in H.
  repeat (destruct H as [<-|H]); try contradiction;
    (eapply K; [cbn; tauto| |vm_compute; reflexivity|]);
    try (repeat (apply Forall_cons; [first [now apply E|apply F|apply G; cbn; tauto]|]); apply Forall_nil);
    try (intros _; do 2 eexists; split; reflexivity).
  congruence.
Qed.

(** The state behind an item: where dashes are literal. *)
Definition position (prev : option piece_of_set) (fresh : bool) (l : list node) : Prop :=
  match prev with
  | None | Some (Span _ _ _ _) => fresh = true
  | Some (Class c) => c <> "R"%char -> exists x r, l = x :: r /\ is_lit x = false
  | Some (One _ _) | Some Dash => True
  end.

Lemma set_accepts_cons x l a : set_accepts (x :: l) a = accepts (cf) x a || set_accepts l a.
Proof. reflexivity. Qed.

Lemma items_read k : forall its prev fresh l, length its <= k ->
  Forall well_written its -> dashes_ok prev its = true -> simple_class_dash prev its = true ->
  position prev fresh l -> Forall simple_element l ->
  exists l', set_body fresh l (flat_map written its) l' /\ Forall simple_element l'
    /\ forall a, set_accepts l' a = existsb (fun x => covers x a) its || set_accepts l a.
Proof.
  assert (F : forall c, simple_element (Lit c)) by (left; eauto).
  induction k as [|k IH]; intros [|x its] prev fresh l Hk Hw Hd Hc Hp Hl;
    try (cbn in Hk; lia); try (exists l; split; [constructor|split; [exact Hl|reflexivity]]).
  inversion Hw as [|? ? Hx Hr]; subst. cbn [length] in Hk.
  assert (D : dashes_ok (Some x) its = true) by (cbn [dashes_ok] in Hd; now apply andb_prop in Hd).
  assert (C : simple_class_dash (Some x) its = true) by (cbn [simple_class_dash] in Hc; now apply andb_prop in Hc).
  destruct x as [w c|w1 a w2 b|c|]; cbn [flat_map written existsb covers].
  - destruct (IH its (Some (One w c)) false (Lit c :: l)) as (l' & H1 & H2 & H3); auto; try lia; try exact I.
    exists l'. split; [now apply spelled_body with (c := c)|]. split; [exact H2|].
    intros y. rewrite H3, set_accepts_cons, lit_accepts.
    destruct (Ascii.eqb c y), (existsb (fun x => covers x y) its); reflexivity.
  - destruct Hx as (X1 & X2 & X3).
    destruct (IH its (Some (Span w1 a w2 b)) true (Range a b :: l)) as (l' & H1 & H2 & H3); auto; [lia|reflexivity| |].
    { constructor; [right; left; eauto|exact Hl]. }
    exists l'. split; [|split; [exact H2|]].
    + rewrite <- !app_assoc. apply spelled_body with (c := a); [exact X1|].
      apply (set_range a l w2 b); [exact X2|exact H1].
    + intros y. rewrite H3, set_accepts_cons, range_accepts.
      destruct (Spec.between a b y), (existsb (fun x => covers x y) its); reflexivity.
  - destruct (class_nodes c Hx) as (n & N1 & N2 & N3 & N4).
    destruct (IH its (Some (Class c)) false (elements n ++ l)) as (l' & H1 & H2 & H3); auto; [lia| | |].
    { intros Q. destruct (N4 Q) as (x & r & -> & Q'). cbn [app]. eauto. }
    { now apply Forall_app. }
    exists l'. split; [eapply (set_class _ _ ["\"%char; c]); eauto|]. split; [exact H2|].
    intros y. rewrite H3. unfold set_accepts at 1. rewrite existsb_app. fold (set_accepts (elements n) y).
    rewrite N3. fold (set_accepts l y). destruct (class_test c y), (existsb (fun x => covers x y) its); reflexivity.
  - destruct its as [|y its].
    { exists (Lit "-"%char :: l). split; [|split; [now constructor|]].
      - cbn [flat_map app]. destruct fresh; [apply set_dash, set_end|apply set_last_dash].
      - intros a. rewrite set_accepts_cons, lit_accepts. now rewrite orb_false_r. }
    destruct fresh.
    { destruct (IH (y :: its) (Some Dash) false (Lit "-"%char :: l)) as (l' & H1 & H2 & H3); auto; try lia; try exact I.
      exists l'. split; [now apply set_dash|]. split; [exact H2|].
      intros a. rewrite H3, set_accepts_cons, lit_accepts.
      destruct (Ascii.eqb "-"%char a), (existsb (fun x => covers x a) (y :: its)); reflexivity. }
    destruct prev as [[w c|w1 a w2 b|c|]|]; cbn [dashes_ok simple_class_dash position] in Hd, Hc, Hp; try discriminate.
    apply andb_prop in Hc. destruct Hc as [Hc _]. apply andb_prop in Hc. destruct Hc as [Hc Hy].
    rewrite negb_true_iff in Hc. apply Ascii.eqb_neq in Hc.
    destruct (Hp Hc) as (x & r & -> & Lx). destruct y as [w b| | |]; try discriminate Hy.
    inversion Hr as [|? ? Wb Hr']; subst.
    cbn [dashes_ok simple_class_dash] in D, C. cbn [length] in Hk.
    destruct (IH its (Some (One w b)) true (Lit b :: Lit "-"%char :: x :: r)) as (l' & H1 & H2 & H3); auto; try lia; try exact I.
    exists l'. split; [|split; [exact H2|]].
    + cbn [flat_map written]. apply (set_class_dash x r w b); [exact Lx|now apply spelled_end|exact H1].
    + intros a. rewrite H3, (set_accepts_cons (Lit b)), (set_accepts_cons (Lit "-"%char)), !lit_accepts.
      cbn [existsb covers].
      destruct (Ascii.eqb "-"%char a), (Ascii.eqb b a), (existsb (fun x => covers x a) its); reflexivity.
Qed.

End Case.

(** ** Sets as regexes *)

Lemma simple_compiles x : simple_element x -> trivial x = true /\ has_begin_line x = false
  /\ forall cf names, compiles cf names (size x) 0 x = true.
Proof.
  intros [[c ->]|[(a & b & -> & H)|H]].
  - repeat split; reflexivity.
  - split; [reflexivity|]. split; [reflexivity|]. intros. cbn. now apply N.leb_le.
  - cbn [In] in H. repeat (destruct H as [<-|H]; [repeat split; reflexivity|]). destruct H.
Qed.

Lemma simple_set_usable l fl ct : Forall simple_element l ->
  usable (mk_regex (CSet l) fl) ct /\ usable (mk_regex (Neg (CSet l)) fl) ct.
Proof.
  intros H.
  assert (Hc : forall names f, list_sum (map size l) <= f ->
     forallb (fun x => trivial x && compiles (config_of fl ct) names f 0 x) l = true).
  { intros names f L. apply forallb_forall. intros x Hx. pose proof (size_in_sum _ _ Hx) as Sx.
    rewrite Forall_forall in H. destruct (simple_compiles x (H x Hx)) as (H1 & _ & H3). rewrite H1.
    rewrite (compiles_fuel _ _ f (size x)) by lia. apply H3. }
  assert (Hb : has_begin_line (CSet l) = false).
  { cbn. induction H as [|x r Hx Hr IH]; [reflexivity|]. cbn. destruct (simple_compiles x Hx) as (_ & -> & _).
    cbn. apply IH. intros names f L. pose proof (Hc names (size x + f)) as Q. cbn [map] in Q.
    change (list_sum (size x :: map size r)) with (size x + list_sum (map size r)) in Q.
    specialize (Q ltac:(lia)). cbn [forallb] in Q. apply andb_prop in Q. destruct Q as [_ Q].
    rewrite forallb_forall in *. intros y Hy. specialize (Q y Hy). pose proof (size_in_sum _ _ Hy).
    rewrite (compiles_fuel _ _ f (size x + f)) by lia. exact Q. }
  split; (split; [|right; right; exact Hb]); cbn [ast flags]; unfold compilable.
  - rewrite size_CSet. cbn [compiles]. apply Hc. lia.
  - cbn [size]. change (S (_ l)) with (size (CSet l)). rewrite size_CSet.
    cbn [compiles trivial orb andb]. apply Hc. lia.
Qed.

Lemma simple_index l : Forall simple_element l -> map (index 1) l = l.
Proof.
  induction 1 as [|x l H Hl IH]; [reflexivity|]. cbn [map]. rewrite IH. f_equal.
  destruct H as [[c ->]|[(a & b & -> & H)|H]]; [reflexivity..|].
  cbn [In] in H. repeat (destruct H as [<-|H]; [reflexivity|]). destruct H.
Qed.

Theorem written_set_match its fl ct s :
  Forall well_written its -> dashes_ok None its = true -> simple_class_dash None its = true ->
  ~ In F_icase fl ->
  (hd_error (flat_map written its) <> Some "^"%char ->
   exists n, parse (str "[" ++ flat_map written its ++ str "]") = P_ok n
     /\ returns (regex_match (mk_regex n fl) ct s) (fun res =>
          matched res = match s with [a] => existsb (fun x => covers x a) its | _ => false end))
  /\ exists n, parse (str "[^" ++ flat_map written its ++ str "]") = P_ok n
     /\ returns (regex_match (mk_regex n fl) ct s) (fun res =>
          matched res = match s with [a] => negb (existsb (fun x => covers x a) its) | _ => false end).
Proof.
  intros Hw Hd Hc Hi. apply flag_test_not_In in Hi.
  destruct (items_read (config_of fl ct) Hi (length its) its None true []) as (l & B & Hl & Ha); auto; [reflexivity|].
  destruct (simple_set_usable l fl ct Hl) as [U1 U2].
  split.
  - intros Hh. exists (CSet l). split.
    + rewrite (pattern_parses _ (CSet l)); [|now eapply branch_body, item_branch, piece_item, u_set].
      unfold index_captures. cbn [index]. now rewrite simple_index.
    + destruct (class_match (CSet l) fl ct s eq_refl U1) as (res & E & H). exists res. split; [exact E|].
      rewrite H. destruct s as [|a [|b r]]; auto. cbn [accepts].
      pose proof (Ha a) as Q. rewrite orb_false_r in Q. exact Q.
  - exists (Neg (CSet l)). split.
    + rewrite (pattern_parses _ (Neg (CSet l))); [|now eapply branch_body, item_branch, piece_item, u_not_set].
      unfold index_captures. cbn [index]. now rewrite simple_index.
    + destruct (class_match (Neg (CSet l)) fl ct s eq_refl U2) as (res & E & H). exists res. split; [exact E|].
      rewrite H. destruct s as [|a [|b r]]; auto. cbn [accepts]. f_equal.
      pose proof (Ha a) as Q. rewrite orb_false_r in Q. exact Q.
Qed.

(** ** Any text between brackets *)

Lemma class_escape_index e n : class_escape e n -> map (index 1) (elements n) = elements n.
Proof. destruct 1 as [c n H]. cbn [class_escapes In] in H. table H; reflexivity. Qed.

Lemma set_body_index fresh l t l' : set_body fresh l t l' -> map (index 1) l = l -> map (index 1) l' = l'.
Proof.
  induction 1 as [fresh l|fresh l c t l' Hc H IH|l t l' H IH|fresh l e c t l' He H IH|fresh l e n t l' He H IH
    |a l e b t l' He H IH|x l e b t l' Hx He H IH|l]; intros Hi.
  - exact Hi.
  - apply IH. cbn [map index]. now rewrite Hi.
  - apply IH. cbn [map index]. now rewrite Hi.
  - apply IH. cbn [map index]. now rewrite Hi.
  - apply IH. rewrite map_app, Hi, (class_escape_index e n He). reflexivity.
  - apply IH. cbn [map index] in *. congruence.
  - apply IH. cbn [map index] in *. congruence.
  - cbn [map index]. now rewrite Hi.
Qed.

Theorem set_text_match t l fl ct s : set_body true [] t l ->
  (hd_error t <> Some "^"%char ->
   parse (str "[" ++ t ++ str "]") = P_ok (CSet l)
   /\ (usable (mk_regex (CSet l) fl) ct -> returns (regex_match (mk_regex (CSet l) fl) ct s) (fun res =>
         matched res = match s with [a] => existsb (fun x => accepts (config_of fl ct) x a) l | _ => false end)))
  /\ parse (str "[^" ++ t ++ str "]") = P_ok (Neg (CSet l))
  /\ (usable (mk_regex (Neg (CSet l)) fl) ct -> returns (regex_match (mk_regex (Neg (CSet l)) fl) ct s) (fun res =>
        matched res = match s with [a] => negb (existsb (fun x => accepts (config_of fl ct) x a) l) | _ => false end)).
Proof.
  intros B. pose proof (set_body_index _ _ _ _ B eq_refl) as Hi. split; [intros Hh|].
  - split.
    + rewrite (pattern_parses _ (CSet l)); [|now eapply branch_body, item_branch, piece_item, u_set].
      unfold index_captures. cbn [index]. now rewrite Hi.
    + intros U. exact (class_match (CSet l) fl ct s eq_refl U).
  - split.
    + rewrite (pattern_parses _ (Neg (CSet l))); [|now eapply branch_body, item_branch, piece_item, u_not_set].
      unfold index_captures. cbn [index]. now rewrite Hi.
    + intros U. exact (class_match (Neg (CSet l)) fl ct s eq_refl U).
Qed.
