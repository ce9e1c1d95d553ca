(** Character classes at the public interface (C16, C17). *)
From Verif Require Import Matcher Api Parser Basics Safe Cong Impl Spec Paths Mirror Adequacy Calls
  Lift Matching.

Lemma class_regular n : is_class n = true -> regular n = true.
Proof. intros H. apply reversible_regular, class_reversible, H. Qed.

Lemma matches_one cf n s : is_class n = true ->
  (matches cf s n 0 (length s) <-> match s with [a] => accepts cf n a = true | _ => False end).
Proof.
  intros H. rewrite matches_class by assumption. unfold char_at.
  destruct s as [|a [|b r]]; cbn; split; intros; intuition congruence.
Qed.

(** A class as a regex: matches exactly the one-character texts it accepts. *)
Theorem class_match n fl ct s : is_class n = true -> usable (mk_regex n fl) ct ->
  returns (regex_match (mk_regex n fl) ct s) (fun res =>
    matched res = match s with [a] => accepts (config_of fl ct) n a | _ => false end).
Proof.
  intros Hc Hu.
  destruct (match_language (mk_regex n fl) ct s Hu (class_regular n Hc)
              (class_possessive_free n Hc)) as (res & E & H).
  exists res. split; [exact E|]. cbn [ast flags] in H. rewrite matches_one in H by assumption.
  apply Bool.eq_iff_eq_true. rewrite H. destruct s as [|a [|b r]]; intuition discriminate.
Qed.

Definition in_codes (l : list N) (a : ascii) : bool := existsb (N.eqb (N_of_ascii a)) l.

(** The documented meaning of the class escapes and of the dot, as bytes; the
    boolean is the flag [dotall]. *)
Definition documented_classes : list (list ascii * (bool -> ascii -> bool)) :=
  let digit a := between "0" "9" a in
  let word a := between "a" "z" a || between "A" "Z" a || between "0" "9" a || in_codes [95%N] a in
  let space := in_codes [32; 9; 10; 11; 12; 13]%N in
  let newline := in_codes [10; 13]%N in
  [ (str "\d", fun _ => digit); (str "\D", fun _ a => negb (digit a));
    (str "\w", fun _ => word); (str "\W", fun _ a => negb (word a));
    (str "\s", fun _ => space); (str "\S", fun _ a => negb (space a));
    (str "\R", fun _ => newline); (str "\N", fun _ a => negb (newline a));
    (str ".", fun dotall a => dotall || negb (newline a)) ].

Lemma documented_accepts : forall p test, In (p, test) documented_classes ->
  exists n, parse p = P_ok n /\ is_class n = true
    /\ (forall cf, compilable cf n = true) /\ has_begin_line n = false
    /\ forall fl ct a, accepts (config_of fl ct) n a = test (flag_test fl F_dotall) a.
Proof.
  intros p test H.
  assert (Hsweep : forall n, (forallb (fun ic => forallb (fun da => forallb (fun a =>
      Bool.eqb (accepts (mk_config ic da false false false RandomAccessIt) n a) (test da a))
      all_bytes) [true; false]) [true; false]) = true ->
    forall fl ct a, accepts (config_of fl ct) n a = test (flag_test fl F_dotall) a).
  { intros n Hn fl ct a. apply Bool.eqb_prop. rewrite forallb_forall in Hn.
    specialize (Hn (flag_test fl F_icase)). rewrite forallb_forall in Hn.
    specialize (fun H1 => Hn H1 (flag_test fl F_dotall)). rewrite forallb_forall in Hn.
    rewrite <- Hn with (x := a).
    - f_equal. rewrite <- !match_one_accepts. now apply same_match_one.
    - destruct (flag_test fl F_icase); cbn; auto.
    - destruct (flag_test fl F_dotall); cbn; auto.
    - apply all_bytes_in. }
  cbn in H. repeat destruct H as [H|H]; try contradiction; inversion H; subst; clear H;
    (eexists; split; [vm_compute; reflexivity|]; split; [reflexivity|]; split;
      [intros cf; reflexivity|]; split; [reflexivity|]; apply Hsweep; vm_compute; reflexivity).
Qed.

Theorem documented_classes_match p test fl ct s : In (p, test) documented_classes ->
  exists n, parse p = P_ok n
    /\ returns (regex_match (mk_regex n fl) ct s) (fun res =>
         matched res = match s with [a] => test (flag_test fl F_dotall) a | _ => false end).
Proof.
  intros H. destruct (documented_accepts p test H) as (n & Hp & Hc & Hcomp & Hb & Ha).
  exists n. split; [exact Hp|].
  destruct (class_match n fl ct s Hc) as (res & E & Hr).
  - split; [apply Hcomp|]. right. right. exact Hb.
  - exists res. split; [exact E|]. rewrite Hr. destruct s as [|a [|b r]]; auto.
Qed.

(** Sets of characters and ranges, and their complements. *)
Definition range_items (l : list (ascii * ascii)) : list node := map (fun '(a, b) => Range a b) l.

Definition in_ranges (l : list (ascii * ascii)) (c : ascii) : bool :=
  existsb (fun '(a, b) => N.leb (N_of_ascii a) (N_of_ascii c) && N.leb (N_of_ascii c) (N_of_ascii b)) l.

Lemma set_accepts l fl ct c : ~ In F_icase fl ->
  accepts (config_of fl ct) (CSet (range_items l)) c = in_ranges l c.
Proof.
  intros H. apply flag_test_not_In in H. cbn [accepts]. unfold range_items, in_ranges.
  induction l as [|[a b] r IH]; [reflexivity|]. cbn [map existsb]. rewrite IH.
  cbn [accepts]. unfold either_case, between. cbn [config_of icase]. rewrite H.
  now rewrite orb_false_r.
Qed.

Lemma set_usable (l : list (ascii * ascii)) fl ct : Forall (fun '(a, b) => (N_of_ascii a <= N_of_ascii b)%N) l ->
  usable (mk_regex (CSet (range_items l)) fl) ct /\ usable (mk_regex (Neg (CSet (range_items l))) fl) ct.
Proof.
  intros H.
  assert (Hc : forall f, forallb (fun x => trivial x && compiles (config_of fl ct)
      (group_names (CSet (range_items l))) (S f) 0 x) (range_items l) = true).
  { intros f. apply forallb_forall. intros x Hx. apply in_map_iff in Hx as ([a b] & <- & Hx).
    rewrite Forall_forall in H. apply H in Hx. cbn. now apply N.leb_le. }
  assert (Hn : capture_name_spec (CSet (range_items l)) = []).
  { cbn. clear. induction l as [|[a b] r IH]; cbn; auto. }
  assert (Hb : has_begin_line (CSet (range_items l)) = false).
  { cbn. clear. induction l as [|[a b] r IH]; cbn; auto. }
  assert (Hsz : l <> [] -> exists f, size (CSet (range_items l)) = S (S f)).
  { destruct l as [|[a b] r]; [easy|]. intros _. cbn. eauto. }
  split; (split; [|right; right; exact Hb]); cbn [ast flags]; unfold compilable.
  - destruct l as [|p r] eqn:E; [reflexivity|]. destruct Hsz as [f ->]; [discriminate|].
    cbn [compiles]. apply (Hc f).
  - replace (group_names (Neg (CSet (range_items l)))) with (group_names (CSet (range_items l)))
      by reflexivity.
    destruct l as [|p r] eqn:E; [reflexivity|]. cbn [size].
    destruct Hsz as [f Hf]; [discriminate|]. change (S (_ (range_items (p :: r)))) with
      (size (CSet (range_items (p :: r)))). rewrite Hf. cbn [compiles].
    change (trivial (CSet (range_items (p :: r)))) with true. cbn [orb andb]. apply (Hc f).
Qed.

Theorem set_match l fl ct s : ~ In F_icase fl ->
  Forall (fun '(a, b) => (N_of_ascii a <= N_of_ascii b)%N) l ->
  returns (regex_match (mk_regex (CSet (range_items l)) fl) ct s) (fun res =>
    matched res = match s with [c] => in_ranges l c | _ => false end)
  /\ returns (regex_match (mk_regex (Neg (CSet (range_items l))) fl) ct s) (fun res =>
    matched res = match s with [c] => negb (in_ranges l c) | _ => false end).
Proof.
  intros Hi Hl. destruct (set_usable l fl ct Hl) as [U1 U2]. split.
  - destruct (class_match (CSet (range_items l)) fl ct s eq_refl U1) as (res & E & H). exists res. split; auto.
    rewrite H. destruct s as [|a [|b r]]; auto. now apply set_accepts.
  - destruct (class_match (Neg (CSet (range_items l))) fl ct s eq_refl U2) as (res & E & H). exists res. split; auto.
    rewrite H. destruct s as [|a [|b r]]; auto. cbn [accepts]. f_equal.
    now apply (set_accepts l fl ct a).
Qed.

(** ** C17 *)

(** Classes without negation. *)
Fixpoint positive_class (n : node) : bool :=
  match n with
  | Lit _ | Range _ _ => true
  | CSet l => forallb positive_class l
  | Seq [x] => positive_class x
  | Alt (x :: r) => positive_class x && forallb positive_class r
  | Rep _ lo (Fin hi) x => N.eqb lo 1 && N.eqb hi 1 && positive_class x
  | _ => false
  end.

Lemma positive_is_class n : positive_class n = true -> is_class n = true.
Proof.
  induction n using node_ind'; cbn [positive_class is_class]; auto; try discriminate.
  - destruct l as [|x [|y r]]; auto. now inversion H; subst.
  - destruct l as [|x r]; auto. inversion H; subst. rewrite !andb_true_iff.
    intros [H1 H4]. split; auto. apply forallb_forall. intros y Hy.
    rewrite forallb_forall in H4. rewrite Forall_forall in H3. auto.
  - destruct hi; try discriminate. rewrite !andb_true_iff. tauto.
Qed.

Lemma existsb_or {A} (f g h : A -> bool) l : (forall x, In x l -> f x = g x || h x) ->
  existsb f l = existsb g l || existsb h l.
Proof.
  induction l as [|a r IH]; intros H; [reflexivity|]. cbn [existsb].
  rewrite (H a) by (cbn; auto). rewrite IH by (intros; apply H; cbn; auto).
  destruct (g a), (h a), (existsb g r), (existsb h r); reflexivity.
Qed.

Lemma icase_accepts fl ct n a : ~ In F_icase fl -> positive_class n = true ->
  accepts (config_of (F_icase :: fl) ct) n a
  = accepts (config_of fl ct) n a || accepts (config_of fl ct) n (other_case a).
Proof.
  intros Hi. apply flag_test_not_In in Hi.
  assert (He : forall p, either_case (config_of (F_icase :: fl) ct) p a
     = either_case (config_of fl ct) p a || either_case (config_of fl ct) p (other_case a)).
  { intros p. unfold either_case. cbn. rewrite Hi. cbn. now rewrite !orb_false_r. }
  induction n using node_ind'; cbn [positive_class]; intros Hp; try discriminate; cbn [accepts]; auto.
  - apply existsb_or. intros x Hx. rewrite Forall_forall in H. rewrite forallb_forall in Hp. auto.
  - destruct l as [|x [|y r]]; try discriminate. inversion H; subst; auto.
  - destruct l as [|y r]; [discriminate|]. apply andb_true_iff in Hp as [H1 H2].
    apply existsb_or. intros x Hx. rewrite Forall_forall in H. rewrite forallb_forall in H2.
    apply H; [exact Hx|]. destruct Hx as [<-|Hx]; auto.
  - destruct hi; try discriminate. rewrite !andb_true_iff in Hp. apply IHn. tauto.
Qed.

(** The verdict of a call. *)
Definition says (o : call match_res) (b : bool) : Prop :=
  exists r, o = Returned r /\ matched r = b.

Lemma usable_icase n fl ct : usable (mk_regex n fl) ct -> usable (mk_regex n (F_icase :: fl)) ct.
Proof.
  intros [H1 H2]. split.
  - rewrite <- H1. now apply compilable_same_category.
  - exact H2.
Qed.

Theorem icase_class n fl ct a : ~ In F_icase fl -> positive_class n = true ->
  usable (mk_regex n fl) ct ->
  exists b1 b2,
    says (regex_match (mk_regex n fl) ct [a]) b1
    /\ says (regex_match (mk_regex n fl) ct [other_case a]) b2
    /\ says (regex_match (mk_regex n (F_icase :: fl)) ct [a]) (b1 || b2).
Proof.
  intros Hi Hp Hu. pose proof (positive_is_class n Hp) as Hc.
  exists (accepts (config_of fl ct) n a), (accepts (config_of fl ct) n (other_case a)).
  rewrite <- icase_accepts by assumption. unfold says.
  split; [|split].
  - apply (class_match n fl ct [a] Hc Hu).
  - apply (class_match n fl ct [other_case a] Hc Hu).
  - apply (class_match n (F_icase :: fl) ct [a] Hc). now apply usable_icase.
Qed.

Theorem icase_negated_class n fl ct a : ~ In F_icase fl -> positive_class n = true ->
  usable (mk_regex n fl) ct -> usable (mk_regex (Neg n) fl) ct ->
  exists b,
    says (regex_match (mk_regex n (F_icase :: fl)) ct [a]) b
    /\ says (regex_match (mk_regex (Neg n) (F_icase :: fl)) ct [a]) (negb b).
Proof.
  intros Hi Hp Hu Hun. pose proof (positive_is_class n Hp) as Hc.
  exists (accepts (config_of (F_icase :: fl) ct) n a). split.
  - apply (class_match n (F_icase :: fl) ct [a] Hc). now apply usable_icase.
  - apply (class_match (Neg n) (F_icase :: fl) ct [a] Hc). now apply usable_icase.
Qed.
