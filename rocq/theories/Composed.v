(** Whole expressions of the expression interface, and the pattern each of them
    stands for (C59). *)
From Coq Require Import Lia.
From Verif Require Import Matcher Api Xpr Parser Basics Safe Cong Impl Spec Paths Calls Lift Matching Equiv Classes
  Regroup Pairs Normal Syntax Steps Typing Shape Reading Accepted Print Literal Expressions.

Inductive terminal :=
| T_empty | T_nothing | T_begin_line | T_end_line | T_begin_input | T_end_input | T_word_boundary
| T_whitespace | T_wildcard | T_lower | T_upper | T_digit | T_word | T_linebreak.

(** The expressions: xpr/components.hpp. *)
Inductive expr :=
| E_terminal (t : terminal)
| E_chr (c : ascii)
| E_str (t : text)
| E_range (a b : ascii)
| E_group (id : N)
| E_group_named (nm : text)
| E_regex (p : text)
| E_concat (l : list expr)
| E_either (l : list expr)
| E_atomic (l : list expr)
| E_capture (id : N) (nm : group_name) (l : list expr)
| E_between (a b : N) (md : match_mode) (l : list expr)
| E_at_least (a : N) (md : match_mode) (l : list expr)
| E_exactly (a : N) (md : match_mode) (l : list expr)
| E_zero_or_more (md : match_mode) (l : list expr)
| E_one_or_more (md : match_mode) (l : list expr)
| E_maybe (md : match_mode) (l : list expr)
| E_ahead (l : list expr)
| E_behind (l : list expr)
| E_negate (e : expr).

(** xpr/components.hpp:130-143. *)
Definition terminal_tree (t : terminal) : node :=
  match t with
  | T_empty => x_empty | T_nothing => x_nothing | T_begin_line => x_begin_line
  | T_end_line => x_end_line | T_begin_input => x_begin_input | T_end_input => x_end_input
  | T_word_boundary => x_word_boundary | T_whitespace => x_whitespace | T_wildcard => x_wildcard
  | T_lower => x_lower | T_upper => x_upper | T_digit => x_digit | T_word => x_word
  | T_linebreak => x_linebreak
  end.

(** The tree that the functions of xpr/components.hpp build. *)
Fixpoint built (e : expr) : node :=
  match e with
  | E_terminal t => terminal_tree t
  | E_chr c => x_chr c
  | E_str t => x_str t
  | E_range a b => x_range a b
  | E_group id => x_group id
  | E_group_named nm => x_group_named nm
  | E_regex p => x_regex p
  | E_concat l => x_concat (map built l)
  | E_either l => x_either (map built l)
  | E_atomic l => x_atomic (map built l)
  | E_capture id nm l => x_capture id nm (map built l)
  | E_between a b md l => x_between a b md (map built l)
  | E_at_least a md l => x_at_least a md (map built l)
  | E_exactly a md l => x_exactly a md (map built l)
  | E_zero_or_more md l => x_zero_or_more md (map built l)
  | E_one_or_more md l => x_one_or_more md (map built l)
  | E_maybe md l => x_maybe md (map built l)
  | E_ahead l => x_ahead (map built l)
  | E_behind l => x_behind (map built l)
  | E_negate x => x_negate (built x)
  end.

(** ** The pattern *)

Definition terminal_text (t : terminal) : text :=
  match t with
  | T_empty => str "" | T_nothing => str "[]" | T_begin_line => str "^" | T_end_line => str "$"
  | T_begin_input => str "\A" | T_end_input => str "\Z" | T_word_boundary => str "\b"
  | T_whitespace => str "\s" | T_wildcard => str "." | T_lower => str "[a-z]"
  | T_upper => str "[A-Z]" | T_digit => str "\d" | T_word => str "\w" | T_linebreak => str "\R"
  end.

Definition not_terminal_text (t : terminal) : text :=
  match t with
  | T_nothing => str "[^]" | T_word_boundary => str "\B" | T_whitespace => str "\S"
  | T_lower => str "[^a-z]" | T_upper => str "[^A-Z]" | T_digit => str "\D"
  | T_word => str "\W" | T_linebreak => str "\N" | _ => []
  end.

Definition name_text (nm : group_name) : text :=
  match nm with Some nm => str "?<" ++ nm ++ str ">" | None => [] end.

(** Every operand is put in brackets; characters are written in hexadecimal. *)
Fixpoint spelled (e : expr) : text :=
  let all := flat_map (fun x => grouped (spelled x)) in
  match e with
  | E_terminal t => terminal_text t
  | E_chr c => hex c
  | E_str t => flat_map hex t
  | E_range a b => str "[" ++ hex a ++ str "-" ++ hex b ++ str "]"
  | E_group id => str "\" ++ numeral id
  | E_group_named nm => str "\k<" ++ nm ++ str ">"
  | E_regex p => p
  | E_concat l => all l
  | E_either l => join (map (fun x => grouped (spelled x)) l)
  | E_atomic l => str "(?>" ++ all l ++ str ")"
  | E_capture _ nm l => str "(" ++ name_text nm ++ all l ++ str ")"
  | E_between a b md l =>
      grouped (all l) ++ str "{" ++ numeral a ++ str "," ++ numeral b ++ str "}" ++ mode_text md
  | E_at_least a md l => grouped (all l) ++ str "{" ++ numeral a ++ str ",}" ++ mode_text md
  | E_exactly a md l => grouped (all l) ++ str "{" ++ numeral a ++ str "}" ++ mode_text md
  | E_zero_or_more md l => grouped (all l) ++ str "*" ++ mode_text md
  | E_one_or_more md l => grouped (all l) ++ str "+" ++ mode_text md
  | E_maybe md l => grouped (all l) ++ str "?" ++ mode_text md
  | E_ahead l => str "(?=" ++ all l ++ str ")"
  | E_behind l => str "(?<=" ++ all l ++ str ")"
  | E_negate x =>
      match x with
      | E_terminal t => not_terminal_text t
      | E_chr c => str "[^" ++ hex c ++ str "]"
      | E_range a b => str "[^" ++ hex a ++ str "-" ++ hex b ++ str "]"
      | E_ahead l => str "(?!" ++ all l ++ str ")"
      | E_behind l => str "(?<!" ++ all l ++ str ")"
      | _ => []
      end
  end.

(** What can be negated in a pattern too. *)
Definition negatable (e : expr) : Prop :=
  match e with
  | E_terminal t => not_terminal_text t <> []
  | E_chr _ | E_range _ _ | E_ahead _ | E_behind _ => True
  | _ => False
  end.

(** Accepted patterns, proper names, numbers of type [std::size_t], at least one
    operand, and negation of classes, word boundaries and lookarounds only. *)
Fixpoint sensible (e : expr) : Prop :=
  let all l := l <> [] /\ fold_right and True (map sensible l) in
  match e with
  | E_terminal _ | E_chr _ | E_range _ _ => True
  | E_str t => t <> []
  | E_group id => (0 < id < 2 ^ 64)%N
  | E_group_named nm => valid_name nm = true
  | E_regex p => exists n, parse p = P_ok n
  | E_concat l | E_either l | E_atomic l | E_ahead l | E_behind l
  | E_zero_or_more _ l | E_one_or_more _ l | E_maybe _ l => all l
  | E_capture _ nm l => match nm with Some x => valid_name x = true | None => True end /\ all l
  | E_between a b _ l => (a < 2 ^ 64)%N /\ (b < 2 ^ 64)%N /\ all l
  | E_at_least a _ l | E_exactly a _ l => (a < 2 ^ 64)%N /\ all l
  | E_negate x => negatable x /\ sensible x
  end.

(** Operands of [either] that are alternations themselves: not the first, and, unless the
    last, with no character that fits two of the single characters where they meet the
    following operands. *)
Definition single_branch (n : node) : bool := match n with Alt _ => false | _ => true end.
Fixpoint dissolvable (l : list node) : Prop :=
  match l with
  | Alt l2 :: ((_ :: _) as post) => separate l2 post /\ dissolvable post
  | _ :: post => dissolvable post
  | [] => True
  end.
Definition dissolvable_operands (l : list node) : Prop :=
  match l with
  | n :: ((_ :: _) as ns) => single_branch n = true /\ dissolvable ns
  | _ => True
  end.
Fixpoint tame (e : expr) : Prop :=
  let all l := fold_right and True (map tame l) in
  match e with
  | E_either l => dissolvable_operands (map built l) /\ all l
  | E_concat l | E_atomic l | E_ahead l | E_behind l | E_zero_or_more _ l | E_one_or_more _ l
  | E_maybe _ l | E_capture _ _ l | E_between _ _ _ l | E_at_least _ _ l | E_exactly _ _ l => all l
  | E_negate x => tame x
  | _ => True
  end.

(** ** Regrouping and numbers *)

Lemma index_again n : forall off k, index off (index k n) = index off n.
Proof.
  induction n using node_ind'; intros off k; try reflexivity.
  - cbn [index]. f_equal. rewrite map_map. apply map_ext_Forall. eapply Forall_impl; [|exact H]. auto.
  - cbn [index]. now rewrite IHn.
  - rewrite !index_Seq. f_equal. revert off k. induction H as [|x l Hx Hl IH]; intros off k; [reflexivity|].
    cbn [index_list]. rewrite Hx, capture_count_index. f_equal. apply IH.
  - cbn [index]. f_equal. rewrite map_map. apply map_ext_Forall. eapply Forall_impl; [|exact H]. auto.
  - cbn [index]. now rewrite IHn.
  - cbn [index]. now rewrite IHn.
  - cbn [index]. now rewrite IHn.
Qed.

Definition counts (l : list node) : N := N.of_nat (list_sum (map capture_count l)).

Lemma index_list_app l1 : forall off l2,
  index_list off (l1 ++ l2) = index_list off l1 ++ index_list (off + counts l1) l2.
Proof.
  unfold counts. induction l1 as [|x l1 IH]; intros off l2; cbn [app index_list map].
  - cbn. now rewrite N.add_0_r.
  - rewrite IH. cbn [app]. do 3 f_equal.
    change (list_sum (capture_count x :: map capture_count l1)) with (capture_count x + list_sum (map capture_count l1)). lia.
Qed.

Lemma regroups_count al x y : regroups al x y -> capture_count x = capture_count y.
Proof. intros H. rewrite <- !names_count. f_equal. eapply regroups_names; eauto. Qed.

Lemma regrouped_count al x y : regrouped al x y -> capture_count x = capture_count y.
Proof. intros H. rewrite <- !names_count. f_equal. eapply regrouped_names; eauto. Qed.

Lemma match_one_index cf n : forall off ch, match_one cf (index off n) ch = match_one cf n ch.
Proof.
  assert (M : forall l off ch, Forall (fun x => forall off ch, match_one cf (index off x) ch = match_one cf x ch) l ->
            existsb (fun x => match_one cf x ch) (map (index off) l) = existsb (fun x => match_one cf x ch) l).
  { induction 1 as [|x l Hx Hl IH]; cbn [map existsb]; [reflexivity|]. now rewrite Hx, IH. }
  induction n using node_ind'; intros off ch; try reflexivity.
  - cbn [index match_one]. now apply M.
  - cbn [index match_one]. now rewrite IHn.
  - rewrite index_Seq. destruct l as [|x [|y l]]; try reflexivity. inversion_clear H. apply H0.
  - cbn [index match_one]. now apply M.
  - cbn [index match_one]. now rewrite IHn.
Qed.

Lemma regroups_index al x y : regroups al x y -> forall off, regroups al (index off x) (index off y).
Proof.
  intros [l1 l2 l3 H2|x0|l1 l2 H2|l1 l2 l3 Hal H2|x0|x0 Hx|x0 Hx|l1 l2 l3 Ha H2] off.
  - rewrite !index_Seq, !index_list_app. cbn [index_list]. rewrite index_Seq.
    replace (N.of_nat (capture_count (Seq l2))) with (counts l2) by reflexivity.
    apply rg_seq. destruct l2; easy.
  - apply rg_seq_one.
  - cbn [index]. rewrite !map_app. cbn [map index]. apply rg_alt_last. destruct l2; easy.
  - cbn [index]. rewrite !map_app. cbn [map index]. apply rg_alt; [exact Hal|]. destruct l2; easy.
  - apply rg_alt_one.
  - destruct x0; try discriminate; now apply rg_set_one.
  - destruct x0; try discriminate; now apply rg_not_set_one.
  - cbn [index]. rewrite !map_app. cbn [map index]. apply rg_alt_separate; [|destruct l2; easy].
    apply separate_map; auto; intros; [apply trivial_index|apply match_one_index].
Qed.

Lemma plug_count C z w : capture_count z = capture_count w -> capture_count (plug C z) = capture_count (plug C w).
Proof.
  intros H. induction C; cbn [plug capture_count]; auto; rewrite !map_app; cbn [map]; rewrite IHC; reflexivity.
Qed.

Lemma index_plug w C : forall off, exists D k, forall z, capture_count z = capture_count w ->
  index off (plug C z) = plug D (index k z).
Proof.
  induction C as [|l1 C IH l2|l1 C IH l2|id nm C IH|md lo hi C IH|d C IH|d C IH]; intros off.
  - exists Hole, off. reflexivity.
  - destruct (IH (off + counts l1)%N) as (D & k & H).
    exists (CSeq (index_list off l1) D (index_list (off + counts l1 + N.of_nat (capture_count (plug C w))) l2)), k.
    intros z Hz. cbn [plug]. rewrite index_Seq, index_list_app. cbn [index_list].
    now rewrite H, (plug_count C z w) by assumption.
  - destruct (IH off) as (D & k & H). exists (CAlt (map (index off) l1) D (map (index off) l2)), k.
    intros z Hz. cbn [plug index]. rewrite map_app. cbn [map]. now rewrite H.
  - destruct (IH (off + 1)%N) as (D & k & H). exists (CCap off nm D), k. intros z Hz. cbn [plug index]. now rewrite H.
  - destruct (IH off) as (D & k & H). exists (CRep md lo hi D), k. intros z Hz. cbn [plug index]. now rewrite H.
  - destruct (IH off) as (D & k & H). exists (CLook d D), k. intros z Hz. cbn [plug index]. now rewrite H.
  - destruct (IH off) as (D & k & H). exists (CNegLook d D), k. intros z Hz. cbn [plug index]. now rewrite H.
Qed.

Lemma regrouped_index al x y : regrouped al x y -> forall off, regrouped al (index off x) (index off y).
Proof.
  induction 1 as [C x y H|x|x y _ IH|x y z _ IH1 _ IH2]; intros off.
  - destruct (index_plug x C off) as (D & k & E). rewrite !E by (auto; symmetry; eapply regroups_count; eauto).
    apply rgd_step. now apply regroups_index.
  - apply rgd_refl.
  - now apply rgd_sym.
  - eapply rgd_trans; eauto.
Qed.

(** The same regex after numbering. *)
Definition akin (al : bool) (x y : node) : Prop :=
  capture_count x = capture_count y /\ forall off, regrouped al (index off x) (index off y).

Lemma akin_regrouped al x y : regrouped al x y -> akin al x y.
Proof. intros H. split; [eapply regrouped_count; eauto|now apply regrouped_index]. Qed.
Lemma akin_refl al x : akin al x x.
Proof. split; [reflexivity|]. intros. apply rgd_refl. Qed.
Lemma akin_sym al x y : akin al x y -> akin al y x.
Proof. intros [H1 H2]. split; [auto|]. intros. now apply rgd_sym. Qed.
Lemma akin_trans al x y z : akin al x y -> akin al y z -> akin al x z.
Proof. intros [H1 H2] [H3 H4]. split; [congruence|]. intros. eapply rgd_trans; eauto. Qed.

Lemma akin_index al k x : akin al x (index k x).
Proof.
  split; [symmetry; apply capture_count_index|]. intros off. rewrite index_again. apply rgd_refl.
Qed.

Lemma seq_each al l l' : Forall2 (regrouped al) l l' -> forall pre, regrouped al (Seq (pre ++ l)) (Seq (pre ++ l')).
Proof.
  induction 1 as [|x y l l' H Hl IH]; intros pre; [apply rgd_refl|].
  eapply rgd_trans; [exact (regrouped_inside al (CSeq pre Hole l) x y H)|]. cbn [plug].
  replace (pre ++ y :: l) with ((pre ++ [y]) ++ l) by now rewrite <- app_assoc.
  replace (pre ++ y :: l') with ((pre ++ [y]) ++ l') by now rewrite <- app_assoc. apply IH.
Qed.

Lemma alt_each al l l' : Forall2 (regrouped al) l l' -> forall pre, regrouped al (Alt (pre ++ l)) (Alt (pre ++ l')).
Proof.
  induction 1 as [|x y l l' H Hl IH]; intros pre; [apply rgd_refl|].
  eapply rgd_trans; [exact (regrouped_inside al (CAlt pre Hole l) x y H)|]. cbn [plug].
  replace (pre ++ y :: l) with ((pre ++ [y]) ++ l) by now rewrite <- app_assoc.
  replace (pre ++ y :: l') with ((pre ++ [y]) ++ l') by now rewrite <- app_assoc. apply IH.
Qed.

Lemma akin_count al l l' : Forall2 (akin al) l l' -> map capture_count l = map capture_count l'.
Proof. induction 1 as [|x y l l' [H _] Hl IH]; [reflexivity|]. cbn. congruence. Qed.

Lemma akin_Seq al l l' : Forall2 (akin al) l l' -> akin al (Seq l) (Seq l').
Proof.
  intros H. split; [cbn [capture_count]; now rewrite (akin_count al l l')|].
  intros off. rewrite !index_Seq. apply (seq_each al _ _) with (pre := []).
  revert off. induction H as [|x y l l' [H1 H2] Hl IH]; intros off; cbn [index_list]; constructor; auto.
  rewrite H1. apply IH.
Qed.

Lemma akin_Alt al l l' : Forall2 (akin al) l l' -> akin al (Alt l) (Alt l').
Proof.
  intros H. split; [cbn [capture_count]; now rewrite (akin_count al l l')|].
  intros off. cbn [index]. apply (alt_each al _ _) with (pre := []).
  induction H as [|x y l l' [H1 H2] Hl IH]; cbn [map]; constructor; auto.
Qed.

Lemma akin_Cap al i j nm x y : akin al x y -> akin al (Cap i nm x) (Cap j nm y).
Proof.
  intros [H1 H2]. split; [cbn; congruence|]. intros off. cbn [index].
  exact (regrouped_inside al (CCap off nm Hole) _ _ (H2 _)).
Qed.
Lemma akin_Rep al md lo hi x y : akin al x y -> akin al (Rep md lo hi x) (Rep md lo hi y).
Proof.
  intros [H1 H2]. split; [cbn; congruence|]. intros off. cbn [index].
  exact (regrouped_inside al (CRep md lo hi Hole) _ _ (H2 _)).
Qed.
Lemma akin_Look al d x y : akin al x y -> akin al (Look d x) (Look d y).
Proof.
  intros [H1 H2]. split; [cbn; congruence|]. intros off. cbn [index].
  exact (regrouped_inside al (CLook d Hole) _ _ (H2 _)).
Qed.
Lemma akin_NegLook al d x y : akin al x y -> akin al (Neg (Look d x)) (Neg (Look d y)).
Proof.
  intros [H1 H2]. split; [cbn; congruence|]. intros off. cbn [index].
  exact (regrouped_inside al (CNegLook d Hole) _ _ (H2 _)).
Qed.

(** ** Every pattern has its tree *)

Definition full (n : node) : Prop := n <> Seq [] /\ n <> Alt [].

(** The pattern has a tree that is regrouped [n]. *)
Definition spells (al : bool) (t : text) (n : node) : Prop :=
  exists b, body t b /\ akin al b n /\ full b /\ full n /\ single_branch b = single_branch n.

Lemma regrouped_false al x y : regrouped false x y -> regrouped al x y.
Proof.
  induction 1 as [C x y H|x|x y _ IH|x y z _ IH1 _ IH2].
  - apply rgd_step. inversion H; subst; try (constructor; assumption). discriminate.
  - apply rgd_refl.
  - now apply rgd_sym.
  - eapply rgd_trans; eauto.
Qed.

Lemma spells_parsed al p n : parse p = P_ok n -> spells al p n.
Proof.
  intros H. destruct (accepted_pattern p n H) as (b & Hb & E). exists b.
  assert (P : printable n = true) by (apply parse_image; eauto).
  assert (F : full n) by (split; intros ->; discriminate P).
  split; [exact Hb|]. split; [rewrite E; apply akin_index|].
  split; [|split; [exact F|rewrite E; now destruct b]].
  destruct F as [F1 F2]. split; intros ->; [apply F1|apply F2]; now rewrite E.
Qed.

Lemma spells_as al t n x : spells al t n -> regrouped false n x -> full x ->
  single_branch x = single_branch n -> spells al t x.
Proof.
  intros (b & H1 & H2 & H3 & H4 & H5) Hr Hx Hs. exists b. split; [exact H1|]. split.
  - eapply akin_trans; [exact H2|]. apply akin_regrouped. now apply regrouped_false.
  - split; [exact H3|]. split; [exact Hx|]. congruence.
Qed.

Lemma spells_body al t n : body t n -> full n -> spells al t n.
Proof.
  intros H F. exists n. split; [exact H|]. split; [apply akin_refl|]. auto.
Qed.

Lemma one_piece f t n : piece f t n -> body t n.
Proof. intros H. eapply branch_body, item_branch, piece_item, H. Qed.

(** Operands. *)
Definition spelling (al : bool) (t : text) (n b : node) : Prop :=
  body t b /\ akin al b n /\ full b /\ full n /\ single_branch b = single_branch n.

Lemma operands_bodies al ts ns : Forall2 (spells al) ts ns ->
  exists bs, Forall2 body ts bs /\ Forall2 (akin al) bs ns /\ Forall full bs /\ Forall full ns
    /\ map single_branch bs = map single_branch ns.
Proof.
  induction 1 as [|t n ts ns (b & H1 & H2 & H3 & H4 & H5) Hs (bs & I1 & I2 & I3 & I4 & I5)].
  - exists []. repeat split; constructor.
  - exists (b :: bs). repeat split; try (constructor; assumption). cbn. congruence.
Qed.

Lemma bodies_items ts bs : Forall2 body ts bs -> forall n,
  more_items Anything n (flat_map grouped ts) Anything (fold_left cat bs n).
Proof.
  induction 1 as [|p x ps ns H Hs IH]; intros n; [constructor|].
  cbn [flat_map fold_left]. eapply m_item; [|exact I|apply IH].
  apply piece_item, wrap_piece, H.
Qed.

Lemma bodies_concat ts bs : Forall2 body ts bs -> ts <> [] -> body (flat_map grouped ts) (x_concat bs).
Proof.
  intros H Hne. destruct H as [|p x ps ns H Hs]; [easy|]. rewrite concat_fold.
  cbn [flat_map]. eapply branch_body, b_items; [|now apply bodies_items].
  apply piece_item, wrap_piece, H.
Qed.

Lemma full_seqs l : Forall full l -> Forall (fun n => n <> Seq []) l.
Proof. apply Forall_impl. intros n [H _]. exact H. Qed.

Lemma akin_packed al l l' : Forall2 (akin al) l l' -> akin al (packed l) (packed l').
Proof.
  intros H. destruct H as [|x y l l' H1 H]; [apply akin_refl|]. destruct H as [|x' y' l l' H2 H].
  - exact H1.
  - cbn [packed]. apply akin_Seq. constructor; auto.
Qed.

Lemma concat_full l : l <> [] -> Forall full l -> full (x_concat l).
Proof.
  intros Hne H. destruct H as [|x l H Hl]; [easy|]. rewrite concat_fold.
  destruct Hl as [|y l H2 Hl]; [exact H|]. rewrite fold_cat_parts by discriminate.
  split; [|discriminate]. intros E. injection E as E. apply app_eq_nil in E. destruct E as [E _].
  destruct x; try discriminate E. cbn in E. subst. destruct H as [H _]. congruence.
Qed.

Lemma concat_branch l : single_branch (x_concat l) =
  match l with [x] => single_branch x | _ => true end.
Proof.
  destruct l as [|x [|y l]]; [reflexivity|reflexivity|]. rewrite concat_fold, fold_cat_parts by discriminate.
  reflexivity.
Qed.

(** Operands one after the other. *)
Lemma spells_concat al ts ns : Forall2 (spells al) ts ns -> ts <> [] ->
  spells al (flat_map grouped ts) (x_concat ns).
Proof.
  intros H Hne. destruct (operands_bodies al ts ns H) as (bs & H1 & H2 & H3 & H4 & H5).
  assert (Hb : bs <> []) by (intros ->; inversion H1; subst; congruence).
  assert (Hn : ns <> []) by (intros ->; inversion H2; subst; congruence).
  exists (x_concat bs). split; [now apply bodies_concat|]. split; [|split; [|split]].
  - eapply akin_trans; [apply akin_sym, akin_regrouped, regrouped_false, packed_regrouped; [exact Hb|now apply full_seqs]|].
    eapply akin_trans; [apply akin_packed; exact H2|].
    apply akin_regrouped, regrouped_false, packed_regrouped; [exact Hn|now apply full_seqs].
  - now apply concat_full.
  - now apply concat_full.
  - rewrite !concat_branch. clear - H5. destruct bs as [|x [|y bs]], ns as [|x' [|y' ns]]; cbn in H5; try congruence.
Qed.

(** Operands in a group or a repetition. *)
Lemma packed_akin al ts ns : Forall2 (spells al) ts ns -> ts <> [] ->
  exists b, body (flat_map grouped ts) b /\ akin al b (packed ns).
Proof.
  intros H Hne. destruct (operands_bodies al ts ns H) as (bs & H1 & H2 & H3 & H4 & H5).
  assert (Hb : bs <> []) by (intros ->; inversion H1; subst; congruence).
  exists (x_concat bs). split; [now apply bodies_concat|].
  eapply akin_trans; [|apply akin_packed; exact H2].
  apply akin_sym, akin_regrouped, regrouped_false, packed_regrouped; [exact Hb|now apply full_seqs].
Qed.

Lemma spells_group al o F G ts ns : Forall2 (spells al) ts ns -> ts <> [] -> opening o F ->
  (forall x y, akin al x y -> akin al (F x) (G y)) ->
  (forall x, full (F x) /\ single_branch (F x) = true) -> (forall x, full (G x) /\ single_branch (G x) = true) ->
  spells al (str "(" ++ o ++ flat_map grouped ts ++ str ")") (G (packed ns)).
Proof.
  intros H Hne Ho HF F1 G1. destruct (packed_akin al ts ns H Hne) as (b & H1 & H2).
  exists (F b). split; [eapply one_piece, u_group; eauto|]. split; [now apply HF|].
  split; [apply F1|]. split; [apply G1|]. destruct (F1 b) as [_ ->], (G1 (packed ns)) as [_ ->]. reflexivity.
Qed.

Lemma spells_rep al q lo hi md ts ns : Forall2 (spells al) ts ns -> ts <> [] -> bounds q lo hi ->
  spells al (grouped (flat_map grouped ts) ++ q ++ mode_text md) (Rep md lo hi (packed ns)).
Proof.
  intros H Hne Hq. destruct (packed_akin al ts ns H Hne) as (b & H1 & H2).
  exists (Rep md lo hi b). split.
  - eapply branch_body, item_branch, i_unit; [apply wrap_piece, H1|]. now apply q_rep.
  - split; [now apply akin_Rep|]. split; [split; discriminate|]. split; [split; discriminate|reflexivity].
Qed.

(** Alternatives. *)
Lemma bodies_branches ts bs : Forall2 body ts bs -> forall n,
  more_branches Anything n (flat_map (fun t => str "|" ++ t) (map grouped ts)) Anything (fold_left or bs n).
Proof.
  induction 1 as [|p x ps ns H Hs IH]; intros n; [constructor|].
  cbn [map flat_map fold_left]. rewrite <- app_assoc. eapply o_branch; [|discriminate|apply IH].
  apply item_branch, piece_item, wrap_piece, H.
Qed.

Lemma alt_flat al pre y post : full y ->
  al = true \/ single_branch y = true \/ post = [] \/ (exists l, y = Alt l /\ separate l post) ->
  regrouped al (Alt (pre ++ y :: post)) (Alt (pre ++ branches y ++ post)).
Proof.
  intros [_ Hy] Hc. destruct y as [| | | | | | | | | | | |l| | | | |]; try apply rgd_refl.
  assert (Hl : l <> []) by (intros ->; congruence). cbn [branches].
  destruct Hc as [->|[H|[-> |(l' & E & H)]]]; [|discriminate H| |].
  - apply (rgd_step true Hole). now apply rg_alt.
  - rewrite app_nil_r. apply (rgd_step al Hole). now apply rg_alt_last.
  - injection E as <-. apply (rgd_step al Hole). now apply rg_alt_separate.
Qed.

Lemma dissolvable_cons y r : dissolvable (y :: r) ->
  (single_branch y = true \/ r = [] \/ (exists l, y = Alt l /\ separate l r)) /\ dissolvable r.
Proof.
  intros H. destruct r as [|z r]; [split; [auto|exact I]|].
  destruct y; try (split; [now left|exact H]). destruct H as [H1 H2]. split; [|exact H2].
  right. right. eexists. split; [reflexivity|exact H1].
Qed.

Lemma alt_flat_all al r : Forall full r -> al = true \/ dissolvable r ->
  forall pre, regrouped al (Alt (pre ++ r)) (Alt (pre ++ flat_map branches r)).
Proof.
  induction 1 as [|y r Hy Hr IH]; intros Hc pre; [apply rgd_refl|]. cbn [flat_map].
  eapply rgd_trans; [apply alt_flat; [exact Hy|]|].
  - destruct Hc as [Hc|Hc]; [now left|]. right. now apply dissolvable_cons.
  - rewrite app_assoc, (app_assoc pre). apply IH. destruct Hc as [Hc|Hc]; [auto|right].
    now apply dissolvable_cons in Hc.
Qed.

Lemma spells_either al ts ns : Forall2 (spells al) ts ns -> ts <> [] ->
  al = true \/ dissolvable_operands ns ->
  spells al (join (map grouped ts)) (x_either ns).
Proof.
  intros H Hne Hc. destruct (operands_bodies al ts ns H) as (bs & H1 & H2 & H3 & H4 & H5). clear H.
  destruct H1 as [|t b ts bs H1 H1s]; [easy|]. destruct ns as [|n ns]; [inversion H2|].
  cbn [map]. rewrite join_bars.
  assert (Hb : body (grouped t ++ flat_map (fun t => str "|" ++ t) (map grouped ts)) (fold_left or bs b)).
  { eapply y_branches; [|now apply bodies_branches]. apply item_branch, piece_item, wrap_piece, H1. }
  inversion H2 as [|? ? ? ? A As]; subst. inversion H3 as [|? ? Fb Fbs]; subst. inversion H4 as [|? ? Fn Fns]; subst.
  destruct As as [|b' n' bs ns A' As].
  - exists b. split; [exact Hb|]. split; [exact A|]. split; [exact Fb|]. split; [exact Fn|].
    cbn in H5. cbn. congruence.
  - rewrite or_fold in Hb by discriminate. rewrite either_fold by discriminate.
    exists (Alt (branches b ++ b' :: bs)). split; [exact Hb|].
    assert (Hcb : al = true \/ single_branch b = true).
    { destruct Hc as [Hc|[Hc _]]; [auto|right]. injection H5 as H5 _. congruence. }
    assert (Hcn : al = true \/ dissolvable (n :: n' :: ns)).
    { destruct Hc as [Hc|[Hc1 Hc2]]; [auto|right]. destruct n; try exact Hc2. discriminate Hc1. }
    split; [|split; [|split; [|reflexivity]]].
    + eapply akin_trans.
      { apply akin_sym, akin_regrouped. apply (alt_flat al [] b (b' :: bs)); [exact Fb|].
        destruct Hcb as [Hcb|Hcb]; auto. }
      cbn [app]. eapply akin_trans; [apply akin_Alt; exact H2|].
      apply akin_regrouped. exact (alt_flat_all al (n :: n' :: ns) H4 Hcn []).
    + split; [discriminate|]. intros E. injection E as E. apply app_eq_nil in E. destruct E; discriminate.
    + split; [discriminate|]. intros E. injection E as E. apply app_eq_nil in E. destruct E as [E _].
      destruct n; try discriminate E. cbn in E. subst. destruct Fn as [_ Fn]. congruence.
Qed.

(** ** Whole expressions *)

Definition expr_ind' (P : expr -> Prop)
  (h_terminal : forall t, P (E_terminal t)) (h_chr : forall c, P (E_chr c)) (h_str : forall t, P (E_str t))
  (h_range : forall a b, P (E_range a b)) (h_group : forall i, P (E_group i)) (h_named : forall x, P (E_group_named x))
  (h_regex : forall p, P (E_regex p)) (h_concat : forall l, Forall P l -> P (E_concat l))
  (h_either : forall l, Forall P l -> P (E_either l)) (h_atomic : forall l, Forall P l -> P (E_atomic l))
  (h_capture : forall i nm l, Forall P l -> P (E_capture i nm l))
  (h_between : forall a b md l, Forall P l -> P (E_between a b md l))
  (h_at_least : forall a md l, Forall P l -> P (E_at_least a md l))
  (h_exactly : forall a md l, Forall P l -> P (E_exactly a md l))
  (h_star : forall md l, Forall P l -> P (E_zero_or_more md l))
  (h_plus : forall md l, Forall P l -> P (E_one_or_more md l))
  (h_maybe : forall md l, Forall P l -> P (E_maybe md l))
  (h_ahead : forall l, Forall P l -> P (E_ahead l)) (h_behind : forall l, Forall P l -> P (E_behind l))
  (h_negate : forall x, P x -> P (E_negate x)) : forall e, P e :=
  fix F e :=
    let fix G l : Forall P l :=
      match l with [] => Forall_nil P | x :: r => Forall_cons x (F x) (G r) end in
    match e with
    | E_terminal t => h_terminal t
    | E_chr c => h_chr c
    | E_str t => h_str t
    | E_range a b => h_range a b
    | E_group i => h_group i
    | E_group_named x => h_named x
    | E_regex p => h_regex p
    | E_concat l => h_concat l (G l)
    | E_either l => h_either l (G l)
    | E_atomic l => h_atomic l (G l)
    | E_capture i nm l => h_capture i nm l (G l)
    | E_between a b md l => h_between a b md l (G l)
    | E_at_least a md l => h_at_least a md l (G l)
    | E_exactly a md l => h_exactly a md l (G l)
    | E_zero_or_more md l => h_star md l (G l)
    | E_one_or_more md l => h_plus md l (G l)
    | E_maybe md l => h_maybe md l (G l)
    | E_ahead l => h_ahead l (G l)
    | E_behind l => h_behind l (G l)
    | E_negate x => h_negate x (F x)
    end.

Definition written (al : bool) (e : expr) : Prop :=
  sensible e -> al = true \/ tame e -> spells al (spelled e) (built e).

(** With its negation. *)
Definition written2 (al : bool) (e : expr) : Prop :=
  written al e /\ written al (E_negate e).

Lemma all_spelled l : flat_map (fun x => grouped (spelled x)) l = flat_map grouped (map spelled l).
Proof. induction l as [|x l IH]; [reflexivity|]. cbn [flat_map map]. now rewrite IH. Qed.

Lemma all_written al l : Forall (written2 al) l -> fold_right and True (map sensible l) ->
  al = true \/ fold_right and True (map tame l) -> Forall2 (spells al) (map spelled l) (map built l).
Proof.
  induction 1 as [|x l [Hx _] Hl IH]; intros H1 H2; cbn [map]; [constructor|].
  destruct H1 as [H1 H1']. constructor.
  - apply Hx; [exact H1|]. destruct H2 as [H2|[H2 _]]; auto.
  - apply IH; [exact H1'|]. destruct H2 as [H2|[_ H2]]; auto.
Qed.

Lemma full_plain n : single_branch n = true -> is_seq n = false -> full n.
Proof. intros H1 H2. split; intros ->; discriminate. Qed.

Lemma spells_anchor al t n : In (t, n) anchors -> spells al t n.
Proof.
  intros H. apply spells_body; [eapply branch_body, item_branch, i_anchor, H|].
  cbn in H. repeat (destruct H as [H|H]; [injection H as <- <-; split; discriminate|]). destruct H.
Qed.

Lemma spells_class al c n : In (c, n) class_escapes -> spells al ["\"%char; c] n.
Proof.
  intros H. apply spells_body; [eapply one_piece, u_class, class_escape_in, H|].
  cbn in H. repeat (destruct H as [H|H]; [injection H as <- <-; split; discriminate|]). destruct H.
Qed.

Lemma spells_set_one al t x : hd_error t <> Some "^"%char -> set_body true [] t [x] -> one_character x = true ->
  spells al (str "[" ++ t ++ str "]") x.
Proof.
  intros H1 H2 Hx. apply (spells_as al _ (CSet [x])).
  - apply spells_body; [eapply one_piece, u_set; eauto|split; discriminate].
  - apply (rgd_step false Hole). now apply rg_set_one.
  - destruct x; try discriminate; split; discriminate.
  - destruct x; try discriminate; reflexivity.
Qed.

Lemma spells_not_set_one al t x : set_body true [] t [x] -> one_character x = true ->
  spells al (str "[^" ++ t ++ str "]") (Neg x).
Proof.
  intros H2 Hx. apply (spells_as al _ (Neg (CSet [x]))).
  - apply spells_body; [eapply one_piece, u_not_set; eauto|split; discriminate].
  - apply (rgd_step false Hole). now apply rg_not_set_one.
  - destruct x; try discriminate; split; discriminate.
  - destruct x; try discriminate; reflexivity.
Qed.

Lemma chr_set c : set_body true [] (hex c) [Lit c].
Proof. rewrite <- (app_nil_r (hex c)). eapply set_escaped; [apply hex_escape|constructor]. Qed.

Lemma range_set a b : set_body true [] (hex a ++ str "-" ++ hex b) [Range a b].
Proof.
  eapply set_escaped; [apply hex_escape|]. change (str "-" ++ hex b) with ("-"%char :: hex b).
  rewrite <- (app_nil_r (hex b)). eapply set_range; [eapply range_escape, hex_escape|constructor].
Qed.

Lemma letter_set a b : among a (str "\]-") = false -> among b (str "\]") = false ->
  set_body true [] (a :: "-"%char :: [b]) [Range a b].
Proof.
  intros Ha Hb. eapply set_char; [exact Ha|]. change ("-"%char :: [b]) with ("-"%char :: [b] ++ []).
  eapply set_range; [now apply range_plain|constructor].
Qed.

Lemma spells_terminal al t : spells al (terminal_text t) (terminal_tree t).
Proof.
  destruct t; try (apply spells_anchor; cbn; tauto); try (apply spells_class; cbn; tauto).
  - apply spells_body; [constructor|split; discriminate].
  - apply spells_body; [|split; discriminate]. eapply one_piece.
    apply (u_set [] []); [discriminate|constructor].
  - apply spells_body; [|split; discriminate]. eapply one_piece. apply u_dot.
  - apply (spells_set_one al (str "a-z")); [discriminate|now apply letter_set|reflexivity].
  - apply (spells_set_one al (str "A-Z")); [discriminate|now apply letter_set|reflexivity].
Qed.

Lemma spells_not_terminal al t : not_terminal_text t <> [] -> spells al (not_terminal_text t) (Neg (terminal_tree t)).
Proof.
  intros H. destruct t; try easy; try (apply spells_anchor; cbn; tauto); try (apply spells_class; cbn; tauto).
  - apply spells_body; [|split; discriminate]. eapply one_piece. apply (u_not_set [] []). constructor.
  - apply (spells_not_set_one al (str "a-z")); [now apply letter_set|reflexivity].
  - apply (spells_not_set_one al (str "A-Z")); [now apply letter_set|reflexivity].
Qed.

Lemma spells_chr al c : spells al (hex c) (Lit c).
Proof.
  apply spells_body; [|split; discriminate]. eapply one_piece, u_escape, hex_escape.
Qed.

Lemma str_items t : forall n, more_items Anything n (flat_map hex t) Anything (fold_left cat (map Lit t) n).
Proof.
  induction t as [|c t IH]; intros n; [constructor|]. cbn [flat_map fold_left map].
  eapply m_item; [|exact I|apply IH]. eapply piece_item, u_escape, hex_escape.
Qed.

Lemma lits_parts t : flat_map parts (map Lit t) = map Lit t.
Proof. induction t as [|c t IH]; [reflexivity|]. cbn. now rewrite IH. Qed.

Lemma spells_str al t : t <> [] -> spells al (flat_map hex t) (x_str t).
Proof.
  intros H. destruct t as [|c t]; [easy|]. unfold x_str, to_sequence.
  apply (spells_as al _ (fold_left cat (map Lit t) (Lit c))).
  - apply spells_body.
    + cbn [flat_map]. eapply branch_body, b_items; [|apply str_items]. eapply piece_item, u_escape, hex_escape.
    + destruct t as [|d t]; [split; discriminate|]. rewrite fold_cat_parts by discriminate. split; discriminate.
  - destruct t as [|d t]; [apply rgd_sym, (rgd_step false Hole), rg_seq_one|].
    rewrite fold_cat_parts by discriminate. cbn [parts app]. rewrite lits_parts. apply rgd_refl.
  - split; discriminate.
  - destruct t as [|d t]; [reflexivity|]. now rewrite fold_cat_parts by discriminate.
Qed.

Lemma bounds_between a b : (a < 2 ^ 64)%N -> (b < 2 ^ 64)%N ->
  bounds (str "{" ++ numeral a ++ str "," ++ numeral b ++ str "}") a (Fin b).
Proof.
  intros Ha Hb. destruct (numeral_spec a) as [H1 H2], (numeral_spec b) as [H3 H4].
  pose proof (bounds_range _ _ H1 H3) as K. now rewrite H2, H4, !size_t_small in K.
Qed.
Lemma bounds_at_least a : (a < 2 ^ 64)%N -> bounds (str "{" ++ numeral a ++ str ",}") a Inf.
Proof.
  intros Ha. destruct (numeral_spec a) as [H1 H2].
  pose proof (bounds_least _ H1) as K. now rewrite H2, !size_t_small in K.
Qed.
Lemma bounds_exactly a : (a < 2 ^ 64)%N -> bounds (str "{" ++ numeral a ++ str "}") a (Fin a).
Proof.
  intros Ha. destruct (numeral_spec a) as [H1 H2].
  pose proof (bounds_exact _ H1) as K. now rewrite H2, !size_t_small in K.
Qed.

Lemma map_nonempty {A B} (f : A -> B) l : l <> [] -> map f l <> [].
Proof. destruct l; easy. Qed.

Lemma written_both al e : written2 al e.
Proof.
  induction e using expr_ind'.
  - split; intros H1 H2; [apply spells_terminal|]. apply spells_not_terminal. apply H1.
  - split; intros H1 H2; [apply spells_chr|]. apply spells_not_set_one; [apply chr_set|reflexivity].
  - split; intros H1 H2; [now apply spells_str|]. now destruct H1.
  - split; intros H1 H2.
    + cbn [spelled built]. pose proof (spells_set_one al (hex a ++ str "-" ++ hex b) (Range a b)) as K.
      rewrite <- !app_assoc in K. apply K; [discriminate|apply range_set|reflexivity].
    + cbn [spelled built]. pose proof (spells_not_set_one al (hex a ++ str "-" ++ hex b) (Range a b)) as K.
      rewrite <- !app_assoc in K. apply K; [apply range_set|reflexivity].
  - split; intros H1 H2; [|now destruct H1]. cbn [spelled built]. unfold x_group.
    destruct (numeral_ok i) as (d & r & E & Hd & Hr & Hv & Hz). rewrite E. cbn [sensible] in H1.
    apply spells_body; [|split; discriminate].
    replace (Backref i) with (Backref (size_t (decimal (d :: r)))).
    + eapply one_piece, u_backref; [exact Hd| |exact Hr]. intros ->. discriminate (Hz ltac:(lia)).
    + rewrite Hv. now rewrite size_t_small.
  - split; intros H1 H2; [|now destruct H1]. apply spells_body; [|split; discriminate].
    eapply one_piece, u_named, H1.
  - split; intros H1 H2; [|now destruct H1]. destruct H1 as (n & E). cbn [spelled built]. unfold x_regex. rewrite E.
    now apply spells_parsed.
  - split; intros H1 H2; [|now destruct H1]. destruct H1 as [Hne H1]. cbn [spelled built]. rewrite all_spelled.
    apply spells_concat; [now apply all_written|now apply map_nonempty].
  - split; intros H1 H2; [|now destruct H1]. destruct H1 as [Hne H1]. cbn [spelled built].
    rewrite <- (map_map spelled grouped).
    apply spells_either; [apply all_written; [assumption|assumption|]|now apply map_nonempty|].
    + destruct H2 as [H2|H2]; [auto|right; apply H2].
    + destruct H2 as [H2|H2]; [auto|right; apply H2].
  - split; intros H1 H2; [|now destruct H1]. destruct H1 as [Hne H1]. cbn [spelled built]. rewrite all_spelled.
    apply (spells_group al (str "?>") atomic atomic); [now apply all_written|now apply map_nonempty|constructor| | |].
    + intros x y. apply akin_Rep.
    + intros x. repeat split; discriminate.
    + intros x. repeat split; discriminate.
  - split; intros H1 H2; [|now destruct H1]. destruct H1 as [Hn [Hne H1]]. cbn [spelled built]. rewrite all_spelled.
    apply (spells_group al (name_text nm) (Cap 0 nm) (Cap i nm)); [now apply all_written|now apply map_nonempty| | | |].
    + destruct nm as [nm|]; [now apply open_name|apply open_capture].
    + intros x y. apply akin_Cap.
    + intros x. repeat split; discriminate.
    + intros x. repeat split; discriminate.
  - split; intros H1 H2; [|now destruct H1]. destruct H1 as (Ha & Hb & Hne & H1). cbn [spelled built]. rewrite all_spelled.
    pose proof (spells_rep al _ a (Fin b) md _ _ (all_written al l H H1 H2) (map_nonempty spelled l Hne)
      (bounds_between a b Ha Hb)) as K. now rewrite <- !app_assoc in K.
  - split; intros H1 H2; [|now destruct H1]. destruct H1 as (Ha & Hne & H1). cbn [spelled built]. rewrite all_spelled.
    pose proof (spells_rep al _ a Inf md _ _ (all_written al l H H1 H2) (map_nonempty spelled l Hne)
      (bounds_at_least a Ha)) as K. now rewrite <- !app_assoc in K.
  - split; intros H1 H2; [|now destruct H1]. destruct H1 as (Ha & Hne & H1). cbn [spelled built]. rewrite all_spelled.
    pose proof (spells_rep al _ a (Fin a) md _ _ (all_written al l H H1 H2) (map_nonempty spelled l Hne)
      (bounds_exactly a Ha)) as K. now rewrite <- !app_assoc in K.
  - split; intros H1 H2; [|now destruct H1]. destruct H1 as (Hne & H1). cbn [spelled built]. rewrite all_spelled.
    exact (spells_rep al _ 0 Inf md _ _ (all_written al l H H1 H2) (map_nonempty spelled l Hne) bounds_star).
  - split; intros H1 H2; [|now destruct H1]. destruct H1 as (Hne & H1). cbn [spelled built]. rewrite all_spelled.
    exact (spells_rep al _ 1 Inf md _ _ (all_written al l H H1 H2) (map_nonempty spelled l Hne) bounds_plus).
  - split; intros H1 H2; [|now destruct H1]. destruct H1 as (Hne & H1). cbn [spelled built]. rewrite all_spelled.
    exact (spells_rep al _ 0 (Fin 1) md _ _ (all_written al l H H1 H2) (map_nonempty spelled l Hne) bounds_opt).
  - split; intros H1 H2.
    + destruct H1 as (Hne & H1). cbn [spelled built]. rewrite all_spelled.
      apply (spells_group al (str "?=") (Look Ahead) (Look Ahead)); [now apply all_written|now apply map_nonempty|constructor| | |].
      * intros x y. apply akin_Look.
      * intros x. repeat split; discriminate.
      * intros x. repeat split; discriminate.
    + destruct H1 as (_ & Hne & H1). cbn [spelled built]. rewrite all_spelled.
      apply (spells_group al (str "?!") (fun n => Neg (Look Ahead n)) (fun n => Neg (Look Ahead n)));
        [now apply all_written|now apply map_nonempty|constructor| | |].
      * intros x y. apply akin_NegLook.
      * intros x. repeat split; discriminate.
      * intros x. repeat split; discriminate.
  - split; intros H1 H2.
    + destruct H1 as (Hne & H1). cbn [spelled built]. rewrite all_spelled.
      apply (spells_group al (str "?<=") (Look Behind) (Look Behind)); [now apply all_written|now apply map_nonempty|constructor| | |].
      * intros x y. apply akin_Look.
      * intros x. repeat split; discriminate.
      * intros x. repeat split; discriminate.
    + destruct H1 as (_ & Hne & H1). cbn [spelled built]. rewrite all_spelled.
      apply (spells_group al (str "?<!") (fun n => Neg (Look Behind n)) (fun n => Neg (Look Behind n)));
        [now apply all_written|now apply map_nonempty|constructor| | |].
      * intros x y. apply akin_NegLook.
      * intros x. repeat split; discriminate.
      * intros x. repeat split; discriminate.
  - destruct IHe as [I1 I2]. split; [exact I2|]. intros H1. now destruct H1.
Qed.

Theorem expression_pattern e al : sensible e -> al = true \/ tame e ->
  exists n, parse (spelled e) = P_ok n /\ regrouped al n (index_captures (built e)).
Proof.
  intros H1 H2. destruct (written_both al e) as [W _]. destruct (W H1 H2) as (b & Hb & [_ A] & _).
  exists (index_captures b). split; [now apply pattern_parses|]. apply A.
Qed.

Theorem expressions_agree e fl ct s : sensible e -> index_captures (built e) = built e ->
  backref_free (built e) = true \/ tame e ->
  exists n, parse (spelled e) = P_ok n /\ indistinguishable n (built e) fl ct s.
Proof.
  intros H1 Hi [H2|H2].
  - destruct (expression_pattern e true H1 (or_introl eq_refl)) as (n & E & R). exists n. split; [exact E|].
    rewrite Hi in R. apply regrouped_agree_free; [|exact R]. now rewrite (regrouped_free true _ _ R).
  - destruct (expression_pattern e false H1 (or_intror H2)) as (n & E & R). exists n. split; [exact E|].
    rewrite Hi in R. now apply regrouped_agree.
Qed.

(** ** Numbers of groups *)

(** How many groups an expression has. *)
Fixpoint groups_in (e : expr) : nat :=
  let all l := list_sum (map groups_in l) in
  match e with
  | E_regex p => match parse p with P_ok n => capture_count n | _ => 0 end
  | E_capture _ _ l => S (all l)
  | E_concat l | E_either l | E_atomic l | E_ahead l | E_behind l | E_zero_or_more _ l | E_one_or_more _ l
  | E_maybe _ l | E_between _ _ _ l | E_at_least _ _ l | E_exactly _ _ l => all l
  | E_negate x => groups_in x
  | _ => 0
  end.

(** The groups carry the numbers from [off] on in the order of their opening, the
    alternatives of [either] each start with the same number (finding F1), and
    the groups of [regex] count from one. *)
Fixpoint numbered (off : N) (e : expr) : Prop :=
  let series := fix series (off : N) (l : list expr) : Prop :=
    match l with
    | [] => True
    | x :: r => numbered off x /\ series (off + N.of_nat (groups_in x))%N r
    end in
  match e with
  | E_regex p => off = 1%N \/ groups_in (E_regex p) = 0
  | E_either l => fold_right and True (map (numbered off) l)
  | E_capture id _ l => id = off /\ series (off + 1)%N l
  | E_concat l | E_atomic l | E_ahead l | E_behind l | E_zero_or_more _ l | E_one_or_more _ l
  | E_maybe _ l | E_between _ _ _ l | E_at_least _ _ l | E_exactly _ _ l => series off l
  | E_negate x => numbered off x
  | _ => True
  end.

Fixpoint series (off : N) (l : list expr) : Prop :=
  match l with
  | [] => True
  | x :: r => numbered off x /\ series (off + N.of_nat (groups_in x))%N r
  end.

Lemma numbered_series off e :
  match e with
  | E_capture id _ l => numbered off e <-> id = off /\ series (off + 1)%N l
  | E_concat l | E_atomic l | E_ahead l | E_behind l | E_zero_or_more _ l | E_one_or_more _ l
  | E_maybe _ l | E_between _ _ _ l | E_at_least _ _ l | E_exactly _ _ l => numbered off e <-> series off l
  | _ => True
  end.
Proof. destruct e; exact I || reflexivity. Qed.

Lemma parts_index off n : parts (index off n) = index_list off (parts n).
Proof. destruct n; reflexivity. Qed.

Lemma parts_counts n : counts (parts n) = N.of_nat (capture_count n).
Proof.
  unfold counts. f_equal. destruct n; cbn [parts map]; try reflexivity;
    cbn [list_sum fold_right]; apply Nat.add_0_r.
Qed.

Lemma index_cat off a b :
  index off (cat a b) = cat (index off a) (index (off + N.of_nat (capture_count a)) b).
Proof. unfold cat. now rewrite index_Seq, index_list_app, !parts_index, parts_counts. Qed.

Lemma index_concat l : forall off,
  l <> [] -> index off (x_concat l) = x_concat (index_list off l).
Proof.
  destruct l as [|x l]; [easy|]. intros off _. cbn [index_list]. rewrite !concat_fold. revert off x.
  induction l as [|y l IH]; intros off x; [reflexivity|]. cbn [fold_left index_list].
  rewrite IH, index_cat, cat_count.
  now replace (off + N.of_nat (capture_count x + capture_count y))%N
    with (off + N.of_nat (capture_count x) + N.of_nat (capture_count y))%N by lia.
Qed.

Lemma index_flatten_alt off a b : index off (flatten_alt a b) = flatten_alt (index off a) (index off b).
Proof. destruct a, b; cbn [flatten_alt index]; rewrite ?map_app; reflexivity. Qed.

Lemma index_either l off : index off (x_either l) = x_either (map (index off) l).
Proof.
  destruct l as [|x l]; [reflexivity|]. unfold x_either, flat_wrap. cbn [map]. revert x.
  induction l as [|y l IH]; intros x; [reflexivity|]. cbn [fold_left map].
  now rewrite IH, index_flatten_alt.
Qed.

Lemma index_packed l off : index off (packed l) = packed (index_list off l).
Proof. destruct l as [|x [|y l]]; reflexivity. Qed.

Lemma list_sum_cons a l : list_sum (a :: l) = a + list_sum l.
Proof. reflexivity. Qed.

Lemma concat_counts l : capture_count (x_concat l) = list_sum (map capture_count l).
Proof.
  destruct l as [|x l]; [reflexivity|]. rewrite concat_fold. revert x.
  induction l as [|y l IH]; intros x; cbn [fold_left]; [cbn; lia|]. rewrite IH. cbn [map].
  rewrite !list_sum_cons, cat_count. lia.
Qed.

Lemma flatten_alt_count a b : capture_count (flatten_alt a b) = capture_count a + capture_count b.
Proof.
  destruct a, b; cbn [flatten_alt capture_count]; rewrite ?map_app, ?list_sum_app; cbn [map];
    rewrite ?list_sum_cons; cbn [capture_count]; cbn [list_sum fold_right]; lia.
Qed.

Lemma either_counts l : capture_count (x_either l) = list_sum (map capture_count l).
Proof.
  destruct l as [|x l]; [reflexivity|]. unfold x_either, flat_wrap. revert x.
  induction l as [|y l IH]; intros x; cbn [fold_left]; [cbn; lia|]. rewrite IH. cbn [map].
  rewrite !list_sum_cons, flatten_alt_count. lia.
Qed.

Lemma packed_counts l : capture_count (packed l) = list_sum (map capture_count l).
Proof. destruct l as [|x [|y l]]; cbn; lia. Qed.

Lemma built_counts l : Forall (fun e => capture_count (built e) = groups_in e) l ->
  list_sum (map capture_count (map built l)) = list_sum (map groups_in l).
Proof. intros H. rewrite map_map. f_equal. now apply map_ext_Forall. Qed.

Lemma groups_count e : capture_count (built e) = groups_in e.
Proof.
  induction e using expr_ind'; try reflexivity;
    try (cbn [built groups_in]; unfold x_atomic, atomic, x_capture, x_exactly, x_zero_or_more, x_one_or_more, x_maybe, x_between,
           x_at_least, x_ahead, x_behind; cbn [capture_count];
         rewrite ?concat_counts, ?either_counts, ?packed_counts, built_counts by assumption; lia).
  - now destruct t.
  - cbn [built groups_in]. unfold x_str, to_sequence. cbn [capture_count]. rewrite map_map.
    induction t as [|c t IH]; [reflexivity|]. cbn [map]. rewrite list_sum_cons. apply IH.
  - cbn [built groups_in]. unfold x_regex. now destruct (parse p).
  - exact IHe.
Qed.

Lemma series_index l : Forall (fun e => forall off, sensible e -> numbered off e -> index off (built e) = built e) l ->
  fold_right and True (map sensible l) -> forall off, series off l -> index_list off (map built l) = map built l.
Proof.
  induction 1 as [|x l Hx Hl IH]; intros Hs off Hn; [reflexivity|]. cbn [map index_list].
  destruct Hs as [Hs1 Hs2], Hn as [Hn1 Hn2]. rewrite Hx by assumption.
  rewrite groups_count, IH by assumption. reflexivity.
Qed.

Lemma numbered_index e : forall off, sensible e -> numbered off e -> index off (built e) = built e.
Proof.
  induction e using expr_ind'; intros off Hs Hn; try reflexivity;
    try (match goal with |- index _ (built ?e) = _ => pose proof (proj1 (numbered_series off e) Hn) as Hn' end;
         cbn [sensible] in Hs;
         assert (Hs' : l <> [] /\ fold_right and True (map sensible l)) by tauto; destruct Hs' as [Hne Hs'];
         try destruct Hn' as [-> Hn'];
         pose proof (series_index l H Hs' _ Hn') as E;
         cbn [built]; unfold x_atomic, atomic, x_capture, x_exactly, x_zero_or_more, x_one_or_more, x_maybe, x_between,
           x_at_least, x_ahead, x_behind; cbn [index];
         rewrite ?index_packed, ?index_concat by (destruct l; easy); now rewrite E).
  - now destruct t.
  - cbn [built]. unfold x_str, to_sequence. rewrite index_Seq. f_equal. revert off Hn.
    induction t as [|c t IH]; intros off Hn; [reflexivity|]. cbn [map index_list]. f_equal.
    destruct t; [reflexivity|]. apply IH; [discriminate|exact I].
  - destruct Hs as (n & E). cbn [numbered groups_in built] in *. unfold x_regex. rewrite E in *.
    destruct Hn as [->|Hn]; [|now apply index_free].
    destruct (parse_indexed p n E) as (x & -> & _). apply index_again.
  - cbn [built]. rewrite index_either. f_equal. cbn [numbered sensible] in *. destruct Hs as [_ Hs]. rewrite map_map.
    apply map_ext_Forall. revert Hs Hn. induction H as [|x l Hx Hl IH]; intros Hs Hn; [constructor|].
    cbn in Hs, Hn. constructor; [apply Hx|apply IH]; tauto.
  - cbn [built]. unfold x_negate. cbn [index]. f_equal. apply IHe; [apply Hs|exact Hn].
Qed.

Theorem numbered_agree e fl ct s : sensible e -> numbered 1 e ->
  backref_free (built e) = true \/ tame e ->
  exists n, parse (spelled e) = P_ok n /\ indistinguishable n (built e) fl ct s.
Proof. intros H1 H2. apply expressions_agree; [exact H1|]. now apply numbered_index. Qed.
