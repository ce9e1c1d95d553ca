(** The symbol stack of the parser is well typed: no semantic action is ever
    applied to the wrong nodes (C29), and the trees have the shape that the node
    templates demand (C44). *)
From Verif Require Import Parser Basics Normal Syntax Steps.
From Coq Require Import Lia.

(** ** Shapes *)

(** The static checks on the shape of a tree: the elements of a set are
    single-character matchers (set.hpp:12), a negation contains a
    single-character matcher or an assertion (negated.hpp:13, 23), sequences and
    alternations have elements. *)
Fixpoint shaped (n : node) : bool :=
  match n with
  | CSet l => forallb (fun x => trivial x && shaped x) l
  | Neg x => (trivial x || is_assertion x) && shaped x
  | Seq l | Alt l => match l with [] => false | _ => forallb shaped l end
  | Cap _ _ x | Rep _ _ _ x | Look _ x => shaped x
  | _ => true
  end.

(** What the symbols know about a node on the stack. *)
Inductive kind := KN | KT | KE | KC | KLit | KS | KS1 | KSL.

Definition classes : list node := [n_digit; n_word; n_linebreak; n_whitespace].

Definition has (k : kind) (n : node) : Prop :=
  printable n = true /\
  match k with
  | KN => True
  | KT => n = WordB \/ (exists d x, n = Look d x) \/ exists l, n = CSet l
  | KE => (exists c, n = Lit c) \/ In n classes \/ exists x, n = Neg x /\ In x classes
  | KC => In n classes
  | KLit => exists c, n = Lit c
  | KS => exists l, n = CSet l
  | KS1 => exists x l, n = CSet (x :: l)
  | KSL => exists c x l, n = CSet (Lit c :: x :: l)
  end.

Definition subkind (a b : kind) : Prop := forall n, has a n -> has b n.

Lemma sub_refl a : subkind a a.
Proof. now intros n. Qed.

Lemma sub_KN a : subkind a KN.
Proof. intros n [H _]. now split. Qed.

Lemma sub_Lit_E : subkind KLit KE.
Proof. intros n [H [c ->]]. split; [exact H|left; eauto]. Qed.
Lemma sub_C_E : subkind KC KE.
Proof. intros n [H C]. split; [exact H|auto]. Qed.
Lemma sub_S1_S : subkind KS1 KS.
Proof. intros n [H (x & l & ->)]. split; eauto. Qed.
Lemma sub_S_T : subkind KS KT.
Proof. intros n [H (l & ->)]. split; eauto. Qed.
Lemma sub_S1_T : subkind KS1 KT.
Proof. intros n [H (x & l & ->)]. split; eauto. Qed.
Lemma sub_SL_S1 : subkind KSL KS1.
Proof. intros n [H (c & x & l & ->)]. split; eauto. Qed.
#[local] Hint Resolve sub_SL_S1 sub_refl sub_KN sub_Lit_E sub_C_E sub_S1_S sub_S_T sub_S1_T : sub.

Definition subs := Forall2 subkind.

Lemma subs_refl ks : subs ks ks.
Proof. induction ks; constructor; auto with sub. Qed.

Definition fits (ks : list kind) (nodes : list node) : Prop := Forall2 has ks nodes.

Lemma fits_sub ks1 ks2 nodes : subs ks1 ks2 -> fits ks1 nodes -> fits ks2 nodes.
Proof.
  intros H. revert nodes. induction H as [|a b l1 l2 Hab Hl IH]; intros nodes F; inversion F; subst;
    constructor; auto. now apply IH.
Qed.

(** ** Types of symbols *)

Definition bound_ok (q : quantifier) : Prop := match q with Fin n => (n < 2 ^ 64)%N | Inf => True end.
Definition name_ok (nm : group_name) : Prop := match nm with Some l => valid_name l = true | None => True end.

Lemma size_t_bound n : (size_t n < 2 ^ 64)%N.
Proof. apply N.mod_lt. vm_compute. discriminate. Qed.

Lemma digit_bound c : is_digit c = true -> (digit_value c < 2 ^ 64)%N.
Proof. intros H. transitivity 10%N; [|reflexivity]. revert H. unfold digit_value. destruct c as [[] [] [] [] [] [] [] []]; vm_compute; easy. Qed.

Lemma push_bound n c : (push_digit n c < 2 ^ 64)%N.
Proof. apply size_t_bound. Qed.

Lemma first_char_ok c : is_word c && negb (is_digit c) = true -> valid_name [c] = true.
Proof. intros H. apply andb_prop in H. destruct H as [H1 H2]. cbn. now rewrite H1, H2. Qed.

Lemma next_char_ok chars c : valid_name chars = true -> is_word c = true -> valid_name (chars ++ [c]) = true.
Proof.
  intros H1 H2. destruct chars as [|d r]; [discriminate|]. cbn [valid_name app forallb] in *.
  rewrite !Bool.andb_true_iff in *. destruct H1 as (A & B & C). rewrite forallb_app, C. cbn. now rewrite H2.
Qed.

Inductive eff : symbol -> list kind -> list kind -> Prop :=
| e_sequence : eff (Act make_sequence) [KN; KN] [KN]
| e_alternation : eff (Act make_alternation) [KN; KN] [KN]
| e_set : eff (Act make_set) [] [KS]
| e_set_char : eff (Act make_set_from_current_char) [KS] [KS1]
| e_set_stack : eff (Act make_set_from_stack) [KE; KS] [KS1]
| e_set_stack_lit : eff (Act make_set_from_stack) [KLit; KS1] [KSL]
| e_range : eff (Act make_range) [KS1] [KS1]
| e_range_stack : eff (Act make_range_from_stack) [KSL] [KS1]
| e_class a : In a [make_digit; make_word; make_linebreak; make_whitespace] ->
    eff (Act a) [] [KC]
| e_wildcard : eff (Act make_wildcard) [] [KN]
| e_negated_class : eff (Act make_negated) [KC] [KE]
| e_negated : eff (Act make_negated) [KT] [KN]
| e_empty : eff (Act make_empty) [] [KN]
| e_assertion a : In a [make_beginning_of_line; make_beginning_of_input; make_end_of_line;
                        make_end_of_input] -> eff (Act a) [] [KN]
| e_word_boundary : eff (Act make_word_boundary) [] [KT]
| e_literal : eff (Act make_literal) [] [KLit]
| e_push_literal c : eff (Act (push_literal c)) [] [KLit]
| e_capture nm : name_ok nm -> eff (Act (make_capture nm)) [KN] [KN]
| e_repetition md lo hi : (lo < 2 ^ 64)%N -> bound_ok hi -> eff (Act (make_repetition md lo hi)) [KN] [KN]
| e_backref id : (id < 2 ^ 64)%N -> eff (Act (make_backref id)) [] [KN]
| e_named_backref nm : valid_name nm = true -> eff (Act (make_named_backref nm)) [] [KN]
| e_lookaround d : eff (Act (make_lookaround d)) [KN] [KT]
| e_expect c : eff (expect c) [] []
| e_begin s : In s [s_begin; s_esc; s_alt_seq; group_begin_or_mod; group_mod; group_mod_less_than;
                    group_begin; backref_name_begin] -> eff s [] [KN]
| e_after s : In s [s_seq; s_alt; s_mod; quantifier_begin] -> eff s [KN] [KN]
| e_capture_name l : valid_name l = true -> eff (capture_name_seq l) [] [KN]
| e_backref_id id : (id < 2 ^ 64)%N -> eff (backref_id id) [] [KN]
| e_backref_name l : valid_name l = true -> eff (backref_name_seq l) [] [KN]
| e_quantifier_value n : (n < 2 ^ 64)%N -> eff (quantifier_value n) [KN] [KN]
| e_quantifier_range lo hi : (lo < 2 ^ 64)%N -> bound_ok hi -> eff (quantifier_range lo hi) [KN] [KN]
| e_quantifier_mod md lo hi : (lo < 2 ^ 64)%N -> bound_ok hi -> eff (quantifier_mod md lo hi) [KN] [KN]
| e_unquantifiable : eff unquantifiable [] []
| e_set_begin_or_neg : eff set_begin_or_neg [KS] [KN]
| e_set_begin : eff set_begin [KS] [KS]
| e_set_seq : eff set_seq [KS1] [KS1]
| e_set_esc : eff set_esc [] [KE]
| e_set_range_begin : eff set_range_begin [KS1] [KS1]
| e_set_range_seq : eff set_range_seq [KS1] [KS1]
| e_set_range_esc : eff set_range_esc [] [KLit]
| e_hex ds : length ds <= 2 -> eff (hex_esc_seq ds) [] [KLit].

(** From a stack of kinds to another one. *)
Inductive trans : list symbol -> list kind -> list kind -> Prop :=
| t_nil ks ks' : subs ks ks' -> trans [] ks ks'
| t_cons s r need give frame ks ks' :
    eff s need give -> subs ks (need ++ frame) -> trans r (give ++ frame) ks' ->
    trans (s :: r) ks ks'.

Lemma subs_trans a b c : subs a b -> subs b c -> subs a c.
Proof.
  intros H. revert c. induction H as [|x y l1 l2 Hxy Hl IH]; intros c Hc; inversion Hc; subst;
    constructor; auto.
  - intros n Hn. auto.
  - now apply IH.
Qed.

Lemma trans_sub l ks0 ks ks' : subs ks0 ks -> trans l ks ks' -> trans l ks0 ks'.
Proof.
  intros H T. destruct T as [ks ks' Hs|s r need give frame ks ks' He Hs Ht].
  - constructor. eapply subs_trans; eauto.
  - econstructor; eauto. eapply subs_trans; eauto.
Qed.

Lemma trans_app l1 : forall l2 a b c, trans l1 a b -> trans l2 b c -> trans (l1 ++ l2) a c.
Proof.
  induction l1 as [|s r IH]; intros l2 a b c H1 H2; inversion H1; subst; cbn [app].
  - eapply trans_sub; eauto.
  - econstructor; eauto.
Qed.

Lemma trans_frame l : forall f a b, trans l a b -> trans l (a ++ f) (b ++ f).
Proof.
  induction l as [|s r IH]; intros f a b H; inversion H; subst.
  - constructor. apply Forall2_app; auto. apply subs_refl.
  - econstructor; eauto.
    + rewrite app_assoc. apply Forall2_app; [eassumption|apply subs_refl].
    + rewrite app_assoc. auto.
Qed.

Ltac side := cbn [bound_ok name_ok] in *;
  repeat match goal with |- context [match ?hi with Fin _ => _ | Inf => _ end] => destruct hi end;
  first [assumption | exact I | reflexivity | apply push_bound | now apply digit_bound
  | now apply first_char_ok | now apply next_char_ok
  | match goal with H : _ && is_digit ?c = true |- _ =>
      apply digit_bound; apply andb_prop in H; exact (proj2 H) end].

Ltac go_eff := first
  [ apply e_sequence | apply e_alternation | apply e_set | apply e_set_char | apply e_range
  | apply e_range_stack | apply e_empty | apply e_literal | apply e_push_literal | apply e_capture; side
  | apply e_repetition; side | apply e_backref; side | apply e_named_backref; side | apply e_lookaround | apply e_expect
  | apply e_capture_name; side | apply e_backref_id; side | apply e_backref_name; side | apply e_quantifier_value; side
  | apply e_quantifier_range; side | apply e_quantifier_mod; side | apply e_wildcard | apply e_word_boundary | apply e_unquantifiable
  | apply e_set_begin_or_neg | apply e_set_begin | apply e_set_seq | apply e_set_esc
  | apply e_set_range_begin | apply e_set_range_seq | apply e_set_range_esc
  | apply e_class; cbn; tauto | apply e_assertion; cbn; tauto
  | apply e_begin; cbn; tauto | apply e_after; cbn; tauto
  | apply e_hex; cbn; lia ].

Ltac go_subs := cbn [app];
  repeat first [apply subs_refl | apply Forall2_cons; [solve [auto with sub]|]].

Ltac go := repeat first
  [ apply t_nil; solve [go_subs]
  | eapply t_cons; [solve [go_eff]|solve [go_subs]|cbn [app]]
  | eapply t_cons; [apply e_negated_class|solve [go_subs]|cbn [app]]
  | eapply t_cons; [apply e_negated|solve [go_subs]|cbn [app]]
  | eapply t_cons; [apply e_set_stack_lit|solve [go_subs]|cbn [app]]
  | eapply t_cons; [apply e_set_stack|solve [go_subs]|cbn [app]] ].

Ltac split_step H := repeat
  match type of H with
  | (if ?b then _ else _) = _ =>
      first [ match goal with E : b = _ |- _ => rewrite E in H end
            | let E := fresh "E" in destruct b eqn:E ]
  | match ?x with _ => _ end = _ => destruct x; try discriminate H
  end; try discriminate H.

Lemma trans_atom tail c l f give :
  atom tail c = Advance l -> trans tail (KN :: f) give -> trans l f give.
Proof.
  intros H Ht. unfold atom in H.
  assert (S1 : forall r, trans r [] [KN] -> trans (r ++ tail) f give).
  { intros r H2. eapply trans_app; eauto. exact (trans_frame _ f _ _ H2). }
  split_step H; injection H as <-.
  - apply (S1 [Act make_set; set_begin_or_neg; expect "]"; s_mod]). go.
  - apply (S1 [group_begin_or_mod; expect ")"; s_mod]). go.
  - apply (S1 [s_esc; s_mod]). go.
  - apply (S1 [Act make_wildcard; s_mod]). go.
  - apply (S1 [Act make_beginning_of_line]). go.
  - apply (S1 [Act make_end_of_line]). go.
  - apply (S1 [Act make_literal; s_mod]). go.
Qed.

Lemma trans_escaped c l : handle_escaped_char c = Advance l -> trans l [] [KN].
Proof.
  unfold handle_escaped_char. intros H. split_step H; injection H as <-; go.
Qed.

Lemma trans_set_esc c l : handle_set_escape_sequence c = Advance l -> trans l [] [KE].
Proof.
  unfold handle_set_escape_sequence, handle_escaped_char. intros H.
  split_step H; injection H as <-; go.
Qed.

Lemma trans_range_esc c l : handle_set_range_escape_sequence c = Advance l -> trans l [] [KLit].
Proof.
  unfold handle_set_range_escape_sequence, handle_set_escape_sequence, handle_escaped_char. intros H.
  destruct (_ || _) eqn:E0 in H; [discriminate|].
  rewrite !Bool.orb_false_iff in E0. destruct E0 as [[[[[[[E1 E2] E3] E4] E5] E6] E7] E8].
  split_step H; injection H as <-; go.
Qed.

(** The rules respect the types. *)
Definition result_of (s : symbol) (token : option ascii) : option (list symbol) :=
  match rule s token with Push l | Advance l => Some l | _ => None end.

(** Symbols that an empty pattern or group may leave without a node. *)
Definition opener (s : symbol) : bool :=
  match s with s_begin | group_begin | group_begin_or_mod => true | _ => false end.

Lemma esc_shape c : exists l, handle_escaped_char c = Advance l.
Proof.
  unfold handle_escaped_char. repeat (match goal with |- context [if ?b then _ else _] => destruct b end); eauto.
Qed.

Lemma set_esc_shape c : exists l, handle_set_escape_sequence c = Advance l.
Proof.
  unfold handle_set_escape_sequence. repeat (match goal with |- context [if ?b then _ else _] => destruct b end);
    eauto using esc_shape.
Qed.

Lemma eff_step s need give token l : eff s need give -> result_of s token = Some l ->
  trans l need give.
Proof.
  intros He H. unfold result_of in H.
  assert (R : forall tail c l0 f g, atom tail c = Advance l0 -> trans tail (KN :: f) g -> trans l0 f g)
    by (intros; eapply trans_atom; eauto).
  inversion He; subst; cbn [In] in *;
    repeat match goal with
    | A : _ \/ _ |- _ => destruct A as [A|A]
    | A : False |- _ => destruct A
    end; subst; cbn [rule] in H; try discriminate H.
  all: try (destruct token as [c0|]; [|try discriminate H; try (injection H as <-; solve [go])]).
  all: repeat match type of H with
         context [if ?b then _ else _] => destruct b eqn:?; try discriminate H end.
  all: try (injection H as <-; solve [go]).
  all: try (match type of H with context [atom ?t ?c] =>
         destruct (atom_advances t c) as [l0 E]; rewrite E in H; injection H as <-;
         refine (R _ _ _ _ _ E _); go end).
  all: try (unfold begin_name, continue_name, continue_quantifier_value, continue_quantifier_range,
         begin_quantifier_value, abort_quantifier_parsing in H;
       repeat match type of H with
         context [if ?b then _ else _] => destruct b eqn:?; try discriminate H end;
       injection H as <-; solve [go]).
  - unfold handle_escape_sequence in H.
    repeat match type of H with
         context [if ?b then _ else _] => destruct b eqn:?; try discriminate H end;
      try (injection H as <-; solve [go]).
    destruct (esc_shape c0) as [l0 E]. rewrite E in H. injection H as <-.
    eapply trans_escaped, E.
  - destruct (set_esc_shape c0) as [l0 E]. rewrite E in H. injection H as <-. eapply trans_set_esc, E.
  - destruct (handle_set_range_escape_sequence c0) as [| | l0| |] eqn:E; try discriminate H.
    + unfold handle_set_range_escape_sequence in E. destruct (_ || _) in E; [discriminate|].
      destruct (set_esc_shape c0) as [l1 E1]. rewrite E1 in E. discriminate.
    + injection H as <-. eapply trans_range_esc, E.
  - destruct ds as [|a [|b [|d ds]]]; cbn in H.
    + destruct (is_hexdigit c0); [|discriminate]. injection H as <-. go.
    + destruct (is_hexdigit c0); [|discriminate]. injection H as <-. go.
    + injection H as <-. go.
    + cbn in *. lia.
  - destruct ds as [|a [|b [|d ds]]]; cbn in H; try discriminate. injection H as <-. go.
Qed.

Lemma eff_ignore s need give token : eff s need give -> rule s token = Ignore ->
  subs need give \/ token = None /\ opener s = true.
Proof.
  intros He H. destruct s; cbn [rule] in H; destruct token as [c0|].
  all: unfold handle_escape_sequence, handle_set_range_escape_sequence, begin_name, continue_name,
         begin_quantifier_value, continue_quantifier_value, continue_quantifier_range,
         continue_hex_escape_sequence in H.
  all: repeat match type of H with
         | context [if ?b then _ else _] => destruct b; try discriminate H
         | context [atom ?t ?c] => destruct (atom_advances t c) as [? E]; rewrite E in H; discriminate H
         | context [handle_escaped_char ?c] => destruct (esc_shape c) as [? E]; rewrite E in H; discriminate H
         | context [handle_set_escape_sequence ?c] => destruct (set_esc_shape c) as [? E]; rewrite E in H; discriminate H
         end; try discriminate H.
  all: try (right; now split).
  all: left; inversion He; subst; cbn [In] in *;
    repeat match goal with
    | A : _ \/ _ |- _ => destruct A as [A|A]; try discriminate A
    | A : False |- _ => destruct A
    end; go_subs.
  all: destruct digits as [|? [|? [|]]]; discriminate.
Qed.

(** The actions respect the types. *)
Ltac open_fits := repeat match goal with
  | F : fits (_ :: _) _ |- _ => inversion F; subst; clear F
  | F : Forall2 has (_ :: _) _ |- _ => inversion F; subst; clear F
  | H : has _ _ |- _ => let A := fresh "A" in destruct H as [A H]
  | H : _ /\ _ |- _ => destruct H
  | H : exists _, _ |- _ => destruct H
  end; subst.

Lemma seq_elements l : shaped (Seq l) = true -> forallb shaped l = true.
Proof. now destruct l. Qed.
Lemma alt_elements l : shaped (Alt l) = true -> forallb shaped l = true.
Proof. now destruct l. Qed.

(** Trees in normal form pass the checks. *)
Lemma set_ok_shaped l : set_ok l = true -> forallb (fun x => trivial x && shaped x) l = true.
Proof.
  unfold set_ok. destruct (items_of l) as [its|] eqn:E; [|discriminate]. intros _.
  apply items_of_spec in E. subst l. induction its as [|i is IH]; [reflexivity|].
  cbn [flat_map]. rewrite forallb_app, IH. now destruct i.
Qed.

Lemma printable_shaped n : printable n = true -> shaped n = true.
Proof.
  induction n using node_ind'; cbn [printable shaped]; auto; intros Hp.
  - now apply set_ok_shaped.
  - destruct n; try discriminate; cbn [trivial is_assertion orb andb shaped] in *; auto.
  - rewrite !Bool.andb_true_iff in Hp. destruct Hp as [[Hl _] Hp]. destruct l as [|x l]; [discriminate|].
    rewrite forallb_forall in Hp |- *. rewrite Forall_forall in H. auto.
  - rewrite !Bool.andb_true_iff in Hp. destruct Hp as [[Hl _] Hp]. destruct l as [|x l]; [discriminate|].
    rewrite forallb_forall in Hp |- *. rewrite Forall_forall in H. auto.
  - apply andb_prop in Hp. now apply IHn.
  - apply andb_prop in Hp. now apply IHn.
Qed.

Definition flat_list (l : list node) : Prop :=
  1 <= length l /\ forallb (fun x => negb (is_seq x)) l = true /\ forallb printable l = true.

Lemma parts_flat n : printable n = true -> flat_list (parts n).
Proof.
  intros H. unfold flat_list. destruct n; cbn [parts length forallb is_seq negb andb];
    try (rewrite H; now repeat split).
  cbn [printable] in H. rewrite !Bool.andb_true_iff in H. destruct H as [[H1 H2] H3].
  apply Nat.leb_le in H1. repeat split; auto. lia.
Qed.

Lemma act_sequence nodes f : fits (KN :: KN :: f) nodes ->
  exists nodes', build make_sequence None nodes = Some nodes' /\ fits (KN :: f) nodes'.
Proof.
  intros F. inversion F as [|? y ? t [A _] F1]; subst. inversion F1 as [|? y0 ? t0 [A0 _] F2]; subst. clear F F1.
  exists (Seq (parts y0 ++ parts y) :: t0). split; [destruct y, y0; reflexivity|].
  constructor; [|exact F2]. split; [|exact I].
  destruct (parts_flat y A) as (H1 & H2 & H3), (parts_flat y0 A0) as (G1 & G2 & G3).
  cbn [printable]. rewrite !forallb_app, H2, H3, G2, G3.
  replace (2 <=? length (parts y0 ++ parts y)) with true; [reflexivity|].
  symmetry. apply Nat.leb_le. rewrite app_length. lia.
Qed.

Lemma act_alternation nodes f : fits (KN :: KN :: f) nodes ->
  exists nodes', build make_alternation None nodes = Some nodes' /\ fits (KN :: f) nodes'.
Proof.
  intros F. inversion F as [|? y ? t [A _] F1]; subst. inversion F1 as [|? y0 ? t0 [A0 _] F2]; subst. clear F F1.
  exists (Alt (match y0 with Alt l => l | _ => [y0] end ++ [y]) :: t0). split; [now destruct y0|].
  constructor; [|exact F2]. split; [|exact I]. cbn [printable].
  rewrite forallb_app, app_length. cbn [forallb length]. rewrite A.
  destruct y0; try (rewrite A0; reflexivity); try (cbn [forallb length hd app is_alt negb]; rewrite A0; reflexivity).
  cbn [printable] in A0. rewrite !Bool.andb_true_iff in A0. destruct A0 as [[H1 H2] H3].
  rewrite H3. destruct l as [|x [|x' l]]; try discriminate. cbn [app hd] in *. rewrite H2. now cbn.
Qed.

Ltac done_fits := eexists; split; [reflexivity|]; constructor; [|assumption];
  split; [try reflexivity|try exact I; eauto].

Lemma act_set_stack k ks nodes f : k = KE /\ ks = KS \/ k = KLit /\ ks = KS1 ->
  fits (k :: ks :: f) nodes ->
  exists nodes', build make_set_from_stack None nodes = Some nodes'
    /\ fits ((match k with KLit => KSL | _ => KS1 end) :: f) nodes'.
Proof.
  intros [[-> ->]|[-> ->]] F; inversion F as [|? y ? t [A K] F1]; subst;
    inversion F1 as [|? y0 ? t0 [A0 K0] F2]; subst; clear F F1.
  - destruct K0 as [l0 ->]. cbn [printable] in A0.
    assert (G : forall x l, set_ok (x :: l) = true -> build make_set_from_stack None (y :: CSet l0 :: t0) = Some (CSet ((x :: l) ++ l0) :: t0) ->
      exists nodes', build make_set_from_stack None (y :: CSet l0 :: t0) = Some nodes' /\ fits (KS1 :: f) nodes').
    { intros x l Hs E. eexists. split; [exact E|]. constructor; [|exact F2]. split; [now apply set_ok_app|cbn; eauto]. }
    destruct K as [[c ->]|[K|(x & -> & K)]].
    + now apply (G (Lit c) []).
    + repeat (destruct K as [<-|K]); try destruct K.
      * now apply (G n_digit []).
      * now apply (G n_lower [n_upper; n_digit; Lit "_"%char]).
      * now apply (G (Lit "010"%char) [Lit "013"%char]).
      * now apply (G n_linebreak [Lit " "; Lit "009"; Lit "011"; Lit "012"]%char).
    + repeat (destruct K as [<-|K]); try destruct K.
      * now apply (G (Neg n_digit) []).
      * now apply (G (Neg n_word) []).
      * now apply (G (Neg n_linebreak) []).
      * now apply (G (Neg n_whitespace) []).
  - destruct K as [c ->]. destruct K0 as (x & l & ->). cbn [printable] in A0.
    cbn [build]. done_fits. now apply set_ok_lit.
Qed.

Lemma act_step a need give f c nodes : eff (Act a) need give -> fits (need ++ f) nodes ->
  exists nodes', build a (Some c) nodes = Some nodes' /\ fits (give ++ f) nodes'.
Proof.
  intros He F. inversion He; subst; cbn [app] in *;
    repeat match goal with
    | A : In _ _ |- _ => cbn [In] in A
    | A : _ \/ _ |- _ => destruct A as [A|A]; try discriminate A
    | A : False |- _ => destruct A
    end; subst.
  1: exact (act_sequence _ _ F).
  1: exact (act_alternation _ _ F).
  all: try exact (act_set_stack KE KS _ f (or_introl (conj eq_refl eq_refl)) F).
  all: try exact (act_set_stack KLit KS1 _ f (or_intror (conj eq_refl eq_refl)) F).
  all: open_fits; cbn [build].
  all: try solve [done_fits].
  all: try solve [done_fits; cbn [classes In]; tauto].
  - done_fits. now apply set_ok_lit.
  - cbn [printable] in A. destruct x; done_fits; try (now apply set_ok_lit, set_ok_lit).
    apply set_ok_range. now apply set_ok_tail in A.
  - cbn [printable] in A. apply set_ok_tail in A. destruct x0; done_fits; try (now apply set_ok_lit, set_ok_lit).
    apply set_ok_range. now apply set_ok_tail in A.
  - match goal with K : In y classes |- _ => rename K into K1 end.
    eexists. split; [reflexivity|]. constructor; [|assumption].
    split; [|right; right; eauto]. cbn [classes In] in K1. repeat destruct K1 as [<-|K1]; try reflexivity. destruct K1.
  - done_fits. match goal with K : _ \/ _ |- _ => destruct K as [->|[(d & x & ->)|(l & ->)]] end;
      [reflexivity|exact A|exact A].
  - done_fits. cbn [printable]. rewrite A, Bool.andb_true_r. destruct nm; [assumption|reflexivity].
  - done_fits. cbn [printable]. rewrite A, Bool.andb_true_r.
    match goal with L : (lo < _)%N |- _ => apply N.ltb_lt in L; rewrite L end.
    destruct hi as [h|]; [now apply N.ltb_lt|reflexivity].
  - done_fits. cbn [printable]. now apply N.ltb_lt.
Qed.

(** ** The invariant of the parser *)

Definition ends_opener (prev : option ascii) : Prop :=
  prev = Some "="%char \/ prev = Some "!"%char \/ prev = Some ">"%char.

Definition group_start (s : symbol) : bool :=
  match s with
  | s_begin | group_begin | group_begin_or_mod | group_mod | group_mod_less_than
  | capture_name_seq _ => true
  | _ => false
  end.

(** The actions at the end of a group. *)
Definition unary (a : action) : bool :=
  match a with
  | make_lookaround _ | make_negated | make_repetition _ _ _ | make_capture _ => true
  | _ => false
  end.

(** Symbols that start a group occur only on top of the stack, above the
    parenthesis that they wait for; actions in between only after [=], [!], [>]. *)
Definition head_ok (prev : option ascii) (symbols : list symbol) : Prop :=
  match symbols with
  | s_begin :: r => r = []
  | (group_begin_or_mod | group_mod | group_mod_less_than | capture_name_seq _) :: r =>
      exists r', r = expect ")" :: r'
  | group_begin :: r =>
      exists acts r', r = map Act acts ++ expect ")" :: r' /\ (acts = [] \/ ends_opener prev)
        /\ forallb unary acts = true
  | _ => True
  end.

Definition no_start (l : list symbol) : bool := forallb (fun s => negb (group_start s)) l.

Record ok (prev : option ascii) (nodes : list node) (symbols : list symbol) : Prop := {
  ok_types : exists ks, fits ks nodes /\ (trans symbols ks [KN]);
  ok_starts : no_start (tl symbols) = true;
  ok_head : head_ok prev symbols;
  ok_prev : prev <> None \/ nodes = [] /\ symbols = [s_begin]
}.

Lemma head_plain prev symbols : no_start symbols = true -> head_ok prev symbols.
Proof. destruct symbols as [|s r]; [easy|]. now destruct s. Qed.

Lemma no_start_tl l : no_start l = true -> no_start (tl l) = true.
Proof. destruct l as [|s r]; [easy|]. cbn. intros H. now apply Bool.andb_true_iff in H. Qed.

(** Symbols put by a rule. *)
Lemma step_push s token l : rule s token = Push l -> no_start l = true.
Proof.
  intros H. destruct s; cbn [rule] in H; destruct token as [c0|]; try discriminate H.
  all: unfold handle_escape_sequence, handle_set_range_escape_sequence, begin_name, continue_name,
         begin_quantifier_value, continue_quantifier_value, continue_quantifier_range,
         continue_hex_escape_sequence, abort_quantifier_parsing in H.
  all: repeat match type of H with
         | context [if ?b then _ else _] => destruct b; try discriminate H
         | context [atom ?t ?c] => destruct (atom_advances t c) as [? E]; rewrite E in H; discriminate H
         | context [handle_escaped_char ?c] => destruct (esc_shape c) as [? E]; rewrite E in H; discriminate H
         | context [handle_set_escape_sequence ?c] => destruct (set_esc_shape c) as [? E]; rewrite E in H; discriminate H
         end; try discriminate H.
  all: try (injection H as <-; reflexivity).
  all: destruct digits as [|? [|? [|]]]; cbn in H; try discriminate; injection H as <-; reflexivity.
Qed.

Lemma atom_starts tail c l prev r : atom tail c = Advance l -> no_start (tail ++ r) = true ->
  no_start (tl (l ++ r)) = true /\ head_ok prev (l ++ r).
Proof.
  intros H Hr. unfold atom in H. split_step H; injection H as <-; cbn [app tl no_start forallb group_start negb andb];
    (split; [exact Hr|]); cbn [head_ok]; eauto.
Qed.

Lemma escaped_starts c l : handle_escaped_char c = Advance l -> no_start l = true.
Proof. unfold handle_escaped_char. intros H. split_step H; injection H as <-; reflexivity. Qed.

Lemma set_escaped_starts c l : handle_set_escape_sequence c = Advance l -> no_start l = true.
Proof.
  unfold handle_set_escape_sequence. intros H. split_step H; try (injection H as <-; reflexivity).
  now apply escaped_starts in H.
Qed.

Lemma no_start_app a b : no_start (a ++ b) = no_start a && no_start b.
Proof. apply forallb_app. Qed.

Lemma step_advance s c l prev r : rule s (Some c) = Advance l ->
  head_ok prev (s :: r) -> no_start r = true ->
  no_start (tl (l ++ r)) = true /\ head_ok (Some c) (l ++ r).
Proof.
  intros H Hh Hr.
  assert (P : no_start l = true -> no_start (tl (l ++ r)) = true /\ head_ok (Some c) (l ++ r)).
  { intros Hl. assert (no_start (l ++ r) = true) by now rewrite no_start_app, Hl, Hr.
    split; [now apply no_start_tl|now apply head_plain]. }
  assert (A : forall tail, no_start tail = true -> atom tail c = Advance l ->
    no_start (tl (l ++ r)) = true /\ head_ok (Some c) (l ++ r)).
  { intros tail Ht HA. eapply atom_starts; [exact HA|]. now rewrite no_start_app, Ht, Hr. }
  destruct s; cbn [rule] in H; try discriminate H.
  all: unfold handle_escape_sequence, handle_set_range_escape_sequence, begin_name, continue_name,
         begin_quantifier_value, continue_quantifier_value, continue_quantifier_range,
         continue_hex_escape_sequence, abort_quantifier_parsing in H.
  all: split_step H.
  all: lazymatch type of H with
       | atom _ _ = _ => eapply A; [|exact H]; reflexivity
       | handle_escaped_char _ = _ => apply P; eapply escaped_starts; exact H
       | handle_set_escape_sequence _ = _ => apply P; eapply set_escaped_starts; exact H
       | _ => injection H as <-; try (apply P; reflexivity)
       end.
  all: cbn [app tl]; split; [solve [auto]|]; cbn [head_ok] in *.
  all: destruct Hh as [r' ->]; eauto.
  all: try (exists [], r'; split; [reflexivity|split; [left; reflexivity|reflexivity]]).
  all: repeat match goal with E : (_ == _) = true |- _ => apply Ascii.eqb_eq in E; subst end.
  - exists [make_repetition Possessive 1 (Fin 1)], r'. split; [reflexivity|split; [right; unfold ends_opener; tauto|reflexivity]].
  - exists [make_lookaround Ahead], r'. split; [reflexivity|split; [right; unfold ends_opener; tauto|reflexivity]].
  - exists [make_lookaround Ahead; make_negated], r'. split; [reflexivity|split; [right; unfold ends_opener; tauto|reflexivity]].
  - exists [make_lookaround Behind], r'. split; [reflexivity|split; [right; unfold ends_opener; tauto|reflexivity]].
  - exists [make_lookaround Behind; make_negated], r'. split; [reflexivity|split; [right; unfold ends_opener; tauto|reflexivity]].
  - exists [make_capture (Some chars)], r'. split; [reflexivity|split; [right; unfold ends_opener; tauto|reflexivity]].
Qed.

Lemma waits acts : forall f i prev nodes r, weights (map Act acts ++ expect ")" :: r) < f ->
  let res := parse_token f i prev None nodes (map Act acts ++ expect ")" :: r) in
  res = P_result (P_error i) \/ (res = P_result P_stuck /\ acts <> []).
Proof.
  induction acts as [|a acts IH]; intros [|f] i prev nodes r Hf; try lia.
  - now left.
  - cbn [map app] in *. rewrite token_act. destruct (build a prev nodes) as [nodes'|].
    + rewrite weights_cons in Hf. cbn [weight] in Hf.
      destruct (IH f i prev nodes' r ltac:(lia)) as [H|[H _]]; [left; exact H|right; now split].
    + right. now split.
Qed.

Lemma fits_all ks nodes : fits ks nodes -> forallb printable nodes = true.
Proof. induction 1 as [|k n ks ns [H _] Hf IH]; [reflexivity|]. cbn. now rewrite H. Qed.

Lemma Forall2_len {A B} (R : A -> B -> Prop) l l' : Forall2 R l l' -> length l = length l'.
Proof. induction 1; cbn; congruence. Qed.

(** One step of the parser keeps the invariant. *)
Lemma ok_act prev nodes a r : ok prev nodes (Act a :: r) ->
  exists c nodes', prev = Some c /\ build a prev nodes = Some nodes' /\ ok prev nodes' r.
Proof.
  intros [(ks & F & T) Hs Hh Hp]. cbn [tl] in Hs.
  inversion T as [|s0 r0 need give frame ks0 ks0' He Hsub Ht]; subst.
  pose proof (fits_sub _ _ _ Hsub F) as F'.
  destruct Hp as [Hp|[_ Hp]]; [|discriminate]. destruct prev as [c|]; [|easy].
  destruct (act_step a need give frame c nodes He F') as (nodes' & E & F2).
  exists c, nodes'. split; [reflexivity|]. split; [exact E|].
  split; [eauto| |now apply head_plain|left; discriminate]. now apply no_start_tl.
Qed.

Lemma ok_ignore prev nodes s r token : ok prev nodes (s :: r) -> rule s token = Ignore ->
  token = None /\ opener s = true \/ ok prev nodes r.
Proof.
  intros [(ks & F & T) Hs Hh Hp] R. cbn [tl] in Hs.
  inversion T as [|s0 r0 need give frame ks0 ks0' He Hsub Ht]; subst.
  pose proof (fits_sub _ _ _ Hsub F) as F'.
  destruct (eff_ignore _ _ _ _ He R) as [Hi|[-> Ho]]; [right|now left].
  destruct (group_start s) eqn:G.
  { destruct token as [c|].
    - exfalso. destruct s; try discriminate G; cbn [rule] in R;
        unfold begin_name, continue_name in R;
        repeat match type of R with
        | context [if ?b then _ else _] => destruct b; try discriminate R
        | context [atom ?t ?c] => destruct (atom_advances t c) as [? E]; rewrite E in R; discriminate R
        end; discriminate R.
    - exfalso. destruct s; try discriminate G; try discriminate R; inversion He; subst; cbn [In] in *;
        repeat match goal with
        | B : _ \/ _ |- _ => destruct B as [B|B]; try discriminate B
        | B : False |- _ => destruct B
        end; inversion Hi. }
  destruct Hp as [Hp|[_ Hp]]; [|injection Hp as -> ->; discriminate G].
  split; [|now apply no_start_tl|now apply head_plain|left; exact Hp].
  exists (give ++ frame). split; [|exact Ht].
  eapply fits_sub; [|exact F']. apply Forall2_app; [exact Hi|apply subs_refl].
Qed.

Lemma ok_push prev nodes s r token l : ok prev nodes (s :: r) -> rule s token = Push l ->
  ok prev nodes (l ++ r).
Proof.
  intros [(ks & F & T) Hs Hh Hp] R. cbn [tl] in Hs.
  inversion T as [|s0 r0 need give frame ks0 ks0' He Hsub Ht]; subst.
  pose proof (fits_sub _ _ _ Hsub F) as F'.
  assert (Hr : result_of s token = Some l) by (unfold result_of; now rewrite R).
  assert (N : no_start (l ++ r) = true) by (rewrite no_start_app, (step_push _ _ _ R); exact Hs).
  split; [| now apply no_start_tl|now apply head_plain|].
  - exists (need ++ frame). split; [exact F'|].
    eapply trans_app; [|exact Ht]. apply trans_frame. eapply eff_step; eauto.
  - destruct Hp as [Hp|[_ Hp]]; [now left|]. injection Hp as -> ->. exfalso.
    destruct token as [c|]; cbn [rule] in R; try discriminate R.
    repeat match type of R with
          | context [if ?b then _ else _] => destruct b; try discriminate R
          | context [atom ?t ?c] => destruct (atom_advances t c) as [? E]; rewrite E in R; discriminate R
          end.
Qed.

Lemma ok_advance prev nodes s r c l : ok prev nodes (s :: r) -> rule s (Some c) = Advance l ->
  ok (Some c) nodes (l ++ r).
Proof.
  intros [(ks & F & T) Hs Hh Hp] R. cbn [tl] in Hs.
  inversion T as [|s0 r0 need give frame ks0 ks0' He Hsub Ht]; subst.
  pose proof (fits_sub _ _ _ Hsub F) as F'.
  assert (Hr : result_of s (Some c) = Some l) by (unfold result_of; now rewrite R).
  destruct (step_advance s c l prev r R Hh Hs) as [N1 N2].
  split; [|exact N1|exact N2|left; discriminate].
  exists (need ++ frame). split; [exact F'|].
  eapply trans_app; [|exact Ht]. apply trans_frame. eapply eff_step; eauto.
Qed.

Lemma ok_nodes prev nodes symbols : ok prev nodes symbols -> forallb printable nodes = true.
Proof. intros [(ks & F & _) _ _ _]. eapply fits_all; eauto. Qed.

Lemma ok_final prev nodes : ok prev nodes [] -> length nodes <= 1.
Proof.
  intros [(ks & F & T) _ _ _]. inversion T as [? ? Hk|]; subst.
  apply Forall2_len in Hk, F. cbn in Hk. lia.
Qed.

Lemma ok_only_begin prev nodes r : ok prev nodes (s_begin :: r) -> r = [] /\ nodes = [].
Proof.
  intros [(ks & F & T) _ Hh _]. cbn in Hh. subst r. split; [reflexivity|].
  inversion T as [|s0 r0 need give frame ks0 ks0' He Hsub Ht]; subst.
  pose proof (fits_sub _ _ _ Hsub F) as F'.
  inversion Ht as [? ? Hk|]; subst. apply Forall2_len in Hk, F'.
  rewrite app_length in Hk, F'. destruct nodes; [reflexivity|]. exfalso.
  inversion He; subst; cbn [In] in *;
    repeat match goal with
      | B : _ \/ _ |- _ => destruct B as [B|B]; try discriminate B
      | B : False |- _ => destruct B
      end; cbn in Hk, F'; lia.
Qed.

Lemma no_accept s token : rule s token <> Accept.
Proof.
  intros R. destruct s; cbn [rule] in R; try discriminate; destruct token as [c0|]; try discriminate R.
  all: unfold handle_escape_sequence, handle_set_range_escape_sequence, begin_name, continue_name,
       begin_quantifier_value, continue_quantifier_value, continue_quantifier_range,
       continue_hex_escape_sequence, abort_quantifier_parsing in R.
  all: repeat match type of R with
       | context [if ?b then _ else _] => destruct b; try discriminate R
       | context [atom ?t ?c] => destruct (atom_advances t c) as [? E]; rewrite E in R; discriminate R
       | context [handle_escaped_char ?c] => destruct (esc_shape c) as [? E]; rewrite E in R; discriminate R
       | context [handle_set_escape_sequence ?c] => destruct (set_esc_shape c) as [? E]; rewrite E in R; discriminate R
       end; try discriminate R.
  all: destruct digits as [|? [|? [|]]]; discriminate R.
Qed.

Lemma no_advance_end s l : rule s None <> Advance l.
Proof.
  intros R. destruct s; try discriminate R. cbn [rule] in R.
  destruct digits as [|? [|? [|]]]; discriminate R.
Qed.

(** What one token does. *)
Lemma token_ok f : forall i prev token nodes symbols, weights symbols < f -> ok prev nodes symbols ->
  match parse_token f i prev token nodes symbols with
  | P_result (P_ok n) => exists ns, n = accepted_tree ns /\ forallb printable ns = true /\ length ns <= 1
  | P_result (P_error _) => True
  | P_result P_stuck => token = None /\ ends_opener prev
  | P_result P_loop => False
  | P_state nodes' symbols' => exists c, token = Some c /\ ok (Some c) nodes' symbols'
  end.
Proof.
  induction f as [|f IH]; intros i prev token nodes symbols Hf Hok; [lia|].
  destruct symbols as [|s r].
  { cbn. destruct token; cbn; auto. exists nodes.
    split; [reflexivity|split; [eapply ok_nodes; eauto|eapply ok_final; eauto]]. }
  rewrite weights_cons in Hf. assert (Hw : 1 <= weight s) by (destruct s; cbn; lia).
  destruct (is_act s) eqn:A.
  { destruct s; try discriminate A. rewrite token_act.
    destruct (ok_act _ _ _ _ Hok) as (c & nodes' & _ & -> & Hok'). apply IH; [lia|exact Hok']. }
  rewrite token_rule by exact A. destruct (rule s token) eqn:R.
  - destruct (ok_ignore _ _ _ _ _ Hok R) as [[-> Ho]|Hok']; [|apply IH; [lia|exact Hok']].
    pose proof (ok_head _ _ _ Hok) as Hh. destruct s; try discriminate Ho; cbn [head_ok] in Hh.
    + destruct (ok_only_begin _ _ _ Hok) as [-> ->]. destruct f; [cbn in Hf; lia|]. cbn.
      exists []. repeat split. cbn. lia.
    + destruct Hh as [r' ->].
      destruct (waits [] f i prev nodes r' ltac:(cbn [map app weight] in *; lia)) as [H|[H N]]; [|easy].
      cbn [map app] in H. now rewrite H.
    + destruct Hh as (acts & r' & -> & Ha & _).
      destruct (waits acts f i prev nodes r' ltac:(lia)) as [H|[H N]].
      * now rewrite H.
      * rewrite H. split; [reflexivity|]. destruct Ha as [->|Ha]; [easy|exact Ha].
  - pose proof (rule_push _ _ _ R) as Hl.
    apply IH; [rewrite weights_app; lia|]. eapply ok_push; eauto.
  - destruct token as [c|]; [|now apply no_advance_end in R].
    exists c. split; [reflexivity|]. eapply ok_advance; eauto.
  - exact I.
  - now apply no_accept in R.
Qed.

Fixpoint last_char (prev : option ascii) (rest : list ascii) : option ascii :=
  match rest with [] => prev | c :: r => last_char (Some c) r end.

Theorem from_ok : forall rest i prev nodes symbols, ok prev nodes symbols ->
  match parse_from i prev rest nodes symbols with
  | P_ok n => exists ns, n = accepted_tree ns /\ forallb printable ns = true /\ length ns <= 1
  | P_error j => i <= j <= i + length rest
  | P_stuck => ends_opener (last_char prev rest)
  | P_loop => False
  end.
Proof.
  intros rest i prev nodes symbols H.
  destruct (parse_from i prev rest nodes symbols) as [n|j| |] eqn:E.
  2: now apply error_bound in E.
  3: now apply parse_no_loop in E.
  all: revert i prev nodes symbols H E; induction rest as [|c rest IH]; intros i prev nodes symbols H E;
    rewrite from_token in E.
  - pose proof (token_ok _ i prev (@hd_error ascii []) nodes symbols (weights_fuel symbols) H) as T.
    destruct (parse_token _ _ _ _ _ _); [destruct T as (? & [=] & _)|]. subst r. exact T.
  - pose proof (token_ok _ i prev (hd_error (c :: rest)) nodes symbols (weights_fuel symbols) H) as T.
    destruct (parse_token _ _ _ _ _ _).
    + destruct T as (c' & [= <-] & T). eapply IH; eauto.
    + subst r. exact T.
  - pose proof (token_ok _ i prev (@hd_error ascii []) nodes symbols (weights_fuel symbols) H) as T.
    destruct (parse_token _ _ _ _ _ _); [destruct T as (? & [=] & _)|]. subst r. apply T.
  - pose proof (token_ok _ i prev (hd_error (c :: rest)) nodes symbols (weights_fuel symbols) H) as T.
    destruct (parse_token _ _ _ _ _ _).
    + destruct T as (c' & [= <-] & T). cbn [last_char]. eapply IH; eauto.
    + subst r. destruct T as [[=] _].
Qed.

Lemma ok_begin : ok None [] [s_begin].
Proof.
  split; [|reflexivity|reflexivity|right; now split].
  exists []. split; [constructor|]. go.
Qed.
