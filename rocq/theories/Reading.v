(** The parser reads every text of the grammar as its tree (C31-C35). *)
From Verif Require Import Parser Basics Normal Syntax Steps Typing Shape.
From Coq Require Import Lia.

(** ** Trees up to group numbers *)

(** The tree without group numbers. *)
Fixpoint strip (n : node) : node :=
  match n with
  | CSet l => CSet (map strip l)
  | Neg x => Neg (strip x)
  | Seq l => Seq (map strip l)
  | Alt l => Alt (map strip l)
  | Cap _ nm x => Cap 0 nm (strip x)
  | Rep md lo hi x => Rep md lo hi (strip x)
  | Look d x => Look d (strip x)
  | _ => n
  end.

Definition same (x y : node) : Prop := strip x = strip y.

Lemma same_refl x : same x x.
Proof. reflexivity. Qed.

Lemma same_cap i j nm x y : same x y -> same (Cap i nm x) (Cap j nm y).
Proof. unfold same. cbn. now intros ->. Qed.
Lemma same_rep md lo hi x y : same x y -> same (Rep md lo hi x) (Rep md lo hi y).
Proof. unfold same. cbn. now intros ->. Qed.
Lemma same_look d x y : same x y -> same (Look d x) (Look d y).
Proof. unfold same. cbn. now intros ->. Qed.
Lemma same_neg x y : same x y -> same (Neg x) (Neg y).
Proof. unfold same. cbn. now intros ->. Qed.

Lemma strip_parts n : map strip (parts n) = parts (strip n).
Proof. now destruct n. Qed.
Lemma strip_branches n : map strip (branches n) = branches (strip n).
Proof. now destruct n. Qed.

Lemma same_cat x y n m : same x n -> same y m -> same (cat x y) (cat n m).
Proof. unfold same, cat. cbn. rewrite !map_app, !strip_parts. now intros -> ->. Qed.
Lemma same_or x y n m : same x n -> same y m -> same (or x y) (or n m).
Proof. unfold same, or. cbn. rewrite !map_app, !strip_branches. cbn. now intros -> ->. Qed.

Lemma strip_count n : capture_count (strip n) = capture_count n.
Proof.
  induction n using node_ind'; try reflexivity; cbn [strip capture_count]; try (now rewrite IHn);
    rewrite map_map; f_equal; apply map_ext_Forall; exact H.
Qed.

Lemma index_strip n : forall off, index off (strip n) = index off n.
Proof.
  induction n using node_ind'; intros off; try reflexivity; cbn [strip].
  - cbn [index]. f_equal. rewrite map_map. apply map_ext_Forall. eapply Forall_impl; [|exact H]. auto.
  - cbn [index]. now rewrite IHn.
  - rewrite !index_Seq. f_equal. revert off. induction H as [|x l Hx Hl IH]; intros off; [reflexivity|].
    cbn [map index_list]. now rewrite Hx, strip_count, IH.
  - cbn [index]. f_equal. rewrite map_map. apply map_ext_Forall. eapply Forall_impl; [|exact H]. auto.
  - cbn [index]. now rewrite IHn.
  - cbn [index]. now rewrite IHn.
  - cbn [index]. now rewrite IHn.
Qed.

Lemma same_index x y off : same x y -> index off x = index off y.
Proof. intros H. rewrite <- (index_strip x), <- (index_strip y). now rewrite H. Qed.

(** ** Reading characters *)

Definition starter (c : ascii) : bool := negb (among c (str ")*+?{|")).

(** No quantifier here. *)
Definition quiet (rest : text) : Prop :=
  match rest with [] => True | c :: _ => among c (str "*+?{") = false end.

Definition ends_seq (rest : text) : Prop :=
  match rest with [] => True | c :: _ => c = ")"%char \/ c = "|"%char end.

Lemma alt_seq_end rest : ends_alt rest -> ends_seq rest.
Proof. destruct rest; cbn; auto. Qed.
Lemma seq_end_quiet rest : ends_seq rest -> quiet rest.
Proof. destruct rest as [|c r]; cbn; auto. now intros [-> | ->]. Qed.
Lemma end_allows f rest : ends_alt rest -> allows f rest.
Proof. destruct rest as [|c r]; destruct f; cbn; auto. now intros ->. Qed.

Ltac sweep c := destruct c as [[] [] [] [] [] [] [] []]; vm_compute; try reflexivity; try discriminate; auto.

Lemma ordinary_starter c : ordinary c = true -> starter c = true.
Proof. sweep c. Qed.

Lemma ordinary_atom c tail : ordinary c = true -> atom tail c = Advance (Act make_literal :: s_mod :: tail).
Proof. sweep c. Qed.

Lemma word_not_gt c : is_word c = true -> c == ">" = false.
Proof. sweep c. Qed.

Lemma word_not_mark c : is_word c = true -> (c == "=") = false /\ (c == "!") = false.
Proof. sweep c. Qed.

(** Starting symbols: [s] reads one item and goes on with [tail]. *)
Definition starts (s : symbol) (tail : list symbol) : Prop :=
  is_act s = false /\ forall c, starter c = true -> rule s (Some c) = atom tail c.

Ltac starting := split; [reflexivity|]; intros c; destruct c as [[] [] [] [] [] [] [] []];
  intros H; vm_compute in H; try discriminate H; reflexivity.

Lemma starts_begin : starts s_begin [s_seq; s_alt].
Proof. starting. Qed.
Lemma starts_group : starts group_begin [s_seq; s_alt].
Proof. starting. Qed.
Lemma starts_group_or_mod : starts group_begin_or_mod [s_seq; s_alt; Act (make_capture None)].
Proof. starting. Qed.
Lemma starts_alt_seq : starts s_alt_seq [s_seq].
Proof. starting. Qed.
Lemma starts_seq : starts s_seq [Act make_sequence; s_seq].
Proof. starting. Qed.

Definition begins (t : text) : Prop :=
  match t with [] => False | c :: _ => starter c = true end.

Lemma begins_app t t' : begins t -> begins (t ++ t').
Proof. now destruct t. Qed.
Lemma begins_quiet t t' : begins t -> quiet (t ++ t').
Proof. destruct t as [|c t]; [easy|]. cbn [begins app quiet]. sweep c. Qed.
Lemma allows_app f t t' : begins t -> allows f t -> allows f (t ++ t').
Proof. now destruct t. Qed.

Definition reads_piece (f : after) (t : text) (n : node) : Prop :=
  begins t /\ f <> GroupEnd /\
  forall s tail, starts s tail -> forall i prev rest nodes r, allows f rest -> exists i' prev' x, same x n /\
    parse_from i prev (t ++ rest) nodes (s :: r) = parse_from i' prev' rest (x :: nodes) (s_mod :: tail ++ r).

Definition reads_item (f : after) (t : text) (n : node) : Prop :=
  begins t /\
  forall s tail, starts s tail -> forall i prev rest nodes r, quiet rest -> allows f rest -> exists i' prev' x, same x n /\
    parse_from i prev (t ++ rest) nodes (s :: r) = parse_from i' prev' rest (x :: nodes) (tail ++ r).

Definition reads_suffix (f : after) (n : node) (t : text) (f' : after) (n' : node) : Prop :=
  forall rest, quiet rest -> allows f' rest -> (f <> GroupEnd -> allows f (t ++ rest)) /\
  forall i prev x nodes r, same x n -> exists i' prev' x', same x' n' /\
    parse_from i prev (t ++ rest) (x :: nodes) (s_mod :: r) = parse_from i' prev' rest (x' :: nodes) r.

Definition reads_items (f : after) (n : node) (t : text) (f' : after) (n' : node) : Prop :=
  forall rest, ends_seq rest -> allows f' rest -> quiet (t ++ rest) /\ allows f (t ++ rest) /\
  forall i prev x nodes r, same x n -> exists i' prev' x', same x' n' /\
    parse_from i prev (t ++ rest) (x :: nodes) (s_seq :: r) = parse_from i' prev' rest (x' :: nodes) r.

Definition reads_branches (f : after) (n : node) (t : text) (f' : after) (n' : node) : Prop :=
  forall rest, ends_alt rest -> ends_seq (t ++ rest) /\ allows f (t ++ rest) /\
  forall i prev x nodes r, same x n -> exists i' prev' x', same x' n' /\
    parse_from i prev (t ++ rest) (x :: nodes) (s_alt :: r) = parse_from i' prev' rest (x' :: nodes) r.

Definition reads_branch (f : after) (t : text) (n : node) : Prop :=
  begins t /\
  forall s tail, starts s (s_seq :: tail) -> forall i prev rest nodes r, ends_seq rest -> allows f rest ->
  exists i' prev' x, same x n /\
    parse_from i prev (t ++ rest) nodes (s :: r) = parse_from i' prev' rest (x :: nodes) (tail ++ r).

Definition reads_body (t : text) (n : node) : Prop :=
  (t = [] /\ n = Empty) \/
  begins t /\
  forall s tail, starts s (s_seq :: s_alt :: tail) -> forall i prev rest nodes r, ends_alt rest ->
  exists i' prev' x, same x n /\
    parse_from i prev (t ++ rest) nodes (s :: r) = parse_from i' prev' rest (x :: nodes) (tail ++ r).

Lemma seq_stops i prev rest nodes r : ends_seq rest ->
  parse_from i prev rest nodes (s_seq :: r) = parse_from i prev rest nodes r.
Proof.
  intros H. apply parse_ignore; [reflexivity|]. destruct rest as [|c rest]; [reflexivity|].
  now destruct H as [-> | ->].
Qed.

Lemma alt_stops i prev rest nodes r : ends_alt rest ->
  parse_from i prev rest nodes (s_alt :: r) = parse_from i prev rest nodes r.
Proof.
  intros H. apply parse_ignore; [reflexivity|]. destruct rest as [|c rest]; [reflexivity|].
  cbn in H. now subst c.
Qed.

Lemma mod_stops i prev rest nodes r : quiet rest ->
  parse_from i prev rest nodes (s_mod :: r) = parse_from i prev rest nodes r.
Proof.
  intros H. apply parse_ignore; [reflexivity|]. destruct rest as [|c rest]; [reflexivity|].
  cbn [quiet hd_error] in *. revert H. sweep c.
Qed.

Lemma build_cat prev x y nodes : build make_sequence prev (x :: y :: nodes) = Some (cat y x :: nodes).
Proof. destruct x, y; reflexivity. Qed.

Lemma build_or prev x y nodes : build make_alternation prev (x :: y :: nodes) = Some (or y x :: nodes).
Proof. destruct y; reflexivity. Qed.

Ltac advance := erewrite parse_advance by reflexivity; cbn [app].
Ltac start As Hs := erewrite parse_advance; [|exact As|rewrite Hs by reflexivity; reflexivity]; cbn [app].
Ltac texts := cbn [str String.list_ascii_of_string app].

(** ** Escapes *)

Ltac table H := repeat (destruct H as [H|H]; [injection H as <- <-|]); [..|destruct H].

Lemma nibble_value h a : In (h, a) nibbles -> is_hexdigit h = true /\ hex_value h = a.
Proof. unfold nibbles. intros H. table H; vm_compute; auto. Qed.

Lemma hex_reads h1 h2 a b i prev rest nodes r : In (h1, a) nibbles -> In (h2, b) nibbles -> exists i' prev',
  parse_from i prev (h1 :: h2 :: rest) nodes (hex_esc_seq [] :: r)
  = parse_from i' prev' rest (Lit (ascii_of_N (16 * a + b)) :: nodes) r.
Proof.
  intros Ha Hb. destruct (nibble_value _ _ Ha) as [H1 V1], (nibble_value _ _ Hb) as [H2 V2].
  erewrite parse_advance; [|reflexivity|cbn [rule continue_hex_escape_sequence length Nat.ltb Nat.leb andb]; rewrite H1; reflexivity].
  cbn [app].
  erewrite parse_advance; [|reflexivity|cbn [rule continue_hex_escape_sequence length Nat.ltb Nat.leb andb]; rewrite H2; reflexivity].
  cbn [app]. erewrite parse_push; [|reflexivity|cbn [rule continue_hex_escape_sequence]; reflexivity].
  cbn [app]. erewrite parse_act by reflexivity. rewrite V1, V2, (N.mul_comm a 16). do 2 eexists. reflexivity.
Qed.

Lemma escape_self c : among c (str "kx0123456789nrtfvaedDwWsSRNbBAZ") = false ->
  handle_escape_sequence c = Advance [Act make_literal].
Proof. sweep c. Qed.

Lemma set_escape_self c : among c (str "x0nrtfvaedDwWsSRNb") = false ->
  handle_set_escape_sequence c = Advance [Act make_literal]
  /\ handle_set_range_escape_sequence c = Advance [Act make_literal].
Proof. sweep c. Qed.

(** An escape starts with a backslash; the parser does the rest. *)
Definition slash (t : text) : Prop := match t with c :: _ => c = "\"%char | [] => False end.

Lemma escape_slash named special t c : char_escape named special t c -> slash t.
Proof. now destruct 1. Qed.
Lemma class_slash t n : class_escape t n -> slash t.
Proof. now destruct 1. Qed.
Lemma slash_begins t : slash t -> begins t.
Proof. destruct t; [easy|]. cbn. now intros ->. Qed.

Lemma escape_reads t c i prev rest nodes r : escape t c -> exists i' prev',
  parse_from i prev (tl t ++ rest) nodes (s_esc :: r) = parse_from i' prev' rest (Lit c :: nodes) r.
Proof.
  intros H. destruct H as [h1 h2 a b H1 H2|c v H|c H]; cbn [tl app].
  - advance. now apply hex_reads.
  - unfold controls in H. table H; advance; erewrite parse_act by reflexivity; do 2 eexists; reflexivity.
  - erewrite parse_advance; [|reflexivity|cbn [rule]; now apply escape_self]. cbn [app].
    erewrite parse_act by reflexivity. do 2 eexists. reflexivity.
Qed.

Lemma set_escape_reads s t c i prev rest nodes r : set_escape t c -> s = set_esc \/ s = set_range_esc ->
  exists i' prev',
  parse_from i prev (tl t ++ rest) nodes (s :: r) = parse_from i' prev' rest (Lit c :: nodes) r.
Proof.
  intros H S. destruct H as [h1 h2 a b H1 H2|c v H|c H]; cbn [tl app].
  - destruct S as [-> | ->]; (advance; now apply hex_reads).
  - unfold controls in H. table H; destruct S as [-> | ->]; advance; erewrite parse_act by reflexivity;
      do 2 eexists; reflexivity.
  - destruct (set_escape_self c H) as [E1 E2].
    destruct S as [-> | ->]; (erewrite parse_advance; [|reflexivity|cbn [rule]; eassumption]); cbn [app];
      erewrite parse_act by reflexivity; do 2 eexists; reflexivity.
Qed.

Lemma class_reads t n i prev rest nodes r : class_escape t n -> exists i' prev',
  parse_from i prev (tl t ++ rest) nodes (s_esc :: r) = parse_from i' prev' rest (n :: nodes) r.
Proof.
  intros [c n' H]. cbn [tl app]. unfold class_escapes in H.
  table H; advance; repeat (erewrite parse_act by reflexivity); do 2 eexists; reflexivity.
Qed.

Lemma set_class_reads t n i prev rest nodes r : class_escape t n -> exists i' prev',
  parse_from i prev (tl t ++ rest) nodes (set_esc :: r) = parse_from i' prev' rest (n :: nodes) r.
Proof.
  intros [c n' H]. cbn [tl app]. unfold class_escapes in H.
  table H; advance; repeat (erewrite parse_act by reflexivity); do 2 eexists; reflexivity.
Qed.

(** ** Sets *)

(** Where the parser is in a set. *)
Definition set_state (fresh : bool) (s : symbol) : Prop :=
  match s with
  | set_begin_or_neg | set_begin | set_range_seq => fresh = true
  | set_seq => fresh = false
  | _ => False
  end.

Lemma set_slash fresh s t i prev rest nodes r : set_state fresh s -> slash t ->
  parse_from i prev (t ++ rest) nodes (s :: r)
  = parse_from (S i) (Some "\"%char) (tl t ++ rest) nodes (set_esc :: Act make_set_from_stack :: set_seq :: r).
Proof.
  intros H S. destruct t as [|c t]; [easy|]. cbn in S. subst c. cbn [tl app].
  destruct s; try easy; now advance.
Qed.

Lemma set_current fresh s c i prev rest nodes l r : set_state fresh s ->
  among c (str "\]") = false -> (s = set_begin_or_neg -> c <> "^"%char) -> (c = "-"%char -> fresh = true) ->
  parse_from i prev (c :: rest) (CSet l :: nodes) (s :: r)
  = parse_from (S i) (Some c) rest (CSet (Lit c :: l) :: nodes) (set_seq :: r).
Proof.
  intros H A B D.
  erewrite (parse_advance _ _ _ _ _ _ _ [Act make_set_from_current_char; set_seq]); [|now destruct s|].
  - cbn [app]. now erewrite parse_act by reflexivity.
  - revert A B D H. destruct s; try easy; destruct fresh; try easy;
      destruct c as [[] [] [] [] [] [] [] []]; intros A B D H; vm_compute in A; try discriminate A;
      try reflexivity; try (exfalso; now apply B); specialize (D eq_refl); discriminate.
Qed.

Lemma plain_set_char c : among c (str "\]-") = false -> among c (str "\]") = false /\ c <> "-"%char.
Proof. sweep c; now split. Qed.

Lemma build_element prev n l nodes :
  build make_set_from_stack prev (n :: CSet l :: nodes) = Some (CSet (elements n ++ l) :: nodes).
Proof. destruct n; reflexivity. Qed.

Lemma range_plain_rule c : among c (str "\]") = false ->
  rule set_range_begin (Some c) = Advance [Act make_range; set_range_seq].
Proof. sweep c. Qed.

Lemma range_end_reads e b i prev rest x l nodes r : range_end e b ->
  exists i' prev',
  parse_from i prev (e ++ rest) (CSet (x :: l) :: nodes) (set_range_begin :: r)
  = parse_from i' prev' rest
      (CSet (match x with Lit a => Range a b :: l | _ => Lit b :: Lit "-" :: x :: l end) :: nodes)
      (set_range_seq :: r).
Proof.
  intros H. destruct H as [c H|t c H].
  - cbn [app]. erewrite parse_advance; [|reflexivity|now apply range_plain_rule]. cbn [app].
    do 2 eexists. erewrite parse_act; [reflexivity|destruct x; reflexivity].
  - pose proof (escape_slash _ _ _ _ H) as S. destruct t as [|d t]; [easy|]. cbn in S. subst d. cbn [app].
    advance. destruct (set_escape_reads set_range_esc _ _ (S i) (Some "\"%char) rest (CSet (x :: l) :: nodes)
      (Act make_set_from_stack :: Act make_range_from_stack :: set_range_seq :: r) H (or_intror eq_refl)) as (i' & p' & E).
    cbn [tl] in E. rewrite E. erewrite parse_act by reflexivity.
    exists i', p'. erewrite parse_act; [reflexivity|destruct x; reflexivity].
Qed.

Lemma set_stops fresh s k i prev rest nodes r : set_state fresh s ->
  parse_from i prev ("]"%char :: rest) nodes (s :: repeat set_seq k ++ r)
  = parse_from i prev ("]"%char :: rest) nodes r.
Proof.
  intros H. rewrite parse_ignore by (now destruct s).
  induction k as [|k IH]; [reflexivity|]. cbn [repeat app]. now rewrite parse_ignore.
Qed.

Lemma set_body_reads fresh l t l' : set_body fresh l t l' ->
  forall s k i prev rest nodes r, set_state fresh s ->
  (s = set_begin_or_neg -> hd_error t <> Some "^"%char) ->
  exists i' prev',
  parse_from i prev (t ++ "]"%char :: rest) (CSet l :: nodes) (s :: repeat set_seq k ++ r)
  = parse_from i' prev' ("]"%char :: rest) (CSet l' :: nodes) r.
Proof.
  induction 1 as [fresh l|fresh l c t l' Hc Hb IH|l t l' Hb IH|fresh l e c t l' He Hb IH
    |fresh l e n t l' He Hb IH|a l e b t l' He Hb IH|x l e b t l' Hx He Hb IH|l];
    intros s k i prev rest nodes r Hs Hh.
  - exists i, prev. cbn [app]. eapply set_stops; eauto.
  - apply plain_set_char in Hc. destruct Hc as [H1 H2]. cbn [app].
    erewrite set_current; [|exact Hs|exact H1|intros E Hc; subst c; now apply Hh|easy].
    now apply IH.
  - cbn [app]. erewrite set_current; [|exact Hs|reflexivity|easy|easy]. now apply IH.
  - rewrite <- app_assoc. erewrite set_slash by (try exact Hs; eapply escape_slash; eauto).
    edestruct (set_escape_reads set_esc e c) as (i1 & p1 & E1); [exact He|now left|]. rewrite E1.
    erewrite parse_act by reflexivity. now apply IH.
  - rewrite <- app_assoc. erewrite set_slash by (try exact Hs; eapply class_slash; eauto).
    edestruct (set_class_reads e n) as (i1 & p1 & E1); [exact He|]. rewrite E1.
    erewrite parse_act by apply build_element. now apply IH.
  - destruct s; try easy. cbn [app]. advance. rewrite <- app_assoc.
    edestruct (range_end_reads e b) as (i1 & p1 & E1); [exact He|]. rewrite E1.
    apply (IH set_range_seq (S k)); easy.
  - destruct s; try easy. cbn [app]. advance. rewrite <- app_assoc.
    edestruct (range_end_reads e b) as (i1 & p1 & E1); [exact He|]. rewrite E1.
    destruct x; try discriminate; apply (IH set_range_seq (S k)); easy.
  - destruct s; try easy. texts. advance.
    erewrite (parse_push _ _ _ _ _ _ [Act (push_literal "-"); Act make_set_from_stack]) by reflexivity. cbn [app].
    erewrite parse_act by reflexivity. erewrite parse_act by reflexivity.
    do 2 eexists. apply (set_stops false set_seq k). reflexivity.
Qed.

(** ** Numerals *)

Lemma push_digits ds : forall a b, size_t a = size_t b ->
  size_t (fold_left push_digit ds a) = size_t (fold_left (fun a c => 10 * a + (code c - 48))%N ds b).
Proof.
  induction ds as [|c ds IH]; intros a b H; [exact H|]. cbn [fold_left]. apply IH.
  unfold push_digit, digit_value, size_t in *.
  rewrite N.mod_mod by (vm_compute; discriminate).
  rewrite N.add_mod, N.mul_mod, H, <- N.mul_mod, <- N.add_mod by (vm_compute; discriminate). reflexivity.
Qed.

Lemma size_t_small n : (n < 2 ^ 64)%N -> size_t n = n.
Proof. apply N.mod_small. Qed.

Lemma digit_small c : is_digit c = true -> (digit_value c < 10)%N.
Proof. unfold digit_value. sweep c. Qed.

(** What the parser computes from the digits [d :: ds]. *)
Lemma digits_value d ds : is_digit d = true ->
  fold_left push_digit ds (digit_value d) = size_t (decimal (d :: ds)).
Proof.
  intros H. unfold decimal. cbn [fold_left]. rewrite N.mul_0_r, N.add_0_l.
  pose proof (digit_small d H) as Hd. unfold digit_value in *.
  rewrite <- (push_digits ds (code d - 48) (code d - 48)) by reflexivity. symmetry. apply size_t_small.
  assert (P : forall ds a, (a < 2 ^ 64)%N -> (fold_left push_digit ds a < 2 ^ 64)%N).
  { clear. induction ds as [|c ds IH]; intros a Ha; [exact Ha|]. cbn [fold_left]. apply IH, size_t_bound. }
  apply P. transitivity 10%N; [exact Hd|reflexivity].
Qed.

Lemma digit_not c : is_digit c = true -> (c == "}") = false /\ (c == ",") = false.
Proof. sweep c. Qed.

Lemma value_reads ds : forallb is_digit ds = true -> forall n i prev rest nodes r, exists i' prev',
  parse_from i prev (ds ++ rest) nodes (quantifier_value n :: r)
  = parse_from i' prev' rest nodes (quantifier_value (fold_left push_digit ds n) :: r).
Proof.
  induction ds as [|c ds IH]; intros H n i prev rest nodes r; [now exists i, prev|].
  cbn [forallb] in H. apply andb_prop in H. destruct H as [Hc H]. cbn [app].
  destruct (digit_not c Hc) as [E1 E2].
  erewrite parse_advance; [|reflexivity|cbn [rule]; rewrite E1, E2; unfold continue_quantifier_value; rewrite Hc; reflexivity].
  apply IH. exact H.
Qed.

Lemma range_reads ds : forallb is_digit ds = true -> forall lo n i prev rest nodes r, exists i' prev',
  parse_from i prev (ds ++ rest) nodes (quantifier_range lo (Fin n) :: r)
  = parse_from i' prev' rest nodes (quantifier_range lo (Fin (fold_left push_digit ds n)) :: r).
Proof.
  induction ds as [|c ds IH]; intros H lo n i prev rest nodes r; [now exists i, prev|].
  cbn [forallb] in H. apply andb_prop in H. destruct H as [Hc H]. cbn [app].
  destruct (digit_not c Hc) as [E1 _].
  erewrite parse_advance; [|reflexivity|cbn [rule]; rewrite E1; unfold continue_quantifier_range; rewrite Hc; reflexivity].
  apply IH. exact H.
Qed.

Lemma lower_reads ds : ds <> [] -> forallb is_digit ds = true -> forall i prev rest nodes r, exists i' prev',
  parse_from i prev ("{"%char :: ds ++ rest) nodes (s_mod :: r)
  = parse_from i' prev' rest nodes (quantifier_value (size_t (decimal ds)) :: r).
Proof.
  intros Hne H i prev rest nodes r. destruct ds as [|c ds]; [easy|].
  cbn [forallb] in H. apply andb_prop in H. destruct H as [Hc H]. advance.
  erewrite parse_advance; [|reflexivity|cbn [rule]; unfold begin_quantifier_value; rewrite Hc; reflexivity].
  cbn [app]. destruct (value_reads ds H (digit_value c) (S (S i)) (Some c) rest nodes r) as (i' & p' & E).
  exists i', p'. rewrite E. now rewrite digits_value.
Qed.

Lemma upper_reads ds : ds <> [] -> forallb is_digit ds = true -> forall lo i prev rest nodes r, exists i' prev',
  parse_from i prev (ds ++ rest) nodes (quantifier_range lo Inf :: r)
  = parse_from i' prev' rest nodes (quantifier_range lo (Fin (size_t (decimal ds))) :: r).
Proof.
  intros Hne H lo i prev rest nodes r. destruct ds as [|c ds]; [easy|].
  cbn [forallb] in H. apply andb_prop in H. destruct H as [Hc H]. cbn [app].
  destruct (digit_not c Hc) as [E1 _].
  erewrite parse_advance; [|reflexivity|cbn [rule]; rewrite E1; unfold continue_quantifier_range; rewrite Hc; reflexivity].
  cbn [app]. destruct (range_reads ds H lo (digit_value c) (S i) (Some c) rest nodes r) as (i' & p' & E).
  exists i', p'. rewrite E. now rewrite digits_value.
Qed.

Lemma bounds_read q lo hi : bounds q lo hi -> forall i prev rest nodes r, exists i' prev',
  parse_from i prev (q ++ rest) nodes (s_mod :: r)
  = parse_from i' prev' rest nodes (quantifier_mod Greedy lo hi :: r).
Proof.
  intros H i prev rest nodes r. destruct H as [| | |ds [Hn Hd]|ds [Hn Hd]|ds es [Hn Hd] [Hn' Hd']];
    texts; try (advance; do 2 eexists; reflexivity).
  - rewrite <- app_assoc. edestruct (lower_reads ds Hn Hd) as (i1 & p1 & E). rewrite E. cbn [app].
    advance. do 2 eexists. reflexivity.
  - rewrite <- app_assoc. edestruct (lower_reads ds Hn Hd) as (i1 & p1 & E). rewrite E. cbn [app].
    do 2 advance. do 2 eexists. reflexivity.
  - rewrite <- app_assoc. edestruct (lower_reads ds Hn Hd) as (i1 & p1 & E). rewrite E. cbn [app].
    advance. rewrite <- app_assoc. edestruct (upper_reads es Hn' Hd') as (i2 & p2 & E2). rewrite E2. cbn [app].
    advance. do 2 eexists. reflexivity.
Qed.

Lemma mode_reads md lo hi : forall i prev rest x nodes r, quiet rest -> exists i' prev',
  parse_from i prev (mode_text md ++ rest) (x :: nodes) (quantifier_mod Greedy lo hi :: r)
  = parse_from i' prev' rest (Rep md lo hi x :: nodes) r.
Proof.
  intros i prev rest x nodes r Hf. destruct md; cbn [mode_text]; texts.
  - erewrite (parse_push _ _ _ _ _ _ [Act (make_repetition Greedy lo hi)]); [|reflexivity|].
    + cbn [app]. erewrite parse_act by reflexivity. do 2 eexists. reflexivity.
    + destruct rest as [|c rest]; [reflexivity|]. cbn [quiet hd_error rule] in *.
      assert (E : (c == "?") = false /\ (c == "+") = false) by (revert Hf; sweep c).
      destruct E as [-> ->]. reflexivity.
  - advance. erewrite parse_act by reflexivity. do 2 eexists. reflexivity.
  - advance. erewrite parse_act by reflexivity. do 2 eexists. reflexivity.
Qed.

Lemma bounds_not_digit q lo hi : bounds q lo hi -> q <> [] /\ not_digit q.
Proof. now destruct 1. Qed.

Lemma id_reads ds : forallb is_digit ds = true -> forall n i prev rest nodes r, not_digit rest -> exists i' prev',
  parse_from i prev (ds ++ rest) nodes (backref_id n :: r)
  = parse_from i' prev' rest (Backref (fold_left push_digit ds n) :: nodes) r.
Proof.
  induction ds as [|c ds IH]; intros H n i prev rest nodes r Hf.
  - cbn [app]. erewrite (parse_push _ _ _ _ _ _ [Act (make_backref n)]); [|reflexivity|].
    + cbn [app]. erewrite parse_act by reflexivity. do 2 eexists. reflexivity.
    + destruct rest as [|c rest]; [reflexivity|]. cbn [not_digit hd_error rule] in *. now rewrite Hf.
  - cbn [forallb] in H. apply andb_prop in H. destruct H as [Hc H]. cbn [app].
    erewrite parse_advance; [|reflexivity|cbn [rule]; rewrite Hc; reflexivity]. now apply IH.
Qed.

Lemma digit_not_escape c : is_digit c = true -> (c == "k") = false /\ (c == "x") = false.
Proof. sweep c. Qed.


(** ** Names and groups *)

Lemma name_reads (name : list ascii -> symbol)
  (Hn : forall chars, is_act (name chars) = false)
  (Hr : forall chars c, c == ">" = false -> rule (name chars) (Some c) = continue_name name chars c) nm :
  forallb is_word nm = true -> forall chars i prev rest nodes r, exists i' prev',
    parse_from i prev (nm ++ rest) nodes (name chars :: r)
    = parse_from i' prev' rest nodes (name (chars ++ nm) :: r).
Proof.
  induction nm as [|c nm IH]; intros H chars i prev rest nodes r.
  - exists i, prev. now rewrite app_nil_r.
  - cbn [forallb] in H. apply andb_prop in H. destruct H as [Hc H]. cbn [app].
    erewrite parse_advance; [|apply Hn|rewrite Hr by (now apply word_not_gt); unfold continue_name; rewrite Hc; reflexivity].
    cbn [app]. destruct (IH H (chars ++ [c]) (S i) (Some c) rest nodes r) as (i' & p' & E).
    exists i', p'. rewrite E, <- app_assoc. reflexivity.
Qed.

Lemma begin_name_ok name c : is_word c = true -> is_digit c = false -> begin_name name c = Advance [name [c]].
Proof. intros H1 H2. unfold begin_name. now rewrite H1, H2. Qed.

(** How a group is opened, closed with a symbol list, and built. *)
Lemma opening_reads o F : opening o F -> o <> [] -> exists acts,
  (forall i prev rest nodes r, exists i' prev',
    parse_from i prev (o ++ rest) nodes (group_begin_or_mod :: r)
    = parse_from i' prev' rest nodes (group_begin :: acts ++ r))
  /\ (forall i prev rest x n nodes r, same x n -> exists x', same x' (F n) /\
    parse_from i prev rest (x :: nodes) (acts ++ r) = parse_from i prev rest (x' :: nodes) r)
  /\ (o = str "?:" \/ exists a acts', acts = Act a :: acts' /\ forall prev, build a prev [] = None).
Proof.
  destruct 1 as [|nm H| | | | | |]; intros Hne; [easy|..].
  - destruct nm as [|c nm]; [discriminate|]. cbn [valid_name forallb] in H.
    rewrite !Bool.andb_true_iff, Bool.negb_true_iff in H. destruct H as (Hd & Hc & Hw).
    exists [Act (make_capture (Some (c :: nm)))]. split; [|split].
    + intros i prev rest nodes r. texts. do 2 advance. destruct (word_not_mark c Hc) as [E1 E2].
      erewrite parse_advance; [|reflexivity|cbn [rule]; rewrite E1, E2; now apply begin_name_ok].
      cbn [app]. rewrite <- app_assoc.
      destruct (name_reads capture_name_seq (fun _ => eq_refl)) with (nm := nm) (chars := [c]) (i := S (S (S i)))
        (prev := Some c) (rest := [">"%char] ++ rest) (nodes := nodes) (r := r) as (i' & p' & E); [|exact Hw|].
      { intros chars d Hd'. cbn [rule]. now rewrite Hd'. }
      rewrite E. cbn [app]. advance. do 2 eexists. reflexivity.
    + intros i prev rest x n nodes r Hx. eexists. cbn [app]. erewrite parse_act by reflexivity.
      split; [|reflexivity]. now apply same_cap.
    + right. do 2 eexists. split; [reflexivity|]. reflexivity.
  - exists []. split; [intros i prev rest nodes r; texts; repeat advance; do 2 eexists; reflexivity|].
    split; [|now left]. intros i prev rest x n nodes r Hx. exists x. split; auto.
  - exists [Act (make_repetition Possessive 1 (Fin 1))].
    split; [intros i prev rest nodes r; texts; repeat advance; do 2 eexists; reflexivity|].
    split; [|right; do 2 eexists; split; reflexivity]. intros i prev rest x n nodes r Hx. cbn [app]. erewrite parse_act by reflexivity.
    eexists. split; [|reflexivity]. now apply same_rep.
  - exists [Act (make_lookaround Ahead)].
    split; [intros i prev rest nodes r; texts; repeat advance; do 2 eexists; reflexivity|].
    split; [|right; do 2 eexists; split; reflexivity]. intros i prev rest x n nodes r Hx. cbn [app]. erewrite parse_act by reflexivity.
    eexists. split; [|reflexivity]. now apply same_look.
  - exists [Act (make_lookaround Ahead); Act make_negated].
    split; [intros i prev rest nodes r; texts; repeat advance; do 2 eexists; reflexivity|].
    split; [|right; do 2 eexists; split; reflexivity]. intros i prev rest x n nodes r Hx. cbn [app]. do 2 erewrite parse_act by reflexivity.
    eexists. split; [|reflexivity]. now apply same_neg, same_look.
  - exists [Act (make_lookaround Behind)].
    split; [intros i prev rest nodes r; texts; repeat advance; do 2 eexists; reflexivity|].
    split; [|right; do 2 eexists; split; reflexivity]. intros i prev rest x n nodes r Hx. cbn [app]. erewrite parse_act by reflexivity.
    eexists. split; [|reflexivity]. now apply same_look.
  - exists [Act (make_lookaround Behind); Act make_negated].
    split; [intros i prev rest nodes r; texts; repeat advance; do 2 eexists; reflexivity|].
    split; [|right; do 2 eexists; split; reflexivity]. intros i prev rest x n nodes r Hx. cbn [app]. do 2 erewrite parse_act by reflexivity.
    eexists. split; [|reflexivity]. now apply same_neg, same_look.
Qed.

(** ** All patterns *)

Lemma body_at_group t n : reads_body t n -> forall i prev rest nodes r, exists i' prev' x, same x n /\
  parse_from i prev (t ++ ")"%char :: rest) nodes (group_begin :: r)
  = parse_from i' prev' (")"%char :: rest) (x :: nodes) r.
Proof.
  intros [[-> ->]|[B R]] i prev rest nodes r.
  - cbn [app]. erewrite parse_push by reflexivity. cbn [app]. erewrite parse_act by reflexivity.
    do 3 eexists. split; [apply same_refl|reflexivity].
  - exact (R group_begin [] starts_group i prev (")"%char :: rest) nodes r eq_refl).
Qed.

Lemma body_at_capture t n : reads_body t n -> forall i prev rest nodes r, exists i' prev' x, same x n /\
  parse_from i prev (t ++ ")"%char :: rest) nodes (group_begin_or_mod :: r)
  = parse_from i' prev' (")"%char :: rest) (x :: nodes) (Act (make_capture None) :: r).
Proof.
  intros [[-> ->]|[B R]] i prev rest nodes r.
  - cbn [app]. erewrite parse_push by reflexivity. cbn [app]. erewrite parse_act by reflexivity.
    do 3 eexists. split; [apply same_refl|reflexivity].
  - exact (R group_begin_or_mod _ starts_group_or_mod i prev (")"%char :: rest) nodes r eq_refl).
Qed.

Lemma group_reads o F t n : opening o F -> reads_body t n ->
  reads_piece Anything (str "(" ++ o ++ t ++ str ")") (F n).
Proof.
  intros Ho Hb. split; [reflexivity|]. split; [discriminate|].
  intros s tail [As Hs] i prev rest nodes r _. texts. start As Hs. rewrite <- !app_assoc. texts.
  destruct o as [|c o].
  - cbn [app]. edestruct (body_at_capture t n Hb) as (i1 & p1 & x & Sx & E). rewrite E.
    erewrite parse_act by reflexivity. advance. do 3 eexists. split; [|reflexivity].
    inversion Ho; subst; try (match goal with E : _ ++ _ = [] |- _ => discriminate E end). now apply same_cap.
  - destruct (opening_reads _ _ Ho ltac:(discriminate)) as (acts & H1 & H2 & _).
    edestruct H1 as (i1 & p1 & E1). rewrite E1.
    edestruct (body_at_group t n Hb) as (i2 & p2 & x & Sx & E2). rewrite E2.
    edestruct H2 as (x' & Sx' & E3); [exact Sx|]. rewrite E3. advance.
    do 3 eexists. split; [exact Sx'|reflexivity].
Qed.

Lemma anchor_reads t n : In (t, n) anchors -> reads_item Anything t n.
Proof.
  unfold anchors. intros H. table H; (split; [reflexivity|]);
    intros s tail [As Hs] i prev rest nodes r Hq _; texts; start As Hs; try advance;
    repeat (erewrite parse_act by reflexivity);
    try (rewrite (parse_ignore _ _ _ _ unquantifiable);
         [rewrite mod_stops by exact Hq|reflexivity
         |destruct rest as [|c rest]; [reflexivity|]; cbn [quiet hd_error] in *; revert Hq; sweep c]);
    do 3 eexists; (split; [apply same_refl|reflexivity]).
Qed.

Theorem syntax_reads :
  (forall f t n, piece f t n -> reads_piece f t n)
  /\ (forall f t n, item f t n -> reads_item f t n)
  /\ (forall f n t f' n', suffix f n t f' n' -> reads_suffix f n t f' n')
  /\ (forall f n t f' n', more_items f n t f' n' -> reads_items f n t f' n')
  /\ (forall f n t f' n', more_branches f n t f' n' -> reads_branches f n t f' n')
  /\ (forall f t n, branch f t n -> reads_branch f t n)
  /\ (forall t n, body t n -> reads_body t n).
Proof.
  apply pattern_mind.
  - intros c H. split; [now apply ordinary_starter|]. split; [discriminate|].
    intros s tail [As Hs] i prev rest nodes r _. cbn [app].
    erewrite parse_advance; [|exact As|rewrite Hs by (now apply ordinary_starter); now apply ordinary_atom].
    cbn [app]. erewrite parse_act by reflexivity. do 3 eexists. split; [apply same_refl|reflexivity].
  - split; [reflexivity|]. split; [discriminate|]. intros s tail [As Hs] i prev rest nodes r _. texts.
    start As Hs. erewrite parse_act by reflexivity. do 3 eexists. split; [apply same_refl|reflexivity].
  - intros t c H. pose proof (escape_slash _ _ _ _ H) as S. split; [now apply slash_begins|]. split; [discriminate|].
    intros s tail [As Hs] i prev rest nodes r _. destruct t as [|d t]; [easy|]. cbn in S. subst d. cbn [app].
    start As Hs. edestruct (escape_reads _ _ (S i) (Some "\"%char) rest nodes (s_mod :: tail ++ r) H) as (i' & p' & E).
    cbn [tl] in E. rewrite E. do 3 eexists. split; [apply same_refl|reflexivity].
  - intros t n H. pose proof (class_slash _ _ H) as S. split; [now apply slash_begins|]. split; [discriminate|].
    intros s tail [As Hs] i prev rest nodes r _. destruct t as [|d t]; [easy|]. cbn in S. subst d. cbn [app].
    start As Hs. edestruct (class_reads _ _ (S i) (Some "\"%char) rest nodes (s_mod :: tail ++ r) H) as (i' & p' & E).
    cbn [tl] in E. rewrite E. do 3 eexists. split; [apply same_refl|reflexivity].
  - intros t l Hh H. split; [reflexivity|]. split; [discriminate|].
    intros s tail [As Hs] i prev rest nodes r _. texts. start As Hs. erewrite parse_act by reflexivity.
    rewrite <- app_assoc. texts.
    edestruct (set_body_reads _ _ _ _ H set_begin_or_neg 0) as (i1 & p1 & E1); [reflexivity|now intros _|].
    cbn [repeat app] in E1. rewrite E1. advance. do 3 eexists. split; [apply same_refl|reflexivity].
  - intros t l H. split; [reflexivity|]. split; [discriminate|].
    intros s tail [As Hs] i prev rest nodes r _. texts. start As Hs. erewrite parse_act by reflexivity.
    advance. rewrite <- app_assoc. texts.
    edestruct (set_body_reads _ _ _ _ H set_begin 0) as (i1 & p1 & E1); [reflexivity|discriminate|].
    cbn [repeat app] in E1. rewrite E1. erewrite parse_act by reflexivity. advance.
    do 3 eexists. split; [apply same_refl|reflexivity].
  - intros o F t n Ho _ Hb. now apply group_reads.
  - intros d ds Hd Hz Hds. split; [reflexivity|]. split; [discriminate|].
    intros s tail [As Hs] i prev rest nodes r Hf. texts. start As Hs.
    destruct (digit_not_escape d Hd) as [E1 E2].
    apply Ascii.eqb_neq in Hz.
    erewrite parse_advance; [|reflexivity|cbn [rule]; unfold handle_escape_sequence; rewrite E1, E2, Hz, Hd; reflexivity].
    cbn [app]. destruct (id_reads ds Hds (digit_value d) (S (S i)) (Some d) rest nodes (s_mod :: tail ++ r) Hf) as (i' & p' & E).
    exists i', p', (Backref (size_t (decimal (d :: ds)))). split; [apply same_refl|].
    now rewrite E, digits_value.
  - intros nm H. destruct nm as [|c nm]; [discriminate|]. cbn [valid_name forallb] in H.
    rewrite !Bool.andb_true_iff, Bool.negb_true_iff in H. destruct H as (Hd & Hc & Hw).
    split; [reflexivity|]. split; [discriminate|]. intros s tail [As Hs] i prev rest nodes r _.
    texts. start As Hs. do 2 advance.
    erewrite parse_advance; [|reflexivity|cbn [rule]; now apply begin_name_ok].
    cbn [app]. rewrite <- app_assoc.
    edestruct (name_reads backref_name_seq (fun _ => eq_refl)) with (nm := nm) (chars := [c]) as (i' & p' & E); [|exact Hw|].
    { intros chars d Hd'. cbn [rule]. now rewrite Hd'. }
    rewrite E. cbn [app]. advance. erewrite parse_act by reflexivity.
    do 3 eexists. split; [apply same_refl|reflexivity].
  - exact anchor_reads.
  - intros f t n t' f' n' _ (Bt & Ff & Rt) _ Rs. split; [now apply begins_app|].
    intros s tail Hs i prev rest nodes r Hq Hf. rewrite <- app_assoc.
    destruct (Rs rest Hq Hf) as [Hf' Rs']. specialize (Hf' Ff).
    destruct (Rt s tail Hs i prev (t' ++ rest) nodes r Hf') as (i1 & p1 & x & Sx & E). rewrite E.
    now apply Rs'.
  - intros f n rest Hq Hf. split; [auto|]. intros i prev x nodes r Sx. cbn [app].
    exists i, prev, x. split; [exact Sx|]. now apply mod_stops.
  - intros f n q lo hi md Hb rest Hq _. split.
    + intros Hf. destruct (bounds_not_digit _ _ _ Hb) as [Hn Hd]. destruct q as [|c q]; [easy|].
      destruct f; [exact I|exact Hd|easy].
    + intros i prev x nodes r Sx. rewrite <- app_assoc.
      edestruct (bounds_read q lo hi Hb) as (i1 & p1 & E1). rewrite E1.
      edestruct (mode_reads md lo hi) as (i2 & p2 & E2); [exact Hq|]. rewrite E2.
      do 3 eexists. split; [|reflexivity]. now apply same_rep.
  - intros f n t1 f1 n1 t2 f2 n2 t3 f3 n3 _ R1 _ R2 _ R3 Hd rest Hq Hf. cbn [allows] in Hf. split.
    + intros Hne. destruct f; [exact I|reflexivity|easy].
    + destruct (R3 rest Hf) as (Q3 & F3 & R3'). destruct (R2 _ Q3 F3) as (Q2 & F2 & R2').
      destruct (R1 _ Q2 F2) as [_ R1'].
      intros i prev x nodes r Sx. texts. rewrite <- !app_assoc. advance.
      erewrite (parse_push _ _ _ _ _ _ [Act (push_literal "{"); s_mod; Act make_sequence; s_seq; s_alt]);
        [|reflexivity|].
      * cbn [app]. erewrite parse_act by reflexivity.
        destruct (R1' (S i) (Some "{"%char) (Lit "{") (x :: nodes) (Act make_sequence :: s_seq :: s_alt :: r)
          (same_refl _)) as (i1 & p1 & x1 & S1 & E1). rewrite E1.
        erewrite parse_act by apply build_cat.
        edestruct R2' as (i2 & p2 & x2 & S2 & E2); [apply same_cat; [exact Sx|exact S1]|]. rewrite E2.
        now apply R3'.
      * rewrite !app_assoc, <- (app_assoc t1). destruct (t1 ++ t2 ++ t3) as [|c u].
        -- cbn [app]. destruct rest as [|c rest]; [reflexivity|]. cbn in Hf. now subst c.
        -- cbn [app hd_error rule not_digit] in *. unfold begin_quantifier_value. now rewrite Hd.
  - intros f n rest He Hf. split; [now apply seq_end_quiet|]. split; [exact Hf|].
    intros i prev x nodes r Sx. exists i, prev, x. split; [exact Sx|]. now apply seq_stops.
  - intros f n t1 f1 n1 t2 f2 n2 _ [B1 R1] F1 _ R2 rest He Hf.
    destruct (R2 rest He Hf) as (Q2 & F2 & R2').
    rewrite <- app_assoc. split; [now apply begins_quiet|]. split; [now apply allows_app|].
    intros i prev x nodes r Sx.
    destruct (R1 s_seq _ starts_seq i prev (t2 ++ rest) (x :: nodes) r Q2 F2) as (i1 & p1 & x1 & S1 & E1).
    rewrite E1. cbn [app]. erewrite parse_act by apply build_cat. apply R2'. now apply same_cat.
  - intros f n rest He. split; [now apply alt_seq_end|]. split; [now apply end_allows|].
    intros i prev x nodes r Sx. exists i, prev, x. split; [exact Sx|]. now apply alt_stops.
  - intros f n t1 f1 n1 t2 f2 n2 _ [B1 R1] F1 _ R2 rest He.
    destruct (R2 rest He) as (Q2 & F2 & R2').
    texts. split; [now right|]. split; [now destruct f|].
    intros i prev x nodes r Sx. rewrite <- app_assoc. advance.
    destruct (R1 s_alt_seq [] starts_alt_seq (S i) (Some "|"%char) (t2 ++ rest) (x :: nodes)
      (Act make_alternation :: s_alt :: r) Q2 F2) as (i1 & p1 & x1 & S1 & E1).
    rewrite E1. cbn [app]. erewrite parse_act by apply build_or. apply R2'. now apply same_or.
  - intros f0 t0 n0 t1 f n _ [B0 R0] _ R1. split; [now apply begins_app|].
    intros s tail Hs i prev rest nodes r He Hf. destruct (R1 rest He Hf) as (Q1 & F1 & R1').
    rewrite <- app_assoc. destruct (R0 s _ Hs i prev (t1 ++ rest) nodes r Q1 F1) as (i1 & p1 & x1 & S1 & E1).
    rewrite E1. cbn [app]. now apply R1'.
  - left. split; reflexivity.
  - intros f1 t1 n1 t2 f n _ [B1 R1] _ R2. right. split; [now apply begins_app|].
    intros s tail Hs i prev rest nodes r He. destruct (R2 rest He) as (Q2 & F2 & R2').
    rewrite <- app_assoc. destruct (R1 s _ Hs i prev (t2 ++ rest) nodes r Q2 F2) as (i1 & p1 & x1 & S1 & E1).
    rewrite E1. cbn [app]. now apply R2'.
Qed.

(** A text of the grammar is accepted, with its tree. *)
Theorem pattern_parses p n : body p n -> parse p = P_ok (index_captures n).
Proof.
  intros H. apply syntax_reads in H. destruct H as [[-> ->]|[B R]]; [reflexivity|].
  destruct (R s_begin [] starts_begin 0 None [] [] [] I) as (i & prev & x & S & E).
  rewrite app_nil_r in E. unfold parse. rewrite E. cbn [app]. rewrite parse_end. cbn [accepted_tree].
  unfold index_captures. now rewrite (same_index _ _ _ S).
Qed.
