(** Patterns for one text (C31), and repetitions of a group (C32). *)
From Verif Require Import Matcher Api Parser Basics Safe Cong Impl Spec Paths Mirror Adequacy Calls
  Lift Matching Syntax Typing Shape Reading Accepted Print.
From Coq Require Import Lia.

(** ** Texts spelled out in a pattern *)

(** [spells p t]: the pattern [p] writes the characters of [t] one after the
    other, each as itself (when it is ordinary) or by an escape. *)
Inductive spells : text -> text -> Prop :=
| spell_end : spells [] []
| spell_char c p t : ordinary c = true -> spells p t -> spells (c :: p) (c :: t)
| spell_escape e c p t : escape e c -> spells p t -> spells (e ++ p) (c :: t).

Definition lits (t : text) : node :=
  match t with [] => Empty | [c] => Lit c | _ => Seq (map Lit t) end.

Lemma spells_more p t : spells p t -> forall n,
  more_items Anything n p Anything (match t with [] => n | _ => Seq (parts n ++ map Lit t) end).
Proof.
  assert (K : forall c (t : text) n, match t with [] => cat n (Lit c) | _ => Seq (parts (cat n (Lit c)) ++ map Lit t) end
    = Seq (parts n ++ map Lit (c :: t))).
  { intros c t' n. destruct t'; [reflexivity|]. unfold cat. cbn [parts map]. now rewrite <- app_assoc. }
  induction 1 as [|c p t Hc H IH|e c p t He H IH]; intros n; [constructor|..].
  - rewrite <- K. apply (m_item Anything n [c] Anything (Lit c)); [|exact I|apply IH].
    apply piece_item. now constructor.
  - rewrite <- K. apply (m_item Anything n e Anything (Lit c)); [|exact I|apply IH].
    apply piece_item. now constructor.
Qed.

Lemma spells_body p t : spells p t -> body p (lits t).
Proof.
  intros H. destruct H as [|c p t Hc H|e c p t He H]; [constructor|..]; eapply branch_body.
  - apply (b_items Anything [c] (Lit c)); [apply piece_item; now constructor|].
    pose proof (spells_more p t H (Lit c)) as M. destruct t; exact M.
  - apply (b_items Anything e (Lit c)); [apply piece_item; now constructor|].
    pose proof (spells_more p t H (Lit c)) as M. destruct t; exact M.
Qed.

Lemma index_lits t : index_captures (lits t) = lits t.
Proof.
  unfold index_captures, lits. destruct t as [|c [|d t]]; try reflexivity. rewrite index_Seq. f_equal.
  generalize 1%N. change (Lit c :: Lit d :: map Lit t) with (map Lit (c :: d :: t)).
  generalize (c :: d :: t). intros l. induction l as [|x l IH]; intros off; [reflexivity|].
  cbn [map index_list index capture_count]. now rewrite IH.
Qed.

Lemma spells_parse p t : spells p t -> parse p = P_ok (lits t).
Proof. intros H. rewrite <- (index_lits t). now apply pattern_parses, spells_body. Qed.

(** ** What such a pattern matches *)

(** Equal, or (when case is ignored) equal up to case. *)
Definition same_letter (ic : bool) (c a : ascii) : Prop := c = a \/ (ic = true /\ c = other_case a).

Lemma accepts_lit cf c a : accepts cf (Lit c) a = true <-> same_letter (icase cf) c a.
Proof.
  cbn [accepts]. unfold either_case, same_letter. rewrite orb_true_iff, andb_true_iff, !Ascii.eqb_eq. tauto.
Qed.

Lemma skipn_step {A} (l : list A) : forall i, skipn i l = match nth_error l i with Some x => x :: skipn (S i) l | None => [] end.
Proof.
  induction l as [|a l IH]; intros [|i]; try reflexivity. cbn [skipn nth_error]. apply IH.
Qed.

Lemma chain_lits cf s t : forall i j, i <= length s ->
  (chain (map (matches cf s) (map Lit t)) i j <->
   j = i + length t /\ exists a, firstn (length t) (skipn i s) = a /\ Forall2 (same_letter (icase cf)) t a).
Proof.
  induction t as [|c t IH]; intros i j Hi.
  - cbn [map chain length firstn]. split; [intros ->; split; [lia|]; eauto using Forall2_nil|lia].
  - cbn [map chain length]. rewrite (skipn_step s i). split.
    + intros (k & Hk & Hc). cbn [matches] in Hk. destruct Hk as [-> Hk]. unfold char_at in Hk.
      destruct (nth_error s i) as [a|] eqn:E; [|discriminate]. apply accepts_lit in Hk.
      assert (L : i < length s) by (apply nth_error_Some; congruence).
      apply IH in Hc; [|lia]. destruct Hc as (-> & r & Hr & Hf). split; [lia|].
      exists (a :: r). split; [|now constructor]. rewrite <- Hr. reflexivity.
    + intros (-> & a & Ha & Hf). destruct (nth_error s i) as [x|] eqn:E.
      2:{ cbn in Ha. subst. inversion Hf. }
      assert (L : i < length s) by (apply nth_error_Some; congruence).
      cbn [firstn] in Ha. subst a. inversion Hf as [|? ? ? ? Hx Hr]; subst.
      exists (S i). split.
      * cbn [matches]. split; [reflexivity|]. unfold char_at. rewrite E. now apply accepts_lit.
      * apply IH; [lia|]. split; [lia|]. eauto.
Qed.

Lemma matches_lits cf s t : matches cf s (lits t) 0 (length s) <-> Forall2 (same_letter (icase cf)) t s.
Proof.
  assert (E : matches cf s (lits t) 0 (length s) <-> chain (map (matches cf s) (map Lit t)) 0 (length s)).
  { destruct t as [|c [|d t]]; [reflexivity| |apply matches_Seq].
    cbn [lits map chain]. split; [intros H; eexists; split; [exact H|reflexivity]|].
    intros (k & H & <-). exact H. }
  rewrite E, chain_lits by lia. rewrite skipn_O. split.
  - intros (L & a & Ha & Hf). cbn in L. rewrite <- L, firstn_all in Ha. now subst.
  - intros H. pose proof (Forall2_length _ _ _ H) as L. split; [now rewrite L|].
    exists s. rewrite L, firstn_all. now split.
Qed.

Lemma lits_usable t fl ct : usable (mk_regex (lits t) fl) ct.
Proof.
  split; cbn [ast flags].
  - unfold compilable, lits. destruct t as [|c [|d t]]; [reflexivity..|].
    rewrite size_Seq. cbn [compiles map].
    change (Lit c :: Lit d :: map Lit t) with (map Lit (c :: d :: t)).
    apply forallb_forall. intros x Hx. apply in_map_iff in Hx. destruct Hx as (y & <- & _). reflexivity.
  - right. right. unfold lits. destruct t as [|c [|d t]]; [reflexivity..|].
    cbn [has_begin_line map]. cbn [existsb orb]. induction t; [reflexivity|exact IHt].
Qed.

Lemma lits_regular t : regular (lits t) = true /\ possessive_free (lits t) = true.
Proof.
  unfold lits. destruct t as [|c [|d t]]; [split; reflexivity..|].
  split; induction t as [|e t IH]; try reflexivity; exact IH.
Qed.

Theorem lits_match t fl ct s :
  returns (regex_match (mk_regex (lits t) fl) ct s) (fun res =>
    matched res = true <-> Forall2 (same_letter (flag_test fl F_icase)) t s).
Proof.
  destruct (lits_regular t) as [H1 H2].
  destruct (match_language (mk_regex (lits t) fl) ct s (lits_usable t fl ct) H1 H2) as (res & E & H).
  exists res. split; [exact E|]. rewrite H. cbn [ast flags]. apply matches_lits.
Qed.

Lemma same_text t s : Forall2 (same_letter false) t s <-> t = s.
Proof.
  split.
  - induction 1 as [|c a t s [->|[H _]] _ ->]; [reflexivity..|discriminate].
  - intros ->. induction s; constructor; [now left|assumption].
Qed.

Theorem spelled_match p t fl ct s : spells p t ->
  exists n, parse p = P_ok n
    /\ returns (regex_match (mk_regex n fl) ct s) (fun res =>
         matched res = true <-> Forall2 (same_letter (flag_test fl F_icase)) t s).
Proof. intros H. exists (lits t). split; [now apply spells_parse|apply lits_match]. Qed.

Theorem spelled_match_exact p t fl ct s : spells p t -> ~ In F_icase fl ->
  exists n, parse p = P_ok n
    /\ returns (regex_match (mk_regex n fl) ct s) (fun res => matched res = true <-> s = t).
Proof.
  intros H Hi. destruct (spelled_match p t fl ct s H) as (n & Hn & res & E & Hr).
  exists n. split; [exact Hn|]. exists res. split; [exact E|]. rewrite Hr.
  apply flag_test_not_In in Hi. rewrite Hi, same_text. split; congruence.
Qed.

(** All bytes in hexadecimal: [digits c] are two digits for the byte [c], in
    any of the spellings. *)
Definition in_hex (t : text) (digits : ascii -> ascii * ascii) : text :=
  flat_map (fun c => ["\"; "x"; fst (digits c); snd (digits c)]%char) t.

Definition hex_digits_of (digits : ascii -> ascii * ascii) : Prop := forall c, exists a b,
  In (fst (digits c), a) nibbles /\ In (snd (digits c), b) nibbles /\ N_of_ascii c = (16 * a + b)%N.

Lemma in_hex_spells t digits : hex_digits_of digits -> spells (in_hex t digits) t.
Proof.
  intros H. induction t as [|c t IH]; [constructor|]. cbn [in_hex flat_map].
  apply spell_escape; [|exact IH]. destruct (H c) as (a & b & Ha & Hb & E).
  rewrite <- (ascii_N_embedding c) at 3. rewrite E. now constructor.
Qed.

Lemma plain_spells t : forallb ordinary t = true -> spells t t.
Proof.
  induction t as [|c t IH]; [constructor|]. cbn. intros H. apply andb_prop in H. destruct H.
  constructor; auto.
Qed.

(** ** Repetitions (C32) *)

Lemma rep_parses f t x q lo hi md : piece f t x -> bounds q lo hi ->
  parse (t ++ q ++ mode_text md) = P_ok (Rep md lo hi (index_captures x)).
Proof.
  intros P B. rewrite (pattern_parses _ (Rep md lo hi x)); [reflexivity|].
  eapply branch_body, item_branch, i_unit; [exact P|now constructor].
Qed.

Lemma group_rep_parses b n q lo hi md : parse b = P_ok n -> bounds q lo hi ->
  parse (str "(?:" ++ b ++ str ")" ++ q ++ mode_text md) = P_ok (Rep md lo hi n).
Proof.
  intros P B. apply accepted_pattern in P. destruct P as (x & Hx & ->).
  rewrite <- (rep_parses _ _ _ _ _ _ md (wrap_piece b x Hx) B). f_equal. now rewrite <- !app_assoc.
Qed.

(** [q] is [{N}], [{N,}] or [{N,M}]: the numbers in it, and the counts that it
    allows. *)
Inductive counts : text -> list N -> (N -> Prop) -> Prop :=
| counts_exact ds : numeral_text ds ->
    counts (str "{" ++ ds ++ str "}") [decimal ds] (fun k => k = decimal ds)
| counts_least ds : numeral_text ds ->
    counts (str "{" ++ ds ++ str ",}") [decimal ds] (fun k => decimal ds <= k)%N
| counts_range ds es : numeral_text ds -> numeral_text es ->
    counts (str "{" ++ ds ++ str "," ++ es ++ str "}") [decimal ds; decimal es]
      (fun k => decimal ds <= k <= decimal es)%N.

Lemma counts_bounds q nums P : counts q nums P -> Forall (fun k => k < 2 ^ 64)%N nums ->
  exists lo hi, bounds q lo hi /\ forall k, allowed lo hi k <-> P (N.of_nat k).
Proof.
  intros H F. destruct H as [ds Hd|ds Hd|ds es Hd He].
  - inversion F as [|? ? F1 _]; subst. pose proof (bounds_exact ds Hd) as B.
    rewrite size_t_small in B by exact F1. do 2 eexists. split; [exact B|].
    intros k. unfold allowed. lia.
  - inversion F as [|? ? F1 _]; subst. pose proof (bounds_least ds Hd) as B.
    rewrite size_t_small in B by exact F1. do 2 eexists. split; [exact B|].
    intros k. unfold allowed. lia.
  - inversion F as [|? ? F1 F']; subst. inversion F' as [|? ? F2 _]; subst.
    pose proof (bounds_range ds es Hd He) as B.
    rewrite !size_t_small in B by assumption. do 2 eexists. split; [exact B|].
    intros k. unfold allowed. lia.
Qed.

Theorem counted_match b n q nums P md :
  parse b = P_ok n -> counts q nums P -> Forall (fun k => k < 2 ^ 64)%N nums ->
  exists r, parse (str "(?:" ++ b ++ str ")" ++ q ++ mode_text md) = P_ok r
    /\ forall fl ct s, usable (mk_regex r fl) ct -> regular r = true -> possessive_free r = true ->
         returns (regex_match (mk_regex r fl) ct s) (fun res =>
           matched res = true <->
           exists k, P (N.of_nat k) /\ iterate (matches (config_of fl ct) s n) k 0 (length s)).
Proof.
  intros Hb Hq F. destruct (counts_bounds q nums P Hq F) as (lo & hi & B & HP).
  exists (Rep md lo hi n). split; [now apply group_rep_parses|]. intros fl ct s U H1 H2.
  destruct (match_language _ _ s U H1 H2) as (res & E & H). exists res. split; [exact E|].
  rewrite H. cbn [ast flags matches]. split; intros (k & Hk & Hi); exists k; (split; [now apply HP|exact Hi]).
Qed.

(** Backreferences to groups by number. *)
Theorem numbered_backref d ds : is_digit d = true -> d <> "0"%char -> forallb is_digit ds = true ->
  (decimal (d :: ds) < 2 ^ 64)%N -> parse (str "\" ++ d :: ds) = P_ok (Backref (decimal (d :: ds))).
Proof.
  intros H1 H2 H3 H4. rewrite <- (size_t_small (decimal (d :: ds))) by exact H4.
  rewrite (pattern_parses _ (Backref (size_t (decimal (d :: ds))))); [reflexivity|].
  eapply branch_body, item_branch, piece_item. now constructor.
Qed.

(** Numbers of any size: they are read modulo 2^64. *)
Theorem counted_exactly b n ds es md : parse b = P_ok n -> numeral_text ds -> numeral_text es ->
  let lo := (decimal ds mod 2 ^ 64)%N in let hi := (decimal es mod 2 ^ 64)%N in
  let q := fun t => str "(?:" ++ b ++ str ")" ++ t ++ mode_text md in
  parse (q (str "{" ++ ds ++ str "}")) = P_ok (Rep md lo (Fin lo) n)
  /\ parse (q (str "{" ++ ds ++ str ",}")) = P_ok (Rep md lo Inf n)
  /\ parse (q (str "{" ++ ds ++ str "," ++ es ++ str "}")) = P_ok (Rep md lo (Fin hi) n).
Proof.
  intros Hb Hd He lo hi q. unfold q. split; [|split]; apply group_rep_parses; try exact Hb; now constructor.
Qed.

Theorem backref_exactly d ds : is_digit d = true -> d <> "0"%char -> forallb is_digit ds = true ->
  parse (str "\" ++ d :: ds) = P_ok (Backref (decimal (d :: ds) mod 2 ^ 64)).
Proof.
  intros H1 H2 H3.
  rewrite (pattern_parses _ (Backref (size_t (decimal (d :: ds))))); [reflexivity|].
  eapply branch_body, item_branch, piece_item. now constructor.
Qed.
