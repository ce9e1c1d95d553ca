(** The trees of the grammar: the normal form that the parser produces. *)
From Verif Require Import Parser Basics.
From Coq Require Import Lia.

Definition is_seq (n : node) : bool := match n with Seq _ => true | _ => false end.
Definition is_alt (n : node) : bool := match n with Alt _ => true | _ => false end.

(** Items of a set: a character, a range, [\s] and the negated classes. *)
Inductive set_item := ILit (c : ascii) | IRange (a b : ascii) | ISpace
                | INotDigit | INotWord | INotBreak | INotSpace.

Definition item_nodes (i : set_item) : list node :=
  match i with
  | ILit c => [Lit c]
  | IRange a b => [Range a b]
  | ISpace => [n_linebreak; Lit " "; Lit "009"; Lit "011"; Lit "012"]
  | INotDigit => [Neg n_digit]
  | INotWord => [Neg n_word]
  | INotBreak => [Neg n_linebreak]
  | INotSpace => [Neg n_whitespace]
  end%char.

(** The items that give the elements of a set. *)
Fixpoint items_of (l : list node) : option (list set_item) :=
  let rest i r := match items_of r with Some is => Some (i :: is) | None => None end in
  match l with
  | [] => Some []
  | Lit c :: r => rest (ILit c) r
  | Range a b :: r => rest (IRange a b) r
  | Neg (Range a b) :: r => if Ascii.eqb a "0" && Ascii.eqb b "9" then rest INotDigit r else None
  | Neg (CSet [Range a1 b1; Range a2 b2; Range a3 b3; Lit c]) :: r =>
      if Ascii.eqb a1 "a" && Ascii.eqb b1 "z" && Ascii.eqb a2 "A" && Ascii.eqb b2 "Z"
         && Ascii.eqb a3 "0" && Ascii.eqb b3 "9" && Ascii.eqb c "_"
      then rest INotWord r else None
  | Neg (CSet [Lit a; Lit b]) :: r =>
      if Ascii.eqb a "010" && Ascii.eqb b "013" then rest INotBreak r else None
  | Neg (CSet [CSet [Lit a; Lit b]; Lit c; Lit d; Lit e; Lit f]) :: r =>
      if Ascii.eqb a "010" && Ascii.eqb b "013" && Ascii.eqb c " " && Ascii.eqb d "009"
         && Ascii.eqb e "011" && Ascii.eqb f "012"
      then rest INotSpace r else None
  | CSet [Lit a; Lit b] :: Lit c :: Lit d :: Lit e :: Lit f :: r =>
      if Ascii.eqb a "010" && Ascii.eqb b "013" && Ascii.eqb c " " && Ascii.eqb d "009"
         && Ascii.eqb e "011" && Ascii.eqb f "012"
      then rest ISpace r else None
  | _ => None
  end%char.

(** ** The trees of the grammar *)

Definition valid_name (nm : list ascii) : bool :=
  match nm with [] => false | c :: _ => negb (is_digit c) && forallb is_word nm end.

Definition set_ok (l : list node) : bool :=
  match items_of l with Some _ => true | None => false end.

Definition digit_range (a b : ascii) : bool := Ascii.eqb a "0" && Ascii.eqb b "9".

Fixpoint printable (n : node) : bool :=
  match n with
  | Range a b => digit_range a b
  | CSet l => set_ok l
  | Neg x =>
      match x with
      | WordB => true
      | Range a b => digit_range a b
      | CSet l => set_ok l
      | Look _ y => printable y
      | _ => false
      end
  | Seq l =>
      Nat.leb 2 (length l) && forallb (fun x => negb (is_seq x)) l && forallb printable l
  | Alt l =>
      Nat.leb 2 (length l) && negb (is_alt (hd Empty l)) && forallb printable l
  | Cap _ nm x => match nm with Some nm => valid_name nm | None => true end && printable x
  | Rep _ lo hi x =>
      N.ltb lo (2 ^ 64) && match hi with Fin h => N.ltb h (2 ^ 64) | Inf => true end && printable x
  | Backref id => N.ltb id (2 ^ 64)
  | NBackref nm => valid_name nm
  | Look _ x => printable x
  | _ => true
  end.

Lemma items_of_spec l : forall its, items_of l = Some its -> flat_map item_nodes its = l.
Proof.
  assert (G : forall m l, length l <= m -> forall its, items_of l = Some its -> flat_map item_nodes its = l);
    [|now apply (G (length l) l)].
  induction m as [|m IH]; intros l' Hl its H; [destruct l'; [injection H as <-; reflexivity|cbn in Hl; lia]|].
  assert (R : forall i r, length r <= m ->
    match items_of r with Some is => Some (i :: is) | None => None end = Some its ->
    flat_map item_nodes its = item_nodes i ++ r).
  { intros i r Hr Hi. destruct (items_of r) as [is|] eqn:E; [|discriminate]. injection Hi as <-.
    cbn [flat_map]. f_equal. now apply IH. }
  destruct l' as [|n r]; [injection H as <-; reflexivity|]. cbn [length] in Hl.
  cbn [items_of] in H.
  repeat match goal with
  | H : match ?x with _ => _ end = Some _ |- _ => is_var x; destruct x; try discriminate
  | H : (if ?b then _ else _) = Some _ |- _ => destruct b eqn:?; try discriminate
  end;
  repeat match goal with
  | H : (_ && _)%bool = true |- _ => apply andb_prop in H; destruct H
  | H : (_ == _) = true |- _ => apply Ascii.eqb_eq in H
  end; subst; cbn [length] in Hl; (eapply R in H; [exact H|lia]).
Qed.


Lemma items_of_app l1 : forall its1 l2 its2, items_of l1 = Some its1 -> items_of l2 = Some its2 ->
  items_of (l1 ++ l2) = Some (its1 ++ its2).
Proof.
  intros its1 l2 its2 H1 H2. apply items_of_spec in H1. subst l1.
  induction its1 as [|i is IH]; [exact H2|].
  destruct i; cbn [flat_map item_nodes app items_of Ascii.eqb Bool.eqb andb]; rewrite IH; reflexivity.
Qed.

Lemma set_ok_items its : set_ok (flat_map item_nodes its) = true.
Proof.
  unfold set_ok.
  assert (E : items_of (flat_map item_nodes its) = Some its); [|now rewrite E].
  induction its as [|i is IH]; [reflexivity|].
  destruct i; cbn [flat_map item_nodes app items_of Ascii.eqb Bool.eqb andb]; rewrite IH; reflexivity.
Qed.

Lemma set_ok_app l1 l2 : set_ok l1 = true -> set_ok l2 = true -> set_ok (l1 ++ l2) = true.
Proof.
  unfold set_ok. destruct (items_of l1) as [i1|] eqn:E1; [|discriminate].
  destruct (items_of l2) as [i2|] eqn:E2; [|discriminate]. intros _ _. now rewrite (items_of_app _ _ _ _ E1 E2).
Qed.

Lemma set_ok_tail c l : set_ok (Lit c :: l) = true -> set_ok l = true.
Proof. unfold set_ok. cbn [items_of]. now destruct (items_of l). Qed.

Lemma set_ok_lit c l : set_ok l = true -> set_ok (Lit c :: l) = true.
Proof. intros H. exact (set_ok_app [Lit c] l eq_refl H). Qed.

Lemma set_ok_range a b l : set_ok l = true -> set_ok (Range a b :: l) = true.
Proof. intros H. exact (set_ok_app [Range a b] l eq_refl H). Qed.
