(** Proof that a pattern without backreferences is matched with finite memory.

    The ends of a tree from an offset, in the order of trial, are found by a machine with
    finitely many states that reads the text from its end to its beginning ([machine],
    [computes]).  Zero-width tests of all kinds are labels of the offsets ([regular]): a
    label depends on the states of one machine that has read the text before the offset
    and of another one that has read the text after it.  The first end that satisfies a
    continuation is found by such a machine, and whether it exists is such a label, so
    lookarounds can be nested in all directions. *)
From Verif Require Import Matcher Api Basics Spec Paths Adequacy Walk Exact Actual Rewrites Calls.

(** ** Finite types *)

Record finite (T : Set) : Set := mk_finite {
  all : list T;
  all_in : forall x, In x all;
  eq_dec : forall x y : T, {x = y} + {x <> y}
}.
Arguments all {T}.
Arguments all_in {T}.
Arguments eq_dec {T}.

Definition fin_unit : finite unit.
Proof. refine (mk_finite unit [tt] _ _); [intros []; now left|decide equality]. Defined.

Definition fin_bool : finite bool.
Proof. refine (mk_finite bool [true; false] _ _); [intros []; cbn; auto|decide equality]. Defined.

Definition fin_option {T : Set} (f : finite T) : finite (option T).
Proof.
  refine (mk_finite (option T) (None :: map Some (all f)) _ _).
  - intros [x|]; [right; apply in_map, (all_in f)|now left].
  - decide equality. apply (eq_dec f).
Defined.

Definition fin_prod {T U : Set} (f : finite T) (g : finite U) : finite (T * U).
Proof.
  refine (mk_finite (T * U) (list_prod (all f) (all g)) _ _).
  - intros [x y]. apply in_prod; [apply (all_in f)|apply (all_in g)].
  - decide equality; [apply (eq_dec g)|apply (eq_dec f)].
Defined.

Definition fin_ascii : finite ascii.
Proof.
  refine (mk_finite ascii (map ascii_of_nat (seq 0 256)) _ ascii_dec).
  intros c. rewrite <- (ascii_nat_embedding c). apply in_map, in_seq.
  pose proof (nat_ascii_bounded c). lia.
Defined.

(** Tables: the functions from a finite type. *)
Fixpoint tuple (T : Set) (n : nat) : Set :=
  match n with 0 => unit | S n' => (T * tuple T n')%type end.

Fixpoint fin_tuple {T : Set} (f : finite T) (n : nat) : finite (tuple T n) :=
  match n with 0 => fin_unit | S n' => fin_prod f (fin_tuple f n') end.

Fixpoint pack {P T : Set} (f : P -> T) (l : list P) : tuple T (length l) :=
  match l with [] => tt | x :: r => (f x, pack f r) end.

Fixpoint find_in {P T : Set} (dec : forall x y : P, {x = y} + {x <> y}) (d : T) (l : list P) (a : P)
  : tuple T (length l) -> T :=
  match l with
  | [] => fun _ => d
  | x :: r => fun t => if dec a x then fst t else find_in dec d r a (snd t)
  end.

Lemma find_pack {P T : Set} dec (d : T) (f : P -> T) l a : In a l -> find_in dec d l a (pack f l) = f a.
Proof.
  induction l as [|x r IH]; [easy|]. intros H. cbn. destruct (dec a x) as [->|Hn]; [reflexivity|].
  apply IH. destruct H; [congruence|assumption].
Qed.

Definition table {P : Set} (fp : finite P) (T : Set) : Set := tuple T (length (all fp)).
Definition tab {P T : Set} (fp : finite P) (f : P -> T) : table fp T := pack f (all fp).
Definition entry {P T : Set} (fp : finite P) (d : T) (tb : table fp T) (a : P) : T :=
  find_in (eq_dec fp) d (all fp) a tb.

Lemma entry_tab {P T : Set} (fp : finite P) (d : T) f a : entry fp d (tab fp f) a = f a.
Proof. apply find_pack, all_in. Qed.

(** ** Machines *)

Definition orelse {V} (x y : option V) : option V := match x with Some _ => x | None => y end.

(** The first success of a continuation over a list of ends. *)
Fixpoint scan {V} (k : nat -> option V) (l : list nat) : option V :=
  match l with [] => None | j :: r => orelse (k j) (scan k r) end.

Record machine (A V : Set) : Type := mk_machine {
  St : Set;
  st_fin : finite St;
  init : St;
  upd : ascii -> A -> St -> option V -> St;
  out : St -> A -> option V -> option V
}.
Arguments St {A V}.
Arguments st_fin {A V}.
Arguments init {A V}.
Arguments upd {A V}.
Arguments out {A V}.

Fixpoint state {A V : Set} (M : machine A V) (a : nat -> A) (k : nat -> option V) (i : nat) (w : list ascii)
  : St M :=
  match w with
  | [] => init M
  | c :: w' => upd M c (a (S i)) (state M a k (S i) w') (k (S i))
  end.

(** The state at an offset. *)
Definition st {A V : Set} (M : machine A V) a k (t : list ascii) (i : nat) : St M := state M a k i (skipn i t).

Lemma skipn_cons {T} (l : list T) i c : nth_error l i = Some c -> skipn i l = c :: skipn (S i) l.
Proof.
  revert i. induction l as [|x r IH]; intros [|i] H; cbn in H |- *; try discriminate; [congruence|].
  apply (IH i H).
Qed.

Lemma st_end {A V : Set} (M : machine A V) a k t i : length t <= i -> st M a k t i = init M.
Proof. intros H. unfold st. now rewrite skipn_all2. Qed.

Lemma st_step {A V : Set} (M : machine A V) a k t i c : nth_error t i = Some c ->
  st M a k t i = upd M c (a (S i)) (st M a k t (S i)) (k (S i)).
Proof. intros H. unfold st. now rewrite (skipn_cons t i c H). Qed.

Lemma down_ind {T} (t : list T) (P : nat -> Prop) :
  (forall i, length t <= i -> P i) ->
  (forall i c, nth_error t i = Some c -> i < length t -> P (S i) -> P i) -> forall i, P i.
Proof.
  intros H0 H1 i. remember (length t - i) as d eqn:E. revert i E.
  induction d as [|d IH]; intros i E; [apply H0; lia|].
  destruct (nth_error t i) as [c|] eqn:Ec.
  - apply (H1 i c Ec); [lia|]. apply IH. lia.
  - apply nth_error_None in Ec. lia.
Qed.

Lemma st_ext {A V : Set} (M : machine A V) a k k' t i : i <= length t ->
  (forall j, i < j <= length t -> k j = k' j) -> st M a k t i = st M a k' t i.
Proof.
  revert i. refine (down_ind t _ _ _).
  - intros i H _ _. now rewrite !st_end.
  - intros i c Hc Hi IH _ Hk. rewrite !(st_step _ _ _ _ _ _ Hc). rewrite IH, Hk; auto; try lia.
    intros j Hj. apply Hk. lia.
Qed.

Definition family : Type := list ascii -> nat -> list nat.

(** [M] finds the first success of every continuation over the ends of [F]. *)
Definition computes {A V : Set} (ann : list ascii -> nat -> A) (F : family) (M : machine A V) : Prop :=
  forall t k i, i <= length t -> scan k (F t i) = out M (st M (ann t) k t i) (ann t i) (k i).

Definition inside (F : family) : Prop :=
  forall t i j, i <= length t -> In j (F t i) -> i <= j <= length t.

(** ** Labels *)

Definition regular {A : Set} (ann : list ascii -> nat -> A) : Type :=
  {P : Set & {Q : Set & {fp : finite P & {fq : finite Q & {p0 : P & {pstep : P -> ascii -> P
  & {q0 : Q & {qstep : ascii -> Q -> Q & {g : P -> Q -> A
  | forall t i, i <= length t ->
      ann t i = g (fold_left pstep (firstn i t) p0) (fold_right qstep q0 (skipn i t))}}}}}}}}}.

Lemma regular_ext {A : Set} (a b : list ascii -> nat -> A) :
  (forall t i, i <= length t -> a t i = b t i) -> regular a -> regular b.
Proof.
  intros H (P & Q & fp & fq & p0 & ps & q0 & qs & g & Hg).
  exists P, Q, fp, fq, p0, ps, q0, qs, g. intros t i Hi. rewrite <- H by assumption. auto.
Qed.

Lemma regular_map {A B : Set} (f : A -> B) a : regular a -> regular (fun t i => f (a t i)).
Proof.
  intros (P & Q & fp & fq & p0 & ps & q0 & qs & g & Hg).
  exists P, Q, fp, fq, p0, ps, q0, qs, (fun p q => f (g p q)). intros t i Hi. now rewrite Hg.
Qed.

Lemma fold_left_pair {P P'} (f : P -> ascii -> P) (f' : P' -> ascii -> P') l p p' :
  fold_left (fun x c => (f (fst x) c, f' (snd x) c)) l (p, p') = (fold_left f l p, fold_left f' l p').
Proof. revert p p'. induction l as [|c r IH]; intros; cbn; auto. Qed.

Lemma fold_right_pair {P P'} (f : ascii -> P -> P) (f' : ascii -> P' -> P') l p p' :
  fold_right (fun c x => (f c (fst x), f' c (snd x))) (p, p') l = (fold_right f p l, fold_right f' p' l).
Proof. induction l as [|c r IH]; cbn; [reflexivity|]. now rewrite IH. Qed.

Lemma regular_pair {A B : Set} (a : list ascii -> nat -> A) (b : list ascii -> nat -> B) :
  regular a -> regular b -> regular (fun t i => (a t i, b t i)).
Proof.
  intros (P & Q & fp & fq & p0 & ps & q0 & qs & g & Hg)
         (P' & Q' & fp' & fq' & p0' & ps' & q0' & qs' & g' & Hg').
  exists (P * P')%type, (Q * Q')%type, (fin_prod fp fp'), (fin_prod fq fq'), (p0, p0'),
    (fun x c => (ps (fst x) c, ps' (snd x) c)), (q0, q0'), (fun c x => (qs c (fst x), qs' c (snd x))),
    (fun p q => (g (fst p) (fst q), g' (snd p) (snd q))).
  intros t i Hi. rewrite fold_left_pair, fold_right_pair. cbn. now rewrite Hg, Hg'.
Qed.

Lemma regular_rev {A : Set} (a : list ascii -> nat -> A) :
  regular a -> regular (fun t i => a (rev t) (length t - i)).
Proof.
  intros (P & Q & fp & fq & p0 & ps & q0 & qs & g & Hg).
  exists Q, P, fq, fp, q0, (fun q c => qs c q), p0, (fun c p => ps p c), (fun q p => g p q).
  intros t i Hi. rewrite Hg by (rewrite rev_length; lia). f_equal.
  - rewrite firstn_rev. replace (length t - (length t - i)) with i by lia.
    rewrite <- (rev_involutive (skipn i t)) at 2. now rewrite fold_left_rev_right.
  - rewrite skipn_rev. replace (length t - (length t - i)) with i by lia.
    apply fold_left_rev_right.
Qed.

Lemma regular_const {A : Set} (x : A) : regular (fun _ _ => x).
Proof.
  exists unit, unit, fin_unit, fin_unit, tt, (fun p _ => p), tt, (fun _ q => q), (fun _ _ => x). easy.
Qed.

(** The characters around an offset. *)
Definition prev (t : list ascii) (i : nat) : option ascii :=
  match i with 0 => None | S j => nth_error t j end.

Lemma regular_prev : regular prev.
Proof.
  exists (option ascii), unit, (fin_option fin_ascii), fin_unit, None, (fun _ c => Some c), tt, (fun _ q => q),
    (fun p _ => p).
  intros t i Hi. destruct i as [|i]; [reflexivity|]. cbn [prev].
  destruct (nth_error t i) as [c|] eqn:E; [|apply nth_error_None in E; lia].
  assert (H : firstn (S i) t = firstn i t ++ [c]).
  { clear Hi. revert i E. induction t as [|x r IH]; intros [|i] E; cbn in E |- *; try discriminate.
    - congruence.
    - f_equal. apply (IH i E). }
  rewrite H, fold_left_app. reflexivity.
Qed.

Lemma regular_next : regular (fun t i => nth_error t i).
Proof.
  exists unit, (option ascii), fin_unit, (fin_option fin_ascii), tt, (fun p _ => p), None, (fun c _ => Some c),
    (fun _ q => q).
  intros t i Hi. destruct (nth_error t i) as [c|] eqn:E.
  - now rewrite (skipn_cons t i c E).
  - apply nth_error_None in E. now rewrite skipn_all2.
Qed.

(** The state of a machine fed with a constant is a label. *)
Lemma regular_state {A V : Set} (M : machine A V) ann v : regular ann ->
  regular (fun t i => st M (ann t) (fun _ => v) t i).
Proof.
  intros (P & Q & fp & fq & p0 & ps & q0 & qs & g & Hg).
  set (qs' := fun c (x : Q * table fp (St M)) =>
    (qs c (fst x), tab fp (fun p => upd M c (g (ps p c) (fst x)) (entry fp (init M) (snd x) (ps p c)) v))).
  set (q0' := (q0, tab fp (fun _ => init M))).
  exists P, (Q * table fp (St M))%type, fp, (fin_prod fq (fin_tuple (st_fin M) _)), p0, ps, q0', qs',
    (fun p x => entry fp (init M) (snd x) p).
  assert (H : forall w u, fst (fold_right qs' q0' w) = fold_right qs q0 w
    /\ entry fp (init M) (snd (fold_right qs' q0' w)) (fold_left ps u p0)
       = state M (ann (u ++ w)) (fun _ => v) (length u) w).
  { induction w as [|c w IH]; intros u; cbn [fold_right state].
    - split; [reflexivity|]. unfold q0'. cbn [snd]. now rewrite entry_tab.
    - destruct (IH (u ++ [c])) as [E1 E2]. revert E1 E2.
      generalize (fold_right qs' q0' w). intros x E1 E2. unfold qs'. cbn [fst snd].
      split; [now rewrite E1|]. rewrite entry_tab, E1.
      rewrite <- app_assoc, fold_left_app, app_length in E2. cbn [fold_left app length] in E2.
      rewrite E2. rewrite Nat.add_1_r. f_equal.
      rewrite (Hg (u ++ c :: w) (S (length u))) by (rewrite app_length; cbn; lia).
      replace (u ++ c :: w) with ((u ++ [c]) ++ w) by (rewrite <- app_assoc; reflexivity).
      replace (S (length u)) with (length (u ++ [c])) by (rewrite app_length; cbn; lia).
      rewrite firstn_app, firstn_all, Nat.sub_diag, skipn_app, skipn_all, Nat.sub_diag.
      cbn [firstn skipn app]. now rewrite app_nil_r, fold_left_app. }
  intros t i Hi. destruct (H (skipn i t) (firstn i t)) as [_ E].
  rewrite firstn_skipn, firstn_length_le in E by assumption. symmetry. exact E.
Qed.

(** Whether a label holds at an offset or later. *)
Lemma regular_later (b : list ascii -> nat -> bool) : regular b ->
  {later : list ascii -> nat -> bool & (regular later
    * (forall t i, i <= length t -> (later t i = true <-> exists j, i <= j <= length t /\ b t j = true)))%type}.
Proof.
  intros Hb.
  set (M := mk_machine bool unit bool fin_bool false (fun _ a x _ => a || x) (fun _ _ v => v)).
  exists (fun t i => (fun p : bool * bool => fst p || snd p)
                       (b t i, st M (b t) (fun _ => None) t i)).
  split.
  { apply (regular_map (fun p : bool * bool => fst p || snd p) _
             (regular_pair _ _ Hb (regular_state M b None Hb))). }
  intros t i. revert i. refine (down_ind t _ _ _).
  - intros i H Hi. cbn [fst snd]. rewrite st_end by assumption. cbn [M init]. rewrite orb_false_r. split.
    + intros E. exists i. split; [lia|assumption].
    + intros (j & Hj & E). now replace i with j by lia.
  - intros i c Hc Hi IH _. cbn [fst snd] in *. rewrite (st_step M _ _ _ _ _ Hc). cbn [M upd].
    rewrite !orb_true_iff in *. rewrite IH by lia. split.
    + intros [E|(j & Hj & E)]; [exists i|exists j]; split; auto; lia.
    + intros (j & Hj & E). destruct (Nat.eq_dec i j) as [->|Hn]; [now left|right].
      exists j. split; [lia|assumption].
Qed.

(** ** Machines for the operations *)

Definition machinable (F : family) : Type :=
  {A : Set & {ann : list ascii -> nat -> A & (regular ann
    * (forall V : Set, finite V -> {M : machine A V | computes ann F M}))%type}}.

Lemma mach_ext F G : (forall t i, i <= length t -> F t i = G t i) -> machinable F -> machinable G.
Proof.
  intros H (A & ann & Hr & Hm). exists A, ann. split; [assumption|]. intros V fv.
  destruct (Hm V fv) as [M HM]. exists M. intros t k i Hi. rewrite <- H by assumption. now apply HM.
Qed.

Definition relabel {A B V : Set} (h : A -> B) (M : machine B V) : machine A V :=
  mk_machine A V (St M) (st_fin M) (init M) (fun c a => upd M c (h a)) (fun x a => out M x (h a)).

Lemma computes_relabel {A B V : Set} (h : A -> B) (M : machine B V) ann F :
  computes (fun t i => h (ann t i)) F M -> computes ann F (relabel h M).
Proof.
  intros H t k i Hi. rewrite (H t k i Hi). cbn [relabel out]. f_equal. clear Hi. revert i.
  refine (down_ind t _ _ _).
  - intros i Hi. now rewrite !st_end.
  - intros i c Hc _ IH. rewrite (st_step M _ _ _ _ _ Hc), (st_step (relabel h M) _ _ _ _ _ Hc).
    cbn [relabel upd]. now rewrite IH.
Qed.

(** Two families with the same labels. *)
Lemma mach_both F G : machinable F -> machinable G ->
  {A : Set & {ann : list ascii -> nat -> A & (regular ann
    * ((forall V : Set, finite V -> {M : machine A V | computes ann F M})
       * (forall V : Set, finite V -> {M : machine A V | computes ann G M})))%type}}.
Proof.
  intros (A & a & Ha & Hm) (B & b & Hb & Hn). exists (A * B)%type, (fun t i => (a t i, b t i)).
  split; [now apply regular_pair|]. split; intros V fv.
  - destruct (Hm V fv) as [M HM]. exists (relabel fst M). now apply computes_relabel.
  - destruct (Hn V fv) as [M HM]. exists (relabel snd M). now apply computes_relabel.
Qed.

Lemma scan_app {V} (k : nat -> option V) l l' : scan k (l ++ l') = orelse (scan k l) (scan k l').
Proof. induction l as [|x r IH]; cbn; [reflexivity|]. rewrite IH. now destruct (k x). Qed.

Lemma scan_flat {V} (k : nat -> option V) f l :
  scan k (flat_map f l) = scan (fun j => scan k (f j)) l.
Proof. induction l as [|x r IH]; cbn; [reflexivity|]. now rewrite scan_app, IH. Qed.

Lemma scan_ext {V} (k k' : nat -> option V) l : (forall j, In j l -> k j = k' j) -> scan k l = scan k' l.
Proof.
  induction l as [|x r IH]; intros H; cbn; [reflexivity|]. rewrite IH, (H x); auto; [now left|].
  intros j Hj. apply H. now right.
Qed.

Lemma scan_one {V} (k : nat -> option V) i : scan k [i] = k i.
Proof. cbn. now destruct (k i). Qed.

(** Zero-width tests. *)
Lemma mach_test (b : list ascii -> nat -> bool) : regular b ->
  machinable (fun t i => if b t i then [i] else []).
Proof.
  intros Hb. exists bool, b. split; [assumption|]. intros V fv.
  exists (mk_machine bool V unit fin_unit tt (fun _ _ x _ => x) (fun _ a v => if a then v else None)).
  intros t k i Hi. cbn [out]. destruct (b t i); [apply scan_one|reflexivity].
Qed.

Lemma mach_here : machinable (fun _ i => [i]).
Proof. apply (mach_ext (fun t i => if true then [i] else [])); [reflexivity|]. exact (mach_test _ (regular_const true)). Qed.

Lemma mach_none : machinable (fun _ _ => []).
Proof.
  apply (mach_ext (fun t i => if false then [i] else [])); [reflexivity|]. exact (mach_test _ (regular_const false)).
Qed.

(** One character. *)
Lemma mach_read p : machinable (fun t i => if char_at t p i then [S i] else []).
Proof.
  exists unit, (fun _ _ => tt). split; [apply regular_const|]. intros V fv.
  set (M := mk_machine unit V (option V) (fin_option fv) None
              (fun c _ _ v => if p c then v else None) (fun x _ _ => x)).
  exists M. intros t k i Hi. cbn [M out]. unfold char_at.
  destruct (nth_error t i) as [c|] eqn:Hc.
  - rewrite (st_step M _ _ _ _ _ Hc). cbn [M upd]. destruct (p c); [apply scan_one|reflexivity].
  - apply nth_error_None in Hc. now rewrite st_end.
Qed.

(** One after the other. *)
Lemma mach_then F G : inside F -> machinable F -> machinable G ->
  machinable (fun t i => flat_map (G t) (F t i)).
Proof.
  intros HF HmF HmG. destruct (mach_both F G HmF HmG) as (A & a & Ha & H1 & H2).
  exists A, a. split; [assumption|]. intros V fv.
  destruct (H1 V fv) as [M HM], (H2 V fv) as [N HN].
  set (C := mk_machine A V (St M * St N) (fin_prod (st_fin M) (st_fin N)) (init M, init N)
    (fun c l x v => (upd M c l (fst x) (out N (snd x) l v), upd N c l (snd x) v))
    (fun x l v => out M (fst x) l (out N (snd x) l v))).
  exists C. intros t k i Hi.
  set (K := fun j => out N (st N (a t) k t j) (a t j) (k j)).
  assert (E : forall i, st C (a t) k t i = (st M (a t) K t i, st N (a t) k t i)).
  { refine (down_ind t _ _ _).
    - intros j Hj. now rewrite !st_end.
    - intros j c Hc _ IH. rewrite (st_step C _ _ _ _ _ Hc), (st_step M _ _ _ _ _ Hc), (st_step N _ _ _ _ _ Hc).
      rewrite IH. reflexivity. }
  rewrite scan_flat, E. cbn [C out fst snd]. change (out N _ _ (k i)) with (K i).
  rewrite <- HM by assumption. apply scan_ext. intros j Hj. apply HN.
  apply (HF t i j Hi) in Hj. lia.
Qed.

(** One or the other. *)
Lemma mach_or F G : machinable F -> machinable G -> machinable (fun t i => F t i ++ G t i).
Proof.
  intros HmF HmG. destruct (mach_both F G HmF HmG) as (A & a & Ha & H1 & H2).
  exists A, a. split; [assumption|]. intros V fv.
  destruct (H1 V fv) as [M HM], (H2 V fv) as [N HN].
  set (C := mk_machine A V (St M * St N) (fin_prod (st_fin M) (st_fin N)) (init M, init N)
    (fun c l x v => (upd M c l (fst x) v, upd N c l (snd x) v))
    (fun x l v => orelse (out M (fst x) l v) (out N (snd x) l v))).
  exists C. intros t k i Hi.
  assert (E : forall i, st C (a t) k t i = (st M (a t) k t i, st N (a t) k t i)).
  { refine (down_ind t _ _ _).
    - intros j Hj. now rewrite !st_end.
    - intros j c Hc _ IH. rewrite (st_step C _ _ _ _ _ Hc), (st_step M _ _ _ _ _ Hc), (st_step N _ _ _ _ _ Hc).
      rewrite IH. reflexivity. }
  rewrite scan_app, E, HM, HN by assumption. reflexivity.
Qed.

(** The first end only, then [G]; without any end [H]. *)
Definition first_or (F G H : family) : family :=
  fun t i => match F t i with [] => H t i | j :: _ => G t j end.

Lemma mach_first_or F G H : inside F -> machinable F -> machinable G -> machinable H ->
  machinable (first_or F G H).
Proof.
  intros HF HmF HmG HmH.
  destruct (mach_both F G HmF HmG) as (A & a & Ha & H1 & H2).
  destruct HmH as (B & b & Hb & H3).
  exists (A * B)%type, (fun t i => (a t i, b t i)). split; [now apply regular_pair|]. intros V fv.
  destruct (H1 (option V) (fin_option fv)) as [M' HM'], (H2 V fv) as [N' HN'], (H3 V fv) as [O' HO'].
  apply (computes_relabel fst M' (fun t i => (a t i, b t i))) in HM'.
  apply (computes_relabel fst N' (fun t i => (a t i, b t i))) in HN'.
  apply (computes_relabel snd O' (fun t i => (a t i, b t i))) in HO'.
  set (l := fun t i => (a t i, b t i)) in *.
  set (M := relabel fst M') in *. set (N := relabel fst N') in *. set (O := relabel snd O') in *.
  clearbody M N O l. clear - HF HM' HN' HO'.
  set (C := mk_machine (A * B) V (St M * (St N * St O))
    (fin_prod (st_fin M) (fin_prod (st_fin N) (st_fin O))) (init M, (init N, init O))
    (fun c l x v => (upd M c l (fst x) (Some (out N (fst (snd x)) l v)),
                     (upd N c l (fst (snd x)) v, upd O c l (snd (snd x)) v)))
    (fun x l v => match out M (fst x) l (Some (out N (fst (snd x)) l v)) with
                  | Some r => r
                  | None => out O (snd (snd x)) l v
                  end)).
  exists C. intros t k i Hi.
  set (K := fun j => Some (out N (st N (l t) k t j) (l t j) (k j))).
  assert (E : forall i, st C (l t) k t i = (st M (l t) K t i, (st N (l t) k t i, st O (l t) k t i))).
  { refine (down_ind t _ _ _).
    - intros j Hj. now rewrite !st_end.
    - intros j c Hc _ IH. rewrite (st_step C _ _ _ _ _ Hc), (st_step M _ _ _ _ _ Hc), (st_step N _ _ _ _ _ Hc),
        (st_step O _ _ _ _ _ Hc).
      rewrite IH. reflexivity. }
  rewrite E. cbn [C out fst snd]. change (Some (out N _ _ (k i))) with (K i).
  rewrite <- HM', <- HO' by assumption. unfold first_or.
  pose proof (HF t i) as Hj. destruct (F t i) as [|j r]; [reflexivity|]. cbn [scan K orelse].
  apply HN'. specialize (Hj j Hi (or_introl eq_refl)). lia.
Qed.

(** ** Unbounded loops *)

(** Iterations that consume nothing are not continued. *)
Fixpoint loop_from (early : bool) (f : nat -> list nat) (fu i : nat) : list nat :=
  match fu with
  | 0 => []
  | S fu' =>
      let more := flat_map (fun j => if Nat.eqb i j then [] else loop_from early f fu' j) (f i) in
      if early then more ++ [i] else i :: more
  end.

Lemma mach_loop early F (fuel : list ascii -> nat -> nat) : inside F ->
  (forall t i, i <= length t -> length t - i < fuel t i) -> machinable F ->
  machinable (fun t i => loop_from early (F t) (fuel t i) i).
Proof.
  intros HF Hfu (A & a & Ha & H1). exists A, a. split; [assumption|]. intros V fv.
  destruct (H1 V fv) as [M HM].
  set (o := fun x l v => if early then orelse (out M x l None) v else orelse v (out M x l None)).
  set (C := mk_machine A V (St M) (st_fin M) (init M) (fun c l x v => upd M c l x (o x l v)) o).
  exists C. intros t k i Hi.
  set (K := fun j => out C (st C (a t) k t j) (a t j) (k j)).
  assert (E : forall i, st C (a t) k t i = st M (a t) K t i).
  { refine (down_ind t _ _ _).
    - intros j Hj. now rewrite !st_end.
    - intros j c Hc _ IH. rewrite (st_step C _ _ _ _ _ Hc), (st_step M _ _ _ _ _ Hc).
      rewrite <- IH. reflexivity. }
  assert (G : forall fu i, i <= length t -> length t - i < fu ->
    scan k (loop_from early (F t) fu i) = K i).
  { clear i Hi. induction fu as [|fu IH]; intros i Hi Hl; [lia|]. cbn [loop_from].
    set (more := flat_map _ _).
    assert (Em : scan k more = out M (st M (a t) K t i) (a t i) None).
    { unfold more. rewrite scan_flat.
      rewrite (scan_ext _ (fun j => if Nat.eqb i j then None else K j)).
      - rewrite HM by assumption. rewrite Nat.eqb_refl. f_equal. apply st_ext; [assumption|].
        intros j Hj. destruct (Nat.eqb_spec i j); [lia|reflexivity].
      - intros j Hj. apply (HF t i j Hi) in Hj. destruct (Nat.eqb_spec i j); [reflexivity|].
        apply IH; lia. }
    unfold K. cbn [C out]. unfold o. rewrite E, <- Em. destruct early.
    - rewrite scan_app, scan_one. reflexivity.
    - reflexivity. }
  apply G; auto.
Qed.

Lemma more_first_loop f fu i : more_first f fu Inf i = loop_from true f fu i.
Proof.
  revert i. induction fu as [|fu IH]; intros i; [reflexivity|]. cbn [more_first loop_from]. f_equal.
  apply flat_map_ext. intros j. destruct (Nat.eqb i j); auto.
Qed.

Lemma fewer_first_loop f fu i : fewer_first f fu Inf i = loop_from false f fu i.
Proof.
  revert i. induction fu as [|fu IH]; intros i; [reflexivity|]. cbn [fewer_first loop_from]. f_equal.
  apply flat_map_ext. intros j. destruct (Nat.eqb i j); auto.
Qed.

(** Possessive loops: each iteration by its first end. *)
Lemma mach_commit F (fuel : list ascii -> nat -> nat) : inside F ->
  (forall t i, i <= length t -> length t - i < fuel t i) -> machinable F ->
  machinable (fun t i => [commit (F t) (fuel t i) Inf i]).
Proof.
  intros HF Hfu (A & a & Ha & H1). exists A, a. split; [assumption|]. intros V fv.
  destruct (H1 (option V) (fin_option fv)) as [M HM].
  set (o := fun x l v => match out M x l (Some v) with Some r => r | None => v end).
  set (C := mk_machine A V (St M) (st_fin M) (init M) (fun c l x v => upd M c l x (Some (o x l v))) o).
  exists C. intros t k i Hi. rewrite scan_one.
  set (K := fun j => out C (st C (a t) k t j) (a t j) (k j)).
  assert (E : forall i, st C (a t) k t i = st M (a t) (fun j => Some (K j)) t i).
  { refine (down_ind t _ _ _).
    - intros j Hj. now rewrite !st_end.
    - intros j c Hc _ IH. rewrite (st_step C _ _ _ _ _ Hc), (st_step M _ _ _ _ _ Hc).
      rewrite <- IH. reflexivity. }
  assert (G : forall fu i, i <= length t -> length t - i < fu -> k (commit (F t) fu Inf i) = K i).
  { clear i Hi. induction fu as [|fu IH]; intros i Hi Hl; [lia|]. cbn [commit].
    set (k' := fun j => if Nat.eqb i j then Some (k i) else Some (K j)).
    assert (Em : scan k' (F t i) = out M (st M (a t) (fun j => Some (K j)) t i) (a t i) (Some (k i))).
    { rewrite HM by assumption. unfold k'. rewrite Nat.eqb_refl. f_equal. apply st_ext; [assumption|].
      intros j Hj. destruct (Nat.eqb_spec i j); [lia|reflexivity]. }
    unfold K at 1. cbn [C out]. unfold o. rewrite E, <- Em.
    pose proof (HF t i) as Hj. destruct (F t i) as [|j r]; [reflexivity|]. cbn [scan k' orelse].
    unfold k'. specialize (Hj j Hi (or_introl eq_refl)).
    destruct (Nat.eqb_spec i j); cbn [orelse]; [reflexivity|]. apply IH; lia. }
  apply G; auto.
Qed.

(** ** Bounded loops *)

Lemma mach_times F n : inside F -> machinable F -> machinable (fun t => times (F t) n).
Proof.
  intros HF Hm. induction n as [|n IH]; cbn [times]; [apply mach_here|]. now apply mach_then.
Qed.

Lemma mach_more F : inside F -> machinable F -> forall fu n,
  machinable (fun t i => more_first (F t) fu (Fin n) i).
Proof.
  intros HF Hm. induction fu as [|fu IH]; intros n; cbn [more_first]; [apply mach_none|].
  destruct (N.eqb n 0); [apply mach_here|].
  apply (mach_or (fun t i => flat_map (more_first (F t) fu (Fin (n - 1))) (F t i)) (fun _ i => [i]));
    [|apply mach_here]. now apply (mach_then F (fun t i => more_first (F t) fu (Fin (n - 1)) i)).
Qed.

Lemma mach_fewer F : inside F -> machinable F -> forall fu n,
  machinable (fun t i => fewer_first (F t) fu (Fin n) i).
Proof.
  intros HF Hm. induction fu as [|fu IH]; intros n; cbn [fewer_first]; [apply mach_none|].
  destruct (N.eqb n 0); [apply mach_here|].
  apply (mach_or (fun _ i => [i]) (fun t i => flat_map (fewer_first (F t) fu (Fin (n - 1))) (F t i)));
    [apply mach_here|]. now apply (mach_then F (fun t i => fewer_first (F t) fu (Fin (n - 1)) i)).
Qed.

Lemma mach_commits F : inside F -> machinable F -> forall fu n,
  machinable (fun t i => [commit (F t) fu (Fin n) i]).
Proof.
  intros HF Hm. induction fu as [|fu IH]; intros n; cbn [commit]; [apply mach_here|].
  destruct (N.eqb n 0) eqn:En.
  - apply (mach_ext (fun _ i => [i])); [|apply mach_here]. intros t i _. now destruct (F t i).
  - apply (mach_ext (first_or F (fun t j => [commit (F t) fu (Fin (n - 1)) j]) (fun _ i => [i]))).
    + intros t i _. unfold first_or. now destruct (F t i).
    + now apply mach_first_or; [| |apply IH|apply mach_here].
Qed.

(** ** Trees *)

Lemma label_of F : machinable F ->
  regular (fun t i => match F t i with [] => false | _ => true end).
Proof.
  intros (A & a & Ha & H1). destruct (H1 unit fin_unit) as [M HM].
  apply (regular_ext (fun t i => (fun p : St M * A => match out M (fst p) (snd p) (Some tt) with Some _ => true | None => false end)
    (st M (a t) (fun _ => Some tt) t i, a t i))).
  - intros t i Hi. cbn [fst snd]. rewrite <- (HM t (fun _ => Some tt) i Hi). now destruct (F t i).
  - exact (regular_map (fun p : St M * A => match out M (fst p) (snd p) (Some tt) with Some _ => true | None => false end)
             _ (regular_pair _ _ (regular_state M a (Some tt) Ha) Ha)).
Qed.

(** What holds of all elements of a list, with evidence. *)
Fixpoint each {T} (P : T -> Type) (l : list T) : Type :=
  match l with [] => unit | x :: r => (P x * each P r)%type end.

Lemma each_app {T} (P : T -> Type) l l' : each P l -> each P l' -> each P (l ++ l').
Proof. induction l as [|x r IH]; [auto|]. intros [H1 H2] H. split; auto. Defined.

Lemma each_rev {T} (P : T -> Type) l : each P l -> each P (rev l).
Proof. induction l as [|x r IH]; [auto|]. intros [H1 H2]. cbn. apply each_app; auto. split; [assumption|exact tt]. Defined.

Lemma each_map {T U} (P : U -> Type) (f : T -> U) l : each (fun x => P (f x)) l -> each P (map f l).
Proof. induction l as [|x r IH]; [auto|]. intros [H1 H2]. split; auto. Defined.

Lemma each_if {T} (P : T -> Type) (b : T -> bool) l : each (fun x => b x = true -> P x) l -> forallb b l = true -> each P l.
Proof.
  induction l as [|x r IH]; [auto|]. intros [H1 H2] H. cbn in H. apply andb_true_iff in H as [A B].
  split; auto.
Defined.

Lemma mach_chain (Fs : list family) : Forall inside Fs -> each machinable Fs ->
  machinable (fun t => chain_paths (map (fun F => F t) Fs)).
Proof.
  induction Fs as [|F r IH]; intros Hi Hm; cbn [map chain_paths]; [apply mach_here|].
  destruct Hm as [Hm1 Hm2].
  pose proof (Forall_inv Hi). pose proof (Forall_inv_tail Hi).
  apply (mach_then F (fun t => chain_paths (map (fun F => F t) r))); auto.
Qed.

Lemma mach_choice (Fs : list family) : each machinable Fs ->
  machinable (fun t i => flat_map (fun F : family => F t i) Fs).
Proof.
  induction Fs as [|F r IH]; intros H; cbn [flat_map]; [apply mach_none|]. destruct H as [HF Hr]. specialize (IH Hr).
  apply (mach_or F (fun t i => flat_map (fun F : family => F t i) r)); assumption.
Qed.

Section Induction.
  Variable P : node -> Type.
  Hypotheses (H_Empty : P Empty) (H_BeginLine : P BeginLine) (H_BeginInput : P BeginInput)
    (H_EndLine : P EndLine) (H_EndInput : P EndInput) (H_WordB : P WordB) (H_Wild : P Wild)
    (H_Lit : forall c, P (Lit c)) (H_Range : forall a b, P (Range a b))
    (H_CSet : forall l, each P l -> P (CSet l)) (H_Neg : forall x, P x -> P (Neg x))
    (H_Seq : forall l, each P l -> P (Seq l)) (H_Alt : forall l, each P l -> P (Alt l))
    (H_Cap : forall id nm x, P x -> P (Cap id nm x))
    (H_Rep : forall md lo hi x, P x -> P (Rep md lo hi x))
    (H_Backref : forall id, P (Backref id)) (H_NBackref : forall nm, P (NBackref nm))
    (H_Look : forall d x, P x -> P (Look d x)).

  Fixpoint node_each (n : node) : P n :=
    let all_of := (fix all_of (l : list node) : each P l :=
      match l with [] => tt | x :: r => (node_each x, all_of r) end) in
    match n with
    | Empty => H_Empty
    | BeginLine => H_BeginLine
    | BeginInput => H_BeginInput
    | EndLine => H_EndLine
    | EndInput => H_EndInput
    | WordB => H_WordB
    | Wild => H_Wild
    | Lit c => H_Lit c
    | Range a b => H_Range a b
    | CSet l => H_CSet l (all_of l)
    | Neg x => H_Neg x (node_each x)
    | Seq l => H_Seq l (all_of l)
    | Alt l => H_Alt l (all_of l)
    | Cap id nm x => H_Cap id nm x (node_each x)
    | Rep md lo hi x => H_Rep md lo hi x (node_each x)
    | Backref id => H_Backref id
    | NBackref nm => H_NBackref nm
    | Look d x => H_Look d x (node_each x)
    end.
End Induction.

Section Trees.
  Variable cf : config.

  (** The ends of a tree in the text as it is read. *)
  Definition ends_of (left back : bool) (n : node) : family :=
    fun t i => W cf (side t left) left back n i.

  Lemma side_side left (t : list ascii) : side (side t left) left = t.
  Proof. destruct left; [apply rev_involutive|reflexivity]. Qed.

  Lemma ends_inside left back n : inside (ends_of left back n).
  Proof.
    intros t i j Hi Hj. unfold ends_of in Hj. apply W_bounded in Hj; rewrite side_side in *; assumption.
  Qed.

  (** A test of the text before and after an offset, in the text as it is read. *)
  Lemma mach_sided left (b : list ascii -> nat -> bool) : regular b ->
    regular (fun t i => b (side t left) (pos (side t left) left i)).
  Proof.
    intros Hb. destruct left; cbn [side pos]; [|assumption].
    apply (regular_ext (fun t i => b (rev t) (length t - i))); [|now apply regular_rev].
    intros t i Hi. now rewrite rev_length.
  Qed.

  Lemma regular_at p : regular (fun t i => char_at t p i).
  Proof.
    apply (regular_map (fun c : option ascii => match c with Some a => p a | None => false end) _ regular_next).
  Qed.

  Lemma regular_before p : regular (fun t i => char_before t p i).
  Proof.
    apply (regular_ext (fun t i => match prev t i with Some a => p a | None => false end)).
    - intros t [|i] Hi; reflexivity.
    - apply (regular_map (fun c : option ascii => match c with Some a => p a | None => false end) _ regular_prev).
  Qed.

  Lemma regular_first : regular (fun _ i => Nat.eqb i 0).
  Proof.
    apply (regular_ext (fun t i => match prev t i with Some _ => false | None => true end)).
    - intros t [|i] Hi; [reflexivity|]. cbn. destruct (nth_error t i) eqn:E; [reflexivity|].
      apply nth_error_None in E. lia.
    - apply (regular_map (fun c : option ascii => match c with Some _ => false | None => true end) _ regular_prev).
  Qed.

  Lemma regular_last : regular (fun t i => Nat.eqb i (length t)).
  Proof.
    apply (regular_ext (fun t i => match nth_error t i with Some _ => false | None => true end)).
    - intros t i Hi. destruct (nth_error t i) eqn:E.
      + assert (i < length t) by (apply nth_error_Some; congruence). destruct (Nat.eqb_spec i (length t)); lia || reflexivity.
      + apply nth_error_None in E. destruct (Nat.eqb_spec i (length t)); lia || reflexivity.
    - apply (regular_map (fun c : option ascii => match c with Some _ => false | None => true end) _ regular_next).
  Qed.

  Lemma regular_or a b : regular a -> regular b -> regular (fun t i => a t i || b t i).
  Proof.
    intros Ha Hb. apply (regular_map (fun p : bool * bool => fst p || snd p) _ (regular_pair _ _ Ha Hb)).
  Qed.

  Lemma regular_start : regular (fun t i => at_line_start cf t i).
  Proof.
    apply regular_or; [apply regular_first|]. apply (regular_map (andb (multiline cf)) _ (regular_before _)).
  Qed.
  Lemma regular_stop : regular (fun t i => at_line_end cf t i).
  Proof.
    apply regular_or; [apply regular_last|]. apply (regular_map (andb (multiline cf)) _ (regular_at _)).
  Qed.
  Lemma regular_word : regular (fun t i => at_word_boundary t i).
  Proof.
    apply (regular_map (fun p : bool * bool => xorb (fst p) (snd p)) _
             (regular_pair _ _ (regular_before is_word_char) (regular_at is_word_char))).
  Qed.

  Lemma mach_where left back n (b : list ascii -> nat -> bool) : regular b ->
    (forall s i, walk cf s left back n i = if b s i then [i] else []) ->
    machinable (ends_of left back n).
  Proof.
    intros Hb Hw. eapply mach_ext; [|apply (mach_test _ (mach_sided left b Hb))].
    intros t i Hi. unfold ends_of, W, seen. rewrite Hw. cbn beta.
    symmetry. apply seen_if. now rewrite side_length.
  Qed.

  Lemma mach_class left back n p :
    (forall s i, walk cf s left back n i = read_char s left p i) -> machinable (ends_of left back n).
  Proof.
    intros Hw. eapply mach_ext; [|apply (mach_read p)]. intros t i Hi. cbn beta.
    unfold ends_of, W. transitivity (seen (side t left) left (read_char (side t left) left p) i).
    - now rewrite seen_read, side_side.
    - unfold seen. now rewrite Hw.
  Qed.

  Theorem mach_tree n : backref_free n = true -> forall left back, machinable (ends_of left back n).
  Proof.
    induction n as [| | | | | | |c|a b|l H|n IHn|l H|l H|id nm n IHn|md lo hi n IHn|id|nm|d n IHn] using node_each;
      intros Hb left back; try discriminate Hb.
    - apply (mach_where left back _ (fun _ _ => true)); [apply regular_const|reflexivity].
    - destruct left.
      + apply (mach_where true back _ _ regular_stop). reflexivity.
      + apply (mach_where false back _ _ regular_start). reflexivity.
    - destruct left.
      + apply (mach_where true back _ _ regular_last). reflexivity.
      + apply (mach_where false back _ _ regular_first). reflexivity.
    - destruct left.
      + apply (mach_where true back _ _ regular_start). reflexivity.
      + apply (mach_where false back _ _ regular_stop). reflexivity.
    - destruct left.
      + apply (mach_where true back _ _ regular_first). reflexivity.
      + apply (mach_where false back _ _ regular_last). reflexivity.
    - apply (mach_where left back _ _ regular_word). reflexivity.
    - eapply mach_class. reflexivity.
    - eapply mach_class. reflexivity.
    - eapply mach_class. reflexivity.
    - eapply mach_class. reflexivity.
    - (* Neg *)
      destruct (is_class n) eqn:Hc.
      + apply (mach_class left back (Neg n) (accepts cf (Neg n))). intros s i. cbn [walk]. now rewrite Hc.
      + apply (mach_ext (first_or (ends_of left back n) (fun _ _ => []) (fun _ i => [i]))).
        * intros t i Hi. unfold first_or, ends_of.
          rewrite W_Neg by (try assumption; now rewrite side_length).
          now destruct (W cf (side t left) left back n i).
        * apply mach_first_or; [apply ends_inside|now apply IHn|apply mach_none|apply mach_here].
    - (* Seq *)
      cbn in Hb. pose proof (each_if _ _ _ H Hb) as Hl.
      apply (mach_ext (fun t => chain_paths (map (fun F => F t) (map (ends_of left back) (if back then rev l else l))))).
      + intros t i Hi. unfold ends_of at 2. rewrite W_Seq by now rewrite side_length. now rewrite map_map.
      + apply mach_chain; [apply Forall_map, Forall_forall; intros x Hx; apply ends_inside|].
        apply each_map. assert (Hm : each (fun x => machinable (ends_of left back x)) l).
        { clear -Hl. induction l as [|x r IH]; [exact tt|]. destruct Hl as [H1 H2]. split; auto. }
        destruct back; [now apply each_rev|assumption].
    - (* Alt *)
      cbn in Hb. pose proof (each_if _ _ _ H Hb) as Hl.
      apply (mach_ext (fun t i => flat_map (fun F : family => F t i) (map (ends_of left back) l))).
      + intros t i Hi. unfold ends_of at 2. rewrite W_Alt. rewrite flat_map_concat_map, map_map.
        now rewrite flat_map_concat_map.
      + apply mach_choice, each_map.
        clear -Hl. induction l as [|x r IH]; [exact tt|]. destruct Hl as [H1 H2]. split; auto.
    - (* Cap *)
      exact (IHn Hb left back).
    - (* Rep *)
      cbn in Hb. specialize (IHn Hb left back). pose proof (ends_inside left back n) as Hin.
      set (F := ends_of left back n) in *.
      assert (Ht : machinable (fun t => times (F t) (N.to_nat lo))) by now apply mach_times.
      assert (Hti : inside (fun t => times (F t) (N.to_nat lo))).
      { intros t i j Hi Hj. revert Hi Hj. apply (times_bounded t (F t)). intros i' j'. apply Hin. }
      assert (HL : forall early, machinable (fun t i => loop_from early (F t) (S (length t - i)) i)).
      { intros early. apply (mach_loop early F (fun t i => S (length t - i))); auto. }
      assert (Hmore : machinable (fun t i => greedy_paths t (F t) (remaining hi lo) i)).
      { unfold greedy_paths. destruct (remaining hi lo) as [m|]; cbn [bound_fuel].
        - now apply mach_more.
        - eapply mach_ext; [|apply (HL true)]. intros t i Hi. symmetry. apply more_first_loop. }
      assert (Hfewer : machinable (fun t i => lazy_paths t (F t) (remaining hi lo) i)).
      { unfold lazy_paths. destruct (remaining hi lo) as [m|]; cbn [bound_fuel].
        - now apply mach_fewer.
        - eapply mach_ext; [|apply (HL false)]. intros t i Hi. symmetry. apply fewer_first_loop. }
      assert (Hcommit : machinable (fun t i => [commit (F t) (any_fuel t (remaining hi lo)) (remaining hi lo) i])).
      { destruct (remaining hi lo) as [m|]; cbn [any_fuel].
        - now apply mach_commits.
        - apply (mach_commit F (fun t i => S (length t))); auto. intros. lia. }
      assert (Hlong : forall t, any_fuel (side t left) = any_fuel t).
      { intros t. unfold any_fuel. now rewrite side_length. }
      destruct md.
      + apply (mach_ext (fun t i => flat_map (fun i => if ungreedy cf then lazy_paths t (F t) (remaining hi lo) i
                            else greedy_paths t (F t) (remaining hi lo) i) (times (F t) (N.to_nat lo) i))).
        * intros t i Hi. unfold ends_of. rewrite W_Rep by now rewrite side_length. unfold rep_paths, loop_walk, loop_paths.
          now rewrite side_side.
        * destruct (ungreedy cf).
          -- apply (mach_then (fun t => times (F t) (N.to_nat lo)) _ Hti Ht Hfewer).
          -- apply (mach_then (fun t => times (F t) (N.to_nat lo)) _ Hti Ht Hmore).
      + apply (mach_ext (fun t i => flat_map (fun i => if ungreedy cf then greedy_paths t (F t) (remaining hi lo) i
                            else lazy_paths t (F t) (remaining hi lo) i) (times (F t) (N.to_nat lo) i))).
        * intros t i Hi. unfold ends_of. rewrite W_Rep by now rewrite side_length. unfold rep_paths, loop_walk, loop_paths.
          now rewrite side_side.
        * destruct (ungreedy cf).
          -- apply (mach_then (fun t => times (F t) (N.to_nat lo)) _ Hti Ht Hmore).
          -- apply (mach_then (fun t => times (F t) (N.to_nat lo)) _ Hti Ht Hfewer).
      + apply (mach_ext (first_or (fun t => times (F t) (N.to_nat lo))
                 (fun t i => [commit (F t) (any_fuel t (remaining hi lo)) (remaining hi lo) i]) (fun _ _ => []))).
        * intros t i Hi. unfold ends_of. rewrite W_Rep by now rewrite side_length. unfold rep_paths, loop_walk.
          rewrite Hlong. unfold first_or, F, ends_of. now destruct (times _ _ i).
        * apply mach_first_or; auto. apply mach_none.
    - (* Look *)
      cbn in Hb. specialize (IHn Hb (body_left left back d) (body_back back d)).
      pose proof (label_of _ IHn) as Hl.
      set (lb := fun t i => match ends_of (body_left left back d) (body_back back d) n t i with [] => false | _ => true end) in Hl.
      (* as a test of the text itself *)
      assert (Hs : regular (fun t i => lb (side t (body_left left back d)) (pos (side t (body_left left back d)) (body_left left back d) i)))
        by now apply mach_sided.
      apply (mach_ext (fun t i => if (fun s j => lb (side s (body_left left back d))
                        (pos (side s (body_left left back d)) (body_left left back d) j)) (side t left) (pos (side t left) left i)
                        then [i] else [])).
      + intros t i Hi. unfold ends_of. rewrite W_Look by now rewrite side_length. unfold lb, ends_of.
        rewrite side_side.
        replace (pos (side (side t left) (body_left left back d)) (body_left left back d) (pos (side t left) left i))
          with (pos (side t left) (body_left left back d) (pos (side t left) left i))
          by (unfold pos; rewrite !side_length; reflexivity).
        now destruct (W cf (side t left) (body_left left back d) (body_back back d) n _).
      + apply mach_test. apply (mach_sided left _ Hs).
  Qed.
End Trees.
