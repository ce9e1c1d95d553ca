(** Rewritings that keep the order of trial, and with it the matched ranges (C87):
    lists of ends up to repeated entries, and the loops over them. *)
From Verif Require Import Matcher Api Basics Safe Spec Paths Walk Calls Exact Actual Adequacy Equiv.
From Coq Require Import Lia.

(** The same ends, tried for the first time in the same order: whatever comes behind
    takes the same one of them. *)
Definition alike (l1 l2 : list nat) : Prop := forall p, find p l1 = find p l2.

Lemma alike_refl l : alike l l.
Proof. intros p. reflexivity. Qed.
Lemma alike_sym l1 l2 : alike l1 l2 -> alike l2 l1.
Proof. intros H p. now rewrite H. Qed.
Lemma alike_trans l1 l2 l3 : alike l1 l2 -> alike l2 l3 -> alike l1 l3.
Proof. intros H1 H2 p. now rewrite H1. Qed.
Lemma alike_eq l1 l2 : l1 = l2 -> alike l1 l2.
Proof. intros ->. apply alike_refl. Qed.

Lemma find_append {A} (p : A -> bool) l1 l2 :
  find p (l1 ++ l2) = match find p l1 with Some x => Some x | None => find p l2 end.
Proof. induction l1 as [|x l1 IH]; cbn; [reflexivity|]. now destruct (p x). Qed.

Definition found {A} (o : option A) : bool := match o with Some _ => true | None => false end.

Lemma find_flat {A B} (p : B -> bool) (f : A -> list B) l :
  find p (flat_map f l) = match find (fun x => found (find p (f x))) l with Some x => find p (f x) | None => None end.
Proof.
  induction l as [|x l IH]; cbn [flat_map find]; [reflexivity|]. rewrite find_append.
  destruct (find p (f x)) eqn:E; cbn [found]; [now rewrite E|exact IH].
Qed.

Lemma alike_app l1 l2 l1' l2' : alike l1 l1' -> alike l2 l2' -> alike (l1 ++ l2) (l1' ++ l2').
Proof. intros H1 H2 p. now rewrite !find_append, H1, H2. Qed.

Lemma alike_cons i l l' : alike l l' -> alike (i :: l) (i :: l').
Proof. intros H. apply (alike_app [i] l [i] l'); auto using alike_refl. Qed.

Lemma alike_flat_l f l l' : alike l l' -> alike (flat_map f l) (flat_map f l').
Proof. intros H p. rewrite !find_flat. now rewrite H. Qed.

Lemma alike_flat_r {A} (f g : A -> list nat) l : (forall x, In x l -> alike (f x) (g x)) ->
  alike (flat_map f l) (flat_map g l).
Proof.
  induction l as [|x l IH]; intros H; cbn; [apply alike_refl|].
  apply alike_app; [apply H; cbn; auto|]. apply IH. intros y Hy. apply H. cbn. auto.
Qed.

Lemma alike_flat f g l l' : alike l l' -> (forall x, In x l -> alike (f x) (g x)) ->
  alike (flat_map f l) (flat_map g l').
Proof.
  intros H1 H2. eapply alike_trans; [apply alike_flat_r; exact H2|]. now apply alike_flat_l.
Qed.

Lemma alike_in l l' : alike l l' -> forall j, In j l <-> In j l'.
Proof.
  assert (G : forall l l', alike l l' -> forall j, In j l -> In j l').
  { clear. intros l l' H j Hj. specialize (H (Nat.eqb j)). destruct (find (Nat.eqb j) l') as [k|] eqn:E.
    - apply find_some in E as [E1 E2]. apply Nat.eqb_eq in E2. congruence.
    - eapply find_none in H; eauto. rewrite Nat.eqb_refl in H. discriminate. }
  intros H j. split; apply G; auto using alike_sym.
Qed.

Lemma alike_hd l l' : alike l l' -> hd_error l = hd_error l'.
Proof.
  intros H. specialize (H (fun _ => true)).
  assert (E : forall m : list nat, find (fun _ => true) m = hd_error m) by (intros [|]; reflexivity).
  now rewrite !E in H.
Qed.

Lemma alike_nil l l' : alike l l' -> (l = [] <-> l' = []).
Proof. intros H. apply alike_hd in H. destruct l, l'; cbn in H; split; congruence. Qed.

Lemma find_incl (l l' : list nat) p : incl l l' -> find p l' = None -> find p l = None.
Proof.
  intros H E. destruct (find p l) as [j|] eqn:Ej; [|reflexivity]. apply find_some in Ej as [E1 E2].
  eapply find_none in E; [|apply H; exact E1]. congruence.
Qed.

(** Ends that were tried before. *)
Lemma alike_absorb l1 l2 l3 : incl l2 l1 -> alike (l1 ++ l2 ++ l3) (l1 ++ l3).
Proof.
  intros H p. rewrite !find_append. destruct (find p l1) eqn:E; [reflexivity|].
  now rewrite (find_incl l2 l1 p H E).
Qed.

Lemma alike_absorb_end l1 l2 : incl l2 l1 -> alike (l1 ++ l2) l1.
Proof. intros H. rewrite <- (app_nil_r l2). rewrite <- (app_nil_r l1) at 2. now apply alike_absorb. Qed.

(** Ends that are all the same. *)
Lemma alike_same (l : list nat) e : l <> [] -> (forall j, In j l -> j = e) -> alike l [e].
Proof.
  destruct l as [|x l]; [easy|]. intros _ H. assert (x = e) as -> by (apply H; cbn; auto).
  apply (alike_absorb_end [e] l). intros j Hj. rewrite (H j); cbn; auto.
Qed.

(** ** Loops *)

Section Loops.
  Variable s : list ascii.
  Local Notation L := (length s).

  Section Same.
    Variables f g : nat -> list nat.
    Hypothesis Hf : bounded s f.
    Hypothesis E : forall i, i <= L -> alike (f i) (g i).

    Lemma alike_times n : forall i, i <= L -> alike (times f n i) (times g n i).
    Proof.
      induction n as [|n IH]; intros i Hi; cbn [times]; [apply alike_refl|].
      apply alike_flat; auto. intros j Hj. apply Hf in Hj; auto. apply IH. lia.
    Qed.

    Lemma alike_more fu : forall b i, i <= L -> alike (more_first f fu b i) (more_first g fu b i).
    Proof.
      induction fu as [|fu IH]; intros b i Hi; cbn [more_first]; [apply alike_refl|]. destruct b as [n|].
      - destruct (N.eqb n 0); [apply alike_refl|]. apply alike_app; [|apply alike_refl].
        apply alike_flat; auto. intros j Hj. apply Hf in Hj; auto. apply IH. lia.
      - apply alike_app; [|apply alike_refl]. apply alike_flat; auto. intros j Hj. apply Hf in Hj; auto.
        destruct (Nat.eqb i j); [apply alike_refl|]. apply IH. lia.
    Qed.

    Lemma alike_fewer fu : forall b i, i <= L -> alike (fewer_first f fu b i) (fewer_first g fu b i).
    Proof.
      induction fu as [|fu IH]; intros b i Hi; cbn [fewer_first]; [apply alike_refl|]. destruct b as [n|].
      - destruct (N.eqb n 0); [apply alike_refl|]. apply alike_cons.
        apply alike_flat; auto. intros j Hj. apply Hf in Hj; auto. apply IH. lia.
      - apply alike_cons. apply alike_flat; auto. intros j Hj. apply Hf in Hj; auto.
        destruct (Nat.eqb i j); [apply alike_refl|]. apply IH. lia.
    Qed.

    Lemma alike_commit fu : forall b i, i <= L -> commit f fu b i = commit g fu b i.
    Proof.
      induction fu as [|fu IH]; intros b i Hi; cbn [commit]; [reflexivity|].
      pose proof (alike_hd _ _ (E i Hi)) as H. pose proof (Hf i) as Hm.
      destruct (f i) as [|j l], (g i) as [|j' l']; cbn in H; try discriminate; [reflexivity|].
      injection H as <-. assert (Hj : j <= L) by (destruct (Hm j Hi); cbn; auto).
      destruct b; [destruct (N.eqb n 0)|destruct (Nat.eqb i j)]; auto.
    Qed.
  End Same.

  (** One loop, with fewer or more iterations first. *)
  Definition loop (e : bool) (f : nat -> list nat) (b : quantifier) (i : nat) : list nat :=
    if e then lazy_paths s f b i else greedy_paths s f b i.

  Definition less (b : quantifier) : quantifier := match b with Fin n => Fin (n - 1) | Inf => Inf end.

  (** The order of a further iteration and of none. *)
  Definition choose (e : bool) (more none : list nat) : list nat := if e then none ++ more else more ++ none.

  Lemma choose_alike e a a' b b' : alike a a' -> alike b b' -> alike (choose e a b) (choose e a' b').
  Proof. intros. destruct e; cbn; now apply alike_app. Qed.

  Section Laws.
    Variable f : nat -> list nat.
    Hypothesis Hf : bounded s f.
    Variable e : bool.

    Lemma loop_bounded b : bounded s (loop e f b).
    Proof. unfold loop. destruct e; [now apply lazy_bounded|now apply greedy_bounded]. Qed.

    Lemma loop_0 i : loop e f (Fin 0) i = [i].
    Proof. unfold loop. destruct e; reflexivity. Qed.

    (** The ends behind at least one iteration that moves. *)
    Definition on (i : nat) : list nat := flat_map (fun j => if Nat.eqb i j then [] else loop e f Inf j) (f i).

    Lemma star_unfold i : i <= L -> loop e f Inf i = choose e (on i) [i].
    Proof.
      intros Hi. unfold on, loop, choose. destruct e.
      - now rewrite lazy_paths_unfold.
      - now rewrite greedy_paths_unfold.
    Qed.

    Lemma on_later i j : i <= L -> In j (on i) -> i < j <= L.
    Proof.
      intros Hi H. apply in_flat_map in H as (k & Hk & Hj). destruct (Nat.eqb_spec i k); [easy|].
      apply Hf in Hk; auto. apply loop_bounded in Hj; lia.
    Qed.

    Lemma on_in i : i <= L -> incl (on i) (loop e f Inf i).
    Proof. intros Hi. rewrite star_unfold by assumption. unfold choose. destruct e; auto using incl_appl, incl_appr, incl_refl. Qed.

    Lemma choose_in a b : incl a (choose e a b) /\ incl b (choose e a b).
    Proof. unfold choose. destruct e; split; auto using incl_appl, incl_appr, incl_refl. Qed.

    (** An iteration first, whether it moves or not. *)
    Lemma step_unfold b i : i <= L -> b <> Fin 0 ->
      alike (loop e f b i) (choose e (flat_map (loop e f (less b)) (f i)) [i]).
    Proof.
      intros Hi Hb. destruct b as [n|].
      - apply alike_eq. unfold loop, choose, less.
        assert (En : N.eqb n 0 = false) by (apply N.eqb_neq; congruence).
        destruct e; [rewrite lazy_paths_unfold by assumption|rewrite greedy_paths_unfold by assumption]; now rewrite En.
      - cbn [less]. rewrite star_unfold by assumption. intros p.
        set (g := fun j => if Nat.eqb i j then [] else loop e f Inf j).
        assert (Ei : find p (loop e f Inf i) = find p (choose e (on i) [i])) by now rewrite star_unfold.
        assert (A : forall l,
          match find p (flat_map g l) with
          | Some v => find p (loop e f Inf i) = Some v \/ find p (loop e f Inf i) = None ->
                      find p (flat_map (loop e f Inf) l) = Some v
          | None => find p (flat_map (loop e f Inf) l) = None
                    \/ find p (flat_map (loop e f Inf) l) = find p (loop e f Inf i)
          end).
        { induction l as [|j l IH]; [cbn; auto|]. cbn [flat_map]. rewrite !find_append.
          unfold g at 1. destruct (Nat.eqb_spec i j) as [<-|Hne].
          - cbn [find]. destruct (find p (flat_map g l)) as [v|].
            + intros [E|E]; rewrite E; auto.
            + destruct (find p (loop e f Inf i)) as [v|]; auto.
          - destruct (find p (loop e f Inf j)) as [v|]; auto. }
        specialize (A (f i)). unfold on in *. fold g in Ei |- *. unfold choose in *.
        destruct e; rewrite !find_append in *; cbn [find] in *.
        + destruct (p i); [reflexivity|]. rewrite Ei in A. destruct (find p (flat_map g (f i))) as [v|].
          * symmetry. auto.
          * destruct A; congruence.
        + rewrite Ei in A. destruct (find p (flat_map g (f i))) as [v|].
          * rewrite A; auto.
          * destruct (p i); destruct A as [A|A]; rewrite A; reflexivity.
    Qed.

    (** A loop behind itself. *)
    Lemma star_twice : forall n i, L - i <= n -> i <= L ->
      alike (flat_map (loop e f Inf) (loop e f Inf i)) (loop e f Inf i)
      /\ alike (flat_map (loop e f Inf) (on i)) (on i).
    Proof.
      induction n as [n IH] using lt_wf_ind. intros i Hn Hi.
      assert (O : alike (flat_map (loop e f Inf) (on i)) (on i)).
      { unfold on. rewrite Equiv.flat_map_flat_map. apply alike_flat_r. intros j Hj. destruct (Nat.eqb_spec i j); [apply alike_refl|].
        apply Hf in Hj; auto. apply (IH (L - j)); lia. }
      split; [|exact O]. set (G := loop e f Inf) in *. pose proof (star_unfold i Hi) as S. fold G in S.
      assert (I : incl (on i) (G i)) by now apply on_in. clearbody G. rewrite S at 1. unfold choose. destruct e.
      - rewrite flat_map_app. cbn [flat_map]. rewrite app_nil_r. apply alike_absorb_end.
        intros j Hj. apply I. now apply (alike_in _ _ O).
      - rewrite flat_map_app. cbn [flat_map]. rewrite app_nil_r. eapply alike_trans.
        + apply alike_app; [exact O|apply alike_refl].
        + rewrite S. unfold choose. apply alike_absorb. apply incl_refl.
    Qed.
  End Laws.

  (** A loop over the same loop. *)
  Lemma star_star f e : bounded s f -> forall n i, L - i <= n -> i <= L ->
    alike (loop e (loop e f Inf) Inf i) (loop e f Inf i).
  Proof.
    intros Hf. induction n as [n IH] using lt_wf_ind. intros i Hn Hi.
    rewrite star_unfold by auto using loop_bounded. rewrite (star_unfold f) by assumption.
    apply choose_alike; [|apply alike_refl].
    assert (E : on (loop e f Inf) e i = flat_map (loop e (loop e f Inf) Inf) (on f e i)).
    { unfold on at 1. rewrite (star_unfold f) by assumption.
      assert (G : flat_map (fun j => if Nat.eqb i j then [] else loop e (loop e f Inf) Inf j) (on f e i)
                  = flat_map (loop e (loop e f Inf) Inf) (on f e i)).
      { apply flat_map_ext_in. intros j Hj. apply on_later in Hj; auto. destruct (Nat.eqb_spec i j); [lia|reflexivity]. }
      unfold choose. destruct e; rewrite flat_map_app; cbn [flat_map]; rewrite Nat.eqb_refl, G; cbn [app];
        rewrite ?app_nil_r; reflexivity. }
    rewrite E. eapply alike_trans.
    - apply alike_flat_r. intros j Hj. apply on_later in Hj; auto. apply (IH (L - j)); lia.
    - now apply (star_twice f Hf e (L - i)).
  Qed.
End Loops.
