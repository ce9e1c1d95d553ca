(** Proofs about reading results (C53, C54). *)
From Verif Require Import Parser Api Views Calls Matching Basics Literal Spec.
From Coq Require Import Lia ZArith.

Lemma copy_range_slice s : forall k f b e, e = b + k -> k <= f -> e <= length s ->
  copy_range f s b e = Some (firstn k (skipn b s)).
Proof.
  induction k as [|k IH]; intros f b e -> Hf He.
  - destruct f; cbn [copy_range firstn]; replace (b + 0) with b by lia; now rewrite Nat.eqb_refl.
  - destruct f as [|f]; [lia|]. cbn [copy_range]. destruct (Nat.eqb_spec b (b + S k)); [lia|].
    destruct (nth_error s b) as [a|] eqn:A; [|apply nth_error_None in A; lia].
    rewrite (IH f (S b) (b + S k)) by lia.
    assert (D : skipn b s = a :: skipn (S b) s).
    { clear - A. revert b A. induction s as [|x s IHs]; intros [|b] A; try discriminate; cbn in *; [congruence|now apply IHs]. }
    now rewrite D.
Qed.

Lemma count_range_length len : forall k f b e, e = b + k -> k <= f -> e <= len ->
  count_range f len b e = Some (Z.of_nat k).
Proof.
  induction k as [|k IH]; intros f b e -> Hf He.
  - destruct f; cbn [count_range]; replace (b + 0) with b by lia; now rewrite Nat.eqb_refl.
  - destruct f as [|f]; [lia|]. cbn [count_range]. destruct (Nat.eqb_spec b (b + S k)); [lia|].
    destruct (Nat.ltb_spec b len); [|lia]. rewrite (IH f (S b) (b + S k)) by lia. cbn [option_map]. f_equal. lia.
Qed.

Lemma nth_slice (s : list ascii) b k j : j < k -> nth_error (firstn k (skipn b s)) j = nth_error s (b + j).
Proof.
  revert b. intros b H.
  assert (F : forall l : list ascii, nth_error (firstn k l) j = nth_error l j).
  { clear - H. revert k H. induction j as [|j IH]; intros [|k] H [|x l]; try lia; cbn; auto. apply IH. lia. }
  rewrite F. clear. revert s. induction b as [|b IH]; intros [|x s]; cbn; auto. now destruct j.
Qed.

(** ** Specification *)

(** [t] is the part of [s] that a capture denotes; nothing for a capture that was
    never set. *)
Definition denotes (s : list ascii) (v : cell) (t : list ascii) : Prop :=
  match v with
  | Some (b, e) => exists pre post, s = pre ++ t ++ post /\ length pre = b /\ length (pre ++ t) = e
  | None => t = []
  end.

(** Every way to read a capture gives [t]. *)
Definition reads_as (ly : layout) (s : list ascii) (v : cell) (t : list ascii) : Prop :=
  capture_content ly s v = Some t
  /\ capture_string_view s v = Some t
  /\ capture_stream s v = Some t
  /\ capture_length ly s v = Some (N.of_nat (length t))
  /\ (cell_is_empty v = true <-> t = [])
  /\ (forall j, j < length t -> capture_index s v j = nth_error t j)
  /\ owned_copy s v = Some t
  /\ (forall j, j < length t -> owned_index t j = nth_error t j).

(** The result of any call, or an element of a range or of a generator. *)
Inductive gives (r : regex) (ct : category) (s : list ascii) (res : match_res) : Prop :=
| of_match : regex_match r ct s = Returned res -> gives r ct s res
| of_prefix : regex_match_prefix r ct s = Returned res -> gives r ct s res
| of_search : regex_search r ct s = Returned res -> gives r ct s res
| of_tokenize l : tokenize r ct s = Returned l -> In res l -> gives r ct s res
| of_find_all l : find_all r ct s = Returned l -> In res l -> gives r ct s res
| of_tokenizer k l : tokenizer r ct s k = Returned l -> In res l -> gives r ct s res
| of_searcher k l : searcher r ct s k = Returned l -> In res l -> gives r ct s res.

(** ** Proofs *)

Lemma reads_agree ly s v : (N.of_nat (length s) < 2 ^ 64)%N -> valid_range s v ->
  exists t, denotes s v t /\ reads_as ly s v t.
Proof.
  intros Hs Hv. destruct v as [[b e]|]; cbn in Hv.
  2:{ exists []. split; [reflexivity|]. repeat split; intros; try easy; cbn in *; lia. }
  destruct Hv as [Hb He].
  assert (L : length (firstn (e - b) (skipn b s)) = e - b) by (rewrite firstn_length, skipn_length; lia).
  exists (firstn (e - b) (skipn b s)).
  assert (C : copy_range (length s) s b e = Some (firstn (e - b) (skipn b s))) by (apply copy_range_slice; lia).
  assert (V : string_view_of s b e = Some (firstn (e - b) (skipn b s))).
  { unfold string_view_of. now rewrite (proj2 (Nat.leb_le _ _) Hb), (proj2 (Nat.leb_le _ _) He). }
  split.
  { exists (firstn b s), (skipn (e - b) (skipn b s)). rewrite !firstn_skipn, app_length, L, firstn_length.
    split; [reflexivity|lia]. }
  unfold reads_as. rewrite L.
  split; [destruct ly; cbn; assumption|]. split; [exact V|]. split; [exact C|].
  split.
  { assert (T : to_size (Z.of_nat (e - b)) = N.of_nat (e - b)) by (unfold to_size; rewrite Z.mod_small; lia).
    unfold capture_length, over_range.
    destruct ly; cbn [option_map]; try (rewrite <- Nat2Z.inj_sub by lia; now rewrite T).
    rewrite (count_range_length _ (e - b)) by lia. cbn [option_map]. now rewrite T. }
  split.
  { cbn [cell_is_empty]. rewrite Nat.eqb_eq. rewrite <- length_zero_iff_nil, L. lia. }
  split. { intros j Hj. cbn [capture_index]. now rewrite nth_slice. }
  split; [exact C|]. intros j Hj. unfold owned_index. rewrite nth_error_app1 by (rewrite L; lia). reflexivity.
Qed.

(** The length of a view between any two places, in any order. *)
Theorem length_wraps ly s b e : ly <> Linked ->
  exists n, capture_length ly s (Some (b, e)) = Some n /\ (n < 2 ^ 64)%N
    /\ ((n + N.of_nat b) mod 2 ^ 64 = N.of_nat e mod 2 ^ 64)%N.
Proof.
  intros H. exists (to_size (Z.of_nat e - Z.of_nat b)). split; [destruct ly; easy|].
  unfold to_size. set (d := (Z.of_nat e - Z.of_nat b)%Z).
  pose proof (Z.mod_pos_bound d (2 ^ 64) ltac:(lia)) as B. split; [lia|].
  apply N2Z.inj. rewrite !N2Z.inj_mod, N2Z.inj_add, Z2N.id, !nat_N_Z by lia.
  change (Z.of_N (2 ^ 64)) with (2 ^ 64)%Z. rewrite Z.add_mod_idemp_l by lia. f_equal. lia.
Qed.

Lemma gives_fine r ct s res : usable r ct -> gives r ct s res ->
  group_count res = S (capture_count (ast r)) /\ Forall (valid_range s) (groups res).
Proof.
  intros U R. destruct (groups_valid r ct s U) as (M & P & S1 & T & F & G & H).
  destruct R as [E|E|E|l E I|l E I|k l E I|k l E I].
  - destruct M as (x & E' & M & _). congruence.
  - destruct P as (x & E' & P & _). congruence.
  - destruct S1 as (x & E' & S1 & _). congruence.
  - destruct T as (x & E' & T). rewrite E in E'. injection E' as <-. now apply (proj1 (Forall_forall _ _) T).
  - destruct F as (x & E' & F). rewrite E in E'. injection E' as <-. now apply (proj1 (Forall_forall _ _) F).
  - destruct (G k) as (x & E1 & T1). rewrite E in E1. injection E1 as <-. now apply (proj1 (Forall_forall _ _) T1).
  - destruct (H k) as (x & E1 & T1). rewrite E in E1. injection E1 as <-. now apply (proj1 (Forall_forall _ _) T1).
Qed.

Theorem result_reads r ct s res ly : usable r ct -> (N.of_nat (length s) < 2 ^ 64)%N -> gives r ct s res ->
  exists ts, length ts = S (capture_count (ast r))
  /\ Forall2 (fun v t => denotes s v t /\ reads_as ly s v t) (groups res) ts
  /\ result_stream s res = hd_error ts /\ result_string_view s res = hd_error ts
  /\ option_map (fun t => length t) (hd_error ts) = Some (result_length res)
  /\ Forall2 (fun v t => exists w, v = Some w /\ denotes s w t) (structured_binding res) ts.
Proof.
  intros U Hs R. destruct (gives_fine _ _ _ _ U R) as [Hc Hv]. clear R U.
  assert (X : exists ts, Forall2 (fun v t => denotes s v t /\ reads_as ly s v t) (groups res) ts).
  { clear Hc. induction Hv as [|v c Hv _ IH]; [now exists []|].
    destruct IH as [ts IH]. destruct (reads_agree ly s v Hs Hv) as (t & T). exists (t :: ts). now constructor. }
  destruct X as [ts X]. exists ts. unfold group_count in Hc.
  split; [rewrite <- Hc; clear - X; induction X; cbn; congruence|]. split; [exact X|].
  assert (B : structured_binding res = map Some (groups res)).
  { unfold structured_binding, group_count, group. clear.
    set (c := groups res). clearbody c. clear. induction c as [|v c IH] using rev_ind; [reflexivity|].
    rewrite app_length, seq_app, !map_app. cbn. rewrite nth_error_app2, Nat.sub_diag by lia. cbn. f_equal.
    rewrite <- IH. apply map_ext_in. intros i Hi. apply in_seq in Hi. now rewrite nth_error_app1 by lia. }
  rewrite B. unfold result_stream, result_string_view, result_length, group, group0.
  destruct (groups res) as [|v c]; [discriminate|]. inversion X as [|? t ? ts' [D T] X' E]. subst. cbn.
  destruct T as (_ & T1 & T2 & _). rewrite T1, T2. split; [reflexivity|]. split; [reflexivity|]. split.
  - f_equal. destruct v as [[b e]|]; cbn in *; [|now subst]. destruct D as (pre & post & _ & P & Q).
    rewrite app_length in Q. lia.
  - constructor; [eauto|]. clear - X'. induction X' as [|? ? ? ? [D _]]; cbn; constructor; eauto.
Qed.

(** ** Other character types *)

Lemma narrow_code a : narrow (code a) = a.
Proof. destruct a as [[] [] [] [] [] [] [] []]; reflexivity. Qed.

Lemma narrow_small x : (x < 256)%N -> code (narrow x) = x.
Proof. intros H. unfold narrow, code. rewrite N.mod_small by exact H. now apply N_ascii_embedding. Qed.

Lemma map_narrow_codes t : map narrow (map code t) = t.
Proof. rewrite map_map. erewrite map_ext; [apply map_id|]. apply narrow_code. Qed.

Lemma map_narrow_small w : Forall (fun x => x < 256)%N w -> map code (map narrow w) = w.
Proof. induction 1; cbn; [reflexivity|]. rewrite narrow_small by assumption. congruence. Qed.

Theorem wide_small mt r ct w : Forall (fun x => x < 256)%N w ->
  exists s, map code s = w /\ wide_invoke mt r false ct w = invoke mt r ct s.
Proof. intros H. exists (map narrow w). split; [now apply map_narrow_small|reflexivity]. Qed.

Theorem wide_text p t fl ct w : spells p t -> ~ In F_icase fl ->
  exists n, parse p = P_ok n
    /\ returns (wide_invoke match_method (mk_regex n fl) false ct w)
         (fun res => matched res = true <-> map (fun x => x mod 256)%N w = map code t).
Proof.
  intros H Hi. destruct (spelled_match_exact p t fl ct (map narrow w) H Hi) as (n & Hn & res & E & Hr).
  exists n. split; [exact Hn|]. exists res. split; [exact E|]. rewrite Hr.
  assert (M : map (fun x => x mod 256)%N w = map code (map narrow w)).
  { rewrite map_map. apply map_ext. intros x. unfold narrow, code. symmetry. apply N_ascii_embedding.
    apply N.mod_lt. discriminate. }
  rewrite M. split; [congruence|]. intros X. apply (f_equal (map narrow)) in X. now rewrite !map_narrow_codes in X.
Qed.

Theorem wide_text_small p t fl ct w : spells p t -> ~ In F_icase fl -> Forall (fun x => x < 256)%N w ->
  exists n, parse p = P_ok n
    /\ returns (wide_invoke match_method (mk_regex n fl) false ct w)
         (fun res => matched res = true <-> w = map code t).
Proof.
  intros H Hi Hw. destruct (wide_text p t fl ct w H Hi) as (n & Hn & res & E & Hr).
  exists n. split; [exact Hn|]. exists res. split; [exact E|]. rewrite Hr.
  replace (map (fun x => x mod 256)%N w) with w; [reflexivity|].
  clear - Hw. induction Hw as [|x w Hx _ IH]; cbn [map]; [reflexivity|]. rewrite N.mod_small by exact Hx. congruence.
Qed.
