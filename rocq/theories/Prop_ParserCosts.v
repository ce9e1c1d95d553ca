(** How much the parser instantiates (C63). *)
From Coq Require Import String.
From Verif Require Import ParserCosts ParserDepth Examples.
Local Open Scope nat_scope.
Local Open Scope list_scope.

(** The counting parser gives the results of the parser. *)
Theorem C63_same_results : forall p, fst (c_parse p) = parse p.
Proof. intros p. apply same_from. Qed.
Print Assumptions C63_same_results.

(** At most one step of the fold for each character and one for the end, and in
    all at most nine instantiations for each of them. *)
Theorem C63_linear_total : forall p,
  List.length (snd (c_parse p)) <= S (List.length p)
  /\ list_sum (snd (c_parse p)) <= 10 + 9 * List.length p.
Proof. intros p. destruct (parse_total p). auto. Qed.
Print Assumptions C63_linear_total.

Example C63_total_example :
  snd (c_parse (str "(a|b)*[c-d]{2}$")) = [1; 1; 4; 1; 7; 1; 3; 2; 2; 1; 4; 1; 1; 1; 4; 5].
Proof. vm_compute. reflexivity. Qed.

(** Full statement: the depth of the recursion for one character is bounded by a
    constant.  That is false (finding F29).  It is bounded by a constant and a
    multiple of the number of minus signs and of braces that no digit follows. *)
Fixpoint minus_signs (p : list ascii) : nat :=
  match p with
  | [] => 0
  | c :: r => (if c == "-" then 1 else 0) + minus_signs r
  end.
Fixpoint literal_braces (p : list ascii) : nat :=
  match p with
  | [] => 0
  | c :: r =>
      (if (c == "{") && match r with [] => true | d :: _ => negb (is_digit d) end then 1 else 0)
      + literal_braces r
  end.

Theorem C63_constant_depth_partial : forall p k,
  In k (snd (c_parse p)) -> k <= 13 + 12 * (minus_signs p + literal_braces p).
Proof.
  intros p k H. pose proof (parse_depth p) as F. rewrite Forall_forall in F. specialize (F k H).
  assert (E : forall p prev, leavers prev p
    = minus_signs p + literal_braces match prev with Some c => c :: p | None => p end).
  { clear. induction p as [|c p IH]; intros prev.
    - destruct prev as [c|]; [|reflexivity]. cbn. destruct (c == "{"); reflexivity.
    - cbn [leavers]. rewrite IH. destruct prev as [b|]; cbn [hd_error minus_signs literal_braces]; lia. }
  rewrite (E p None) in F. exact F.
Qed.
Print Assumptions C63_constant_depth_partial.

Example C63_depth_example :
  let p := str "(?:(?<k>\w{2,3})|((([^\]a])))*?)+=\k<k>"%string in
  minus_signs p = 0 /\ literal_braces p = 0 /\ list_max (snd (c_parse p)) = 6
  /\ exists n, fst (c_parse p) = P_ok n.
Proof. vm_compute. repeat split. eexists. reflexivity. Qed.

(** Each range in a set adds one. *)
Theorem C63_constant_depth_refuted :
  forall B, exists p k, In k (snd (c_parse p)) /\ B < k.
Proof.
  intros B. pose proof (depth_grows (S B)) as H. apply Exists_exists in H as (k & Hk & HB).
  eexists _, k. split; [exact Hk|exact HB].
Qed.
Print Assumptions C63_constant_depth_refuted.

Example C63_growth_example :
  map (fun p => list_max (snd (c_parse (str p)))) ["[a-b]"; "[a-bc-d]"; "[a-bc-de-f]"; "[a-bc-de-fg-h]"]%string
  = [4; 5; 6; 7]
  /\ map (fun p => list_max (snd (c_parse (str p)))) ["a"; "a{b"; "a{b{b"; "a{b{b{b"]%string = [5; 8; 11; 14].
Proof. vm_compute. auto. Qed.
