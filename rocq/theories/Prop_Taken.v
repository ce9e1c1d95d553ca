(** Properties of programs that take texts out of a result: C91. *)
From Verif Require Import Examples Moves Taken.

(** C91, full statement: every use of a result that owns its texts hands out the texts of
    its groups, as long as no earlier use took them away; and a text is taken away
    exactly by uses of an expiring result that is not constant ([group], [get],
    [for_each_group], [as_optional], and [content] of the group).  Not proved for
    [content]: it never takes the text away, and of a constant expiring result it does not
    compile ([well_formed]), see below. *)
Theorem C91_texts_taken_partial : forall mt r ct s res p,
  invoke mt r ct s = Returned res ->
  forallb (well_formed (length (groups res))) p = true ->
  use_owner mt r ct s p
  = Returned (sees (matched res) (map (cell_content s) (groups res)) (fun _ => false) p).
Proof. exact texts_taken. Qed.
Print Assumptions C91_texts_taken_partial.

(** Group 1 is moved out and is gone afterwards, also for [as_optional]; reading the
    content and uses of a constant result take nothing away. *)
Example C91_example :
  let r := rx "(a+)(b)" [] in
  let p := [U_content Expiring 1; U_each ConstExpiring; U_group Expiring 1; U_group Lvalue 1; U_transform Lvalue;
            U_optional Expiring; U_content ConstLvalue 0] in
  usable r RandomAccessIt
  /\ exists res, invoke match_method r RandomAccessIt (str "aab") = Returned res /\ matched res = true
    /\ forallb (well_formed (length (groups res))) p = true
    /\ use_owner match_method r RandomAccessIt (str "aab") p
       = Returned [[Some (str "aa")]; [Some (str "aab"); Some (str "aa"); Some (str "b")]; [Some (str "aa")];
                   [None]; [Some (str "aab"); None; Some (str "b")]; [Some (str "aab"); None; Some (str "b")]; [None]].
Proof.
  split; [show_usable|]. eexists. split; [vm_compute; reflexivity|]. do 2 (split; [reflexivity|]).
  vm_compute. reflexivity.
Qed.

(** Finding F32: [content() const &&] does not compile where it is used, and
    [content() &&] is an lvalue, so that the text is copied and stays. *)
Theorem C91_content_refuted : exists r s x,
  use_owner match_method r RandomAccessIt s [U_content ConstLvalue 1] = Returned [[Some x]]
  /\ use_owner match_method r RandomAccessIt s [U_group ConstExpiring 1] = Returned [[Some x]]
  /\ use_owner match_method r RandomAccessIt s [U_content ConstExpiring 1] = DoesNotCompile
  /\ use_owner match_method r RandomAccessIt s [U_group Expiring 1; U_content Lvalue 1] = Returned [[Some x]; [None]]
  /\ use_owner match_method r RandomAccessIt s [U_content Expiring 1; U_content Lvalue 1] = Returned [[Some x]; [Some x]].
Proof.
  exists (rx "(a+)(b)" []), (str "aab"), (str "aa"). do 4 (split; [vm_compute; reflexivity|]). vm_compute. reflexivity.
Qed.
Print Assumptions C91_content_refuted.
