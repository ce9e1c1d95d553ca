(** Properties of the iterators of range objects: C89. *)
From Verif Require Import Examples Cursors Positions.

(** C89.  Whatever a program does with range objects and their iterators (in any order:
    [begin()], copies and assignments of iterators and of range objects, destruction of
    range objects, reading,
    comparing with the sentinel, [++it]), it sees what positions in the list of matches
    predict: the iterators of one range object share its position, copies of a range
    object have positions of their own, and behind the last match the position may be
    advanced further without harm.  Partial: [it++] and the default-constructed iterator,
    which input iterators also have to provide, are excluded by [expect], and so are
    dangling iterators; see below. *)
Theorem C89_iterators_share_a_position_partial : forall mt r ct s l p es,
  range_of mt r ct s = Returned l -> expect [Some 0] [] p = Some es ->
  exists xs, with_range mt r ct s p = Returned xs /\ Forall2 (as_expected l) xs es.
Proof. exact iterators_share. Qed.
Print Assumptions C89_iterators_share_a_position_partial.

(** Two iterators of one range object, and a copy of the range object made after the
    first step: advancing one iterator advances the other, not the copy. *)
Example C89_example :
  let p := [O_begin 0; O_begin 0; O_read 0; O_next 0; O_read 1; O_copy_range 0; O_begin 1;
            O_next 1; O_next 1; O_next 0; O_test 0; O_read 2; O_test 2;
            O_assign_range 0 1; O_read 0; O_default; O_assign 3 2; O_next 3; O_read 2] in
  let view x := match x with
                | Shows_result m => Some (hd None (groups m))
                | _ => None
                end in
  (exists l, find_all (rx "a+" []) ForwardIt (str "a-aa-aaa") = Returned l /\ length l = 3)
  /\ expect [Some 0] [] p
     = Some [Nothing; Nothing; Element 0; Nothing; Element 1; Nothing; Nothing;
             Nothing; Nothing; Nothing; Is_element 4; Element 1; Is_element 1;
             Nothing; Element 1; Nothing; Nothing; Nothing; Element 2]
  /\ exists xs, with_range search_method (rx "a+" []) ForwardIt (str "a-aa-aaa") p = Returned xs
       /\ nth_error xs 10 = Some (Shows_bool false) /\ nth_error xs 12 = Some (Shows_bool true)
       /\ map view xs
          = [None; None; Some (Some (0, 1)); None; Some (Some (2, 4)); None; None;
             None; None; None; None; Some (Some (2, 4)); None;
             None; Some (Some (2, 4)); None; None; None; Some (Some (5, 8))].
Proof.
  split; [eexists; split; vm_compute; reflexivity|]. split; [reflexivity|].
  eexists. split; [vm_compute; reflexivity|]. do 2 (split; [reflexivity|]). reflexivity.
Qed.

(** The exact version: a program over the range object of a call compiles if and only if
    every variable is created before its use and [it++] does not occur at any place; of the
    programs that compile, those foreseen by [expect] return, and all others (which use a
    default-constructed iterator, a range object after its lifetime, an iterator of such a
    range object, or a copy of one of these iterators) have undefined behaviour. *)
Theorem C89_iterators_exact : forall mt r ct s l p, range_of mt r ct s = Returned l ->
  (with_range mt r ct s p = DoesNotCompile <-> ~ proper 1 0 p)
  /\ (with_range mt r ct s p = UndefinedBehaviour <-> proper 1 0 p /\ expect [Some 0] [] p = None)
  /\ ((exists xs, with_range mt r ct s p = Returned xs) <-> exists es, expect [Some 0] [] p = Some es)
  /\ with_range mt r ct s p <> DoesNotReturn.
Proof. exact iterators_exact. Qed.
Print Assumptions C89_iterators_exact.

(** A null iterator reached through a copy; if [it++] stands behind it, the program does
    not compile. *)
Example C89_exact_example :
  let r := rx "a+" [] in
  let p := [O_begin 0; O_default; O_copy 1; O_next 0; O_test 2] in
  (exists l, find_all r ForwardIt (str "a-aa") = Returned l /\ length l = 2)
  /\ expect [Some 0] [] p = None /\ proper 1 0 p
  /\ with_range search_method r ForwardIt (str "a-aa") p = UndefinedBehaviour
  /\ ~ proper 1 0 (p ++ [O_post 0])
  /\ with_range search_method r ForwardIt (str "a-aa") (p ++ [O_post 0]) = DoesNotCompile
  /\ ~ proper 1 0 [O_begin 1; O_copy_range 0].
Proof.
  cbv zeta. split; [eexists; split; vm_compute; reflexivity|]. split; [reflexivity|].
  split; [apply proper_compiles; reflexivity|]. split; [vm_compute; reflexivity|].
  split; [intros H; apply proper_compiles in H; discriminate|]. split; [vm_compute; reflexivity|].
  intros H. apply proper_compiles in H. discriminate.
Qed.

(** A copy of a range object lives on after the original; an iterator of the original may
    be assigned to, but reading through it is undefined. *)
Example C89_lifetime_example :
  let r := rx "a+" [] in
  let p := [O_begin 0; O_next 0; O_copy_range 0; O_begin 1; O_destroy 0; O_copy 0; O_read 1] in
  (exists l, find_all r ForwardIt (str "a-aa") = Returned l /\ length l = 2)
  /\ expect [Some 0] [] (p ++ [O_assign 0 1; O_test 0])
     = Some [Nothing; Nothing; Nothing; Nothing; Nothing; Nothing; Element 1; Nothing; Is_element 1]
  /\ (exists xs, with_range search_method r ForwardIt (str "a-aa") (p ++ [O_assign 0 1; O_test 0]) = Returned xs
        /\ nth_error xs 8 = Some (Shows_bool true))
  /\ proper 1 0 (p ++ [O_read 2])
  /\ with_range search_method r ForwardIt (str "a-aa") (p ++ [O_read 2]) = UndefinedBehaviour
  /\ with_range search_method r ForwardIt (str "a-aa") (p ++ [O_begin 0]) = UndefinedBehaviour.
Proof.
  cbv zeta. split; [eexists; split; vm_compute; reflexivity|]. split; [reflexivity|].
  split; [eexists; split; vm_compute; reflexivity|]. split; [apply proper_compiles; reflexivity|].
  split; vm_compute; reflexivity.
Qed.

(** [it++] is declared, but a program that uses it does not compile. *)
Theorem C89_postfix_refuted : exists r s l,
  find_all r RandomAccessIt s = Returned l /\ length l = 2
  /\ with_range search_method r RandomAccessIt s [O_begin 0; O_next 0] = Returned [Shows_nothing; Shows_nothing]
  /\ with_range search_method r RandomAccessIt s [O_begin 0; O_post 0] = DoesNotCompile.
Proof.
  exists (rx "a" []), (str "aa"). eexists. split; [vm_compute; reflexivity|].
  do 2 (split; [vm_compute; reflexivity|]). vm_compute. reflexivity.
Qed.
Print Assumptions C89_postfix_refuted.

(** A default-constructed iterator can not be compared with the sentinel: the comparison
    follows a null pointer. *)
Theorem C89_default_iterator_refuted : exists r s,
  with_range search_method r RandomAccessIt s [O_default] = Returned [Shows_nothing]
  /\ with_range search_method r RandomAccessIt s [O_default; O_test 0] = UndefinedBehaviour.
Proof. exists (rx "a" []), (str "aa"). split; vm_compute; reflexivity. Qed.
Print Assumptions C89_default_iterator_refuted.

(** A kept iterator does not keep its element: after the other iterator was advanced it
    shows another match (usual for input iterators, and contrary to forward iterators). *)
Theorem C89_kept_iterator_refuted : exists r s m1 m2,
  with_range search_method r RandomAccessIt s [O_begin 0; O_copy 0; O_read 0; O_next 1; O_read 0]
  = Returned [Shows_nothing; Shows_nothing; Shows_result m1; Shows_nothing; Shows_result m2]
  /\ groups m1 = [Some (0, 1)] /\ groups m2 = [Some (1, 2)].
Proof.
  exists (rx "a" []), (str "aa"). do 2 eexists. split; [vm_compute; reflexivity|]. split; reflexivity.
Qed.
Print Assumptions C89_kept_iterator_refuted.
