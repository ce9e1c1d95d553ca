(** Notation for concrete cases. *)
From Verif Require Export Matcher Api Parser Spec Calls Lift Matching Equiv Classes.

(** The tree of an accepted pattern ([Empty] otherwise; the examples check that
    the pattern is accepted where it matters). *)
Definition tree (p : String.string) : node :=
  match parse (str p) with P_ok n => n | _ => Empty end.
Arguments tree p%string.

(** [regex<p, fl...>]. *)
Definition rx (p : String.string) (fl : list regex_flag) : regex := mk_regex (tree p) fl.
Arguments rx p%string.

Ltac show_usable := split; [vm_compute; reflexivity|vm_compute; auto].
