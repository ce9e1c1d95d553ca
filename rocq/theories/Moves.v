(** Value categories of the access functions, and programs that copy and move texts out
    of a result (/repo/include/mregex/match_result.hpp, regex_capture.hpp,
    utility/tuple.hpp). *)
From Verif Require Export Exceptions.

(** How the functions of match_result.hpp:136-257 and regex_capture.hpp:163-181 declare
    what they return. *)
Inductive declared_return := Auto_ref | Auto_const_ref | Auto_forward | Auto_const_forward | Decltype_auto.

(** The category of a call of a function that is declared in this way and returns an
    expression of the category [q] (the language rules behind match_result.hpp:136-257);
    [None]: the reference does not bind, the function is ill-formed when it is
    instantiated. *)
Definition returned (d : declared_return) (q : usage) : option usage :=
  match d, q with
  | Auto_ref, Expiring => None
  | Auto_ref, Lvalue => Some Lvalue
  | Auto_ref, _ => Some ConstLvalue
  | Auto_const_ref, _ => Some ConstLvalue
  | Auto_forward, q => Some q
  | Auto_const_forward, (Lvalue | ConstLvalue) => None
  | Auto_const_forward, _ => Some ConstExpiring
  | Decltype_auto, q => Some q
  end.

(** The member [_captures] (match_result.hpp:300) named inside a function with the
    qualifiers of [q]: an lvalue. *)
Definition member (q : usage) : usage :=
  match q with Lvalue | Expiring => Lvalue | ConstLvalue | ConstExpiring => ConstLvalue end.
(** [std::move] of an lvalue (match_result.hpp:186, 192, 204, 210, 222, 228, 250, 256). *)
Definition moved (q : usage) : usage :=
  match q with Lvalue | Expiring => Expiring | ConstLvalue | ConstExpiring => ConstExpiring end.

(** match_result.hpp:286-298 [get_group_by_index], [get_group_by_name]: declared
    [decltype(auto)]; [std::get] of a forwarded tuple keeps the category. *)
Definition get_group_by (captures : usage) : option usage := returned Decltype_auto captures.

(** match_result.hpp:136-140, 150-154, 195-229 [group] and 235-257 [get]: the four
    overloads. *)
Definition group_category (q : usage) : option usage :=
  match q with
  | Lvalue => match get_group_by (member q) with Some c => returned Auto_ref c | None => None end
  | ConstLvalue => match get_group_by (member q) with Some c => returned Auto_const_ref c | None => None end
  | Expiring => match get_group_by (moved (member q)) with Some c => returned Auto_forward c | None => None end
  | ConstExpiring => match get_group_by (moved (member q)) with Some c => returned Auto_const_forward c | None => None end
  end.

(** regex_capture.hpp:163-181 [content] of a capture that owns its text: all four return
    the member [_capture] itself. *)
Definition content_category (q : usage) : option usage :=
  match q with
  | Lvalue => returned Auto_ref (member q)
  | ConstLvalue => returned Auto_const_ref (member q)
  | Expiring => returned Auto_forward (member q)
  | ConstExpiring => returned Auto_const_forward (member q)
  end.

(** match_result.hpp:122-126, 177-193 [for_each_group] with utility/tuple.hpp:17-21: what
    the function gets. *)
Definition each_category (q : usage) : option usage :=
  match q with
  | Lvalue | ConstLvalue => Some (member q)
  | Expiring | ConstExpiring => Some (moved (member q))
  end.

(** match_result.hpp:111-115 [transform_groups], a constant function, with
    utility/tuple.hpp:11-15. *)
Definition transform_category (q : usage) : option usage := Some ConstLvalue.

(** The text of a capture that owns it (regex_capture.hpp:204); [None]: it was moved away,
    what is left is unspecified. *)
Definition stored := option (list ascii).

(** Initialisation of a [std::string] or of a capture from an expression of category [q]
    (the implicit constructors of regex_capture.hpp:121-205 and of [std::string]): what
    the new object holds, and what is left. *)
Definition initialise (q : usage) (x : stored) : stored * stored :=
  match q with Expiring => (x, None) | _ => (x, x) end.

(** The statements of programs (match_result.hpp:100-257); the result is used as [q]. *)
Inductive use :=
| U_group (q : usage) (i : nat)      (* auto x = res.group<i>();  also get<i>(), get_group<i>(res) *)
| U_content (q : usage) (i : nat)    (* std::string x = res.group<i>().content(); *)
| U_each (q : usage)                 (* res.for_each_group([](auto x) { ... }); *)
| U_transform (q : usage)            (* res.transform_groups([](auto x) { ... }); *)
| U_optional (q : usage).            (* auto x = res.as_optional(); *)

(** All captures in order (utility/tuple.hpp:11-21). *)
Fixpoint initialise_all (q : usage) (l : list stored) : list stored * list stored :=
  match l with
  | [] => ([], [])
  | x :: r =>
      let (a, b) := initialise q x in
      let (as_, bs) := initialise_all q r in (a :: as_, b :: bs)
  end.

(** Replaces an element (the captures are the elements of a tuple, match_result.hpp:300). *)
Fixpoint leave (i : nat) (x : stored) (l : list stored) : list stored :=
  match l, i with
  | [], _ => []
  | _ :: r, 0 => x :: r
  | y :: r, S i' => y :: leave i' x r
  end.

(** One statement on a result that owns its texts: what the new objects hold, and the
    result afterwards ([matched] never changes, match_result.hpp:301). *)
Definition statement (matched : bool) (l : list stored) (u : use) : call (list stored * list stored) :=
  match u with
  | U_group q i =>                                                      (* 136-257 *)
      match nth_error l i, group_category q with
      | Some x, Some c => let (a, b) := initialise c x in Returned ([a], leave i b l)
      | _, _ => DoesNotCompile
      end
  | U_content q i =>                                                    (* regex_capture.hpp:163-181 *)
      match nth_error l i, group_category q with
      | Some x, Some c =>
          match content_category c with
          | Some c' => let (a, b) := initialise c' x in Returned ([a], leave i b l)
          | None => DoesNotCompile
          end
      | _, _ => DoesNotCompile
      end
  | U_each q =>
      match each_category q with
      | Some c => Returned (initialise_all c l)
      | None => DoesNotCompile
      end
  | U_transform q =>
      match transform_category q with
      | Some c => Returned (initialise_all c l)
      | None => DoesNotCompile
      end
  | U_optional q =>                                                     (* 276-284 *)
      if matched then Returned (initialise_all q l) else Returned ([], l)
  end.

(** A program (statements of match_result.hpp:100-257): what all new objects hold. *)
Fixpoint statements (matched : bool) (l : list stored) (p : list use) : call (list (list stored)) :=
  match p with
  | [] => Returned []
  | u :: p' =>
      match statement matched l u with
      | Returned (x, l') =>
          match statements matched l' p' with
          | Returned xs => Returned (x :: xs)
          | e => e
          end
      | UndefinedBehaviour => UndefinedBehaviour
      | DoesNotCompile => DoesNotCompile
      | DoesNotReturn => DoesNotReturn
      end
  end.

(** A program over the result of a call on a temporary text (regex.hpp:186-191, 204-209,
    222-227) that does not run out of memory. *)
Definition use_owner (mt : method) (r : regex) (ct : category) (s : list ascii) (p : list use)
  : call (list (list stored)) :=
  match invoke mt r ct s with
  | Returned res =>
      let o := as_memory_owner s res in
      statements (owned_matched o) (map Some (owned_groups o)) p
  | UndefinedBehaviour => UndefinedBehaviour
  | DoesNotCompile => DoesNotCompile
  | DoesNotReturn => DoesNotReturn
  end.
