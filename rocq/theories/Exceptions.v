(** What happens when memory runs out while captures are copied
    (/repo/include/mregex/match_result.hpp, regex_capture.hpp, regex.hpp).
    Simplification: only the copies of captured texts allocate; operations of the
    iterators are taken not to throw. *)
From Verif Require Export Adapter Views.

(** How a call (e.g. match_result.hpp:83-92) ends: with a value, with the exception
    [std::bad_alloc], or with [std::terminate] because an exception left a [noexcept]
    function. *)
Inductive effect (A : Type) := Done (a : A) | Throws | Terminates.
Arguments Done {A}. Arguments Throws {A}. Arguments Terminates {A}.

(** The body of a function declared [noexcept(b)] (e.g. match_result.hpp:277-278). *)
Definition declared {A : Type} (b : bool) (x : effect A) : effect A :=
  if b then match x with Throws => Terminates | o => o end else x.

(** Continuing with a value (e.g. match_result.hpp:86-91, one statement after the other). *)
Definition and_then {A B : Type} (x : effect A) (f : A -> effect B) : effect B :=
  match x with Done a => f a | Throws => Throws | Terminates => Terminates end.

(** The elements of a braced initialiser (utility/tuple.hpp:14), from left to right. *)
Fixpoint each {A B : Type} (f : A -> effect B) (l : list A) : effect (list B) :=
  match l with
  | [] => Done []
  | a :: r => and_then (f a) (fun b => and_then (each f r) (fun l' => Done (b :: l')))
  end.

(** How an object is used: as an lvalue or an expiring value, constant or not
    (the overloads of match_result.hpp:100, 162, 167, 172). *)
Inductive usage := Lvalue | ConstLvalue | Expiring | ConstExpiring.
(** [std::is_rvalue_reference_v<Self &&>] (match_result.hpp:278). *)
Definition is_expiring (q : usage) : bool :=
  match q with Expiring | ConstExpiring => true | _ => false end.

Section Memory.
  (** Is there no memory for a copy of this text? *)
  Variable fails : list ascii -> bool.

  (** The constructors of [std::string] that copy (regex_capture.hpp:87, 130). *)
  Definition copy_text (t : list ascii) : effect (list ascii) :=
    if fails t then Throws else Done t.

  (** regex_capture.hpp:82-88: [content] of a view is [noexcept] exactly when it
      returns a [std::string_view]; otherwise it copies. *)
  Definition content_call (ly : layout) (s : list ascii) (v : cell) : effect (list ascii) :=
    match ly with
    | Contiguous => declared true (Done (cell_content s v))
    | _ => declared false (copy_text (cell_content s v))
    end.

  (** match_result.hpp:86-88: the lambda, declared [noexcept], calls the copying
      constructor regex_capture.hpp:128-131, which is not. *)
  Definition own_group (s : list ascii) (v : cell) : effect (list ascii) :=
    declared true (declared false (copy_text (cell_content s v))).

  (** match_result.hpp:83-92 [as_memory_owner] through tuple.hpp:11-15, both not
      [noexcept]. *)
  Definition as_memory_owner_call (s : list ascii) (r : match_res) : effect owned_res :=
    declared false
      (and_then (declared false (each (own_group s) (groups r)))
         (fun l => Done (mk_owned l (matched r)))).

  (** regex.hpp:186-191, 204-209, 222-227: the calls on expiring texts. *)
  Definition expiring_call (mt : method) (r : regex) (ct : category) (s : list ascii)
    : call (effect owned_res) :=
    match invoke mt r ct s with
    | Returned res => Returned (declared false (as_memory_owner_call s res))
    | UndefinedBehaviour => UndefinedBehaviour
    | DoesNotCompile => DoesNotCompile
    | DoesNotReturn => DoesNotReturn
    end.

  (** match_result.hpp:100, 162, 167, 172: how the four overloads of
      [as_optional] are declared. *)
  Definition as_optional_noexcept (q : usage) (is_view : bool) : bool :=
    match q with Lvalue | ConstLvalue | ConstExpiring => is_view | Expiring => true end.

  (** match_result.hpp:277-278: and the function that they all call. *)
  Definition forward_self_noexcept (q : usage) (is_view : bool) : bool := is_view || is_expiring q.

  (** match_result.hpp:281-283 for a result that owns its texts: the optional is
      built from an expiring value by moving, otherwise (also from a constant
      expiring value) by copying. *)
  Definition owned_as_optional (q : usage) (r : owned_res) : effect (option owned_res) :=
    declared (as_optional_noexcept q false) (declared (forward_self_noexcept q false)
      (if owned_matched r then
         match q with
         | Expiring => Done (Some r)
         | _ => and_then (each copy_text (owned_groups r))
                  (fun l => Done (Some (mk_owned l (owned_matched r))))
         end
       else Done None)).

  (** match_result.hpp:276-284 for a result that holds views: iterators are copied. *)
  Definition view_as_optional (q : usage) (r : match_res) : effect (option match_res) :=
    declared (as_optional_noexcept q true) (declared (forward_self_noexcept q true)
      (Done (as_optional r))).
End Memory.
