(** Programs over range objects and their iterators
    (/repo/include/mregex/utility/input_range_adapter.hpp). *)
From Verif Require Export Adapter.

(** input_range_adapter.hpp:83-84: an iterator holds a pointer to a range object, or
    [nullptr] (43); 17-19, 141-142: a range object holds its generator and its current
    result.  [None] is a range object whose lifetime has ended. *)
Record world := mk_world { ranges : list (option adapter); cursors : list (option nat) }.

(** What a program can do with range objects and iterators, which are numbered in the
    order of their creation: input_range_adapter.hpp:94-97 [begin], 43 the default
    constructor, the implicit copy constructors and copy assignments of both classes,
    the end of the lifetime of a range object (implicit destructor, 16-143),
    50-58 [operator*] and [operator->], 73-81 [operator bool] and the comparison with
    the sentinel, 60-64 [++it], 66-71 [it++]. *)
Inductive operation :=
| O_begin (r : nat)
| O_default
| O_copy (i : nat)
| O_assign (i j : nat)
| O_copy_range (r : nat)
| O_assign_range (r q : nat)
| O_destroy (r : nat)
| O_read (i : nat)
| O_test (i : nat)
| O_next (i : nat)
| O_post (i : nat).

(** What the operation shows to the program: input_range_adapter.hpp:50-58 a result,
    73-81 a Boolean, the others nothing. *)
Inductive shown := Shows_nothing | Shows_result (m : match_res) | Shows_bool (b : bool).

(** Assignment to an element of a list (used for the variables of [world], see
    input_range_adapter.hpp:19-142). *)
Fixpoint assign {A : Type} (i : nat) (x : A) (l : list A) : list A :=
  match l, i with
  | [], _ => []
  | _ :: r, 0 => x :: r
  | y :: r, S i' => y :: assign i' x r
  end.

Section Operations.
  Variable mt : method.
  Variable cf : config.
  Variable n : node.
  Variable s : list ascii.

  (** The object of input_range_adapter.hpp:16-143 behind a variable; if the variable
      was not declared, the program does not compile, and if the lifetime of the object
      has ended, the behaviour is undefined. *)
  Definition declared_range {A : Type} (w : world) (r : nat) (f : adapter -> call A) : call A :=
    match nth_error (ranges w) r with
    | Some (Some a) => f a
    | Some None => UndefinedBehaviour
    | None => DoesNotCompile
    end.
  (** The same for the iterators, input_range_adapter.hpp:30-85. *)
  Definition declared_cursor {A : Type} (w : world) (i : nat) (f : option nat -> call A) : call A :=
    match nth_error (cursors w) i with Some c => f c | None => DoesNotCompile end.

  (** [_target->...] (input_range_adapter.hpp:52, 57, 62, 75, 80): the range object
      behind the pointer; undefined for [nullptr] and for a dangling pointer (copying a
      dangling pointer is not undefined). *)
  Definition target {A : Type} (w : world) (i : nat) (f : nat -> adapter -> call A) : call A :=
    declared_cursor w i (fun c =>
      match c with
      | Some r => declared_range w r (f r)
      | None => UndefinedBehaviour
      end).

  (** One operation, input_range_adapter.hpp:43-97 (lines at the cases). *)
  Definition perform (w : world) (o : operation) : call (world * shown) :=
    match o with
    | O_begin r => declared_range w r (fun _ =>                                   (* 94-97 *)
        Returned (mk_world (ranges w) (cursors w ++ [Some r]), Shows_nothing))
    | O_default => Returned (mk_world (ranges w) (cursors w ++ [None]), Shows_nothing)   (* 43 *)
    | O_copy i => declared_cursor w i (fun c =>
        Returned (mk_world (ranges w) (cursors w ++ [c]), Shows_nothing))
    | O_assign i j => declared_cursor w i (fun _ => declared_cursor w j (fun c =>
        Returned (mk_world (ranges w) (assign i c (cursors w)), Shows_nothing)))
    | O_copy_range r => declared_range w r (fun a =>
        Returned (mk_world (ranges w ++ [Some a]) (cursors w), Shows_nothing))
    | O_assign_range r q => declared_range w r (fun _ => declared_range w q (fun a =>
        Returned (mk_world (assign r (Some a) (ranges w)) (cursors w), Shows_nothing)))
    | O_destroy r => declared_range w r (fun _ =>
        Returned (mk_world (assign r None (ranges w)) (cursors w), Shows_nothing))
    | O_read i => target w i (fun _ a => Returned (w, Shows_result (current_result a)))  (* 50-58 *)
    | O_test i => target w i (fun _ a => Returned (w, Shows_bool (adapter_active a)))    (* 73-81 *)
    | O_next i => target w i (fun r a =>                                          (* 60-64 *)
        match compute_next mt cf n s a with
        | Returned a' => Returned (mk_world (assign r (Some a') (ranges w)) (cursors w), Shows_nothing)
        | UndefinedBehaviour => UndefinedBehaviour
        | DoesNotCompile => DoesNotCompile
        | DoesNotReturn => DoesNotReturn
        end)
    | O_post i => declared_cursor w i (fun _ =>                                   (* 66-71 *)
        match post_increment with
        | Returned tt => Returned (w, Shows_nothing)
        | UndefinedBehaviour => UndefinedBehaviour
        | DoesNotCompile => DoesNotCompile
        | DoesNotReturn => DoesNotReturn
        end)
    end.

  (** A program calling input_range_adapter.hpp:43-97; what it shows. *)
  Fixpoint performs (w : world) (p : list operation) : call (list shown) :=
    match p with
    | [] => Returned []
    | o :: p' =>
        match perform w o with
        | Returned (w', x) =>
            match performs w' p' with
            | Returned l => Returned (x :: l)
            | UndefinedBehaviour => UndefinedBehaviour
            | DoesNotCompile => DoesNotCompile
            | DoesNotReturn => DoesNotReturn
            end
        | UndefinedBehaviour => UndefinedBehaviour
        | DoesNotCompile => DoesNotCompile
        | DoesNotReturn => DoesNotReturn
        end
    end.
End Operations.

(** Whether a program compiles that starts with [nr] range objects and [nc] iterators:
    every variable is declared before its use, and every member function used compiles
    (input_range_adapter.hpp:66-71 does not, see [post_increment]).  What the program
    would do before the offending operation does not matter. *)
Fixpoint program_compiles (nr nc : nat) (p : list operation) : bool :=
  match p with
  | [] => true
  | o :: p' =>
      match o with
      | O_begin r => (r <? nr) && program_compiles nr (S nc) p'
      | O_default => program_compiles nr (S nc) p'
      | O_copy i => (i <? nc) && program_compiles nr (S nc) p'
      | O_assign i j => (i <? nc) && (j <? nc) && program_compiles nr nc p'
      | O_copy_range r => (r <? nr) && program_compiles (S nr) nc p'
      | O_destroy r => (r <? nr) && program_compiles nr nc p'
      | O_assign_range r q => (r <? nr) && (q <? nr) && program_compiles nr nc p'
      | O_read i | O_test i | O_next i => (i <? nc) && program_compiles nr nc p'
      | O_post i =>
          match post_increment with
          | DoesNotCompile => false
          | _ => (i <? nc) && program_compiles nr nc p'
          end
      end
  end.

(** A program over the range object of a call (regex.hpp:151-155, 165-169), which has
    the number 0. *)
Definition with_range (mt : method) (r : regex) (ct : category) (s : list ascii) (p : list operation)
  : call (list shown) :=
  let cf := config_of (flags r) ct in
  if compilable cf (ast r) && program_compiles 1 0 p then
    match construct mt cf (ast r) s new_generator with
    | Returned a => performs mt cf (ast r) s (mk_world [Some a] []) p
    | UndefinedBehaviour => UndefinedBehaviour
    | DoesNotCompile => DoesNotCompile
    | DoesNotReturn => DoesNotReturn
    end
  else DoesNotCompile.
