(** Outcomes of modelled C++ code.

    This file models no particular function of /repo: it is the vocabulary in which the models are written.
    Undefined behaviour of C++ (out-of-range access, [front()] of an empty container, signed overflow, ...) and C++
    exceptions are kept apart from normal results. *)

Inductive outcome (A : Type) : Type :=
| Ok (a : A)    (** the code returns normally with this value *)
| Throw         (** the code throws a C++ exception (e.g. HEXED_ASSERT, include/assert.hpp) *)
| Ub            (** undefined behaviour is reached *)
| NoFuel.       (** the model's explicit fuel ran out: says nothing about the code *)
Arguments Ok {A} a.
Arguments Throw {A}.
Arguments Ub {A}.
Arguments NoFuel {A}.

Definition bind {A B : Type} (x : outcome A) (f : A -> outcome B) : outcome B :=
  match x with
  | Ok a => f a
  | Throw => Throw
  | Ub => Ub
  | NoFuel => NoFuel
  end.

Notation "'let!' x ':=' e 'in' k" := (bind e (fun x => k))
  (at level 200, x pattern, e at level 100, k at level 200, right associativity).

(** Reading a vector element: [None] (out of range) is undefined behaviour for [std::vector::operator[]]. *)
Definition of_option_ub {A : Type} (x : option A) : outcome A :=
  match x with
  | Some a => Ok a
  | None => Ub
  end.
