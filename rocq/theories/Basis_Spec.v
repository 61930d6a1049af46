(** Polynomials. *)
From Coq Require Import Reals.
From Verif Require Import RSum.
Local Open Scope R_scope.

(** the polynomial of coefficients [c], of degree less than [n] *)
Definition polynomial (n : nat) (c : nat -> R) (x : R) : R := rsum n (fun k => c k * x ^ k).
Definition distinct (n : nat) (node : nat -> R) : Prop := forall i j, (i < n)%nat -> (j < n)%nat -> node i = node j -> i = j.
