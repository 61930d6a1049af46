(** Quadrature rules on the unit interval. *)
From Coq Require Import Reals.
From Verif Require Import RSum Basis_Spec.
Local Open Scope R_scope.

(** the integral over the unit interval of the polynomial of coefficients [c] *)
Definition integral (n : nat) (c : nat -> R) : R := rsum n (fun k => c k / (INR k + 1)).
(** the quadrature rule gives the integral of polynomials of degree less than [d] *)
Definition integrates (n : nat) (node weight : nat -> R) (d : nat) : Prop :=
  forall c, rsum n (fun i => weight i * polynomial d c (node i)) = integral d c.
(** what is needed of a rule *)
Definition rule (n : nat) (node weight : nat -> R) : Prop := distinct n node /\ forall i, (i < n)%nat -> 0 < weight i.
(** a rule as exact as the rules of Gauss and Legendre, and those of Gauss and Lobatto *)
Definition as_legendre (n : nat) (node weight : nat -> R) : Prop := rule n node weight /\ integrates n node weight (2 * n).
Definition as_lobatto (n : nat) (node weight : nat -> R) : Prop := rule n node weight /\ integrates n node weight (2 * n - 2).
(** the inner product of the rule *)
Definition inner (n : nat) (weight u v : nat -> R) : R := rsum n (fun i => weight i * (u i * v i)).
(** the [i]th node of one half of the interval *)
Definition half_point (node : nat -> R) (half i : nat) : R := (node i + INR half) / 2.
(** the weighted square distance between values [u] on both halves and values [v] on both halves *)
Definition distance2 (n : nat) (weight : nat -> R) (u v : nat -> nat -> R) : R :=
  rsum 2 (fun half => 1 / 2 * rsum n (fun i => weight i * (u half i - v half i) ^ 2)).
