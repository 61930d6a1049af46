(** Ideal gases, what flows through a surface, and Sutherland's law. *)
From Coq Require Import Reals Arith.
From Verif Require Import RSum.
Open Scope R_scope.

(** the square of the length of a vector *)
Definition square (nd : nat) (v : nat -> R) : R := rsum nd (fun i => v i * v i).
(** momentum, density and energy of a gas with velocity [v], density [rho] and pressure [p] *)
Definition conserved (nd : nat) (gamma rho p : R) (v : nat -> R) (k : nat) : R :=
  if (k <? nd)%nat then rho * v k else if (k =? nd)%nat then rho else p / (gamma - 1) + rho * square nd v / 2.
(** the speed over the speed of sound *)
Definition mach_number (nd : nat) (gamma rho p : R) (v : nat -> R) : R := sqrt (square nd v) / sqrt (gamma * p / rho).
Definition stagnation_pressure (gamma p M : R) : R := p * Rpower (1 + (gamma - 1) / 2 * M ^ 2) (gamma / (gamma - 1)).

(** The normal [n] (not a unit vector) of a face of an element points out of the domain if the face is at the end of the element
    ([positive]), else into it. [into_domain] is the unit normal of the surface that points into the domain; [out_of_domain F] is what leaves the
    domain per unit of area if [F] is the flux along [n]. *)
Definition into_domain (nd : nat) (positive : bool) (n : nat -> R) (i : nat) : R := (if positive then - n i else n i) / sqrt (square nd n).
Definition out_of_domain (nd : nat) (positive : bool) (n : nat -> R) (F : R) : R := (if positive then F else - F) / sqrt (square nd n).

(** https://en.wikipedia.org/wiki/Viscosity#Chapman–Enskog_theory *)
Definition sutherland_law (mu0 T0 S T : R) : R := mu0 * Rpower (T / T0) (3 / 2) * ((T0 + S) / (T + S)).
