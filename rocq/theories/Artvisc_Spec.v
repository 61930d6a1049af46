(** The flow state of a gas at a quadrature point. *)
From Coq Require Import Reals Arith.
From Verif Require Import RSum.
Open Scope R_scope.

(** the density and the energy, and the energy that is not kinetic (which is proportional to the pressure) *)
Definition density (nd nq : nat) (state : nat -> R) (q : nat) : R := state (nd * nq + q)%nat.
Definition energy (nd nq : nat) (state : nat -> R) (q : nat) : R := state ((nd + 1) * nq + q)%nat.
Definition internal_energy (nd nq : nat) (state : nat -> R) (q : nat) : R :=
  energy nd nq state q - rsum nd (fun d => state (d * nq + q)%nat ^ 2) / (2 * density nd nq state q).
