(** Vocabulary of boundary conditions. *)
From Coq Require Import Reals.
From Verif Require Import RSum Pde_Spec.
Local Open Scope R_scope.

(** the variables of a face at quadrature point [q] of [nq] *)
Definition at_q (nq : nat) (face : nat -> R) (q : nat) : nat -> R := fun v => face (v * nq + q)%nat.
(** component of the momentum along [m] (times the length of [m]), and what remains without it *)
Definition along (n : nat) (m s : nat -> R) : R := rsum n (fun i => s i * m i).
Definition across (n : nat) (m s : nat -> R) : nat -> R := fun i => s i - along n m s / along n m m * m i.
(** the value at the interface *)
Definition average (a b : nat -> R) : nat -> R := fun i => (a i + b i) / 2.
(** [face'] is [face] outside of its first [k] entries *)
Definition same_beyond (k : nat) (face face' : nat -> R) : Prop := forall j, (k <= j)%nat -> face' j = face j.
(** energy per volume other than kinetic *)
Definition internal_energy (n : nat) (s : nat -> R) : R := s (n + 1)%nat - rsum n (fun i => s i * s i) / (2 * s n).
(** ** Characteristics through a face of outward unit normal [m] *)
(** eigenvalues of the Jacobian of the flux *)
Definition speed (n : nat) (s m : nat -> R) (j : nat) : R :=
  match j with 0%nat => normal_velocity n s m - sound_speed n s | 1%nat => normal_velocity n s m + sound_speed n s | _ => normal_velocity n s m end.
(** the columns [D 0], [D 1], [D 2] are the characteristic components at [s] of [x] *)
Definition components (n : nat) (s m x : nat -> R) (D : nat -> nat -> R) : Prop :=
  (forall k, (k < n + 2)%nat -> D 0%nat k + D 1%nat k + D 2%nat k = x k) /\
  (forall j, (j < 3)%nat -> jacobian_eigenvector n (euler_flux n m) s (D j) (speed n s m j)).
(** outward unit normal of a face: [nrml] points in the direction of the positive coordinate *)
Definition outward (n : nat) (positive : bool) (nrml : nat -> R) : nat -> R := fun i => (if positive then 1 else -1) * nrml i / sqrt (along n nrml nrml).
