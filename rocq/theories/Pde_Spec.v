(** The compressible Euler equations, thermodynamic admissibility, eigenvectors of a Jacobian. *)
From Coq Require Import Reals.
From Verif Require Import RSum.
Local Open Scope R_scope.

(** density and internal energy are positive *)
Definition admissible_state (n : nat) (s : nat -> R) : Prop := 0 < s n /\ 0 < s (n + 1)%nat - rsum n (fun i => s i * s i) / (2 * s n).
(** pressure of air as an ideal gas *)
Definition euler_pressure (n : nat) (s : nat -> R) : R := 2 / 5 * (s (n + 1)%nat - rsum n (fun i => s i * s i) / (2 * s n)).
Definition sound_speed (n : nat) (s : nat -> R) : R := sqrt (7 / 5 * euler_pressure n s / s n).
(** flux through a surface of unit normal [m] *)
Definition normal_velocity (n : nat) (s m : nat -> R) : R := rsum n (fun i => s i * m i) / s n.
Definition euler_flux (n : nat) (m s : nat -> R) (k : nat) : R :=
  if Nat.ltb k n then s k * normal_velocity n s m + euler_pressure n s * m k
  else if Nat.eqb k n then s n * normal_velocity n s m
  else (s (n + 1)%nat + euler_pressure n s) * normal_velocity n s m.
Definition unit_vector (n : nat) (m : nat -> R) : Prop := rsum n (fun i => m i * m i) = 1.
(** [d] is an eigenvector (or zero) of the Jacobian at [s] of a vector function of [n + 2] variables *)
Definition jacobian_eigenvector (n : nat) (F : (nat -> R) -> nat -> R) (s d : nat -> R) (lambda : R) : Prop :=
  forall k, (k < n + 2)%nat -> derivable_pt_lim (fun t => F (fun i => s i + t * d i) k) 0 (lambda * d k).
(** determinant of a 3 by 3 matrix, and solvers of regular systems *)
Definition det3 (M : nat -> nat -> R) : R :=
  M 0%nat 0%nat * (M 1%nat 1%nat * M 2%nat 2%nat - M 1%nat 2%nat * M 2%nat 1%nat) - M 0%nat 1%nat * (M 1%nat 0%nat * M 2%nat 2%nat - M 1%nat 2%nat * M 2%nat 0%nat)
  + M 0%nat 2%nat * (M 1%nat 0%nat * M 2%nat 1%nat - M 1%nat 1%nat * M 2%nat 0%nat).
Definition solves_regular (solve : (nat -> nat -> R) -> (nat -> R) -> nat -> R) : Prop :=
  forall M b, det3 M <> 0 -> forall i, (i < 3)%nat -> rsum 3 (fun j => M i j * solve M b j) = b i.
