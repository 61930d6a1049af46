(** What the viscous flux of a flow is. *)
From Coq Require Import Reals List Arith.
From Verif Require Import RSum.
Local Open Scope R_scope.

(** A field gives to each position the momentum, mass and energy densities and whatever else is stored. *)
Definition moved (p : nat -> R) (j : nat) (t : R) : nat -> R := fun i => if (i =? j)%nat then p i + t else p i.
Definition partial (h : (nat -> R) -> R) (p : nat -> R) (j : nat) (d : R) : Prop := derivable_pt_lim (fun t => h (moved p j t)) 0 d.
Definition velocity (nd : nat) (s : nat -> R) (i : nat) : R := s i / s nd.
(** per mass *)
Definition internal_energy (nd : nat) (s : nat -> R) : R := s (nd + 1)%nat / s nd - 1 / 2 * rsum nd (fun i => velocity nd s i ^ 2).
(** of air, as a perfect gas *)
Definition temperature (nd : nat) (s : nat -> R) : R := (7 / 5 - 1) * internal_energy nd s / (28705287 / 100000).
(** all partial derivatives of the conserved variables, of the velocity and of the temperature *)
Record gradients (nd : nat) (field : (nat -> R) -> nat -> R) (p : nat -> R) (g vg : nat -> nat -> R) (tg : nat -> R) : Prop := {
  gr_state : forall w j, (w < nd + 2)%nat -> (j < nd)%nat -> partial (fun y => field y w) p j (g w j);
  gr_velocity : forall i j, (i < nd)%nat -> (j < nd)%nat -> partial (fun y => velocity nd (field y) i) p j (vg i j);
  gr_temperature : forall j, (j < nd)%nat -> partial (fun y => temperature nd (field y)) p j (tg j) }.
(** Newton's law with dynamic viscosity [mu] and bulk viscosity [zeta], and Fourier's with conductivity [k] *)
Definition tau (nd : nat) (mu zeta : R) (vg : nat -> nat -> R) (i j : nat) : R :=
  mu * (vg i j + vg j i) + (if (i =? j)%nat then (zeta - 2 / 3 * mu) * rsum nd (fun l => vg l l) else 0).
(** the flux of variable [v] in direction [j]; [diff] is an artificial diffusivity of all variables *)
Definition viscous_flux (nd : nat) (mu zeta k diff : R) (s : nat -> R) (g vg : nat -> nat -> R) (tg : nat -> R) (v j : nat) : R :=
  - diff * g v j - (if (v <? nd)%nat then tau nd mu zeta vg v j else if (v =? nd)%nat then 0 else rsum nd (fun i => velocity nd s i * tau nd mu zeta vg i j) + k * tg j).
