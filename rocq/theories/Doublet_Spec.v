(** The flow around a cylinder in terms of physics: potential and stream function of the velocity, thermodynamics of an ideal gas. *)
From Coq Require Import Reals Arith.
From Verif Require Import RSum Doublet_Model.
Open Scope R_scope.

(** A doublet of strength [radius^2] times the velocity [(vx, vy)] in a uniform flow of that velocity, at [(x, y)] relative to its center. *)
Definition potential (vx vy radius x y : R) : R := (vx * x + vy * y) * (1 + radius ^ 2 / (x ^ 2 + y ^ 2)).
Definition stream (vx vy radius x y : R) : R := (vx * y - vy * x) * (1 - radius ^ 2 / (x ^ 2 + y ^ 2)).

(** of a state with [nd] components of the momentum, then density and energy per volume *)
Definition pressure (heat_rat : R) (nd : nat) (s : nat -> R) : R := (heat_rat - 1) * (s (S nd) - rsum nd (fun i => s i ^ 2) / s nd / 2).
Definition total_enthalpy (heat_rat : R) (nd : nat) (s : nat -> R) : R := (s (S nd) + pressure heat_rat nd s) / s nd.
(** [pressure / density ^ heat_rat], a function of the entropy *)
Definition entropy (heat_rat : R) (nd : nat) (s : nat -> R) : R := pressure heat_rat nd s / Rpower (s nd) heat_rat.

(** two-dimensional, or three-dimensional without axial velocity *)
Definition planar (d : doublet) : Prop := n_v d = 4%nat \/ (n_v d = 5%nat /\ freestream d 2%nat = 0).
