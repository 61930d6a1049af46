(** How rough the values at the quadrature points of an element are: the part of highest degree in each direction. *)
From Coq Require Import Reals Arith.
From Verif Require Import RSum Tensor_Spec Basis_Spec Quad_Spec.
Open Scope R_scope.

(** the [j]th point of the row in direction [d] that starts at point [f] of the face *)
Definition row_point (nd rs d f j : nat) : nat := let s := (rs ^ (nd - 1 - d))%nat in ((f / s * rs + j) * s + f mod s)%nat.
(** The mean over the directions of the mean square, over the rows in that direction, of the part along [mode]. *)
Definition roughness (nd rs : nat) (w mode u : nat -> R) : R :=
  rsum nd (fun d => rsum (rs ^ (nd - 1)) (fun f => outer_power rs w (nd - 1) f * inner rs w mode (fun j => u (row_point nd rs d f j)) ^ 2)) / INR nd.
Definition mean_square (nd rs : nat) (w u : nat -> R) : R := rsum (rs ^ nd) (fun q => outer_power rs w nd q * u q ^ 2).
(** In each direction the values are those of polynomials of degree less than [rs - 1], where [rs - 1] is what the nodes can represent. *)
Definition smooth (nd rs : nat) (node u : nat -> R) : Prop :=
  forall d f, (d < nd)%nat -> (f < rs ^ (nd - 1))%nat -> exists c, forall j, (j < rs)%nat -> u (row_point nd rs d f j) = polynomial (rs - 1) c (node j).
