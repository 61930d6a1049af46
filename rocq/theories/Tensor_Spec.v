(** Kronecker powers, outer powers and multilinear interpolation. *)
From Coq Require Import Reals List Arith.
From Verif Require Import RSum Tensor_Model.
Local Open Scope R_scope.

(** digit [k] (most significant first) of [i] written with [n] digits in base [b] *)
Definition digit (b n k i : nat) : nat := (i / b ^ (n - 1 - k)) mod b.

(** The [n]-fold Kronecker power of a matrix: product over the digits. *)
Definition kronecker_power (m : matrix) (n i j : nat) : R :=
  rprod n (fun k => entry m (digit (rows m) n k i) (digit (cols m) n k j)).

(** The [n]-fold outer power of a vector. *)
Definition outer_power (size : nat) (v : nat -> R) (n i : nat) : R := rprod n (fun k => v (digit size n k i)).

(** Weight of vertex [i] (digits 0 or 1) at the point [x] of the unit cube. *)
Definition vertex_weight (n : nat) (x : nat -> R) (i : nat) : R :=
  rprod n (fun k => if (digit 2 n k i =? 1)%nat then x k else 1 - x k).

(** Multilinear interpolation of vertex values. *)
Definition multilinear (n : nat) (values x : nat -> R) : R := rsum (2 ^ n) (fun i => values i * vertex_weight n x i).
