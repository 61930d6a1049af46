(** Where the samples of an element are taken. *)
From Coq Require Import Reals List Arith.
From Verif Require Import RSum Basis_Spec Tensor_Spec Snap_Spec Row_Spec.
Import ListNotations.
Local Open Scope R_scope.

(** [n] points from 0 to 1 at equal distances; a single one is put at 1 *)
Definition uniform (n i : nat) : R := if (n =? 1)%nat then 1 else INR i / (INR n - 1).
(** the point [i] of the block of [n] points in each of [nd] dimensions; the last dimension runs fastest *)
Definition block_point (n nd i : nat) : nat -> R := fun d => uniform n (digit n nd d i).
(** the point [s] of [n] of the edge in direction [a] which the digits of [j] put at one end or the other of the other dimensions *)
Definition edge_point (nd n a j s : nat) : nat -> R := fun d => if (d =? a)%nat then uniform n s else INR (digit 2 (nd - 1) (drop a d) j).
(** the rows of [bound] evaluate polynomials of degree less than [rs], given by their values in the nodes, at 0 and 1 *)
Definition ends (rs : nat) (node : nat -> R) (bound : nat -> nat -> R) : Prop :=
  forall s c, (s < 2)%nat -> rsum rs (fun j => bound s j * polynomial rs c (node j)) = polynomial rs c (INR s).
(** in each of its first [n] arguments, with the others fixed, [F] is a polynomial of degree less than [rs] *)
Definition polynomial_in_each (n rs : nat) (F : (nat -> R) -> R) : Prop :=
  (forall y y', (forall d, (d < n)%nat -> y d = y' d) -> F y = F y') /\
  forall y d, (d < n)%nat -> exists c, forall x, F (at_coord y d x) = polynomial rs c x.
(** least and greatest of the numbers with a property *)
Definition extremes (P : R -> Prop) (lo hi : R) : Prop := P lo /\ P hi /\ forall x, P x -> lo <= x <= hi.
