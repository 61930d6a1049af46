(** The modes of values at the quadrature points: products of functions of one coordinate. *)
From Coq Require Import Reals Arith.
From Verif Require Import RSum Tensor_Spec.
Open Scope R_scope.

(** the values of mode [m]: the digits of [m] are the degrees in the coordinates *)
Definition mode_value (nd rs : nat) (orth : nat -> nat -> R) (m q : nat) : R := rprod nd (fun k => orth (digit rs nd k m) (digit rs nd k q)).
(** its degree, the sum of the degrees in the coordinates *)
Fixpoint digit_sum (rs nd n m : nat) : nat := match n with O => O | S k => (digit_sum rs nd k m + digit rs nd k m)%nat end.
Definition degree (nd rs m : nat) : nat := digit_sum rs nd nd m.
(** the integrals, by quadrature, of the values, of their product with a mode, and of their square *)
Definition mean (nd rs : nat) (w u : nat -> R) : R := rsum (rs ^ nd) (fun q => outer_power rs w nd q * u q).
Definition coefficient (nd rs : nat) (w : nat -> R) (orth : nat -> nat -> R) (m : nat) (u : nat -> R) : R := mean nd rs w (fun q => mode_value nd rs orth m q * u q).
Definition norm (nd rs : nat) (w u : nat -> R) : R := sqrt (mean nd rs w (fun q => u q ^ 2)).
