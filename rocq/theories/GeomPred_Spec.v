(** Segments, lines, convex hulls and distances. *)
From Coq Require Import Reals.
From Verif Require Import RSum.
Local Open Scope R_scope.

(** squared Euclidean distance in dimension [n] *)
Definition dist2 (n : nat) (p q : nat -> R) : R := rsum n (fun i => (p i - q i) * (p i - q i)).
(** the point at parameter [t] of the line through two points *)
Definition at_param (e0 e1 : nat -> R) (t : R) : nat -> R := fun i => (1 - t) * e0 i + t * e1 i.
Definition on_segment (n : nat) (e0 e1 p : nat -> R) : Prop := exists t, 0 <= t <= 1 /\ forall i, (i < n)%nat -> p i = at_param e0 e1 t i.
Definition on_line (n : nat) (e0 e1 p : nat -> R) : Prop := exists t, forall i, (i < n)%nat -> p i = at_param e0 e1 t i.
(** convex combinations of finitely many points *)
Definition in_hull (n n_point : nat) (points : nat -> nat -> R) (p : nat -> R) : Prop :=
  exists w, (forall j, (j < n_point)%nat -> 0 <= w j) /\ rsum n_point w = 1 /\
    forall i, (i < n)%nat -> p i = rsum n_point (fun j => w j * points j i).
