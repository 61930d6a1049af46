(** What is expected of discrete surface geometry. *)
From Coq Require Import Reals List.
From Verif Require Import RSum GeomPred_Spec.
Local Open Scope R_scope.

(** points of a collection of simplices of [n] vertices *)
Definition on_surface (n : nat) (sims : list (nat -> nat -> R)) (p : nat -> R) : Prop := exists s, In s sims /\ in_hull n n s p.
(** [p] is a nearest point of the surface *)
Definition nearest_of (n : nat) (sims : list (nat -> nat -> R)) (q p : nat -> R) : Prop :=
  on_surface n sims p /\ forall x, on_surface n sims x -> dist2 n q p <= dist2 n q x.
(** a partial solver of [n] linear equations that returns the only solution *)
Definition exact_solver (n : nat) (solve : (nat -> nat -> R) -> (nat -> R) -> option (nat -> R)) : Prop :=
  forall M b x, solve M b = Some x ->
    (forall i, (i < n)%nat -> rsum n (fun j => M j i * x j) = b i) /\
    forall y, (forall i, (i < n)%nat -> rsum n (fun j => M j i * y j) = b i) -> forall j, (j < n)%nat -> y j = x j.
(** [p] is a combination of the vertices whose weights sum to one and are at least [- tol] *)
Definition nearly_in_hull (n : nat) (tol : R) (s : nat -> nat -> R) (p : nat -> R) : Prop :=
  exists w, (forall j, (j < n)%nat -> - tol <= w j) /\ rsum n w = 1 /\ forall i, (i < n)%nat -> p i = rsum n (fun j => w j * s j i).

(** a simplex that is more than a point *)
Definition extended (n : nat) (s : nat -> nat -> R) : Prop := exists v w i, (v < n)%nat /\ (w < n)%nat /\ (i < n)%nat /\ s v i <> s w i.
(** no two vertices of the surface differ by more than one in a coordinate *)
Definition fits_unit (n : nat) (sims : list (nat -> nat -> R)) : Prop :=
  forall s s' v v' i, In s sims -> In s' sims -> (v < n)%nat -> (v' < n)%nat -> (i < n)%nat -> s v i - s' v' i <= 1.
Definition bounded (n : nat) (b : R) (sims : list (nat -> nat -> R)) : Prop := forall s v i, In s sims -> (v < n)%nat -> (i < n)%nat -> - b <= s v i <= b.
(** the linear equations for the parameter of the line and the weights of the vertices but the first *)
Definition system (p0 p1 : nat -> R) (s : nat -> nat -> R) : nat -> nat -> R := fun j => match j with O => fun i => - (p1 i - p0 i) | _ => fun i => s j i - s 0%nat i end.
(** the solver accepts the equations: the line is not (nearly) parallel to the simplex *)
Definition solvable (solve : (nat -> nat -> R) -> (nat -> R) -> option (nat -> R)) (p0 p1 : nat -> R) (s : nat -> nat -> R) : Prop :=
  solve (system p0 p1 s) (fun i => p0 i - s 0%nat i) <> None.
