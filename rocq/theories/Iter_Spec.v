(** Specification of the iterative solvers, independent of the algorithms: what a linear equation is, Krylov spaces,
    residuals, least-squares solutions. *)
From Coq Require Import Reals Arith List.
From Verif Require Import Outcome RSum Iter_Model.
Open Scope R_scope.

(** The first [n] coordinates agree. *)
Definition same (n : nat) (x y : vec) : Prop := forall i, (i < n)%nat -> x i = y i.
Definition zero : vec := fun _ => 0.

(** [e] is an equation with a linear operator on R^n and a positive definite inner product. *)
Record linear_equation (n : nat) (e : lineq) : Prop := {
  op_linear : forall a x b y, same n (op e (lin a x b y)) (lin a (op e x) b (op e y));
  op_local : forall x y, same n x y -> same n (op e x) (op e y);
  ip_linear : forall a x b y z, ip e (lin a x b y) z = a * ip e x z + b * ip e y z;
  ip_symmetric : forall x y, ip e x y = ip e y x;
  ip_local : forall x y z, same n x y -> ip e x z = ip e y z;
  ip_positive : forall x, 0 <= ip e x x;
  ip_definite : forall x, ip e x x = 0 -> same n x zero
}.

(** [b - A x] *)
Definition residual (e : lineq) (b x : vec) : vec := lin 1 b (-1) (op e x).
(** The square of the norm. *)
Definition sqnorm (e : lineq) (x : vec) : R := ip e x x.
Definition solves (n : nat) (e : lineq) (b x : vec) : Prop := same n (op e x) b.

(** The linear combination of [v 0, ..., v (m-1)]. *)
Definition comb (m : nat) (c : nat -> R) (v : nat -> vec) : vec := fun i => rsum m (fun j => c j * v j i).
(** [A^j r] *)
Fixpoint power (e : lineq) (r : vec) (j : nat) : vec :=
  match j with
  | O => r
  | S k => op e (power e r k)
  end.
Definition independent (n m : nat) (v : nat -> vec) : Prop :=
  forall c, same n (comb m c v) zero -> forall j, (j < m)%nat -> c j = 0.

(** [x'] is the best approximation in [x + span (r, A r, ..., A^(m-1) r)], where [r] is the residual of [x]. *)
Definition krylov_optimal (n : nat) (e : lineq) (m : nat) (b x x' : vec) : Prop :=
  let r := residual e b x in
  (exists c, same n x' (lin 1 x 1 (comb m c (power e r))))
  /\ forall c, sqnorm e (residual e b x') <= sqnorm e (residual e b (lin 1 x 1 (comb m c (power e r)))).

(** [lsq m] solves every least-squares problem with [m + 1] equations and [m] unknowns. *)
Definition least_squares (m : nat) (lsq : (nat -> nat -> R) -> (nat -> R) -> nat -> R) : Prop :=
  forall h g y,
    rsum (m + 1) (fun i => (rsum m (fun j => h i j * lsq h g j) - g i) ^ 2)
    <= rsum (m + 1) (fun i => (rsum m (fun j => h i j * y j) - g i) ^ 2).

(** The operator reaches every vector. *)
Definition onto (n : nat) (e : lineq) : Prop := forall b, exists x, solves n e b x.

(** [s] is the residual of some [y] and orthogonal to [ref], and [x] is the best approximation on the line through [y] in the
    direction of [s]. *)
Definition minimal_step (n : nat) (e : lineq) (b ref x s : vec) : Prop :=
  exists y w, same n s (residual e b y) /\ ip e s ref = 0 /\ same n x (lin 1 y w s)
    /\ forall t, sqnorm e (residual e b x) <= sqnorm e (residual e b (lin 1 y t s)).
