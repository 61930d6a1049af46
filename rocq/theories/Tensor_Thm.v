(** Property theorems: C42 (tensor-product operators). *)
From Coq Require Import Reals List Arith Lia Lra.
From Verif Require Import Outcome RSum Tensor_Model Tensor_Spec Tensor_Proofs.
Local Open Scope R_scope.

(** C42. [hypercube_matvec] is multiplication by the Kronecker power of the matrix (at least one dimension). *)
Theorem hypercube_matvec_kronecker : forall m n v fuel,
  (0 < rows m)%nat -> (0 < cols m)%nat -> (1 <= n)%nat -> (n = 1 \/ 2 <= cols m)%nat -> (n <= fuel)%nat ->
  exists out, hypercube_matvec fuel m (cols m ^ n) v = Ok (rows m ^ n, out)%nat /\
  forall i, (i < rows m ^ n)%nat -> out i = rsum (cols m ^ n) (fun j => kronecker_power m n i j * v j).
Proof. exact hypercube_main. Qed.
Print Assumptions hypercube_matvec_kronecker.

(** C42. [dimension_matvec] multiplies along dimension [i_dim] only: [o] are the indices of the dimensions before,
    [k] of those after. *)
Theorem dimension_matvec_single : forall m v i_dim n_cols, (0 < rows m)%nat -> (0 < cols m)%nat -> (0 < n_cols)%nat ->
  exists out, dimension_matvec m (cols m ^ (i_dim + 1) * n_cols) v i_dim = Ok (cols m ^ i_dim * rows m * n_cols, out)%nat /\
  forall o a k, (o < cols m ^ i_dim)%nat -> (a < rows m)%nat -> (k < n_cols)%nat ->
    out ((o * rows m + a) * n_cols + k)%nat = rsum (cols m) (fun j => entry m a j * v ((o * cols m + j) * n_cols + k)%nat).
Proof. exact dimension_main. Qed.
Print Assumptions dimension_matvec_single.

(** C42. [pow_outer] is the outer power. *)
Theorem pow_outer_power : forall size v n fuel, (0 < size)%nat -> (n <= fuel)%nat ->
  exists out, pow_outer fuel size v n = Ok (size ^ n, out)%nat /\ forall i, (i < size ^ n)%nat -> out i = outer_power size v n i.
Proof. exact pow_outer_main. Qed.
Print Assumptions pow_outer_power.

(** C42. [interp] is multilinear interpolation, *)
Theorem interp_multilinear : forall n values coords, interp n values coords = multilinear n values coords.
Proof. exact interp_main. Qed.
Print Assumptions interp_multilinear.

(** ... which reproduces the values at the vertices. *)
Theorem interp_at_vertices : forall n values j, (j < 2 ^ n)%nat -> interp n values (fun k => INR (digit 2 n k j)) = values j.
Proof. exact interp_vertices. Qed.
Print Assumptions interp_at_vertices.

(** A rectangular 1 x 2 matrix (1, 10) in two dimensions, and bilinear interpolation at (1/2, 1/4). *)
Example tensor_example : exists out,
  hypercube_matvec 5 (mk_mat 1 2 (fun i j => if (j =? 0)%nat then 1 else 10)) 4 (fun k => INR k) = Ok (1%nat, out) /\ out 0%nat = 330.
Proof. eexists. split; [reflexivity|]. cbn. unfold matvec. cbn. lra. Qed.
Example interp_example : interp 2 (fun k => if (k =? 3)%nat then 8 else 0) (fun k => if (k =? 0)%nat then 1/2 else 1/4) = 1.
Proof. cbn. lra. Qed.
