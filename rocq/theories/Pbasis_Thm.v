(** C29: Physical_basis *)
From Coq Require Import Reals List Arith Lia Lra.
From Verif Require Import Outcome Pbasis_Model Pbasis_Proofs.
Import ListNotations.

(** C29. The basis has exactly one function for every multi-index with a sum less than the row size. *)
Theorem physical_basis_indices : forall n r, 1 <= n <= 3 ->
  exists l, basis_indices n r = Ok l /\ length l = basis_size n r /\ NoDup l
    /\ forall ind, In ind l <-> length ind = n /\ list_sum ind < r.
Proof. exact basis_main. Qed.
Print Assumptions physical_basis_indices.

(** C29. The Legendre polynomials are evaluated within [-1, 1] at all quadrature points, unless all points have the same coordinate. *)
Theorem physical_basis_coords : forall x l p, In p (x :: l) ->
  match scaled_coord x l p with
  | Some t => (Rabs t <= 0.995)%R
  | None => forall q, In q (x :: l) -> q = p
  end.
Proof. exact scaled_range. Qed.
Print Assumptions physical_basis_coords.

Example physical_basis_example :
  basis_indices 2 3 = Ok [[0; 0]; [0; 1]; [0; 2]; [1; 0]; [1; 1]; [2; 0]]
  /\ basis_size 3 4 = 20 /\ (exists l, basis_indices 3 4 = Ok l /\ nth 10 l [] = [1; 0; 0])
  /\ scaled_coord 0 [2; 1]%R 2 = Some ((2 - (Rmin (Rmin 0 2) 1 + Rmax (Rmax 0 2) 1) / 2) / (Rmax (Rmax 0 2) 1 - Rmin (Rmin 0 2) 1) * 1.99)%R.
Proof.
  split; [vm_compute; reflexivity|]. split; [vm_compute; reflexivity|]. split; [eexists; split; [vm_compute; reflexivity|reflexivity]|].
  unfold scaled_coord, list_max, list_min. cbn [fold_left].
  destruct (Req_EM_T (Rmax (Rmax 0 2) 1 - Rmin (Rmin 0 2) 1) 0) as [E|]; [exfalso|reflexivity].
  pose proof (Rmax_l (Rmax 0 2) 1). pose proof (Rmax_r 0 2). pose proof (Rmin_l (Rmin 0 2) 1). pose proof (Rmin_l 0 2). lra.
Qed.
