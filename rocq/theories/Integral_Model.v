(** Integrals over the mesh and over boundaries: [Solver::integral_field] and [Solver::integral_surface] on the meshes of
    Spatial_Model. [double] is [R]; [math::pow] is the power. Integrands are functions of the element or the boundary
    connection and the quadrature point; what they read (states, positions, time, the states that [compute_write_face] puts on the faces) is
    not modelled. *)
From Coq Require Import Reals List Arith.
From Verif Require Import Outcome ListUtil Loop Tensor_Model Spatial_Model Spatial_Spec.
Import ListNotations.
Local Open Scope R_scope.

(** [Element::jacobian_determinant(i_qpoint)], include/Element.hpp:99 (Cartesian), src/Deformed_element.cpp:164-167 *)
Definition determinant_at (e : elem) (q : nat) : R := if e_deformed e then e_det e q else 1.
(** [integral[i_var] += x] *)
Definition add_at (integral : list R) (i_var : nat) (x : R) : outcome (list R) :=
  let! old := aget integral i_var in aset integral i_var (old + x).

(** src/Solver.cpp:1113-1131; [n_var] is what the integrand says. The elements are the Cartesian and then the deformed ones. *)
Definition integral_field (fuel : nat) (m : mesh) (n_var : nat) (integrand : nat -> nat -> list R) : outcome (list R) :=
  let! (_, weights) := pow_outer fuel (m_row_size m) (b_weight (m_basis m)) (m_dim m) in
  ofold (fun i_elem integral =>
    let volume := e_size (m_elem m i_elem) ^ m_dim m in
    ofold (fun i_qpoint integral =>
      let qpoint_integrand := integrand i_elem i_qpoint in
      ofold (fun i_var integral =>
        let! x := aget qpoint_integrand i_var in
        add_at integral i_var (weights i_qpoint * volume * x * determinant_at (m_elem m i_elem) i_qpoint))
        (seq 0 (length qpoint_integrand)) integral)
      (seq 0 (m_row_size m ^ m_dim m)) integral)
    (elems m) (repeat 0 n_var).

(** a boundary connection with the boundary condition and the element it belongs to *)
Record bound := { bd_con : con; bd_sn : nat; bd_elem : nat }.
(** src/Solver.cpp:1133-1169 *)
Definition integral_surface (fuel : nat) (m : mesh) (bc_cons : list bound) (n_int : nat) (integrand : bound -> nat -> list R) (bc_sn : nat) : outcome (list R) :=
  let nd := m_dim m in
  let nq := (m_row_size m ^ nd)%nat in
  let nfq := (nq / m_row_size m)%nat in
  let! (_, weights) := pow_outer fuel (m_row_size m) (b_weight (m_basis m)) (nd - 1) in
  ofold (fun c integral =>
    let area := e_size (m_elem m (bd_elem c)) ^ (nd - 1) in
    if (bd_sn c =? bc_sn)%nat then
      let nrml := c_normal (bd_con c) in
      ofold (fun i_qpoint integral =>
        let nrml_mag := loop nd (fun i_dim nrml_mag => nrml_mag + nrml (i_dim * nfq + i_qpoint)%nat ^ 2) 0 in
        let nrml_mag := sqrt nrml_mag in
        let qpoint_integrand := integrand c i_qpoint in
        ofold (fun i_var integral =>
          let! x := aget qpoint_integrand i_var in
          add_at integral i_var (x * weights i_qpoint * area * nrml_mag))
          (seq 0 n_int) integral)
        (seq 0 nfq) integral
    else Ok integral)
    bc_cons (repeat 0 n_int).
