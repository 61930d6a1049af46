(** The inviscid solver from [Solver::initialize] with a constant state to any number of time steps, on the kernels of
    Spatial_Model. The time steps themselves are inputs here. [fix_admissibility] (src/Solver.cpp:866) is not modelled: it changes
    nothing unless a state is inadmissible. All boundary conditions are [Freestream]. *)
From Coq Require Import Reals List Arith.
From Verif Require Import RSum Connection_Model Spatial_Model Spatial_Spec.
From Verif Require Pde_Model Bc_Model.
Import ListNotations.
Local Open Scope R_scope.

(** include/pde.hpp:41-180 with [visc] false: the state is the momentum, the density and the energy. The flux in an element has a
    column for each direction of the reference element, the flux at a face one; lines 105-122 are the same for both. The speed
    does not use the normal. *)
Definition euler (nd : nat) : pde := {|
  n_update := nd + 2; n_extrap := nd + 2; has_convection := true; has_diffusion := false; has_source := false;
  fetch_extrap := fun s v => s v;
  flux_conv := fun s normal v d => Pde_Model.flux_conv nd s (fun j => normal j d) v;
  flux_diff := fun _ _ _ _ _ => 0;
  source := fun _ _ => 0;
  face_flux := fun s normal v => Pde_Model.flux_conv nd s normal v;
  face_update_state := fun s v => s v;
  face_char_speed := fun s _ => Pde_Model.char_speed nd s;
  write_update := fun upd crit d v => add_update (nd + 2) upd crit d v |}.

(** src/Solver.cpp:391-401: [initialize] sets the state of every point, extrapolates to the faces and to the mortar faces;
    [func] is constant *)
Definition set_state (nq n : nat) (u : nat -> R) (a : arr) : arr := fun k => if (k <? n * nq)%nat then u (k / nq)%nat else a k.
Definition run_write_face (m : mesh) (eq : pde) (l : list nat) (x : data) : data :=
  fold_left (fun x i => let e := m_elem m i in
    {| d_st := scatter (m_dim m) e (write_face (m_dim m) (m_row_size m) eq (m_basis m) (d_state x i) (gather e (d_st x))) (d_st x); d_ldg := d_ldg x; d_state := d_state x; d_ref := d_ref x |}) l x.
Definition initialize (m : mesh) (eq : pde) (u : nat -> R) (x : data) : data :=
  let x := fold_left (fun x i => {| d_st := d_st x; d_ldg := d_ldg x; d_state := fput (d_state x) i (set_state (m_row_size m ^ m_dim m) (n_update eq) u (d_state x i)); d_ref := d_ref x |}) (elems m) x in
  let x := run_write_face m eq (elems m) x in
  run_prolong m eq false false x.

(** src/Solver.cpp:56-67 with [Freestream::apply_state], src/Boundary_condition.cpp:66-76; [ghosts] are the ghost faces of the
    boundary connections *)
Definition apply_state_bcs (m : mesh) (eq : pde) (fs : nat -> R) (ghosts : list nat) (x : data) : data :=
  {| d_st := fold_left (fun st g => fput st g (Bc_Model.freestream_state (n_extrap eq) (m_row_size m ^ (m_dim m - 1)) fs (st g))) ghosts (d_st x); d_ldg := d_ldg x; d_state := d_state x; d_ref := d_ref x |}.
(** src/Solver.cpp:853-867: the two stages of a time step *)
Definition inviscid_step (m : mesh) (eq : pde) (fs : nat -> R) (ghosts : list nat) (use_filter : bool) (dt : R) (x : data) : data :=
  let x := compute_convection m eq dt false false use_filter (apply_state_bcs m eq fs ghosts x) in
  compute_convection m eq dt true false use_filter (apply_state_bcs m eq fs ghosts x).
Definition inviscid_steps (m : mesh) (eq : pde) (fs : nat -> R) (ghosts : list nat) (use_filter : bool) (dts : list R) (x : data) : data :=
  fold_left (fun x dt => inviscid_step m eq fs ghosts use_filter dt x) dts x.
(** src/Solver.cpp:899-913: the residual *)
Definition inviscid_residual (m : mesh) (eq : pde) (fs : nat -> R) (ghosts : list nat) (use_filter : bool) (x : data) : data :=
  compute_convection m eq 1 false true use_filter (apply_state_bcs m eq fs ghosts x).
