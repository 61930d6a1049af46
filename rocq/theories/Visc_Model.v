(** The viscous solver: the Navier-Stokes equations on the kernels of Spatial_Model, with [Freestream] as boundary condition
    everywhere. As in Free_Model the time steps are inputs and [fix_admissibility] is not modelled. *)
From Coq Require Import Reals List Arith.
From Verif Require Import RSum Connection_Model Spatial_Model Spatial_Spec Free_Model.
From Verif Require Pde_Model Bc_Model.
Import ListNotations.
Local Open Scope R_scope.

(** include/Transport_model.hpp:16-41: [is_viscous] is not part of the coefficient *)
Record transport_model := { const_val : R; ref_val : R; ref_temp : R; temp_offset : R }.
Definition coefficient (t : transport_model) (sqrt_temp : R) : R :=
  const_val t + ref_val t * (sqrt_temp / sqrt (ref_temp t)) ^ 3 * (ref_temp t + temp_offset t) / (sqrt_temp * sqrt_temp + temp_offset t).
(** lines 43-56 *)
Definition inviscid : transport_model := {| const_val := 0; ref_val := 0; ref_temp := 1; temp_offset := 1 |}.
Definition constant (value : R) : transport_model := {| const_val := value; ref_val := 0; ref_temp := 1; temp_offset := 1 |}.
Definition sutherland (value temp offset : R) : transport_model := {| const_val := 0; ref_val := value; ref_temp := temp; temp_offset := offset |}.

(** include/constants.hpp:44 *)
Definition specific_gas_air : R := 28705287 / 100000.
(** include/pde.hpp:18-19 *)
Definition bulk_av_offset (nd : nat) : nat := (nd + 3)%nat.
Definition laplacian_av_offset (nd : nat) : nat := (nd + 4)%nat.
(** include/pde.hpp:124-165, [compute_scalars_diff] and [compute_flux_diff]: row [v], column [d] of the result; [gradient] is
    indexed [variable] [direction]. [s] is the array of all variables of the point, from which [fetch_state], lines 78-84, takes
    the two artificial viscosities. *)
Definition flux_diff_ns (nd : nat) (dyn_visc therm_cond : transport_model) (s : nat -> R) (normal gradient : nat -> nat -> R) (v d : nat) : R :=
  let mass := s nd in
  let bulk_av := Rabs (s (bulk_av_offset nd)) in
  let laplacian_av := Rabs (s (laplacian_av_offset nd)) in
  let sqrt_temp := sqrt (Rmax ((s (nd + 1)%nat - Pde_Model.kin_ener nd s) / mass) 0 * (Pde_Model.heat_rat - 1) / specific_gas_air) in
  let dyn_visc_coef := coefficient dyn_visc sqrt_temp in
  let therm_cond_coef := coefficient therm_cond sqrt_temp in
  let energy_cond := therm_cond_coef * (Pde_Model.heat_rat - 1) / specific_gas_air in
  let veloc := fun i => s i / mass in
  let veloc_grad := fun i j => (gradient i j - veloc i * gradient nd j) / mass in
  let trace := rsum nd (fun i => veloc_grad i i) in
  let stress := fun i j => dyn_visc_coef * (veloc_grad i j + veloc_grad j i) + (bulk_av * mass - 2 / 3 * dyn_visc_coef) * trace * (if (i =? j)%nat then 1 else 0) in
  let int_ener_grad := fun j => - s (nd + 1)%nat / mass / mass * gradient nd j + gradient (nd + 1)%nat j / mass - rsum nd (fun i => veloc i * veloc_grad i j) in
  let flux := fun v j =>
    - laplacian_av * gradient v j - (if (v <? nd)%nat then stress v j else 0)
    - (if (v =? nd + 1)%nat then rsum nd (fun i => veloc i * stress i j) + energy_cond * int_ener_grad j else 0) in
  rsum nd (fun j => flux v j * normal j d).
(** include/pde.hpp:41-180 with [visc] true; convection as in [euler] *)
Definition navier_stokes (nd : nat) (dyn_visc therm_cond : transport_model) : pde := {|
  n_update := nd + 2; n_extrap := nd + 2; has_convection := true; has_diffusion := true; has_source := false;
  fetch_extrap := fun s v => s v;
  flux_conv := fun s normal v d => Pde_Model.flux_conv nd s (fun j => normal j d) v;
  flux_diff := flux_diff_ns nd dyn_visc therm_cond;
  source := fun _ _ => 0;
  face_flux := fun s normal v => Pde_Model.flux_conv nd s normal v;
  face_update_state := fun s v => s v;
  face_char_speed := fun s _ => Pde_Model.char_speed nd s;
  write_update := fun upd crit d v => add_update (nd + 2) upd crit d v |}.

(** src/Solver.cpp:69-81 with [Freestream::apply_flux], src/Boundary_condition.cpp:12-22 and 299. [bcs] lists the inside and ghost
    face of each boundary connection. The copy of the state, which [copy_state] makes too, is left out: [apply_state] writes all
    of it before it is read. *)
Definition apply_flux_bcs (bcs : list (nat * nat)) (ldg : nat -> arr) : nat -> arr := fold_left (fun s '(inside, ghost) => fput s ghost (s inside)) bcs ldg.
(** src/Solver.cpp:853-867 when [use_ldg()] holds *)
Definition viscous_step (m : mesh) (dyn_visc therm_cond : transport_model) (fs : nat -> R) (bcs : list (nat * nat)) (junk : arr) (use_filter : bool) (dt : R) (x : data) : data :=
  let ns := navier_stokes (m_dim m) dyn_visc therm_cond in
  let eu := euler (m_dim m) in
  let x := compute_diffusion m ns dt false use_filter (apply_flux_bcs bcs) junk (apply_state_bcs m ns fs (map snd bcs) x) in
  compute_convection m eu dt true false use_filter (apply_state_bcs m eu fs (map snd bcs) x).
Definition viscous_steps (m : mesh) (dyn_visc therm_cond : transport_model) (fs : nat -> R) (bcs : list (nat * nat)) (junk : arr) (use_filter : bool) (dts : list R) (x : data) : data :=
  fold_left (fun x dt => viscous_step m dyn_visc therm_cond fs bcs junk use_filter dt x) dts x.
(** src/Solver.cpp:899-913 *)
Definition viscous_residual (m : mesh) (dyn_visc therm_cond : transport_model) (fs : nat -> R) (bcs : list (nat * nat)) (junk : arr) (use_filter : bool) (x : data) : data :=
  let ns := navier_stokes (m_dim m) dyn_visc therm_cond in
  compute_diffusion m ns 1 true use_filter (apply_flux_bcs bcs) junk (apply_state_bcs m ns fs (map snd bcs) x).

(** include/connection.hpp:137-148, 292-301 and 388-392, and src/Solver.cpp:346-366: the faces of deformed elements on deformed
    connections, and coarse faces with deformed connections to fine elements, have a pointer to a copy of the normal which
    [calc_jacobian] leaves on the face. *)
Definition on_deformed (m : mesh) (id : nat) : bool :=
  (existsb (Nat.eqb id) (side_faces (def_cons m)) || existsb (fun r => Nat.eqb id (r_coarse r) && existsb (Nat.eqb (r_fine r 0%nat)) (side_faces (def_cons m)))%bool (ref_faces m))%bool.
Definition point_elem (m : mesh) (st : nat -> arr) (e : elem) : elem := {| e_face := e_face e; e_tss := e_tss e; e_size := e_size e; e_deformed := e_deformed e; e_det := e_det e; e_nrml := e_nrml e;
  e_face_nrml := fun f => if (e_deformed e && on_deformed m (e_face e f))%bool then Some (st (e_face e f)) else None |}.
Definition point_normals (m : mesh) (st : nat -> arr) : mesh := {| m_dim := m_dim m; m_row_size := m_row_size m; m_basis := m_basis m; car_cons := car_cons m; def_cons := def_cons m;
  car_elems := car_elems m; def_elems := def_elems m; m_elem := fun i => point_elem m st (m_elem m i); ref_faces := ref_faces m |}.
