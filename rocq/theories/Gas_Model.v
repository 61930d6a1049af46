(** Model of functions of the flow state: src/Domain_func.cpp:33-125 ([Diff_sq], [Stag_pres], [Pressure], [Velocity], [Mach]), functions on surfaces:
    src/Surface_func.cpp:11-49 ([Surface_func], [Pressure_stress]), src/Boundary_func.cpp:19-57 ([Viscous_stress], [Heat_flux]),
    src/hil_properties.cpp:53-88 ([surface]), and include/Transport_model.hpp:14-51.

    Simplifications:
    - double is R with exact arithmetic, [std::pow] of a positive number is [Rpower];
    - vectors are functions from the index, with their sizes; the data of a boundary connection are functions from the index of the array. *)
From Coq Require Import Reals Arith.
From Verif Require Import RSum.
Open Scope R_scope.

(** ** src/Domain_func.cpp; [size] is [state.size()] *)
(** lines 36-43 *)
Definition diff_sq (result0 result1 : nat -> R) (i : nat) : R := let diff := result0 i - result1 i in diff * diff.
(** lines 89-100 *)
Definition pressure (hr : R) (size : nat) (state : nat -> R) : R :=
  let mass := state (size - 2)%nat in
  let momentum_sq := rsum (size - 2) (fun i_dim => state i_dim * state i_dim) in
  let kin_ener := 1 / 2 * momentum_sq / mass in
  (hr - 1) * (state (size - 1)%nat - kin_ener).
(** lines 71-85 *)
Definition stag_pres (hr : R) (size : nat) (state : nat -> R) : R :=
  let mass := state (size - 2)%nat in
  let momentum_sq := rsum (size - 2) (fun i_dim => state i_dim * state i_dim) in
  let kin_ener := 1 / 2 * momentum_sq / mass in
  let pres := (hr - 1) * (state (size - 1)%nat - kin_ener) in
  let stag_enth := state (size - 1)%nat + pres in
  let enth := stag_enth - kin_ener in
  pres * Rpower (stag_enth / enth) (hr / (hr - 1)).
(** lines 108-115 *)
Definition velocity (size : nat) (state : nat -> R) (i_dim : nat) : R := let n_dim := (size - 2)%nat in state i_dim / state n_dim.
(** lines 117-125; [nd] is [point_pos.size()] *)
Definition mach (hr : R) (nd size : nat) (state : nat -> R) : R :=
  let mmtm_sq := rsum nd (fun i_dim => state i_dim * state i_dim) in
  let pres := pressure hr size state in
  sqrt (mmtm_sq / (hr * pres * state nd)).

(** ** Surfaces *)
(** the data of a [Boundary_connection] *)
Record surface := { inside_face_sign : bool; surface_normal : nat -> R; inside_face : nat -> R; flux_cache : nat -> R }.
Section Surface.
  Context (nd nfq : nat) (con : surface) (i_fqpoint : nat).
  (** src/Surface_func.cpp:17, src/Boundary_func.cpp:24, 46, src/hil_properties.cpp:59 *)
  Definition nrml_sign : R := if inside_face_sign con then -1 else 1.
  (** src/Surface_func.cpp:18-25 *)
  Definition unit_normal (i_dim : nat) : R :=
    let normal i_dim := surface_normal con (i_dim * nfq + i_fqpoint)%nat * nrml_sign in
    let nrml_mag := sqrt (rsum nd (fun i_dim => normal i_dim * normal i_dim)) in
    normal i_dim / nrml_mag.
  (** lines 33-49; [size] is [state.size()] *)
  Definition pressure_stress (hr : R) (size : nat) (state normal : nat -> R) (i_dim : nat) : R :=
    let momentum_sq := rsum nd (fun i_dim => state i_dim * state i_dim) in
    let normal_sq := rsum nd (fun i_dim => normal i_dim * normal i_dim) in
    let normal_mag := sqrt normal_sq in
    let pres := (hr - 1) * (state (size - 1)%nat - 1 / 2 * momentum_sq / state (size - 2)%nat) in
    - normal i_dim * pres / normal_mag.
  (** lines 11-29 for [Pressure_stress] *)
  Definition surface_pressure_stress (hr : R) (n_var i_dim : nat) : R :=
    pressure_stress hr n_var (fun i_var => inside_face con (i_var * nfq + i_fqpoint)%nat) unit_normal i_dim.
  (** src/Boundary_func.cpp:25-30, 47-52 *)
  Definition nrml_mag : R := sqrt (rsum nd (fun i_dim => surface_normal con (i_dim * nfq + i_fqpoint)%nat * surface_normal con (i_dim * nfq + i_fqpoint)%nat)).
  (** lines 19-39 *)
  Definition viscous_stress (i_dim : nat) : R :=
    let ref_stress := - flux_cache con (i_dim * nfq + i_fqpoint)%nat in
    if Rlt_dec (1 / 1000) nrml_mag then ref_stress * nrml_sign / nrml_mag else 0.
  (** lines 41-57 *)
  Definition heat_flux : R :=
    let ref_flux := flux_cache con ((nd + 1) * nfq + i_fqpoint)%nat in
    if Rlt_dec (1 / 1000) nrml_mag then ref_flux * nrml_sign / nrml_mag else 0.
  (** src/hil_properties.cpp:53-88: normal0 ..., visc_stress0 ... and heat_flux *)
  Definition hil_flux (viscous : bool) (i_var : nat) : R :=
    let ref_flux := - flux_cache con (i_var * nfq + i_fqpoint)%nat in
    if (if Rlt_dec (1 / 1000) nrml_mag then viscous else false) then ref_flux * nrml_sign / nrml_mag else 0.
  Definition hil_normal (i_dim : nat) : R := surface_normal con (i_dim * nfq + i_fqpoint)%nat * nrml_sign / nrml_mag.
  Definition hil_visc_stress (viscous : bool) (i_dim : nat) : R := hil_flux viscous i_dim.
  Definition hil_heat_flux (viscous : bool) : R := hil_flux viscous (nd + 1).
End Surface.

(** ** include/Transport_model.hpp:14-51 *)
Record transport_model := { const_val : R; ref_val : R; ref_temp : R; sqrt_ref_temp : R; temp_offset : R; is_viscous : bool }.
(** lines 25-27 *)
Definition make (cv rv rt to : R) (iv : bool) : transport_model :=
  {| const_val := cv; ref_val := rv; ref_temp := rt; sqrt_ref_temp := sqrt rt; temp_offset := to; is_viscous := iv |}.
(** lines 35-38 *)
Definition coefficient (t : transport_model) (sqrt_temp : R) : R :=
  const_val t + ref_val t * (sqrt_temp / sqrt_ref_temp t) ^ 3 * (ref_temp t + temp_offset t) / (sqrt_temp * sqrt_temp + temp_offset t).
(** lines 39-50 *)
Definition inviscid : transport_model := make 0 0 1 1 false.
Definition constant (value : R) : transport_model := make value 0 1 1 true.
Definition sutherland (reference_value reference_temperature temperature_offset : R) : transport_model :=
  make 0 reference_value reference_temperature temperature_offset true.
