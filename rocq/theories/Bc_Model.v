(** Model of the flow boundary conditions of src/Boundary_condition.cpp.

    Arrays are functions [nat -> R]; entry [v * nq + q] of a face is variable [v] at quadrature point [q]. [nd] is the number
    of dimensions, [nv] of variables, [nq] of quadrature points of a face ([n_qpoint()/row_size]), so that
    [n_dof()/row_size] is [nv * nq]. [double] is [R]. *)
From Coq Require Import Reals List Arith.
From Verif Require Import RSum GeomPred_Model Pde_Model.
Local Open Scope R_scope.

Definition upd (f : nat -> R) (i : nat) (x : R) : nat -> R := fun j => if (j =? i)%nat then x else f j.
Definition loop {A} (n : nat) (body : nat -> A -> A) (a : A) : A := fold_left (fun a i => body i a) (seq 0 n) a.
Definition range {A} (b e : nat) (body : nat -> A -> A) (a : A) : A := fold_left (fun a i => body i a) (seq b (e - b)) a.

(** the body of [copy_state] for one of the two faces, src/Boundary_condition.cpp:12-22 *)
Definition copy (n : nat) (in_f gh_f : nat -> R) : nat -> R := loop n (fun i g => upd g i (in_f i)) gh_f.
(** src/Boundary_condition.cpp:54-60, 216-223, 341, 470-477 *)
Definition negate (n : nat) (in_f gh_f : nat -> R) : nat -> R := loop n (fun i g => upd g i (- in_f i)) gh_f.
(** src/Boundary_condition.cpp:24-41; [n_adv] is [n_advection(row_size)] *)
Definition default_advection (nd n_adv nq : nat) (in_f gh_f : nat -> R) : nat -> R :=
  loop (n_adv * nq) (fun i g => upd g (nd * nq + i) (2 - in_f (nd * nq + i)%nat))
    (loop nd (fun i g => loop nq (fun q g => upd g (i * nq + q) (in_f (i * nq + q)%nat)) g) gh_f).

(** src/Boundary_condition.cpp:66-76 *)
Definition freestream_state (nv nq : nat) (fs gh_f : nat -> R) : nat -> R :=
  loop nv (fun v g => loop nq (fun q g => upd g (v * nq + q) (fs v)) g) gh_f.

(** ** Characteristic: src/Boundary_condition.cpp:82-95 *)
Definition apply_char (n : nat) (solve : (nat -> nat -> R) -> (nat -> R) -> nat -> R) (state normal : nat -> R) (sign : R) (inside outside : nat -> R) : nat -> R :=
  let ch := make_chars n state normal in
  let d := fun k j => if Rlt_dec 0 (sign * vals ch j) then decomp n solve ch outside k j else decomp n solve ch inside k j in
  fun k => rsum 3 (fun j => d k j).
(** [std::max] *)
Definition std_max (a b : R) : R := if Rlt_dec a b then b else a.
(** src/Boundary_condition.cpp:125-129 *)
Definition limit_state (nd : nat) (state inside : nat -> R) : nat -> R :=
  let state := upd state nd (std_max (state nd) (inside nd / 2)) in
  let kin := / 2 * sqnorm nd state / state nd in
  let inside_kin := / 2 * sqnorm nd inside / inside nd in
  upd state (nd + 1) (std_max (kin + std_max (state (nd + 1)%nat - kin) ((inside (nd + 1)%nat - inside_kin) / 2)) 0).
Definition column (nq : nat) (f : nat -> R) (q : nat) : nat -> R := fun v => f (v * nq + q)%nat.
Definition write_column (nv nq : nat) (s : nat -> R) (q : nat) (f : nat -> R) : nat -> R := loop nv (fun v g => upd g (v * nq + q) (s v)) f.
(** src/Boundary_condition.cpp:97-141; [face_sign] is [inside_face_sign()]. Returns the ghost state and the cache. *)
Definition riemann_state (solve : (nat -> nat -> R) -> (nat -> R) -> nat -> R) (nd nv nq : nat) (face_sign : bool) (fs in_f nrml gh_f sc : nat -> R) : (nat -> R) * (nat -> R) :=
  let sign := if face_sign then -1 else 1 in
  (loop nq (fun q g =>
     let inside := column nq in_f q in
     let state := apply_char nd solve inside (column nq nrml q) sign inside fs in
     write_column nv nq (limit_state nd state inside) q g) gh_f,
   copy (nv * nq) in_f sc).
(** src/Boundary_condition.cpp:143-182; [Mat<>::Zero] is the inside *)
Definition riemann_flux (solve : (nat -> nat -> R) -> (nat -> R) -> nat -> R) (nd nv nq : nat) (face_sign : bool) (sc in_f nrml gh_f : nat -> R) : nat -> R :=
  let sign := if face_sign then -1 else 1 in
  loop nq (fun q g => write_column nv nq (apply_char nd solve (column nq sc q) (column nq nrml q) sign (fun _ => 0) (column nq in_f q)) q g) gh_f.

(** src/Boundary_condition.cpp:184-213 *)
Definition pressure_outflow_state (nd nv nq : nat) (face_sign : bool) (pres_spec : R) (in_f nrml gh_f : nat -> R) : nat -> R :=
  let sign := if face_sign then 1 else -1 in
  loop nq (fun q g =>
     let inside := column nq in_f q in
     let n := column nq nrml q in
     let nrml_veloc := dot nd inside n / inside nd / sqrt (sqnorm nd n) in
     let kin := / 2 * sqnorm nd inside / inside nd in
     let pres := std_max (4 / 10 * (inside (nd + 1)%nat - kin)) 0 in
     let sound_speed := sqrt (14 / 10 * pres / inside nd) in
     let ghost := if Rlt_dec (nrml_veloc * sign) sound_speed then upd inside (nd + 1) (pres_spec / (4 / 10) + kin) else inside in
     write_column nv nq ghost q g) gh_f.

(** ** Nonpenetration *)
(** src/Boundary_condition.cpp:302-317 *)
Definition reflect_normal (gh_f nrml : nat -> R) (nq nd : nat) : nat -> R :=
  loop nq (fun q g =>
    let dot := rsum nd (fun i => g (i * nq + q)%nat * nrml (i * nq + q)%nat) in
    let norm_sq := rsum nd (fun i => nrml (i * nq + q)%nat * nrml (i * nq + q)%nat) in
    loop nd (fun i g => upd g (i * nq + q) (g (i * nq + q)%nat - 2 * dot * nrml (i * nq + q)%nat / norm_sq)) g) gh_f.
(** src/Boundary_condition.cpp:319-331 *)
Definition nonpenetration_state (nd nv nq : nat) (in_f nrml gh_f : nat -> R) : nat -> R := reflect_normal (copy (nv * nq) in_f gh_f) nrml nq nd.
(** src/Boundary_condition.cpp:333-344 *)
Definition nonpenetration_flux (nd nv nq : nat) (in_f nrml gh_f : nat -> R) : nat -> R := reflect_normal (negate (nv * nq) in_f gh_f) nrml nq nd.
(** src/Boundary_condition.cpp:346-369 *)
Definition nonpenetration_advection (nd n_adv nq : nat) (in_f nrml gh_f : nat -> R) : nat -> R :=
  loop nq (fun q g =>
    let n := column nq nrml q in
    let veloc := column nq in_f q in
    let veloc := fun i => veloc i - 2 * dot nd veloc n * n i / sqnorm nd n in
    loop n_adv (fun a g => upd g ((nd + a) * nq + q) (in_f ((nd + a) * nq + q)%nat)) (loop nd (fun i g => upd g (i * nq + q) (veloc i)) g)) gh_f.

(** ** No slip *)
(** include/Boundary_condition.hpp:140-150 *)
Record thermal_bc : Type := Thermal { ghost_energy : (nat -> R) -> R; ghost_heat_flux : (nat -> R) -> R -> R }.
(** include/Boundary_condition.hpp:154-161; [state(last)] is entry [nv - 1] *)
Definition prescribed_energy (nv : nat) (energy_per_mass : R) : thermal_bc := Thermal (fun s => energy_per_mass * s (nv - 2)%nat) (fun _ h => h).
(** include/Boundary_condition.hpp:165-172 *)
Definition prescribed_heat_flux (nv : nat) (heat_flux : R) : thermal_bc := Thermal (fun s => s (nv - 1)%nat) (fun _ _ => heat_flux).
(** include/Boundary_condition.hpp:178-186, src/Boundary_condition.cpp:373-379 *)
Definition thermal_equilibrium (nv : nat) (gas stefan_boltzmann emissivity heat_transfer_coef temperature : R) : thermal_bc :=
  Thermal (fun s => s (nv - 1)%nat)
    (fun s _ => let temp := s (nv - 1)%nat * (4 / 10) / s (nv - 2)%nat / gas in
                emissivity * stefan_boltzmann * temp ^ 4 + heat_transfer_coef * (temp - temperature)).
(** src/Boundary_condition.cpp:381-400. Returns the ghost state and the cache. *)
Definition no_slip_state (thermal : thermal_bc) (nd nv nq : nat) (in_f gh_f sc : nat -> R) : (nat -> R) * (nat -> R) :=
  let g := loop (nd * nq) (fun i g => upd g i (- in_f i)) gh_f in
  let g := range (nd * nq) ((nd + 1) * nq) (fun i g => upd g i (in_f i)) g in
  let g := loop nq (fun q g => let state := column nq in_f q in upd g ((nd + 1) * nq + q) (ghost_energy thermal state ^ 2 / state (nv - 1)%nat)) g in
  (g, loop (nv * nq) (fun i c => upd c i ((g i + in_f i) / 2)) sc).
(** src/Boundary_condition.cpp:402-427 *)
Definition no_slip_flux (thermal : thermal_bc) (coercion : R) (nd nv nq : nat) (face_sign : bool) (sc in_f nrml gh_f : nat -> R) : nat -> R :=
  let g := loop (nd * nq) (fun i g => upd g i (in_f i)) gh_f in
  let g := range (nd * nq) ((nd + 1) * nq) (fun i g => upd g i (- in_f i)) g in
  loop nq (fun q g =>
    let i_dof := (q + (nd + 1) * nq)%nat in
    let normal := sqrt (rsum nd (fun i => nrml (i * nq + q)%nat * nrml (i * nq + q)%nat)) in
    let flux_sign := if face_sign then 1 else -1 in
    let state := column nq sc q in
    upd g i_dof (coercion * (normal * flux_sign * ghost_heat_flux thermal state (in_f i_dof * flux_sign / normal) - in_f i_dof) + in_f i_dof)) g.
(** src/Boundary_condition.cpp:429-448 *)
Definition no_slip_advection (nd n_adv nq : nat) (in_f gh_f : nat -> R) : nat -> R :=
  loop n_adv (fun a g => loop nq (fun q g => upd g ((nd + a) * nq + q) (in_f ((nd + a) * nq + q)%nat)) g)
    (loop nd (fun i g => loop nq (fun q g => upd g (i * nq + q) (- in_f (i * nq + q)%nat)) g) gh_f).
