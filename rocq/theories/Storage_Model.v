(** Storage layout of elements, connections and PDEs.

    Sources: /repo/src/Storage_params.cpp, /repo/include/Storage_params.hpp, /repo/src/Element.cpp, /repo/include/connection.hpp,
    /repo/include/pde.hpp, /repo/include/Spatial.hpp.
    A [double*] into a storage array is modelled by its offset from the beginning of the array. [int] arithmetic is modelled by
    natural numbers without overflow. *)
From Coq Require Import List Arith.
Import ListNotations.

(** class Storage_params, include/Storage_params.hpp:8-29 *)
Record storage_params := mk_params { n_stage : nat; n_var : nat; n_dim : nat; row_size : nat; n_forcing : nat }.

(** n_advection, include/Storage_params.hpp:12 *)
Definition n_advection (rs : nat) : nat := rs.
(** n_qpoint, n_face_qpoint, n_dof, n_vertices: src/Storage_params.cpp:7-30 *)
Definition n_qpoint (p : storage_params) : nat := row_size p ^ n_dim p.
Definition n_face_qpoint (p : storage_params) : nat := row_size p ^ (n_dim p - 1).
Definition n_dof (p : storage_params) : nat := n_qpoint p * n_var p.
Definition n_vertices (p : storage_params) : nat := 2 ^ n_dim p.
(** n_var_numeric, n_dof_numeric: src/Storage_params.cpp:32-40 *)
Definition n_var_numeric (p : storage_params) : nat :=
  n_var p + 3 + n_forcing p + n_advection (row_size p) + Nat.max ((n_stage p - 1) * n_var p) (n_advection (row_size p)).
Definition n_dof_numeric (p : storage_params) : nat := n_var_numeric p * n_qpoint p.

(** Size of [Element::data] and [Element::vertex_data], constructor, src/Element.cpp:14-15 *)
Definition data_size (p : storage_params) : nat := n_dof_numeric p.
Definition vertex_data_size (p : storage_params) : nat := 2 * n_vertices p.

(** Element::state, residual_cache: src/Element.cpp:187-188 *)
Definition state (p : storage_params) : nat := 0.
Definition residual_cache (p : storage_params) : nat := (n_var p + 3 + n_forcing p + row_size p) * n_qpoint p.
(** Element::stage, src/Element.cpp:114-117 *)
Definition stage (p : storage_params) (i_stage : nat) : nat :=
  if 0 <? i_stage then residual_cache p + (i_stage - 1) * n_dof p else state p.
(** Element::time_step_scale, bulk_av_coef, laplacian_av_coef, art_visc_forcing, advection_state: src/Element.cpp:119-142 *)
Definition time_step_scale (p : storage_params) : nat := 0 + n_dof p.
Definition bulk_av_coef (p : storage_params) : nat := time_step_scale p + n_qpoint p.
Definition laplacian_av_coef (p : storage_params) : nat := bulk_av_coef p + n_qpoint p.
Definition art_visc_forcing (p : storage_params) : nat := laplacian_av_coef p + n_qpoint p.
Definition advection_state (p : storage_params) : nat := art_visc_forcing p + n_forcing p * n_qpoint p.

(** Element::vertex_time_step_scale, vertex_elwise_av (offsets in vertex_data): src/Element.cpp:163-171 *)
Definition vertex_time_step_scale (p : storage_params) (i_vertex : nat) : nat := i_vertex.
Definition vertex_elwise_av (p : storage_params) (i_vertex : nat) : nat := n_vertices p + i_vertex.

(** Element::face, src/Element.cpp:189: offset from [faces[i_face]] *)
Definition face_offset (p : storage_params) (is_ldg : bool) : nat := Nat.b2n is_ldg * n_dof p / row_size p.

(** Face_connection<Element>, include/connection.hpp:52-67; Face_connection<Deformed_element>, connection.hpp:69-87 *)
Definition state_sz (p : storage_params) : nat := n_dof p / row_size p.
Definition face_sz (p : storage_params) : nat :=
  Nat.max (2 * state_sz p) ((n_dim p + n_advection (row_size p)) * n_face_qpoint p).
Definition nrml_sz (p : storage_params) : nat := n_dim p * n_face_qpoint p.
Definition con_data_size (deformed : bool) (p : storage_params) : nat :=
  if deformed then 2 * (nrml_sz p + face_sz p) else 2 * face_sz p.
Definition con_state (p : storage_params) (i_side : nat) (is_ldg : bool) : nat := i_side * face_sz p + Nat.b2n is_ldg * state_sz p.
(** normal(i_side) of the deformed connection, connection.hpp:85; [normal()] is [normal(0)] *)
Definition con_normal (p : storage_params) (i_side : nat) : nat := 2 * face_sz p + i_side * nrml_sz p.

(** size of [coarse_state_data], Refined_connection constructor, include/connection.hpp:233 *)
Definition coarse_size (p : storage_params) : nat := 3 * n_dof p / row_size p.

(** offsets of namespace pde, include/pde.hpp:17-21 (in units of n_qpoint) *)
Definition tss_offset (nd : nat) : nat := nd + 2.
Definition bulk_av_offset (nd : nat) : nat := nd + 3.
Definition laplacian_av_offset (nd : nat) : nat := nd + 4.
Definition forcing_offset (nd : nat) : nat := nd + 5.
Definition advection_offset (nd : nat) : nat := nd + 9.

(** The PDE classes as far as storage is concerned, include/pde.hpp: [has_diffusion], [has_convection], [n_extrap], [n_update];
    [reads] are the variables read from the element state by fetch_state, fetch_extrap and write_update, [writes] those written
    by write_update. *)
Record pde := mk_pde {
  has_diffusion : bool; has_convection : bool; n_extrap : nat; n_update : nat;
  reads : list nat; writes : list nat }.

(** Navier_stokes<visc>::Pde, pde.hpp:45-84 *)
Definition navier_stokes (visc : bool) (nd rs : nat) : pde :=
  mk_pde visc true (nd + 2) (nd + 2) (seq 0 (nd + 2) ++ [bulk_av_offset nd; laplacian_av_offset nd]) (seq 0 (nd + 2)).
(** Advection, pde.hpp:273-300 *)
Definition advection (nd rs : nat) : pde :=
  mk_pde false true (nd + rs) rs (seq 0 nd ++ seq (advection_offset nd) rs ++ [tss_offset nd]) (seq (advection_offset nd) rs).
(** Smooth_art_visc, pde.hpp:359-400 *)
Definition smooth_art_visc (nd rs : nat) : pde :=
  mk_pde true false 3 3 (seq (forcing_offset nd) 4 ++ [tss_offset nd]) (seq (forcing_offset nd + 1) 3).
(** Fix_therm_admis, pde.hpp:441-471 *)
Definition fix_therm_admis (nd rs : nat) : pde := mk_pde true false (nd + 2) (nd + 2) (seq 0 (nd + 2)) (seq 0 (nd + 2)).
Definition all_pdes (nd rs : nat) : list pde :=
  [navier_stokes false nd rs; navier_stokes true nd rs; advection nd rs; smooth_art_visc nd rs; fix_therm_admis nd rs].
