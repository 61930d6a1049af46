(** The rest of [Solver::snap_faces], src/Solver_snap_faces.cpp: sweeps that make the adjustments of neighbouring elements at their
    common edges equal. The kernels are those of Spatial_Model; [node] are the nodes of the basis, [lob n] those of [Gauss_lobatto(n)]. *)
From Coq Require Import Reals List Arith.
From Verif Require Import RSum Row_Model Basis_Model Quad_Model Connection_Model Spatial_Model Spatial_Spec Free_Model.
Import ListNotations.
Local Open Scope R_scope.

(** what [Neighbor] uses of [Smooth_art_visc], include/pde.hpp:355-427: it averages 3 variables *)
Definition smooth_art_visc : pde := {|
  n_update := 3; n_extrap := 3; has_convection := false; has_diffusion := true; has_source := true;
  fetch_extrap := fun _ _ => 0; flux_conv := fun _ _ _ _ => 0; flux_diff := fun _ _ _ _ _ => 0; source := fun _ _ => 0;
  face_flux := fun _ _ _ => 0; face_update_state := fun _ _ => 0; face_char_speed := fun _ _ => 0; write_update := fun _ _ d v => d v |}.
(** line 74: the kernel for Cartesian connections, whose second template argument is [false], is applied to deformed ones *)
Definition plain (c : con) : con := {| c_face := c_face c; c_deformed := false; c_dir := c_dir c; c_normal := c_normal c |}.

(** include/math.hpp:52-55 *)
Definition msign (s : nat) : R := if (s =? 0)%nat then -1 else 1.
(** the boundary connections whose condition is that of the surface and whose element has adjustments: element, [i_dim] and
    [inside_face_sign] *)
Record wall := { w_elem : nat; w_dim : nat; w_sign : nat }.
Definition wall_offset (nd rs : nat) (w : wall) : nat := ((2 * w_dim w + w_sign w) * rs ^ nd / rs)%nat.

(** lines 33-37: [n_dof] numbers *)
Definition zero_state (nd rs : nat) (a : arr) : arr := fun k => if (k <? (nd + 2) * rs ^ nd)%nat then 0 else a k.
(** lines 44-53 *)
Definition fill_wall (nd rs : nat) (w : wall) (adj state : arr) : arr :=
  for_rows nd rs (w_dim w) (fun ind => loop rs (fun i_node s => put s (i_qpoint ind i_node) (msign (w_sign w) * adj (wall_offset nd rs w + i_face_qpoint ind)%nat))) state.
(** lines 90-102, for one dimension *)
Definition fit_dim (nd rs n : nat) (node lob : nat -> R) (faces : nat -> arr) (j_dim : nat) (state : arr) : arr :=
  for_rows nd rs j_dim (fun ind s =>
    let row := fun i_node => s (i_qpoint ind i_node) in
    let lrow := mat_vec rs (interpolate rs node lob) row in
    let lrow := loop 2 (fun i_sign l => put l (i_sign * (n - 1))%nat (faces (2 * j_dim + i_sign)%nat (i_face_qpoint ind))) lrow in
    let row := mat_vec n (interpolate n lob node) lrow in
    loop rs (fun i_node s => put s (i_qpoint ind i_node) (row i_node)) s) state.
(** lines 88-104 *)
Definition fit_state (nd rs n : nat) (node lob : nat -> R) (faces : nat -> arr) (i_dim : nat) (state : arr) : arr :=
  loop nd (fun j_dim s => if (j_dim =? i_dim)%nat then s else fit_dim nd rs n node lob faces j_dim s) state.
(** lines 105-107 *)
Definition read_wall (nd rs : nat) (w : wall) (state adj : arr) : arr :=
  for_rows nd rs (w_dim w) (fun ind a => put a (wall_offset nd rs w + i_face_qpoint ind)%nat (msign (w_sign w) * state (i_qpoint ind 0%nat))) adj.

(** the whole state; lines 25-31 save the states of the elements in the residual cache, lines 112-116 put them back *)
Definition with_state (x : data) (s : nat -> arr) : data := {| d_st := d_st x; d_ldg := d_ldg x; d_state := s; d_ref := d_ref x |}.
Definition save (m : mesh) (x : data) : data :=
  {| d_st := d_st x; d_ldg := d_ldg x; d_state := d_state x;
     d_ref := fold_left (fun r i => fput r i (fun k => if (k <? (m_dim m + 2) * m_row_size m ^ m_dim m)%nat then d_state x i k else r i k)) (elems m) (d_ref x) |}.
Definition put_back (m : mesh) (x : data) : data :=
  with_state x (fold_left (fun s i => fput s i (fun k => if (k <? (m_dim m + 2) * m_row_size m ^ m_dim m)%nat then d_ref x i k else s i k)) (elems m) (d_state x)).
(** lines 56-62, with [Copy::apply_state], src/Boundary_condition.cpp:12-22 and 450-453, which copies both the state and the LDG
    data; [bcs] has the inside and the ghost face of each boundary connection *)
Definition copy_bcs (bcs : list (nat * nat)) (st : nat -> arr) : nat -> arr := fold_left (fun s '(inside, ghost) => fput s ghost (s inside)) bcs st.
(** lines 63-73: [hang] are the first two fine connections of each refined connection of deformed elements. [nfq*n_var] behind
    [state(1, false)] is [state(1, true)], include/connection.hpp:84. *)
Definition double_coarse (nfq : nat) (hang : list con) (x : data) : data :=
  fold_left (fun x c => {| d_st := fput (d_st x) (c_face c false) (fun k => if (k <? nfq)%nat then d_st x (c_face c false) k * 2 else d_st x (c_face c false) k);
    d_ldg := fput (d_ldg x) (c_face c true) (fun k => if (k <? nfq)%nat then 0 else d_ldg x (c_face c true) k); d_state := d_state x; d_ref := d_ref x |}) hang x.
(** lines 33-75: the common values of neighbouring elements, in the LDG data of the faces; [adj] are the adjustments of the elements *)
Definition average (m : mesh) (hang : list con) (bcs : list (nat * nat)) (walls : list wall) (i_sweep : nat) (adj : nat -> arr) (x : data) : data :=
  let nd := m_dim m in let rs := m_row_size m in
  let x := with_state x (fold_left (fun s i => fput s i (zero_state nd rs (s i))) (elems m) (d_state x)) in
  let x := with_state x (fold_left (fun s w => fput s (w_elem w) (fill_wall nd rs w (adj (w_elem w)) (s (w_elem w)))) walls (d_state x)) in
  let x := run_write_face m (euler nd) (elems m) x in
  let x := run_prolong m (euler nd) false false x in
  let x := {| d_st := copy_bcs bcs (d_st x); d_ldg := copy_bcs bcs (d_ldg x); d_state := d_state x; d_ref := d_ref x |} in
  let x := if (i_sweep =? 0)%nat then x else double_coarse (rs ^ nd / rs) hang x in
  let x := run_neighbor m smooth_art_visc (map plain (def_cons m)) x in
  run_restrict m (euler nd) false true x.
(** lines 77-109 for one wall *)
Definition fit_step (m : mesh) (node : nat -> R) (n : nat) (lob : nat -> R) (s : (nat -> arr) * data) (w : wall) : (nat -> arr) * data :=
  let '(adj, x) := s in
  let i := w_elem w in
  let state := fit_state (m_dim m) (m_row_size m) n node lob (gather (m_elem m i) (d_ldg x)) (w_dim w) (d_state x i) in
  (fput adj i (read_wall (m_dim m) (m_row_size m) w state (adj i)), with_state x (fput (d_state x) i state)).
(** lines 32-110: one sweep *)
Definition sweep (m : mesh) (node : nat -> R) (lob : nat -> nat -> R) (hang : list con) (bcs : list (nat * nat)) (walls : list wall) (i_sweep : nat) (s : (nat -> arr) * data) : (nat -> arr) * data :=
  let '(adj, x) := s in
  let n := Nat.max 2 (m_row_size m - 1) in
  fold_left (fit_step m node n (lob n)) walls (adj, average m hang bcs walls i_sweep adj x).
(** lines 25-116; the part before is [snap_node_adj] on each boundary connection *)
Definition sweeps (m : mesh) (node : nat -> R) (lob : nat -> nat -> R) (hang : list con) (bcs : list (nat * nat)) (walls : list wall) (adj : nat -> arr) (x : data) : (nat -> arr) * data :=
  let '(adj, x) := loop (m_dim m - 1) (sweep m node lob hang bcs walls) (adj, save m x) in (adj, put_back m x).
