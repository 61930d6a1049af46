(** Jacobians and surface normals: [Deformed_element::position], [set_jacobian] of both kinds of elements and
    [Solver::calc_jacobian]. Arrays are functions, [double] is [R]. *)
From Coq Require Import Reals List Arith.
From Verif Require Import Outcome RSum Tensor_Model Connection_Model Spatial_Model Spatial_Spec.
Import ListNotations.
Local Open Scope R_scope.

(** [math::dimension_matvec] of Tensor_Model without the size; it fails only for matrices without columns *)
Definition apply_dim (m : matrix) (size : nat) (v : arr) (i_dim : nat) : arr :=
  match dimension_matvec m size v i_dim with Ok (_, f) => f | _ => fun _ => 0 end.

(** ** src/Deformed_element.cpp:16-59: one component of the position of quadrature point [q]; [vert] are the positions of the
    vertices and [adj] the adjustments of the nodes *)
(** lines 38-43: the face quadrature point in the same row; [face_stride] is divided once for each other dimension *)
Definition face_qpoint (nd rs q j_dim : nat) : nat :=
  fst (loop nd (fun k_dim '(i, face_stride) => if (k_dim =? j_dim)%nat then (i, face_stride)
    else (i + (q / rs ^ (nd - k_dim - 1)) mod rs * face_stride, face_stride / rs)%nat) (0, rs ^ nd / rs / rs)%nat).
(** lines 30-54, with the size of [vert_pos]; the dimensions are contracted from the last to the first *)
Definition position (nd rs : nat) (node : nat -> R) (vert adj : arr) (q : nat) : R :=
  let nfq := (rs ^ nd / rs)%nat in
  let '(vert_pos, adjustments) := fold_left (fun '(vert_pos, adjustments) j_dim =>
    let x := node ((q / rs ^ (nd - j_dim - 1)) mod rs)%nat in
    let interp j := if (j =? 0)%nat then 1 - x else x in
    let size := (2 ^ (j_dim + 1))%nat in
    let i_adjust := (2 * j_dim * nfq + face_qpoint nd rs q j_dim)%nat in
    let adjust j := adj (i_adjust + j * nfq)%nat in
    (apply_dim (mk_mat 1 2 (fun _ => interp)) size vert_pos j_dim,
     fun k_dim => apply_dim (mk_mat 1 2 (fun _ j => if (j_dim =? k_dim)%nat
       then (if (j =? 0)%nat then - (adjust 0%nat * interp 0%nat) - adjust 1%nat * interp 1%nat else adjust 0%nat * interp 0%nat + adjust 1%nat * interp 1%nat) else interp j)) size (adjustments k_dim) j_dim))
    (rev (seq 0 nd)) (vert, fun _ => vert) in
  loop nd (fun j_dim pos => pos + adjustments j_dim 0%nat) (vert_pos 0%nat).

(** ** src/Deformed_element.cpp:61-117 *)
(** [Eigen]'s determinant, for up to three dimensions *)
Definition determinant (n : nat) (a : nat -> nat -> R) : R :=
  match n with
  | O => 1
  | 1%nat => a 0%nat 0%nat
  | 2%nat => a 0%nat 0%nat * a 1%nat 1%nat - a 0%nat 1%nat * a 1%nat 0%nat
  | _ => a 0%nat 0%nat * (a 1%nat 1%nat * a 2%nat 2%nat - a 1%nat 2%nat * a 2%nat 1%nat) - a 0%nat 1%nat * (a 1%nat 0%nat * a 2%nat 2%nat - a 1%nat 2%nat * a 2%nat 0%nat)
    + a 0%nat 2%nat * (a 1%nat 0%nat * a 2%nat 1%nat - a 1%nat 1%nat * a 2%nat 0%nat)
  end.
(** [setUnit] on a column, lines 88 and 112 *)
Definition unit_col (a : nat -> nat -> R) (i j : nat) : nat -> nat -> R := fun r c => if (c =? i)%nat then if (r =? j)%nat then 1 else 0 else a r c.
(** lines 66-74: [pos] has the components of the positions *)
Definition jacobian (nd rs : nat) (b : basis) (size : R) (pos : nat -> arr) (i_dim j_dim : nat) : arr :=
  fun q => apply_dim (mk_mat rs rs (b_diff b)) (rs ^ nd) (pos i_dim) j_dim q / size.
(** lines 76-92 *)
Definition set_det (nd rs : nat) (b : basis) (size : R) (pos : nat -> arr) : arr := fun q => determinant nd (fun r c => jacobian nd rs b size pos r c q).
Definition set_nrml (nd rs : nat) (b : basis) (size : R) (pos : nat -> arr) : arr := fun k =>
  let nq := (rs ^ nd)%nat in determinant nd (unit_col (fun r c => jacobian nd rs b size pos r c (k mod nq)%nat) (k / nq / nd)%nat ((k / nq) mod nd)%nat).
(** lines 94-117, face [f = 2*i_dim + sign] *)
Definition set_face_nrml (nd rs : nat) (b : basis) (size : R) (pos : nat -> arr) (f : nat) : arr := fun k =>
  let nfq := (rs ^ (nd - 1))%nat in
  determinant nd (unit_col (fun r c => apply_dim (mk_mat 1 rs (fun _ => b_boundary b (f mod 2)%nat)) (rs ^ nd) (jacobian nd rs b size pos r c) (f / 2)%nat (k mod nfq)%nat) (f / 2)%nat (k / nfq)%nat).
(** the normals that [set_jacobian] writes to a face: for Cartesian elements src/Element.cpp:99-112 *)
Definition own_normal (nd rs : nat) (b : basis) (e : elem) (pos : nat -> arr) (f : nat) : arr :=
  if e_deformed e then set_face_nrml nd rs b (e_size e) pos f else fun k => if (k / rs ^ (nd - 1) =? f / 2)%nat then 1 else 0.

(** ** src/Solver.cpp:273-357. [pos] are the positions of the points of each element. Of [m], the normals and determinants are
    set. [hang] are the connections of fine elements with mortar faces, [bcs] those of the boundary. The data are the face states.
    The normals that [Element::face_normal] points to are copies of the face states and not modelled. *)
Definition write (n : nat) (a old : arr) : arr := fun k => if (k <? n)%nat then a k else old k.
(** lines 281-286 *)
Definition set_elem (m : mesh) (pos : nat -> nat -> arr) (i : nat) : elem :=
  let e := m_elem m i in
  if e_deformed e then {| e_face := e_face e; e_tss := e_tss e; e_size := e_size e; e_deformed := e_deformed e;
    e_det := set_det (m_dim m) (m_row_size m) (m_basis m) (e_size e) (pos i); e_nrml := set_nrml (m_dim m) (m_row_size m) (m_basis m) (e_size e) (pos i); e_face_nrml := e_face_nrml e |} else e.
Definition set_faces (m : mesh) (pos : nat -> nat -> arr) (l : list nat) (st : nat -> arr) : nat -> arr :=
  fold_left (fun st i => let e := m_elem m i in loop (2 * m_dim m) (fun f st =>
    fput st (e_face e f) (write (m_dim m * m_row_size m ^ (m_dim m - 1)) (own_normal (m_dim m) (m_row_size m) (m_basis m) e (pos i) f) (st (e_face e f)))) st) l st.
(** line 299 *)
Definition prolong_normals (m : mesh) (st : nat -> arr) : nat -> arr :=
  fold_left (fun s r => prolong_refined (m_dim m) (m_row_size m) (m_dim m + 2) (m_basis m) true (r_coarse r) (r_fine r) (r_stretch r) s) (ref_faces m) st.
(** lines 300-317; the order is not reversed (src/Accessible_mesh.cpp:217, 760, 1741). [face_permutation] moves [n_dim + 2] variables. *)
Definition set_fine (nd rs : nat) (c : con) (st : nat -> arr) : nat -> arr :=
  let d := c_dir c in
  let sign := if Bool.eqb (flip_normal d false) (flip_normal d true) then 1 else -1 in
  let face1 := fp_match nd rs (nd + 2) d (st (c_face c true)) in
  let face1 := write (nd * rs ^ (nd - 1)) (fun k => sign * st (c_face c false) k) face1 in
  fput st (c_face c true) (fp_restore nd rs (nd + 2) d face1).
(** lines 318-325 *)
Definition set_ghost (nd rs : nat) (c : con) (st : nat -> arr) : nat -> arr :=
  fput st (c_face c true) (write (nd * rs ^ (nd - 1)) (st (c_face c false)) (st (c_face c true))).
(** lines 326-356 *)
Definition flip_sign (d : direction) (side : bool) : R := if flip_normal d side then -1 else 1.
Definition share (nd rs : nat) (c : con) (st : nat -> arr) : nat -> arr :=
  let d := c_dir c in
  let face0 := st (c_face c false) in
  let face1 := fp_match nd rs (nd + 2) d (st (c_face c true)) in
  let n := fun k => 0 + 1 / 2 * flip_sign d false * face0 k + 1 / 2 * flip_sign d true * face1 k in
  let st := fput st (c_face c false) (write (nd * rs ^ (nd - 1)) (fun k => flip_sign d false * n k) face0) in
  fput st (c_face c true) (fp_restore nd rs (nd + 2) d (write (nd * rs ^ (nd - 1)) (fun k => flip_sign d true * n k) face1)).
(** [normal()] is [normal(0)], include/connection.hpp:85-86 *)
Definition with_normal (c : con) (a : arr) : con := {| c_face := c_face c; c_deformed := c_deformed c; c_dir := c_dir c; c_normal := a |}.
Definition share_all (nd rs : nat) (l : list con) (s : (nat -> arr) * list con) : (nat -> arr) * list con :=
  fold_left (fun '(st, out) c => let st := share nd rs c st in (st, out ++ [with_normal c (st (c_face c false))])) l s.
Definition calc_jacobian (m : mesh) (pos : nat -> nat -> arr) (hang bcs : list con) (st : nat -> arr) : mesh * (nat -> arr) :=
  let nd := m_dim m in let rs := m_row_size m in
  let st := set_faces m pos (elems m) st in
  let st := prolong_normals m st in
  let st := fold_left (fun st c => set_fine nd rs c st) hang st in
  let st := fold_left (fun st c => set_ghost nd rs c st) bcs st in
  let '(st, cons') := share_all nd rs (def_cons m) (st, []) in
  ({| m_dim := nd; m_row_size := rs; m_basis := m_basis m; car_cons := car_cons m; def_cons := cons'; car_elems := car_elems m; def_elems := def_elems m;
      m_elem := set_elem m pos; ref_faces := ref_faces m |}, st).
