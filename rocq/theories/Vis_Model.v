(** Model of src/Vis_data.cpp:7-109, 111-114 (sampling of an element for visualization; not the contours of 116-261) and of
    Solver::bounds_field (src/Solver.cpp:1171-1191). [double] is [R]; vectors are functions with a size (Tensor_Model). *)
From Coq Require Import Reals List Arith Bool.
From Verif Require Import Outcome Loop RSum Tensor_Model Basis_Model.
Import ListNotations.
Local Open Scope R_scope.

(** include/Vis_data.hpp:19-27: what the object refers to. [v_node] and [v_boundary] are [bas.node()] and [bas.boundary()]. *)
Record vis := mk_vis { v_dim : nat; v_row_size : nat; v_var : nat; v_node : nat -> R; v_boundary : nat -> nat -> R; v_vars : nat -> R }.
Definition n_qpoint (d : vis) : nat := (v_row_size d ^ v_dim d)%nat.
(** src/Vis_data.cpp:31 *)
Definition n_edge (d : vis) : nat := (2 ^ (v_dim d - 1) * v_dim d)%nat.

(** src/Vis_data.cpp:29-45, the constructor: [func q] is the vector [func(elem, bas, q, time)] of [n_var] entries *)
Definition fetch (nd rs n_var : nat) (node : nat -> R) (boundary : nat -> nat -> R) (func : nat -> list R) : outcome vis :=
  let nq := (rs ^ nd)%nat in
  let! vars := ofold (fun i_qpoint vars =>
    let v := func i_qpoint in
    ofold (fun i_var vars => let! x := aget v i_var in Ok (fun k => if (k =? nq * i_var + i_qpoint)%nat then x else vars k)) (seq 0 n_var) vars) (seq 0 nq) (fun _ => 0) in
  Ok (mk_vis nd rs n_var node boundary vars).

(** Eigen::VectorXd::LinSpaced(n, 0., 1.): a vector of one entry holds the upper limit *)
Definition lin_spaced (n i : nat) : R := if (n =? 1)%nat then 1 else INR i / (INR n - 1).
(** src/Vis_data.cpp:49, 82, 93: [interp] *)
Definition interp_mat (d : vis) (n_sample : nat) : matrix := mk_mat n_sample (v_row_size d) (interpolate (v_row_size d) (v_node d) (lin_spaced n_sample)).
(** [vars(seqN(i_var*n_qpoint, n_qpoint))] *)
Definition variable (d : vis) (i_var : nat) : nat -> R := fun q => v_vars d (i_var * n_qpoint d + q)%nat.

(** [result(seqN(i*n_block, n_block)) = block]: Eigen asserts that the sizes agree *)
Definition put_block (n_block i : nat) (block : nat * (nat -> R)) (result : nat -> R) : outcome (nat -> R) :=
  let (size, b) := block in
  if (size =? n_block)%nat then Ok (fun k => if (i * n_block <=? k)%nat && (k <? i * n_block + n_block)%nat then b (k - i * n_block)%nat else result k) else Throw.

(** src/Vis_data.cpp:80-89. [fuel] is for the recursion of [hypercube_matvec]. *)
Definition interior (fuel : nat) (d : vis) (n_sample : nat) : outcome (nat * (nat -> R)) :=
  let n_block := (n_sample ^ v_dim d)%nat in
  let! result := ofold (fun i_var result =>
    let! block := hypercube_matvec fuel (interp_mat d n_sample) (n_qpoint d) (variable d i_var) in
    put_block n_block i_var block result) (seq 0 (v_var d)) (fun _ => 0) in
  Ok ((n_block * v_var d)%nat, result).

(** src/Vis_data.cpp:91-106 *)
Definition face (fuel : nat) (d : vis) (i_dim : nat) (is_positive : bool) (n_sample : nat) : outcome (nat * (nat -> R)) :=
  let bound := mk_mat 1 (v_row_size d) (fun _ => v_boundary d (Nat.b2n is_positive)) in
  let n_block := (n_sample ^ (v_dim d - 1))%nat in
  let! result := ofold (fun i_var result =>
    let! (size, face_qpoints) := dimension_matvec bound (n_qpoint d) (variable d i_var) i_dim in
    let! block := hypercube_matvec fuel (interp_mat d n_sample) size face_qpoints in
    put_block n_block i_var block result) (seq 0 (v_var d)) (fun _ => 0) in
  Ok ((n_block * v_var d)%nat, result).

(** src/Vis_data.cpp:64-69: [qpoint_slab] *)
Definition slab (d : vis) (i_dim i_var i_qpoint : nat) (k : nat) : R :=
  let stride := (v_row_size d ^ (v_dim d - 1 - i_dim))%nat in
  let i_outer := (k / stride)%nat in
  let i_inner := (k mod stride)%nat in
  v_vars d (i_var * n_qpoint d + i_qpoint * stride + i_outer * stride * v_row_size d + i_inner)%nat.
(** src/Vis_data.cpp:62-73: [edge_qpoints], row by row *)
Definition edge_qpoints (fuel : nat) (d : vis) (i_dim i_var : nat) : outcome (nat -> nat -> R) :=
  ofold (fun i_qpoint rows =>
    let! (size, row) := hypercube_matvec fuel (mk_mat 2 (v_row_size d) (v_boundary d)) (n_qpoint d / v_row_size d) (slab d i_dim i_var i_qpoint) in
    if (size =? n_edge d / v_dim d)%nat then Ok (fun i => if (i =? i_qpoint)%nat then row else rows i) else Throw) (seq 0 (v_row_size d)) (fun _ _ => 0).
(** src/Vis_data.cpp:47-78: the matrix of [n_var*n_sample] rows and [n_edge] columns is stored column by column *)
Definition edges (fuel : nat) (d : vis) (n_sample : nat) : outcome (nat * (nat -> R)) :=
  let n_row := (v_var d * n_sample)%nat in
  let per_dim := (n_edge d / v_dim d)%nat in
  let! result := ofold (fun i_dim result => ofold (fun i_var result =>
    let! eq := edge_qpoints fuel d i_dim i_var in
    let col0 := (i_dim * n_edge d / v_dim d)%nat in
    Ok (fun k => let r := (k mod n_row)%nat in let c := (k / n_row)%nat in
      if (i_var * n_sample <=? r)%nat && (r <? i_var * n_sample + n_sample)%nat && (col0 <=? c)%nat && (c <? col0 + per_dim)%nat
      then matvec (interp_mat d n_sample) (fun i => eq i (c - col0)%nat) (r - i_var * n_sample)%nat else result k))
    (seq 0 (v_var d)) result) (seq 0 (v_dim d)) (fun _ => 0) in
  Ok ((n_row * n_edge d)%nat, result).

(** src/Vis_data.cpp:18-21: one dimension at a time, from the last *)
Fixpoint reduce (n : nat) (row_size : nat) (interp : nat -> nat -> R) (size : nat) (var : nat -> R) : outcome (nat * (nat -> R)) :=
  match n with
  | O => Ok (size, var)
  | S i_dim => let! (size, var) := dimension_matvec (mk_mat 1 row_size (fun _ => interp i_dim)) size var i_dim in reduce i_dim row_size interp size var
  end.
(** src/Vis_data.cpp:7-27: entry ([i_var], [i_sample]); [ref_coords i_dim i_sample]. The entries do not depend on each other. *)
Definition sample_entry (d : vis) (qpoint_data : nat -> R) (ref_coords : nat -> nat -> R) (i_var i_sample : nat) : outcome R :=
  let interp := interpolate (v_row_size d) (v_node d) (fun i_dim => ref_coords i_dim i_sample) in
  let! (size, var) := reduce (v_dim d) (v_row_size d) interp (n_qpoint d) (fun q => qpoint_data (i_var * n_qpoint d + q)%nat) in
  if (0 <? size)%nat then Ok (var 0%nat) else Ub.
(** src/Vis_data.cpp:108-111 *)
Definition sample (d : vis) (ref_coords : nat -> nat -> R) (i_var i_sample : nat) : outcome R := sample_entry d (v_vars d) ref_coords i_var i_sample.

(** [minCoeff] and [maxCoeff] of a vector of [n] entries; Eigen asserts that it is not empty *)
Definition coeff (pick : R -> R -> R) (n : nat) (v : nat -> R) : outcome R :=
  match n with O => Throw | S m => Ok (fold_left (fun x i => pick x (v i)) (seq 1 m) (v 0%nat)) end.
(** src/Solver.cpp:1171-1191: [elems] are the [Vis_data] of the elements in order; [big] is [numeric_limits<double>::max()].
    The result holds the lower and the upper bound of each variable. *)
Definition bounds_field (fuel : nat) (big : R) (elems : list vis) (n_dim n_var n_sample : nat) : outcome (nat -> R * R) :=
  let n_block := (n_sample ^ n_dim)%nat in
  ofold (fun elem bounds =>
    let! (_, vars) := interior fuel elem n_sample in
    ofold (fun i_var bounds =>
      let var := fun k => vars (i_var * n_block + k)%nat in
      let! lo := coeff Rmin n_block var in
      let! hi := coeff Rmax n_block var in
      Ok (fun v => if (v =? i_var)%nat then (Rmin lo (fst (bounds v)), Rmax hi (snd (bounds v))) else bounds v)) (seq 0 n_var) bounds)
    elems (fun _ => (big, - big)).
