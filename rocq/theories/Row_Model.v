(** Rows of quadrature points: /repo/include/Row_index.hpp and /repo/include/Row_rw.hpp.

    Indices are natural numbers (no overflow of [int]: the number of quadrature points of a supported element is at most
    8^3); [double] is modelled by exact real numbers, so [coef*d + w] is not rounded and NaN/infinity do not exist. *)
From Coq Require Import Reals List Arith.
From Verif Require Import Outcome ListUtil Loop.
Import ListNotations.

(** class Row_index, include/Row_index.hpp:14-25 (the private counters and the public constants) *)
Record row_index := mk_row_index {
  i_outer : nat; i_inner : nat; i_fq : nat;
  ri_n_dim : nat; ri_row_size : nat; ri_i_dim : nat; ri_n_qpoint : nat; ri_n_fqpoint : nat; ri_stride : nat }.

(** constructor, Row_index.hpp:32-37; [math::pow] is verified in Math_Model (pow_int) *)
Definition row_begin (nd rs id : nat) : row_index :=
  mk_row_index 0 0 0 nd rs id (rs ^ nd) (rs ^ nd / rs) (rs ^ (nd - 1 - id)).

(** operator++, Row_index.hpp:40-48 *)
Definition row_next (r : row_index) : row_index :=
  let fq := i_fq r + 1 in
  let inner := i_inner r + 1 in
  if inner =? ri_stride r
  then mk_row_index (i_outer r + 1) 0 fq (ri_n_dim r) (ri_row_size r) (ri_i_dim r) (ri_n_qpoint r) (ri_n_fqpoint r) (ri_stride r)
  else mk_row_index (i_outer r) inner fq (ri_n_dim r) (ri_row_size r) (ri_i_dim r) (ri_n_qpoint r) (ri_n_fqpoint r) (ri_stride r).

(** operator bool, Row_index.hpp:52 *)
Definition row_valid (r : row_index) : bool := i_fq r <? ri_n_fqpoint r.

(** i_face_qpoint, Row_index.hpp:55 *)
Definition i_face_qpoint (r : row_index) : nat := i_fq r.

(** i_qpoint, Row_index.hpp:59 *)
Definition i_qpoint (r : row_index) (node : nat) : nat :=
  i_outer r * ri_stride r * ri_row_size r + i_inner r + node * ri_stride r.

(** i_node, Row_index.hpp:63 *)
Definition i_node (r : row_index) (q : nat) : nat := (q / ri_stride r) mod ri_row_size r.

(** The loop [for (Row_index ind(n_dim, row_size, i_dim); ind; ++ind)] of the kernels (e.g. include/Spatial.hpp:51):
    the list of values of [ind] with which the body is executed. *)
Fixpoint row_loop (fuel : nat) (r : row_index) : outcome (list row_index) :=
  match fuel with
  | 0 => NoFuel
  | S fuel' => if row_valid r then let! l := row_loop fuel' (row_next r) in Ok (r :: l) else Ok []
  end.

(** A fixed-size Eigen matrix: entry (i, j). *)
Definition mat := nat -> nat -> R.
Definition mset (m : mat) (i j : nat) (x : R) : mat := fun a b => if ((a =? i) && (b =? j))%bool then x else m a b.

(** Row_rw::read_row, Row_rw.hpp:30-39 *)
Definition read_row (n_var row_size : nat) (data : list R) (ind : row_index) (r0 : mat) : outcome mat :=
  ofold (fun i_var => ofold (fun i_row r =>
    let! x := aget data (i_var * ri_n_qpoint ind + i_qpoint ind i_row) in Ok (mset r i_row i_var x))
    (seq 0 row_size)) (seq 0 n_var) r0.

(** Row_rw::write_row, Row_rw.hpp:42-50 *)
Definition write_row (n_var row_size : nat) (w : mat) (data : list R) (ind : row_index) (coef : R) : outcome (list R) :=
  ofold (fun i_var => ofold (fun i_row data =>
    let k := i_var * ri_n_qpoint ind + i_qpoint ind i_row in
    let! d := aget data k in aset data k (coef * d + w i_row i_var)%R)
    (seq 0 row_size)) (seq 0 n_var) data.

(** Row_rw::read_bound, Row_rw.hpp:53-62. [faces] are the data of the six faces: distinct, non-null arrays. *)
Definition read_bound (n_var : nat) (faces : nat -> list R) (ind : row_index) (b0 : mat) : outcome mat :=
  ofold (fun i_var => ofold (fun is_positive b =>
    let! x := aget (faces (ri_i_dim ind * 2 + is_positive)) (i_var * ri_n_fqpoint ind + i_face_qpoint ind) in
    Ok (mset b is_positive i_var x)) [0; 1]) (seq 0 n_var) b0.

Definition fset {A} (f : nat -> A) (i : nat) (x : A) : nat -> A := fun j => if j =? i then x else f j.

(** Row_rw::write_bound, Row_rw.hpp:65-72 *)
Definition write_bound (n_var : nat) (b : mat) (faces : nat -> list R) (ind : row_index) : outcome (nat -> list R) :=
  ofold (fun i_var => ofold (fun is_positive faces =>
    let f := ri_i_dim ind * 2 + is_positive in
    let! l := aset (faces f) (i_var * ri_n_fqpoint ind + i_face_qpoint ind) (b is_positive i_var) in
    Ok (fset faces f l)) [0; 1]) (seq 0 n_var) faces.
