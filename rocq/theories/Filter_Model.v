(** Model of [filter_limit], src/filter_limit.cpp:8-28.

    Simplifications:
    - double is R with exact arithmetic;
    - [w] are the node weights of the basis and [orth i] is [basis.orthogonal(i)]; [data] are the values at the quadrature points;
    - [math::hypercube_matvec] is that of Tensor_Model, [Row_index] that of Row_Model. *)
From Coq Require Import Reals List Arith.
From Verif Require Import Outcome RSum Tensor_Model Row_Model.
Import ListNotations.
Open Scope R_scope.

(** lines 21-22 *)
Definition total (nd rs i_mode : nat) : nat := fold_left (fun t i_dim => t + (i_mode / ri_stride (row_begin nd rs i_dim)) mod rs)%nat (seq 0 nd) 0%nat.
(** lines 23-25 *)
Definition limit (norm decay_rate : R) (deg : nat) (mode : R) : R :=
  let threshold := norm * decay_rate ^ deg in
  let mode_norm := Rabs mode in
  if Rlt_dec threshold mode_norm then mode * (threshold / mode_norm) else mode.
(** lines 8-28 *)
Definition filter_limit (nd rs : nat) (w : nat -> R) (orth : nat -> nat -> R) (decay_rate : R) (data : nat -> R) : outcome (nat -> R) :=
  let n_qpoint := (rs ^ nd)%nat in
  let weighted := mk_mat rs rs (fun i j => orth i j * w j) in
  let! (_, modes) := hypercube_matvec (S nd) weighted n_qpoint data in
  let norm := sqrt (rsum n_qpoint (fun i => modes i ^ 2)) in
  let modes i_mode := limit norm decay_rate (total nd rs i_mode) (modes i_mode) in
  let! (_, qpoints) := hypercube_matvec (S nd) (mk_mat rs rs (fun i j => orth j i)) n_qpoint modes in
  Ok qpoints.
