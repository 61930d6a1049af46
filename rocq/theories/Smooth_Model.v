(** Model of the indicators of smoothness: src/stabilizing_art_visc.cpp:8-60, src/Element_func.cpp:34-104 ([Elem_average], [Elem_l2],
    [Elem_nonsmooth], [Normalized_nonsmooth]).

    Simplifications:
    - double is R with exact arithmetic; the logarithm of 0, minus infinity, is [None];
    - [w] are the node weights of the basis and [mode] is [basis.orthogonal(row_size - 1)]; one element and one variable at a time;
      [det] is [elem.jacobian_determinant];
    - [math::pow_outer] and [math::dimension_matvec] are those of Tensor_Model, the rows those of Row_Model. *)
From Coq Require Import Reals List Arith.
From Verif Require Import Outcome RSum Loop Tensor_Model Row_Model.
Import ListNotations.
Open Scope R_scope.

(** [std::log(x)/std::log(10)] of a number that is not negative *)
Definition log10 (x : R) : option R := if Rlt_dec 0 x then Some (ln x / ln 10) else None.
(** src/stabilizing_art_visc.cpp:53-55 *)
Definition ramp (center half_width : R) (indicator : option R) : R :=
  match indicator with
  | None => 0
  | Some x =>
    if Rle_dec x (center - half_width) then 0
    else if Rlt_dec x (center + half_width) then 1 / 2 * (1 + sin (PI * (x - center) / 2 / half_width))
    else 1
  end.
(** line 22 *)
Definition ramp_center (row_size : nat) : R := - (425 / 100) * ln (INR row_size - 1) / ln 10.

Section Element.
  Context (nd rs : nat) (w mode : nat -> R).
  (** lines 42-50: the sum over the rows, [_proj] is [mode] times the weights (line 26) *)
  Definition row_sum (u face_weights : nat -> R) : outcome R :=
    ofold (fun i_dim nonsmooth =>
      let! rows := row_loop (S (rs ^ (nd - 1))) (row_begin nd rs i_dim) in
      Ok (fold_left (fun acc ind => acc + (rsum rs (fun j => u (i_qpoint ind j) * (mode j * w j))) ^ 2 * face_weights (i_face_qpoint ind)) rows nonsmooth))
      (seq 0 nd) 0.
  (** lines 29-59, for one element with the given state and nominal size *)
  Definition stab_art_visc (char_speed nominal_size : R) (state : nat -> R) : outcome R :=
    let n_qpoint := (rs ^ nd)%nat in
    let! (_, qpoint_weights) := pow_outer (S nd) rs w nd in
    let! (_, face_weights) := pow_outer (S nd) rs w (nd - 1) in
    let indicator_var i_qpoint := 1 / state (nd * n_qpoint + i_qpoint)%nat in
    let norm_sq := rsum n_qpoint (fun i_qpoint => indicator_var i_qpoint * indicator_var i_qpoint * qpoint_weights i_qpoint) in
    let! nonsmooth := row_sum indicator_var face_weights in
    let nonsmooth := nonsmooth / (norm_sq * INR nd) in
    let indicator := ramp (ramp_center rs) (1 / 2) (log10 nonsmooth) in
    Ok ((INR rs - 1) * char_speed * nominal_size * indicator).

  (** src/Element_func.cpp:34-52, [avg] *)
  Definition avg (det vals : nat -> R) (pow : nat) : outcome R :=
    let! (_, weights) := pow_outer (S nd) rs w nd in
    let result := rsum (rs ^ nd) (fun i_qpoint => vals i_qpoint ^ pow * (weights i_qpoint * det i_qpoint)) in
    let volume := rsum (rs ^ nd) (fun i_qpoint => weights i_qpoint * det i_qpoint) in
    Ok (result / volume).
  (** lines 54-57 *)
  Definition elem_average (det vals : nat -> R) : outcome R := avg det vals 1.
  (** lines 59-64 *)
  Definition elem_l2 (det vals : nat -> R) : outcome R := let! result := avg det vals 2 in Ok (sqrt result).
  (** lines 66-95 *)
  Definition elem_nonsmooth (vals : nat -> R) : outcome R :=
    let! (_, weights) := pow_outer (S nd) rs w (nd - 1) in
    let max_orth := mk_mat 1 rs (fun _ j => mode j * w j) in
    let! result := ofold (fun i_dim result =>
      let! (size, proj) := dimension_matvec max_orth (rs ^ nd) vals i_dim in
      Ok (result + rsum size (fun f => proj f * (proj f * weights f)))) (seq 0 nd) 0 in
    Ok (sqrt (result / INR nd)).
  (** lines 97-104 *)
  Definition normalized_nonsmooth (det vals : nat -> R) : outcome R :=
    let! n := elem_nonsmooth vals in
    let! l := elem_l2 det vals in
    Ok (n / l).
End Element.
