(** /repo/src/Physical_basis.cpp: polynomial indices and scaled coordinates. *)
From Coq Require Import Reals List Arith.
From Verif Require Import Outcome ListUtil Loop.
Import ListNotations.

(** size(), Physical_basis.cpp:41-49 (without overflow) *)
Definition basis_size (n_dim row_size : nat) : nat :=
  match n_dim with
  | 1 => row_size
  | 2 => row_size * (row_size + 1) / 2
  | 3 => row_size * (row_size + 1) * (row_size + 2) / 6
  | _ => 0
  end.

(** the loop body, Physical_basis.cpp:30-36: [++inds.back()], then carry from the last to the first dimension *)
Definition next_inds (n_dim row_size : nat) (inds : list nat) : outcome (list nat) :=
  if n_dim =? 0 then Ub else
  let! last := aget inds (n_dim - 1) in
  let! inds := aset inds (n_dim - 1) (S last) in
  ofold (fun k inds =>
    let i_dim := n_dim - 1 - k in
    if row_size <=? list_sum inds then
      let! inds := aset inds i_dim 0 in
      let! p := aget inds (i_dim - 1) in
      aset inds (i_dim - 1) (S p)
    else Ok inds) (seq 0 (n_dim - 1)) inds.

(** Physical_basis.cpp:27-38: the index vectors of the basis functions in order ([indices[i_dim][i_basis]] is entry [i_dim] of the
    [i_basis]-th). *)
Definition basis_indices (n_dim row_size : nat) : outcome (list (list nat)) :=
  let! (l, _) := ofold (fun _ s =>
    let! inds := next_inds n_dim row_size (snd s) in Ok (fst s ++ [snd s], inds)) (seq 0 (basis_size n_dim row_size)) ([], repeat 0 n_dim) in
  Ok l.

Local Open Scope R_scope.
(** [std::max_element], [std::min_element] of one coordinate of the quadrature points (which are not empty) *)
Definition list_max (x : R) (l : list R) : R := fold_left Rmax l x.
Definition list_min (x : R) (l : list R) : R := fold_left Rmin l x.
(** the scaled coordinate in evaluate(), Physical_basis.cpp:19-24 and 55-56; [x :: l] are all the values of the coordinate.
    A bounding box without extent is a division by zero. *)
Definition scaled_coord (x : R) (l : list R) (p : R) : option R :=
  let max := list_max x l in
  let min := list_min x l in
  let center := (min + max) / 2 in
  let size := max - min in
  if Req_EM_T size 0 then None else Some ((p - center) / size * 1.99).
