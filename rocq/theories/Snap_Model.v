(** Snapping of faces to a surface: [Element::face_position] and [Geom_mbc::snap_node_adj], the first part of [Solver::snap_faces].
    Arrays are functions, [double] is [R], points are lists of coordinates. *)
From Coq Require Import Reals List Arith Bool.
From Verif Require Import Outcome RSum Tensor_Model Basis_Model Spatial_Model Jac_Model.
Import ListNotations.
Local Open Scope R_scope.

(** ** src/Element.cpp:73-97: one component of the position of point [k] of face [f] *)
(** lines 78-86 *)
Definition row_start (nd rs i_dim k : nat) : nat :=
  fst (fold_left (fun '(i_row_start, face_stride) j_dim => if (i_dim =? j_dim)%nat then (i_row_start, face_stride)
    else (i_row_start + (k / face_stride) mod rs * rs ^ (nd - 1 - j_dim), face_stride * rs)%nat) (rev (seq 0 nd)) (0, 1)%nat).
Definition face_position (nd rs : nat) (b : basis) (node : nat -> R) (vert adj : arr) (f k : nat) : R :=
  rsum rs (fun i => b_boundary b (f mod 2)%nat i * position nd rs node vert adj (row_start nd rs (f / 2) k + rs ^ (nd - 1 - f / 2) * i)%nat).

(** [math::hypercube_matvec] of Tensor_Model without the size; it fails only for matrices without columns *)
Definition apply_cube (m : matrix) (size : nat) (v : arr) : arr :=
  match hypercube_matvec (S size) m size v with Ok (_, f) => f | _ => fun _ => 0 end.
Definition rgt (x y : R) : bool := if Rlt_dec y x then true else false.

(** [Surface_geom]: the intersections of the line through two points, as multiples of their distance from the first, and the
    nearest point; any functions *)
Record geometry := { intersections : list R -> list R -> list R; nearest_point : list R -> R -> list R }.

(** ** src/Boundary_condition.cpp:508-586. [lob n] are the nodes of [Gauss_lobatto(n)]. Returns [node_adjustments()] and
    [snapping_problem]. The assertion that the numbers are finite always holds in [R]. *)
Section Snap.
Variables (nd rs : nat) (b : basis) (node : nat -> R) (lob : nat -> nat -> R) (geom : geometry) (nominal_size : R).
Variables (i_dim sign : nat) (vert : nat -> arr).
Definition snap_face : nat := (2 * i_dim + sign)%nat.
Definition snap_nfq : nat := (rs ^ nd / rs)%nat.
(** lines 518 and 519: [adjustments] is part of the array *)
Definition set_adjustments (adj a : arr) : arr := fun k => if (k / snap_nfq =? snap_face)%nat then a (k mod snap_nfq)%nat else adj k.
(** lines 511-513, 568 and 569 *)
Definition to_lob (n : nat) : matrix := mk_mat n rs (interpolate rs node (lob n)).
Definition from_lob (n : nat) : matrix := mk_mat rs n (interpolate n (lob n) node).
(** lines 523-533 and 562-575: point [l] of the rule of [n] nodes, on the face with sign [s] *)
Definition lob_pos (n : nat) (adj : arr) (s l : nat) : list R :=
  map (fun r => apply_cube (to_lob n) snap_nfq (fun k => face_position nd rs b node (vert r) adj (2 * i_dim + s) k) l) (seq 0 nd).
(** lines 539-547: [best_adj] and [distance] *)
Definition choose (sects : list R) : R * R :=
  fold_left (fun '(best_adj, distance) sect => let adj := sect - INR sign in if rgt distance (Rabs adj) then (adj, Rabs adj) else (best_adj, distance)) sects (0, 1).
(** lines 552-559 *)
Definition steep (a : arr) : bool :=
  let dm := mk_mat rs rs (b_diff b) in
  let d0 := apply_dim dm snap_nfq a 0 in
  let derivatives := (if (2 <=? nd)%nat then [d0] else []) ++ (if (nd =? 3)%nat then [apply_dim dm snap_nfq a 1; apply_dim dm snap_nfq d0 1] else []) in
  existsb (fun d => existsb (fun k => rgt (Rabs (d k)) 1) (seq 0 snap_nfq)) derivatives.
(** lines 576-583 *)
Definition dot (x y : list R) : R := fold_right Rplus 0 (map (fun p => fst p * snd p) (combine x y)).
Definition minus (x y : list R) : list R := map (fun p => fst p - snd p) (combine x y).
Definition toward (adj : arr) (l : nat) : R :=
  let eps := / 10 ^ 12 * nominal_size in
  let p := lob_pos 3 adj sign l in
  let diff := minus (lob_pos 3 adj 1 l) (lob_pos 3 adj 0 l) in
  dot (minus (nearest_point geom p nominal_size) p) diff / (dot diff diff + eps).
(** [deformed] elements have adjustments *)
Definition snap_node_adj (deformed needs_snapping problem : bool) (adj : arr) : arr * bool :=
  if (negb deformed || negb needs_snapping)%bool then (adj, problem) else
  let n := Nat.max 2 (rs - 1) in
  let nlq := (n ^ (nd - 1))%nat in
  let adj := set_adjustments adj (fun _ => 0) in
  let choice l := choose (intersections geom (lob_pos n adj 0 l) (lob_pos n adj 1 l)) in
  let face_adj l := fst (choice l) in
  let far := existsb (fun l => rgt (snd (choice l)) (999 / 1000)) (seq 0 nlq) in
  let adjustments := apply_cube (from_lob n) nlq face_adj in
  let problem := (far || steep adjustments)%bool in
  if problem then
    if (3 <? rs)%nat then (set_adjustments adj (apply_cube (from_lob 3) (3 ^ (nd - 1)) (toward adj)), true) else (adj, true)
  else (set_adjustments adj adjustments, false).
End Snap.
