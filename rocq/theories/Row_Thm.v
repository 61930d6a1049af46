(** Theorems about rows of quadrature points (property C20). *)
From Coq Require Import Reals List Arith Lra Lia Permutation.
From Verif Require Import Outcome ListUtil Loop Tensor_Spec Row_Model Row_Spec Row_Proofs.
Import ListNotations.

(** C20: the loop over rows along dimension [id] ends after one pass per face quadrature point; the [f]-th pass is the row
    of points whose other coordinates are those of face point [f]; altogether every quadrature point is visited once. *)
Theorem rows_partition_element : forall n rs id, 0 < rs -> id < n -> exists l,
  row_loop (S (rs ^ (n - 1))) (row_begin n rs id) = Ok l
  /\ length l = rs ^ (n - 1)
  /\ (forall f, f < rs ^ (n - 1) -> exists ind, nth_error l f = Some ind /\ i_face_qpoint ind = f
        /\ forall j, j < rs -> in_row n rs id f j (i_qpoint ind j) /\ i_node ind (i_qpoint ind j) = j)
  /\ Permutation (flat_map (fun ind => map (i_qpoint ind) (seq 0 rs)) l) (seq 0 (rs ^ n)).
Proof. exact rows_partition. Qed.
Print Assumptions rows_partition_element.

(** C20: a row number and a node determine the quadrature point: the coordinates identify it. *)
Theorem row_points_unique : forall n rs id f j q q', 0 < rs -> id < n -> f < rs ^ (n - 1) -> j < rs ->
  in_row n rs id f j q -> in_row n rs id f j q' -> q = q'.
Proof. intros n rs id f j q q' H1 H2 H3 H4 Hq Hq'. apply in_row_iff in Hq, Hq'; auto. congruence. Qed.
Print Assumptions row_points_unique.

(** C20: [write_row] stays within the array and changes exactly the points of its row, to [coef*old + new]. *)
Theorem write_row_only_row : forall n rs id l ind n_var w data coef, 0 < rs -> id < n ->
  row_loop (S (rs ^ (n - 1))) (row_begin n rs id) = Ok l -> In ind l -> length data = n_var * rs ^ n ->
  exists data', write_row n_var rs w data ind coef = Ok data' /\ length data' = length data
    /\ forall v q, v < n_var -> q < rs ^ n ->
       (forall j, in_row n rs id (i_face_qpoint ind) j q -> nth (v * rs ^ n + q) data' 0%R = (coef * nth (v * rs ^ n + q) data 0 + w j v)%R)
       /\ ((forall j, ~ in_row n rs id (i_face_qpoint ind) j q) -> nth (v * rs ^ n + q) data' 0%R = nth (v * rs ^ n + q) data 0%R).
Proof. exact write_row_coords. Qed.
Print Assumptions write_row_only_row.

(** C20: [read_row] stays within the array, reads the points of the row, and writing the result back changes nothing. *)
Theorem read_row_correct : forall n rs id l ind n_var data r0, 0 < rs -> id < n ->
  row_loop (S (rs ^ (n - 1))) (row_begin n rs id) = Ok l -> In ind l -> length data = n_var * rs ^ n ->
  exists r, read_row n_var rs data ind r0 = Ok r
    /\ (forall v j q, v < n_var -> in_row n rs id (i_face_qpoint ind) j q -> r j v = nth (v * rs ^ n + q) data 0%R)
    /\ write_row n_var rs r data ind 0 = Ok data.
Proof. exact read_row_coords. Qed.
Print Assumptions read_row_correct.

(** C20: the boundary values of a row are those of the row's face point on the two faces normal to the row. *)
Theorem row_bounds_correct : forall n rs id l ind n_var b faces b0, 0 < rs -> id < n ->
  row_loop (S (rs ^ (n - 1))) (row_begin n rs id) = Ok l -> In ind l ->
  (forall i, i < 2 * n -> length (faces i) = n_var * rs ^ (n - 1)) ->
  (exists b', read_bound n_var faces ind b0 = Ok b'
     /\ forall v p, v < n_var -> p < 2 -> b' p v = nth (v * rs ^ (n - 1) + i_face_qpoint ind) (faces (2 * id + p)) 0%R)
  /\ exists faces', write_bound n_var b faces ind = Ok faces' /\ (forall i, length (faces' i) = length (faces i))
     /\ (forall v p, v < n_var -> p < 2 -> nth (v * rs ^ (n - 1) + i_face_qpoint ind) (faces' (2 * id + p)) 0%R = b p v)
     /\ (forall i k, (i / 2 <> id \/ forall v, v < n_var -> k <> v * rs ^ (n - 1) + i_face_qpoint ind) ->
           nth k (faces' i) 0%R = nth k (faces i) 0%R).
Proof. exact bound_coords. Qed.
Print Assumptions row_bounds_correct.

(** Rows along the second of three dimensions with three points each; and scaling one row of a 2x2 element. *)
Example row_example :
  (exists l, row_loop 10 (row_begin 3 3 1) = Ok l
     /\ map (fun ind => map (i_qpoint ind) (seq 0 3)) l =
        [[0; 3; 6]; [1; 4; 7]; [2; 5; 8]; [9; 12; 15]; [10; 13; 16]; [11; 14; 17]; [18; 21; 24]; [19; 22; 25]; [20; 23; 26]])
  /\ in_row 3 3 1 4 2 16
  /\ write_row 1 2 (fun i _ => INR i) [10; 20; 30; 40]%R (row_next (row_begin 2 2 0)) 2 =
     Ok [10; 2 * 20 + INR 0; 30; 2 * 40 + INR 1]%R.
Proof.
  split; [|split].
  - eexists. split; reflexivity.
  - split; [cbn; lia|]. split; [reflexivity|]. intros d Hd Hne. destruct d as [|[|[|d]]]; try lia; reflexivity.
  - reflexivity.
Qed.
