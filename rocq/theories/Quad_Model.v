(** Model of script/Basis.py (the numbers of a basis built on a quadrature rule), of the C++ functions that
    script/auto_generate.py writes around those numbers, and of include/Derivative.hpp. Multiple precision and [double] are [R]:
    the rounding to 20 digits and to [double] is not modelled. [sympy]'s quadrature rules are not modelled: nodes and weights
    are arbitrary. [Basis.__init__]'s [bounds] and [space], [discretizations] and [eigenvals] are not modelled. *)
From Coq Require Import Reals List Arith.
From Verif Require Import Outcome RSum Basis_Model.
Import ListNotations.
Local Open Scope R_scope.

(** Python's [list.pop(i)], without the popped element *)
Definition pop {A} (i : nat) (l : list A) : list A := firstn i l ++ skipn (S i) l.
(** script/Basis.py:89-102 *)
Definition py_interpolate (row_size : nat) (node : nat -> R) (i : nat) (position : R) : R :=
  let nodes := map node (seq 0 row_size) in
  let main_node := nth i nodes 0 in
  fold_left (fun result x => result * ((position - x) / (main_node - x))) (pop i nodes) 1.
(** script/Basis.py:70-87 *)
Definition py_derivative (row_size : nat) (node : nat -> R) (i_result i_operand : nat) : R :=
  if (i_result =? i_operand)%nat then
    fold_left (fun dp n => if negb (n =? i_result)%nat then dp + 1 / (node i_result - node n) else dp) (seq 0 row_size) 0
  else
    fold_left (fun dp n =>
      if negb (n =? i_operand)%nat then
        let dp := dp / (node i_operand - node n) in
        if negb (n =? i_result)%nat then dp * (node i_result - node n) else dp
      else dp) (seq 0 row_size) 1.
(** script/auto_generate.py:100-102: entry of the boundary matrix *)
Definition py_boundary (row_size : nat) (node : nat -> R) (side i_operand : nat) : R := py_interpolate row_size node i_operand (INR side).
(** [sp.legendre]: the Legendre polynomials of degree [k] and [k + 1] by their recurrence *)
Fixpoint legendre_pair (k : nat) (x : R) : R * R :=
  match k with
  | O => (1, x)
  | S k' => let '(p, q) := legendre_pair k' x in (q, ((2 * INR k' + 3) * x * q - (INR k' + 1) * p) / (INR k' + 2))
  end.
Definition sp_legendre (k : nat) (x : R) : R := fst (legendre_pair k x).
(** script/Basis.py:104-123 *)
Definition py_legendre (row_size : nat) (node weight : nat -> R) (degree i_node : nat) : R :=
  let vals := fun i => sp_legendre degree (node i * 2 - 1) in
  let norm := fold_left (fun norm i => norm + vals i ^ 2 * weight i) (seq 0 row_size) 0 in
  vals i_node / sqrt norm.
(** script/Basis.py:129-139 *)
Definition py_prolong (row_size : nat) (node : nat -> R) (i_result i_operand i_half : nat) : R :=
  py_interpolate row_size node i_operand ((node i_result + INR i_half) / 2).
(** script/Basis.py:141-150 *)
Definition py_restrict (row_size : nat) (node weight : nat -> R) (i_result i_operand i_half : nat) : R :=
  weight i_operand / 2 * py_prolong row_size node i_operand i_result i_half / weight i_result.
(** script/Basis.py:152-156 *)
Definition py_filter (row_size : nat) (node weight : nat -> R) (i_result i_operand : nat) : R :=
  fold_left (fun dot i_inner => dot + py_legendre row_size node weight i_inner i_result * (1 / 2) ^ i_inner * py_legendre row_size node weight i_inner i_operand * weight i_operand)
    (seq 0 row_size) 0.

(** ** include/Derivative.hpp, one column of the matrices it is given *)
(** line 28: [inv_weights.asDiagonal()*basis.boundary().transpose()*sign] with [sign] of line 20 *)
Definition lift (weight : nat -> R) (boundary : nat -> nat -> R) (i side : nat) : R :=
  1 / weight i * boundary side i * (if (side =? 0)%nat then -1 else 1).
Definition mat_vec (cols : nat) (m : nat -> nat -> R) (v : nat -> R) (i : nat) : R := rsum cols (fun j => m i j * v j).
(** lines 38-44: result and the written [boundary_vals] *)
Definition interior_term (row_size : nat) (diff boundary : nat -> nat -> R) (weight qpoint_vals : nat -> R) : (nat -> R) * (nat -> R) :=
  let boundary_vals := mat_vec row_size boundary qpoint_vals in
  (fun i => mat_vec row_size diff qpoint_vals i - mat_vec 2 (lift weight boundary) boundary_vals i, boundary_vals).
(** lines 45-49 *)
Definition boundary_term (boundary : nat -> nat -> R) (weight boundary_vals : nat -> R) (i : nat) : R :=
  mat_vec 2 (lift weight boundary) boundary_vals i.
(** lines 50-55 *)
Definition derivative (row_size : nat) (diff boundary : nat -> nat -> R) (weight qpoint_vals boundary_vals : nat -> R) (i : nat) : R :=
  mat_vec row_size diff qpoint_vals i + mat_vec 2 (lift weight boundary) (fun side => boundary_vals side - mat_vec row_size boundary qpoint_vals side) i.
(** lines 56-60 *)
Definition derivative_interior (row_size : nat) (diff : nat -> nat -> R) (qpoint_vals : nat -> R) (i : nat) : R :=
  mat_vec row_size diff qpoint_vals i.

(** ** script/auto_generate.py *)
(** nested loops that write a table, e.g. lines 91-94, 100-103, 109-112 *)
Definition table (outer inner : nat) (f : nat -> nat -> R) : list R := concat (map (fun i => map (fun j => f i j) (seq 0 inner)) (seq 0 outer)).
(** the generated arrays of one row size, lines 74-148 (the eigenvalues excepted) *)
Record Tables := { t_node : list R; t_weight : list R; t_diff_mat : list R; t_boundary : list R; t_orthogonal : list R; t_filter : list R; t_prolong : list R; t_restrict : list R }.
Definition generate (row_size : nat) (node weight : nat -> R) : Tables := {|
  t_node := map node (seq 0 row_size);
  t_weight := map weight (seq 0 row_size);
  t_diff_mat := table row_size row_size (fun i_operand i_result => py_derivative row_size node i_result i_operand);
  t_boundary := table 2 row_size (py_boundary row_size node);
  t_orthogonal := table row_size row_size (fun deg i_node => py_legendre row_size node weight deg i_node);
  t_filter := table row_size row_size (fun i_operand i_result => py_filter row_size node weight i_result i_operand);
  t_prolong := concat (map (fun i_half => table row_size row_size (fun i_operand i_result => py_prolong row_size node i_result i_operand i_half)) [0; 1]%nat);
  t_restrict := concat (map (fun i_half => table row_size row_size (fun i_operand i_result => py_restrict row_size node weight i_result i_operand i_half)) [0; 1]%nat) |}.
(** reading an element of a C array; outside is undefined *)
Definition read_table (l : list R) (i : nat) : outcome R := match nth_error l i with Some x => Ok x | None => Ub end.
(** lines 161-165: [conditional_block] *)
Definition check_row_size (max_row_size row_size : nat) : bool := ((row_size <? 2) || (max_row_size <? row_size))%nat%bool.
(** An [Eigen] matrix of [rows] rows is stored by columns: [m(i_entry)] is the entry [(i_entry % rows, i_entry / rows)]. So the
    entry [(i, j)] after the loops of lines 186-189, 219-222, 249-251 and 263-265 is what was read for [i_entry = j*rows + i]. The
    loop reads the other entries too: any that is outside the table makes the whole call undefined. *)
Fixpoint read_all (l : list R) (offset count : nat) : outcome (list R) :=
  match count with
  | O => Ok []
  | S c => let! x := read_table l offset in let! r := read_all l (S offset) c in Ok (x :: r)
  end.
Definition column_major (rows : nat) (entries : list R) (i j : nat) : R := nth (j * rows + i) entries 0.
(** lines 168-171. [set] is the table of all row sizes from 2 to [max_row_size] *)
Definition gen_node (max_row_size row_size : nat) (set : nat -> Tables) (i : nat) : outcome R :=
  if check_row_size max_row_size row_size then Throw else read_table (t_node (set row_size)) i.
(** lines 173-181 *)
Definition gen_node_weights (max_row_size row_size : nat) (set : nat -> Tables) : outcome (nat -> R) :=
  if check_row_size max_row_size row_size then Throw else let! r := read_all (t_weight (set row_size)) 0 row_size in Ok (fun i => nth i r 0).
(** lines 183-191 *)
Definition gen_diff_mat (max_row_size row_size : nat) (set : nat -> Tables) : outcome (nat -> nat -> R) :=
  if check_row_size max_row_size row_size then Throw else let! r := read_all (t_diff_mat (set row_size)) 0 (row_size * row_size) in Ok (column_major row_size r).
(** lines 193-204: entry [(is_positive, i_node)] is read at [is_positive*row_size + i_node], in this order *)
Definition gen_boundary (max_row_size row_size : nat) (set : nat -> Tables) : outcome (nat -> nat -> R) :=
  if check_row_size max_row_size row_size then Throw else let! r := read_all (t_boundary (set row_size)) 0 (2 * row_size) in Ok (fun is_positive i_node => nth (is_positive * row_size + i_node) r 0).
(** lines 206-214 *)
Definition gen_orthogonal (max_row_size row_size : nat) (set : nat -> Tables) (degree : nat) : outcome (nat -> R) :=
  if check_row_size max_row_size row_size then Throw else let! r := read_all (t_orthogonal (set row_size)) (degree * row_size) row_size in Ok (fun i => nth i r 0).
(** lines 216-224 *)
Definition gen_filter (max_row_size row_size : nat) (set : nat -> Tables) : outcome (nat -> nat -> R) :=
  if check_row_size max_row_size row_size then Throw else let! r := read_all (t_filter (set row_size)) 0 (row_size * row_size) in Ok (column_major row_size r).
(** lines 244-256 and 258-270; [legendre] says which of the two classes *)
Definition gen_prolong (legendre : bool) (max_row_size row_size : nat) (set : nat -> Tables) (i_half : nat) : outcome (nat -> nat -> R) :=
  if negb legendre then Throw else
  if check_row_size max_row_size row_size then Throw else let! r := read_all (t_prolong (set row_size)) (i_half * row_size * row_size) (row_size * row_size) in Ok (column_major row_size r).
Definition gen_restrict (legendre : bool) (max_row_size row_size : nat) (set : nat -> Tables) (i_half : nat) : outcome (nat -> nat -> R) :=
  if negb legendre then Throw else
  if check_row_size max_row_size row_size then Throw else let! r := read_all (t_restrict (set row_size)) (i_half * row_size * row_size) (row_size * row_size) in Ok (column_major row_size r).
