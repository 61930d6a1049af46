(** Models of the tensor-product helpers (src/math.cpp:19-92, include/math.hpp:207-218).
    Vectors are functions [nat -> R] together with a size, matrices functions [nat -> nat -> R] with their shape;
    [double] is [R]. Eigen's matrix products are sums. *)
From Coq Require Import Reals List Arith.
From Verif Require Import Outcome RSum.
Local Open Scope R_scope.

Record matrix : Type := mk_mat { rows : nat; cols : nat; entry : nat -> nat -> R }.

(** Eigen matrix * vector *)
Definition matvec (m : matrix) (v : nat -> R) : nat -> R := fun i => rsum (cols m) (fun j => entry m i j * v j).

(** src/math.cpp:36-41 *)
Fixpoint prod_size_loop (fuel : nat) (m : matrix) (prod_size vec_size : nat) : outcome nat :=
  match fuel with
  | O => NoFuel
  | S fuel' => if (1 <? vec_size)%nat then prod_size_loop fuel' m (prod_size * rows m)%nat (vec_size / cols m)%nat else Ok prod_size
  end.

(** src/math.cpp:43-47: assembling [fact] from the products of the sub-rows: entry [k] is entry [k mod row_size] of sub-row
    [k / row_size]; [hm] is the recursive call *)
Fixpoint collect (n : nat) (hm : (nat -> R) -> outcome (nat * (nat -> R))) (row_size vec_row_size : nat) (v : nat -> R) : outcome (nat -> R) :=
  match n with
  | O => Ok (fun _ => 0)
  | S n' =>
      let! fact := collect n' hm row_size vec_row_size v in
      let! (sz, sub) := hm (fun k => v (n' * vec_row_size + k)%nat) in
      (* Eigen asserts that the sizes agree *)
      if (sz =? row_size)%nat then Ok (fun k => if (k / row_size =? n')%nat then sub (k mod row_size)%nat else fact k) else Throw
  end.

(** src/math.cpp:19-56 (not DEBUG); returns the size and the entries of the product *)
Fixpoint hypercube_matvec (fuel : nat) (m : matrix) (size : nat) (v : nat -> R) : outcome (nat * (nat -> R)) :=
  match fuel with
  | O => NoFuel
  | S fuel' =>
      if (cols m =? 0)%nat then Ub else
      let vec_row_size := (size / cols m)%nat in
      if (vec_row_size =? 1)%nat then Ok (rows m, matvec m v)
      else
        let! prod_size := prod_size_loop (S size) m 1 size in
        if (rows m =? 0)%nat then Ub else
        let row_size := (prod_size / rows m)%nat in
        let! fact := collect (cols m) (hypercube_matvec fuel' m vec_row_size) row_size vec_row_size v in
        Ok (prod_size, fun k => matvec m (fun j => fact (k mod row_size + j * row_size)%nat) (k / row_size)%nat)
  end.

(** src/math.cpp:58-81 (not DEBUG). Row-major maps: [write(a, k)] is entry [i_outer*n_cols*rows + a*n_cols + k] of the
    product, [read(j, k)] is entry [i_outer*n_cols*cols + j*n_cols + k] of the vector. *)
Definition dimension_matvec (m : matrix) (size : nat) (v : nat -> R) (i_dim : nat) : outcome (nat * (nat -> R)) :=
  let n_rows := (cols m ^ (i_dim + 1))%nat in
  if (n_rows =? 0)%nat then Ub else
  let n_cols := (size / n_rows)%nat in
  Ok ((size * rows m / cols m)%nat,
      fun p => let i_outer := (p / (n_cols * rows m))%nat in
               let a := ((p / n_cols) mod rows m)%nat in
               let k := (p mod n_cols)%nat in
               rsum (cols m) (fun j => entry m a j * v (i_outer * n_cols * cols m + j * n_cols + k)%nat)).

(** src/math.cpp:83-92 *)
Definition pow_outer (fuel : nat) (size : nat) (v : nat -> R) (n_dim : nat) : outcome (nat * (nat -> R)) :=
  match n_dim with
  | O => Ok (1%nat, fun _ => 1)
  | _ => hypercube_matvec fuel (mk_mat size 2 (fun i j => if (j =? 0)%nat then v i else 0)) (2 ^ n_dim) (fun i => if (i =? 0)%nat then 1 else 0)
  end.

(** include/math.hpp:213-215: the inner loop *)
Fixpoint interp_inner (n : nat) (x : R) (stride : nat) (values : nat -> R) : nat -> R :=
  match n with
  | O => values
  | S i => let values := interp_inner i x stride values in
           fun k => if (k =? i)%nat then values i + x * (values (i + stride)%nat - values i) else values k
  end.

(** include/math.hpp:211-216: the outer loop; [n] dimensions are left, of which the first is [i_dim] *)
Fixpoint interp_outer (n i_dim stride : nat) (coords values : nat -> R) : nat -> R :=
  match n with
  | O => values
  | S n' => let stride := (stride / 2)%nat in
            interp_outer n' (S i_dim) stride coords (interp_inner stride (coords i_dim) stride values)
  end.

(** include/math.hpp:207-218 *)
Definition interp (n_dim : nat) (values coords : nat -> R) : R := interp_outer n_dim 0 (2 ^ n_dim) coords values 0%nat.
