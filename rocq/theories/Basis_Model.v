(** Model of src/Basis.cpp and src/Equidistant.cpp. [double] is [R]. Entries of a matrix are computed independently of each
    other in the source, so a matrix is modelled as the function from row and column to the entry; the loop that computes an
    entry is kept. *)
From Coq Require Import Reals List Arith.
Import ListNotations.
Local Open Scope R_scope.

(** a loop from 0 to [n] that updates one number *)
Definition accumulate (n : nat) (step : R -> nat -> R) (init : R) : R := fold_left step (seq 0 n) init.

(** src/Basis.cpp:19-30: entry ([i], [i_node]) of [interpolate(sample)] of a basis with nodes [node] *)
Definition interpolate (row_size : nat) (node sample : nat -> R) (i i_node : nat) : R :=
  accumulate row_size (fun interp j_node => if (i_node =? j_node)%nat then interp else interp * ((sample i - node j_node) / (node i_node - node j_node))) 1.

(** src/Equidistant.cpp:21-24 *)
Definition equidistant_node (row_size i : nat) : R := INR i / (INR row_size - 1).
(** src/Equidistant.cpp:33-69: entry ([i_result], [i_operand]) *)
Definition diff_mat (row_size : nat) (node : nat -> R) (i_result i_operand : nat) : R :=
  if (i_result =? i_operand)%nat then
    accumulate row_size (fun deriv i_node => if (i_node =? i_operand)%nat then deriv else deriv + 1 / (node i_result - node i_node)) 0
  else
    accumulate row_size (fun deriv i_node =>
      if (i_node =? i_operand)%nat then deriv
      else let deriv := deriv / (node i_operand - node i_node) in
           if (i_node =? i_result)%nat then deriv else deriv * (node i_result - node i_node)) 1.
(** src/Equidistant.cpp:71-77 *)
Definition equidistant_boundary (row_size : nat) (i j : nat) : R :=
  match i with 0%nat => if (j =? 0)%nat then 1 else 0 | _ => if (j =? row_size - 1)%nat then 1 else 0 end.
