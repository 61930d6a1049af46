(** C28: nodal bases. *)
From Coq Require Import Reals Arith Lra Lia.
From Verif Require Import RSum Basis_Model Basis_Spec Basis_Proofs.
Local Open Scope R_scope.

(** C28: with any distinct nodes, interpolation of the node values of a polynomial of degree less than the row size gives the
    value of the polynomial at every sample point; at a sample point that is a node it picks the value there. *)
Theorem basis_interpolate : forall row_size node, distinct row_size node ->
  (forall c sample i, rsum row_size (fun j => interpolate row_size node sample i j * polynomial row_size c (node j)) = polynomial row_size c (sample i)) /\
  (forall sample i k j, (k < row_size)%nat -> (j < row_size)%nat -> sample i = node k -> interpolate row_size node sample i j = if (j =? k)%nat then 1 else 0).
Proof.
  intros n node D. split.
  - intros c sample i. rewrite (rsum_ext n _ (fun j => lagrange n node j (sample i) * polynomial n c (node j))) by (intros; reflexivity). apply reproduce; [exact D|apply poly_coefficients].
  - intros sample i k j K J E. rewrite interpolate_lagrange, E. now apply lagrange_node.
Qed.
Print Assumptions basis_interpolate.

(** C28: the differentiation matrix gives the derivative at every node of every polynomial of degree less than the row size. *)
Theorem basis_diff_mat : forall row_size node c i, distinct row_size node -> (i < row_size)%nat ->
  derivable_pt_lim (polynomial row_size c) (node i) (rsum row_size (fun j => diff_mat row_size node i j * polynomial row_size c (node j))).
Proof. intros n node c i D I. apply differentiate; [exact D|apply poly_coefficients|exact I]. Qed.
Print Assumptions basis_diff_mat.

(** C28: the nodes of the equidistant basis divide the unit interval in equal parts, so they are distinct, and the boundary
    matrix evaluates polynomials at both ends. *)
Theorem basis_equidistant : forall row_size, (2 <= row_size)%nat ->
  let node := equidistant_node row_size in
  distinct row_size node /\ node 0%nat = 0 /\ node (row_size - 1)%nat = 1 /\ (forall i, node (S i) - node i = 1 / INR (row_size - 1)) /\
  (forall c side, rsum row_size (fun j => equidistant_boundary row_size side j * polynomial row_size c (node j)) = polynomial row_size c (if (side =? 0)%nat then 0 else 1)).
Proof.
  intros n N node. assert (P : 0 < INR n - 1). { pose proof (lt_INR 1 n ltac:(lia)). cbn [INR] in *. lra. } assert (N0 : node 0%nat = 0) by (unfold node, equidistant_node; cbn [INR]; field; lra).
  assert (N1 : node (n - 1)%nat = 1) by (unfold node, equidistant_node; rewrite minus_INR by lia; cbn [INR]; field; lra).
  split; [apply equidistant_distinct|]. split; [exact N0|]. split; [exact N1|]. split.
  - intros i. unfold node, equidistant_node. rewrite S_INR, minus_INR by lia. cbn [INR]. field. lra.
  - intros c side. destruct side as [|side]; cbn [Nat.eqb].
    + rewrite (rsum_single n 0%nat) by (lia || (intros i I NE; cbn [equidistant_boundary]; apply Nat.eqb_neq in NE; rewrite NE; ring)). cbn [equidistant_boundary Nat.eqb]. rewrite N0. ring.
    + rewrite (rsum_single n (n - 1)%nat) by (lia || (intros i I NE; cbn [equidistant_boundary]; apply Nat.eqb_neq in NE; rewrite NE; ring)). cbn [equidistant_boundary]. rewrite Nat.eqb_refl, N1. ring.
Qed.
Print Assumptions basis_equidistant.

(** Three nodes at 0, 1/2, 1: the weights at 1/4, and the slope at 1 from the values at the nodes. *)
Example basis_example :
  let node := equidistant_node 3 in let at_quarter := interpolate 3 node (fun _ => 1 / 4) 0 in let slope := diff_mat 3 node 2 in
  at_quarter 0%nat = 3 / 8 /\ at_quarter 1%nat = 3 / 4 /\ at_quarter 2%nat = - (1 / 8) /\
  slope 0%nat = 1 /\ slope 1%nat = -4 /\ slope 2%nat = 3.
Proof. intros node at_quarter slope. unfold at_quarter, slope, interpolate, diff_mat, accumulate, node, equidistant_node. cbn. repeat split; field. Qed.
