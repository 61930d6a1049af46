(** C68-C71: bases built on quadrature rules. *)
From Coq Require Import Reals List Arith Lra Lia.
From Verif Require Import Outcome RSum Basis_Model Basis_Spec Basis_Proofs Quad_Model Quad_Spec Quad_Proofs Quad_Proofs2.
Import ListNotations.
Local Open Scope R_scope.

(** C68: [Derivative], with the matrices of a basis whose rule integrates polynomials of degree up to [row_size - 2]: the
    integral of the result is the difference of the boundary values it was given, whatever values are given inside (so it is
    conservative), the interior term has integral zero and the boundary term is the rest, and for the values of a polynomial of
    degree less than [row_size] the result is its derivative. *)
Theorem quad_derivative : forall n node weight, (0 < n)%nat -> rule n node weight -> integrates n node weight (n - 1) ->
  let d := py_derivative n node in let b := py_boundary n node in
  (forall q ends, rsum n (fun i => weight i * derivative n d b weight q ends i) = ends 1%nat - ends 0%nat) /\
  (forall q ends i, derivative n d b weight q ends i = fst (interior_term n d b weight q) i + boundary_term b weight ends i) /\
  (forall q, rsum n (fun i => weight i * fst (interior_term n d b weight q) i) = 0) /\
  (forall c i, (i < n)%nat -> derivable_pt_lim (polynomial n c) (node i)
     (derivative n d b weight (fun j => polynomial n c (node j)) (fun side => polynomial n c (INR side)) i)) /\
  (forall c, snd (interior_term n d b weight (fun j => polynomial n c (node j))) 0%nat = polynomial n c 0 /\ snd (interior_term n d b weight (fun j => polynomial n c (node j))) 1%nat = polynomial n c 1).
Proof.
  intros n node weight N RU Q d b. pose proof (by_parts_quad n node weight N RU Q) as BP. fold d b in BP.
  assert (BV : forall c side, mat_vec n b (fun j => polynomial n c (node j)) side = polynomial n c (INR side)).
  { intros c side. unfold b. rewrite nodal_bound. rewrite <- (reproduce n node (polynomial n c) (INR side) (proj1 RU) (poly_coefficients n c)). unfold nodal. apply rsum_ext. intros; ring. }
  split; [intros; now apply derivative_total|]. split; [|split; [intros; now apply interior_total|split]].
  - intros q ends i. unfold derivative, interior_term, boundary_term. cbn [fst]. unfold mat_vec at 2. rewrite two_sides. unfold mat_vec at 5 7. rewrite !two_sides. ring.
  - intros c i I. unfold derivative.
    replace (mat_vec 2 (lift weight b) _ i) with 0 by (unfold mat_vec at 1; rewrite two_sides, !BV; ring).
    rewrite Rplus_0_r. unfold mat_vec, d. rewrite (rsum_ext n _ (fun j => diff_mat n node i j * polynomial n c (node j))) by (intros; now rewrite py_derivative_eq). apply differentiate; [apply RU|apply poly_coefficients|exact I].
  - intros c. unfold interior_term. cbn [snd]. rewrite !BV. cbn [INR]. split; reflexivity.
Qed.
Print Assumptions quad_derivative.

(** C68: with a rule at least as exact as those of Gauss and Lobatto, differentiation is skew up to the values at the ends, so
    what the derivative adds to the square norm comes through the ends only. *)
Theorem quad_by_parts : forall n node weight, (2 <= n)%nat -> as_lobatto n node weight ->
  let d := mat_vec n (py_derivative n node) in let b := mat_vec n (py_boundary n node) in
  (forall u v, inner n weight u (d v) + inner n weight (d u) v = b u 1%nat * b v 1%nat - b u 0%nat * b v 0%nat) /\
  (forall q ends, inner n weight q (derivative n (py_derivative n node) (py_boundary n node) weight q ends) = b q 1%nat * (ends 1%nat - b q 1%nat / 2) - b q 0%nat * (ends 0%nat - b q 0%nat / 2)).
Proof.
  intros n node weight N [RU Q] d b. assert (S : forall u v, inner n weight u (d v) + inner n weight (d u) v = b u 1%nat * b v 1%nat - b u 0%nat * b v 0%nat).
  { intros u v. unfold b. rewrite !nodal_bound. cbn [INR]. apply summation_by_parts; [lia|apply RU|exact Q]. }
  split; [exact S|]. intros q ends. specialize (S q q). rewrite (inner_sym n weight (d q) q) in S.
  unfold inner at 1. rewrite (rsum_ext n _ (fun i => weight i * (q i * d q i) + (py_boundary n node 1 i * q i * (ends 1%nat - b q 1%nat) - py_boundary n node 0 i * q i * (ends 0%nat - b q 0%nat)))).
  - rewrite rsum_plus, rsum_minus, !rsum_scal_r. fold (inner n weight q (d q)). change (rsum n (fun i => py_boundary n node 1 i * q i)) with (b q 1%nat). change (rsum n (fun i => py_boundary n node 0 i * q i)) with (b q 0%nat). lra.
  - intros i I. unfold derivative. fold (d q i). unfold mat_vec at 1. rewrite two_sides. unfold lift. cbn [Nat.eqb]. fold (b q 0%nat) (b q 1%nat). field. pose proof (proj2 RU i I). lra.
Qed.
Print Assumptions quad_by_parts.

(** C69: prolongation evaluates a polynomial of degree less than the row size at the nodes of one half of the interval.
    Restriction keeps the integral (for any rule with distinct nodes and positive weights). *)
Theorem quad_prolong_restrict : forall n node weight, (0 < n)%nat -> rule n node weight ->
  (forall c half i, mat_vec n (fun i j => py_prolong n node i j half) (fun j => polynomial n c (node j)) i = polynomial n c (half_point node half i)) /\
  (forall half u, rsum n (fun i => weight i * mat_vec n (fun i j => py_restrict n node weight i j half) u i) = 1 / 2 * rsum n (fun i => weight i * u i)).
Proof.
  intros n node weight N [D W]. split.
  - intros c half i. rewrite <- (reproduce n node (polynomial n c) (half_point node half i) D (poly_coefficients n c)). unfold mat_vec. apply rsum_ext. intros j J. unfold py_prolong. rewrite py_interpolate_eq by exact J. reflexivity.
  - intros half u. pose proof (restrict_adjoint n node weight half u (fun _ => 1)) as A. unfold inner in A.
    rewrite (rsum_ext n _ (fun i => weight i * (mat_vec n (fun i j => py_restrict n node weight i j half) u i * 1))) by (intros; ring). rewrite A by (intros i I; pose proof (W i I); lra). replace (/ 2) with (1 / 2) by field. f_equal. apply rsum_ext. intros i I. rewrite prolonged_nodal. unfold nodal.
    rewrite (rsum_ext n _ (fun j => lagrange n node j (half_point node half i))) by (intros; ring). rewrite lagrange_sum by assumption. ring.
Qed.
Print Assumptions quad_prolong_restrict.

(** C69: with a rule as exact as those of Gauss and Legendre, restriction inverts prolongation, and for any values on both halves
    it gives the polynomial of degree less than the row size that is nearest to them. *)
Theorem quad_projection : forall n node weight, (0 < n)%nat -> as_legendre n node weight ->
  let prolong v half i := mat_vec n (fun i j => py_prolong n node i j half) v i in
  let restrict u i := rsum 2 (fun half => mat_vec n (fun i j => py_restrict n node weight i j half) (u half) i) in
  (forall v i, (i < n)%nat -> restrict (prolong v) i = v i) /\
  (forall u v, distance2 n weight u (prolong (restrict u)) <= distance2 n weight u (prolong v)) /\
  (forall u v, distance2 n weight u (prolong v) <= distance2 n weight u (prolong (restrict u)) -> forall i, (i < n)%nat -> v i = restrict u i).
Proof.
  intros n node weight N [RU Q] prolong restrict. pose proof (integrates_le n node weight (2 * n) (2 * n - 1) ltac:(lia) Q) as Q'.
  assert (E : forall u v, distance2 n weight u (prolong v) = distance2 n weight u (prolong (restrict u)) + inner n weight (fun i => v i - restrict u i) (fun i => v i - restrict u i)).
  { assert (F : forall u v, distance2 n weight u v = rsum 2 (fun half => / 2 * inner n weight (fun i => u half i - v half i) (fun i => u half i - v half i))).
    { intros u v. unfold distance2, inner. apply rsum_ext. intros h _. replace (1 / 2) with (/ 2) by field. f_equal. apply rsum_ext. intros. ring. }
    intros u v. rewrite !F. exact (restrict_best n node weight u v N RU Q'). }
  assert (NN : forall z i, (i < n)%nat -> 0 <= weight i * (z i * z i)). { intros z i I. pose proof (proj2 RU i I). pose proof (Rle_0_sqr (z i)). unfold Rsqr in *. apply Rmult_le_pos; lra. }
  split; [|split].
  - intros v i I. now apply restrict_prolong.
  - intros u v. pose proof (E u v) as EV. assert (0 <= inner n weight (fun i => v i - restrict u i) (fun i => v i - restrict u i)); [|lra]. apply rsum_nonneg. intros i I. apply (NN (fun i => v i - restrict u i) i I).
  - intros u v L i I. pose proof (E u v) as EV. assert (Z : inner n weight (fun i => v i - restrict u i) (fun i => v i - restrict u i) = 0).
    { apply Rle_antisym; [lra|]. apply rsum_nonneg. intros k K. apply (NN (fun i => v i - restrict u i) k K). }
    pose proof (rsum_eq_0 n _ (fun k K => NN (fun i => v i - restrict u i) k K) Z i I) as Z'. pose proof (proj2 RU i I). cbn beta in Z'. destruct (Rmult_integral _ _ Z') as [?|Z2]; [lra|]. destruct (Rmult_integral _ _ Z2); lra.
Qed.
Print Assumptions quad_projection.

(** C70: with a rule at least as exact as those of Gauss and Lobatto, the [orthogonal] polynomials are orthonormal under the rule,
    the first is the constant 1, and the filter halves the mode of degree [k] [k] times; so it keeps the mean. *)
Theorem quad_filter : forall n node weight, (2 <= n)%nat -> as_lobatto n node weight ->
  let mode := py_legendre n node weight in let filter := mat_vec n (py_filter n node weight) in
  (forall k m, (k < n)%nat -> (m < n)%nat -> inner n weight (mode k) (mode m) = if (k =? m)%nat then 1 else 0) /\
  (forall i, mode 0%nat i = 1) /\
  (forall k i, (k < n)%nat -> filter (mode k) i = (1 / 2) ^ k * mode k i) /\
  (forall v, rsum n (fun i => weight i * filter v i) = rsum n (fun i => weight i * v i)).
Proof.
  intros n node weight N [RU Q] mode filter. split; [|split; [|split]].
  - intros. now apply orthonormal.
  - intros i. apply mode_0; [exact RU|lia|apply (integrates_le n node weight (2 * n - 2)); [lia|exact Q]].
  - intros. now apply filter_mode.
  - intros. now apply filter_mean.
Qed.
Print Assumptions quad_filter.

(** C71: the generated member functions. For row sizes from 2 to the largest one generated, every entry they return is the
    number computed for it; other row sizes throw. [orthogonal] reads outside its table exactly if the degree is not less than
    the row size. [prolong] and [restrict] throw for Gauss-Lobatto. *)
Theorem quad_tables : forall max_row_size node weight n, let set := fun n => generate n (node n) (weight n) in
  ((2 <= n <= max_row_size)%nat ->
    (forall i, (i < n)%nat -> gen_node max_row_size n set i = Ok (node n i)) /\
    (exists w, gen_node_weights max_row_size n set = Ok w /\ forall i, (i < n)%nat -> w i = weight n i) /\
    (exists m, gen_diff_mat max_row_size n set = Ok m /\ forall i j, (i < n)%nat -> (j < n)%nat -> m i j = py_derivative n (node n) i j) /\
    (exists m, gen_boundary max_row_size n set = Ok m /\ forall side j, (side < 2)%nat -> (j < n)%nat -> m side j = py_boundary n (node n) side j) /\
    (exists m, gen_filter max_row_size n set = Ok m /\ forall i j, (i < n)%nat -> (j < n)%nat -> m i j = py_filter n (node n) (weight n) i j) /\
    (forall degree, (degree < n)%nat -> exists v, gen_orthogonal max_row_size n set degree = Ok v /\ forall i, (i < n)%nat -> v i = py_legendre n (node n) (weight n) degree i) /\
    (forall degree, (n <= degree)%nat -> gen_orthogonal max_row_size n set degree = Ub) /\
    (forall half, (half < 2)%nat ->
      (exists m, gen_prolong true max_row_size n set half = Ok m /\ forall i j, (i < n)%nat -> (j < n)%nat -> m i j = py_prolong n (node n) i j half) /\
      (exists m, gen_restrict true max_row_size n set half = Ok m /\ forall i j, (i < n)%nat -> (j < n)%nat -> m i j = py_restrict n (node n) (weight n) i j half))) /\
  (~ (2 <= n <= max_row_size)%nat ->
    (forall i, gen_node max_row_size n set i = Throw) /\ gen_node_weights max_row_size n set = Throw /\ gen_diff_mat max_row_size n set = Throw /\ gen_boundary max_row_size n set = Throw /\
    gen_filter max_row_size n set = Throw /\ (forall degree, gen_orthogonal max_row_size n set degree = Throw) /\ (forall half, gen_prolong true max_row_size n set half = Throw /\ gen_restrict true max_row_size n set half = Throw)) /\
  (forall half, gen_prolong false max_row_size n set half = Throw /\ gen_restrict false max_row_size n set half = Throw).
Proof.
  intros max node weight n set. split; [|split].
  - intros [N M]. assert (C : check_row_size max n = false). { unfold check_row_size. apply Bool.orb_false_intro; [apply Nat.ltb_ge|apply Nat.ltb_ge]; lia. }
    assert (SQ : forall f : nat -> nat -> R, exists r, read_all (table n n f) 0 (n * n) = Ok r /\ forall i j, (i < n)%nat -> (j < n)%nat -> nth (j * n + i) r 0 = f j i).
    { intros f. eexists. split; [apply read_all_ok; rewrite table_length; lia|]. intros i j I J. rewrite chunk_nth by nia. cbn [Nat.add]. now apply table_nth. }
    assert (HALF : forall (f : nat -> nat -> nat -> R) half, (half < 2)%nat -> exists r, read_all (concat (map (fun h => table n n (f h)) [0; 1]%nat)) (half * n * n) (n * n) = Ok r /\ forall i j, (i < n)%nat -> (j < n)%nat -> nth (j * n + i) r 0 = f half j i).
    { intros f half H. assert (U : forall l, In l (map (fun h => table n n (f h)) [0; 1]%nat) -> List.length l = (n * n)%nat) by (intros l [<-|[<-|[]]]; apply table_length).
      eexists. split; [apply read_all_ok; rewrite (concat_uniform_length _ (n * n)) by exact U; cbn [map List.length]; nia|]. intros i j I J. rewrite chunk_nth by nia. rewrite <- Nat.mul_assoc. rewrite (concat_uniform_nth _ (n * n) U) by (cbn [map List.length]; nia).
      assert (half = 0 \/ half = 1)%nat as [->| ->] by lia; cbn [map nth]; now apply table_nth. }
    unfold gen_node, gen_node_weights, gen_diff_mat, gen_boundary, gen_filter, gen_orthogonal, gen_prolong, gen_restrict. cbn [negb]. rewrite !C. unfold set, generate. cbn [t_node t_weight t_diff_mat t_boundary t_orthogonal t_filter t_prolong t_restrict].
    split; [|split; [|split; [|split; [|split; [|split; [|split]]]]]].
    + intros i I. unfold read_table. rewrite nth_error_map. rewrite (nth_error_nth' _ 0%nat) by (now rewrite seq_length). rewrite seq_nth by exact I. reflexivity.
    + rewrite read_all_ok by (rewrite map_length, seq_length; lia). eexists. split; [reflexivity|]. intros i I. cbn beta. rewrite chunk_nth by exact I. now apply nth_map_seq.
    + destruct (SQ (fun i_operand i_result => py_derivative n (node n) i_result i_operand)) as (r & -> & E). eexists. split; [reflexivity|]. intros i j I J. apply (E i j I J).
    + rewrite read_all_ok by (rewrite table_length; lia). eexists. split; [reflexivity|]. intros side j S J. cbn beta. rewrite chunk_nth by nia. cbn [Nat.add]. now apply table_nth.
    + destruct (SQ (fun i_operand i_result => py_filter n (node n) (weight n) i_result i_operand)) as (r & -> & E). eexists. split; [reflexivity|]. intros i j I J. apply (E i j I J).
    + intros degree D. rewrite read_all_ok by (rewrite table_length; nia). eexists. split; [reflexivity|]. intros i I. cbn beta. rewrite chunk_nth by exact I. now apply table_nth.
    + intros degree D. rewrite read_all_ub; [reflexivity|rewrite table_length; nia|lia].
    + intros half H. split.
      * destruct (HALF (fun i_half i_operand i_result => py_prolong n (node n) i_result i_operand i_half) half H) as (r & -> & E). eexists. split; [reflexivity|]. intros i j I J. apply (E i j I J).
      * destruct (HALF (fun i_half i_operand i_result => py_restrict n (node n) (weight n) i_result i_operand i_half) half H) as (r & -> & E). eexists. split; [reflexivity|]. intros i j I J. apply (E i j I J).
  - intros NB. assert (C : check_row_size max n = true). { unfold check_row_size. apply Bool.orb_true_intro. destruct (Nat.ltb_spec n 2); [now left|]. right. apply Nat.ltb_lt. lia. }
    unfold gen_node, gen_node_weights, gen_diff_mat, gen_boundary, gen_filter, gen_orthogonal, gen_prolong, gen_restrict. cbn [negb]. rewrite !C. repeat split.
  - intros half. split; reflexivity.
Qed.
Print Assumptions quad_tables.

(** The rule of Gauss and Lobatto with three nodes (that of Simpson), and its numbers. *)
Definition simpson_node (i : nat) : R := match i with 0%nat => 0 | 1%nat => 1 / 2 | _ => 1 end.
Definition simpson_weight (i : nat) : R := match i with 1%nat => 2 / 3 | _ => 1 / 6 end.
Example quad_simpson : as_lobatto 3 simpson_node simpson_weight /\
  py_derivative 3 simpson_node 2 0 = 1 /\ py_legendre 3 simpson_node simpson_weight 2 0 = py_legendre 3 simpson_node simpson_weight 2 2.
Proof.
  split; [split; [split|]|split].
  - intros i j I J. destruct i as [|[|[|i]]], j as [|[|[|j]]]; cbn; intros; try reflexivity; try lia; lra.
  - intros i I. destruct i as [|[|i]]; cbn; lra.
  - intros c. unfold polynomial, integral. cbn. field.
  - unfold py_derivative. cbn. field.
  - rewrite !py_legendre_eq. f_equal. unfold leg, sp_legendre. cbn. field.
Qed.
(** The rule of Gauss and Legendre with two nodes. *)
Definition gauss_node (i : nat) : R := match i with 0%nat => (1 - 1 / sqrt 3) / 2 | _ => (1 + 1 / sqrt 3) / 2 end.
Definition gauss_weight (i : nat) : R := 1 / 2.
Lemma sqrt3 : sqrt 3 * sqrt 3 = 3 /\ 0 < sqrt 3.
Proof. split; [apply sqrt_sqrt; lra|apply sqrt_lt_R0; lra]. Qed.
Example quad_gauss : as_legendre 2 gauss_node gauss_weight /\ py_prolong 2 gauss_node 0 0 0 = (3 + sqrt 3) / 4 /\ py_restrict 2 gauss_node gauss_weight 0 0 0 = (3 + sqrt 3) / 8.
Proof.
  destruct sqrt3 as [Q P]. assert (NZ : sqrt 3 <> 0) by lra. assert (I3 : 1 / sqrt 3 = sqrt 3 / 3) by (apply (Rmult_eq_reg_r (sqrt 3)); [field_simplify; [nra|exact NZ]|exact NZ]).
  split; [split; [split|]|split].
  - intros i j I J. destruct i as [|[|i]], j as [|[|j]]; cbn; intros; try reflexivity; try lia; exfalso; lra.
  - intros i I. unfold gauss_weight. lra.
  - intros c. unfold polynomial, integral, gauss_weight. cbn. rewrite I3. set (a := sqrt 3 / 3) in *. assert (A2 : a * a = 1 / 3) by (unfold a; lra).
    match goal with |- ?l = ?r => replace l with (r + (a * a - 1 / 3) * (c 2%nat / 4 + 3 * c 3%nat / 8)) by field end. rewrite A2. ring.
  - unfold py_prolong, py_interpolate. cbn. rewrite I3. transitivity (3 * (1 + sqrt 3) / (4 * sqrt 3)); [field; lra|]. rewrite <- Q at 1. replace (3 + sqrt 3) with (sqrt 3 * sqrt 3 + sqrt 3) by lra. field. lra.
  - unfold py_restrict, py_prolong, py_interpolate, gauss_weight. cbn. rewrite I3. transitivity (3 * (1 + sqrt 3) / (8 * sqrt 3)); [field; lra|]. rewrite <- Q at 1. replace (3 + sqrt 3) with (sqrt 3 * sqrt 3 + sqrt 3) by lra. field. lra.
Qed.
(** Restriction does not invert prolongation for the rule of Gauss and Lobatto with two nodes. *)
Example quad_lobatto_restrict : let node i := INR i in let weight (_ : nat) := 1 / 2 in as_lobatto 2 node weight /\
  rsum 2 (fun half => mat_vec 2 (fun i j => py_restrict 2 node weight i j half) (fun i => mat_vec 2 (fun i j => py_prolong 2 node i j half) (fun j => INR j) i) 0) = 1 / 4.
Proof.
  intros node weight. split; [split; [split|]|].
  - intros i j I J. destruct i as [|[|i]], j as [|[|j]]; unfold node; cbn; intros; try reflexivity; try lia; lra.
  - intros i I. unfold weight. lra.
  - intros c. unfold polynomial, integral, weight, node. cbn. field.
  - unfold mat_vec, py_restrict, py_prolong, py_interpolate, weight, node. cbn. field.
Qed.
(** The derivative of values of no polynomial of degree less than 2, with boundary values from elsewhere. *)
Example quad_derivative_example : let node i := INR i in let weight (_ : nat) := 1 / 2 in let q := fun i => match i with 0%nat => 3 | _ => 5 end in let ends := fun i => match i with 0%nat => 7 | _ => 4 end in
  derivative 2 (py_derivative 2 node) (py_boundary 2 node) weight q ends 0 = -6 /\ derivative 2 (py_derivative 2 node) (py_boundary 2 node) weight q ends 1 = 0.
Proof. intros node weight q ends. unfold derivative, mat_vec, lift, py_boundary, py_derivative, py_interpolate, weight, node, q, ends. cbn. split; field. Qed.
