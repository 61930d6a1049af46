(** Derivatives of polynomials; rows of elements; plane elements close. *)
From Coq Require Import Reals List Arith Lia Lra FunctionalExtensionality.
From Verif Require Import Outcome RSum Tensor_Model Tensor_Spec Tensor_Proofs Row_Model Row_Spec Row_Proofs Connection_Model Basis_Model Basis_Spec Basis_Proofs Quad_Model Quad_Spec Quad_Proofs Spatial_Model Spatial_Spec Spatial_Proofs Spatial_Proofs2 Spatial_Proofs3 Spatial_Proofs4 Free_Spec Free_Proofs1 Free_Proofs4 Jac_Model Jac_Spec Jac_Proofs2.
Import ListNotations.
Local Open Scope R_scope.

(** ** derivatives with given ends: exact up to two degrees above the nodal polynomials *)
Lemma derivative_exact n node w f f' k : (2 <= n)%nat -> as_legendre n node w -> poly (n + 2) f -> deriv f f' -> (k < n)%nat ->
  derivative n (py_derivative n node) (py_boundary n node) w (fun i => f (node i)) (fun s => f (INR s)) k = f' (node k).
Proof.
  intros N [[D W] IN] PF DF K. assert (NZ : forall i, (i < n)%nat -> w i <> 0) by (intros i I; specialize (W i I); lra).
  set (u := fun i => f (node i)). set (g := derivative n (py_derivative n node) (py_boundary n node) w u (fun s => f (INR s))).
  apply (inner_unique n w g (fun i => f' (node i)) NZ); [|exact K]. intros z. set (Z := nodal n node z).
  pose proof (nodal_poly n node z : poly n Z) as PZ. destruct (poly_has_deriv _ _ PZ) as [Z' DZ].
  (* the left side, by parts *)
  assert (L : inner n w g z = Z 1 * f 1 - Z 0 * f 0 - rsum n (fun i => w i * (f (node i) * Z' (node i)))).
  { assert (E : inner n w g z = inner n w z (mat_vec n (py_derivative n node) u) + (nodal n node z 1 * (f 1 - nodal n node u 1) - nodal n node z 0 * (f 0 - nodal n node u 0))).
    { rewrite inner_sym. unfold inner, g, derivative. rewrite (rsum_ext n _ (fun i => w i * (z i * mat_vec n (py_derivative n node) u i) + ((py_boundary n node 1 i * z i) * (f 1 - nodal n node u 1) + (py_boundary n node 0 i * z i) * - (f 0 - nodal n node u 0)))).
      - rewrite rsum_plus. f_equal. rewrite rsum_plus, !rsum_scal_r. change (rsum n (fun i => py_boundary n node 1 i * z i)) with (mat_vec n (py_boundary n node) z 1). change (rsum n (fun i => py_boundary n node 0 i * z i)) with (mat_vec n (py_boundary n node) z 0). rewrite !nodal_bound. cbn [INR]. ring.
      - intros i I. unfold mat_vec at 2. cbn [rsum]. rewrite !nodal_bound. unfold lift. cbn [Nat.eqb INR]. field. now apply NZ. }
    rewrite E. pose proof (summation_by_parts n node w z u ltac:(lia) D (integrates_le n node w (2 * n) (2 * n - 2) ltac:(lia) IN)) as S.
    assert (T : inner n w (mat_vec n (py_derivative n node) z) u = rsum n (fun i => w i * (f (node i) * Z' (node i)))).
    { unfold inner. apply rsum_ext. intros i I. rewrite (uniqueness_limite Z (node i) _ _ (nodal_deriv n node z i D I) (DZ (node i))). unfold u. ring. }
    rewrite <- T. fold Z. fold Z in S. lra. }
  rewrite L. destruct n as [|[|n]]; [lia..|].
  pose proof (poly_mult _ _ PF (S n) Z PZ) as P. pose proof (deriv_mult f Z f' Z' DF DZ) as DP. replace (S (S n) + 2 + S n)%nat with (S (2 * S (S n))) in P by lia.
  pose proof (poly_deriv _ _ _ P DP) as PD. pose proof (quadrature _ node w _ _ _ IN PD DP) as Q. cbn beta in Q.
  unfold inner. rewrite (rsum_ext (S (S n)) (fun i => w i * (f' (node i) * Z (node i) + f (node i) * Z' (node i))) (fun i => w i * (f' (node i) * z i) + w i * (f (node i) * Z' (node i)))) in Q.
  - rewrite rsum_plus in Q. lra.
  - intros i I. unfold Z at 1. rewrite nodal_node by assumption. ring.
Qed.
Lemma quadratic_poly d a b c : (3 <= d)%nat -> poly d (fun x => a + b * x + c * x ^ 2).
Proof.
  intros L. apply (poly_weaken_le 3); [exact L|]. apply (poly_S 2 a (fun x => b + x * c)); [|intros; ring]. apply (poly_S 1 b (fun _ => c)); [|intros; ring]. apply (poly_S 0 c (fun _ => 0)); [now apply poly_0|intros; ring].
Qed.
Lemma quadratic_deriv a b c : deriv (fun x => a + b * x + c * x ^ 2) (fun x => b + c * (2 * x)).
Proof.
  pose proof (deriv_plus _ _ _ _ (deriv_plus _ _ _ _ (deriv_const a) (deriv_scal b _ _ deriv_id)) (deriv_scal c _ _ (deriv_mult _ _ _ _ deriv_id deriv_id))) as H.
  apply (deriv_ext _ _ _ _ H); intros x; ring.
Qed.
(** a function that is a polynomial of degree two on the nodes and at the ends *)
Lemma derivative_quadratic n node w a b c f h k : (2 <= n)%nat -> as_legendre n node w -> (k < n)%nat -> (forall i, (i < n)%nat -> f i = a + b * node i + c * node i ^ 2) -> (forall s, (s < 2)%nat -> h s = a + b * INR s + c * INR s ^ 2) ->
  derivative n (py_derivative n node) (py_boundary n node) w f h k = b + c * (2 * node k).
Proof.
  intros N LG K F H. rewrite (derivative_ext n _ _ _ f (fun i => (fun x => a + b * x + c * x ^ 2) (node i)) h (fun s => (fun x => a + b * x + c * x ^ 2) (INR s))) by assumption.
  rewrite (derivative_exact n node w _ _ k N LG (quadratic_poly (n + 2) a b c ltac:(lia)) (quadratic_deriv a b c) K). reflexivity.
Qed.
(** linear functions *)
Lemma linear_poly n a b : (2 <= n)%nat -> poly n (fun x => a + b * x).
Proof. intros L. apply (poly_weaken_le 2); [exact L|]. apply (poly_S 1 a (fun _ => b)); [|intros; ring]. apply (poly_S 0 b (fun _ => 0)); [now apply poly_0|intros; ring]. Qed.
Lemma linear_deriv a b : deriv (fun x => a + b * x) (fun _ => b).
Proof. apply (deriv_ext _ _ _ _ (deriv_plus _ _ _ _ (deriv_const a) (deriv_scal b _ _ deriv_id))); intros; ring. Qed.
Lemma diff_linear n node a b k : (2 <= n)%nat -> distinct n node -> (k < n)%nat -> rsum n (fun i => py_derivative n node k i * (a + b * node i)) = b.
Proof.
  intros N D K. rewrite (rsum_ext n _ (fun i => diff_mat n node k i * (a + b * node i))) by (intros; now rewrite py_derivative_eq).
  exact (uniqueness_limite (fun x => a + b * x) (node k) _ _ (differentiate n node (fun x => a + b * x) k D (linear_poly n a b N) K) (linear_deriv a b (node k))).
Qed.
Lemma interp_linear n node a b x : (2 <= n)%nat -> distinct n node -> rsum n (fun i => py_interpolate n node i x * (a + b * node i)) = a + b * x.
Proof.
  intros N D. rewrite (rsum_ext n _ (fun i => lagrange n node i x * (a + b * node i))) by (intros; now rewrite py_interpolate_eq). exact (reproduce n node (fun x => a + b * x) x D (linear_poly n a b N)).
Qed.

(** ** products along one dimension *)
Section Rows.
Variables (nd rs d : nat).
Hypotheses (R : (0 < rs)%nat) (D : (d < nd)%nat).
Let s := (rs ^ (nd - 1 - d))%nat.
Let S0 : (0 < s)%nat. Proof. apply pow_pos'. exact R. Qed.
Lemma columns : (rs ^ nd / rs ^ (d + 1) = s)%nat.
Proof. unfold s. replace nd with ((nd - 1 - d) + (d + 1))%nat at 1 by lia. rewrite Nat.pow_add_r. apply Nat.div_mul. apply Nat.pow_nonzero. lia. Qed.
Lemma diff_at M a q : apply_dim (mk_mat rs rs M) (rs ^ nd) a d q = rsum rs (fun i => M (digit rs nd d q) i * a (along nd rs d q i)).
Proof.
  unfold apply_dim, dimension_matvec. cbn [rows cols entry]. destruct (Nat.eqb_spec (rs ^ (d + 1)) 0) as [E|E]; [exfalso; revert E; apply Nat.pow_nonzero; lia|]. rewrite columns. apply rsum_ext. intros i I. unfold digit, along. fold s. f_equal. f_equal. lia.
Qed.
Lemma bound_at B a f : apply_dim (mk_mat 1 rs (fun _ => B)) (rs ^ nd) a d f = rsum rs (fun i => B i * a (i_qpoint (nth_row nd rs d f) i)).
Proof.
  unfold apply_dim, dimension_matvec. cbn [rows cols entry]. destruct (Nat.eqb_spec (rs ^ (d + 1)) 0) as [E|E]; [exfalso; revert E; apply Nat.pow_nonzero; lia|]. rewrite columns. apply rsum_ext. intros i I. f_equal. f_equal. unfold i_qpoint, nth_row. cbn [i_outer i_inner ri_stride ri_row_size]. fold s. rewrite Nat.mul_1_r. lia.
Qed.
Lemma row_along q i : i_qpoint (nth_row nd rs d (foot nd rs d q)) i = along nd rs d q i. Proof. destruct (along_row nd rs d q i) as [<-|]; [reflexivity|lia]. Qed.
Lemma bound_foot B a q : apply_dim (mk_mat 1 rs (fun _ => B)) (rs ^ nd) a d (foot nd rs d q) = rsum rs (fun i => B i * a (along nd rs d q i)).
Proof. rewrite bound_at. apply rsum_ext. intros i I. now rewrite row_along. Qed.
Lemma digit_row f i c : (f < rs ^ (nd - 1))%nat -> (i < rs)%nat -> (c < nd)%nat -> digit rs nd c (i_qpoint (nth_row nd rs d f) i) = if (c =? d)%nat then i else digit rs (nd - 1) (drop d c) f.
Proof.
  intros F I C. destruct (row_in_row nd rs d f i R D F I) as ((_ & E & E') & _). destruct (Nat.eqb_spec c d) as [->|NE]; [exact E|]. now apply E'.
Qed.
Lemma digit_foot q c : (q < rs ^ nd)%nat -> (c < nd)%nat -> c <> d -> digit rs (nd - 1) (drop d c) (foot nd rs d q) = digit rs nd c q.
Proof.
  intros Q C NE. rewrite <- (own_row nd rs d q R D) at 2. rewrite digit_row; [|now apply foot_lt|now apply digit_lt|exact C]. apply Nat.eqb_neq in NE. now rewrite NE.
Qed.
Lemma digit_along q i c : (q < rs ^ nd)%nat -> (i < rs)%nat -> (c < nd)%nat -> digit rs nd c (along nd rs d q i) = if (c =? d)%nat then i else digit rs nd c q.
Proof.
  intros Q I C. rewrite <- row_along. rewrite digit_row; [|now apply foot_lt|exact I|exact C]. destruct (Nat.eqb_spec c d) as [->|NE]; [reflexivity|]. now apply digit_foot.
Qed.
End Rows.

(** ** plane elements: any positions *)
Lemma along_swap rs x y i k : (x < rs)%nat -> (y < rs)%nat -> (i < rs)%nat -> (k < rs)%nat ->
  along 2 rs 1 (along 2 rs 0 (x * rs + y) i) k = (i * rs + k)%nat /\ along 2 rs 0 (along 2 rs 1 (x * rs + y) i) k = (k * rs + i)%nat.
Proof.
  intros X Y I K. unfold along. cbn [Nat.sub]. rewrite !Nat.pow_0_r, !Nat.pow_1_r, !Nat.mod_1_r, !Nat.mul_1_l, !Nat.mul_1_r, !Nat.add_0_r.
  rewrite (flat_mod rs x y Y), (flat_div rs x y Y). assert (R2 : (x * rs + y < rs * rs)%nat) by nia. rewrite (Nat.div_small _ _ R2). cbn [Nat.mul]. rewrite !Nat.add_0_l.
  replace (y + i * rs)%nat with (i * rs + y)%nat by lia. rewrite flat_div by exact Y. split; [reflexivity|].
  rewrite flat_mod by exact I. rewrite Nat.div_small by nia. lia.
Qed.
Lemma derivative_own rs b f h k : (forall s, (s < 2)%nat -> h s = mat_vec rs (b_boundary b) f s) -> derivative rs (b_diff b) (b_boundary b) (b_weight b) f h k = mat_vec rs (b_diff b) f k.
Proof.
  intros H. unfold derivative. replace (mat_vec 2 _ _ k) with 0; [ring|]. unfold mat_vec at 1. cbn [rsum]. rewrite !H by lia. ring.
Qed.
Section Units.
Variables (n : nat) (c u v : nat -> R).
Lemma F1 : rsum n (fun i => c i * (1 * u i - v i * 0)) = rsum n (fun i => c i * u i). Proof. apply rsum_ext. intros. ring. Qed.
Lemma F2 : rsum n (fun i => c i * (0 * u i - v i * 1)) = - rsum n (fun i => c i * v i). Proof. transitivity (rsum n (fun i => c i * v i) * -1); [|ring]. rewrite <- rsum_scal_r. apply rsum_ext. intros. ring. Qed.
Lemma F3 : rsum n (fun i => c i * (u i * 0 - 1 * v i)) = - rsum n (fun i => c i * v i). Proof. transitivity (rsum n (fun i => c i * v i) * -1); [|ring]. rewrite <- rsum_scal_r. apply rsum_ext. intros. ring. Qed.
Lemma F4 : rsum n (fun i => c i * (u i * 1 - 0 * v i)) = rsum n (fun i => c i * u i). Proof. apply rsum_ext. intros. ring. Qed.
End Units.
Lemma plane_closed rs b e size pos : (0 < rs)%nat -> e_deformed e = true -> e_nrml e = set_nrml 2 rs b size pos -> closed_element 2 rs b e (set_face_nrml 2 rs b size pos).
Proof.
  intros R DE NE j q J Q. pose proof (pair_split rs q Q) as (X & Y & E). set (x := (q / rs)%nat) in *. set (y := (q mod rs)%nat) in *.
  set (jac := jacobian 2 rs b size pos).
  (* the normals inside *)
  assert (LN : forall d p, (d < 2)%nat -> (p < rs ^ 2)%nat -> local_normal 2 rs e p j d = determinant 2 (unit_col (fun r c => jac r c p) d j)).
  { intros d p D P. unfold local_normal. rewrite DE, NE. unfold set_nrml. rewrite flat_div, flat_mod by exact P. rewrite flat_div, flat_mod by exact J. reflexivity. }
  assert (LB : forall d s, (d < 2)%nat -> (s < 2)%nat -> set_face_nrml 2 rs b size pos (2 * d + s) (j * rs ^ (2 - 1) + foot 2 rs d q)%nat = mat_vec rs (b_boundary b) (fun i => local_normal 2 rs e (along 2 rs d q i) j d) s).
  { intros d s D S. unfold set_face_nrml. assert (FL : (foot 2 rs d q < rs ^ (2 - 1))%nat) by now apply foot_lt. rewrite flat_div, flat_mod by exact FL.
    replace ((2 * d + s) / 2)%nat with d by (apply (Nat.div_unique _ 2 d s); lia). replace ((2 * d + s) mod 2)%nat with s by (apply (Nat.mod_unique _ 2 d s); lia). fold jac. unfold mat_vec.
    rewrite (rsum_ext rs _ (fun i => b_boundary b s i * determinant 2 (unit_col (fun r c => jac r c (along 2 rs d q i)) d j))) by (intros i I; rewrite LN by (try exact D; now apply along_lt); reflexivity).
    destruct d as [|[|d]]; [| |lia]; destruct j as [|[|j]]; try lia; unfold determinant, unit_col; cbn [Nat.eqb]; rewrite !bound_foot by lia.
    all: rewrite ?F1, ?F2, ?F3, ?F4; ring. }
  rewrite (rsum_ext 2 _ (fun d => rsum rs (fun i => b_diff b (digit rs 2 d q) i * determinant 2 (unit_col (fun r c => jac r c (along 2 rs d q i)) d j)))).
  2:{ intros d D. rewrite derivative_own by (intros s S; now apply LB). unfold mat_vec. apply rsum_ext. intros i I. f_equal. apply LN; [exact D|now apply along_lt]. }
  (* the derivatives commute *)
  assert (D0 : digit rs 2 0 q = x) by (unfold digit; cbn [Nat.sub]; rewrite Nat.pow_1_r; now apply Nat.mod_small).
  assert (D1 : forall p, digit rs 2 1 p = (p mod rs)%nat) by (intros p; unfold digit; cbn [Nat.sub]; now rewrite Nat.pow_0_r, Nat.div_1_r).
  assert (DA1 : forall i, (i < rs)%nat -> digit rs 2 1 (along 2 rs 0 q i) = y) by (intros i I; rewrite digit_along by (assumption || lia); cbn [Nat.eqb]; apply D1).
  assert (DA0 : forall i, (i < rs)%nat -> digit rs 2 0 (along 2 rs 1 q i) = x) by (intros i I; rewrite digit_along by (assumption || lia); cbn [Nat.eqb]; apply D0).
  assert (SW : forall r, rsum rs (fun i => b_diff b x i * jac r 1%nat (along 2 rs 0 q i)) = rsum rs (fun i => b_diff b y i * jac r 0%nat (along 2 rs 1 q i))).
  { intros r. unfold jac, jacobian.
    rewrite (rsum_ext rs _ (fun i => rsum rs (fun k => b_diff b x i * b_diff b y k * pos r (i * rs + k)%nat / size))).
    2:{ intros i I. rewrite diff_at by lia. rewrite DA1 by exact I. unfold Rdiv. rewrite <- Rmult_assoc, <- rsum_scal, <- rsum_scal_r. apply rsum_ext. intros k K. rewrite E at 1. rewrite (proj1 (along_swap rs x y i k X Y I K)). ring. }
    rewrite (rsum_ext rs (fun i => b_diff b y i * _) (fun i => rsum rs (fun k => b_diff b x k * b_diff b y i * pos r (k * rs + i)%nat / size))).
    2:{ intros i I. rewrite diff_at by lia. rewrite DA0 by exact I. unfold Rdiv. rewrite <- Rmult_assoc, <- rsum_scal, <- rsum_scal_r. apply rsum_ext. intros k K. rewrite E at 1. rewrite (proj2 (along_swap rs x y i k X Y I K)). ring. }
    apply rsum_swap. }
  cbn [rsum]. rewrite D0, D1. fold y. destruct j as [|[|j]]; [| |lia]; unfold determinant, unit_col; cbn [Nat.eqb].
  - rewrite F1, F3, (SW 1%nat). ring.
  - rewrite F2, F4, (SW 0%nat). ring.
Qed.
