(** Solid elements with two or three points in a row close for any positions. *)
From Coq Require Import Reals List Arith Lia Lra FunctionalExtensionality.
From Verif Require Import Outcome RSum Tensor_Model Tensor_Spec Tensor_Proofs Row_Model Row_Spec Row_Proofs Connection_Model Basis_Model Basis_Spec Basis_Proofs Quad_Model Quad_Spec Quad_Proofs Spatial_Model Spatial_Spec Spatial_Proofs Spatial_Proofs2 Spatial_Proofs3 Spatial_Proofs4 Free_Spec Free_Proofs1 Free_Proofs4 Jac_Model Jac_Spec Jac_Proofs2 Jac_Proofs4.
Import ListNotations.
Local Open Scope R_scope.

Section Row.
Variables (n : nat) (node w : nat -> R).
Hypotheses (N : (2 <= n <= 3)%nat) (LG : as_legendre n node w).
Let D := mat_vec n (py_derivative n node).
Let B := mat_vec n (py_boundary n node).
Lemma product_rule f g k : (k < n)%nat -> derivative n (py_derivative n node) (py_boundary n node) w (fun i => f i * g i) (fun s => B f s * B g s) k = D f k * g k + f k * D g k.
Proof.
  intros K. assert (DI : distinct n node) by apply LG. set (F := nodal n node f). set (G := nodal n node g).
  pose proof (nodal_poly n node f : poly n F) as PF. pose proof (nodal_poly n node g : poly n G) as PG. destruct (poly_has_deriv _ _ PF) as [F' DF]. destruct (poly_has_deriv _ _ PG) as [G' DG].
  assert (P : poly (n + 2) (fun x => F x * G x)) by (destruct n as [|[|m]]; [lia..|]; apply (poly_weaken_le (S (S m) + S m)); [lia|]; exact (poly_mult _ _ PF (S m) G PG)).
  rewrite (derivative_ext n _ _ _ _ (fun i => (fun x => F x * G x) (node i)) _ (fun s => (fun x => F x * G x) (INR s))).
  - rewrite (derivative_exact n node w _ _ k ltac:(lia) LG P (deriv_mult F G F' G' DF DG) K). unfold D. rewrite (uniqueness_limite F (node k) _ _ (DF (node k)) (nodal_deriv n node f k DI K)). rewrite (uniqueness_limite G (node k) _ _ (DG (node k)) (nodal_deriv n node g k DI K)). unfold F, G. now rewrite !nodal_node.
  - intros i I. unfold F, G. now rewrite !nodal_node.
  - intros s S. unfold B, F, G. now rewrite !nodal_bound.
Qed.
Lemma difference_rule u v u' v' k : (k < n)%nat -> derivative n (py_derivative n node) (py_boundary n node) w (fun i => u i * v i - u' i * v' i) (fun s => B u s * B v s - B u' s * B v' s) k
  = (D u k * v k + u k * D v k) - (D u' k * v' k + u' k * D v' k).
Proof.
  intros K. rewrite <- !product_rule by exact K. unfold derivative, mat_vec. cbn [rsum]. rewrite (rsum_ext n (fun j => py_derivative n node k j * (u j * v j - u' j * v' j)) (fun j => py_derivative n node k j * (u j * v j) + py_derivative n node k j * (u' j * v' j) * -1)) by (intros; ring).
  assert (E : forall s, rsum n (fun j => py_boundary n node s j * (u j * v j - u' j * v' j)) = rsum n (fun j => py_boundary n node s j * (u j * v j)) + rsum n (fun j => py_boundary n node s j * (u' j * v' j)) * -1).
  { intros s. rewrite <- rsum_scal_r, <- rsum_plus. apply rsum_ext. intros. ring. }
  rewrite !E, rsum_plus, rsum_scal_r. ring.
Qed.
End Row.

(** cofactors by the next rows and columns *)
Definition n1 (i : nat) : nat := match i with 0 => 1 | 1 => 2 | _ => 0 end%nat.
Definition n2 (i : nat) : nat := match i with 0 => 2 | 1 => 0 | _ => 1 end%nat.
Lemma cyclic M d j : (d < 3)%nat -> (j < 3)%nat -> determinant 3 (unit_col M d j) = M (n1 j) (n1 d) * M (n2 j) (n2 d) - M (n1 j) (n2 d) * M (n2 j) (n1 d).
Proof. intros DD J. destruct d as [|[|[|d]]]; try lia; destruct j as [|[|[|j]]]; try lia; unfold determinant, unit_col; cbn [Nat.eqb n1 n2]; ring. Qed.
Lemma next_lt i : (n1 i < 3)%nat /\ (n2 i < 3)%nat. Proof. destruct i as [|[|i]]; cbn; lia. Qed.
Lemma along_commute nd rs c d q i k : (0 < rs)%nat -> (c < nd)%nat -> (d < nd)%nat -> c <> d -> (q < rs ^ nd)%nat -> (i < rs)%nat -> (k < rs)%nat -> along nd rs c (along nd rs d q i) k = along nd rs d (along nd rs c q k) i.
Proof.
  intros R C D NE Q I K. assert (L : forall e p x, (e < nd)%nat -> (p < rs ^ nd)%nat -> (x < rs)%nat -> (along nd rs e p x < rs ^ nd)%nat) by (intros; now apply along_lt).
  apply (digits_ext rs nd R); auto. intros e E. rewrite !digit_along by auto. destruct (Nat.eqb_spec e c), (Nat.eqb_spec e d); congruence.
Qed.
Lemma derivatives_commute nd rs (M : nat -> nat -> R) (a : arr) s c d q : (0 < rs)%nat -> (c < nd)%nat -> (d < nd)%nat -> c <> d -> (q < rs ^ nd)%nat ->
  let J c p := apply_dim (mk_mat rs rs M) (rs ^ nd) a c p / s in rsum rs (fun i => M (digit rs nd d q) i * J c (along nd rs d q i)) = rsum rs (fun i => M (digit rs nd c q) i * J d (along nd rs c q i)).
Proof.
  intros R C D NE Q J. unfold J.
  rewrite (rsum_ext rs _ (fun i => rsum rs (fun k => M (digit rs nd d q) i * M (digit rs nd c q) k * a (along nd rs c (along nd rs d q i) k) / s))).
  2:{ intros i I. rewrite diff_at by assumption. rewrite digit_along by assumption. destruct (Nat.eqb_spec c d); [congruence|]. unfold Rdiv. rewrite <- Rmult_assoc, <- rsum_scal, <- rsum_scal_r. apply rsum_ext. intros k K. ring. }
  rewrite (rsum_ext rs (fun i => M (digit rs nd c q) i * _) (fun i => rsum rs (fun k => M (digit rs nd d q) k * M (digit rs nd c q) i * a (along nd rs c (along nd rs d q k) i) / s))).
  2:{ intros i I. rewrite diff_at by assumption. rewrite digit_along by assumption. destruct (Nat.eqb_spec d c); [congruence|]. unfold Rdiv. rewrite <- Rmult_assoc, <- rsum_scal, <- rsum_scal_r. apply rsum_ext. intros k K. rewrite (along_commute nd rs c d q k i) by assumption. ring. }
  apply rsum_swap.
Qed.
Lemma solid_low_closed rs node w ratio e size pos : (2 <= rs <= 3)%nat -> as_legendre rs node w -> e_deformed e = true -> e_nrml e = set_nrml 3 rs (basis_on rs node w ratio) size pos ->
  closed_element 3 rs (basis_on rs node w ratio) e (set_face_nrml 3 rs (basis_on rs node w ratio) size pos).
Proof.
  intros RS LG DE NE j q J Q. assert (R : (0 < rs)%nat) by lia. set (b := basis_on rs node w ratio) in *. set (jac := jacobian 3 rs b size pos).
  set (H := fun r c d => rsum rs (fun i => py_derivative rs node (digit rs 3 d q) i * jac r c (along 3 rs d q i))).
  assert (HS : forall r c d, (c < 3)%nat -> (d < 3)%nat -> c <> d -> H r c d = H r d c) by (intros; now apply (derivatives_commute 3 rs (py_derivative rs node) (pos r) size)).
  assert (OWN : forall d, (d < 3)%nat -> along 3 rs d q (digit rs 3 d q) = q) by (intros d DD; apply (digits_ext rs 3 R); [apply along_lt; (assumption || lia || now apply digit_lt)|exact Q|]; intros e' E; rewrite digit_along by (assumption || now apply digit_lt); destruct (Nat.eqb_spec e' d); congruence).
  rewrite (rsum_ext 3 _ (fun d => (H (n1 j) (n1 d) d * jac (n2 j) (n2 d) q + jac (n1 j) (n1 d) q * H (n2 j) (n2 d) d) - (H (n1 j) (n2 d) d * jac (n2 j) (n1 d) q + jac (n1 j) (n2 d) q * H (n2 j) (n1 d) d))).
  - cbn [rsum n1 n2]. rewrite !(fun r => HS r 1%nat 0%nat) by lia. rewrite !(fun r => HS r 2%nat 0%nat) by lia. rewrite !(fun r => HS r 2%nat 1%nat) by lia. ring.
  - intros d DD. pose proof (difference_rule rs node w RS LG (fun i => jac (n1 j) (n1 d) (along 3 rs d q i)) (fun i => jac (n2 j) (n2 d) (along 3 rs d q i)) (fun i => jac (n1 j) (n2 d) (along 3 rs d q i)) (fun i => jac (n2 j) (n1 d) (along 3 rs d q i)) (digit rs 3 d q) (digit_lt rs 3 d q R)) as E. cbv beta in E. rewrite !OWN in E by exact DD. etransitivity; [|exact E]. clear E. apply derivative_ext.
    + intros i I. assert (LA : (along 3 rs d q i < rs ^ 3)%nat) by (apply along_lt; (assumption || lia)). unfold local_normal. rewrite DE, NE. unfold set_nrml. rewrite flat_div, flat_mod by exact LA. rewrite flat_div, flat_mod by exact J. rewrite cyclic by assumption. reflexivity.
    + intros s S. unfold set_face_nrml. assert (FL : (foot 3 rs d q < rs ^ (3 - 1))%nat) by now apply foot_lt. rewrite flat_div, flat_mod by exact FL. replace ((2 * d + s) / 2)%nat with d by (apply (Nat.div_unique _ 2 d s); lia). replace ((2 * d + s) mod 2)%nat with s by (apply (Nat.mod_unique _ 2 d s); lia).
      rewrite cyclic by assumption. rewrite !bound_foot by assumption. reflexivity.
Qed.
