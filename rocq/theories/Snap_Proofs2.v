(** Polynomials of several coordinates through values at the nodes of a rule. *)
From Coq Require Import Reals List Arith Lia Lra.
From Verif Require Import Outcome RSum Tensor_Model Tensor_Spec Tensor_Proofs Row_Model Row_Spec Row_Proofs Basis_Model Basis_Spec Basis_Proofs Quad_Model Quad_Spec Quad_Proofs Spatial_Model Spatial_Spec Free_Spec Free_Proofs1 Jac_Model Jac_Proofs4 Snap_Model Snap_Spec.
Import ListNotations.
Local Open Scope R_scope.

Lemma lagrange_poly_eq rs node j x : lagrange_poly rs node j x = lagrange rs node j x.
Proof.
  unfold lagrange_poly, lagrange. induction rs as [|n IH]; [reflexivity|]. rewrite factors_S. cbn [rprod]. rewrite IH. destruct (j =? n)%nat; ring.
Qed.
Lemma lagrange_is_poly rs node j : (j < rs)%nat -> poly rs (lagrange rs node j).
Proof. intros J. apply (factors_skip_poly _ _ _ _ j J). apply Nat.eqb_refl. Qed.
Lemma through_ext n rs node val val' y y' : (forall k, (k < rs ^ n)%nat -> val k = val' k) -> (forall l, (l < n)%nat -> y l = y' l) -> through n rs node val y = through n rs node val' y'.
Proof. intros V Y. unfold through. apply rsum_ext. intros k K. rewrite V by exact K. f_equal. apply rprod_ext. intros l L. now rewrite Y. Qed.

Lemma cube_through n n' rs node sample v k : (1 <= n)%nat -> (0 < n')%nat -> (2 <= rs)%nat -> (k < n' ^ n)%nat ->
  apply_cube (mk_mat n' rs (interpolate rs node sample)) (rs ^ n) v k = through n rs node v (fun l => sample (digit n' n l k)).
Proof.
  intros N N' RS K. unfold apply_cube. destruct (hypercube_main (mk_mat n' rs (interpolate rs node sample)) n v (S (rs ^ n))) as (out & E & H); cbn [rows cols]; try lia.
  - pose proof (Nat.pow_gt_lin_r rs n ltac:(lia)). lia.
  - cbn [cols] in E. rewrite E. rewrite H by exact K. unfold through. apply rsum_ext. intros j J. f_equal. unfold kronecker_power. apply rprod_ext. intros l L. cbn [entry rows cols]. now rewrite lagrange_poly_eq.
Qed.

Lemma rprod_zero n f l : (l < n)%nat -> f l = 0 -> rprod n f = 0.
Proof. induction n as [|n IH]; intros L Z; [lia|]. cbn [rprod]. destruct (Nat.eq_dec l n) as [->|]; [rewrite Z; ring|]. rewrite IH by (assumption || lia). ring. Qed.
Lemma rprod_one n f : (forall l, (l < n)%nat -> f l = 1) -> rprod n f = 1.
Proof. induction n as [|n IH]; intros H; [reflexivity|]. cbn [rprod]. rewrite IH, H by auto. ring. Qed.
(** it passes through the values *)
Lemma through_node n rs node val k : (0 < rs)%nat -> distinct rs node -> (k < rs ^ n)%nat -> through n rs node val (fun l => node (digit rs n l k)) = val k.
Proof.
  intros RS D K. unfold through. rewrite (rsum_single _ k); [|exact K|].
  - rewrite rprod_one; [ring|]. intros l L. rewrite lagrange_poly_eq, lagrange_node, Nat.eqb_refl by (assumption || (apply Nat.mod_upper_bound; lia)). reflexivity.
  - intros j J NE.
    assert (DEC : forall m, (m <= n)%nat -> (exists l, (l < m)%nat /\ digit rs n l j <> digit rs n l k) \/ (forall l, (l < m)%nat -> digit rs n l j = digit rs n l k)).
    { induction m as [|m IH]; intros M; [right; lia|]. destruct (IH ltac:(lia)) as [(l & L & E)|A]; [left; exists l; split; [lia|exact E]|].
      destruct (Nat.eq_dec (digit rs n m j) (digit rs n m k)) as [E|E]; [right; intros l L; destruct (Nat.eq_dec l m) as [->|]; [exact E|apply A; lia]|left; exists m; split; [lia|exact E]]. }
    destruct (DEC n ltac:(lia)) as [(l & L & E)|A]; [|elim NE; now apply (digits_ext rs n)].
    rewrite (rprod_zero n _ l L); [ring|]. rewrite lagrange_poly_eq, lagrange_node by (assumption || (apply Nat.mod_upper_bound; lia)). apply Nat.eqb_neq in E. now rewrite E.
Qed.

(** it is a polynomial in each coordinate *)
Lemma rprod_at n (f : nat -> R -> R) y l : (l < n)%nat -> exists c, forall x, rprod n (fun l' => f l' (at_coord y l x l')) = c * f l x.
Proof.
  intros L. induction n as [|n IH]; [lia|]. destruct (Nat.eq_dec l n) as [->|NE].
  - exists (rprod n (fun l' => f l' (y l'))). intros x. cbn [rprod]. f_equal; [|unfold at_coord; now rewrite Nat.eqb_refl]. apply rprod_ext. intros i I. unfold at_coord. replace (i =? n)%nat with false by (symmetry; apply Nat.eqb_neq; lia). reflexivity.
  - destruct IH as (c & E); [lia|]. exists (c * f n (y n)). intros x. cbn [rprod]. rewrite E. unfold at_coord. replace (n =? l)%nat with false by (symmetry; apply Nat.eqb_neq; lia). ring.
Qed.
Lemma through_poly n rs node val y l : (0 < rs)%nat -> (l < n)%nat -> poly rs (fun x => through n rs node val (at_coord y l x)).
Proof.
  intros RS L. unfold through. apply (poly_rsum rs (rs ^ n) (fun k x => rprod n (fun l0 => lagrange_poly rs node (digit rs n l0 k) (at_coord y l x l0)) * val k)). intros k K.
  destruct (rprod_at n (fun l0 => lagrange_poly rs node (digit rs n l0 k)) y l L) as (c & E).
  apply (poly_ext rs (fun x => (c * val k) * lagrange rs node (digit rs n l k) x)); [|intros x; rewrite E, lagrange_poly_eq; ring]. apply poly_scal, lagrange_is_poly. apply Nat.mod_upper_bound. lia.
Qed.
Lemma at_twice y l a b k : at_coord (at_coord y l a) l b k = at_coord y l b k. Proof. unfold at_coord. now destruct (k =? l)%nat. Qed.

(** every polynomial is the one through its values *)
Definition before (a : R) (y : nat -> R) (l : nat) : R := match l with O => a | S l => y l end.
Lemma through_exact n rs node : (0 < rs)%nat -> distinct rs node -> forall F y, (forall y y', (forall l, (l < n)%nat -> y l = y' l) -> F y = F y') -> (forall y l, (l < n)%nat -> poly rs (fun x => F (at_coord y l x))) ->
  through n rs node (fun k => F (fun l => node (digit rs n l k))) y = F y.
Proof.
  intros RS D. induction n as [|n IH]; intros F y EX P.
  - unfold through. cbn. rewrite Rmult_1_l, Rplus_0_l. apply EX. lia.
  - assert (E : through (S n) rs node (fun k => F (fun l => node (digit rs (S n) l k))) y
      = rsum rs (fun i => lagrange rs node i (y 0%nat) * through n rs node (fun k => F (before (node i) (fun l => node (digit rs n l k)))) (fun l => y (S l)))).
    { unfold through. cbn [Nat.pow]. rewrite rsum_mult. apply rsum_ext. intros i I. rewrite <- rsum_scal. apply rsum_ext. intros j J. rewrite rprod_shift, lagrange_poly_eq.
      assert (KL : (i * rs ^ n + j < rs ^ S n)%nat) by (cbn [Nat.pow]; nia).
      assert (D0 : digit rs (S n) 0 (i * rs ^ n + j) = i) by (rewrite digit_0 by assumption; rewrite Nat.add_comm, Nat.div_add, Nat.div_small by lia; lia).
      assert (DS : forall l, (l < n)%nat -> digit rs (S n) (S l) (i * rs ^ n + j) = digit rs n l j) by (intros l L; rewrite digit_S by assumption; rewrite Nat.add_comm, Nat.mod_add, Nat.mod_small by lia; reflexivity).
      rewrite D0, Rmult_assoc. f_equal. f_equal; [apply rprod_ext; intros l L; now rewrite DS|]. apply EX. intros [|l] L; cbn [before]; [now rewrite D0|]. rewrite DS by lia. reflexivity. }
    rewrite E. rewrite (rsum_ext rs _ (fun i => lagrange rs node i (y 0%nat) * F (at_coord y 0 (node i)))).
    + rewrite (reproduce rs node (fun x => F (at_coord y 0 x)) (y 0%nat) D (P y 0%nat ltac:(lia))). apply EX. intros l L. unfold at_coord. destruct (Nat.eqb_spec l 0) as [->|]; reflexivity.
    + intros i I. f_equal. rewrite (IH (fun z => F (before (node i) z)) (fun l => y (S l))).
      * apply EX. intros [|l] L; reflexivity.
      * intros z z' Z. apply EX. intros [|l] L; [reflexivity|]. apply Z. lia.
      * intros z l L. apply (poly_ext rs (fun x => F (at_coord (before (node i) z) (S l) x))); [apply P; lia|]. intros x. apply EX. intros [|l'] L'; reflexivity.
Qed.
