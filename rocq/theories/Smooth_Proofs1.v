(** Proofs about the modes on one row: they are complete, and the highest is orthogonal to the polynomials of lower degree. *)
From Coq Require Import Reals List Arith Lia Lra FunctionalExtensionality.
From Verif Require Import RSum Basis_Spec Basis_Proofs Quad_Model Quad_Spec Quad_Proofs Quad_Proofs2.
From Verif Require Iter_Model Iter_Spec Iter_Proofs.
Local Open Scope R_scope.

Lemma inner_ext n w u u' v v' : (forall i, (i < n)%nat -> u i = u' i) -> (forall i, (i < n)%nat -> v i = v' i) -> inner n w u v = inner n w u' v'.
Proof. intros H K. unfold inner. apply rsum_ext. intros i I. now rewrite H, K. Qed.
Lemma inner_comb n w u m c v : inner n w u (fun i => rsum m (fun k => c k * v k i)) = rsum m (fun k => c k * inner n w u (v k)).
Proof.
  unfold inner. transitivity (rsum n (fun i => rsum m (fun k => c k * (w i * (u i * v k i))))).
  - apply rsum_ext. intros i _. rewrite <- Rmult_assoc, <- rsum_scal. apply rsum_ext. intros k _. ring.
  - rewrite rsum_swap. apply rsum_ext. intros k _. apply rsum_scal.
Qed.

Section Modes.
  Context (n : nat) (node weight : nat -> R) (L : as_lobatto n node weight).
  Let mode := py_legendre n node weight.
  Lemma modes_orthonormal k m : (k < n)%nat -> (m < n)%nat -> inner n weight (mode k) (mode m) = if (k =? m)%nat then 1 else 0.
  Proof using L. intros. apply orthonormal; try apply L; assumption. Qed.
  Lemma coefficient c k : (k < n)%nat -> inner n weight (mode k) (fun i => rsum n (fun m => c m * mode m i)) = c k.
  Proof using L.
    intros K. rewrite inner_comb. rewrite (rsum_single n k).
    - rewrite modes_orthonormal by exact K. rewrite Nat.eqb_refl. ring.
    - exact K.
    - intros m M N. rewrite modes_orthonormal by assumption. destruct (Nat.eqb_spec k m); [lia|ring].
  Qed.
  (** every row is the sum of its parts along the modes *)
  Lemma modes_complete u i : (i < n)%nat -> u i = rsum n (fun k => inner n weight (mode k) u * mode k i).
  Proof using L.
    assert (S : Iter_Proofs.spans n n mode u).
    { apply Iter_Proofs.independent_spans. intros c Z k K. rewrite <- (coefficient c k K).
      transitivity (inner n weight (mode k) (fun _ => 0)); [apply inner_ext; [reflexivity|intros j J; apply (Z j J)]|].
      unfold inner. transitivity (rsum n (fun _ => 0)); [apply rsum_ext; intros; ring|apply rsum_0]. }
    destruct S as [c C]. intros I. pose proof (C i I) as E. rewrite E. unfold Iter_Spec.comb. apply rsum_ext. intros k K. f_equal.
    rewrite <- (coefficient c k K). apply inner_ext; [reflexivity|]. intros j J. symmetry. apply (C j J).
  Qed.

  (** the Legendre polynomial of degree [k] is orthogonal to powers less than [k], as far as the rule is exact *)
  Lemma leg_power j : forall k, (j < k)%nat -> (k + j < 2 * n - 2)%nat -> inner n weight (leg node k) (fun i => (node i * 2 - 1) ^ j) = 0.
  Proof using L.
    induction j as [|j IH]; intros k K B.
    - assert (F : deriv (fun x => - / (2 * (INR k * (INR k + 1))) * flux_leg k (2 * x + -1)) (fun x => sp_legendre k (2 * x + -1))).
      { pose proof (lt_0_INR k K) as P. apply (deriv_ext _ _ _ _ (deriv_scal (- / (2 * (INR k * (INR k + 1)))) _ _ (deriv_affine _ _ 2 (-1) (flux_leg_deriv k)))); intros x; [reflexivity|]. field. lra. }
      assert (P : poly (2 * n - 2) (fun x => sp_legendre k (2 * x + -1))).
      { apply poly_affine. apply (poly_weaken_le (S k)); [lia|apply legendre_poly]. }
      transitivity (rsum n (fun i => weight i * sp_legendre k (2 * node i + -1))).
      + unfold inner, leg. apply rsum_ext. intros i _. cbn [pow]. rewrite Rmult_1_r. f_equal. f_equal. ring.
      + rewrite (quadrature n node weight (2 * n - 2) _ _ (proj2 L) P F). unfold flux_leg. ring.
    - destruct k as [|k]; [lia|].
      assert (E : forall x, x * sp_legendre (S k) x = ((INR k + 2) * sp_legendre (S (S k)) x + (INR k + 1) * sp_legendre k x) / (2 * INR k + 3)).
      { intros x. pose proof (pos_INR k). rewrite legendre_SS. field. split; lra. }
      transitivity (((INR k + 2) * inner n weight (leg node (S (S k))) (fun i => (node i * 2 - 1) ^ j) + (INR k + 1) * inner n weight (leg node k) (fun i => (node i * 2 - 1) ^ j)) / (2 * INR k + 3)).
      + unfold inner. rewrite <- !rsum_scal, <- rsum_plus. unfold Rdiv. rewrite <- rsum_scal_r. apply rsum_ext. intros i _. unfold leg. cbn [pow].
        replace (weight i * (sp_legendre (S k) (node i * 2 - 1) * ((node i * 2 - 1) * (node i * 2 - 1) ^ j))) with (weight i * (((node i * 2 - 1) * sp_legendre (S k) (node i * 2 - 1)) * (node i * 2 - 1) ^ j)) by ring.
        rewrite E. unfold Rdiv. ring.
      + rewrite !IH by lia. unfold Rdiv. ring.
  Qed.
  Lemma leg_low c : (2 <= n)%nat -> inner n weight (mode (n - 1)) (fun i => polynomial (n - 1) c (node i)) = 0.
  Proof using L.
    intros N. assert (P : poly (n - 1) (fun x => polynomial (n - 1) c (/ 2 * x + / 2))) by (apply poly_affine; apply poly_coefficients).
    destruct (poly_is_polynomial _ _ P) as [c' C].
    transitivity (inner n weight (mode (n - 1)) (fun i => rsum (n - 1) (fun k => c' k * (node i * 2 - 1) ^ k))).
    - apply inner_ext; [reflexivity|]. intros i _. change (rsum (n - 1) (fun k => c' k * (node i * 2 - 1) ^ k)) with (polynomial (n - 1) c' (node i * 2 - 1)). rewrite <- C. f_equal. field.
    - rewrite (inner_comb n weight (mode (n - 1)) (n - 1) c' (fun k i => (node i * 2 - 1) ^ k)). transitivity (rsum (n - 1) (fun _ => 0)); [|apply rsum_0].
      apply rsum_ext. intros k K. transitivity (c' k * (inner n weight (leg node (n - 1)) (fun i => (node i * 2 - 1) ^ k) * / sqrt (inner n weight (leg node (n - 1)) (leg node (n - 1))))).
      + f_equal. unfold inner at 1 2. rewrite <- rsum_scal_r. apply rsum_ext. intros i _. unfold mode. rewrite py_legendre_eq. unfold Rdiv. ring.
      + rewrite leg_power by lia. ring.
  Qed.
  (** the part along the highest mode vanishes exactly for values of polynomials of lower degree *)
  Lemma highest_zero u : (2 <= n)%nat -> inner n weight (mode (n - 1)) u = 0 <-> exists c, forall j, (j < n)%nat -> u j = polynomial (n - 1) c (node j).
  Proof using L.
    intros N. split.
    - intros Z. assert (P : poly (n - 1) (fun x => rsum (n - 1) (fun k => inner n weight (mode k) u * / sqrt (inner n weight (leg node k) (leg node k)) * sp_legendre k (2 * x + -1)))).
      { apply poly_rsum. intros k K. apply poly_scal. apply poly_affine. apply (poly_weaken_le (S k)); [lia|apply legendre_poly]. }
      destruct (poly_is_polynomial _ _ P) as [c C]. exists c. intros j J. rewrite <- C, (modes_complete u j J).
      replace n with (S (n - 1)) at 1 by lia. cbn [rsum]. rewrite Z, Rmult_0_l, Rplus_0_r. apply rsum_ext. intros k K.
      unfold mode. rewrite py_legendre_eq. unfold leg, Rdiv. rewrite Rmult_assoc. f_equal. rewrite Rmult_comm. f_equal. f_equal. ring.
    - intros [c C]. rewrite <- (leg_low c N). apply inner_ext; [reflexivity|exact C].
  Qed.
  Lemma highest_bound u : (1 <= n)%nat -> inner n weight (mode (n - 1)) u ^ 2 <= inner n weight u u.
  Proof using L.
    intros N. set (c := inner n weight (mode (n - 1)) u).
    assert (P : 0 <= inner n weight (fun i => u i - c * mode (n - 1)%nat i) (fun i => u i - c * mode (n - 1)%nat i)).
    { unfold inner. apply rsum_nonneg. intros i I. apply Rmult_le_pos; [apply Rlt_le, L, I|apply Rle_0_sqr]. }
    assert (E : inner n weight (fun i => u i - c * mode (n - 1)%nat i) (fun i => u i - c * mode (n - 1)%nat i) = inner n weight u u + - 2 * c * inner n weight (mode (n - 1)%nat) u + c * c * inner n weight (mode (n - 1)%nat) (mode (n - 1)%nat)).
    { clearbody c. unfold inner. rewrite <- !rsum_scal, <- !rsum_plus. apply rsum_ext. intros i _. ring. }
    fold c in E.
    rewrite modes_orthonormal, Nat.eqb_refl in E by lia. rewrite E in P. nra.
  Qed.
End Modes.
