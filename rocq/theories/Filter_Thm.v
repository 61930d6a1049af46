(** Theorems about [filter_limit]. *)
From Coq Require Import Reals List Arith Lia Lra.
From Verif Require Import Outcome RSum Quad_Model Quad_Spec Quad_Proofs2 Tensor_Spec Filter_Model Filter_Spec Filter_Proofs.
From Verif Require Row_Proofs Smooth_Proofs2 Smooth_Thm.
Local Open Scope R_scope.

(** C111. The filter ends; each mode of the result has the sign of that of the data and the lesser of its magnitude and [decay ^ degree]
    times the norm of the data; in particular, modes within that bound are kept. *)
Theorem filter_modes : forall nd rs node w decay u, (1 <= nd)%nat -> (2 <= rs)%nat -> as_lobatto rs node w -> 0 <= decay ->
  let orth := py_legendre rs node w in let c := coefficient nd rs w orth in
  exists r, filter_limit nd rs w orth decay u = Ok r /\
  forall m, (m < rs ^ nd)%nat -> Rabs (c m r) = Rmin (Rabs (c m u)) (norm nd rs w u * decay ^ degree nd rs m) /\ 0 <= c m r * c m u /\
    (Rabs (c m u) <= norm nd rs w u * decay ^ degree nd rs m -> c m r = c m u).
Proof.
  intros nd rs node w decay u N R L D orth c. destruct (run nd rs node w N R L decay u) as (r & E & _). exists r. split; [exact E|]. intros m M.
  pose proof (run_coefficient nd rs node w N R L decay u r E m M) as C. fold orth in C. fold (c m r) (c m u) in C. rewrite C. split; [|split].
  - apply limit_abs; [apply sqrt_pos|exact D].
  - apply limit_sign; [apply sqrt_pos|exact D].
  - apply limit_same.
Qed.
Print Assumptions filter_modes.

(** C111. With a decay rate of 1 the data are not altered, *)
Theorem filter_identity : forall nd rs node w decay u r, (1 <= nd)%nat -> (2 <= rs)%nat -> as_lobatto rs node w -> 1 <= decay ->
  filter_limit nd rs w (py_legendre rs node w) decay u = Ok r -> forall q, (q < rs ^ nd)%nat -> r q = u q.
Proof.
  intros nd rs node w decay u r N R L D E. apply (by_coefficients nd rs node w R L). intros m M. rewrite (run_coefficient nd rs node w N R L decay u r E m M).
  apply limit_same. eapply Rle_trans; [apply (coefficient_bound nd rs node w R L u m M)|]. rewrite <- (Rmult_1_r (norm nd rs w u)) at 1. apply Rmult_le_compat_l; [apply sqrt_pos|apply pow_R1_Rle, D].
Qed.
Print Assumptions filter_identity.

(** with a decay rate of 0 only the mean is left. *)
Theorem filter_constant : forall nd rs node w u r, (1 <= nd)%nat -> (2 <= rs)%nat -> as_lobatto rs node w ->
  filter_limit nd rs w (py_legendre rs node w) 0 u = Ok r -> forall q, (q < rs ^ nd)%nat -> r q = mean nd rs w u.
Proof.
  intros nd rs node w u r N R L E q Q. rewrite <- (expansion nd rs node w R L r q Q). assert (P : (0 < rs ^ nd)%nat) by (apply Row_Proofs.pow_pos'; lia).
  rewrite (rsum_single (rs ^ nd) 0 _ P).
  - rewrite (mode_0 nd rs node w R L), (run_coefficient nd rs node w N R L 0 u r E 0 P), (degree_0 nd rs R), limit_same, (coefficient_0 nd rs node w R L); [ring|].
    cbn [pow]. rewrite Rmult_1_r. apply (coefficient_bound nd rs node w R L u 0 P).
  - intros m M NE. rewrite (run_coefficient nd rs node w N R L 0 u r E m M). pose proof (degree_pos nd rs R m ltac:(lia)) as DP.
    pose proof (limit_abs (norm nd rs w u) 0 (degree nd rs m) (coefficient nd rs w (py_legendre rs node w) m u) (sqrt_pos _) (Rle_refl 0)) as A.
    rewrite pow_i, Rmult_0_r, Rmin_right in A by (try apply Rabs_pos; lia). set (x := limit _ _ _ _) in *. destruct (Req_dec x 0) as [->|X]; [ring|]. exfalso. exact (Rabs_no_R0 x X A).
Qed.
Print Assumptions filter_constant.

(** C111. The mean of the data is conserved and their norm does not increase. *)
Theorem filter_conserves : forall nd rs node w decay u r, (1 <= nd)%nat -> (2 <= rs)%nat -> as_lobatto rs node w -> 0 <= decay ->
  filter_limit nd rs w (py_legendre rs node w) decay u = Ok r -> mean nd rs w r = mean nd rs w u /\ norm nd rs w r <= norm nd rs w u.
Proof.
  intros nd rs node w decay u r N R L D E. assert (P : (0 < rs ^ nd)%nat) by (apply Row_Proofs.pow_pos'; lia). split.
  - rewrite <- !(coefficient_0 nd rs node w R L), (run_coefficient nd rs node w N R L decay u r E 0 P), (degree_0 nd rs R). apply limit_same. cbn [pow]. rewrite Rmult_1_r. apply (coefficient_bound nd rs node w R L u 0 P).
  - unfold norm. apply sqrt_le_1_alt. rewrite <- !(parseval nd rs node w R L). apply rsum_le. intros m M. rewrite (run_coefficient nd rs node w N R L decay u r E m M).
    set (c := coefficient _ _ _ _ _ u). pose proof (limit_abs (norm nd rs w u) decay (degree nd rs m) c (sqrt_pos _) D) as A. pose proof (Rmin_l (Rabs c) (norm nd rs w u * decay ^ degree nd rs m)) as B. rewrite <- A in B.
    rewrite <- !Rsqr_pow2. apply Rsqr_le_abs_1, B.
Qed.
Print Assumptions filter_conserves.

(** C111. The filter commutes with the multiplication of all data by a number. *)
Theorem filter_homogeneous : forall nd rs node w decay u a r r', (1 <= nd)%nat -> (2 <= rs)%nat -> as_lobatto rs node w -> 0 <= decay ->
  filter_limit nd rs w (py_legendre rs node w) decay u = Ok r -> filter_limit nd rs w (py_legendre rs node w) decay (fun q => a * u q) = Ok r' ->
  forall q, (q < rs ^ nd)%nat -> r' q = a * r q.
Proof.
  intros nd rs node w decay u a r r' N R L D E E'. apply (by_coefficients nd rs node w R L r' (fun q => a * r q)). intros m M.
  assert (S : forall v, coefficient nd rs w (py_legendre rs node w) m (fun q => a * v q) = a * coefficient nd rs w (py_legendre rs node w) m v).
  { intros v. unfold coefficient, mean. rewrite <- rsum_scal. apply rsum_ext. intros. ring. }
  rewrite (run_coefficient nd rs node w N R L decay _ r' E' m M), S, (S r), (run_coefficient nd rs node w N R L decay u r E m M).
  replace (norm nd rs w (fun q => a * u q)) with (Rabs a * norm nd rs w u).
  - apply limit_scale; [apply sqrt_pos|exact D].
  - unfold norm. rewrite <- sqrt_Rsqr_abs, <- sqrt_mult_alt by apply Rle_0_sqr. f_equal. unfold mean. rewrite <- rsum_scal. apply rsum_ext. intros. unfold Rsqr. ring.
Qed.
Print Assumptions filter_homogeneous.

(** Two values 1 and 7 on one row: modes 4 and 3, norm 5; with decay rate 1/5 the linear mode is limited to 1. *)
Example filter_example : exists r, filter_limit 1 2 Smooth_Thm.halves (py_legendre 2 Smooth_Thm.ends Smooth_Thm.halves) (1 / 5) (fun q => if (q =? 0)%nat then 1 else 7) = Ok r /\ r 0%nat = 3 /\ r 1%nat = 5.
Proof.
  set (u := fun q => if (q =? 0)%nat then 1 else 7).
  destruct (run 1 2 Smooth_Thm.ends Smooth_Thm.halves ltac:(lia) ltac:(lia) Smooth_Thm.ends_lobatto (1 / 5) u) as (r & E & H). exists r. split; [exact E|].
  assert (NN : norm 1 2 Smooth_Thm.halves u = 5).
  { unfold norm. replace (mean _ _ _ _) with (5 * 5); [apply sqrt_square; lra|]. unfold mean, outer_power, Smooth_Thm.halves, u. cbn. field. }
  assert (M0 : forall i, mode_value 1 2 (py_legendre 2 Smooth_Thm.ends Smooth_Thm.halves) 0 i = 1) by (intros i; apply (mode_0 1 2 Smooth_Thm.ends Smooth_Thm.halves ltac:(lia) Smooth_Thm.ends_lobatto)).
  assert (M1 : forall i, (i < 2)%nat -> mode_value 1 2 (py_legendre 2 Smooth_Thm.ends Smooth_Thm.halves) 1 i = if (i =? 0)%nat then -1 else 1).
  { intros i I. unfold mode_value. cbn [rprod]. change (digit 2 1 0 1) with 1%nat. replace (digit 2 1 0 i) with i by (destruct i as [|[|i]]; [reflexivity|reflexivity|lia]). rewrite Smooth_Thm.ends_mode by exact I. ring. }
  assert (C0 : coefficient 1 2 Smooth_Thm.halves (py_legendre 2 Smooth_Thm.ends Smooth_Thm.halves) 0 u = 4).
  { unfold coefficient, mean. cbn [Nat.pow Nat.mul Nat.add rsum]. rewrite !M0. unfold outer_power, Smooth_Thm.halves, u. cbn. field. }
  assert (C1 : coefficient 1 2 Smooth_Thm.halves (py_legendre 2 Smooth_Thm.ends Smooth_Thm.halves) 1 u = 3).
  { unfold coefficient, mean. cbn [Nat.pow Nat.mul Nat.add rsum]. rewrite !M1 by lia. unfold outer_power, Smooth_Thm.halves, u. cbn. field. }
  assert (L0 : limit 5 (1 / 5) (degree 1 2 0) 4 = 4) by (apply limit_same; rewrite (Rabs_pos_eq 4) by lra; cbn; lra).
  assert (L1 : limit 5 (1 / 5) (degree 1 2 1) 3 = 1).
  { unfold limit. rewrite (Rabs_pos_eq 3) by lra. change (degree 1 2 1) with 1%nat. rewrite pow_1. destruct (Rlt_dec _ _); [field|lra]. }
  split; rewrite H by (cbn; lia); cbn [Nat.pow Nat.mul Nat.add rsum]; rewrite !M0, !M1, NN, C0, C1, L0, L1 by lia; cbn; ring.
Qed.
