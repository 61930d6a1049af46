From Coq Require Import Reals Arith Lia Lra Psatz.
From Verif Require Import RSum GeomPred_Model GeomPred_Spec.
Local Open Scope R_scope.

Lemma sqnorm_nonneg n u : 0 <= sqnorm n u.
Proof. apply rsum_nonneg. intros. nra. Qed.

Lemma dist2_ext n p q p' q' : (forall i, (i < n)%nat -> p i = p' i) -> (forall i, (i < n)%nat -> q i = q' i) -> dist2 n p q = dist2 n p' q'.
Proof. intros H H'. apply rsum_ext. intros i Hi. now rewrite H, H'. Qed.

(** squared distance to a point of a line as a quadratic in the parameter *)
Lemma dist2_param n e0 e1 q t : dist2 n q (at_param e0 e1 t) =
  dist2 n q e0 - 2 * t * dot n (fun i => e1 i - e0 i) (fun i => q i - e0 i) + t * t * sqnorm n (fun i => e1 i - e0 i).
Proof.
  unfold dist2, sqnorm, dot, at_param. rewrite <- !rsum_scal, <- rsum_minus, <- rsum_plus. apply rsum_ext. intros. ring.
Qed.

Lemma proj_param n e0 e1 q : exists t, 0 <= t <= 1 /\ (forall i, proj_to_segment n e0 e1 q i = at_param e0 e1 t i) /\
  forall s, 0 <= s <= 1 -> dist2 n q (at_param e0 e1 t) <= dist2 n q (at_param e0 e1 s).
Proof.
  unfold proj_to_segment. set (diff := fun i => e1 i - e0 i). set (d := dot n diff (fun i => q i - e0 i)). set (N := sqnorm n diff).
  assert (HN : 0 <= N) by apply sqnorm_nonneg. destruct (Req_EM_T N 0) as [N0|N0].
  - exists 0. split; [lra|]. split; [intros i; unfold diff, at_param; ring|]. intros s Hs. rewrite !dist2_param. fold diff. fold d. fold N. rewrite N0.
    assert (D0 : d = 0).
    { unfold d, dot. rewrite (rsum_ext _ _ (fun _ => 0)), rsum_0; [reflexivity|]. intros i Hi.
      assert (diff i * diff i = 0) by (apply (rsum_eq_0 n (fun i => diff i * diff i)); [intros; nra|exact N0|exact Hi]).
      assert (Z0 : diff i = 0) by (destruct (Rmult_integral _ _ H); assumption). rewrite Z0. ring. }
    rewrite D0. lra.
  - set (t := Rmin 1 (Rmax 0 (d / N))). exists t. assert (Ht : 0 <= t <= 1).
    { unfold t. split; [apply Rmin_glb; [lra|apply Rmax_l]|apply Rmin_l]. }
    split; [exact Ht|]. split; [intros i; unfold diff, at_param; ring|]. intros s Hs. rewrite !dist2_param. fold diff. fold d. fold N.
    assert (NP : 0 < N) by lra. assert (E : d = (d / N) * N) by (field; lra). set (x := d / N) in *. clearbody x. rewrite E.
    assert (T : t = 0 /\ x <= 0 \/ t = 1 /\ 1 <= x \/ t = x).
    { unfold t, Rmin, Rmax. destruct (Rle_dec 0 x); destruct (Rle_dec 1 _); lra. }
    clearbody t. assert (K : t * t - 2 * t * x <= s * s - 2 * s * x).
    { destruct T as [[-> ?]|[[-> ?]| ->]].
      - assert (0 <= s * - x) by (apply Rmult_le_pos; lra). pose proof (Rle_0_sqr s) as Q. unfold Rsqr in Q. lra.
      - assert (0 <= (1 - s) * (2 * x - s - 1)) by (apply Rmult_le_pos; lra). lra.
      - pose proof (Rle_0_sqr (s - x)) as Q. unfold Rsqr in Q. lra. }
    apply (Rmult_le_compat_r N) in K; [lra|lra].
Qed.

Lemma proj_main n e0 e1 q : on_segment n e0 e1 (proj_to_segment n e0 e1 q) /\
  forall p, on_segment n e0 e1 p -> dist2 n q (proj_to_segment n e0 e1 q) <= dist2 n q p.
Proof.
  destruct (proj_param n e0 e1 q) as (t & Ht & E & M). split.
  - exists t. split; [exact Ht|]. intros i _. apply E.
  - intros p (s & Hs & Ep). rewrite (dist2_ext n q (proj_to_segment n e0 e1 q) q (at_param e0 e1 t)) by auto.
    rewrite (dist2_ext n q p q (at_param e0 e1 s)) by auto. now apply M.
Qed.

Lemma intersects_main n b e0 e1 : 0 < dist2 n e1 e0 ->
  intersects n b e0 e1 = true <-> exists p, on_line n e0 e1 p /\ dist2 n (center b) p <= radius_sq b.
Proof.
  intros HN. unfold intersects. cbv zeta. set (diff := fun i => e1 i - e0 i). set (N := sqnorm n diff).
  assert (EN : N = dist2 n e1 e0) by reflexivity. destruct (Req_EM_T N 0) as [|_]; [lra|].
  set (c := fun i => center b i - e0 i). set (d := dot n c diff).
  assert (Ed : d = dot n diff c) by (apply rsum_ext; intros; ring).
  assert (ES : sqnorm n (fun i => c i - d / N * diff i) = dist2 n (center b) (at_param e0 e1 (d / N))).
  { apply rsum_ext. intros i Hi. unfold c, diff, at_param. ring. }
  match goal with |- context [Rle_dec ?a _] => change a with (sqnorm n (fun i => c i - d / N * diff i)) end.
  rewrite ES. destruct (Rle_dec _ _) as [L|L]; split; intros H; try discriminate; auto.
  - exists (at_param e0 e1 (d / N)). split; [|exact L]. now exists (d / N).
  - exfalso. destruct H as (p & (t & Et) & Hp). apply L. rewrite (dist2_ext n (center b) p (center b) (at_param e0 e1 t)) in Hp by auto.
    eapply Rle_trans; [|exact Hp]. rewrite !dist2_param. change (fun i => e1 i - e0 i) with diff. change (fun i => center b i - e0 i) with c.
    fold N. rewrite <- Ed. assert (E : d = (d / N) * N) by (field; lra). set (x := d / N) in *. clearbody x. rewrite E.
    pose proof (Rmult_le_pos N _ ltac:(lra) (Rle_0_sqr (t - x))) as Q. unfold Rsqr in Q. lra.
Qed.

Lemma max_coeff_ge k f j : (j <= k)%nat -> f j <= max_coeff k f.
Proof.
  induction k as [|k IH]; intros Hj; cbn [max_coeff]; [replace j with 0%nat by lia; lra|].
  destruct (Nat.eq_dec j (S k)) as [->|]; [apply Rmax_r|]. eapply Rle_trans; [apply IH; lia|apply Rmax_l].
Qed.
Lemma max_coeff_in k f : exists j, (j <= k)%nat /\ max_coeff k f = f j.
Proof.
  induction k as [|k (j & Hj & E)]; cbn [max_coeff]; [exists 0%nat; auto|].
  unfold Rmax. destruct (Rle_dec (max_coeff k f) (f (S k))); [exists (S k); auto|exists j; split; [lia|exact E]].
Qed.

(** Jensen's inequality for the square *)
Lemma jensen n_point w x : (forall j, (j < n_point)%nat -> 0 <= w j) -> rsum n_point w = 1 ->
  (rsum n_point (fun j => w j * x j)) * (rsum n_point (fun j => w j * x j)) <= rsum n_point (fun j => w j * (x j * x j)).
Proof.
  intros Hw S1. set (m := rsum n_point (fun j => w j * x j)).
  assert (0 <= rsum n_point (fun j => w j * ((x j - m) * (x j - m)))).
  { apply rsum_nonneg. intros j Hj. apply Rmult_le_pos; [auto|apply Rle_0_sqr]. }
  assert (E : rsum n_point (fun j => w j * ((x j - m) * (x j - m))) = rsum n_point (fun j => w j * (x j * x j)) - 2 * m * m + m * m * rsum n_point w).
  { transitivity (rsum n_point (fun j => w j * (x j * x j)) - 2 * m * rsum n_point (fun j => w j * x j) + m * m * rsum n_point w); [|reflexivity].
    rewrite <- (rsum_scal n_point (2 * m)), <- (rsum_scal n_point (m * m)), <- rsum_minus, <- rsum_plus. apply rsum_ext. intros; ring. }
  rewrite S1 in E. lra.
Qed.

Lemma hull_dist n n_point points c p r : in_hull n n_point points p -> (forall j, (j < n_point)%nat -> dist2 n (points j) c <= r) -> dist2 n p c <= r.
Proof.
  intros (w & Hw & S1 & Ep) Hr.
  apply Rle_trans with (rsum n (fun i => rsum n_point (fun j => w j * ((points j i - c i) * (points j i - c i))))).
  - apply rsum_le. intros i Hi.
    replace (p i - c i) with (rsum n_point (fun j => w j * (points j i - c i))); [apply jensen; auto|].
    rewrite (rsum_ext _ _ (fun j => w j * points j i - c i * w j)) by (intros; ring). rewrite rsum_minus, rsum_scal, S1, <- Ep by exact Hi. ring.
  - rewrite rsum_swap. apply Rle_trans with (rsum n_point (fun j => w j * r)); [|rewrite rsum_scal_r, S1; lra].
    apply rsum_le. intros j Hj. rewrite rsum_scal. apply Rmult_le_compat_l; [auto|]. now apply Hr.
Qed.

Lemma bounding_ball_main n n_point points : (0 < n_point)%nat -> let b := bounding_ball n n_point points in
  (forall p, in_hull n n_point points p -> dist2 n p (center b) <= radius_sq b) /\
  (forall i, center b i = rsum n_point (fun j => points j i) / INR n_point) /\
  exists j, (j < n_point)%nat /\ dist2 n (points j) (center b) = radius_sq b.
Proof.
  intros Hn. unfold bounding_ball. cbv zeta. cbn [center radius_sq]. set (c := fun i => rsum n_point (fun j => points j i) / INR n_point).
  set (f := fun j => sqnorm n (fun i => points j i - c i)). split; [|split].
  - intros p Hp. apply (hull_dist n n_point points c p _ Hp). intros j Hj. apply (max_coeff_ge (n_point - 1) f j). lia.
  - reflexivity.
  - destruct (max_coeff_in (n_point - 1) f) as (j & Hj & E). exists j. split; [lia|]. symmetry. exact E.
Qed.
