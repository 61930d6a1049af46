(** Proofs about Chebyshev time steps. *)
From Coq Require Import Reals Lia Lra Arith ZArith.
From Verif Require Import RSum Basis_Spec Basis_Proofs March_Model March_Spec.
Local Open Scope R_scope.

(** ** Chebyshev polynomials *)
Fixpoint cheb2 (n : nat) (x : R) : R * R := match n with O => (1, x) | S n' => let p := cheb2 n' x in (snd p, 2 * x * snd p - fst p) end.
Definition cheb (n : nat) (x : R) : R := fst (cheb2 n x).
Lemma cheb_0 x : cheb 0 x = 1. Proof. reflexivity. Qed.
Lemma cheb_1 x : cheb 1 x = x. Proof. reflexivity. Qed.
Lemma cheb_SS n x : cheb (S (S n)) x = 2 * x * cheb (S n) x - cheb n x. Proof. reflexivity. Qed.
Lemma two_step (P : nat -> Prop) : P 0%nat -> P 1%nat -> (forall n, P n -> P (S n) -> P (S (S n))) -> forall n, P n.
Proof. intros H0 H1 HS n. enough (P n /\ P (S n)) by tauto. induction n as [|n [IH IH']]; auto. Qed.
Lemma cheb_cos t n : cheb n (cos t) = cos (INR n * t).
Proof.
  induction n as [| |n IH IH'] using two_step.
  - rewrite cheb_0. cbn. rewrite Rmult_0_l, cos_0. reflexivity.
  - rewrite cheb_1. cbn. rewrite Rmult_1_l. reflexivity.
  - rewrite cheb_SS, IH, IH'. replace (INR (S (S n)) * t) with (INR (S n) * t + t) by (rewrite (S_INR (S n)); ring). replace (INR n * t) with (INR (S n) * t - t) by (rewrite (S_INR n); ring). rewrite cos_plus, cos_minus. ring.
Qed.
Lemma cheb_at_1 n : cheb n 1 = 1.
Proof. rewrite <- cos_0, cheb_cos, Rmult_0_r. reflexivity. Qed.
Lemma cheb_poly n : poly (S n) (cheb n).
Proof.
  induction n as [| |n IH IH'] using two_step.
  - apply (poly_S 0 1 (fun _ => 0)); [apply poly_zero|intros; rewrite cheb_0; ring].
  - apply (poly_S 1 0 (fun _ => 1)); [|intros; rewrite cheb_1; ring]. apply (poly_S 0 1 (fun _ => 0)); [apply poly_zero|intros; ring].
  - apply (poly_ext _ (fun x => cheb (S n) x * (2 * x + 0) + (-1) * cheb n x)); [|intros; rewrite cheb_SS; ring]. apply poly_plus; [apply poly_linear; exact IH'|]. apply poly_scal. apply poly_weaken, poly_weaken. exact IH.
Qed.
Lemma cheb_derivative n : exists d, derivable_pt_lim (cheb n) 1 d /\ d = (INR n) ^ 2.
Proof.
  induction n as [| |n (d & D & E) (d' & D' & E')] using two_step.
  - exists 0. split; [apply derivable_pt_lim_const|cbn; ring].
  - exists 1. split; [apply derivable_pt_lim_id|cbn; ring].
  - exists ((2 * 1 * cheb (S n) 1 + (2 * 1) * d') - d). split.
    + pose proof (derivable_pt_lim_scal id 2 1 1 (derivable_pt_lim_id 1)) as DI.
      pose proof (derivable_pt_lim_mult _ _ 1 _ _ DI D') as DM. pose proof (derivable_pt_lim_minus _ _ 1 _ _ DM D) as DD.
      unfold minus_fct, mult_fct, mult_real_fct, id in DD. exact DD.
    + rewrite cheb_at_1, E, E'. rewrite !S_INR. ring.
Qed.

(** ** The steps *)
Definition angle (n i : nat) : R := (INR n - INR i - 1 / 2) * PI / INR n.
Lemma angle_range n i : (i < n)%nat -> 0 < angle n i < PI.
Proof.
  intros L. pose proof PI_RGT_0 as PP. assert (N : 0 < INR n) by (apply lt_0_INR; lia). assert (I : INR i + 1 <= INR n) by (rewrite <- S_INR; apply le_INR; lia). pose proof (pos_INR i) as I0. unfold angle. split.
  - apply Rmult_lt_0_compat; [apply Rmult_lt_0_compat; lra|apply Rinv_0_lt_compat; lra].
  - apply Rmult_lt_reg_r with (INR n); [lra|]. unfold Rdiv. rewrite !Rmult_assoc, Rinv_l, Rmult_1_r by lra. rewrite (Rmult_comm PI). apply Rmult_lt_compat_r; lra.
Qed.
Lemma angle_decreasing n i j : (i < j)%nat -> (j < n)%nat -> angle n j < angle n i.
Proof.
  intros L M. pose proof PI_RGT_0 as PP. assert (N : 0 < INR n) by (apply lt_0_INR; lia). assert (I : INR i < INR j) by (apply lt_INR; lia). unfold angle, Rdiv. rewrite !Rmult_assoc.
  apply Rmult_lt_compat_r; [|lra]. apply Rmult_lt_0_compat; [lra|apply Rinv_0_lt_compat; lra].
Qed.
Lemma root_increasing n i j : (i < j)%nat -> (j < n)%nat -> cos (angle n i) < cos (angle n j).
Proof. intros L M. pose proof (angle_range n i ltac:(lia)). pose proof (angle_range n j ltac:(lia)). apply cos_decreasing_1; try lra. apply angle_decreasing; assumption. Qed.
Lemma root_lt_1 n i : (i < n)%nat -> cos (angle n i) < 1.
Proof. intros L. rewrite <- cos_0. pose proof (angle_range n i L). pose proof PI_RGT_0. apply cos_decreasing_1; lra. Qed.
Lemma root_is_root n i : (i < n)%nat -> cheb n (cos (angle n i)) = 0.
Proof.
  intros L. rewrite cheb_cos. apply cos_eq_0_1. exists (Z.of_nat (n - i - 1)). rewrite <- INR_IZR_INZ, !minus_INR by lia. unfold angle. assert (N : 0 < INR n) by (apply lt_0_INR; lia). cbn [INR]. field. lra.
Qed.

Lemma step_eq n i : chebyshev_step n i = 1 / (1 - cos (angle n i)).
Proof. reflexivity. Qed.
Lemma step_positive n i : (i < n)%nat -> 0 < chebyshev_step n i.
Proof. intros L. rewrite step_eq. pose proof (root_lt_1 n i L). apply Rdiv_lt_0_compat; lra. Qed.
Lemma step_increasing n i j : (i < j)%nat -> (j < n)%nat -> chebyshev_step n i < chebyshev_step n j.
Proof.
  intros L M. rewrite !step_eq. pose proof (root_lt_1 n i ltac:(lia)). pose proof (root_lt_1 n j M). pose proof (root_increasing n i j L M). unfold Rdiv. rewrite !Rmult_1_l. apply Rinv_lt_contravar; [apply Rmult_lt_0_compat; lra|lra].
Qed.

Definition amplify (n m : nat) (x : R) : R := rprod m (fun i => 1 - chebyshev_step n i * (1 - x)).
Lemma amplify_poly n m : poly (S m) (amplify n m).
Proof.
  induction m as [|m IH].
  - apply (poly_S 0 1 (fun _ => 0)); [apply poly_zero|intros; unfold amplify; cbn; ring].
  - apply (poly_ext _ (fun x => amplify n m x * (chebyshev_step n m * x + (1 - chebyshev_step n m)))); [apply poly_linear; exact IH|]. intros x. unfold amplify. cbn [rprod]. ring.
Qed.
Lemma rprod_zero m f i : (i < m)%nat -> f i = 0 -> rprod m f = 0.
Proof. induction m as [|m IH]; intros L Z; [lia|]. cbn [rprod]. destruct (Nat.eq_dec i m) as [->|]; [rewrite Z; ring|rewrite IH by (lia || assumption); ring]. Qed.
Lemma rprod_ones m f : (forall i, (i < m)%nat -> f i = 1) -> rprod m f = 1.
Proof. induction m as [|m IH]; intros H; [reflexivity|]. cbn [rprod]. rewrite IH, H by (intros; try apply H; lia). ring. Qed.
Lemma amplify_cheb n x : (1 <= n)%nat -> amplify n n x = cheb n x.
Proof.
  intros N. enough (E : amplify n n x + (-1) * cheb n x = 0) by lra.
  apply (poly_roots (S n) (fun x => amplify n n x + (-1) * cheb n x) (fun i => if Nat.ltb i n then cos (angle n i) else 1)).
  - apply poly_plus; [apply amplify_poly|apply poly_scal, cheb_poly].
  - intros i j I J. destruct (Nat.ltb_spec i n) as [A|A], (Nat.ltb_spec j n) as [B|B]; intros E; [|pose proof (root_lt_1 n i A); lra|pose proof (root_lt_1 n j B); lra|lia].
    destruct (Nat.lt_trichotomy i j) as [L|[->|L]]; [pose proof (root_increasing n i j L B); lra|reflexivity|pose proof (root_increasing n j i L A); lra].
  - intros i I. destruct (Nat.ltb_spec i n) as [A|A].
    + rewrite root_is_root by exact A. unfold amplify. rewrite (rprod_zero n _ i A); [ring|]. cbv beta. rewrite step_eq. pose proof (root_lt_1 n i A). field. lra.
    + rewrite cheb_at_1. unfold amplify. rewrite rprod_ones; [ring|]. intros j J. ring.
Qed.

Lemma amplify_derivative n m : derivable_pt_lim (amplify n m) 1 (rsum m (fun i => chebyshev_step n i)).
Proof.
  induction m as [|m IH]; [apply derivable_pt_lim_const|].
  assert (DL : derivable_pt_lim (fun x => 1 - chebyshev_step n m * (1 - x)) 1 (chebyshev_step n m)).
  { pose proof (derivable_pt_lim_minus (fun _ => 1) id 1 0 1 (derivable_pt_lim_const 1 1) (derivable_pt_lim_id 1)) as D1.
    pose proof (derivable_pt_lim_scal _ (chebyshev_step n m) 1 _ D1) as D2. pose proof (derivable_pt_lim_minus (fun _ => 1) _ 1 0 _ (derivable_pt_lim_const 1 1) D2) as D3.
    replace (0 - chebyshev_step n m * (0 - 1)) with (chebyshev_step n m) in D3 by ring. exact D3. }
  pose proof (derivable_pt_lim_mult _ _ 1 _ _ IH DL) as D. cbn [rsum].
  replace (rsum m (fun i => chebyshev_step n i) + chebyshev_step n m) with (rsum m (fun i => chebyshev_step n i) * (1 - chebyshev_step n m * (1 - 1)) + amplify n m 1 * chebyshev_step n m); [exact D|].
  replace (amplify n m 1) with 1; [ring|]. unfold amplify. rewrite rprod_ones; [reflexivity|]. intros; ring.
Qed.
Lemma step_sum n : (1 <= n)%nat -> rsum n (fun i => chebyshev_step n i) = (INR n) ^ 2.
Proof.
  intros N. destruct (cheb_derivative n) as (d & D & <-). apply (uniqueness_limite (cheb n) 1); [|exact D].
  pose proof (amplify_derivative n n) as A. intros eps EP. destruct (A eps EP) as (del & H). exists del. intros h H0 H1. specialize (H h H0 H1). rewrite !amplify_cheb in H by exact N. exact H.
Qed.

Lemma step_single : chebyshev_step 1 0 = 1.
Proof. rewrite step_eq. unfold angle. cbn. replace ((1 - 0 - 1 / 2) * PI / 1) with (PI / 2) by field. rewrite cos_PI2. field. Qed.
Lemma step_last_exceeds n : (2 <= n)%nat -> 1 < chebyshev_step n (n - 1).
Proof.
  intros N. rewrite step_eq. assert (L : cos (angle n (n - 1)) < 1) by (apply root_lt_1; lia). pose proof (angle_range n (n - 1) ltac:(lia)) as A. pose proof PI_RGT_0 as PP.
  assert (Q : angle n (n - 1) < PI / 2).
  { unfold angle. rewrite minus_INR by lia. cbn [INR]. assert (N2 : 2 <= INR n) by (change 2 with (INR 2); apply le_INR; lia). apply Rmult_lt_reg_r with (INR n); [lra|]. unfold Rdiv. rewrite !Rmult_assoc. rewrite Rinv_l by lra. nra. }
  assert (P : 0 < cos (angle n (n - 1))) by (apply cos_gt_0; lra). apply Rmult_lt_reg_r with (1 - cos (angle n (n - 1))); [lra|]. unfold Rdiv. rewrite !Rmult_1_l, Rinv_l by lra. lra.
Qed.
