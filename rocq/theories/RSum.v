(** Finite sums and products over [R], used by the numerical models; models nothing of /repo by itself. *)
From Coq Require Import Reals List Arith Lia Lra.
Import ListNotations.
Local Open Scope R_scope.

(** [f 0 + ... + f (n - 1)] *)
Fixpoint rsum (n : nat) (f : nat -> R) : R := match n with O => 0 | S n' => rsum n' f + f n' end.
(** [f 0 * ... * f (n - 1)] *)
Fixpoint rprod (n : nat) (f : nat -> R) : R := match n with O => 1 | S n' => rprod n' f * f n' end.

Lemma rsum_ext n f g : (forall i, (i < n)%nat -> f i = g i) -> rsum n f = rsum n g.
Proof. induction n as [|n IH]; intros H; cbn; [reflexivity|]. rewrite IH, H; auto. Qed.
Lemma rprod_ext n f g : (forall i, (i < n)%nat -> f i = g i) -> rprod n f = rprod n g.
Proof. induction n as [|n IH]; intros H; cbn; [reflexivity|]. rewrite IH, H; auto. Qed.
Lemma rsum_0 n : rsum n (fun _ => 0) = 0.
Proof. induction n as [|n IH]; cbn; lra. Qed.
Lemma rsum_const n c : rsum n (fun _ => c) = INR n * c.
Proof. induction n as [|n IH]; [cbn; lra|]. rewrite S_INR. cbn [rsum]. lra. Qed.
Lemma rsum_plus n f g : rsum n (fun i => f i + g i) = rsum n f + rsum n g.
Proof. induction n as [|n IH]; cbn; lra. Qed.
Lemma rsum_minus n f g : rsum n (fun i => f i - g i) = rsum n f - rsum n g.
Proof. induction n as [|n IH]; cbn; lra. Qed.
Lemma rsum_scal n c f : rsum n (fun i => c * f i) = c * rsum n f.
Proof. induction n as [|n IH]; cbn; lra. Qed.
Lemma rsum_scal_r n c f : rsum n (fun i => f i * c) = rsum n f * c.
Proof. induction n as [|n IH]; cbn; lra. Qed.
Lemma rsum_swap n m f : rsum n (fun i => rsum m (fun j => f i j)) = rsum m (fun j => rsum n (fun i => f i j)).
Proof. induction n as [|n IH]; cbn; [now rewrite rsum_0|]. now rewrite IH, rsum_plus. Qed.
Lemma rsum_app n m f : rsum (n + m) f = rsum n f + rsum m (fun i => f (n + i)%nat).
Proof. induction m as [|m IH]; [rewrite Nat.add_0_r; cbn; lra|]. rewrite Nat.add_succ_r. cbn. lra. Qed.
(** a sum over [n * m] indices as a double sum *)
Lemma rsum_mult n m f : rsum (n * m) f = rsum n (fun i => rsum m (fun j => f (i * m + j)%nat)).
Proof. induction n as [|n IH]; [reflexivity|]. rewrite Nat.mul_succ_l, rsum_app, IH. reflexivity. Qed.
Lemma rsum_le n f g : (forall i, (i < n)%nat -> f i <= g i) -> rsum n f <= rsum n g.
Proof. induction n as [|n IH]; intros H; cbn; [lra|]. apply Rplus_le_compat; auto. Qed.
Lemma rsum_nonneg n f : (forall i, (i < n)%nat -> 0 <= f i) -> 0 <= rsum n f.
Proof. intros H. rewrite <- (rsum_0 n). now apply rsum_le. Qed.
Lemma rsum_single n k f : (k < n)%nat -> (forall i, (i < n)%nat -> i <> k -> f i = 0) -> rsum n f = f k.
Proof.
  induction n as [|n IH]; intros Hk H; [lia|]. cbn. destruct (Nat.eq_dec k n) as [->|].
  - rewrite (rsum_ext n f (fun _ => 0)), rsum_0; [lra|]. intros i Hi. apply H; lia.
  - rewrite IH, (H n); try lia; [lra|]. intros i Hi. apply H. lia.
Qed.
Lemma rsum_shift n f : rsum (S n) f = f 0%nat + rsum n (fun i => f (S i)).
Proof. change (S n) with (1 + n)%nat. rewrite rsum_app. cbn [rsum]. now rewrite Rplus_0_l. Qed.
Lemma rprod_shift n f : rprod (S n) f = f 0%nat * rprod n (fun i => f (S i)).
Proof. induction n as [|n IH]; [cbn; lra|]. cbn [rprod] in *. rewrite IH. ring. Qed.
Lemma rprod_mult n f g : rprod n (fun i => f i * g i) = rprod n f * rprod n g.
Proof. induction n as [|n IH]; cbn; [lra|]. rewrite IH. ring. Qed.
Lemma rsum_opp n f : rsum n (fun i => - f i) = - rsum n f.
Proof. induction n as [|n IH]; cbn; lra. Qed.
Lemma rsum_abs n f : Rabs (rsum n f) <= rsum n (fun i => Rabs (f i)).
Proof. induction n as [|n IH]; cbn; [rewrite Rabs_R0; lra|]. eapply Rle_trans; [apply Rabs_triang|]. lra. Qed.
Lemma rsum_eq_0 n f : (forall i, (i < n)%nat -> 0 <= f i) -> rsum n f = 0 -> forall i, (i < n)%nat -> f i = 0.
Proof.
  induction n as [|n IH]; intros H E i Hi; [lia|]. cbn in E. assert (0 <= rsum n f) by (apply rsum_nonneg; auto).
  assert (0 <= f n) by auto. destruct (Nat.eq_dec i n) as [->|]; [lra|]. apply IH; auto; lra || lia.
Qed.
Lemma rsum_ge_term n f k : (forall i, (i < n)%nat -> 0 <= f i) -> (k < n)%nat -> f k <= rsum n f.
Proof.
  induction n as [|n IH]; intros H Hk; [lia|]. cbn. assert (0 <= rsum n f) by (apply rsum_nonneg; auto). assert (0 <= f n) by auto.
  destruct (Nat.eq_dec k n) as [->|]; [lra|]. assert (f k <= rsum n f) by (apply IH; auto; lia). lra.
Qed.
