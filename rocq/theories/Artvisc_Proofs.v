(** Proofs about the artificial viscosity. *)
From Coq Require Import Reals List Arith Lia Lra.
From Verif Require Import Outcome RSum Tensor_Model Tensor_Spec Row_Model Smooth_Model Smooth_Spec Smooth_Proofs2 Artvisc_Model.
From Verif Require Tensor_Thm Row_Spec Row_Proofs Filter_Proofs Jac_Proofs4 Spatial_Proofs3.
Local Open Scope R_scope.

Lemma elwise_ramp_eq c h x : elwise_ramp c h x = ramp c h x.
Proof.
  unfold elwise_ramp, ramp. destruct x as [x|]; [|reflexivity]. destruct (Rlt_dec (c - h) x), (Rle_dec x (c - h)); try lra; try reflexivity.
  destruct (Rle_dec (c + h) x), (Rlt_dec x (c + h)); try lra; reflexivity.
Qed.
Lemma elwise_mono rs width speed sound u u' : (2 <= rs)%nat -> 0 <= width -> 0 <= speed + sound -> u <= u' -> elwise_uncertainty rs width speed sound u <= elwise_uncertainty rs width speed sound u'.
Proof.
  intros R W S U. unfold elwise_uncertainty. assert (2 <= INR rs) by (apply (le_INR 2); exact R). set (scale := width / (INR rs - 1) * (speed + sound)).
  assert (0 <= scale). { apply Rmult_le_pos; [|exact S]. apply Rmult_le_pos; [exact W|]. apply Rlt_le, Rinv_0_lt_compat. lra. }
  apply Rmult_le_compat_r; [assumption|]. rewrite !elwise_ramp_eq. destruct (Rlt_dec 0 u) as [A|A], (Rlt_dec 0 u') as [B|B]; try lra.
  - apply ramp_mono; [lra|]. unfold Rdiv. apply Rmult_le_compat_r.
    + apply Rlt_le, Rinv_0_lt_compat. rewrite <- ln_1. apply ln_increasing; lra.
    + apply Rmult_le_compat_l; [lra|]. destruct (Req_dec u u') as [->|N]; [lra|]. apply Rlt_le, ln_increasing; lra.
  - change (ramp (-4 - 425 / 100 * ln (INR rs - 1) / ln 10) (1 / 2) None) with 0. apply ramp_range.
Qed.

(** ** interpolation from the vertices *)
Lemma vertices_eq nd rs node vert : (1 <= nd)%nat -> (0 < rs)%nat -> exists r, vertices_to_qpoints nd rs node vert = Ok r /\
  forall q, (q < rs ^ nd)%nat -> r q = multilinear nd vert (fun k => node (digit rs nd k q)).
Proof.
  intros N R. unfold vertices_to_qpoints.
  destruct (Tensor_Thm.hypercube_matvec_kronecker (mk_mat rs 2 (fun i j => if (j =? 0)%nat then 1 - node i else node i)) nd vert (S nd)) as (r & E & H); cbn [rows cols]; try lia. cbn [rows cols] in E, H.
  rewrite E. cbn [bind]. exists r. split; [reflexivity|]. intros q Q. rewrite H by exact Q. unfold multilinear. apply rsum_ext. intros i _. rewrite Rmult_comm. f_equal.
  unfold kronecker_power, vertex_weight. apply rprod_ext. intros k _. cbn [rows cols entry]. pose proof (Filter_Proofs.digit_lt 2 nd k i ltac:(lia)).
  destruct (digit 2 nd k i) as [|[|]]; [reflexivity|reflexivity|lia].
Qed.
Lemma vertex_weight_nonneg n x i : (forall k, (k < n)%nat -> 0 <= x k <= 1) -> 0 <= vertex_weight n x i.
Proof.
  intros H. unfold vertex_weight. set (g := fun k => if (digit 2 n k i =? 1)%nat then x k else 1 - x k).
  assert (G : forall k, (k < n)%nat -> 0 <= g k) by (intros k K; unfold g; pose proof (H k K); destruct (_ =? _)%nat; lra). clearbody g. clear H. induction n as [|n IH]; cbn; [lra|].
  apply Rmult_le_pos; [apply IH; intros; apply G; lia|apply G; lia].
Qed.
Lemma vertex_weight_sum n x : rsum (2 ^ n) (vertex_weight n x) = 1.
Proof.
  transitivity (rsum (2 ^ n) (fun j => rprod n (fun k => (fun k b => if (b =? 1)%nat then x k else 1 - x k) k (digit 2 n k j)))); [reflexivity|].
  rewrite (Filter_Proofs.rsum_digits 2 n ltac:(lia) (fun k b => if (b =? 1)%nat then x k else 1 - x k)). apply Filter_Proofs.rprod_1. intros k _. cbn. ring.
Qed.
Lemma multilinear_range n v x a b : (forall k, (k < n)%nat -> 0 <= x k <= 1) -> (forall i, (i < 2 ^ n)%nat -> a <= v i <= b) -> a <= multilinear n v x <= b.
Proof.
  intros X V. unfold multilinear. pose proof (vertex_weight_sum n x) as S. assert (C : forall c, c = rsum (2 ^ n) (fun i => c * vertex_weight n x i)) by (intros c; rewrite rsum_scal, S; ring).
  split; [rewrite (C a) at 1|rewrite (C b)]; apply rsum_le; intros i I; (apply Rmult_le_compat_r; [apply vertex_weight_nonneg, X|apply V, I]).
Qed.
Lemma multilinear_face nd d v x j : (d < nd)%nat -> (j < 2)%nat -> x d = INR j ->
  multilinear nd v x = rsum (2 ^ (nd - 1)) (fun f => v (row_point nd 2 d f j) * rprod nd (fun c => if (c =? d)%nat then 1 else if (digit 2 (nd - 1) (Row_Spec.drop d c) f =? 1)%nat then x c else 1 - x c)).
Proof.
  intros D J X. unfold multilinear. rewrite (Spatial_Proofs3.rsum_rows nd 2 d) by (try lia; exact D). apply rsum_ext. intros f F.
  rewrite (rsum_single 2 j); [|exact J|].
  - rewrite row_point_eq. f_equal. unfold vertex_weight. apply rprod_ext. intros c C. rewrite <- row_point_eq, (Jac_Proofs4.digit_row nd 2 d) by (try lia; assumption).
    destruct (Nat.eqb_spec c d) as [->|NE]; [|reflexivity]. rewrite X. destruct j as [|[|]]; [| |lia]; cbn; ring.
  - intros i I NE. replace (vertex_weight nd x (i_qpoint (Row_Proofs.nth_row nd 2 d f) i)) with 0; [ring|]. symmetry. unfold vertex_weight. apply (Filter_Proofs.rprod_0 nd _ d D).
    rewrite (Jac_Proofs4.digit_row nd 2 d), Nat.eqb_refl by (try lia; assumption). rewrite X. destruct i as [|[|]], j as [|[|]]; try lia; cbn; ring.
Qed.
