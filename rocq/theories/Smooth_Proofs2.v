(** Proofs about the indicators of an element. *)
From Coq Require Import Reals List Arith Lia Lra FunctionalExtensionality.
From Verif Require Import Outcome RSum ListUtil Loop Basis_Spec Quad_Model Quad_Spec Quad_Proofs2 Tensor_Model Tensor_Spec Row_Model Row_Proofs Smooth_Model Smooth_Spec Smooth_Proofs1.
From Verif Require Tensor_Thm Spatial_Proofs Spatial_Proofs3.
Import ListNotations.
Local Open Scope R_scope.

Lemma row_point_eq nd rs d f j : i_qpoint (nth_row nd rs d f) j = row_point nd rs d f j.
Proof. unfold i_qpoint, nth_row, row_point. cbn. ring. Qed.
Lemma fold_add {A} (g : A -> R) (l : list A) a : fold_left (fun acc x => acc + g x) l a = a + fold_left (fun acc x => acc + g x) l 0.
Proof. revert a. induction l as [|x l IH]; intros a; cbn; [ring|]. rewrite (IH (a + g x)), (IH (0 + g x)). ring. Qed.
Lemma fold_add_seq (g : nat -> R) m a : fold_left (fun acc x => acc + g x) (seq 0 m) a = a + rsum m g.
Proof. induction m as [|m IH]; [cbn; ring|]. rewrite seq_S, fold_left_app, IH. cbn [fold_left rsum Nat.add]. ring. Qed.
Lemma fold_left_map {A B C} (f : C -> B -> C) (h : A -> B) (l : list A) a : fold_left f (map h l) a = fold_left (fun x y => f x (h y)) l a.
Proof. revert a. induction l as [|x l IH]; intros a; cbn; [reflexivity|apply IH]. Qed.
Lemma ofold_sum (f : nat -> R -> outcome R) (g : nat -> R) m a : (forall i x, (i < m)%nat -> f i x = Ok (x + g i)) -> ofold f (seq 0 m) a = Ok (a + rsum m g).
Proof.
  intros H. induction m as [|m IH]; [cbn; f_equal; ring|]. rewrite seq_S, ofold_app, IH by (intros; apply H; lia). cbn [bind ofold Nat.add rsum]. rewrite H by lia. cbn. f_equal. ring.
Qed.

Section Element.
  Context (nd rs : nat) (w : nat -> R) (ND : (0 < nd)%nat) (RS : (0 < rs)%nat).
  Lemma row_sum_eq mode u fw : (forall f, (f < rs ^ (nd - 1))%nat -> fw f = outer_power rs w (nd - 1) f) -> row_sum nd rs w mode u fw = Ok (INR nd * roughness nd rs w mode u).
  Proof using ND RS.
    intros F. unfold row_sum. rewrite (ofold_sum _ (fun d => rsum (rs ^ (nd - 1)) (fun f => outer_power rs w (nd - 1) f * inner rs w mode (fun j => u (row_point nd rs d f j)) ^ 2))).
    - f_equal. unfold roughness. pose proof (lt_0_INR nd ND). field. lra.
    - intros d x D. rewrite row_begin_nth, row_loop_nth by lia. cbn [bind]. f_equal. rewrite fold_left_map, fold_add_seq. f_equal. apply rsum_ext. intros f FF.
      change (i_face_qpoint (nth_row nd rs d f)) with f. rewrite F by exact FF. rewrite Rmult_comm. f_equal. f_equal. unfold inner. apply rsum_ext. intros j _. rewrite row_point_eq. ring.
  Qed.
  Lemma weights_eq k : (k <= nd)%nat -> exists out, pow_outer (S nd) rs w k = Ok (rs ^ k, out)%nat /\ forall i, (i < rs ^ k)%nat -> out i = outer_power rs w k i.
  Proof using ND RS. intros K. apply Tensor_Thm.pow_outer_power; [exact RS|lia]. Qed.
  Lemma stab_eq mode c h state : stab_art_visc nd rs w mode c h state =
    Ok ((INR rs - 1) * c * h * ramp (ramp_center rs) (1 / 2) (log10 (roughness nd rs w mode (fun q => 1 / state (nd * rs ^ nd + q)%nat) / mean_square nd rs w (fun q => 1 / state (nd * rs ^ nd + q)%nat)))).
  Proof using ND RS.
    unfold stab_art_visc. destruct (weights_eq nd ltac:(lia)) as (qw & E & Q). destruct (weights_eq (nd - 1) ltac:(lia)) as (fw & E' & F). rewrite E, E'. cbn [bind].
    rewrite (row_sum_eq mode _ fw F). cbn [bind]. f_equal. f_equal. f_equal. f_equal.
    replace (rsum (rs ^ nd) (fun i => 1 / state (nd * rs ^ nd + i)%nat * (1 / state (nd * rs ^ nd + i)%nat) * qw i)) with (mean_square nd rs w (fun q => 1 / state (nd * rs ^ nd + q)%nat)).
    - unfold Rdiv. rewrite Rinv_mult. pose proof (lt_0_INR nd ND). set (r := roughness _ _ _ _ _). set (m := / mean_square _ _ _ _). field. lra.
    - unfold mean_square. apply rsum_ext. intros i I. rewrite Q by exact I. ring.
  Qed.
  Lemma elem_nonsmooth_eq mode u : elem_nonsmooth nd rs w mode u = Ok (sqrt (roughness nd rs w mode u)).
  Proof using ND RS.
    unfold elem_nonsmooth. destruct (weights_eq (nd - 1) ltac:(lia)) as (fw & E & F). rewrite E. cbn [bind].
    rewrite (ofold_sum _ (fun d => rsum (rs ^ (nd - 1)) (fun f => outer_power rs w (nd - 1) f * inner rs w mode (fun j => u (row_point nd rs d f j)) ^ 2))).
    - cbn [bind]. f_equal. f_equal. unfold roughness. f_equal. ring.
    - intros d x D. set (m := mk_mat 1 rs (fun _ j => mode j * w j)).
      destruct (Tensor_Thm.dimension_matvec_single m u d (rs ^ (nd - 1 - d))) as (out & G & H); [cbn; lia|exact RS|apply Row_Proofs.pow_pos'; exact RS|].
      cbn [cols rows m] in G, H. replace (rs ^ (d + 1) * rs ^ (nd - 1 - d))%nat with (rs ^ nd)%nat in G by (rewrite <- Nat.pow_add_r; f_equal; lia).
      rewrite Nat.mul_1_r in G. replace (rs ^ d * rs ^ (nd - 1 - d))%nat with (rs ^ (nd - 1))%nat in G by (rewrite <- Nat.pow_add_r; f_equal; lia).
      rewrite G. cbn [bind]. f_equal. f_equal. apply rsum_ext. intros f FF. rewrite (F f FF).
      set (s := (rs ^ (nd - 1 - d))%nat) in *. assert (0 < s)%nat by (apply Row_Proofs.pow_pos'; exact RS).
      assert (O : (f / s < rs ^ d)%nat).
      { apply Nat.div_lt_upper_bound; [lia|]. unfold s. rewrite <- Nat.pow_add_r. replace (nd - 1 - d + d)%nat with (nd - 1)%nat by lia. exact FF. }
      specialize (H (f / s)%nat 0%nat (f mod s) O ltac:(lia) ltac:(apply Nat.mod_upper_bound; lia)).
      replace ((f / s * 1 + 0) * s + f mod s)%nat with f in H by (pose proof (Nat.div_mod f s); lia).
      replace (out f) with (inner rs w mode (fun j => u (row_point nd rs d f j))); [ring|].
      rewrite H. unfold inner. apply rsum_ext. intros j _. cbn [entry m]. unfold row_point. fold s. ring.
  Qed.
  Lemma mean_square_rows d u : (d < nd)%nat -> mean_square nd rs w u = rsum (rs ^ (nd - 1)) (fun f => outer_power rs w (nd - 1) f * inner rs w (fun j => u (row_point nd rs d f j)) (fun j => u (row_point nd rs d f j))).
  Proof using RS.
    intros D. transitivity (Spatial_Proofs3.quad1 nd rs w (fun q => u q ^ 2)); [reflexivity|]. rewrite (Spatial_Proofs3.quad1_rows nd rs w d) by assumption.
    apply rsum_ext. intros f _. f_equal. unfold inner. apply rsum_ext. intros j _. rewrite row_point_eq. ring.
  Qed.
  Context (P : forall i, (i < rs)%nat -> 0 < w i).
  Lemma outer_pos k i : 0 < outer_power rs w k i.
  Proof using RS P.
    unfold outer_power. set (g := fun k0 => w (digit rs k k0 i)). assert (G : forall a, 0 < g a) by (intros a; apply P; unfold digit; apply Nat.mod_upper_bound; clear -RS; lia).
    clearbody g. induction k as [|k IH]; cbn; [lra|]. apply Rmult_lt_0_compat; [apply IH|apply G].
  Qed.
  Lemma roughness_nonneg mode u : 0 <= roughness nd rs w mode u.
  Proof using ND RS P.
    unfold roughness. pose proof (lt_0_INR nd ND). apply Rmult_le_pos; [|apply Rlt_le, Rinv_0_lt_compat; lra].
    apply rsum_nonneg. intros d _. apply rsum_nonneg. intros f _. apply Rmult_le_pos; [apply Rlt_le, outer_pos|apply pow2_ge_0].
  Qed.
  Lemma mean_square_pos u : (exists q, (q < rs ^ nd)%nat /\ u q <> 0) -> 0 < mean_square nd rs w u.
  Proof using RS P.
    intros (q & Q & U). unfold mean_square. apply Rlt_le_trans with (outer_power rs w nd q * u q ^ 2).
    - apply Rmult_lt_0_compat; [apply outer_pos|]. pose proof (Rsqr_pos_lt (u q) U). unfold Rsqr in *. nra.
    - apply (rsum_ge_term (rs ^ nd) (fun q => outer_power rs w nd q * u q ^ 2)); [|exact Q]. intros i _. apply Rmult_le_pos; [apply Rlt_le, outer_pos|apply pow2_ge_0].
  Qed.
  Lemma mean_square_scale a u : mean_square nd rs w (fun q => a * u q) = a ^ 2 * mean_square nd rs w u.
  Proof. unfold mean_square. rewrite <- rsum_scal. apply rsum_ext. intros. ring. Qed.
  Lemma roughness_scale mode a u : roughness nd rs w mode (fun q => a * u q) = a ^ 2 * roughness nd rs w mode u.
  Proof.
    unfold roughness, Rdiv. rewrite <- Rmult_assoc. f_equal. rewrite <- rsum_scal. apply rsum_ext. intros d _. rewrite <- rsum_scal. apply rsum_ext. intros f _.
    replace (inner rs w mode (fun j => a * u (row_point nd rs d f j))) with (a * inner rs w mode (fun j => u (row_point nd rs d f j))); [ring|].
    unfold inner. rewrite <- rsum_scal. apply rsum_ext. intros. ring.
  Qed.
End Element.

Section Rough.
  Context (nd rs : nat) (node w : nat -> R) (ND : (0 < nd)%nat) (RS : (2 <= rs)%nat) (L : as_lobatto rs node w).
  Let mode := py_legendre rs node w (rs - 1).
  Let P : forall i, (i < rs)%nat -> 0 < w i. Proof. intros i I. apply L, I. Qed.
  Let RS0 : (0 < rs)%nat. Proof. lia. Qed.
  Lemma roughness_bound u : roughness nd rs w mode u <= mean_square nd rs w u.
  Proof using ND RS L.
    unfold roughness. pose proof (lt_0_INR nd ND) as N. apply Rmult_le_reg_r with (INR nd); [exact N|]. unfold Rdiv. rewrite Rmult_assoc, Rinv_l, Rmult_1_r by lra.
    replace (mean_square nd rs w u * INR nd) with (rsum nd (fun _ => mean_square nd rs w u)) by (rewrite rsum_const; ring).
    apply rsum_le. intros d D. rewrite (mean_square_rows nd rs w RS0 d u D). apply rsum_le. intros f F.
    apply Rmult_le_compat_l; [apply Rlt_le, outer_pos; assumption|]. apply highest_bound; [exact L|lia].
  Qed.
  Lemma roughness_zero u : roughness nd rs w mode u = 0 <-> smooth nd rs node u.
  Proof using ND RS L.
    pose proof (lt_0_INR nd ND) as N. unfold roughness.
    assert (Q : forall d f, 0 <= outer_power rs w (nd - 1) f * inner rs w mode (fun j => u (row_point nd rs d f j)) ^ 2).
    { intros d f. apply Rmult_le_pos; [apply Rlt_le, outer_pos; assumption|apply pow2_ge_0]. }
    split.
    - intros Z d f D F. apply (highest_zero rs node w L); [exact RS|].
      assert (Z' : rsum nd (fun d => rsum (rs ^ (nd - 1)) (fun f => outer_power rs w (nd - 1) f * inner rs w mode (fun j => u (row_point nd rs d f j)) ^ 2)) = 0).
      { apply Rmult_eq_reg_r with (/ INR nd); [|apply Rinv_neq_0_compat; lra]. rewrite Rmult_0_l. exact Z. }
      assert (T : outer_power rs w (nd - 1) f * inner rs w mode (fun j => u (row_point nd rs d f j)) ^ 2 <= 0).
      { rewrite <- Z'. apply Rle_trans with (rsum (rs ^ (nd - 1)) (fun f => outer_power rs w (nd - 1) f * inner rs w mode (fun j => u (row_point nd rs d f j)) ^ 2)).
        - apply (rsum_ge_term (rs ^ (nd - 1)) (fun f => outer_power rs w (nd - 1) f * inner rs w mode (fun j => u (row_point nd rs d f j)) ^ 2)); [intros; apply Q|exact F].
        - apply (rsum_ge_term nd (fun d => rsum (rs ^ (nd - 1)) (fun f => outer_power rs w (nd - 1) f * inner rs w mode (fun j => u (row_point nd rs d f j)) ^ 2))); [intros; apply rsum_nonneg; intros; apply Q|exact D]. }
      pose proof (outer_pos rs w RS0 P (nd - 1) f) as O. pose proof (pow2_ge_0 (inner rs w mode (fun j => u (row_point nd rs d f j)))) as S2.
      assert (E : inner rs w mode (fun j => u (row_point nd rs d f j)) ^ 2 = 0) by nra.
      apply Rsqr_0_uniq. unfold Rsqr. rewrite <- E. fold mode. ring.
    - intros S. transitivity (rsum nd (fun _ => 0) / INR nd); [|rewrite rsum_0; unfold Rdiv; ring]. f_equal. apply rsum_ext. intros d D.
      transitivity (rsum (rs ^ (nd - 1)) (fun _ => 0)); [|apply rsum_0]. apply rsum_ext. intros f F.
      replace (inner rs w mode (fun j => u (row_point nd rs d f j))) with 0; [ring|]. symmetry. apply (highest_zero rs node w L); [exact RS|]. exact (S d f D F).
  Qed.
End Rough.

(** ** The ramp *)
Lemma sin_bounds x : -1 <= sin x <= 1. Proof. apply SIN_bound. Qed.
Lemma ramp_range c h x : 0 <= ramp c h x <= 1.
Proof. unfold ramp. destruct x as [x|]; [|lra]. destruct (Rle_dec _ _); [lra|]. destruct (Rlt_dec _ _); [|lra]. pose proof (SIN_bound (PI * (x - c) / 2 / h)). lra. Qed.
Lemma ramp_mono c h x y : 0 < h -> x <= y -> ramp c h (Some x) <= ramp c h (Some y).
Proof.
  intros H L. unfold ramp. pose proof (SIN_bound (PI * (x - c) / 2 / h)) as BX. pose proof (SIN_bound (PI * (y - c) / 2 / h)) as BY.
  destruct (Rle_dec x (c - h)) as [A|A], (Rle_dec y (c - h)) as [B|B]; try lra.
  - destruct (Rlt_dec y (c + h)); lra.
  - destruct (Rlt_dec x (c + h)) as [C|C], (Rlt_dec y (c + h)) as [D|D]; try lra.
    assert (Z : forall z, - h < z - c < h -> - (PI / 2) <= PI * (z - c) / 2 / h <= PI / 2).
    { intros z Zz. pose proof PI_RGT_0 as PP. replace (PI * (z - c) / 2 / h) with (PI / 2 * ((z - c) / h)) by (field; lra).
      assert (- 1 <= (z - c) / h <= 1).
      { split; [apply Rmult_le_reg_r with h|apply Rmult_le_reg_r with h]; try lra; unfold Rdiv; rewrite Rmult_assoc, Rinv_l by lra; lra. }
      split; nra. }
    pose proof (Z x ltac:(lra)) as ZX. pose proof (Z y ltac:(lra)) as ZY.
    assert (Q : PI * (x - c) / 2 / h <= PI * (y - c) / 2 / h).
    { unfold Rdiv. apply Rmult_le_compat_r; [apply Rlt_le, Rinv_0_lt_compat; lra|]. pose proof PI_RGT_0. nra. }
    pose proof (sin_incr_1 _ _ (proj1 ZX) (proj2 ZX) (proj1 ZY) (proj2 ZY) Q). lra.
Qed.
Lemma log10_mono_ramp c h x y : 0 < h -> x <= y -> ramp c h (log10 x) <= ramp c h (log10 y).
Proof.
  intros H L. unfold log10. destruct (Rlt_dec 0 x) as [X|X], (Rlt_dec 0 y) as [Y|Y]; try lra.
  - apply ramp_mono; [exact H|]. unfold Rdiv. apply Rmult_le_compat_r.
    + apply Rlt_le, Rinv_0_lt_compat. rewrite <- ln_1. apply ln_increasing; lra.
    + destruct (Req_dec x y) as [->|N]; [lra|]. apply Rlt_le, ln_increasing; lra.
  - change (ramp c h None) with 0. apply ramp_range.
Qed.

(** ** Averages *)
Section Average.
  Context (nd rs : nat) (w : nat -> R) (RS : (0 < rs)%nat) (P : forall i, (i < rs)%nat -> 0 < w i).
  Definition weight_at (det : nat -> R) q := outer_power rs w nd q * det q.
  Lemma avg_eq det vals p : avg nd rs w det vals p = Ok (rsum (rs ^ nd) (fun q => weight_at det q * vals q ^ p) / rsum (rs ^ nd) (weight_at det)).
  Proof using RS.
    unfold avg. destruct (Tensor_Thm.pow_outer_power rs w nd (S nd) RS ltac:(lia)) as (out & E & W). rewrite E. cbn [bind]. f_equal. f_equal.
    - apply rsum_ext. intros i I. rewrite W by exact I. unfold weight_at. ring.
    - apply rsum_ext. intros i I. rewrite W by exact I. reflexivity.
  Qed.
  Context (det : nat -> R) (D : forall q, (q < rs ^ nd)%nat -> 0 < det q).
  Lemma weight_at_pos q : (q < rs ^ nd)%nat -> 0 < weight_at det q.
  Proof using RS P D. intros Q. apply Rmult_lt_0_compat; [apply outer_pos; assumption|apply D, Q]. Qed.
  Lemma volume_pos : 0 < rsum (rs ^ nd) (weight_at det).
  Proof using RS P D.
    pose proof (Row_Proofs.pow_pos' rs nd RS) as Q. apply Rlt_le_trans with (weight_at det 0); [apply weight_at_pos, Q|].
    apply (rsum_ge_term (rs ^ nd) (weight_at det)); [intros; apply Rlt_le, weight_at_pos; assumption|exact Q].
  Qed.
  Lemma average_range vals a b : (forall q, (q < rs ^ nd)%nat -> a <= vals q <= b) -> exists x, elem_average nd rs w det vals = Ok x /\ a <= x <= b.
  Proof using RS P D.
    intros H. unfold elem_average. rewrite avg_eq. eexists. split; [reflexivity|]. pose proof volume_pos as V.
    assert (forall c, rsum (rs ^ nd) (weight_at det) * c = rsum (rs ^ nd) (fun q => weight_at det q * c)) by (intros; symmetry; apply rsum_scal_r).
    split; apply Rmult_le_reg_l with (rsum (rs ^ nd) (weight_at det)); try exact V.
    - replace (rsum (rs ^ nd) (weight_at det) * (rsum (rs ^ nd) (fun q => weight_at det q * vals q ^ 1) / rsum (rs ^ nd) (weight_at det))) with (rsum (rs ^ nd) (fun q => weight_at det q * vals q ^ 1)) by (field; lra).
      rewrite H0. apply rsum_le. intros q Q. rewrite pow_1. apply Rmult_le_compat_l; [apply Rlt_le, weight_at_pos, Q|apply H, Q].
    - replace (rsum (rs ^ nd) (weight_at det) * (rsum (rs ^ nd) (fun q => weight_at det q * vals q ^ 1) / rsum (rs ^ nd) (weight_at det))) with (rsum (rs ^ nd) (fun q => weight_at det q * vals q ^ 1)) by (field; lra).
      rewrite H0. apply rsum_le. intros q Q. rewrite pow_1. apply Rmult_le_compat_l; [apply Rlt_le, weight_at_pos, Q|apply H, Q].
  Qed.
  Lemma average_l2 vals : exists x y, elem_average nd rs w det vals = Ok x /\ elem_l2 nd rs w det vals = Ok y /\ Rabs x <= y.
  Proof using RS P D.
    unfold elem_l2, elem_average. rewrite !avg_eq. cbn [bind]. do 2 eexists. split; [reflexivity|]. split; [reflexivity|]. pose proof volume_pos as V.
    set (W := rsum (rs ^ nd) (weight_at det)) in *. set (A := rsum (rs ^ nd) (fun q => weight_at det q * vals q ^ 1)). set (B := rsum (rs ^ nd) (fun q => weight_at det q * vals q ^ 2)).
    rewrite <- sqrt_Rsqr_abs. apply sqrt_le_1_alt. set (m := A / W).
    assert (T : 0 <= rsum (rs ^ nd) (fun q => weight_at det q * (vals q - m) ^ 2)).
    { apply rsum_nonneg. intros q Q. apply Rmult_le_pos; [apply Rlt_le, weight_at_pos, Q|apply pow2_ge_0]. }
    replace (rsum (rs ^ nd) (fun q => weight_at det q * (vals q - m) ^ 2)) with (B + - 2 * m * A + m * m * W) in T.
    2: { unfold A, B, W. clearbody m. rewrite <- !rsum_scal, <- !rsum_plus. apply rsum_ext. intros. ring. }
    assert (E : A = m * W) by (unfold m; field; lra). rewrite E in T. unfold Rsqr. apply Rmult_le_reg_r with W; [exact V|]. unfold Rdiv. rewrite (Rmult_assoc B), Rinv_l, Rmult_1_r by lra. lra.
  Qed.
  Lemma l2_scale a vals y : elem_l2 nd rs w det vals = Ok y -> elem_l2 nd rs w det (fun q => a * vals q) = Ok (Rabs a * y).
  Proof using RS P D.
    unfold elem_l2. rewrite !avg_eq. cbn [bind]. intros E. injection E as <-. f_equal. rewrite <- sqrt_Rsqr_abs, <- sqrt_mult_alt by apply Rle_0_sqr. f_equal. unfold Rdiv. rewrite <- Rmult_assoc. f_equal.
    rewrite <- rsum_scal. apply rsum_ext. intros. unfold Rsqr. ring.
  Qed.
End Average.

Lemma roughness_ext nd rs w mode u v : (0 < rs)%nat -> (forall q, (q < rs ^ nd)%nat -> u q = v q) -> roughness nd rs w mode u = roughness nd rs w mode v.
Proof.
  intros R E. unfold roughness. f_equal. apply rsum_ext. intros d D. apply rsum_ext. intros f F. f_equal. f_equal. apply inner_ext; [reflexivity|]. intros j J.
  rewrite <- row_point_eq. apply E. apply qpoint_lt; assumption.
Qed.
Lemma weights_sum_1 nd rs node w : (2 <= rs)%nat -> as_lobatto rs node w -> rsum (rs ^ nd) (outer_power rs w nd) = 1.
Proof.
  intros R L. assert (W : rsum rs w = 1).
  { assert (F : Quad_Proofs.deriv (fun x => x) (fun _ => 1)) by apply Quad_Proofs.deriv_id.
    pose proof (Quad_Proofs.quadrature rs node w (2 * rs - 2) (fun _ => 1) (fun x => x) (proj2 L)) as Q. rewrite <- (Rminus_0_r 1), <- Q.
    - apply rsum_ext. intros. ring.
    - apply (Quad_Proofs.poly_weaken_le 1); [lia|apply Quad_Proofs.poly_const].
    - exact F. }
  induction nd as [|n IH]; [cbn; unfold outer_power; cbn; ring|].
  transitivity (mean_square (S n) rs w (fun _ => 1)); [unfold mean_square; apply rsum_ext; intros; ring|].
  rewrite (mean_square_rows (S n) rs w ltac:(lia) 0 _ ltac:(lia)). replace (S n - 1)%nat with n by lia. transitivity (rsum (rs ^ n) (outer_power rs w n)); [|exact IH]. apply rsum_ext. intros f _.
  transitivity (outer_power rs w n f * rsum rs w); [|rewrite W; ring]. f_equal. unfold inner. apply rsum_ext. intros. ring.
Qed.
