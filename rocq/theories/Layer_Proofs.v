From Coq Require Import Reals ZArith List Lra Lia.
From Verif Require Import RSum Layer_Model.
Import ListNotations.
Local Open Scope R_scope.

Lemma ceil_spec x : IZR (ceil x) - 1 < x <= IZR (ceil x).
Proof. unfold ceil. rewrite opp_IZR. destruct (base_Int_part (- x)). lra. Qed.

Lemma pow2_pos z : 0 < powerRZ 2 z.
Proof. apply powerRZ_lt. lra. Qed.
Lemma pow2_add a b : powerRZ 2 (a + b) = powerRZ 2 a * powerRZ 2 b.
Proof. apply powerRZ_add. lra. Qed.
Lemma ln2_pos : 0 < ln 2.
Proof. rewrite <- ln_1. apply ln_increasing; lra. Qed.
Lemma ln_powerRZ z : ln (powerRZ 2 z) = IZR z * ln 2.
Proof. rewrite powerRZ_Rpower by lra. unfold Rpower. now rewrite ln_exp. Qed.
Lemma ln_le_inv x y : 0 < x -> 0 < y -> ln x <= ln y -> x <= y.
Proof. intros Hx Hy [H|H]; [left; now apply ln_lt_inv|right; now apply ln_inv]. Qed.

(** the last layers' ratio: 2^-n_grow is in (ws, 2 ws] *)
Lemma n_grow_spec ws : 0 < ws -> ws < powerRZ 2 (- n_grow ws) <= 2 * ws.
Proof.
  intros Hw. destruct (ceil_spec (ln (0.5 / ws) / ln 2)) as [H1 H2]. fold (n_grow ws) in *. pose proof ln2_pos as L2.
  assert (E : ln (0.5 / ws) = - ln 2 - ln ws).
  { unfold Rdiv. rewrite ln_mult; [|lra|now apply Rinv_0_lt_compat]. rewrite ln_Rinv by assumption.
    replace 0.5 with (/ 2) by lra. rewrite ln_Rinv by lra. lra. }
  assert (X : ln (0.5 / ws) = ln (0.5 / ws) / ln 2 * ln 2) by (field; lra).
  set (q := ln (0.5 / ws) / ln 2) in *.
  assert (Y1 : (IZR (n_grow ws) - 1) * ln 2 < q * ln 2) by (apply Rmult_lt_compat_r; lra).
  assert (Y2 : q * ln 2 <= IZR (n_grow ws) * ln 2) by (apply Rmult_le_compat_r; lra).
  split.
  - apply ln_lt_inv; [assumption|apply pow2_pos|]. rewrite ln_powerRZ, opp_IZR. lra.
  - apply ln_le_inv; [apply pow2_pos|lra|]. rewrite ln_powerRZ, opp_IZR, ln_mult by lra. lra.
Qed.

Lemma n_grow_nonneg ws : 0 < ws <= 1 / 2 -> (0 <= n_grow ws)%Z.
Proof.
  intros [H0 H]. destruct (n_grow_spec ws H0) as [_ H2]. destruct (Z_le_gt_dec 0 (n_grow ws)) as [|Hn]; [assumption|exfalso].
  assert (E : powerRZ 2 (- n_grow ws) = 2 * powerRZ 2 (- n_grow ws - 1)).
  { replace (- n_grow ws)%Z with (1 + (- n_grow ws - 1))%Z at 1 by lia. rewrite pow2_add, powerRZ_1. lra. }
  assert (G : forall k, 1 <= powerRZ 2 (Z.of_nat k)).
  { intros k. rewrite <- pow_powerRZ. apply pow_R1_Rle. lra. }
  specialize (G (Z.to_nat (- n_grow ws - 1))). rewrite Z2Nat.id in G by lia. lra.
Qed.

Lemma spacing_wall ws nw i : (i < nw)%Z -> spacing ws nw i = ws.
Proof. intros H. unfold spacing. apply Z.ltb_lt in H. now rewrite H. Qed.
Lemma spacing_growth ws nw i : (nw <= i)%Z ->
  spacing ws nw i = powerRZ 2 (i - nw) * powerRZ 2 (- n_grow ws) * (1 - ws * IZR nw + powerRZ 2 (- n_grow ws)).
Proof.
  intros H. unfold spacing, n_layers. destruct (Z.ltb_spec i nw); [lia|]. rewrite <- pow2_add. f_equal.
  - f_equal. lia.
  - f_equal. f_equal. lia.
Qed.
Lemma spacing_double ws nw i : (nw <= i)%Z -> spacing ws nw (i + 1) = 2 * spacing ws nw i.
Proof.
  intros H. rewrite !spacing_growth by lia. replace (i + 1 - nw)%Z with (1 + (i - nw))%Z by lia. rewrite pow2_add, powerRZ_1. lra.
Qed.

Lemma cumulative_rsum ws nw i : cumulative_height ws nw i = rsum (Z.to_nat i) (fun j => spacing ws nw (Z.of_nat j)).
Proof.
  unfold cumulative_height. generalize (Z.to_nat i) as n. induction n as [|n IH]; [reflexivity|].
  rewrite seq_S, fold_left_app, IH. cbn. reflexivity.
Qed.

Lemma geo g : rsum g (fun k => powerRZ 2 (Z.of_nat k)) = powerRZ 2 (Z.of_nat g) - 1.
Proof.
  induction g as [|g IH]; [cbn; lra|]. change (rsum (S g) ?f) with (rsum g f + f g). rewrite IH.
  replace (Z.of_nat (S g)) with (1 + Z.of_nat g)%Z by lia. rewrite pow2_add, powerRZ_1. cbn [powerRZ]. lra.
Qed.

Lemma total_height ws nw : 0 < ws <= 1 / 2 -> (0 <= nw)%Z ->
  cumulative_height ws nw (n_layers ws nw) = 1 + powerRZ 2 (- n_grow ws) * (ws * IZR nw - powerRZ 2 (- n_grow ws)).
Proof.
  intros Hw Hn. pose proof (n_grow_nonneg ws Hw) as Hg. rewrite cumulative_rsum. unfold n_layers.
  rewrite Z2Nat.inj_add by assumption. rewrite rsum_app.
  rewrite (rsum_ext (Z.to_nat nw) _ (fun _ => ws)) by (intros j Hj; apply spacing_wall; lia).
  rewrite rsum_const, INR_IZR_INZ, Z2Nat.id by assumption.
  set (p := powerRZ 2 (- n_grow ws)).
  rewrite (rsum_ext (Z.to_nat (n_grow ws)) _ (fun k => p * (1 - ws * IZR nw + p) * powerRZ 2 (Z.of_nat k))).
  - rewrite rsum_scal, geo, Z2Nat.id by assumption.
    assert (E : p * powerRZ 2 (n_grow ws) = 1) by (unfold p; rewrite <- pow2_add; replace (- n_grow ws + n_grow ws)%Z with 0%Z by lia; reflexivity).
    replace (p * (1 - ws * IZR nw + p) * (powerRZ 2 (n_grow ws) - 1)) with ((1 - ws * IZR nw + p) * (p * powerRZ 2 (n_grow ws) - p)) by ring.
    rewrite E. ring.
  - intros j Hj. rewrite spacing_growth by lia. fold p. replace (Z.of_nat (Z.to_nat nw + j) - nw)%Z with (Z.of_nat j) by lia. ring.
Qed.

Lemma spacing_pos ws nw i : 0 < ws -> ws * IZR nw <= 1 -> 0 < spacing ws nw i.
Proof.
  intros Hw Hn. destruct (Z_lt_ge_dec i nw) as [H|H]; [now rewrite spacing_wall|].
  rewrite spacing_growth by lia. pose proof (pow2_pos (i - nw)). pose proof (pow2_pos (- n_grow ws)).
  apply Rmult_lt_0_compat; [now apply Rmult_lt_0_compat|lra].
Qed.

Lemma n_grow_unique ws g : 0 < ws -> ws < powerRZ 2 (- g) <= 2 * ws -> n_grow ws = g.
Proof.
  intros Hw [H1 H2]. destruct (n_grow_spec ws Hw) as [K1 K2].
  assert (M : forall a b, (a < b)%Z -> 2 * powerRZ 2 a <= powerRZ 2 b).
  { intros a b Hab. replace b with (1 + (a + Z.of_nat (Z.to_nat (b - a - 1))))%Z by lia. rewrite !pow2_add.
    rewrite powerRZ_1, <- pow_powerRZ.
    assert (1 <= 2 ^ Z.to_nat (b - a - 1)) by (apply pow_R1_Rle; lra).
    pose proof (pow2_pos a). assert (powerRZ 2 a * 1 <= powerRZ 2 a * 2 ^ Z.to_nat (b - a - 1)) by (apply Rmult_le_compat_l; lra). lra. }
  destruct (Z.lt_trichotomy (n_grow ws) g) as [H|[H|H]]; [|assumption|].
  - specialize (M (- g)%Z (- n_grow ws)%Z ltac:(lia)). lra.
  - specialize (M (- n_grow ws)%Z (- g)%Z ltac:(lia)). lra.
Qed.
