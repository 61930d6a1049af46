(** Theorems about the indicators of smoothness. *)
From Coq Require Import Reals List Arith Lia Lra FunctionalExtensionality.
From Verif Require Import Outcome RSum Basis_Spec Quad_Model Quad_Spec Quad_Proofs2 Tensor_Model Tensor_Spec Row_Model Smooth_Model Smooth_Spec Smooth_Proofs1 Smooth_Proofs2.
Local Open Scope R_scope.

(** C109. [Elem_nonsmooth] is the root mean square of the part of highest degree: it is at most the root mean square of the values, and it
    vanishes for exactly those values that are, in each direction, those of polynomials of degree less than the greatest. *)
Theorem smooth_roughness : forall nd rs node w u, (0 < nd)%nat -> (2 <= rs)%nat -> as_lobatto rs node w ->
  let mode := py_legendre rs node w (rs - 1) in
  elem_nonsmooth nd rs w mode u = Ok (sqrt (roughness nd rs w mode u)) /\
  0 <= roughness nd rs w mode u <= mean_square nd rs w u /\
  (roughness nd rs w mode u = 0 <-> smooth nd rs node u).
Proof.
  intros nd rs node w u N R L mode. split; [apply elem_nonsmooth_eq; lia|]. split; [split|].
  - apply roughness_nonneg; try lia. intros i I. apply L, I.
  - apply roughness_bound; assumption.
  - apply roughness_zero; assumption.
Qed.
Print Assumptions smooth_roughness.

(** C109. [Elem_average] is between the bounds of the values, and [Elem_l2] is at least as large as its magnitude, in an element of
    positive Jacobian determinant. *)
Theorem smooth_average : forall nd rs w det vals a b, (0 < rs)%nat -> (forall i, (i < rs)%nat -> 0 < w i) -> (forall q, (q < rs ^ nd)%nat -> 0 < det q) ->
  (forall q, (q < rs ^ nd)%nat -> a <= vals q <= b) ->
  exists x y, elem_average nd rs w det vals = Ok x /\ elem_l2 nd rs w det vals = Ok y /\ a <= x <= b /\ Rabs x <= y.
Proof.
  intros nd rs w det vals a b R P D H. destruct (average_range nd rs w R P det D vals a b H) as (x & E & X). destruct (average_l2 nd rs w R P det D vals) as (x' & y & E' & Y & Z).
  rewrite E in E'. injection E' as <-. exists x, y. repeat split; try assumption; apply X.
Qed.
Print Assumptions smooth_average.

(** C109. [Normalized_nonsmooth] of an undeformed element is between 0 and 1, and does not depend on the scale of the values, *)
Theorem smooth_normalized : forall nd rs node w u J, (0 < nd)%nat -> (2 <= rs)%nat -> as_lobatto rs node w -> 0 < J -> (exists q, (q < rs ^ nd)%nat /\ u q <> 0) ->
  let mode := py_legendre rs node w (rs - 1) in
  exists x, normalized_nonsmooth nd rs w mode (fun _ => J) u = Ok x /\ 0 <= x <= 1 /\ (x = 0 <-> smooth nd rs node u) /\
  forall a, a <> 0 -> normalized_nonsmooth nd rs w mode (fun _ => J) (fun q => a * u q) = Ok x.
Proof.
  intros nd rs node w u J N R L HJ U mode. assert (P : forall i, (i < rs)%nat -> 0 < w i) by (intros i I; apply L, I).
  assert (M : forall v, elem_l2 nd rs w (fun _ => J) v = Ok (sqrt (mean_square nd rs w v))).
  { intros v. unfold elem_l2. rewrite avg_eq by lia. cbn [bind]. do 2 f_equal. unfold weight_at.
    pose proof (weights_sum_1 nd rs node w R L) as S1.
    replace (rsum (rs ^ nd) (fun q => outer_power rs w nd q * J)) with J by (rewrite rsum_scal_r, S1; ring).
    apply Rmult_eq_reg_r with J; [|lra]. unfold Rdiv. rewrite Rmult_assoc, Rinv_l, Rmult_1_r by lra. unfold mean_square. rewrite <- rsum_scal_r. apply rsum_ext. intros. ring. }
  pose proof (mean_square_pos nd rs w ltac:(lia) P u U) as Q. pose proof (roughness_nonneg nd rs w ltac:(lia) ltac:(lia) P mode u) as Z. pose proof (roughness_bound nd rs node w N R L u) as B. fold mode in B.
  pose proof (sqrt_lt_R0 _ Q) as SQ.
  exists (sqrt (roughness nd rs w mode u) / sqrt (mean_square nd rs w u)).
  assert (G : forall v, normalized_nonsmooth nd rs w mode (fun _ => J) v = Ok (sqrt (roughness nd rs w mode v) / sqrt (mean_square nd rs w v))).
  { intros v. unfold normalized_nonsmooth. rewrite elem_nonsmooth_eq, M by lia. reflexivity. }
  split; [apply G|]. split; [split|split].
  - apply Rmult_le_pos; [apply sqrt_pos|apply Rlt_le, Rinv_0_lt_compat, SQ].
  - apply Rmult_le_reg_r with (sqrt (mean_square nd rs w u)); [exact SQ|]. unfold Rdiv. rewrite Rmult_assoc, Rinv_l, Rmult_1_r, Rmult_1_l by lra. apply sqrt_le_1_alt, B.
  - rewrite <- (roughness_zero nd rs node w N R L u). fold mode. split.
    + intros E. apply sqrt_eq_0; [exact Z|]. apply Rmult_eq_reg_r with (/ sqrt (mean_square nd rs w u)); [|apply Rinv_neq_0_compat; lra]. rewrite Rmult_0_l. exact E.
    + intros ->. rewrite sqrt_0. unfold Rdiv. ring.
  - intros a A. rewrite G, roughness_scale, mean_square_scale. f_equal. rewrite !sqrt_mult_alt by apply pow2_ge_0.
    assert (0 < sqrt (a ^ 2)) by (apply sqrt_lt_R0; pose proof (Rsqr_pos_lt a A); unfold Rsqr in *; nra). field. lra.
Qed.
Print Assumptions smooth_normalized.

(** C110. The artificial viscosity of an element is between 0 and the characteristic speed times the nominal size times the degree. *)
Theorem smooth_viscosity : forall nd rs node w c h state, (0 < nd)%nat -> (2 <= rs)%nat -> as_lobatto rs node w -> 0 <= c -> 0 <= h ->
  exists v, stab_art_visc nd rs w (py_legendre rs node w (rs - 1)) c h state = Ok v /\ 0 <= v <= INR (rs - 1) * c * h.
Proof.
  intros nd rs node w c h state N R L C H. rewrite stab_eq by lia. eexists. split; [reflexivity|]. rewrite minus_INR by lia. change (INR 1) with 1.
  set (x := log10 _). pose proof (ramp_range (ramp_center rs) (1 / 2) x) as B. assert (1 <= INR rs) by (apply (le_INR 1); lia).
  assert (0 <= (INR rs - 1) * c * h) by (apply Rmult_le_pos; [apply Rmult_le_pos; lra|exact H]). nra.
Qed.
Print Assumptions smooth_viscosity.

(** C110. It vanishes where the specific volume is smooth, *)
Theorem smooth_viscosity_zero : forall nd rs node w c h state, (0 < nd)%nat -> (2 <= rs)%nat -> as_lobatto rs node w ->
  smooth nd rs node (fun q => 1 / state (nd * rs ^ nd + q)%nat) -> stab_art_visc nd rs w (py_legendre rs node w (rs - 1)) c h state = Ok 0.
Proof.
  intros nd rs node w c h state N R L S. rewrite stab_eq by lia. rewrite (proj2 (roughness_zero nd rs node w N R L _) S). set (m := mean_square _ _ _ _). replace (0 / m) with 0 by (unfold Rdiv; ring). unfold log10. destruct (Rlt_dec 0 0); [lra|]. cbn [ramp]. f_equal. ring.
Qed.
Print Assumptions smooth_viscosity_zero.

(** it does not depend on the unit of density, *)
Theorem smooth_viscosity_units : forall nd rs node w c h state state' a, (0 < nd)%nat -> (2 <= rs)%nat -> as_lobatto rs node w -> a <> 0 ->
  (forall q, (q < rs ^ nd)%nat -> state (nd * rs ^ nd + q)%nat <> 0) ->
  (forall q, (q < rs ^ nd)%nat -> state' (nd * rs ^ nd + q)%nat = a * state (nd * rs ^ nd + q)%nat) ->
  let mode := py_legendre rs node w (rs - 1) in stab_art_visc nd rs w mode c h state' = stab_art_visc nd rs w mode c h state.
Proof.
  intros nd rs node w c h state state' a N R L A S E mode. rewrite !stab_eq by lia. do 4 f_equal.
  assert (P : forall i, (i < rs)%nat -> 0 < w i) by (intros i I; apply L, I).
  set (u := fun q => 1 / state (nd * rs ^ nd + q)%nat). set (u' := fun q => 1 / state' (nd * rs ^ nd + q)%nat).
  assert (U : forall q, (q < rs ^ nd)%nat -> u' q = / a * u q) by (intros q Q; unfold u, u'; rewrite (E q Q); field; split; [apply S, Q|exact A]).
  replace (roughness nd rs w mode u') with ((/ a) ^ 2 * roughness nd rs w mode u).
  2: { rewrite <- roughness_scale. apply roughness_ext; [lia|]. intros q Q. symmetry. apply U, Q. }
  replace (mean_square nd rs w u') with ((/ a) ^ 2 * mean_square nd rs w u).
  2: { rewrite <- mean_square_scale. apply rsum_ext. intros q Q. rewrite (U q Q). reflexivity. }
  assert (Q0 : (0 < rs ^ nd)%nat) by (apply Row_Proofs.pow_pos'; lia).
  assert (M : 0 < mean_square nd rs w u).
  { apply mean_square_pos; [lia|exact P|]. exists 0%nat. split; [exact Q0|]. unfold u, Rdiv. rewrite Rmult_1_l. apply Rinv_neq_0_compat, S, Q0. }
  field. split; [lra|exact A].
Qed.
Print Assumptions smooth_viscosity_units.

(** and it does not decrease when the fraction of the specific volume that is rough increases. *)
Theorem smooth_viscosity_monotone : forall nd rs node w c h state state' v v', (0 < nd)%nat -> (2 <= rs)%nat -> as_lobatto rs node w -> 0 <= c -> 0 <= h ->
  let mode := py_legendre rs node w (rs - 1) in
  let fraction s := let u q := 1 / s (nd * rs ^ nd + q)%nat in roughness nd rs w mode u / mean_square nd rs w u in
  stab_art_visc nd rs w mode c h state = Ok v -> stab_art_visc nd rs w mode c h state' = Ok v' -> fraction state <= fraction state' -> v <= v'.
Proof.
  intros nd rs node w c h state state' v v' N R L C H mode fraction. rewrite !stab_eq by lia. intros E E' F. injection E as <-. injection E' as <-.
  assert (1 <= INR rs) by (apply (le_INR 1); lia). apply Rmult_le_compat_l; [apply Rmult_le_pos; [apply Rmult_le_pos; lra|exact H]|]. apply log10_mono_ramp; [lra|exact F].
Qed.
Print Assumptions smooth_viscosity_monotone.

(** C110. With two nodes per row the viscosity is never more than half of its nominal greatest value: the ramp is centered at a fraction
    of 1, which no element exceeds. *)
Theorem smooth_viscosity_two : forall nd node w c h state v, (0 < nd)%nat -> as_lobatto 2 node w -> 0 <= c -> 0 <= h ->
  (forall q, (q < 2 ^ nd)%nat -> state (nd * 2 ^ nd + q)%nat <> 0) ->
  stab_art_visc nd 2 w (py_legendre 2 node w 1) c h state = Ok v -> v <= 1 / 2 * c * h.
Proof.
  intros nd node w c h state v N L C H S. rewrite stab_eq by lia. intros E. injection E as <-. assert (P : forall i, (i < 2)%nat -> 0 < w i) by (intros i I; apply L, I).
  set (u := fun q => 1 / state (nd * 2 ^ nd + q)%nat). pose proof (roughness_bound nd 2 node w N (le_n 2) L u) as B. cbn [Nat.sub] in B.
  assert (Q0 : (0 < 2 ^ nd)%nat) by (apply Row_Proofs.pow_pos'; lia).
  assert (M : 0 < mean_square nd 2 w u).
  { apply mean_square_pos; [lia|exact P|]. exists 0%nat. split; [exact Q0|]. unfold u, Rdiv. rewrite Rmult_1_l. apply Rinv_neq_0_compat, S, Q0. }
  assert (F : roughness nd 2 w (py_legendre 2 node w 1) u / mean_square nd 2 w u <= 1).
  { apply Rmult_le_reg_r with (mean_square nd 2 w u); [exact M|]. unfold Rdiv. rewrite Rmult_assoc, Rinv_l, Rmult_1_r, Rmult_1_l by lra. exact B. }
  pose proof (log10_mono_ramp (ramp_center 2) (1 / 2) _ _ ltac:(lra) F) as Q.
  assert (E1 : ramp (ramp_center 2) (1 / 2) (log10 1) = 1 / 2).
  { unfold log10, ramp_center. destruct (Rlt_dec 0 1); [|lra]. change (INR 2) with 2. replace (2 - 1) with 1 by lra. rewrite ln_1.
    replace (- (425 / 100) * 0 / ln 10) with 0 by (unfold Rdiv; ring). replace (0 / ln 10) with 0 by (unfold Rdiv; ring). unfold ramp.
    destruct (Rle_dec 0 (0 - 1 / 2)); [lra|]. destruct (Rlt_dec 0 (0 + 1 / 2)); [|lra]. replace (PI * (0 - 0) / 2 / (1 / 2)) with 0 by field. rewrite sin_0. ring. }
  rewrite E1 in Q. fold u. set (X := ramp _ _ _) in *. assert (0 <= c * h) by (apply Rmult_le_pos; assumption).
  replace ((INR 2 - 1) * c * h * X) with (c * h * X) by (cbn [INR]; ring). nra.
Qed.
Print Assumptions smooth_viscosity_two.

(** ** Examples: the trapezoidal rule, two nodes per row *)
Definition ends (i : nat) : R := if (i =? 0)%nat then 0 else 1.
Definition halves (i : nat) : R := 1 / 2.
Lemma ends_lobatto : as_lobatto 2 ends halves.
Proof.
  split; [split|].
  - intros [|[|i]] [|[|j]] I J E; try lia; unfold ends in E; cbn in E; lra.
  - intros i _. unfold halves. lra.
  - intros c. unfold integral, polynomial, ends, halves. cbn. field.
Qed.
Lemma ends_mode i : (i < 2)%nat -> py_legendre 2 ends halves 1 i = if (i =? 0)%nat then -1 else 1.
Proof.
  intros I. rewrite py_legendre_eq. replace (inner 2 halves (leg ends 1) (leg ends 1)) with 1; [rewrite sqrt_1|].
  - unfold leg, ends. destruct i as [|[|i]]; [| |lia]; cbn; field.
  - unfold inner, leg, ends, halves. cbn. field.
Qed.
(** values 1 and 3: the linear part is 1 *)
Example smooth_roughness_example : elem_nonsmooth 1 2 halves (py_legendre 2 ends halves 1) (fun q => if (q =? 0)%nat then 1 else 3) = Ok 1.
Proof.
  rewrite elem_nonsmooth_eq by lia. f_equal. transitivity (sqrt 1); [|apply sqrt_1]. f_equal. unfold roughness, inner. cbn [rsum Nat.pow Nat.sub Nat.mul Nat.add]. rewrite !ends_mode by lia. unfold row_point, halves, outer_power. cbn. field.
Qed.
Example smooth_average_example : elem_average 1 2 halves (fun _ => 2) (fun q => if (q =? 0)%nat then 1 else 3) = Ok 2.
Proof. unfold elem_average. rewrite avg_eq by lia. f_equal. unfold weight_at, outer_power, halves. cbn. field. Qed.
(** a constant density, a smooth one in the sense above, has no viscosity *)
Example smooth_viscosity_zero_example : smooth 2 2 ends (fun q => 1 / (if (q <? 100)%nat then 2 else 0)) /\
  stab_art_visc 2 2 halves (py_legendre 2 ends halves 1) 340 (1 / 10) (fun _ => 2) = Ok 0.
Proof.
  split.
  - intros d f D F. exists (fun _ => 1 / 2). intros j J. destruct d as [|[|d]]; [| |lia]; (destruct f as [|[|f]]; [| |cbn in F; lia]); (destruct j as [|[|j]]; [| |lia]); unfold row_point, polynomial; cbn; field.
  - apply (smooth_viscosity_zero 2 2 ends halves); try lia; [apply ends_lobatto|]. intros d f D F. exists (fun _ => 1 / 2). intros j J. unfold polynomial. cbn. field.
Qed.
(** densities 1 and -1, as rough as two values can be: exactly half of the characteristic speed times the size *)
Example smooth_viscosity_two_example : stab_art_visc 1 2 halves (py_legendre 2 ends halves 1) 340 (1 / 10) (fun q => if (q =? 2)%nat then 1 else -1) = Ok 17.
Proof.
  rewrite stab_eq by lia. f_equal.
  replace (roughness _ _ _ _ _) with 1; [replace (mean_square _ _ _ _) with 1|].
  - replace (1 / 1) with 1 by field. unfold log10, ramp_center. destruct (Rlt_dec 0 1); [|lra]. change (INR 2) with 2. replace (2 - 1) with 1 by lra. rewrite ln_1.
    replace (- (425 / 100) * 0 / ln 10) with 0 by (unfold Rdiv; ring). replace (0 / ln 10) with 0 by (unfold Rdiv; ring). unfold ramp.
    destruct (Rle_dec 0 (0 - 1 / 2)); [lra|]. destruct (Rlt_dec 0 (0 + 1 / 2)); [|lra]. replace (PI * (0 - 0) / 2 / (1 / 2)) with 0 by field. rewrite sin_0. field.
  - unfold mean_square, outer_power, halves. cbn. field.
  - unfold roughness, inner. cbn [rsum Nat.pow Nat.sub Nat.mul Nat.add]. rewrite !ends_mode by lia. unfold row_point, halves, outer_power. cbn. field.
Qed.
