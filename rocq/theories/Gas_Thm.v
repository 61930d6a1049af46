(** Theorems about functions of the flow state. *)
From Coq Require Import Reals List Arith Lia Lra Psatz.
From Verif Require Import RSum Gas_Model Gas_Spec.
Local Open Scope R_scope.

Lemma square_nonneg n v : 0 <= square n v.
Proof. unfold square. replace 0 with (rsum n (fun _ => 0)) by (induction n; cbn; lra). apply rsum_le. intros i _. nra. Qed.
Lemma square_zero n v : square n v = 0 -> forall i, (i < n)%nat -> v i = 0.
Proof. unfold square. induction n as [|n IH]; intros E i I; [lia|]. cbn [rsum] in E. pose proof (square_nonneg n v) as P. unfold square in P. assert (v n * v n = 0 /\ rsum n (fun i => v i * v i) = 0) as [A B] by nra. destruct (Nat.eq_dec i n) as [->|]; [nra|apply IH; [exact B|lia]]. Qed.
Lemma square_scal n v c : square n (fun i => c * v i) = c * c * square n v.
Proof. unfold square. rewrite <- rsum_scal. apply rsum_ext. intros. ring. Qed.
Lemma conserved_parts nd gamma rho p v : let s := conserved nd gamma rho p v in
  (forall i, (i < nd)%nat -> s i = rho * v i) /\ s nd = rho /\ s (nd + 1)%nat = p / (gamma - 1) + rho * square nd v / 2 /\ rsum nd (fun i => s i * s i) = rho * rho * square nd v.
Proof.
  intros s. assert (A : forall i, (i < nd)%nat -> s i = rho * v i) by (intros i I; unfold s, conserved; apply Nat.ltb_lt in I; now rewrite I). split; [exact A|].
  split; [unfold s, conserved; now rewrite Nat.ltb_irrefl, Nat.eqb_refl|]. split.
  - unfold s, conserved. destruct (Nat.ltb_spec (nd + 1) nd); [lia|]. destruct (Nat.eqb_spec (nd + 1) nd); [lia|reflexivity].
  - rewrite <- square_scal. unfold square. apply rsum_ext. intros i I. now rewrite (A i I).
Qed.

(** C117. The functions of the state of an ideal gas give its velocity, pressure, Mach number and stagnation pressure. *)
Theorem gas_quantities : forall nd gamma rho p v, 1 < gamma -> 0 < rho -> 0 < p ->
  let state := conserved nd gamma rho p v in let M := mach_number nd gamma rho p v in
  (forall i, (i < nd)%nat -> velocity (nd + 2) state i = v i) /\
  pressure gamma (nd + 2) state = p /\
  mach gamma nd (nd + 2) state = M /\
  stag_pres gamma (nd + 2) state = stagnation_pressure gamma p M.
Proof.
  intros nd gamma rho p v G R P state M. destruct (conserved_parts nd gamma rho p v) as (A & B & C & D). fold state in A, B, C, D.
  assert (E2 : (nd + 2 - 2 = nd)%nat) by lia. assert (E1 : (nd + 2 - 1 = nd + 1)%nat) by lia.
  assert (PR : pressure gamma (nd + 2) state = p). { unfold pressure. rewrite E2, E1, B, C, D. field. lra. }
  assert (Q : 0 <= square nd v) by apply square_nonneg.
  assert (M2 : M ^ 2 = square nd v / (gamma * p / rho)).
  { assert (0 < gamma * p / rho) by (apply Rmult_lt_0_compat; [nra|apply Rinv_0_lt_compat, R]). unfold M, mach_number. rewrite <- sqrt_div_alt by assumption. cbn [pow]. rewrite Rmult_1_r. apply sqrt_sqrt. apply Rmult_le_pos; [exact Q|]. apply Rlt_le, Rinv_0_lt_compat. assumption. }
  split; [|split; [exact PR|split]].
  - intros i I. unfold velocity. rewrite E2, B, (A i I). field. lra.
  - unfold mach, M, mach_number. rewrite PR, B, D, <- sqrt_div_alt by (apply Rmult_lt_0_compat; [nra|apply Rinv_0_lt_compat, R]). f_equal. field. repeat split; lra.
  - unfold stag_pres, stagnation_pressure. rewrite E2, E1, B, C, D, M2.
    assert (0 < gamma * p / (gamma - 1)) by (apply Rmult_lt_0_compat; [nra|apply Rinv_0_lt_compat; lra]).
    f_equal; [field; lra|]. f_equal. field. repeat split; try lra. nra.
Qed.
Print Assumptions gas_quantities.
(** the stagnation pressure is not less than the pressure, and equal to it only if the gas is at rest *)
Theorem gas_stagnation : forall nd gamma rho p v, 1 < gamma -> 0 < rho -> 0 < p ->
  p <= stag_pres gamma (nd + 2) (conserved nd gamma rho p v) /\
  (stag_pres gamma (nd + 2) (conserved nd gamma rho p v) = p <-> forall i, (i < nd)%nat -> v i = 0).
Proof.
  intros nd gamma rho p v G R P. destruct (gas_quantities nd gamma rho p v G R P) as (_ & _ & _ & S). cbv zeta in S. rewrite S. unfold stagnation_pressure.
  set (M := mach_number nd gamma rho p v). assert (K : 0 < gamma / (gamma - 1)) by (apply Rmult_lt_0_compat; [lra|apply Rinv_0_lt_compat; lra]).
  assert (ONE : Rpower 1 (gamma / (gamma - 1)) = 1) by (unfold Rpower; rewrite ln_1, Rmult_0_r; apply exp_0).
  assert (LT : M <> 0 -> p < p * Rpower (1 + (gamma - 1) / 2 * M ^ 2) (gamma / (gamma - 1))).
  { intros N. rewrite <- (Rmult_1_r p) at 1. apply Rmult_lt_compat_l; [exact P|]. apply Rle_lt_trans with (Rpower 1 (gamma / (gamma - 1))); [rewrite ONE; lra|]. apply Rlt_Rpower_l; [exact K|]. split; [lra|]. assert (0 < M ^ 2) by (cbn; nra). nra. }
  assert (EQ : M = 0 -> p * Rpower (1 + (gamma - 1) / 2 * M ^ 2) (gamma / (gamma - 1)) = p) by (intros ->; replace (1 + (gamma - 1) / 2 * 0 ^ 2) with 1 by ring; rewrite ONE; ring).
  assert (Z : M = 0 <-> forall i, (i < nd)%nat -> v i = 0).
  { assert (C : 0 < sqrt (gamma * p / rho)) by (apply sqrt_lt_R0, Rmult_lt_0_compat; [nra|apply Rinv_0_lt_compat, R]). unfold M, mach_number. split.
    - intros E. apply square_zero. apply sqrt_eq_0; [apply square_nonneg|]. apply (Rmult_eq_compat_r (sqrt (gamma * p / rho))) in E. unfold Rdiv in E. rewrite Rmult_assoc, Rinv_l, Rmult_0_l in E by (unfold Rdiv in C; lra). lra.
    - intros V. replace (square nd v) with 0; [rewrite sqrt_0; unfold Rdiv; ring|]. unfold square. symmetry. rewrite (rsum_ext nd _ (fun _ => 0 * 0)); [|intros i I; rewrite (V i I); reflexivity]. rewrite rsum_scal. ring. }
  rewrite <- Z. destruct (Req_dec M 0) as [E|N]; [rewrite (EQ E); split; [lra|tauto]|]. specialize (LT N). split; [lra|]. split; [lra|contradiction].
Qed.
Print Assumptions gas_stagnation.

(** C118. The force of the pressure on a surface is the pressure against the normal that points into the domain. *)
Theorem gas_pressure_stress : forall nd nfq con q gamma rho p v, 1 < gamma -> 0 < rho ->
  (forall k, (k < nd + 2)%nat -> inside_face con (k * nfq + q)%nat = conserved nd gamma rho p v k) ->
  let n i := surface_normal con (i * nfq + q)%nat in 0 < square nd n ->
  forall i, surface_pressure_stress nd nfq con q gamma (nd + 2) i = - p * into_domain nd (inside_face_sign con) n i.
Proof.
  intros nd nfq con q gamma rho p v G R S n N i. destruct (conserved_parts nd gamma rho p v) as (A & B & C & D).
  unfold surface_pressure_stress, pressure_stress. replace (nd + 2 - 1)%nat with (nd + 1)%nat by lia. replace (nd + 2 - 2)%nat with nd by lia. rewrite !S by lia. rewrite B, C.
  rewrite (rsum_ext nd _ (fun i => conserved nd gamma rho p v i * conserved nd gamma rho p v i)) by (intros k K; now rewrite S by lia). rewrite D.
  replace ((gamma - 1) * (p / (gamma - 1) + rho * square nd v / 2 - 1 / 2 * (rho * rho * square nd v) / rho)) with p by (field; lra).
  set (s := sqrt (square nd n)). assert (0 < s) by (apply sqrt_lt_R0, N). assert (SS : s * s = square nd n) by (apply sqrt_sqrt; lra).
  assert (U : forall k, unit_normal nd nfq con q k = into_domain nd (inside_face_sign con) n k).
  { intros k. unfold unit_normal, into_domain, nrml_sign. fold s. replace (rsum nd _) with (square nd n); [fold s; destruct (inside_face_sign con); unfold n; field; lra|]. unfold square. apply rsum_ext. intros j _. unfold n. destruct (inside_face_sign con); ring. }
  replace (rsum nd (fun k => unit_normal nd nfq con q k * unit_normal nd nfq con q k)) with 1; [rewrite sqrt_1, U; field|].
  rewrite (rsum_ext nd _ (fun k => / (s * s) * (n k * n k))); [rewrite rsum_scal; fold (square nd n); rewrite SS; field; lra|]. intros k _. rewrite U. unfold into_domain. fold s. destruct (inside_face_sign con); field; lra.
Qed.
Print Assumptions gas_pressure_stress.

(** C118. The viscous stress is the momentum that leaves the domain per area, and HIL gets the same, and the heat that leaves the domain (enters
    the wall); where the normal is not longer than 1/1000 all are 0. *)
Theorem gas_stress : forall nd nfq con q, let n i := surface_normal con (i * nfq + q)%nat in let F k := flux_cache con (k * nfq + q)%nat in
  (1 / 1000 < sqrt (square nd n) ->
    (forall i, viscous_stress nd nfq con q i = out_of_domain nd (inside_face_sign con) n (F i)) /\
    (forall i, hil_visc_stress nd nfq con q true i = viscous_stress nd nfq con q i) /\
    (forall i, hil_normal nd nfq con q i = into_domain nd (inside_face_sign con) n i) /\
    hil_heat_flux nd nfq con q true = out_of_domain nd (inside_face_sign con) n (F (nd + 1)%nat)) /\
  (sqrt (square nd n) <= 1 / 1000 -> forall i, viscous_stress nd nfq con q i = 0 /\ hil_visc_stress nd nfq con q true i = 0 /\ hil_heat_flux nd nfq con q true = 0) /\
  (forall i, hil_visc_stress nd nfq con q false i = 0 /\ hil_heat_flux nd nfq con q false = 0).
Proof.
  intros nd nfq con q n F. unfold hil_visc_stress, hil_heat_flux, viscous_stress, hil_flux, hil_normal, nrml_sign, into_domain, out_of_domain. unfold nrml_mag. change (rsum nd _) with (square nd n). unfold F, n.
  split; [|split].
  - intros L. destruct (Rlt_dec _ _); [|contradiction]. repeat split; intros; destruct (inside_face_sign con); field; lra.
  - intros L i. destruct (Rlt_dec _ _); [lra|]. auto.
  - intros i. destruct (Rlt_dec _ _); auto.
Qed.
Print Assumptions gas_stress.

(** C119. [Heat_flux] is documented as the heat flux into the surface. It is the heat flux out of the surface: the opposite of [heat_flux] in HIL
    and of what [Prescribed_heat_flux] prescribes. Full statement: the theorem without the minus sign. *)
Theorem gas_heat_flux_partial : forall nd nfq con q, let n i := surface_normal con (i * nfq + q)%nat in 1 / 1000 < sqrt (square nd n) ->
  heat_flux nd nfq con q = - out_of_domain nd (inside_face_sign con) n (flux_cache con ((nd + 1) * nfq + q)%nat) /\
  heat_flux nd nfq con q = - hil_heat_flux nd nfq con q true.
Proof.
  intros nd nfq con q n L. unfold heat_flux, hil_heat_flux, hil_flux, nrml_sign, out_of_domain. unfold nrml_mag. change (rsum nd _) with (square nd n). destruct (Rlt_dec _ _); [|contradiction]. split; destruct (inside_face_sign con); field; lra.
Qed.
Print Assumptions gas_heat_flux_partial.
Definition ex_surface : surface := {| inside_face_sign := true; surface_normal := fun _ => 2; inside_face := conserved 1 2 1 3 (fun _ => 4); flux_cache := fun _ => 10 |}.
Lemma ex_mag : sqrt (square 1 (fun i => surface_normal ex_surface (i * 1 + 0)%nat)) = 2.
Proof. unfold square, ex_surface. cbn. replace (0 + 2 * 2) with (2 * 2) by ring. apply sqrt_square. lra. Qed.
Theorem gas_heat_flux_refuted : ~ forall nd nfq con q, let n i := surface_normal con (i * nfq + q)%nat in 1 / 1000 < sqrt (square nd n) ->
  heat_flux nd nfq con q = out_of_domain nd (inside_face_sign con) n (flux_cache con ((nd + 1) * nfq + q)%nat).
Proof.
  intros H. pose proof ex_mag as E. assert (L : 1 / 1000 < sqrt (square 1 (fun i => surface_normal ex_surface (i * 1 + 0)%nat))) by (rewrite E; lra).
  specialize (H 1%nat 1%nat ex_surface 0%nat L). cbv zeta in H. rewrite (proj1 (gas_heat_flux_partial 1 1 ex_surface 0 L)) in H. unfold out_of_domain in H. rewrite E in H. cbn in H. lra.
Qed.
Print Assumptions gas_heat_flux_refuted.

(** C120. Transport models: none, constant, and Sutherland's law, which gives the reference value at the reference temperature and increases
    with temperature. *)
Theorem gas_transport : forall T, 0 <= T ->
  coefficient inviscid (sqrt T) = 0 /\ (forall value, coefficient (constant value) (sqrt T) = value) /\
  forall mu0 T0 S, 0 < T0 -> 0 <= S -> 0 < T ->
    coefficient (sutherland mu0 T0 S) (sqrt T) = sutherland_law mu0 T0 S T /\ coefficient (sutherland mu0 T0 S) (sqrt T0) = mu0 /\
    forall T', 0 < mu0 -> T < T' -> coefficient (sutherland mu0 T0 S) (sqrt T) < coefficient (sutherland mu0 T0 S) (sqrt T').
Proof.
  intros T P. assert (Q : sqrt T * sqrt T = T) by (apply sqrt_sqrt, P). unfold coefficient, inviscid, constant, sutherland, make. cbn [const_val ref_val ref_temp sqrt_ref_temp temp_offset].
  split; [unfold Rdiv; ring|]. split; [intros value; unfold Rdiv; ring|]. intros mu0 T0 S T0P SP TP.
  assert (R0 : 0 < sqrt T0) by now apply sqrt_lt_R0. assert (Q0 : sqrt T0 * sqrt T0 = T0) by (apply sqrt_sqrt; lra). assert (RT : 0 < sqrt T) by now apply sqrt_lt_R0.
  split; [|split].
  - unfold sutherland_law. rewrite Q. assert (D : 0 < T / T0) by (apply Rmult_lt_0_compat; [exact TP|apply Rinv_0_lt_compat, T0P]).
    replace (Rpower (T / T0) (3 / 2)) with ((sqrt T / sqrt T0) ^ 3); [field; split; lra|].
    rewrite <- sqrt_div_alt by exact T0P. rewrite <- Rpower_sqrt by exact D. rewrite <- Rpower_pow by apply exp_pos. rewrite Rpower_mult. f_equal. cbn. field.
  - rewrite Q0. field. split; lra.
  - intros T' M L. set (x := sqrt T) in *. set (y := sqrt T'). assert (XY : x < y) by (apply sqrt_lt_1; lra). set (c := sqrt T0) in *.
    assert (K : x ^ 3 / (x * x + S) < y ^ 3 / (y * y + S)).
    { assert (0 < x * x + S) by nra. assert (0 < y * y + S) by nra. apply Rmult_lt_reg_r with ((x * x + S) * (y * y + S)); [apply Rmult_lt_0_compat; assumption|].
      replace (x ^ 3 / (x * x + S) * ((x * x + S) * (y * y + S))) with (x ^ 3 * (y * y + S)) by (field; lra). replace (y ^ 3 / (y * y + S) * ((x * x + S) * (y * y + S))) with (y ^ 3 * (x * x + S)) by (field; lra).
      assert (Z : y ^ 3 * (x * x + S) - x ^ 3 * (y * y + S) = (x * y) * (x * y) * (y - x) + S * ((y - x) * (y * y + x * y + x * x))) by ring.
      assert (0 < (x * y) * (x * y) * (y - x)) by (apply Rmult_lt_0_compat; [apply Rmult_lt_0_compat; apply Rmult_lt_0_compat; lra|lra]).
      assert (0 <= S * ((y - x) * (y * y + x * y + x * x))) by (apply Rmult_le_pos; [exact SP|apply Rmult_le_pos; nra]). lra. }
    assert (0 < x * x + S) by nra. assert (0 < y * y + S) by nra.
    replace (0 + mu0 * (x / c) ^ 3 * (T0 + S) / (x * x + S)) with (mu0 * (T0 + S) / c ^ 3 * (x ^ 3 / (x * x + S))) by (field; split; lra).
    replace (0 + mu0 * (y / c) ^ 3 * (T0 + S) / (y * y + S)) with (mu0 * (T0 + S) / c ^ 3 * (y ^ 3 / (y * y + S))) by (field; split; lra).
    apply Rmult_lt_compat_l; [|exact K]. apply Rmult_lt_0_compat; [nra|]. apply Rinv_0_lt_compat, pow_lt, R0.
Qed.
Print Assumptions gas_transport.

(** Examples *)
(** one dimension, heat capacity ratio 2, density 1, pressure 3, velocity 4: kinetic energy 8, energy 11, speed of sound sqrt 6 *)
Definition ex_gas (k : nat) : R := match k with 0%nat => 4 | 1%nat => 1 | _ => 11 end.
Example gas_quantities_example : pressure 2 3 ex_gas = 3 /\ velocity 3 ex_gas 0 = 4 /\
  stag_pres 2 3 ex_gas = 3 * (14 / 6) ^ 2.
Proof.
  unfold pressure, velocity, stag_pres, ex_gas. cbn. split; [field|]. split; [field|]. replace (2 / (2 - 1)) with (INR 2) by (cbn; field). rewrite Rpower_pow; [cbn; field|]. lra.
Qed.
(** the wall is at the end of the element (normal 2): the force is along the normal; flux 10 leaves through it *)
Example gas_surface_example : surface_pressure_stress 1 1 ex_surface 0 2 3 0 = 3 /\ hil_heat_flux 1 1 ex_surface 0 true = 5 /\ heat_flux 1 1 ex_surface 0 = -5 /\ viscous_stress 1 1 ex_surface 0 0 = 5.
Proof.
  pose proof ex_mag as E. assert (L : 1 / 1000 < sqrt (square 1 (fun i => surface_normal ex_surface (i * 1 + 0)%nat))) by (rewrite E; lra).
  destruct (proj1 (gas_stress 1 1 ex_surface 0) L) as (A & _ & _ & B). split; [|split; [|split]].
  - rewrite (gas_pressure_stress 1 1 ex_surface 0 2 1 3 (fun _ => 4)); [|lra|lra|intros k _; cbn [ex_surface inside_face]; f_equal; lia|unfold square; cbn; lra]. unfold into_domain. rewrite E. cbn. field.
  - rewrite B. unfold out_of_domain. rewrite E. cbn. field.
  - rewrite (proj1 (gas_heat_flux_partial 1 1 ex_surface 0 L)). unfold out_of_domain. rewrite E. cbn. field.
  - rewrite A. unfold out_of_domain. rewrite E. cbn. field.
Qed.
(** at four times the reference temperature and without offset the coefficient is doubled *)
Example gas_transport_example : coefficient (sutherland 5 100 0) (sqrt 400) = 10.
Proof.
  unfold coefficient, sutherland, make. cbn [const_val ref_val ref_temp sqrt_ref_temp temp_offset]. replace (sqrt 400) with 20; [replace (sqrt 100) with 10; [field|]|]; symmetry; [replace 100 with (10 * 10) by ring|replace 400 with (20 * 20) by ring]; apply sqrt_square; lra.
Qed.
