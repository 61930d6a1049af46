(** Theorems: viscous fluxes. *)
From Coq Require Import Reals List Arith Lia Lra FunctionalExtensionality.
From Verif Require Import Outcome RSum Spatial_Model Visc_Model Stress_Spec Stress_Proofs.
Local Open Scope R_scope.

(** [compute_flux_diff] of the Navier-Stokes equations, given the gradient of the conserved variables of any differentiable field,
    is the flux of Newton's and Fourier's laws with the true derivatives of velocity and temperature. The bulk viscosity and the
    diffusivity are those of the artificial viscosity. *)
Theorem stress_flux : forall nd dyn_visc therm_cond field p g vg tg normal v d,
  let s := field p in
  s nd <> 0 -> 0 <= internal_energy nd s -> gradients nd field p g vg tg -> (v < nd + 2)%nat ->
  let c := sqrt (temperature nd s) in
  flux_diff (navier_stokes nd dyn_visc therm_cond) s normal g v d
  = rsum nd (fun j => viscous_flux nd (coefficient dyn_visc c) (Rabs (s (nd + 3)%nat) * s nd) (coefficient therm_cond c) (Rabs (s (nd + 4)%nat)) s g vg tg v j * normal j d).
Proof. intros nd dv tc field p g vg tg normal v d s M E G V. exact (ns_flux nd field p g vg tg M G dv tc normal v d E V). Qed.
Print Assumptions stress_flux.

Lemma unit_normal nd (h : nat -> R) j : (j < nd)%nat -> rsum nd (fun i => h i * (if (i =? j)%nat then 1 else 0)) = h j.
Proof. intros J. rewrite (rsum_single nd j); [rewrite Nat.eqb_refl; ring|exact J|]. intros i I NE. destruct (Nat.eqb_spec i j); [contradiction|ring]. Qed.
(** Without artificial diffusion no mass is transported; the stress is symmetric, vanishes in rigid motion and always takes energy
    from the flow; and what remains of the energy flux when the work of the stress is taken out goes from hot to cold. *)
Theorem stress_dissipates : forall nd dyn_visc therm_cond field p g vg tg,
  let s := field p in
  (nd <= 3)%nat -> 0 < s nd -> 0 <= internal_energy nd s -> gradients nd field p g vg tg -> s (nd + 4)%nat = 0 ->
  0 <= const_val dyn_visc -> 0 <= ref_val dyn_visc -> 0 < ref_temp dyn_visc -> 0 < temp_offset dyn_visc ->
  0 <= const_val therm_cond -> 0 <= ref_val therm_cond -> 0 < ref_temp therm_cond -> 0 < temp_offset therm_cond ->
  let flux := flux_diff (navier_stokes nd dyn_visc therm_cond) s (fun i j => if (i =? j)%nat then 1 else 0) g in
  let heat j := flux (nd + 1)%nat j - rsum nd (fun i => velocity nd s i * flux i j) in
  (forall j, (j < nd)%nat -> flux nd j = 0) /\
  (forall i j, (i < nd)%nat -> (j < nd)%nat -> flux i j = flux j i) /\
  ((forall i j, (i < nd)%nat -> (j < nd)%nat -> vg i j = - vg j i) -> forall i j, (i < nd)%nat -> (j < nd)%nat -> flux i j = 0) /\
  rsum nd (fun i => rsum nd (fun j => flux i j * vg i j)) <= 0 /\
  rsum nd (fun j => heat j * tg j) <= 0.
Proof.
  intros nd dv tc field p g vg tg s N M E G L C1 C2 C3 C4 K1 K2 K3 K4 flux heat. set (c := sqrt (temperature nd s)).
  set (mu := coefficient dv c). set (k := coefficient tc c). set (zeta := Rabs (s (nd + 3)%nat) * s nd).
  assert (MU : 0 <= mu) by (apply coefficient_nonneg; try assumption; apply sqrt_pos). assert (KK : 0 <= k) by (apply coefficient_nonneg; try assumption; apply sqrt_pos).
  assert (Z : 0 <= zeta) by (apply Rmult_le_pos; [apply Rabs_pos|lra]).
  assert (FL : forall v j, (v < nd + 2)%nat -> (j < nd)%nat -> flux v j = - (if (v <? nd)%nat then tau nd mu zeta vg v j else if (v =? nd)%nat then 0 else rsum nd (fun i => velocity nd s i * tau nd mu zeta vg i j) + k * tg j)).
  { intros v j V J. unfold flux. assert (MN : s nd <> 0) by lra. rewrite (ns_flux nd field p g vg tg MN G dv tc _ v j E V). fold s c mu k zeta. rewrite unit_normal by exact J. unfold viscous_flux. rewrite L, Rabs_R0. ring. }
  assert (FM : forall i j, (i < nd)%nat -> (j < nd)%nat -> flux i j = - tau nd mu zeta vg i j) by (intros i j I J; rewrite FL by lia; destruct (Nat.ltb_spec i nd); [reflexivity|lia]).
  split; [intros j J; rewrite FL by lia; rewrite Nat.ltb_irrefl, Nat.eqb_refl; ring|].
  split; [intros i j I J; rewrite !FM by assumption; now rewrite tau_symmetric|].
  split; [intros A i j I J; rewrite FM, tau_rigid by assumption; ring|]. split.
  - rewrite (rsum_ext nd _ (fun i => -1 * rsum nd (fun j => tau nd mu zeta vg i j * vg i j))).
    + rewrite rsum_scal. pose proof (tau_dissipates nd mu zeta vg N MU Z). lra.
    + intros i I. rewrite <- rsum_scal. apply rsum_ext. intros j J. rewrite FM by assumption. ring.
  - rewrite (rsum_ext nd _ (fun j => -1 * (k * (tg j) ^ 2))).
    + rewrite rsum_scal. enough (0 <= rsum nd (fun j => k * tg j ^ 2)) by lra. apply rsum_nonneg. intros j J. apply Rmult_le_pos; [exact KK|apply pow2_ge_0].
    + intros j J. unfold heat. rewrite FL by lia. destruct (Nat.ltb_spec (nd + 1) nd); [lia|]. destruct (Nat.eqb_spec (nd + 1) nd); [lia|].
      rewrite (rsum_ext nd (fun i => velocity nd s i * flux i j) (fun i => -1 * (velocity nd s i * tau nd mu zeta vg i j))) by (intros i I; rewrite FM by assumption; ring). rewrite rsum_scal. ring.
Qed.
Print Assumptions stress_dissipates.

(** [Transport_model]: [inviscid] and [constant] do not depend on temperature, [sutherland] is Sutherland's law, which gives the
    reference value at the reference temperature. *)
Theorem stress_transport : (forall c, coefficient inviscid c = 0) /\ (forall value c, coefficient (constant value) c = value) /\
  (forall value temp offset t, 0 < temp -> 0 < t -> coefficient (sutherland value temp offset) (sqrt t) = value * Rpower (t / temp) (3 / 2) * (temp + offset) / (t + offset)) /\
  (forall value temp offset, 0 < temp -> temp + offset <> 0 -> coefficient (sutherland value temp offset) (sqrt temp) = value).
Proof.
  split; [exact coefficient_inviscid|]. split; [exact coefficient_constant|]. split; [exact coefficient_sutherland|].
  intros v t o T NZ. rewrite coefficient_sutherland by assumption. replace (t / t) with 1 by (field; lra). unfold Rpower. rewrite ln_1, Rmult_0_r, exp_0. field. exact NZ.
Qed.
Print Assumptions stress_transport.

(** ** flow along a wall at the bottom, of uniform mass and temperature *)
Definition shear (y : nat -> R) (w : nat) : R := match w with 0%nat => y 1%nat | 2%nat => 1 | 3%nat => 10 + y 1%nat * y 1%nat / 2 | _ => 0 end.
Definition shear_grad (y : nat -> R) (w j : nat) : R := match w, j with 0%nat, 1%nat => 1 | 3%nat, 1%nat => y 1%nat | _, _ => 0 end.
Definition shear_vel (i j : nat) : R := match i, j with 0%nat, 1%nat => 1 | _, _ => 0 end.
Lemma shear_temp y : temperature 2 (shear y) = (7 / 5 - 1) * 10 / (28705287 / 100000).
Proof. unfold temperature, internal_energy, velocity. cbn [rsum shear Nat.add]. f_equal. f_equal. field. Qed.
Example stress_gradients p : gradients 2 shear p (shear_grad p) shear_vel (fun _ => 0).
Proof.
  assert (CC : forall c : R, derivable_pt_lim (fun _ => c) 0 0) by (intros c; exact (derivable_pt_lim_const c 0)).
  assert (L : derivable_pt_lim (fun t => p 1%nat + t) 0 1).
  { rewrite <- (Rplus_0_l 1). exact (derivable_pt_lim_plus (fct_cte (p 1%nat)) id 0 0 1 (derivable_pt_lim_const _ 0) (derivable_pt_lim_id 0)). }
  constructor; unfold partial.
  - intros w j W J. destruct j as [|[|j]]; [| |lia]; destruct w as [|[|[|[|w]]]]; try lia; cbn [shear shear_grad moved Nat.eqb]; try apply CC; [exact L|].
    pose proof (derivable_pt_lim_plus (fct_cte 10) _ 0 _ _ (derivable_pt_lim_const 10 0) (derivable_pt_lim_scal _ (1 / 2) 0 _ (derivable_pt_lim_mult _ _ 0 _ _ L L))) as D. unfold plus_fct, fct_cte, mult_real_fct, mult_fct in D.
    match type of D with derivable_pt_lim _ _ ?a => assert (DE : a = p 1%nat) by field; rewrite DE in D end.
    replace (fun t => 10 + (p 1%nat + t) * (p 1%nat + t) / 2) with (fun x => 10 + 1 / 2 * ((p 1%nat + x) * (p 1%nat + x))) by (apply functional_extensionality; intros; field). exact D.
  - intros i j I J. unfold velocity. assert (Q : forall j, (fun t => shear (moved p j t) 0%nat / shear (moved p j t) 2%nat) = (fun t => moved p j t 1%nat)) by (intros; apply functional_extensionality; intros; cbn [shear]; field).
    assert (Q1 : forall j, (fun t => shear (moved p j t) 1%nat / shear (moved p j t) 2%nat) = (fun t => 0)) by (intros; apply functional_extensionality; intros; cbn [shear]; field).
    destruct i as [|[|i]]; [rewrite Q|rewrite Q1|lia]; destruct j as [|[|j]]; try lia; cbn [shear_vel moved Nat.eqb]; try apply CC. exact L.
  - intros j J. replace (fun t => temperature 2 (shear (moved p j t))) with (fun _ : R => (7 / 5 - 1) * 10 / (28705287 / 100000)) by (apply functional_extensionality; intros; symmetry; apply shear_temp). apply CC.
Qed.
(** the wall takes up momentum, and heat from the work of the stress *)
Example stress_example : forall therm_cond, let flux v := flux_diff (navier_stokes 2 (constant 2) therm_cond) (shear (fun _ => 3)) (fun i j => if (i =? j)%nat then 1 else 0) (shear_grad (fun _ => 3)) v 1%nat in
  flux 0%nat = -2 /\ flux 1%nat = 0 /\ flux 2%nat = 0 /\ flux 3%nat = -6.
Proof.
  intros tc flux. assert (FL : forall v, (v < 4)%nat -> flux v = viscous_flux 2 2 0 (coefficient tc (sqrt (temperature 2 (shear (fun _ => 3))))) 0 (shear (fun _ => 3)) (shear_grad (fun _ => 3)) shear_vel (fun _ => 0) v 1%nat).
  { intros v V. unfold flux. rewrite (stress_flux 2 (constant 2) tc shear (fun _ => 3) (shear_grad (fun _ => 3)) shear_vel (fun _ => 0) _ v 1%nat); [|cbn [shear]; lra| |apply stress_gradients|exact V].
    - rewrite unit_normal by lia. rewrite coefficient_constant. cbn [shear Nat.add]. rewrite Rabs_R0, Rmult_0_l. reflexivity.
    - unfold internal_energy, velocity. cbn [rsum shear Nat.add]. lra. }
  rewrite !FL by lia. unfold viscous_flux, tau, velocity. cbn [rsum shear shear_grad shear_vel Nat.ltb Nat.leb Nat.eqb]. repeat split; field.
Qed.
