(** Proofs about viscous fluxes. *)
From Coq Require Import Reals List Arith Lia Lra FunctionalExtensionality.
From Verif Require Import Outcome RSum Spatial_Model Visc_Model Stress_Spec.
From Verif Require Pde_Model.
Local Open Scope R_scope.

Lemma moved_zero p j : moved p j 0 = p.
Proof. apply functional_extensionality. intros i. unfold moved. destruct (i =? j)%nat; ring. Qed.
Lemma derivable_rsum n (h : nat -> R -> R) (d : nat -> R) x : (forall i, (i < n)%nat -> derivable_pt_lim (h i) x (d i)) -> derivable_pt_lim (fun t => rsum n (fun i => h i t)) x (rsum n d).
Proof.
  induction n as [|n IH]; intros H; cbn [rsum]; [exact (derivable_pt_lim_const 0 x)|].
  apply (derivable_pt_lim_plus (fun t => rsum n (fun i => h i t)) (h n)); [apply IH; intros; apply H; lia|apply H; lia].
Qed.
Section Field.
Variables (nd : nat) (field : (nat -> R) -> nat -> R) (p : nat -> R) (g vg : nat -> nat -> R) (tg : nat -> R).
Hypotheses (M : field p nd <> 0) (G : gradients nd field p g vg tg).
Let s := field p.
Lemma velocity_gradient i j : (i < nd)%nat -> (j < nd)%nat -> vg i j = (g i j - s i / s nd * g nd j) / s nd.
Proof.
  intros I J. apply (uniqueness_limite (fun t => velocity nd (field (moved p j t)) i) 0); [now apply (gr_velocity _ _ _ _ _ _ G)|].
  pose proof (gr_state _ _ _ _ _ _ G i j ltac:(lia) J) as D1. pose proof (gr_state _ _ _ _ _ _ G nd j ltac:(lia) J) as D2. unfold partial in D1, D2.
  pose proof (derivable_pt_lim_div _ _ 0 _ _ D1 D2) as D. cbv beta in D. rewrite moved_zero in D. specialize (D M). unfold div_fct in D. fold s in D, M.
  unfold velocity. replace ((g i j - s i / s nd * g nd j) / s nd) with ((g i j * s nd - g nd j * s i) / (s nd)²); [exact D|]. unfold Rsqr. field. exact M.
Qed.
Lemma temperature_gradient j : (j < nd)%nat -> tg j = (7 / 5 - 1) / (28705287 / 100000) * (- s (nd + 1)%nat / s nd / s nd * g nd j + g (nd + 1)%nat j / s nd - rsum nd (fun i => s i / s nd * vg i j)).
Proof.
  intros J. apply (uniqueness_limite (fun t => temperature nd (field (moved p j t))) 0); [now apply (gr_temperature _ _ _ _ _ _ G)|].
  pose proof (gr_state _ _ _ _ _ _ G (nd + 1)%nat j ltac:(lia) J) as D1. pose proof (gr_state _ _ _ _ _ _ G nd j ltac:(lia) J) as D2. unfold partial in D1, D2.
  pose proof (derivable_pt_lim_div _ _ 0 _ _ D1 D2) as D. cbv beta in D. rewrite moved_zero in D. specialize (D M). unfold div_fct in D. fold s in D, M.
  assert (DV : derivable_pt_lim (fun t => rsum nd (fun i => velocity nd (field (moved p j t)) i ^ 2)) 0 (rsum nd (fun i => 2 * (s i / s nd) * vg i j))).
  { apply (derivable_rsum nd (fun i t => velocity nd (field (moved p j t)) i ^ 2) (fun i => 2 * (s i / s nd) * vg i j)). intros i I. pose proof (gr_velocity _ _ _ _ _ _ G i j I J) as V. unfold partial in V.
    pose proof (derivable_pt_lim_mult _ _ 0 _ _ V V) as V2. cbv beta in V2. rewrite moved_zero in V2. fold s in V2. unfold mult_fct in V2.
    replace (2 * (s i / s nd) * vg i j) with (vg i j * velocity nd s i + velocity nd s i * vg i j) by (unfold velocity; ring).
    intros eps E. destruct (V2 eps E) as [d Hd]. exists d. intros h H0 H1. specialize (Hd h H0 H1). rewrite !Rplus_0_l in *. replace (velocity nd (field (moved p j h)) i ^ 2) with (velocity nd (field (moved p j h)) i * velocity nd (field (moved p j h)) i) by ring. replace (velocity nd (field (moved p j 0)) i ^ 2) with (velocity nd (field (moved p j 0)) i * velocity nd (field (moved p j 0)) i) by ring. exact Hd. }
  pose proof (derivable_pt_lim_minus _ _ 0 _ _ D (derivable_pt_lim_scal _ (1 / 2) 0 _ DV)) as E. pose proof (derivable_pt_lim_scal _ ((7 / 5 - 1) / (28705287 / 100000)) 0 _ E) as T. clear E. unfold mult_real_fct, minus_fct in T.
  replace (fun t => temperature nd (field (moved p j t))) with (fun x => (7 / 5 - 1) / (28705287 / 100000) * (field (moved p j x) (nd + 1)%nat / field (moved p j x) nd - 1 / 2 * rsum nd (fun i => velocity nd (field (moved p j x)) i ^ 2))).
  2:{ apply functional_extensionality. intros t. unfold temperature, internal_energy. unfold Rdiv. ring. }
  match type of T with derivable_pt_lim _ _ ?a => match goal with |- derivable_pt_lim _ _ ?b => replace b with a; [exact T|] end end.
  f_equal. rewrite (rsum_ext nd (fun i => 2 * (s i / s nd) * vg i j) (fun i => 2 * (s i / s nd * vg i j))) by (intros; ring). rewrite rsum_scal. unfold Rsqr. field. exact M.
Qed.
Lemma ns_flux dv tc normal v d : 0 <= internal_energy nd s -> (v < nd + 2)%nat ->
  let c := sqrt (temperature nd s) in
  flux_diff (navier_stokes nd dv tc) s normal g v d
  = rsum nd (fun j => viscous_flux nd (coefficient dv c) (Rabs (s (nd + 3)%nat) * s nd) (coefficient tc c) (Rabs (s (nd + 4)%nat)) s g vg tg v j * normal j d).
Proof.
  intros E V c. cbn [flux_diff navier_stokes]. unfold flux_diff_ns. cbv zeta.
  assert (TE : Rmax ((s (nd + 1)%nat - Pde_Model.kin_ener nd s) / s nd) 0 * (Pde_Model.heat_rat - 1) / specific_gas_air = temperature nd s).
  { assert (IE : (s (nd + 1)%nat - Pde_Model.kin_ener nd s) / s nd = internal_energy nd s).
    { unfold Pde_Model.kin_ener, internal_energy, velocity. rewrite (rsum_ext nd (fun i => (s i / s nd) ^ 2) (fun i => / (s nd * s nd) * (s i * s i))) by (intros; field; exact M). rewrite rsum_scal. field. exact M. }
    rewrite IE, Rmax_left by exact E. unfold temperature, Pde_Model.heat_rat, specific_gas_air. field. }
  rewrite TE. fold c. set (mu := coefficient dv c). set (k := coefficient tc c). unfold bulk_av_offset, laplacian_av_offset.
  apply rsum_ext. intros j J. f_equal. unfold viscous_flux.
  assert (TR : rsum nd (fun i => (g i i - s i / s nd * g nd i) / s nd) = rsum nd (fun l => vg l l)) by (apply rsum_ext; intros; now rewrite velocity_gradient). rewrite TR.
  assert (ST : forall i, (i < nd)%nat -> mu * ((g i j - s i / s nd * g nd j) / s nd + (g j i - s j / s nd * g nd i) / s nd) + (Rabs (s (nd + 3)%nat) * s nd - 2 / 3 * mu) * rsum nd (fun l => vg l l) * (if (i =? j)%nat then 1 else 0) = tau nd mu (Rabs (s (nd + 3)%nat) * s nd) vg i j).
  { intros i I. unfold tau. rewrite <- !velocity_gradient by assumption. destruct (i =? j)%nat; ring. }
  rewrite (rsum_ext nd (fun i => s i / s nd * (mu * _ + _)) (fun i => velocity nd s i * tau nd mu (Rabs (s (nd + 3)%nat) * s nd) vg i j)) by (intros i I; rewrite ST by exact I; reflexivity).
  rewrite (rsum_ext nd (fun i => s i / s nd * ((g i j - s i / s nd * g nd j) / s nd)) (fun i => s i / s nd * vg i j)) by (intros i I; now rewrite velocity_gradient).
  destruct (Nat.ltb_spec v nd) as [L|L].
  - rewrite ST by exact L. destruct (Nat.eqb_spec v (nd + 1)); [lia|]. ring.
  - destruct (Nat.eqb_spec v nd) as [->|NE].
    + destruct (Nat.eqb_spec nd (nd + 1)); [lia|]. ring.
    + assert (v = nd + 1)%nat as -> by lia. rewrite Nat.eqb_refl. rewrite (temperature_gradient j J). unfold Pde_Model.heat_rat, specific_gas_air. field. exact M.
Qed.
End Field.
(** ** dissipation *)
Lemma tau_symmetric nd mu zeta vg i j : tau nd mu zeta vg i j = tau nd mu zeta vg j i.
Proof. unfold tau. rewrite (Nat.eqb_sym j i). f_equal. ring. Qed.
Lemma tau_rigid nd mu zeta vg i j : (forall i j, (i < nd)%nat -> (j < nd)%nat -> vg i j = - vg j i) -> (i < nd)%nat -> (j < nd)%nat -> tau nd mu zeta vg i j = 0.
Proof.
  intros A I J. unfold tau. rewrite (A i j I J). rewrite (rsum_ext nd _ (fun _ => 0)) by (intros l L; pose proof (A l l L L); lra). rewrite rsum_0. destruct (i =? j)%nat; ring.
Qed.
Lemma tau_dissipates nd mu zeta vg : (nd <= 3)%nat -> 0 <= mu -> 0 <= zeta -> 0 <= rsum nd (fun i => rsum nd (fun j => tau nd mu zeta vg i j * vg i j)).
Proof.
  intros N MU Z. unfold tau. destruct nd as [|[|[|[|nd]]]]; try lia; cbn [rsum Nat.eqb].
  - lra.
  - set (a := vg 0%nat 0%nat). assert (0 <= a * a) by nra. nra.
  - set (a := vg 0%nat 0%nat). set (b := vg 0%nat 1%nat). set (c := vg 1%nat 0%nat). set (d := vg 1%nat 1%nat).
    match goal with |- 0 <= ?e => replace e with (mu * ((b + c) ^ 2 + (a - d) ^ 2 + 1 / 3 * (a + d) ^ 2) + zeta * (a + d) ^ 2) by field end.
    pose proof (pow2_ge_0 (b + c)). pose proof (pow2_ge_0 (a - d)). pose proof (pow2_ge_0 (a + d)). apply Rplus_le_le_0_compat; apply Rmult_le_pos; lra.
  - set (a := vg 0%nat 0%nat). set (d := vg 1%nat 1%nat). set (k := vg 2%nat 2%nat).
    set (b := vg 0%nat 1%nat). set (c := vg 1%nat 0%nat). set (e := vg 0%nat 2%nat). set (f := vg 2%nat 0%nat). set (h := vg 1%nat 2%nat). set (i := vg 2%nat 1%nat).
    match goal with |- 0 <= ?x => replace x with (mu * ((b + c) ^ 2 + (e + f) ^ 2 + (h + i) ^ 2 + 2 / 3 * ((a - d) ^ 2 + (d - k) ^ 2 + (a - k) ^ 2)) + zeta * (a + d + k) ^ 2) by field end.
    pose proof (pow2_ge_0 (b + c)). pose proof (pow2_ge_0 (e + f)). pose proof (pow2_ge_0 (h + i)). pose proof (pow2_ge_0 (a - d)). pose proof (pow2_ge_0 (d - k)). pose proof (pow2_ge_0 (a - k)). pose proof (pow2_ge_0 (a + d + k)).
    apply Rplus_le_le_0_compat; apply Rmult_le_pos; lra.
Qed.
(** ** transport models *)
Lemma coefficient_constant v c : coefficient (constant v) c = v.
Proof. unfold coefficient, constant. cbn [const_val ref_val ref_temp temp_offset]. unfold Rdiv. ring. Qed.
Lemma coefficient_inviscid c : coefficient inviscid c = 0.
Proof. unfold coefficient, inviscid. cbn [const_val ref_val ref_temp temp_offset]. unfold Rdiv. ring. Qed.
Lemma coefficient_sutherland v t o x : 0 < t -> 0 < x -> coefficient (sutherland v t o) (sqrt x) = v * Rpower (x / t) (3 / 2) * (t + o) / (x + o).
Proof.
  intros T X. unfold coefficient, sutherland. cbn [const_val ref_val ref_temp temp_offset]. rewrite sqrt_sqrt by lra. rewrite <- sqrt_div_alt by exact T.
  assert (P : 0 < x / t) by (apply Rdiv_lt_0_compat; assumption). assert (E : Rpower (x / t) (3 / 2) = sqrt (x / t) ^ 3).
  { replace (3 / 2) with (1 + / 2) by field. rewrite Rpower_plus, Rpower_1, Rpower_sqrt by exact P. cbn [pow]. rewrite <- (sqrt_sqrt (x / t)) at 1 by lra. ring. }
  rewrite E. unfold Rdiv. ring.
Qed.
Lemma coefficient_nonneg m x : 0 <= const_val m -> 0 <= ref_val m -> 0 < ref_temp m -> 0 < temp_offset m -> 0 <= x -> 0 <= coefficient m x.
Proof.
  intros C R0 T O X. unfold coefficient. apply Rplus_le_le_0_compat; [exact C|]. apply Rmult_le_pos; [|apply Rlt_le, Rinv_0_lt_compat; nra].
  apply Rmult_le_pos; [|lra]. apply Rmult_le_pos; [exact R0|]. apply pow_le. apply Rmult_le_pos; [exact X|]. apply Rlt_le, Rinv_0_lt_compat, sqrt_lt_R0. exact T.
Qed.
