(** C26, C56, C57: boundary conditions. [in_f] is the inside face, [gh] the ghost face before; faces hold [nd + 2] variables
    at [nq] points. The value that the numerical fluxes see at the interface is the average of inside and ghost
    (include/Spatial.hpp:707-760). *)
From Coq Require Import Reals Arith Lra Lia FunctionalExtensionality.
From Verif Require Import RSum GeomPred_Model Pde_Model Pde_Spec Pde_Proofs Pde_Thm Bc_Model Bc_Spec Bc_Proofs.
Local Open Scope R_scope.

(** C26: nonpenetration. The state of the ghost is the mirror image of the inside: same mass, energy, kinetic energy and
    momentum across the normal, opposite momentum along it; the mirror image of the ghost is the inside. At the interface
    all transport fluxes vanish except that of normal momentum, which is unmodified. The velocity of advection is mirrored
    and the advected scalars are unmodified. *)
Theorem bc_nonpenetration : forall nd nq nrml q, (q < nq)%nat -> 0 < along nd (at_q nq nrml q) (at_q nq nrml q) ->
  let m := at_q nq nrml q in
  (forall in_f gh,
    let g := nonpenetration_state nd (nd + 2) nq in_f nrml gh in let s := at_q nq in_f q in let s' := at_q nq g q in
    s' nd = s nd /\ s' (nd + 1)%nat = s (nd + 1)%nat /\ along nd m s' = - along nd m s /\ (forall i, (i < nd)%nat -> across nd m s' i = across nd m s i) /\
    rsum nd (fun i => s' i * s' i) = rsum nd (fun i => s i * s i) /\ along nd m (average s s') = 0 /\
    (forall gh' v, (v < nd + 2)%nat -> at_q nq (nonpenetration_state nd (nd + 2) nq g nrml gh') q v = s v) /\ same_beyond ((nd + 2) * nq) gh g) /\
  (forall in_f gh,
    let g := nonpenetration_flux nd (nd + 2) nq in_f nrml gh in let f := at_q nq in_f q in let a := average f (at_q nq g q) in
    a nd = 0 /\ a (nd + 1)%nat = 0 /\ (forall i, (i < nd)%nat -> across nd m a i = 0) /\ along nd m a = along nd m f /\ same_beyond ((nd + 2) * nq) gh g) /\
  (forall n_adv in_f gh,
    let s := at_q nq in_f q in let s' := at_q nq (nonpenetration_advection nd n_adv nq in_f nrml gh) q in
    along nd m s' = - along nd m s /\ (forall i, (i < nd)%nat -> across nd m s' i = across nd m s i) /\ (forall v, (nd <= v < nd + n_adv)%nat -> s' v = s v)).
Proof.
  intros nd nq nrml q Q NZ m. assert (NZ' : along nd m m <> 0) by (unfold m; lra). split; [|split].
  - intros in_f gh g s s'. assert (E : forall v, (v < nd + 2)%nat -> s' v = reflect nd m s v) by (intros v V; apply nonpenetration_state_eq; [exact Q|lia|exact V]).
    assert (AL : along nd m s' = - along nd m s) by (rewrite (along_ext nd m s' (reflect nd m s)) by (intros; apply E; lia); now apply along_reflect).
    split; [rewrite E by lia; unfold reflect; now rewrite Nat.ltb_irrefl|]. split; [rewrite E by lia; unfold reflect; replace (nd + 1 <? nd)%nat with false by (symmetry; apply Nat.ltb_ge; lia); reflexivity|]. split; [exact AL|].
    split. { intros i I. rewrite <- (across_reflect nd m s i NZ' I). unfold across. rewrite AL. rewrite E by lia. now rewrite along_reflect. }
    split. { rewrite (rsum_ext nd _ (fun i => reflect nd m s i * reflect nd m s i)) by (intros; now rewrite E by lia). now apply reflect_energy. }
    split. { unfold along, average. rewrite (rsum_ext nd _ (fun i => / 2 * (s i * m i) + / 2 * (s' i * m i))) by (intros; field). rewrite rsum_plus, !rsum_scal. fold (along nd m s) (along nd m s'). rewrite AL. ring. }
    split. { intros gh' v V. rewrite nonpenetration_state_eq by (assumption || lia). fold s' m. rewrite <- (reflect_twice nd m s v NZ'). unfold reflect at 1. rewrite (along_ext nd m s' (reflect nd m s)) by (intros; apply E; lia). rewrite E by exact V. reflexivity. }
    unfold g, nonpenetration_state. eapply same_beyond_trans; [|apply copy_ok|apply reflect_ok]. nia.
  - intros in_f gh g f a. assert (E : forall v, (v < nd + 2)%nat -> at_q nq g q v = reflect nd m (fun w => - f w) v) by (intros v V; apply nonpenetration_flux_eq; [exact Q|lia|exact V]).
    assert (AI : forall i, (i < nd)%nat -> a i = along nd m f / along nd m m * m i). { intros i I. unfold a, average. rewrite E by lia. unfold reflect. replace (i <? nd)%nat with true by (symmetry; now apply Nat.ltb_lt). rewrite along_neg. field. exact NZ'. }
    assert (AL : along nd m a = along nd m f). { unfold along at 1. rewrite (rsum_ext nd _ (fun i => along nd m f / along nd m m * (m i * m i))) by (intros; rewrite AI by assumption; ring). rewrite rsum_scal. fold (along nd m m). field. exact NZ'. }
    split; [unfold a, average; rewrite E by lia; unfold reflect; rewrite Nat.ltb_irrefl; field|]. split; [unfold a, average; rewrite E by lia; unfold reflect; replace (nd + 1 <? nd)%nat with false by (symmetry; apply Nat.ltb_ge; lia); field|].
    split; [intros i I; unfold across; rewrite AL, AI by exact I; ring|]. split; [exact AL|].
    unfold g, nonpenetration_flux. eapply same_beyond_trans; [|apply negate_ok|apply reflect_ok]. nia.
  - intros n_adv in_f gh s s'. assert (E : forall v, (v < nd + n_adv)%nat -> s' v = reflect nd m s v) by (intros v V; now apply nonpenetration_advection_eq).
    assert (AL : along nd m s' = - along nd m s) by (rewrite (along_ext nd m s' (reflect nd m s)) by (intros; apply E; lia); now apply along_reflect). split; [exact AL|]. split.
    + intros i I. rewrite <- (across_reflect nd m s i NZ' I). unfold across. rewrite AL. rewrite E by lia. now rewrite along_reflect.
    + intros v V. rewrite E by lia. unfold reflect. replace (v <? nd)%nat with false by (symmetry; apply Nat.ltb_ge; lia). reflexivity.
Qed.
Print Assumptions bc_nonpenetration.

Lemma coerced o ar c f h : ar <> 0 -> o * o = 1 -> o * ((f + (c * (ar * o * h - f) + f)) / 2) / ar = (1 - c / 2) * (o * f / ar) + c / 2 * h.
Proof. intros A O. transitivity ((1 - c / 2) * (o * f / ar) + c / 2 * ((o * o) * h)); [field; exact A|rewrite O; ring]. Qed.
Lemma uncoerced o ar c f : ar <> 0 -> o * o = 1 -> (f + (c * (ar * o * (o * f / ar) - f) + f)) / 2 = f.
Proof. intros A O. transitivity (f + c / 2 * ((o * o - 1) * f)); [field; exact A|rewrite O; ring]. Qed.

(** C26: no slip. At the interface the momentum vanishes and the mass is unmodified. The wall energy of the thermal condition
    is the geometric mean of the inside and the ghost energies, so that a thermal condition which gives back the energy leaves
    it unmodified; the ghost energy is positive when inside and wall energies are. The cache holds the interface state.
    The interface flux of momentum is unmodified and that of mass vanishes. The flux of energy is moved from the inside flux
    towards the prescribed one by half the coercion; with the default coercion of 2 it is the prescribed heat flux (positive
    out of the fluid) times the area. A thermal condition which gives back the heat flux leaves it unmodified. *)
Theorem bc_no_slip : forall thermal nd nq q, (q < nq)%nat ->
  (forall in_f gh sc,
    let g := fst (no_slip_state thermal nd (nd + 2) nq in_f gh sc) in let s := at_q nq in_f q in let s' := at_q nq g q in let a := average s s' in
    (forall i, (i < nd)%nat -> a i = 0) /\ a nd = s nd /\
    (s (nd + 1)%nat <> 0 -> s (nd + 1)%nat * s' (nd + 1)%nat = ghost_energy thermal s ^ 2) /\
    (0 < s (nd + 1)%nat -> 0 < ghost_energy thermal s -> 0 < s' (nd + 1)%nat /\ ghost_energy thermal s <= a (nd + 1)%nat) /\
    (s (nd + 1)%nat <> 0 -> ghost_energy thermal s = s (nd + 1)%nat -> a (nd + 1)%nat = s (nd + 1)%nat) /\
    (forall v, (v < nd + 2)%nat -> at_q nq (snd (no_slip_state thermal nd (nd + 2) nq in_f gh sc)) q v = a v)) /\
  (forall coercion face_sign sc in_f nrml gh, 0 < along nd (at_q nq nrml q) (at_q nq nrml q) ->
    let g := no_slip_flux thermal coercion nd (nd + 2) nq face_sign sc in_f nrml gh in let f := at_q nq in_f q in let a := average f (at_q nq g q) in
    let area := sqrt (along nd (at_q nq nrml q) (at_q nq nrml q)) in let out := if face_sign then 1 else -1 in
    let heat := ghost_heat_flux thermal (at_q nq sc q) (out * f (nd + 1)%nat / area) in
    (forall i, (i < nd)%nat -> a i = f i) /\ a nd = 0 /\
    out * a (nd + 1)%nat / area = (1 - coercion / 2) * (out * f (nd + 1)%nat / area) + coercion / 2 * heat /\
    (coercion = 2 -> out * a (nd + 1)%nat / area = heat) /\
    (heat = out * f (nd + 1)%nat / area -> a (nd + 1)%nat = f (nd + 1)%nat)) /\
  (forall n_adv in_f gh,
    let a := average (at_q nq in_f q) (at_q nq (no_slip_advection nd n_adv nq in_f gh) q) in
    (forall i, (i < nd)%nat -> a i = 0) /\ forall v, (nd <= v < nd + n_adv)%nat -> a v = at_q nq in_f q v).
Proof.
  intros thermal nd nq q Q. split; [|split].
  - intros in_f gh sc g s s' a. destruct (no_slip_state_entries thermal nd nq in_f gh sc q Q) as (A & B & C). fold g s s' in A, B, C.
    split; [intros i I; unfold a, average; rewrite A by exact I; field|]. split; [unfold a, average; rewrite B; field|].
    split; [intros NZ; rewrite C; field; exact NZ|]. split; [|split].
    + intros P PE. set (w := ghost_energy thermal s) in *. assert (EP : 0 < s' (nd + 1)%nat). { rewrite C. apply Rmult_lt_0_compat; [nra|now apply Rinv_0_lt_compat]. } split; [exact EP|].
      unfold a, average. assert (M : s (nd + 1)%nat * s' (nd + 1)%nat = w ^ 2) by (rewrite C; field; lra). set (x := s (nd + 1)%nat) in *. set (y := s' (nd + 1)%nat) in *.
      assert (0 <= (x - y) ^ 2) by apply pow2_ge_0. assert (S4 : (2 * w) ^ 2 <= (x + y) ^ 2) by nra. destruct (Rle_dec (2 * w) (x + y)); [lra|]. exfalso. nra.
    + intros NZ E. unfold a, average. rewrite C, E. field. exact NZ.
    + intros v V. now apply no_slip_cache.
  - intros coercion face_sign sc in_f nrml gh NZ g f a area out heat. destruct (no_slip_flux_entries thermal coercion nd nq face_sign sc in_f nrml gh q Q) as (A & B & C). cbn zeta in C. fold g f area out in A, B, C. pose proof (sqrt_lt_R0 _ NZ) as AP. fold area in AP.
    assert (OO : out * out = 1) by (unfold out; destruct face_sign; lra). replace (f (nd + 1)%nat * out / area) with (out * f (nd + 1)%nat / area) in C by (unfold Rdiv; ring). fold heat in C.
    assert (M : out * a (nd + 1)%nat / area = (1 - coercion / 2) * (out * f (nd + 1)%nat / area) + coercion / 2 * heat).
    { unfold a, average. rewrite C. apply coerced; [lra|exact OO]. }
    split; [intros i I; unfold a, average; rewrite A by exact I; field|]. split; [unfold a, average; rewrite B; field|]. split; [exact M|]. split.
    + intros E. rewrite M, E. field. lra.
    + intros E. unfold a, average. rewrite C, E. apply uncoerced; [lra|exact OO].
  - intros n_adv in_f gh a. split; intros v V; unfold a, average; rewrite no_slip_advection_eq by (assumption || lia).
    + replace (v <? nd)%nat with true by (symmetry; now apply Nat.ltb_lt). field.
    + replace (v <? nd)%nat with false by (symmetry; apply Nat.ltb_ge; lia). field.
Qed.
Print Assumptions bc_no_slip.

(** C26: the thermal conditions. Prescribed energy keeps the heat flux, prescribed heat flux keeps the energy, and thermal
    equilibrium emits the radiated heat plus the conducted heat at the temperature of the ideal gas. *)
Theorem bc_thermal : forall nd s h,
  (forall e, ghost_energy (prescribed_energy (nd + 2) e) s = e * s nd /\ ghost_heat_flux (prescribed_energy (nd + 2) e) s h = h) /\
  (forall x, ghost_energy (prescribed_heat_flux (nd + 2) x) s = s (nd + 1)%nat /\ ghost_heat_flux (prescribed_heat_flux (nd + 2) x) s h = x) /\
  (forall gas sb emissivity coef temperature, 0 < gas -> 0 < s nd -> (forall i, (i < nd)%nat -> s i = 0) ->
     let wall := euler_pressure nd s / (s nd * gas) in let tq := thermal_equilibrium (nd + 2) gas sb emissivity coef temperature in
     ghost_energy tq s = s (nd + 1)%nat /\ ghost_heat_flux tq s h = emissivity * sb * wall ^ 4 + coef * (wall - temperature)).
Proof.
  intros nd s h. unfold prescribed_energy, prescribed_heat_flux, thermal_equilibrium. cbn [ghost_energy ghost_heat_flux]. replace (nd + 2 - 2)%nat with nd by lia. replace (nd + 2 - 1)%nat with (nd + 1)%nat by lia.
  split; [auto|]. split; [auto|]. intros gas sb emissivity coef temperature GP MP Z. split; [reflexivity|]. assert (W : s (nd + 1)%nat * (4 / 10) / s nd / gas = euler_pressure nd s / (s nd * gas)).
  { unfold euler_pressure. rewrite (rsum_ext nd _ (fun _ => 0)) by (intros i I; rewrite Z by exact I; ring). rewrite rsum_0. field. split; lra. }
  rewrite W. reflexivity.
Qed.
Print Assumptions bc_thermal.

(** C26: freestream, outflow and copy. The freestream ghost state is the freestream state; outflow keeps the state; at the
    interface the transport fluxes are unmodified for freestream and copy and vanish for outflow. By default the interface
    value of an advected scalar is 1 and the velocity is kept. Nothing outside of the face is written. *)
Theorem bc_freestream_outflow : forall nd nq q v, (q < nq)%nat -> (v < nd + 2)%nat ->
  (forall fs gh, let g := freestream_state (nd + 2) nq fs gh in at_q nq g q v = fs v /\ same_beyond ((nd + 2) * nq) gh g) /\
  (forall in_f gh, let g := copy ((nd + 2) * nq) in_f gh in average (at_q nq in_f q) (at_q nq g q) v = at_q nq in_f q v /\ at_q nq g q v = at_q nq in_f q v /\ same_beyond ((nd + 2) * nq) gh g) /\
  (forall in_f gh, let g := negate ((nd + 2) * nq) in_f gh in average (at_q nq in_f q) (at_q nq g q) v = 0 /\ same_beyond ((nd + 2) * nq) gh g) /\
  (forall n_adv in_f gh, let a := average (at_q nq in_f q) (at_q nq (default_advection nd n_adv nq in_f gh) q) in
     forall w, (w < nd + n_adv)%nat -> a w = if (w <? nd)%nat then at_q nq in_f q w else 1).
Proof.
  intros nd nq q v Q V. pose proof (face_index (nd + 2) nq v q V Q) as FI. split; [|split; [|split]].
  - intros fs gh g. split; [now apply freestream_state_eq|apply freestream_state_eq].
  - intros in_f gh g. assert (E : at_q nq g q v = at_q nq in_f q v) by exact (proj1 (copy_ok _ in_f gh) _ FI). split; [unfold average; rewrite E; field|]. split; [exact E|apply copy_ok].
  - intros in_f gh g. assert (E : at_q nq g q v = - at_q nq in_f q v) by exact (proj1 (negate_ok _ in_f gh) _ FI). split; [unfold average; rewrite E; field|apply negate_ok].
  - intros n_adv in_f gh a w W. unfold a, average. rewrite default_advection_eq by assumption. destruct (w <? nd)%nat; field.
Qed.
Print Assumptions bc_freestream_outflow.

(** C26: pressure outflow. Where the flow leaves at the speed of sound or faster the state is kept; elsewhere mass and
    momentum are kept and the pressure is the specified one. *)
Theorem bc_pressure_outflow : forall nd nq face_sign pres in_f nrml gh q, (q < nq)%nat -> admissible_state nd (at_q nq in_f q) -> 0 < along nd (at_q nq nrml q) (at_q nq nrml q) ->
  let s := at_q nq in_f q in let g := pressure_outflow_state nd (nd + 2) nq face_sign pres in_f nrml gh in let s' := at_q nq g q in
  let u := normal_velocity nd s (outward nd face_sign (at_q nq nrml q)) in
  (sound_speed nd s <= u -> forall v, (v < nd + 2)%nat -> s' v = s v) /\
  (u < sound_speed nd s -> (forall v, (v < nd + 1)%nat -> s' v = s v) /\ euler_pressure nd s' = pres /\ (0 < pres -> admissible_state nd s')) /\
  same_beyond ((nd + 2) * nq) gh g.
Proof.
  intros nd nq face_sign pres in_f nrml gh q Q AD NZ s g s' u. pose proof (pressure_outflow_eq nd nq face_sign pres in_f nrml gh q Q AD NZ) as E. cbn zeta in E. fold s g s' in E.
  assert (UE : normal_velocity nd s (dir (make_chars nd s (at_q nq nrml q))) * (if face_sign then 1 else -1) = u).
  { unfold u. rewrite (outward_dir nd face_sign s). destruct face_sign; [ring|rewrite normal_velocity_flip; ring]. }
  rewrite UE in E. split; [|split].
  - intros H v V. rewrite E by exact V. destruct Rlt_dec; [lra|reflexivity].
  - intros H. destruct AD as [MP EP]. fold s in MP, EP. assert (LO : forall v, (v < nd + 1)%nat -> s' v = s v). { intros v V. rewrite E by lia. destruct Rlt_dec; [|contradiction]. rewrite upd_ne by lia. reflexivity. }
    assert (KE : rsum nd (fun i => s' i * s' i) / (2 * s' nd) = / 2 * sqnorm nd s / s nd). { rewrite kin_eq by lra. rewrite LO by lia. f_equal. apply rsum_ext. intros i I. rewrite LO by lia. reflexivity. }
    assert (HI : s' (nd + 1)%nat = pres / (4 / 10) + / 2 * sqnorm nd s / s nd). { rewrite E by lia. destruct Rlt_dec; [|contradiction]. apply upd_eq. }
    split; [exact LO|]. split; [unfold euler_pressure; rewrite KE, HI; field; lra|]. intros PP. split; [rewrite LO by lia; exact MP|]. rewrite KE, HI. lra.
  - apply (columns_beyond (nd + 2) nq).
Qed.
Print Assumptions bc_pressure_outflow.

(** C56: characteristic. The inside and the freestream state are split in their characteristic components through the outward
    normal; [x] recombines those components of the inside that leave and those of the freestream that enter. The ghost has
    the momentum of [x] and at least half the mass and half the internal energy of the inside, so it is admissible; where [x]
    has so, the ghost is [x]. In particular the ghost is the inside for supersonic outflow and for an inside equal to the
    freestream, and it is the freestream for supersonic inflow. *)
Theorem bc_characteristic : forall solve nd nq face_sign fs in_f nrml gh sc q,
  (q < nq)%nat -> solves_regular solve -> admissible_state nd (at_q nq in_f q) -> 0 < along nd (at_q nq nrml q) (at_q nq nrml q) ->
  let s := at_q nq in_f q in let out := riemann_state solve nd (nd + 2) nq face_sign fs in_f nrml gh sc in let s' := at_q nq (fst out) q in
  let m := outward nd face_sign (at_q nq nrml q) in
  let fine := fun x : nat -> R => s nd / 2 <= x nd /\ internal_energy nd s / 2 <= internal_energy nd x in
  (exists D Dfs, components nd s m s D /\ components nd s m fs Dfs /\
     let x := fun k => rsum 3 (fun j => if Rle_dec 0 (speed nd s m j) then D j k else Dfs j k) in
     (forall i, (i < nd)%nat -> s' i = x i) /\ (fine x -> forall v, (v < nd + 2)%nat -> s' v = x v)) /\
  fine s' /\ admissible_state nd s' /\
  (sound_speed nd s <= normal_velocity nd s m -> forall v, (v < nd + 2)%nat -> s' v = s v) /\
  ((forall v, (v < nd + 2)%nat -> s v = fs v) -> forall v, (v < nd + 2)%nat -> s' v = s v) /\
  (normal_velocity nd s m < - sound_speed nd s -> fine fs -> forall v, (v < nd + 2)%nat -> s' v = fs v) /\
  (forall v, (v < nd + 2)%nat -> at_q nq (snd out) q v = s v) /\ same_beyond ((nd + 2) * nq) gh (fst out).
Proof.
  intros solve nd nq face_sign fs in_f nrml gh sc q Q SV AD NZ s out s' m fine.
  pose proof (riemann_column solve nd nq face_sign fs in_f nrml gh sc q) as RC. set (st := apply_char nd solve s (at_q nq nrml q) (if face_sign then -1 else 1) s fs).
  assert (E : forall v, (v < nd + 2)%nat -> s' v = limit_state nd st s v) by (intros v V; now apply RC). clear RC.
  destruct (limit_ok nd st s AD) as (L1 & L2 & L3 & L4). set (g := limit_state nd st s) in *.
  assert (FS' : fine s'). { unfold fine, internal_energy at 2. rewrite !E by lia. rewrite (rsum_ext nd _ (fun i => g i * g i)) by (intros i I; rewrite E by lia; reflexivity). split; [exact L1|exact L2]. }
  assert (FX : fine st -> forall v, (v < nd + 2)%nat -> s' v = st v). { intros [F1 F2] v V. rewrite E by exact V. destruct (L4 F1) as [G1 G2]. specialize (G2 F2). destruct (Nat.eq_dec v nd) as [->|]; [exact G1|]. destruct (Nat.eq_dec v (nd + 1)) as [->|]; [exact G2|]. apply L3. lia. }
  assert (fine_ext : forall x y, (forall v, (v < nd + 2)%nat -> x v = y v) -> fine x -> fine y).
  { intros x y XY [F1 F2]. split; [rewrite <- XY by lia; exact F1|]. replace (internal_energy nd y) with (internal_energy nd x); [exact F2|]. unfold internal_energy. rewrite !XY by lia. f_equal. f_equal. apply rsum_ext. intros i I. rewrite XY by lia. reflexivity. }
  assert (AP := fun k => apply_char_eq nd solve face_sign s (at_q nq nrml q) s fs k AD). fold st m in AP.
  pose proof (components_decomp nd solve face_sign s (at_q nq nrml q) s AD NZ SV) as CS. pose proof (components_decomp nd solve face_sign s (at_q nq nrml q) fs AD NZ SV) as CF. fold m in CS, CF. cbn beta in CS, CF.
  set (D := fun j k => decomp nd solve (make_chars nd s (at_q nq nrml q)) s k (order face_sign j)) in *. set (Df := fun j k => decomp nd solve (make_chars nd s (at_q nq nrml q)) fs k (order face_sign j)) in *.
  assert (FS : fine s). { destruct AD as [M P]. fold s in M, P. unfold fine. change (0 < internal_energy nd s) in P. lra. }
  pose proof (c_pos nd s AD) as CP.
  split. { exists D, Df. split; [exact CS|]. split; [exact CF|]. split.
    - intros i I. rewrite E by lia. unfold g. rewrite L3 by exact I. apply AP.
    - intros F v V. rewrite FX; [apply AP| |exact V]. eapply fine_ext; [|exact F]. intros w W. symmetry. apply AP. }
  split; [exact FS'|]. split. { destruct FS' as [F1 F2], AD as [M P]. fold s in M, P. change (0 < internal_energy nd s) in P. split; [lra|]. change (0 < internal_energy nd s'). lra. }
  split; [|split; [|split; [|split]]].
  - intros SO. assert (ES : forall v, (v < nd + 2)%nat -> s v = st v). { intros v V. rewrite AP. cbn [rsum speed]. repeat (destruct Rle_dec; [|lra]). change (s v = 0 + D 0%nat v + D 1%nat v + D 2%nat v). rewrite Rplus_0_l. symmetry. now apply CS. }
    intros v V. rewrite FX; [now rewrite ES| |exact V]. now apply (fine_ext s st ES).
  - intros EQ. assert (ED : forall j k, Df j k = D j k).
    { intros j k. unfold Df, D. apply decomp_ext. intros v V. symmetry. now apply EQ. }
    assert (ES : forall v, (v < nd + 2)%nat -> s v = st v). { intros v V. rewrite AP. cbn [rsum]. transitivity (0 + D 0%nat v + D 1%nat v + D 2%nat v); [rewrite Rplus_0_l; symmetry; now apply CS|].
      f_equal; [f_equal; [f_equal|]|]; destruct Rle_dec; try reflexivity; symmetry; apply ED. }
    intros v V. rewrite FX; [now rewrite ES| |exact V]. now apply (fine_ext s st ES).
  - intros SI FF. assert (ES : forall v, (v < nd + 2)%nat -> fs v = st v). { intros v V. rewrite AP. cbn [rsum speed]. repeat (destruct Rle_dec; [lra|]). change (fs v = 0 + Df 0%nat v + Df 1%nat v + Df 2%nat v). rewrite Rplus_0_l. symmetry. now apply CF. }
    intros v V. rewrite FX; [now rewrite ES| |exact V]. now apply (fine_ext fs st ES).
  - intros v V. unfold out, riemann_state. cbn [snd]. unfold at_q at 1. rewrite (proj1 (copy_ok _ _ _)) by now apply face_index. reflexivity.
  - unfold out, riemann_state. cbn [fst]. apply (columns_beyond (nd + 2) nq).
Qed.
Print Assumptions bc_characteristic.

(** C57. Full statement: at the interface of a characteristic boundary condition the transport fluxes of the outgoing
    characteristics vanish and those of the incoming ones are unmodified (doc/boundary_conditions.dox:27):
    [exists D, components nd s m f D /\ forall v, v < nd + 2 -> a v = rsum 3 (fun j => if Rle_dec 0 (speed nd s m j) then 0 else D j v)]
    with the names below. It is false: the ghost flux of the outgoing ones is 0 and not the opposite of the inside, so that
    half of the outgoing flux remains. The incoming ones are as stated. *)
Theorem bc_characteristic_flux_partial : forall solve nd nq face_sign sc in_f nrml gh q,
  (q < nq)%nat -> solves_regular solve -> admissible_state nd (at_q nq sc q) -> 0 < along nd (at_q nq nrml q) (at_q nq nrml q) ->
  let s := at_q nq sc q in let f := at_q nq in_f q in let m := outward nd face_sign (at_q nq nrml q) in
  let a := average f (at_q nq (riemann_flux solve nd (nd + 2) nq face_sign sc in_f nrml gh) q) in
  exists D, components nd s m f D /\ forall v, (v < nd + 2)%nat -> a v = rsum 3 (fun j => if Rle_dec 0 (speed nd s m j) then D j v / 2 else D j v).
Proof.
  intros solve nd nq face_sign sc in_f nrml gh q Q SV AD NZ s f m a. pose proof (components_decomp nd solve face_sign s (at_q nq nrml q) f AD NZ SV) as CF.
  exists (fun j k => decomp nd solve (make_chars nd s (at_q nq nrml q)) f k (order face_sign j)). split; [exact CF|]. intros v V. unfold a, average. rewrite riemann_flux_column by assumption. fold s f.
  rewrite apply_char_eq by exact AD. fold m. destruct CF as [CS _]. rewrite <- (CS v V). cbn [rsum].
  rewrite !decomp_zero by (assumption || (destruct face_sign; cbn [order]; lia)). destruct (Rle_dec 0 (speed nd s m 0)), (Rle_dec 0 (speed nd s m 1)), (Rle_dec 0 (speed nd s m 2)); field.
Qed.
Print Assumptions bc_characteristic_flux_partial.

(** Supersonic outflow in one dimension: all characteristics are outgoing, but the momentum flux at the interface is half of
    that inside. *)
Definition fast : nat -> R := fun k => match k with 0%nat => 14 / 5 | 1%nat => 7 / 5 | _ => 53 / 10 end.
Lemma fast_admissible : admissible_state 1 fast.
Proof. unfold admissible_state, fast. cbn [rsum Nat.add]. lra. Qed.
Lemma fast_sound : sound_speed 1 fast = 1.
Proof. unfold sound_speed, euler_pressure, fast. cbn [rsum Nat.add]. replace (7 / 5 * (2 / 5 * (53 / 10 - (0 + 14 / 5 * (14 / 5)) / (2 * (7 / 5)))) / (7 / 5)) with (1 * 1) by field. apply sqrt_square. lra. Qed.
Lemma at_one f q : (q < 1)%nat -> at_q 1 f q = f.
Proof. intros Q. apply functional_extensionality. intros v. unfold at_q. f_equal. lia. Qed.
Theorem bc_characteristic_flux_refuted : exists solve nd nq face_sign sc in_f nrml gh q,
  (q < nq)%nat /\ solves_regular solve /\ admissible_state nd (at_q nq sc q) /\ 0 < along nd (at_q nq nrml q) (at_q nq nrml q) /\
  let s := at_q nq sc q in let f := at_q nq in_f q in let m := outward nd face_sign (at_q nq nrml q) in
  let a := average f (at_q nq (riemann_flux solve nd (nd + 2) nq face_sign sc in_f nrml gh) q) in
  ~ exists D, components nd s m f D /\ forall v, (v < nd + 2)%nat -> a v = rsum 3 (fun j => if Rle_dec 0 (speed nd s m j) then 0 else D j v).
Proof.
  exists cramer, 1%nat, 1%nat, true, fast, (fun _ => 1), (fun _ => 1), (fun _ => 0), 0%nat. rewrite !at_one by lia.
  assert (NZ : along 1 (fun _ => 1) (fun _ => 1) = 1) by (unfold along; cbn [rsum]; ring).
  split; [lia|]. split; [exact cramer_solves|]. split; [exact fast_admissible|]. split; [rewrite NZ; lra|]. intros s f m a (D & _ & H).
  destruct (bc_characteristic_flux_partial cramer 1 1 true fast (fun _ => 1) (fun _ => 1) (fun _ => 0) 0 ltac:(lia) cramer_solves) as (E & [CS _] & HE); [rewrite at_one by lia; exact fast_admissible|rewrite at_one by lia; rewrite NZ; lra|].
  rewrite !at_one in CS, HE by lia. fold f in HE, CS. specialize (H 0%nat ltac:(lia)). specialize (HE 0%nat ltac:(lia)). specialize (CS 0%nat ltac:(lia)).
  assert (U : normal_velocity 1 fast m = 2). { unfold normal_velocity, m, outward. rewrite NZ, sqrt_1. unfold fast. cbn [rsum]. field. }
  assert (SP : forall j, 0 <= speed 1 fast m j). { intros j. unfold speed. rewrite U, fast_sound. destruct j as [|[|j]]; lra. }
  cbn [rsum] in H, HE. fold m in HE. unfold s in H. pose proof (SP 0%nat). pose proof (SP 1%nat). pose proof (SP 2%nat). repeat destruct Rle_dec; try contradiction.
  change (a 0%nat = 0 + E 0%nat 0%nat / 2 + E 1%nat 0%nat / 2 + E 2%nat 0%nat / 2) in HE. unfold f in CS. lra.
Qed.
Print Assumptions bc_characteristic_flux_refuted.

(** The mirror image of a flow at an inclined wall, and walls of prescribed heat flux or energy. *)
Example bc_nonpenetration_example :
  let nrml := fun k => match k with 0%nat => 3 | _ => 4 end in let in_f := fun k => match k with 0%nat => 10 | 1%nat => 5 | 2%nat => 1 | _ => 200 end in
  let g := nonpenetration_state 2 4 1 in_f nrml (fun _ => 0) in
  g 0%nat = -2 /\ g 1%nat = -11 /\ g 2%nat = 1 /\ g 3%nat = 200 /\ g 4%nat = 0.
Proof.
  intros nrml in_f g. assert (E : forall v, (v < 4)%nat -> g v = reflect 2 nrml in_f v).
  { intros v V. pose proof (nonpenetration_state_eq 2 4 1 in_f nrml (fun _ => 0) 0 v ltac:(lia) ltac:(lia) V) as H. rewrite !at_one in H by lia. exact H. }
  rewrite !E by lia. unfold reflect, along, nrml, in_f. cbn [rsum Nat.ltb Nat.leb]. repeat split; try field.
Qed.
Example bc_no_slip_example :
  let in_f := fun k => match k with 0%nat => 3 | 1%nat => 2 | _ => 8 end in
  let isothermal := fst (no_slip_state (prescribed_energy 3 2) 1 3 1 in_f (fun _ => 0) (fun _ => 0)) in
  isothermal 0%nat = -3 /\ isothermal 1%nat = 2 /\ isothermal 2%nat = 2 /\
  no_slip_flux (prescribed_heat_flux 3 5) 2 1 3 1 false in_f in_f (fun _ => 1) (fun _ => 0) 2%nat = -18.
Proof.
  intros in_f isothermal. destruct (no_slip_state_entries (prescribed_energy 3 2) 1 1 in_f (fun _ => 0) (fun _ => 0) 0 ltac:(lia)) as (A & B & C). rewrite !at_one in A, B, C by lia. cbn [Nat.add] in A, B, C.
  split; [unfold isothermal; rewrite A by lia; unfold in_f; ring|]. split; [exact B|]. split; [unfold isothermal; rewrite C; unfold in_f, prescribed_energy; cbn [ghost_energy Nat.sub]; field|].
  pose proof (no_slip_flux_entries (prescribed_heat_flux 3 5) 2 1 1 false in_f in_f (fun _ => 1) (fun _ => 0) 0 ltac:(lia)) as (_ & _ & D). rewrite !at_one in D by lia. cbn [Nat.add] in D. rewrite D.
  unfold along. cbn [rsum]. replace (0 + 1 * 1) with 1 by ring. rewrite sqrt_1. unfold in_f, prescribed_heat_flux. cbn [ghost_heat_flux]. ring.
Qed.
(** Supersonic outflow is left alone, and supersonic inflow from the other side takes the freestream. *)
Example bc_characteristic_example :
  let fs := fun k => match k with 0%nat => 5 | 1%nat => 2 | _ => 10 end in
  let ghost := fun side => fst (riemann_state cramer 1 3 1 side fs fast (fun _ => 3) (fun _ => 0) (fun _ => 0)) in
  ghost true 0%nat = 14 / 5 /\ ghost false 0%nat = 5 /\ ghost false 2%nat = 10 /\
  pressure_outflow_state 1 3 1 true 7 fast (fun _ => 3) (fun _ => 0) 2%nat = 53 / 10 /\ euler_pressure 1 (pressure_outflow_state 1 3 1 true 7 still (fun _ => 3) (fun _ => 0)) = 7.
Proof.
  intros fs ghost. assert (NZ : along 1 (fun _ => 3) (fun _ => 3) = 3 * 3) by (unfold along; cbn [rsum]; ring).
  assert (U : forall side, normal_velocity 1 fast (outward 1 side (fun _ => 3)) = if side then 2 else -2). { intros side. unfold normal_velocity, outward. rewrite NZ, sqrt_square by lra. unfold fast. cbn [rsum]. destruct side; field. }
  assert (G : forall side : bool, admissible_state 1 (at_q 1 fast 0) -> 0 < along 1 (at_q 1 (fun _ => 3) 0) (at_q 1 (fun _ => 3) 0)) by (intros; rewrite at_one by lia; rewrite NZ; lra).
  assert (AD : admissible_state 1 (at_q 1 fast 0)) by (rewrite at_one by lia; exact fast_admissible).
  pose proof (bc_characteristic cramer 1 1 true fs fast (fun _ => 3) (fun _ => 0) (fun _ => 0) 0 ltac:(lia) cramer_solves AD (G true AD)) as (_ & _ & _ & H1 & _).
  pose proof (bc_characteristic cramer 1 1 false fs fast (fun _ => 3) (fun _ => 0) (fun _ => 0) 0 ltac:(lia) cramer_solves AD (G true AD)) as (_ & _ & _ & _ & _ & H2 & _).
  rewrite !at_one in H1, H2 by lia. rewrite U, fast_sound in H1, H2.
  assert (F : fast 1%nat / 2 <= fs 1%nat /\ internal_energy 1 fast / 2 <= internal_energy 1 fs) by (unfold internal_energy, fast, fs; cbn [rsum Nat.add]; lra).
  split; [apply (H1 ltac:(lra) 0%nat); lia|]. split; [apply (H2 ltac:(lra) F 0%nat); lia|]. split; [apply (H2 ltac:(lra) F 2%nat); lia|].
  pose proof (bc_pressure_outflow 1 1 true 7 fast (fun _ => 3) (fun _ => 0) 0 ltac:(lia) AD (G true AD)) as (P1 & _). rewrite !at_one in P1 by lia. rewrite U, fast_sound in P1. split; [apply (P1 ltac:(lra) 2%nat); lia|].
  assert (AS : admissible_state 1 (at_q 1 still 0)) by (rewrite at_one by lia; exact still_admissible).
  pose proof (bc_pressure_outflow 1 1 true 7 still (fun _ => 3) (fun _ => 0) 0 ltac:(lia) AS (G true AD)) as (_ & P2 & _). rewrite !at_one in P2 by lia. apply P2. rewrite still_sound.
  unfold normal_velocity, still. cbn [rsum]. lra.
Qed.
