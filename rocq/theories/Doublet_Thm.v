(** Theorems: the flow around a cylinder. *)
From Coq Require Import Reals Arith Lia Lra.
From Coquelicot Require Import Coquelicot.
From Verif Require Import Outcome RSum Doublet_Model Doublet_Spec Doublet_Proofs Doublet_Proofs2.
Open Scope R_scope.

(** Position relative to the center, velocity of the freestream. *)
Definition rel (d : doublet) (pos : nat -> R) (i : nat) : R := pos i - location d i.
Definition free_vel (d : doublet) (i : nat) : R := freestream d i / freestream d (n_v d - 2)%nat.
Definition off_center (d : doublet) (pos : nat -> R) : Prop := pos 0%nat <> location d 0%nat \/ pos 1%nat <> location d 1%nat.
(** two-dimensional, or three-dimensional without axial velocity, of a gas with positive density and pressure *)
Definition gas_flow (d : doublet) : Prop := planar d /\ 1 < heat_rat d /\ 0 < freestream d (n_v d - 2)%nat /\ 0 < pressure (heat_rat d) (n_v d - 2)%nat (freestream d).

(** The velocity in the plane is the gradient of the potential of a doublet in a uniform flow (so it has no vorticity), and it is also given by
    the stream function (so it has no divergence). *)
Theorem doublet_velocity : forall d pos s, (4 <= n_v d)%nat -> off_center d pos -> doublet_at d pos = Ok (Some s) ->
  let x := rel d pos 0 in let y := rel d pos 1 in let vx := free_vel d 0 in let vy := free_vel d 1 in
  exists u v, s 0%nat = s (n_v d - 2)%nat * u /\ s 1%nat = s (n_v d - 2)%nat * v /\
  is_derive (fun x => potential vx vy (radius d) x y) x u /\ is_derive (fun y => potential vx vy (radius d) x y) y v /\
  is_derive (fun y => stream vx vy (radius d) x y) y u /\ is_derive (fun x => stream vx vy (radius d) x y) x (- v).
Proof.
  intros d pos s NV NZ E x y vx vy. destruct (run_state d pos NV NZ s E) as (p & _ & _ & E2 & E3 & E4 & _).
  exists (v0 d pos), (v1 d pos). split; [rewrite E3, E2; ring|]. split; [rewrite E4, E2; ring|].
  exact (potential_derive vx vy (radius d) x y (away d pos NZ)).
Qed.
Print Assumptions doublet_velocity.

(** No flow through the cylinder. *)
Theorem doublet_wall : forall d pos s, (4 <= n_v d)%nat -> radius d <> 0 -> doublet_at d pos = Ok (Some s) ->
  rel d pos 0 ^ 2 + rel d pos 1 ^ 2 = radius d ^ 2 -> s 0%nat * rel d pos 0 + s 1%nat * rel d pos 1 = 0.
Proof.
  intros d pos s NV R E C.
  assert (NZ : off_center d pos).
  { unfold off_center. destruct (Req_dec (pos 0%nat) (location d 0%nat)) as [A|A]; [|now left]. destruct (Req_dec (pos 1%nat) (location d 1%nat)) as [B|B]; [|now right].
    exfalso. unfold rel in C. rewrite A, B in C. apply R. replace (_ + _) with 0 in C by ring. symmetry in C. apply pow_nonzero with (n := 2%nat) in R. contradiction. }
  destruct (run_state d pos NV NZ s E) as (p & _ & _ & _ & E3 & E4 & _). pose proof (no_penetration d pos NZ C) as N. fold (rel d pos 0) (rel d pos 1) in N.
  rewrite E3, E4. transitivity ((v0 d pos * rel d pos 0 + v1 d pos * rel d pos 1) * (freestream d (n_v d - 2)%nat * p)); [ring|rewrite N; ring].
Qed.
Print Assumptions doublet_wall.

(** The flow has the total enthalpy and the entropy of the freestream everywhere. *)
Theorem doublet_thermodynamics : forall d pos s, gas_flow d -> off_center d pos -> doublet_at d pos = Ok (Some s) -> 0 < s (n_v d - 2)%nat ->
  let nd := (n_v d - 2)%nat in
  total_enthalpy (heat_rat d) nd s = total_enthalpy (heat_rat d) nd (freestream d) /\ entropy (heat_rat d) nd s = entropy (heat_rat d) nd (freestream d).
Proof.
  intros d pos s (PL & G & M & P) NZ E SM nd. split.
  - exact (enthalpy_main d pos PL NZ G M P s E SM).
  - exact (entropy_main d pos PL NZ G M P s E SM).
Qed.
Print Assumptions doublet_thermodynamics.

(** Outside of the cylinder the state is defined, with positive density and pressure, if the Mach number of the freestream is less than
    [sqrt (2 / (3 (heat_rat - 1)))] (1.29 for air). *)
Theorem doublet_defined : forall d pos, gas_flow d -> off_center d pos -> radius d ^ 2 <= rel d pos 0 ^ 2 + rel d pos 1 ^ 2 ->
  let sound_speed_sq := heat_rat d * pressure (heat_rat d) (n_v d - 2) (freestream d) / freestream d (n_v d - 2)%nat in
  free_vel d 0 ^ 2 + free_vel d 1 ^ 2 < 2 / (3 * (heat_rat d - 1)) * sound_speed_sq ->
  exists s, doublet_at d pos = Ok (Some s) /\ 0 < s (n_v d - 2)%nat /\ 0 < pressure (heat_rat d) (n_v d - 2) s.
Proof.
  intros d pos (PL & G & M & P) NZ B c MA. apply (defined_main d pos PL NZ G M P B).
  unfold c in MA. rewrite (fs_pressure d PL M) in MA. fold (free_vel d 0) (free_vel d 1).
  apply (Rmult_lt_compat_l (3 * (heat_rat d - 1))) in MA; [|lra].
  replace (3 * (heat_rat d - 1) * (2 / (3 * (heat_rat d - 1)) * (heat_rat d * fs_pres d / freestream d (n_v d - 2)%nat))) with (2 * (heat_rat d * fs_pres d / freestream d (n_v d - 2)%nat)) in MA by (field; split; lra). exact MA.
Qed.
Print Assumptions doublet_defined.

(** Far away the state approaches the freestream (also with axial velocity). *)
Theorem doublet_far : forall d (pos s : nat -> nat -> R), (4 <= n_v d)%nat -> 1 < heat_rat d -> 0 < freestream d (n_v d - 2)%nat ->
  0 < pressure (heat_rat d) (n_v d - 2)%nat (freestream d) ->
  is_lim_seq (fun k => rel d (pos k) 0 ^ 2 + rel d (pos k) 1 ^ 2) p_infty ->
  (forall k, off_center d (pos k)) -> (forall k, doublet_at d (pos k) = Ok (Some (s k))) ->
  forall i, (i < n_v d)%nat -> is_lim_seq (fun k => s k i) (freestream d i).
Proof.
  intros d pos s NV G M P FAR NZ E. refine (far_main d NV G M _ pos FAR NZ s E).
  assert (FP : 0 < fs_pres d).
  { eapply Rlt_le_trans; [exact P|]. unfold pressure, fs_pres. apply Rmult_le_compat_l; [lra|]. replace (S (n_v d - 2)) with (n_v d - 1)%nat by lia.
    set (fm := freestream d (n_v d - 2)%nat) in *. apply Rplus_le_compat_l, Ropp_le_contravar.
    replace (1 / 2 * ((freestream d 0%nat / fm) ^ 2 + (freestream d 1%nat / fm) ^ 2) * fm) with ((freestream d 0%nat ^ 2 + freestream d 1%nat ^ 2) / fm / 2) by (field; lra).
    unfold Rdiv. apply Rmult_le_compat_r; [lra|]. apply Rmult_le_compat_r; [apply Rlt_le, Rinv_0_lt_compat; exact M|].
    replace (n_v d - 2)%nat with (2 + (n_v d - 4))%nat by lia. rewrite rsum_app. cbn [rsum].
    assert (0 <= rsum (n_v d - 4) (fun i => freestream d (2 + i)%nat ^ 2)) by (apply rsum_nonneg; intros; apply pow2_ge_0). lra. }
  assert (EQ : fs_enth d = heat_rat d / (heat_rat d - 1) * fs_pres d / freestream d (n_v d - 2)%nat).
  { unfold fs_enth, fs_stag. unfold fs_pres. field. split; lra. }
  rewrite EQ. apply Rdiv_lt_0_compat; [|exact M]. apply Rmult_lt_0_compat; [|exact FP]. apply Rdiv_lt_0_compat; lra.
Qed.
Print Assumptions doublet_far.

(** There is no one-dimensional doublet. *)
Theorem doublet_line : forall d pos, n_v d = 3%nat -> doublet_at d pos = Throw.
Proof. intros d pos E. unfold doublet_at, n_dim. rewrite E. reflexivity. Qed.
Print Assumptions doublet_line.

(** ** axial velocity *)
(** src/Spacetime_func.cpp:65: the axial component of the velocity does not affect the flow field; so the axial velocity is that of the
    freestream everywhere, since nothing accelerates the gas in that direction. *)
Definition axial_velocity_constant : Prop := forall d pos s, n_v d = 5%nat -> 1 < heat_rat d -> 0 < freestream d 3%nat -> 0 < pressure (heat_rat d) 3 (freestream d) ->
  off_center d pos -> doublet_at d pos = Ok (Some s) -> 0 < s 3%nat -> s 2%nat / s 3%nat = freestream d 2%nat / freestream d 3%nat.
(** The axial momentum is copied instead of the axial velocity. *)
Definition ex_axial : doublet := {| freestream := fun i => match i with 0 | 2 | 3 => 1 | 4 => 10 | _ => 0 end; n_v := 5; location := fun _ => 0; radius := 1; heat_rat := 2 |}.
Definition ex_front (i : nat) : R := if (i =? 0)%nat then -1 else 0.
Lemma ex_front_state : off_center ex_axial ex_front /\ exists s, doublet_at ex_axial ex_front = Ok (Some s) /\ s 0%nat = 0 /\ s 1%nat = 0 /\ s 2%nat = 1 /\ s 3%nat = 39 / 38.
Proof.
  assert (NZ : off_center ex_axial ex_front) by (left; cbn; lra). split; [exact NZ|].
  assert (NV : (4 <= n_v ex_axial)%nat) by (cbn; lia).
  assert (V0 : v0 ex_axial ex_front = 0) by (unfold v0, vel0, ex_front; cbn; field).
  assert (V1 : v1 ex_axial ex_front = 0) by (unfold v1, vel1, ex_front; cbn; field).
  assert (S : fs_stag ex_axial = 39 / 2) by (unfold fs_stag, fs_pres; cbn; field).
  assert (T : enth ex_axial ex_front / fs_enth ex_axial = 39 / 38) by (unfold enth, kin, fs_enth; rewrite V0, V1, S; cbn; field).
  assert (R : exists s, doublet_at ex_axial ex_front = Ok (Some s)).
  { rewrite (run_eq _ _ NV NZ), T. unfold power. destruct (Rlt_dec 0 (39 / 38)); [|lra]. eexists. reflexivity. }
  destruct R as [s E]. exists s. split; [exact E|]. destruct (run_state _ _ NV NZ s E) as (p & Ep & _ & E2 & E3 & E4 & E5).
  rewrite V0 in E3. rewrite V1 in E4. split; [rewrite E3; ring|]. split; [rewrite E4; ring|]. split; [rewrite E5 by (cbn; lia); reflexivity|].
  rewrite T in Ep. unfold power in Ep. destruct (Rlt_dec 0 (39 / 38)); [|lra]. injection Ep as <-. cbn in E2. rewrite E2.
  replace (1 / (2 - 1)) with 1 by field. rewrite Rpower_1 by lra. ring.
Qed.
Theorem doublet_axial_refuted : ~ axial_velocity_constant.
Proof.
  intros H. destruct ex_front_state as (NZ & s & E & _ & _ & E2 & E3). specialize (H ex_axial ex_front s eq_refl). cbn [heat_rat freestream ex_axial] in H.
  rewrite E2, E3 in H. assert (P : 0 < pressure 2 3 (freestream ex_axial)) by (unfold pressure; cbn; lra).
  specialize (H ltac:(lra) ltac:(lra) P NZ E ltac:(lra)). lra.
Qed.
Print Assumptions doublet_axial_refuted.
(** What holds: the axial momentum is that of the freestream, so the axial velocity is that of the freestream where the density is. *)
Theorem doublet_axial_partial : forall d pos s, n_v d = 5%nat -> off_center d pos -> doublet_at d pos = Ok (Some s) -> s 2%nat = freestream d 2%nat.
Proof.
  intros d pos s N NZ E. destruct (run_state d pos ltac:(lia) NZ s E) as (p & _ & _ & _ & _ & _ & E5). apply E5. lia.
Qed.
Print Assumptions doublet_axial_partial.

(** air at Mach 0.5 in two dimensions: the hypotheses hold, and the front of the cylinder is a stagnation point *)
Definition ex_air : doublet := {| freestream := fun i => match i with 0 => 7 / 10 | 2 => 14 / 10 | 3 => 5 / 2 + 7 / 40 | _ => 0 end; n_v := 4; location := fun _ => 0; radius := 1; heat_rat := 14 / 10 |}.
Example doublet_air : gas_flow ex_air /\ (exists s, doublet_at ex_air ex_front = Ok (Some s) /\ 0 < s 2%nat /\ s 0%nat = 0 /\ s 1%nat = 0 /\ total_enthalpy (14 / 10) 2 s = 21 / 8).
Proof.
  assert (GF : gas_flow ex_air).
  { split; [left; reflexivity|]. cbn [heat_rat n_v ex_air Nat.sub freestream]. split; [lra|]. split; [lra|]. unfold pressure. cbn. lra. }
  split; [exact GF|]. assert (NZ : off_center ex_air ex_front) by (left; cbn; lra).
  assert (D : exists s, doublet_at ex_air ex_front = Ok (Some s) /\ 0 < s 2%nat /\ 0 < pressure (heat_rat ex_air) 2 s).
  { apply (doublet_defined ex_air ex_front GF NZ); [unfold rel, ex_front; cbn; lra|]. change (n_v ex_air - 2)%nat with 2%nat. unfold free_vel, pressure. cbn. lra. }
  destruct D as (s & E & SM & _). exists s. split; [exact E|]. split; [exact SM|].
  destruct (run_state ex_air ex_front ltac:(cbn; lia) NZ s E) as (p & _ & _ & _ & E3 & E4 & _).
  assert (V0 : v0 ex_air ex_front = 0) by (unfold v0, vel0, ex_front; cbn; field).
  assert (V1 : v1 ex_air ex_front = 0) by (unfold v1, vel1, ex_front; cbn; field).
  split; [rewrite E3, V0; ring|]. split; [rewrite E4, V1; ring|].
  destruct (doublet_thermodynamics ex_air ex_front s GF NZ E SM) as [H _]. cbv zeta in H. change (n_v ex_air - 2)%nat with 2%nat in H. cbn [heat_rat ex_air] in H. rewrite H.
  unfold total_enthalpy, pressure. cbn. field.
Qed.
