(** C25, C55: characteristics of the Euler equations. *)
From Coq Require Import Reals Arith Lra Lia.
From Verif Require Import RSum GeomPred_Model Pde_Model Pde_Spec Pde_Proofs.
Local Open Scope R_scope.

(** [flux_conv] is the Euler flux. *)
Theorem pde_flux : forall n s m k, admissible_state n s -> flux_conv n s m k = euler_flux n m s k.
Proof. intros n s m k [M _]. apply flux_eq. lra. Qed.
Print Assumptions pde_flux.

(** C25: for every dimension, admissible state, nonzero direction and decomposed vector [x]: the direction is the unit
    vector along [direction]; the eigenvalues are [u - c, u + c, u]; the columns of the decomposition sum to [x]; each column
    is an eigenvector of the Jacobian of the flux through the direction, for its eigenvalue. *)
Theorem pde_characteristics : forall n solve s direction x,
  admissible_state n s -> 0 < rsum n (fun i => direction i * direction i) -> solves_regular solve ->
  let ch := make_chars n s direction in
  unit_vector n (dir ch) /\ (forall i, direction i = sqrt (rsum n (fun i => direction i * direction i)) * dir ch i) /\
  (let u := normal_velocity n s (dir ch) in let c := sound_speed n s in 0 < c /\ vals ch 0%nat = u - c /\ vals ch 1%nat = u + c /\ vals ch 2%nat = u) /\
  (forall k, (k < n + 2)%nat -> decomp n solve ch x k 0%nat + decomp n solve ch x k 1%nat + decomp n solve ch x k 2%nat = x k) /\
  (forall j, (j < 3)%nat -> jacobian_eigenvector n (euler_flux n (dir ch)) s (fun k => decomp n solve ch x k j) (vals ch j)).
Proof.
  intros n solve s direction x A NZ SV ch. split; [now apply dir_unit|]. split.
  { intros i. unfold ch. cbn [dir make_chars]. change (sqnorm n direction) with (rsum n (fun i => direction i * direction i)). field. pose proof (sqrt_lt_R0 _ NZ). lra. }
  split; [split; [now apply c_pos|now apply vals_eq]|]. split; [intros; now apply decomp_sum|intros; now apply decomp_eigen].
Qed.
Print Assumptions pde_characteristics.

(** C55: the characteristic speed used for the time step and the numerical flux bounds the absolute values of all the
    eigenvalues of the flux in every direction. *)
Theorem pde_speed : forall n s direction j,
  admissible_state n s -> 0 < rsum n (fun i => direction i * direction i) -> (j < 3)%nat ->
  Rabs (vals (make_chars n s direction) j) <= char_speed n s.
Proof.
  intros n s direction j A NZ J. pose proof (dir_unit n s direction NZ) as U. destruct (vals_eq n s direction A) as (V0 & V1 & V2). pose proof (c_pos n s A) as CP.
  pose proof (speed_bound n s _ A U) as B. revert B. set (u := normal_velocity n s _) in *. set (c := sound_speed n s) in *. intros B.
  destruct j as [|[|[|j]]]; [rewrite V0|rewrite V1|rewrite V2|lia]; revert B; unfold Rabs; repeat destruct Rcase_abs; lra.
Qed.
Print Assumptions pde_speed.

(** Cramer's rule *)
Definition replaced (M : nat -> nat -> R) (b : nat -> R) (j : nat) : nat -> nat -> R := fun r c => if (c =? j)%nat then b r else M r c.
Definition cramer (M : nat -> nat -> R) (b : nat -> R) : nat -> R := fun j => det3 (replaced M b j) / det3 M.
Lemma cramer_solves : solves_regular cramer.
Proof. intros M b D i I. destruct i as [|[|[|i]]]; [| | |lia]; unfold cramer, replaced; cbn [rsum Nat.eqb]; unfold det3 in *; cbn [Nat.eqb]; field; exact D. Qed.

(** A gas at rest in one dimension of sound speed 1: a disturbance of the density alone is carried with eigenvalue 0; a
    disturbance of the momentum splits in equal halves travelling with speeds 1 and -1. *)
Definition still : nat -> R := fun k => match k with 0%nat => 0 | 1%nat => 7 / 5 | _ => 5 / 2 end.
Definition right : nat -> R := fun _ => 2.
Lemma still_direction i : dir (make_chars 1 still right) i = 1.
Proof. cbn [dir make_chars]. unfold sqnorm, dot, right. cbn [rsum]. replace (0 + 2 * 2) with (2 * 2) by ring. rewrite sqrt_square by lra. field. Qed.
Lemma still_sound : sound_speed 1 still = 1.
Proof. unfold sound_speed, euler_pressure, still. cbn [rsum Nat.add]. replace (7 / 5 * (2 / 5 * (5 / 2 - (0 + 0 * 0) / (2 * (7 / 5)))) / (7 / 5)) with (1 * 1) by field. apply sqrt_square. lra. Qed.
Lemma still_admissible : admissible_state 1 still.
Proof. unfold admissible_state, still. cbn [rsum Nat.add]. lra. Qed.
Example pde_characteristics_example :
  let ch := make_chars 1 still right in
  admissible_state 1 still /\ vals ch 0%nat = -1 /\ vals ch 1%nat = 1 /\ vals ch 2%nat = 0 /\
  (let x := fun k => match k with 0%nat => 4 | _ => 0 end in decomp 1 cramer ch x 0%nat 0%nat = 2 /\ decomp 1 cramer ch x 0%nat 1%nat = 2 /\ decomp 1 cramer ch x 0%nat 2%nat = 0) /\
  (let x := fun k => match k with 1%nat => 3 | _ => 0 end in decomp 1 cramer ch x 1%nat 0%nat = 0 /\ decomp 1 cramer ch x 1%nat 2%nat = 3) /\
  char_speed 1 still = 1.
Proof.
  intros ch. pose proof still_admissible as A. split; [exact A|]. destruct (vals_eq 1 still right A) as (V0 & V1 & V2). rewrite still_sound in V0, V1.
  assert (U : normal_velocity 1 still (dir (make_chars 1 still right)) = 0) by (unfold normal_velocity, still; cbn [rsum]; lra). rewrite U in V0, V1, V2.
  assert (NZ : 0 < sqnorm 1 right) by (unfold sqnorm, dot, right; cbn [rsum]; lra).
  assert (VE : forall j, (j < 3)%nat -> vecs ch 0%nat j = sgn j /\ vecs ch 1%nat j = 1 /\ vecs ch 2%nat j = match j with 0%nat | 1%nat => 5 / 2 | _ => 0 end).
  { intros j J. destruct (vecs_eq 1 still right A j J) as (E0 & E1 & E2). rewrite U, still_sound in E0, E2. fold ch in E0, E1, E2. rewrite E0, E1, E2. unfold h, euler_pressure, still. cbn [rsum Nat.add]. destruct j as [|[|[|j]]]; [| | |lia]; cbn [sgn]; (split; [|split]); lra. }
  split; [unfold ch; lra|]. split; [unfold ch; lra|]. split; [unfold ch; lra|].
  pose proof (VE 0%nat ltac:(lia)) as (A0 & A1 & A2). pose proof (VE 1%nat ltac:(lia)) as (B0 & B1 & B2). pose proof (VE 2%nat ltac:(lia)) as (C0 & C1 & C2). cbn [sgn] in *.
  assert (D : forall i, dir ch i = 1) by (intros i; apply still_direction).
  assert (VL : forall i, (i < 1)%nat -> veloc ch i = 0) by (intros i I; replace i with 0%nat by lia; unfold ch; cbn [veloc make_chars]; unfold still; lra).
  assert (ND : det3 (vecs ch) = 5) by (unfold det3; rewrite A0, A1, A2, B0, B1, B2, C0, C1, C2; field).
  assert (VV : veloc ch 0%nat = 0) by (apply VL; lia).
  split; [|split].
  - unfold decomp, cramer. rewrite !ND. unfold det3, replaced. cbn [Nat.eqb Nat.ltb Nat.leb]. rewrite ?A0, ?A1, ?A2, ?B0, ?B1, ?B2, ?C0, ?C1, ?C2, ?D. unfold nrml, tang, nrml, dot. cbn [rsum Nat.add]. rewrite ?D, ?VV. lra.
  - unfold decomp, cramer. rewrite !ND. unfold det3, replaced. cbn [Nat.eqb Nat.ltb Nat.leb]. rewrite ?A0, ?A1, ?A2, ?B0, ?B1, ?B2, ?C0, ?C1, ?C2, ?D. unfold nrml, tang, nrml, dot. cbn [rsum Nat.add]. rewrite ?D, ?VV. lra.
  - unfold char_speed, heat_rat, sqnorm, dot, still. cbn [rsum Nat.add]. replace (0 + 0 * 0) with 0 by ring. rewrite sqrt_0. replace (14 / 10 * (14 / 10 - 1) * (5 / 2) / (7 / 5)) with 1 by field. rewrite sqrt_1. lra.
Qed.
