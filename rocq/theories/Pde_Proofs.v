(** Proofs about the Euler equations. *)
From Coq Require Import Reals Arith Lia Lra Psatz.
From Coquelicot Require Import Coquelicot.
From Verif Require Import RSum GeomPred_Model GeomPred_Spec GeomPred_Proofs Simplex_Proofs Pde_Model Pde_Spec.
Local Open Scope R_scope.

Lemma pressure_eq n s : s n <> 0 -> pressure n s = euler_pressure n s.
Proof. intros M. unfold pressure, euler_pressure, kin_ener, heat_rat. field. exact M. Qed.
Lemma flux_eq n s m k : s n <> 0 -> flux_conv n s m k = euler_flux n m s k.
Proof.
  intros M. unfold flux_conv, euler_flux, normal_velocity. rewrite pressure_eq by exact M. destruct (k <? n)%nat; [reflexivity|]. destruct (k =? n)%nat; [field; exact M|reflexivity].
Qed.

(** ** Derivative of the flux *)
Lemma rsum_line n s d t : rsum n (fun i => (s i + t * d i) * (s i + t * d i)) = rsum n (fun i => s i * s i) + 2 * t * rsum n (fun i => s i * d i) + t * t * rsum n (fun i => d i * d i).
Proof. rewrite <- !rsum_scal, <- !rsum_plus. apply rsum_ext. intros. ring. Qed.
Lemma rsum_line_normal n s d m t : rsum n (fun i => (s i + t * d i) * m i) = rsum n (fun i => s i * m i) + t * rsum n (fun i => d i * m i).
Proof. rewrite <- !rsum_scal, <- !rsum_plus. apply rsum_ext. intros. ring. Qed.

Section direction.
  Context (n : nat) (s d m : nat -> R) (beta gamma e1 : R) (w : nat -> R).
  Let M := s n.
  Let u := normal_velocity n s m.
  Let K := rsum n (fun i => s i * s i).
  Let P := rsum n (fun i => s i * m i).
  Let W := rsum n (fun i => s i * w i).
  Hypothesis mass : 0 < M.
  Hypothesis unit : unit_vector n m.
  Hypothesis ortho : rsum n (fun i => w i * m i) = 0.
  Hypothesis Hmom : forall k, (k < n)%nat -> d k = beta * (s k / M) + gamma * m k + w k.
  Hypothesis Hmass : d n = beta.
  Hypothesis Hener : d (n + 1)%nat = beta * e1 + gamma * u + W / M.

  Lemma dm : rsum n (fun i => d i * m i) = beta * u + gamma.
  Proof using Hmom mass ortho unit.
    rewrite (rsum_ext n _ (fun i => (beta / M * (s i * m i) + gamma * (m i * m i)) + w i * m i)) by (intros i I; rewrite Hmom by exact I; field; lra).
    rewrite !rsum_plus, !rsum_scal, ortho, unit. unfold u, normal_velocity. fold M. field. lra.
  Qed.
  Lemma sd : rsum n (fun i => s i * d i) = beta * (K / M) + gamma * P + W.
  Proof using Hmom mass.
    rewrite (rsum_ext n _ (fun i => (beta / M * (s i * s i) + gamma * (s i * m i)) + s i * w i)) by (intros i I; rewrite Hmom by exact I; field; lra).
    rewrite !rsum_plus, !rsum_scal. unfold K, P, W. field. lra.
  Qed.
  Let C := rsum n (fun i => d i * d i).
  Lemma press_line t : euler_pressure n (fun i => s i + t * d i) = 2 / 5 * (s (n + 1)%nat + t * d (n + 1)%nat - (K + 2 * t * (beta * (K / M) + gamma * P + W) + t * t * C) / (2 * (M + t * beta))).
  Proof using Hmom Hmass mass. unfold euler_pressure. rewrite rsum_line, sd, Hmass. reflexivity. Qed.
  Lemma vel_line t : normal_velocity n (fun i => s i + t * d i) m = (P + t * (beta * u + gamma)) / (M + t * beta).
  Proof using Hmom Hmass mass ortho unit. unfold normal_velocity. rewrite rsum_line_normal, dm, Hmass. reflexivity. Qed.

  Lemma flux_derivative k : (k < n + 2)%nat -> derivable_pt_lim (fun t => euler_flux n m (fun i => s i + t * d i) k) 0
    (if (k <? n)%nat then u * d k + gamma * (s k / M) + 2 / 5 * beta * (e1 - K / (2 * M * M)) * m k
     else if (k =? n)%nat then beta * u + gamma
     else (d (n + 1)%nat + 2 / 5 * beta * (e1 - K / (2 * M * M))) * u + (s (n + 1)%nat + euler_pressure n s) * (gamma / M)).
  Proof using Hmom Hmass Hener mass ortho unit.
    intros _. assert (U : u = P / M) by reflexivity. apply is_derive_Reals. unfold euler_flux. destruct (k <? n)%nat.
    - apply is_derive_ext with (fun t => (s k + t * d k) * ((P + t * (beta * u + gamma)) / (M + t * beta)) +
        2 / 5 * (s (n + 1)%nat + t * d (n + 1)%nat - (K + 2 * t * (beta * (K / M) + gamma * P + W) + t * t * C) / (2 * (M + t * beta))) * m k).
      { intros t. now rewrite press_line, vel_line. }
      auto_derive; [repeat split; lra|]. rewrite Hener, U. field. lra.
    - destruct (k =? n)%nat.
      + apply is_derive_ext with (fun t => (M + t * beta) * ((P + t * (beta * u + gamma)) / (M + t * beta))).
        { intros t. now rewrite vel_line, Hmass. }
        auto_derive; [repeat split; lra|]. rewrite U. field. lra.
      + apply is_derive_ext with (fun t => (s (n + 1)%nat + t * d (n + 1)%nat + 2 / 5 * (s (n + 1)%nat + t * d (n + 1)%nat - (K + 2 * t * (beta * (K / M) + gamma * P + W) + t * t * C) / (2 * (M + t * beta)))) *
          ((P + t * (beta * u + gamma)) / (M + t * beta))).
        { intros t. now rewrite press_line, vel_line. }
        auto_derive; [repeat split; lra|]. unfold euler_pressure. fold K M. rewrite Hener, U. field. lra.
  Qed.
End direction.

(** ** Characteristics *)
Section characteristics.
  Context (n : nat) (solve : (nat -> nat -> R) -> (nat -> R) -> nat -> R) (s direction : nat -> R).
  Hypothesis admis : admissible_state n s.
  Hypothesis nonzero : 0 < sqnorm n direction.
  Hypothesis solver : solves_regular solve.
  Let ch := make_chars n s direction.
  Let m := dir ch.
  Let M := s n.
  Let u := normal_velocity n s m.
  Let c := sound_speed n s.
  Let p := euler_pressure n s.
  Let K := rsum n (fun i => s i * s i).
  Lemma M_pos : 0 < M. Proof. apply admis. Qed.
  Lemma p_pos : 0 < p. Proof. unfold p, euler_pressure. destruct admis. lra. Qed.
  Lemma c_sq : c * c = 7 / 5 * p / M.
  Proof. unfold c, sound_speed. apply sqrt_sqrt. pose proof M_pos. pose proof p_pos. fold p M. apply Rmult_le_pos; [lra|]. left. now apply Rinv_0_lt_compat. Qed.
  Lemma c_pos : 0 < c.
  Proof. unfold c, sound_speed. apply sqrt_lt_R0. pose proof M_pos. pose proof p_pos. fold p M. apply Rmult_lt_0_compat; [lra|]. now apply Rinv_0_lt_compat. Qed.
  Lemma dir_unit : unit_vector n m.
  Proof.
    unfold unit_vector, m, ch. cbn [dir make_chars]. pose proof (sqrt_lt_R0 _ nonzero) as D. rewrite (rsum_ext n _ (fun i => / sqnorm n direction * (direction i * direction i))).
    - rewrite rsum_scal. change (rsum n (fun i => direction i * direction i)) with (sqnorm n direction). apply Rinv_l. lra.
    - intros i _. rewrite <- (sqrt_sqrt (sqnorm n direction)) at 3 by lra. field. lra.
  Qed.
  Lemma pres_eq : 4 / 10 * (s (n + 1)%nat - / 2 * M * sqnorm n (veloc ch)) = p.
  Proof.
    pose proof M_pos. unfold p, euler_pressure. cbn [veloc ch make_chars]. unfold ch, sqnorm, dot. cbn [veloc make_chars]. fold M.
    rewrite (rsum_ext n _ (fun i => / (M * M) * (s i * s i))) by (intros; field; lra). rewrite rsum_scal. fold K. field. lra.
  Qed.
  Lemma vsq_eq : sqnorm n (veloc ch) = K / (M * M).
  Proof.
    pose proof M_pos. unfold ch, sqnorm, dot. cbn [veloc make_chars]. fold M.
    rewrite (rsum_ext n _ (fun i => / (M * M) * (s i * s i))) by (intros; field; lra). rewrite rsum_scal. fold K. field. lra.
  Qed.
  Lemma c_eq : sqrt (14 / 10 * Rmax (4 / 10 * (s (n + 1)%nat - / 2 * s n * sqnorm n (fun i => s i / s n))) 0 / s n) = c.
  Proof.
    pose proof pres_eq as PE. unfold ch in PE. cbn [veloc make_chars] in PE. fold M in PE. fold M. rewrite PE. unfold c, sound_speed. fold p M. rewrite Rmax_left by (left; exact p_pos). f_equal. field. pose proof M_pos. lra.
  Qed.
  Lemma nv_eq : dot n (dir ch) (veloc ch) = u.
  Proof.
    unfold u, normal_velocity, dot. unfold Rdiv. rewrite <- rsum_scal_r. apply rsum_ext. intros i _. unfold m, ch. cbn [veloc make_chars]. unfold Rdiv. ring.
  Qed.
  Lemma vals_eq : vals ch 0%nat = u - c /\ vals ch 1%nat = u + c /\ vals ch 2%nat = u.
  Proof.
    pose proof nv_eq as NV. unfold ch in *. cbn [vals dir veloc make_chars] in *. rewrite c_eq, NV. auto.
  Qed.
  Definition sgn (j : nat) : R := match j with 0%nat => -1 | 1%nat => 1 | _ => 0 end.
  Definition h (j : nat) : R := match j with 0%nat | 1%nat => 7 / 2 * p / M + K / (2 * M * M) | _ => K / (2 * M * M) end.
  Lemma vecs_eq j : (j < 3)%nat -> vecs ch 0%nat j = u + sgn j * c /\ vecs ch 1%nat j = 1 /\ vecs ch 2%nat j = h j + sgn j * c * u.
  Proof.
    intros J. pose proof nv_eq as NV. pose proof vsq_eq as VS. pose proof pres_eq as PE. pose proof M_pos as MP. unfold ch in *. cbn [vecs dir veloc make_chars] in *. rewrite c_eq. fold M in NV, VS, PE |- *. rewrite NV, VS in *. rewrite PE.
    destruct j as [|[|[|j]]]; [| | |lia]; cbn [sgn h INR]; (split; [|split]); try field; lra.
  Qed.
  Lemma det_nonzero : det3 (vecs ch) <> 0.
  Proof.
    pose proof M_pos as MP. pose proof p_pos as PP. pose proof c_pos as CP. unfold det3. destruct (vecs_eq 0%nat ltac:(lia)) as (-> & -> & ->). destruct (vecs_eq 1%nat ltac:(lia)) as (-> & -> & ->). destruct (vecs_eq 2%nat ltac:(lia)) as (-> & -> & ->).
    cbn [sgn h]. match goal with |- ?x <> 0 => replace x with (7 * c * (p / M)) by (field; lra) end.
    assert (0 < p / M) by (apply Rmult_lt_0_compat; [exact PP|now apply Rinv_0_lt_compat]). assert (0 < c * (p / M)) by (now apply Rmult_lt_0_compat). lra.
  Qed.

  Context (x : nat -> R).
  Let mc := fun i => tang n ch x i - x n * tang n ch (veloc ch) i.
  Let sol := solve (vecs ch) (fun i => match i with 0%nat => nrml n ch x | 1%nat => x n | _ => x (n + 1)%nat - dot n (veloc ch) mc end).
  Let d := decomp n solve ch x.
  Lemma decomp_eq k j : (j < 3)%nat -> d k j = if (k <? n)%nat then m k * (vecs ch 0%nat j * sol j) + tang n ch (veloc ch) k * sol j + (if (j =? 2)%nat then mc k else 0)
    else if (k =? n)%nat then vecs ch 1%nat j * sol j else vecs ch 2%nat j * sol j + (if (j =? 2)%nat then dot n (veloc ch) mc else 0).
  Proof. intros _. reflexivity. Qed.
  Lemma sol_eq i : (i < 3)%nat -> vecs ch i 0%nat * sol 0%nat + vecs ch i 1%nat * sol 1%nat + vecs ch i 2%nat * sol 2%nat = match i with 0%nat => nrml n ch x | 1%nat => x n | _ => x (n + 1)%nat - dot n (veloc ch) mc end.
  Proof. intros I. pose proof (solver (vecs ch) (fun i => match i with 0%nat => nrml n ch x | 1%nat => x n | _ => x (n + 1)%nat - dot n (veloc ch) mc end) det_nonzero i I) as E. cbn [rsum] in E. rewrite Rplus_0_l in E. exact E. Qed.
  Lemma decomp_sum k : (k < n + 2)%nat -> d k 0%nat + d k 1%nat + d k 2%nat = x k.
  Proof.
    intros KL. pose proof (sol_eq 0%nat ltac:(lia)) as E0. pose proof (sol_eq 1%nat ltac:(lia)) as E1. pose proof (sol_eq 2%nat ltac:(lia)) as E2. cbn beta iota in E0, E1, E2.
    assert (S1 : sol 0%nat + sol 1%nat + sol 2%nat = x n).
    { destruct (vecs_eq 0%nat ltac:(lia)) as (_ & V0 & _). destruct (vecs_eq 1%nat ltac:(lia)) as (_ & V1 & _). destruct (vecs_eq 2%nat ltac:(lia)) as (_ & V2 & _). rewrite V0, V1, V2 in E1. lra. }
    rewrite !decomp_eq by lia. cbn [Nat.eqb]. destruct (Nat.ltb_spec k n).
    - transitivity (m k * (vecs ch 0%nat 0%nat * sol 0%nat + vecs ch 0%nat 1%nat * sol 1%nat + vecs ch 0%nat 2%nat * sol 2%nat) + tang n ch (veloc ch) k * (sol 0%nat + sol 1%nat + sol 2%nat) + mc k); [ring|].
      rewrite E0, S1. unfold mc. unfold tang at 2. fold m. ring.
    - destruct (Nat.eqb_spec k n) as [->|NE]; [exact E1|]. replace k with (n + 1)%nat by lia. lra.
  Qed.
  Lemma tang_ortho y : rsum n (fun i => tang n ch y i * m i) = 0.
  Proof.
    unfold tang. fold m. rewrite (rsum_ext n _ (fun i => m i * y i - nrml n ch y * (m i * m i))) by (intros; ring). rewrite rsum_minus, rsum_scal. rewrite dir_unit. unfold nrml, dot. fold m. ring.
  Qed.
  Lemma decomp_eigen j : (j < 3)%nat -> jacobian_eigenvector n (euler_flux n m) s (fun k => d k j) (vals ch j).
  Proof.
    intros J k KL. pose proof M_pos as MP. pose proof p_pos as PP. destruct (vecs_eq j J) as (V0 & V1 & V2). pose proof vals_eq as (L0 & L1 & L2). pose proof c_sq as CS.
    set (w := fun i => if (j =? 2)%nat then mc i else 0).
    assert (OW : rsum n (fun i => w i * m i) = 0).
    { unfold w. destruct (j =? 2)%nat.
      - unfold mc. rewrite (rsum_ext n _ (fun i => tang n ch x i * m i - x n * (tang n ch (veloc ch) i * m i))) by (intros; ring). rewrite rsum_minus, rsum_scal, !tang_ortho. ring.
      - rewrite (rsum_ext n _ (fun _ => 0)) by (intros; ring). apply rsum_0. }
    assert (E0 : forall k, (k < n)%nat -> d k j = sol j * (s k / s n) + sol j * sgn j * c * m k + w k).
    { intros k' K'. rewrite decomp_eq by exact J. replace (k' <? n)%nat with true by (symmetry; now apply Nat.ltb_lt). rewrite V0. unfold tang, nrml. rewrite nv_eq. fold m.
      replace (veloc ch k') with (s k' / M) by reflexivity. fold M. unfold w. ring. }
    assert (E1 : d n j = sol j). { rewrite decomp_eq by exact J. rewrite Nat.ltb_irrefl, Nat.eqb_refl, V1. ring. }
    assert (E2 : d (n + 1)%nat j = sol j * h j + sol j * sgn j * c * normal_velocity n s m + rsum n (fun i => s i * w i) / s n).
    { rewrite decomp_eq by exact J. replace (n + 1 <? n)%nat with false by (symmetry; apply Nat.ltb_ge; lia). replace (n + 1 =? n)%nat with false by (symmetry; apply Nat.eqb_neq; lia). rewrite V2. fold u.
      assert (DW : (if (j =? 2)%nat then dot n (veloc ch) mc else 0) = rsum n (fun i => s i * w i) / s n).
      { unfold w. destruct (j =? 2)%nat.
        - unfold dot, Rdiv. rewrite <- rsum_scal_r. apply rsum_ext. intros i _. unfold ch at 1. cbn [veloc make_chars]. unfold Rdiv. ring.
        - rewrite (rsum_ext n _ (fun _ => 0)) by (intros; ring). rewrite rsum_0. field. fold M. lra. }
      rewrite DW. ring. }
    pose proof (flux_derivative n s (fun k => d k j) m (sol j) (sol j * sgn j * c) (h j) w MP dir_unit OW E0 E1 E2 k KL) as FD. cbn beta in FD. fold u K M p in FD.
    assert (LJ : vals ch j = u + sgn j * c). { destruct j as [|[|[|j]]]; [| | |lia]; cbn [sgn]; [rewrite L0|rewrite L1|rewrite L2]; ring. }
    assert (HJ : 2 / 5 * (h j - K / (2 * M * M)) = sgn j * sgn j * (c * c)). { rewrite CS. destruct j as [|[|[|j]]]; [| | |lia]; cbn [sgn h]; field; lra. }
    assert (W0 : sgn j * c * w k = 0). { unfold w. destruct j as [|[|[|j]]]; [| | |lia]; cbn [sgn Nat.eqb]; ring. }
    assert (WS : sgn j * c * (rsum n (fun i => s i * w i) / M) = 0).
    { unfold w. destruct j as [|[|[|j]]]; [| | |lia]; cbn [sgn Nat.eqb]; [| |ring]; rewrite (rsum_ext n _ (fun _ => 0)) by (intros; ring); rewrite rsum_0; field; lra. }
    assert (HS : sgn j * (s (n + 1)%nat + p) / M = sgn j * h j).
    { assert (EE : s (n + 1)%nat = 5 / 2 * p + K / (2 * M)) by (unfold p, euler_pressure; fold K M; field; lra). rewrite EE. destruct j as [|[|[|j]]]; [| | |lia]; cbn [sgn h]; field; lra. }
    match type of FD with derivable_pt_lim _ _ ?a => replace (vals ch j * d k j) with a; [exact FD|] end. rewrite LJ. clear FD.
    destruct (Nat.ltb_spec k n) as [KN|KN].
    - transitivity (u * d k j + sol j * sgn j * c * (s k / M) + sol j * (2 / 5 * (h j - K / (2 * M * M))) * m k); [ring|]. rewrite HJ. rewrite E0 by exact KN. fold M.
      transitivity ((u + sgn j * c) * (sol j * (s k / M) + sol j * sgn j * c * m k + w k) - sgn j * c * w k); [ring|]. rewrite W0. ring.
    - destruct (Nat.eqb_spec k n) as [->|NE]; [rewrite E1; ring|]. replace k with (n + 1)%nat by lia.
      transitivity ((d (n + 1)%nat j + sol j * (2 / 5 * (h j - K / (2 * M * M)))) * u + sol j * c * (sgn j * (s (n + 1)%nat + p) / M)); [field; lra|]. rewrite HJ, HS, E2. fold u M.
      transitivity ((u + sgn j * c) * (sol j * h j + sol j * sgn j * c * u + rsum n (fun i => s i * w i) / M) - sgn j * c * (rsum n (fun i => s i * w i) / M)); [ring|]. rewrite WS. ring.
  Qed.
End characteristics.

(** ** Characteristic speed *)
Lemma speed_bound n s m : admissible_state n s -> unit_vector n m -> Rabs (normal_velocity n s m) + sound_speed n s <= char_speed n s.
Proof.
  intros [M P] U. unfold char_speed, normal_velocity, sound_speed. rewrite Rplus_comm. apply Rplus_le_compat.
  - apply sqrt_le_1_alt. unfold heat_rat, euler_pressure. assert (MI : 0 < / s n) by (now apply Rinv_0_lt_compat). unfold Rdiv. apply Rmult_le_compat_r; [lra|].
    assert (0 <= rsum n (fun i => s i * s i) * / (2 * s n)); [|lra]. apply Rmult_le_pos; [apply (sqnorm_nonneg n s)|left; apply Rinv_0_lt_compat; lra].
  - unfold Rdiv. rewrite Rabs_mult. assert (MI : 0 < / s n) by (now apply Rinv_0_lt_compat). rewrite (Rabs_right (/ s n)) by lra. apply Rmult_le_compat_r; [lra|].
    pose proof (cauchy n s m) as C. change (rsum n (fun i => s i * m i)) with (dot n s m). change (sqnorm n m) with (rsum n (fun i => m i * m i)) in C. rewrite U, Rmult_1_r in C.
    rewrite <- sqrt_Rsqr_abs. apply sqrt_le_1_alt. exact C.
Qed.
