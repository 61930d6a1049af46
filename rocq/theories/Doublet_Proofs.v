(** Proofs about the flow around a cylinder. *)
From Coq Require Import Reals Arith Lia Lra.
From Verif Require Import Outcome RSum Doublet_Model Doublet_Spec.
Open Scope R_scope.

Lemma sqrt_hyp x y : x <> 0 -> sqrt (x * x + y * y) = Rabs x * sqrt (1 + (y / x) ^ 2).
Proof.
  intros N. replace (x * x + y * y) with ((x * x) * (1 + (y / x) ^ 2)) by (field; exact N).
  rewrite sqrt_mult by nra. f_equal. replace (x * x) with (x ^ 2) by ring. rewrite <- Rsqr_pow2. apply sqrt_Rsqr_abs.
Qed.
Lemma cos_atan' x : cos (atan x) = 1 / sqrt (1 + x ^ 2).
Proof. rewrite cos_atan. now rewrite Rsqr_pow2. Qed.
Lemma sin_atan' x : sin (atan x) = x / sqrt (1 + x ^ 2).
Proof. rewrite sin_atan. now rewrite Rsqr_pow2. Qed.
Lemma root_pos x : 0 < sqrt (1 + x ^ 2).
Proof. apply sqrt_lt_R0. nra. Qed.

Lemma atan2_spec y x : sqrt (x * x + y * y) * cos (atan2 y x) = x /\ sqrt (x * x + y * y) * sin (atan2 y x) = y.
Proof.
  unfold atan2. destruct (Rlt_dec 0 x) as [P|P]; [|destruct (Rlt_dec x 0) as [N|N]].
  - rewrite sqrt_hyp by lra. rewrite cos_atan', sin_atan', Rabs_pos_eq by lra. pose proof (root_pos (y / x)). split; field; lra.
  - rewrite sqrt_hyp by lra. rewrite Rabs_left by lra. pose proof (root_pos (y / x)).
    destruct (Rle_dec 0 y).
    + rewrite neg_cos, neg_sin. rewrite cos_atan', sin_atan'. split; field; lra.
    + unfold Rminus. rewrite cos_plus, sin_plus, cos_neg, sin_neg, cos_PI, sin_PI, cos_atan', sin_atan'. split; field; lra.
  - assert (x = 0) by lra. subst x. replace (0 * 0 + y * y) with (y ^ 2) by ring. rewrite <- Rsqr_pow2, sqrt_Rsqr_abs.
    destruct (Rlt_dec 0 y); [rewrite Rabs_pos_eq by lra; rewrite cos_PI2, sin_PI2; lra|].
    destruct (Rlt_dec y 0); [rewrite Rabs_left by lra; rewrite cos_neg, sin_neg, cos_PI2, sin_PI2; lra|].
    assert (y = 0) by lra. subst y. rewrite Rabs_R0. lra.
Qed.

(** the velocity in closed form *)
Definition vel0 (vx vy r2 x y : R) : R := let q := x ^ 2 + y ^ 2 in vx - r2 / q * ((x ^ 2 - y ^ 2) * vx + 2 * x * y * vy) / q.
Definition vel1 (vx vy r2 x y : R) : R := let q := x ^ 2 + y ^ 2 in vy - r2 / q * (2 * x * y * vx - (x ^ 2 - y ^ 2) * vy) / q.

Lemma hyp_pos x y : (x <> 0 \/ y <> 0) -> 0 < x ^ 2 + y ^ 2.
Proof. intros H. destruct H as [H|H]; pose proof (Rsqr_pos_lt _ H) as P; unfold Rsqr in P; nra. Qed.

Lemma polar vx vy r x y : (x <> 0 \/ y <> 0) ->
  let V := sqrt (0 + vx * vx + vy * vy) in let al := atan2 vy vx in
  let m := sqrt (x * x + y * y) in let th := atan2 y x in let k := r * r / (m * m) in
  let vr := (1 - k) * V * cos (th - al) in let vt := - (1 + k) * V * sin (th - al) in
  vr * cos th - vt * sin th = vel0 vx vy (r ^ 2) x y /\ vr * sin th + vt * cos th = vel1 vx vy (r ^ 2) x y /\
  V * V = vx ^ 2 + vy ^ 2 /\ m * m = x ^ 2 + y ^ 2.
Proof.
  intros NZ V al m th k vr vt. pose proof (hyp_pos x y NZ) as P.
  assert (M2 : m * m = x ^ 2 + y ^ 2) by (unfold m; rewrite sqrt_sqrt by nra; ring).
  assert (V2 : V * V = vx ^ 2 + vy ^ 2) by (unfold V; rewrite sqrt_sqrt by nra; ring).
  destruct (atan2_spec vy vx) as [A B]. destruct (atan2_spec y x) as [C D].
  fold al in A, B. fold th m in C, D. replace (vx * vx + vy * vy) with (0 + vx * vx + vy * vy) in A, B by ring. fold V in A, B.
  assert (MP : m <> 0) by (intros Z; rewrite Z in M2; nra).
  assert (CT : cos th = x / m) by (rewrite <- C; field; exact MP). assert (ST : sin th = y / m) by (rewrite <- D; field; exact MP).
  assert (E1 : V * cos (th - al) = (vx * x + vy * y) / m) by (rewrite cos_minus, CT, ST, <- A, <- B; field; exact MP).
  assert (E2 : V * sin (th - al) = (vx * y - vy * x) / m) by (rewrite sin_minus, CT, ST, <- A, <- B; field; exact MP).
  set (c := cos th) in *. set (sn := sin th) in *. assert (U : c * c + sn * sn = 1).
  { rewrite CT, ST. apply (Rmult_eq_reg_r (m * m)); [|nra]. field_simplify; [|exact MP..]. lra. }
  assert (X : x = m * c) by lra. assert (Y : y = m * sn) by lra.
  assert (F0 : vel0 vx vy (r ^ 2) x y = vx - k * ((c * c - sn * sn) * vx + 2 * c * sn * vy)).
  { unfold vel0, k. cbv zeta. rewrite <- M2, X, Y. field. exact MP. }
  assert (F1 : vel1 vx vy (r ^ 2) x y = vy - k * (2 * c * sn * vx - (c * c - sn * sn) * vy)).
  { unfold vel1, k. cbv zeta. rewrite <- M2, X, Y. field. exact MP. }
  assert (E1' : V * cos (th - al) = vx * c + vy * sn) by (rewrite E1, X, Y; field; exact MP).
  assert (E2' : V * sin (th - al) = vx * sn - vy * c) by (rewrite E2, X, Y; field; exact MP).
  split; [|split; [|split; assumption]]; unfold vr, vt; rewrite !(Rmult_assoc _ V), E1', E2'.
  - rewrite F0. transitivity (vx * (c * c + sn * sn) - k * ((c * c - sn * sn) * vx + 2 * c * sn * vy)); [ring|rewrite U; ring].
  - rewrite F1. transitivity (vy * (c * c + sn * sn) - k * (2 * c * sn * vx - (c * c - sn * sn) * vy)); [ring|rewrite U; ring].
Qed.

(** ** the state *)
Section S.
  Context (d : doublet) (pos : nat -> R).
  Let fm := freestream d (n_v d - 2)%nat.
  Let fe := freestream d (n_v d - 1)%nat.
  Let vx := freestream d 0%nat / fm.
  Let vy := freestream d 1%nat / fm.
  Let x := pos 0%nat - location d 0%nat.
  Let y := pos 1%nat - location d 1%nat.
  Let g := heat_rat d.
  Definition fs_pres : R := (g - 1) * (fe - 1 / 2 * (vx ^ 2 + vy ^ 2) * fm).
  Definition fs_stag : R := (fe + fs_pres) / fm.
  Definition fs_enth : R := fs_stag - 1 / 2 * (vx ^ 2 + vy ^ 2).
  Definition v0 : R := vel0 vx vy (radius d ^ 2) x y.
  Definition v1 : R := vel1 vx vy (radius d ^ 2) x y.
  Definition kin : R := 1 / 2 * (v0 ^ 2 + v1 ^ 2).
  Definition enth : R := fs_stag - kin.

  Context (NV : (4 <= n_v d)%nat) (NZ : pos 0%nat <> location d 0%nat \/ pos 1%nat <> location d 1%nat).
  Lemma away : x <> 0 \/ y <> 0.
  Proof using NZ. destruct NZ as [H|H]; [left; unfold x|right; unfold y]; lra. Qed.
  Lemma run_eq : doublet_at d pos = match power (enth / fs_enth) (1 / (g - 1)) with
    | None => Ok None
    | Some p => Ok (Some (fun i => if (i =? n_v d - 1)%nat then fm * p * (enth / g + kin) else if (i =? n_v d - 2)%nat then fm * p
        else if (i =? 0)%nat then v0 * (fm * p) else if (i =? 1)%nat then v1 * (fm * p) else freestream d i))
    end.
  Proof using NV NZ.
    unfold doublet_at. unfold n_dim. destruct (Nat.eqb_spec (n_v d - 2) 1) as [E|_]; [lia|].
    fold fm fe g. fold vx vy. fold x y.
    destruct (polar vx vy (radius d) x y away) as (P0 & P1 & P2 & P3). cbv zeta in P0, P1, P2, P3.
    rewrite P0, P1. fold v0 v1.
    assert (PR : (g - 1) * (fe - 1 / 2 * sqrt (0 + vx * vx + vy * vy) * sqrt (0 + vx * vx + vy * vy) * fm) = fs_pres).
    { unfold fs_pres. rewrite <- P2. ring. }
    rewrite PR. fold fs_stag.
    replace (fs_stag - 1 / 2 * sqrt (0 + vx * vx + vy * vy) * sqrt (0 + vx * vx + vy * vy)) with fs_enth by (unfold fs_enth; rewrite <- P2; ring).
    replace (1 / 2 * (v0 * v0 + v1 * v1)) with kin by (unfold kin; ring). fold enth. reflexivity.
  Qed.
  Lemma run_state s : doublet_at d pos = Ok (Some s) -> exists p, power (enth / fs_enth) (1 / (g - 1)) = Some p /\
    s (n_v d - 1)%nat = fm * p * (enth / g + kin) /\ s (n_v d - 2)%nat = fm * p /\ s 0%nat = v0 * (fm * p) /\ s 1%nat = v1 * (fm * p) /\
    (forall i, (2 <= i < n_v d - 2)%nat -> s i = freestream d i).
  Proof using NV NZ.
    rewrite run_eq. destruct (power _ _) as [p|]; [|discriminate]. intros E. injection E as <-. exists p. split; [reflexivity|].
    split; [now rewrite Nat.eqb_refl|]. split; [destruct (Nat.eqb_spec (n_v d - 2) (n_v d - 1)); [lia|now rewrite Nat.eqb_refl]|].
    split; [destruct (Nat.eqb_spec 0 (n_v d - 1)); [lia|]; destruct (Nat.eqb_spec 0 (n_v d - 2)); [lia|reflexivity]|].
    split; [destruct (Nat.eqb_spec 1 (n_v d - 1)); [lia|]; destruct (Nat.eqb_spec 1 (n_v d - 2)); [lia|reflexivity]|].
    intros i I. destruct (Nat.eqb_spec i (n_v d - 1)); [lia|]. destruct (Nat.eqb_spec i (n_v d - 2)); [lia|].
    destruct (Nat.eqb_spec i 0); [lia|]. destruct (Nat.eqb_spec i 1); [lia|reflexivity].
  Qed.

  (** the disturbance is the freestream velocity reflected and scaled *)
  Lemma disturbance : (v0 - vx) ^ 2 + (v1 - vy) ^ 2 = (radius d ^ 2 / (x ^ 2 + y ^ 2)) ^ 2 * (vx ^ 2 + vy ^ 2).
  Proof using NZ. pose proof (hyp_pos x y away) as P. unfold v0, v1, vel0, vel1. cbv zeta. field. lra. Qed.
  Lemma no_penetration : x ^ 2 + y ^ 2 = radius d ^ 2 -> v0 * x + v1 * y = 0.
  Proof using NZ. intros E. pose proof (hyp_pos x y away) as P. unfold v0, v1, vel0, vel1. cbv zeta. rewrite <- E. field. lra. Qed.
  (** the speed at most doubles outside of the cylinder *)
  Lemma speed_bound : radius d ^ 2 <= x ^ 2 + y ^ 2 -> v0 ^ 2 + v1 ^ 2 <= 4 * (vx ^ 2 + vy ^ 2).
  Proof using NZ.
    intros B. pose proof (hyp_pos x y away) as P. pose proof disturbance as D. set (k := radius d ^ 2 / (x ^ 2 + y ^ 2)) in *.
    assert (K : 0 <= k <= 1).
    { unfold k. split; [apply Rle_mult_inv_pos; [apply pow2_ge_0|exact P]|]. apply (Rmult_le_reg_r (x ^ 2 + y ^ 2)); [exact P|]. unfold Rdiv. rewrite Rmult_assoc, Rinv_l by lra. lra. }
    set (a := v0 - vx) in *. set (b := v1 - vy) in *. replace v0 with (vx + a) by (unfold a; ring). replace v1 with (vy + b) by (unfold b; ring).
    assert (k ^ 2 <= 1) by nra. assert (a ^ 2 + b ^ 2 <= vx ^ 2 + vy ^ 2) by (rewrite D; pose proof (pow2_ge_0 vx); pose proof (pow2_ge_0 vy); nra).
    pose proof (pow2_ge_0 (vx - a)). pose proof (pow2_ge_0 (vy - b)). nra.
  Qed.
End S.
