(** Theorems about the artificial viscosity. *)
From Coq Require Import Reals List Arith Lia Lra.
From Verif Require Import Outcome RSum Quad_Model Quad_Spec Tensor_Spec Smooth_Model Smooth_Spec Smooth_Proofs2 Artvisc_Model Artvisc_Spec Artvisc_Proofs.
From Verif Require Smooth_Thm Vertex_Model Vertex_Spec Vertex_Thm Filter_Proofs.
From stdpp Require base gmap.
Local Open Scope R_scope.

(** C112. The elementwise viscosity is between 0 and [width / (row_size - 1)] times the sum of the speeds, and does not decrease when the
    indicator increases; *)
Theorem artvisc_elwise : forall rs width speed sound u u', (2 <= rs)%nat -> 0 <= width -> 0 <= speed + sound ->
  0 <= elwise_uncertainty rs width speed sound u <= width / INR (rs - 1) * (speed + sound) /\
  (u <= u' -> elwise_uncertainty rs width speed sound u <= elwise_uncertainty rs width speed sound u') /\
  elwise_uncertainty rs width speed sound 0 = 0 /\
  (Rpower 10 (-7 / 4) <= u -> elwise_uncertainty 2 width speed sound u = width * (speed + sound)).
Proof.
  intros rs width speed sound u u' R W S. split; [|split; [|split]].
  - unfold elwise_uncertainty. rewrite elwise_ramp_eq, minus_INR by lia. change (INR 1) with 1. assert (2 <= INR rs) by (apply (le_INR 2); exact R).
    set (scale := width / (INR rs - 1) * (speed + sound)). assert (0 <= scale). { apply Rmult_le_pos; [|exact S]. apply Rmult_le_pos; [exact W|]. apply Rlt_le, Rinv_0_lt_compat. lra. }
    set (r := ramp _ _ _). assert (0 <= r <= 1) by apply ramp_range. nra.
  - apply elwise_mono; assumption.
  - unfold elwise_uncertainty. destruct (Rlt_dec 0 0); [lra|]. cbn. ring.
  - intros U. unfold elwise_uncertainty. rewrite elwise_ramp_eq. cbn [INR]. replace (1 + 1 - 1) with 1 by ring. rewrite ln_1.
    assert (L10 : 0 < ln 10) by (rewrite <- ln_1; apply ln_increasing; lra).
    assert (S10 : 0 < Rpower 10 (-7 / 4)) by apply exp_pos.
    destruct (Rlt_dec 0 u); [|lra].
    assert (B : -7 / 2 <= 2 * ln u / ln 10).
    { assert (E : ln (Rpower 10 (-7 / 4)) = -7 / 4 * ln 10) by (unfold Rpower; apply ln_exp).
      assert (ln (Rpower 10 (-7 / 4)) <= ln u) by (destruct (Req_dec (Rpower 10 (-7 / 4)) u) as [->|N]; [lra|apply Rlt_le, ln_increasing; lra]).
      apply Rmult_le_reg_r with (ln 10); [exact L10|]. unfold Rdiv. rewrite (Rmult_assoc (2 * ln u)), Rinv_l by lra. lra. }
    set (X := 2 * ln u / ln 10) in *. clearbody X. replace (425 / 100 * 0 / ln 10) with 0 by (unfold Rdiv; ring). unfold ramp. destruct (Rle_dec _ _); [lra|]. destruct (Rlt_dec _ _); [lra|]. field.
Qed.
Print Assumptions artvisc_elwise.

(** C112. The values at the quadrature points are those of the multilinear function of the values at the vertices, between their bounds; *)
Theorem artvisc_interpolated : forall nd rs node vert a b, (1 <= nd)%nat -> (0 < rs)%nat -> (forall i, (i < rs)%nat -> 0 <= node i <= 1) ->
  (forall i, (i < 2 ^ nd)%nat -> a <= vert i <= b) ->
  exists r, vertices_to_qpoints nd rs node vert = Ok r /\
  forall q, (q < rs ^ nd)%nat -> r q = multilinear nd vert (fun k => node (digit rs nd k q)) /\ a <= r q <= b.
Proof.
  intros nd rs node vert a b N R X V. destruct (vertices_eq nd rs node vert N R) as (r & E & H). exists r. split; [exact E|]. intros q Q. split; [apply H, Q|]. rewrite (H q Q).
  apply multilinear_range; [|exact V]. intros k _. apply X, Filter_Proofs.digit_lt, R.
Qed.
Print Assumptions artvisc_interpolated.

(** it is continuous between elements whose common face has the same vertices. *)
Theorem artvisc_continuous : forall nd d va vb x y, (d < nd)%nat ->
  (forall f, (f < 2 ^ (nd - 1))%nat -> va (row_point nd 2 d f 1) = vb (row_point nd 2 d f 0)) ->
  x d = 1 -> y d = 0 -> (forall c, (c < nd)%nat -> c <> d -> x c = y c) -> multilinear nd va x = multilinear nd vb y.
Proof.
  intros nd d va vb x y D V X Y XY. rewrite (multilinear_face nd d va x 1 D ltac:(lia) X), (multilinear_face nd d vb y 0 D ltac:(lia) Y). apply rsum_ext. intros f F. rewrite (V f F). f_equal.
  apply rprod_ext. intros c C. destruct (Nat.eqb_spec c d) as [|NE]; [reflexivity|]. now rewrite (XY c C NE).
Qed.
Print Assumptions artvisc_continuous.

(** C113. For the smoothness-based viscosity the momentum is replaced by a velocity whose magnitude is less than 1 exactly where the pressure
    is positive, *)
Theorem artvisc_velocity : forall nd nq state q, (q < nq)%nat -> 0 < density nd nq state q -> 0 < energy nd nq state q ->
  (rsum nd (fun d => set_velocity nd nq state (d * nq + q) ^ 2) < 1 <-> 0 < internal_energy nd nq state q).
Proof.
  intros nd nq state q Q M E. set (s := speed_scale nd nq state q).
  assert (P : 0 < 2 * density nd nq state q * energy nd nq state q) by (apply Rmult_lt_0_compat; [apply Rmult_lt_0_compat; [lra|exact M]|exact E]).
  assert (S2 : s * s = 2 * density nd nq state q * energy nd nq state q) by (unfold s, speed_scale; apply sqrt_sqrt, Rlt_le, P).
  assert (V : rsum nd (fun d => set_velocity nd nq state (d * nq + q) ^ 2) = rsum nd (fun d => state (d * nq + q)%nat ^ 2) / (2 * density nd nq state q * energy nd nq state q)).
  { unfold Rdiv. rewrite <- rsum_scal_r. apply rsum_ext. intros d D. unfold set_velocity. destruct (Nat.ltb_spec (d * nq + q) (nd * nq)) as [_|B]; [|exfalso; nia].
    replace ((d * nq + q) mod nq)%nat with q by (rewrite Nat.add_comm, Nat.mod_add by lia; symmetry; apply Nat.mod_small, Q). fold s. rewrite <- S2. field. nra. }
  rewrite V. unfold internal_energy. clear V. set (k := rsum nd _) in *. set (m := density nd nq state q) in *. set (e := energy nd nq state q) in *.
  split; intros H.
  - apply (Rmult_lt_compat_r (2 * m * e)) in H; [|exact P]. replace (k / (2 * m * e) * (2 * m * e)) with k in H by (field; lra).
    apply Rmult_lt_reg_r with (2 * m); [lra|]. replace ((e - k / (2 * m)) * (2 * m)) with (2 * m * e - k) by (field; lra). lra.
  - apply (Rmult_lt_compat_r (2 * m)) in H; [|lra]. replace ((e - k / (2 * m)) * (2 * m)) with (2 * m * e - k) in H by (field; lra).
    apply Rmult_lt_reg_r with (2 * m * e); [exact P|]. replace (k / (2 * m * e) * (2 * m * e)) with k by (field; lra). lra.
Qed.
Print Assumptions artvisc_velocity.

(** and the flow state is put back as it was. *)
Theorem artvisc_restores : forall nd nq rs w orth advect diffuse mult us_max state, (0 < nq)%nat ->
  (forall q, (q < nq)%nat -> 0 < density nd nq state q /\ 0 < energy nd nq state q) ->
  forall k, snd (update_smoothness nd nq rs w orth advect diffuse mult us_max state) k = state k.
Proof.
  intros nd nq rs w orth advect diffuse mult us_max state N P k. cbn [update_smoothness snd]. unfold put_back, set_velocity. destruct (Nat.ltb_spec k (nd * nq)) as [K|K]; [|reflexivity].
  assert (Q : (k mod nq < nq)%nat) by (apply Nat.mod_upper_bound; lia). destruct (P _ Q) as [M E].
  unfold speed_scale at 2. destruct (Nat.ltb_spec (nd * nq + k mod nq) (nd * nq)); [lia|]. destruct (Nat.ltb_spec ((nd + 1) * nq + k mod nq) (nd * nq)); [nia|].
  unfold speed_scale. set (s := sqrt _). assert (0 < s); [|field; lra]. apply sqrt_lt_R0. unfold density, energy in *. apply Rmult_lt_0_compat; lra.
Qed.
Print Assumptions artvisc_restores.

(** C113. The forcing is not negative; where the smoothed forcing is not negative the viscosity is between 0 and both [us_max] and [mult] times
    the forcing, less than [us_max], and does not decrease when the forcing increases. *)
Theorem artvisc_bound : forall nd nq rs w orth advect diffuse mult us_max state,
  0 <= mult -> 0 < us_max ->
  (forall q adv, 0 < density nd nq state q -> 0 < energy nd nq state q -> 0 <= forcing_of nd nq rs w orth adv state q) /\
  let f := diffuse (forcing_of nd nq rs w orth (advect (set_velocity nd nq state)) (set_velocity nd nq state)) in
  let av := fst (update_smoothness nd nq rs w orth advect diffuse mult us_max state) in
  forall q, 0 <= f q -> 0 <= av q < us_max /\ av q <= mult * f q /\ forall q', f q <= f q' -> av q <= av q'.
Proof.
  intros nd nq rs w orth advect diffuse mult us_max state M U. split.
  - intros q adv D E. unfold forcing_of. set (p := rsum rs _). unfold density, energy in *. apply Rmult_le_pos; [|apply Rlt_le, Rinv_0_lt_compat; lra]. apply Rmult_le_pos; [|lra]. nra.
  - intros f av q F. change (av q) with (new_av mult us_max (f q)). unfold new_av. set (g := mult * f q). assert (G : 0 <= g) by (apply Rmult_le_pos; assumption).
    assert (I : us_max * g / (us_max + g) * (us_max + g) = us_max * g) by (field; lra). set (a := us_max * g / (us_max + g)) in *.
    assert (A : 0 <= a). { apply Rmult_le_pos; [nra|apply Rlt_le, Rinv_0_lt_compat; lra]. }
    split; [split; [exact A|nra]|]. split; [nra|].
    intros q' F'. change (av q') with (new_av mult us_max (f q')). unfold new_av. set (g' := mult * f q'). assert (G' : g <= g') by (apply Rmult_le_compat_l; assumption).
    assert (I' : us_max * g' / (us_max + g') * (us_max + g') = us_max * g') by (field; lra). set (a' := us_max * g' / (us_max + g')) in *.
    apply Rmult_le_reg_r with ((us_max + g) * (us_max + g')); [apply Rmult_lt_0_compat; lra|].
    replace (a * ((us_max + g) * (us_max + g'))) with (us_max * g * (us_max + g')) by (rewrite <- I; ring). replace (a' * ((us_max + g) * (us_max + g'))) with (us_max * g' * (us_max + g)) by (rewrite <- I'; ring). nra.
Qed.
Print Assumptions artvisc_bound.

(** Examples *)
(** momentum 3, density 2, energy 9 at one point in one dimension: velocity 1/2, and the state is put back *)
Definition ex_state (k : nat) : R := match k with 0 => 3 | 1 => 2 | _ => 9 end.
Example artvisc_velocity_example : set_velocity 1 1 ex_state 0 = 1 / 2 /\ 0 < internal_energy 1 1 ex_state 0 /\
  snd (update_smoothness 1 1 1 (fun _ => 1) (fun _ => 1) (fun s => s) (fun f => f) 1 1 ex_state) 0%nat = 3.
Proof.
  assert (S : speed_scale 1 1 ex_state 0 = 6) by (unfold speed_scale, ex_state; cbn; replace (2 * 2 * 9) with (6 * 6) by ring; apply sqrt_square; lra).
  split; [|split].
  - unfold set_velocity. change ((0 <? 1 * 1)%nat) with true. change (0 mod 1)%nat with 0%nat. cbv iota. rewrite S. unfold ex_state. field.
  - unfold internal_energy, energy, density, ex_state. cbn. lra.
  - apply artvisc_restores; [lia|]. intros q Q. assert (q = 0)%nat by lia. subst q. unfold density, energy, ex_state. cbn. lra.
Qed.
(** forcing 9, no scaling, greatest viscosity 1: viscosity 0.9 *)
Example artvisc_bound_example : new_av 1 1 9 = 9 / 10.
Proof. unfold new_av. field. Qed.
(** vertex values 0 and 4, one row with nodes 1/4 and 3/4 *)
Example artvisc_interpolated_example : exists r, vertices_to_qpoints 1 2 (fun i => if (i =? 0)%nat then 1 / 4 else 3 / 4) (fun i => if (i =? 0)%nat then 0 else 4) = Ok r /\ r 0%nat = 1 /\ r 1%nat = 3.
Proof.
  destruct (vertices_eq 1 2 (fun i => if (i =? 0)%nat then 1 / 4 else 3 / 4) (fun i => if (i =? 0)%nat then 0 else 4) ltac:(lia) ltac:(lia)) as (r & E & H). exists r. split; [exact E|].
  rewrite !H by (cbn; lia). unfold multilinear, vertex_weight. cbn. split; field.
Qed.
Example artvisc_elwise_example : elwise_uncertainty 2 (1 / 10) 200 300 1 = 50.
Proof.
  rewrite (proj2 (proj2 (proj2 (artvisc_elwise 2 (1 / 10) 200 300 1 0 ltac:(lia) ltac:(lra) ltac:(lra))))); [field|].
  assert (0 < ln 10) by (rewrite <- ln_1; apply ln_increasing; lra). unfold Rpower. rewrite <- exp_0. apply Rlt_le, exp_increasing. lra.
Qed.

(** C112. With the vertex data shared as by [Solver::share_vertex_data] with the maximum, in any order of the parallel loops, each element
    has at least its own viscosity at each quadrature point, and at most the greatest of the elements that touch it. *)
Import base gmap.
Local Open Scope R_scope.
Theorem artvisc_spread : forall os w h els (u : nat -> R) order0 order1 d0, Vertex_Spec.spec_run os Vertex_Spec.empty_world = Some w -> Vertex_Model.run os Vertex_Model.empty_heap = Some h -> Vertex_Spec.owns_handles els w ->
  (forall k, k ∈ order0 <-> exists p, Vertex_Spec.place els k p) -> (forall k, k ∈ order1 <-> exists p, Vertex_Spec.place els k p) ->
  exists h' d', Vertex_Model.share_vertex_data els (fun e _ => u e) Vertex_Model.vector_max order0 order1 h d0 = Some (h', d') /\
  forall nd rs (node : nat -> R) e (vert : nat -> R), (1 <= nd)%nat -> (0 < rs)%nat -> (forall i, (i < rs)%nat -> 0 <= node i <= 1) ->
  (forall i, (i < 2 ^ nd)%nat -> d' !! (e, i) = Some (vert i)) -> (forall i, (i < 2 ^ nd)%nat -> exists v, Vertex_Spec.touches els w e i v) ->
  exists r, vertices_to_qpoints nd rs node vert = Ok r /\ forall q, (q < rs ^ nd)%nat -> u e <= r q /\
  forall b, (forall i v e' i', (i < 2 ^ nd)%nat -> Vertex_Spec.touches els w e i v -> Vertex_Spec.touches els w e' i' v -> u e' <= b) -> r q <= b.
Proof.
  intros os w h els u order0 order1 d0 S RN O O0 O1.
  destruct (Vertex_Thm.vertex_sharing os w h els (fun e _ => u e) order0 order1 d0 S RN O O0 O1) as ((h' & d' & E & G) & _). exists h', d'. split; [exact E|].
  intros nd rs node e vert N R X V T. destruct (vertices_eq nd rs node vert N R) as (r & ER & H). exists r. split; [exact ER|]. intros q Q. rewrite (H q Q).
  assert (K : forall k, (k < nd)%nat -> 0 <= node (digit rs nd k q) <= 1) by (intros k _; apply X, Filter_Proofs.digit_lt, R).
  assert (L : forall i, (i < 2 ^ nd)%nat -> u e <= vert i /\ forall b, (forall i v e' i', (i < 2 ^ nd)%nat -> Vertex_Spec.touches els w e i v -> Vertex_Spec.touches els w e' i' v -> u e' <= b) -> vert i <= b).
  { intros i I. destruct (T i I) as [v TV]. destruct (G e i v TV) as (m & D & (e' & i' & T' & M) & GR). rewrite (V i I) in D. injection D as D. subst m. split.
    - apply GR. exists e, i. split; [exact TV|reflexivity].
    - intros b B. cbv beta in M. rewrite M. exact (B i v e' i' I TV T'). }
  assert (BD : forall b, (forall i v e' i', (i < 2 ^ nd)%nat -> Vertex_Spec.touches els w e i v -> Vertex_Spec.touches els w e' i' v -> u e' <= b) -> u e <= multilinear nd vert (fun k => node (digit rs nd k q)) <= b).
  { intros b B. apply multilinear_range; [exact K|]. intros i I. destruct (L i I) as [L1 L2]. split; [exact L1|exact (L2 b B)]. }
  split; [|intros b B; apply BD, B].
  assert (FIN : exists b, forall i, (i < 2 ^ nd)%nat -> vert i <= b).
  { clear. induction (2 ^ nd)%nat as [|n [b B]]; [exists 0; lia|]. exists (Rmax b (vert n)). intros i I. destruct (Nat.eq_dec i n) as [->|]; [apply Rmax_r|]. eapply Rle_trans; [apply B; lia|apply Rmax_l]. }
  destruct FIN as [b B]. apply (multilinear_range nd vert _ (u e) b K). intros i I. split; [apply (L i I)|apply B, I].
Qed.
Print Assumptions artvisc_spread.

