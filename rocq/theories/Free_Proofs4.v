(** The inviscid solver in uniform flow; Cartesian meshes are closed. *)
From Coq Require Import Reals List Arith Lia Lra FunctionalExtensionality Permutation.
From Verif Require Import Outcome RSum Tensor_Spec Tensor_Proofs Row_Model Row_Spec Row_Proofs Connection_Model Basis_Spec Basis_Proofs Quad_Model Quad_Spec Quad_Proofs Spatial_Model Spatial_Spec Spatial_Proofs Spatial_Proofs2 Spatial_Proofs3 Spatial_Proofs4 Spatial_Proofs5 Spatial_Proofs6 Free_Spec Free_Model Free_Proofs1 Free_Proofs2 Free_Proofs3.
From Verif Require Pde_Model Bc_Model.
Import ListNotations.
Local Open Scope R_scope.

(** ** the Euler equations carry every state *)
Definition unit_flux (nd : nat) (u : nat -> R) (j v : nat) : R := Pde_Model.flux_conv nd u (fun i => if (i =? j)%nat then 1 else 0) v.
Lemma pressure_agrees nd s u : agrees (nd + 2) s u -> Pde_Model.pressure nd s = Pde_Model.pressure nd u.
Proof.
  intros H. unfold Pde_Model.pressure, Pde_Model.kin_ener. rewrite (H (nd + 1)%nat), (H nd) by lia. rewrite (rsum_ext nd _ (fun i => u i * u i)) by (intros; rewrite H by lia; reflexivity). reflexivity.
Qed.
Lemma unit_flux_value nd u j v : (j < nd)%nat -> unit_flux nd u j v = if (v <? nd)%nat then u v * (u j / u nd) + Pde_Model.pressure nd u * (if (v =? j)%nat then 1 else 0)
  else if (v =? nd)%nat then u j else (u (nd + 1)%nat + Pde_Model.pressure nd u) * (u j / u nd).
Proof.
  intros J. unfold unit_flux, Pde_Model.flux_conv. cbv zeta. assert (E : rsum nd (fun i => u i * (if (i =? j)%nat then 1 else 0)) = u j).
  { rewrite (rsum_single nd j); [|exact J|intros i I NE; destruct (Nat.eqb_spec i j); [contradiction|ring]]. rewrite Nat.eqb_refl. ring. }
  rewrite E. reflexivity.
Qed.
Lemma euler_flux_linear nd s u normal v : agrees (nd + 2) s u -> (v < nd + 2)%nat -> Pde_Model.flux_conv nd s normal v = rsum nd (fun j => normal j * unit_flux nd u j v).
Proof.
  intros H V. unfold Pde_Model.flux_conv. cbv zeta. rewrite (pressure_agrees nd s u H), (H nd), (H (nd + 1)%nat) by lia.
  assert (M : rsum nd (fun j => s j * normal j) = rsum nd (fun j => normal j * u j)) by (apply rsum_ext; intros; rewrite H by lia; ring). rewrite M.
  rewrite (rsum_ext nd (fun j => normal j * unit_flux nd u j v) (fun j => normal j * (if (v <? nd)%nat then u v * (u j / u nd) + Pde_Model.pressure nd u * (if (v =? j)%nat then 1 else 0)
    else if (v =? nd)%nat then u j else (u (nd + 1)%nat + Pde_Model.pressure nd u) * (u j / u nd)))) by (intros j J; now rewrite unit_flux_value).
  destruct (Nat.ltb_spec v nd) as [L|L].
  - rewrite (H v) by lia. rewrite (rsum_ext nd (fun j => normal j * (u v * _ + _)) (fun j => u v / u nd * (normal j * u j) + Pde_Model.pressure nd u * (normal j * (if (v =? j)%nat then 1 else 0)))) by (intros j J; unfold Rdiv; ring).
    rewrite rsum_plus, !rsum_scal. rewrite (rsum_single nd v (fun j => normal j * (if (v =? j)%nat then 1 else 0))); [|exact L|intros i I NE; destruct (Nat.eqb_spec v i); [lia|ring]]. rewrite Nat.eqb_refl. unfold Rdiv. ring.
  - destruct (Nat.eqb_spec v nd) as [->|NE]; [reflexivity|].
    rewrite (rsum_ext nd (fun j => normal j * (_ * _)) (fun j => (u (nd + 1)%nat + Pde_Model.pressure nd u) / u nd * (normal j * u j))) by (intros j J; unfold Rdiv; ring). rewrite rsum_scal. unfold Rdiv. ring.
Qed.
Lemma euler_carried nd u : carried nd (euler nd) (nd + 2) u u (unit_flux nd u).
Proof.
  constructor; cbn.
  - lia.
  - intros s H. exact H.
  - intros s normal v d H V D. now apply euler_flux_linear.
  - intros s normal v H V. now apply euler_flux_linear.
  - intros s v H V. now apply H.
Qed.
Lemma euler_additive nd : additive (euler nd). Proof. intros upd crit d v. reflexivity. Qed.

(** ** boundary conditions and initialization *)
Lemma freestream_filled nv nq fs a : filled nv nq fs (Bc_Model.freestream_state nv nq fs a).
Proof.
  intros v q V Q. unfold Bc_Model.freestream_state. change (@Bc_Model.loop) with (@loop). change Bc_Model.upd with put.
  enough (H : forall p, (p <= nv)%nat -> (v < p)%nat -> loop p (fun v g => loop nq (fun q g => put g (v * nq + q)%nat (fs v)) g) a (v * nq + q)%nat = fs v) by (apply H; lia).
  induction p as [|p IH]; intros P L; [lia|]. rewrite loop_S. destruct (Nat.eq_dec v p) as [->|NE].
  - rewrite (loop_put_in nq (fun q => (p * nq + q)%nat) (fun _ _ => fs p)); [reflexivity|intros; lia|exact Q].
  - rewrite (loop_put_out nq (fun q => (p * nq + q)%nat) (fun _ _ => fs p)); [apply IH; lia|]. intros i I Z. apply flat_inj in Z; lia.
Qed.
Lemma bcs_values m eq fs ghosts x : let x' := apply_state_bcs m eq fs ghosts x in d_state x' = d_state x /\ d_ref x' = d_ref x /\
  (forall id, ~ In id ghosts -> d_st x' id = d_st x id) /\ (forall id, In id ghosts -> filled (n_extrap eq) (m_row_size m ^ (m_dim m - 1)) fs (d_st x' id)).
Proof.
  cbv zeta. split; [reflexivity|]. split; [reflexivity|]. cbn [apply_state_bcs d_st]. set (step := fun st g => _). generalize (d_st x) as st. induction ghosts as [|g l IH]; intros st; [split; [reflexivity|intros id []]|]. cbn [fold_left]. destruct (IH (step st g)) as [I1 I2]. split.
  - intros id H. rewrite I1 by (intros X; apply H; now right). unfold step. apply fput_out. intros ->. apply H. now left.
  - intros id H. destruct (in_dec Nat.eq_dec id l) as [J|J]; [now apply I2|]. rewrite I1 by exact J. destruct H as [<-|H]; [|contradiction]. unfold step. rewrite fput_in. apply freestream_filled.
Qed.

Section Solver.
Variables (m : mesh) (size : nat -> R) (positive : nat -> bool) (ghosts : list nat) (eq : pde) (u : nat -> R) (f : nat -> nat -> R) (fn : nat -> arr).
Hypothesis F : fits m size positive ghosts.
Let nd := m_dim m.
Let rs := m_row_size m.
Let b := m_basis m.
Let nfq := (rs ^ (nd - 1))%nat.
Hypotheses (U : unital rs b) (C : carried nd eq (n_update eq) u u f) (A : additive eq) (HC : has_convection eq = true) (HD : has_diffusion eq = false) (HS : has_source eq = false) (CL : closed m fn).
Let R0 : (0 < rs)%nat. Proof. pose proof (fit_rows _ _ _ _ F). unfold rs. lia. Qed.
Let N0 : (0 < nd)%nat. Proof. pose proof (fit_dim _ _ _ _ F). unfold nd. lia. Qed.
(** between two kernels *)
Definition calm (x : data) : Prop := (forall i, In i (elems m) -> filled (n_update eq) (rs ^ nd) u (d_state x i)) /\ (forall id, In id (inner_faces m) \/ In id (all_mortars m) -> filled (n_extrap eq) nfq u (d_st x id)).
Lemma calm_uniform x : calm x -> uniform m eq (n_update eq) u u (apply_state_bcs m eq u ghosts x).
Proof.
  intros [S FA]. destruct (bcs_values m eq u ghosts x) as (B1 & B2 & B3 & B4). constructor.
  - intros i I. rewrite B1. now apply S.
  - intros id I. assert (J : In id (inner_faces m ++ all_mortars m ++ ghosts)) by (apply (Permutation_in _ (fit_matched _ _ _ _ F)), in_or_app; now left).
    destruct (in_dec Nat.eq_dec id ghosts) as [G|G]; [now apply B4|]. rewrite B3 by exact G. apply FA. apply in_app_or in J as [J|J]; [now left|]. apply in_app_or in J as [J|J]; [now right|contradiction].
Qed.
Lemma calm_stage dt (stage cr uf : bool) x : calm x -> (stage = true -> forall i, In i (elems m) -> filled (n_update eq) (rs ^ nd) (fun _ => 0) (d_ref x i)) ->
  let x' := compute_convection m eq dt stage cr uf (apply_state_bcs m eq u ghosts x) in
  calm x' /\ forall i, In i (elems m) -> d_state x' i = d_state x i /\ filled (n_update eq) (rs ^ nd) (fun _ => 0) (d_ref x' i).
Proof.
  intros K RF x'. destruct (bcs_values m eq u ghosts x) as (B1 & B2 & _ & _).
  destruct (convection_uniform m size positive ghosts eq (n_update eq) u u f fn F U C A HC HD HS CL dt stage cr uf (apply_state_bcs m eq u ghosts x)) as [E1 E2]; [now apply calm_uniform| |].
  - intros S i I. rewrite B2. now apply RF.
  - fold x' in E1, E2. rewrite B1 in E1. split; [|exact E1]. split; [|exact E2]. intros i I. rewrite (proj1 (E1 i I)). now apply K.
Qed.
Lemma calm_step uf dt x : calm x -> let x' := inviscid_step m eq u ghosts uf dt x in calm x' /\ forall i, In i (elems m) -> d_state x' i = d_state x i.
Proof.
  intros K x'. unfold x', inviscid_step. cbv zeta. destruct (calm_stage dt false false uf x K) as [K1 E1]; [discriminate|]. set (x1 := compute_convection m eq dt false false uf _) in *.
  destruct (calm_stage dt true false uf x1 K1) as [K2 E2]; [intros _ i I; now apply E1|]. split; [exact K2|]. intros i I. rewrite (proj1 (E2 i I)). now apply E1.
Qed.
Lemma calm_steps uf dts : forall x, calm x -> let x' := inviscid_steps m eq u ghosts uf dts x in calm x' /\ forall i, In i (elems m) -> d_state x' i = d_state x i.
Proof.
  induction dts as [|dt dts IH]; intros x K; [split; [exact K|reflexivity]|]. cbn [inviscid_steps fold_left]. destruct (calm_step uf dt x K) as [K1 E1]. destruct (IH _ K1) as [K2 E2]. split; [exact K2|].
  intros i I. etransitivity; [apply E2, I|now apply E1].
Qed.
Lemma write_faces_filled x : (forall i, In i (elems m) -> filled (n_update eq) (rs ^ nd) u (d_state x i)) ->
  let x' := run_write_face m eq (elems m) x in d_state x' = d_state x /\ forall id, In id (inner_faces m) -> filled (n_extrap eq) nfq u (d_st x' id).
Proof.
  intros S. cbv zeta. unfold run_write_face. set (step := fun x i => _).
  assert (K : forall l y, d_state (fold_left step l y) = d_state y) by (induction l as [|i l IH]; intros y; [reflexivity|]; cbn [fold_left]; now rewrite IH).
  split; [apply K|].
  pose (touch := fun i => faces_of nd (m_elem m i)).
  pose proof (fold_frame (fun (x : data) id => d_st x id) step touch (fun i s t => True) (elems m)) as X.
  assert (G : forall l y, incl l (elems m) -> NoDup (flat_map touch l) -> d_state y = d_state x -> forall i k, In i l -> (k < 2 * nd)%nat -> filled (n_extrap eq) nfq u (d_st (fold_left step l y) (e_face (m_elem m i) k))).
  { clear X. assert (OUT : forall l y id, ~ In id (flat_map touch l) -> d_st (fold_left step l y) id = d_st y id).
    { induction l as [|i l IH]; intros y id O; [reflexivity|]. cbn [fold_left flat_map] in *. rewrite IH by (intros J; apply O, in_or_app; now right). unfold step. cbn [d_st]. apply (scatter_out m). intros k KK ->. apply O, in_or_app. left. apply in_map, in_seq. fold nd in KK. lia. }
    induction l as [|i0 l IH]; intros y IN ND SY i k I KK; [destruct I|]. cbn [fold_left flat_map] in *. destruct I as [<-|I].
    - rewrite OUT. 2:{ apply (app_apart _ _ _ ND). apply in_map, in_seq. fold nd. lia. }
      unfold step. cbn [d_st]. rewrite (scatter_in m size positive ghosts F) by (try (apply (face_inj m size positive ghosts F), IN; now left); exact KK). rewrite SY. apply write_face_filled with (n := n_update eq) (u := u) (f := f); try assumption. apply S, IN. now left.
    - apply IH; try assumption; [intros z Z; apply IN; now right|now apply nodup_app_right in ND]. }
  clear X. intros id I. apply in_flat_map in I as (i & I & J). apply in_map_iff in J as (k & <- & J). apply in_seq in J. apply G; [apply incl_refl|exact (inner_nodup m size positive ghosts F)|reflexivity|exact I|fold nd in J; lia].
Qed.
Lemma set_filled nq n a : (0 < nq)%nat -> filled n nq u (set_state nq n u a).
Proof. intros NQ v q V Q. unfold set_state. destruct (Nat.ltb_spec (v * nq + q) (n * nq)); [now rewrite flat_div|nia]. Qed.
Lemma initialize_calm x : calm (initialize m eq u x).
Proof.
  unfold initialize. cbv zeta. set (step := fun x i => _). set (x1 := fold_left step (elems m) x). assert (NQ : (0 < rs ^ nd)%nat) by now apply pow_pos'.
  assert (S : forall i, In i (elems m) -> filled (n_update eq) (rs ^ nd) u (d_state x1 i)).
  { unfold x1. assert (KP : forall l y i, (In i l \/ filled (n_update eq) (rs ^ nd) u (d_state y i)) -> filled (n_update eq) (rs ^ nd) u (d_state (fold_left step l y) i)).
    { induction l as [|j l IH]; intros y i H; [destruct H as [[]|H]; exact H|]. cbn [fold_left]. apply IH. destruct (in_dec Nat.eq_dec i l) as [L|L]; [now left|]. right. unfold step. cbn [d_state]. destruct (Nat.eq_dec i j) as [->|NE]; [rewrite fput_in; now apply set_filled|]. rewrite fput_out by exact NE. destruct H as [[->|H]|H]; [contradiction|contradiction|exact H]. }
    intros i I. apply KP. now left. }
  destruct (write_faces_filled x1 S) as [W1 W2]. set (x2 := run_write_face m eq (elems m) x1) in *. split.
  - intros i I. change (d_state (run_prolong m eq false false x2)) with (d_state x2). rewrite W1. now apply S.
  - change (d_st (run_prolong m eq false false x2)) with (the_prolong m eq false (d_st x2)). intros id [I|I].
    + rewrite (the_prolong_other m size positive ghosts eq F); [now apply W2|now apply (inner_mortar m size positive ghosts F)].
    + apply (mortars_uniform m size positive ghosts eq u F U); [|exact I]. intros id' I'. apply W2. now apply (coarse_inner m size positive ghosts F).
Qed.
End Solver.

(** ** Cartesian meshes *)
Lemma diff_const n node i c : (0 < n)%nat -> distinct n node -> (i < n)%nat -> mat_vec n (py_derivative n node) (fun _ => c) i = 0.
Proof.
  intros N D I. pose proof (nodal_deriv n node (fun _ => c) i D I) as H. assert (E : nodal n node (fun _ => c) = fct_cte c).
  { apply functional_extensionality. intros x. unfold nodal, fct_cte. rewrite rsum_scal, lagrange_sum by assumption. ring. }
  rewrite E in H. exact (uniqueness_limite _ _ _ _ H (derivable_pt_lim_const c (node i))).
Qed.
Lemma derivative_const rs node w ratio c i : (0 < rs)%nat -> distinct rs node -> (i < rs)%nat -> let b := basis_on rs node w ratio in derivative rs (b_diff b) (b_boundary b) (b_weight b) (fun _ => c) (fun _ => c) i = 0.
Proof.
  intros R D I b. unfold derivative. unfold b at 1. cbn [b_diff basis_on]. rewrite diff_const by assumption.
  rewrite (mat_vec_ext 2 _ _ (fun _ => 0)); [unfold mat_vec; rewrite (rsum_ext 2 _ (fun _ => 0)) by (intros; ring); rewrite rsum_0; ring|].
  intros s S. unfold mat_vec. rewrite (rsum_ext rs _ (fun j => c * b_boundary b s j)) by (intros; ring). rewrite rsum_scal. unfold b. rewrite (proj1 (basis_unital rs node w ratio R D)) by exact S. ring.
Qed.
Lemma restrict_sum rs node w i : (2 <= rs)%nat -> as_lobatto rs node w -> (i < rs)%nat -> rsum rs (fun j => py_restrict rs node w i j 0) + rsum rs (fun j => py_restrict rs node w i j 1) = 1.
Proof.
  intros N [[D W] Q] I. assert (P : poly rs (lagrange rs node i)) by (now apply lagrange_poly).
  pose proof (Quad_Proofs.halves rs node w rs (lagrange rs node i) (integrates_le rs node w (2 * rs - 2) rs ltac:(lia) Q) P) as H.
  rewrite (rsum_single rs i (fun j => w j * lagrange rs node i (node j))) in H; [|exact I|intros j J NE; rewrite lagrange_node by assumption; destruct (Nat.eqb_spec i j); [congruence|ring]]. rewrite lagrange_node, Nat.eqb_refl in H by assumption.
  cbn [rsum] in H. rewrite Rplus_0_l, Rmult_1_r in H. specialize (W i I).
  assert (E : forall h, rsum rs (fun j => py_restrict rs node w i j h) = rsum rs (fun j => w j / 2 * lagrange rs node i (half_point node h j)) * / w i).
  { intros h. rewrite <- rsum_scal_r. apply rsum_ext. intros j J. unfold py_restrict, py_prolong. rewrite py_interpolate_eq by exact I. unfold half_point. field. lra. }
  rewrite !E, <- Rmult_plus_distr_r, H. field. lra.
Qed.
Lemma face_rows_const nd rs id m a q c : (0 < rs)%nat -> (id < nd - 1)%nat -> (q < rs ^ (nd - 1))%nat -> (forall i, (i < rs)%nat -> a (along (nd - 1) rs id q i) = c) ->
  face_rows nd rs (rs ^ (nd - 2 - id)) m a q = c * rsum rs (m (digit rs (nd - 1) id q)).
Proof.
  intros R I Q H. assert (FL : (foot (nd - 1) rs id q < rs ^ (nd - 2))%nat) by (replace (nd - 2)%nat with (nd - 1 - 1)%nat by lia; now apply foot_lt).
  rewrite <- (own_row (nd - 1) rs id q R I) at 1. rewrite face_rows_value by (try assumption; now apply digit_lt). unfold mat_vec. rewrite <- rsum_scal. apply rsum_ext. intros i L. destruct (along_row (nd - 1) rs id q i) as [<-|]; [|lia]. rewrite H by exact L. ring.
Qed.
Lemma halves_sum nd rs node w ratio str by_ a q c : (1 <= nd <= 3)%nat -> (2 <= rs)%nat -> as_lobatto rs node w -> (forall i, str i = false) -> (q < rs ^ (nd - 1))%nat -> (forall q, (q < rs ^ (nd - 1))%nat -> a q = c) ->
  rsum (n_fine nd str) (fun k => face_dims nd rs str by_ (b_restrict (basis_on rs node w ratio)) k a q) = c.
Proof.
  intros N R LB ST Q H. assert (R' : (0 < rs)%nat) by lia. set (r := fun h i => rsum rs (fun j => py_restrict rs node w i j h)).
  assert (RS : forall i, (i < rs)%nat -> r 0%nat i + r 1%nat i = 1) by (intros; now apply restrict_sum).
  destruct nd as [|[|[|[|nd]]]]; try lia.
  - unfold n_fine, face_dims, loop. cbn [Nat.sub seq fold_left Nat.pow rsum]. rewrite H by exact Q. ring.
  - assert (V : forall k, face_dims 2 rs str by_ (b_restrict (basis_on rs node w ratio)) k a q = c * r (half_of 2 str k 0) q).
    { intros k. unfold face_dims, loop. cbn [Nat.sub seq fold_left]. rewrite ST. rewrite (face_rows_const 2 rs 0 _ a q c) by first [assumption|lia|intros; apply H; apply along_lt; (assumption || lia)]. f_equal. unfold r. replace (digit rs (2 - 1) 0 q) with q; [reflexivity|]. unfold digit. cbn [Nat.sub]. cbn in Q. rewrite Nat.pow_0_r, Nat.div_1_r, Nat.mod_small by lia. reflexivity. }
    unfold n_fine, loop. cbn [Nat.sub seq fold_left]. rewrite ST. change (2 ^ 1 / (1 + Nat.b2n false))%nat with 2%nat. cbn [rsum]. rewrite !V. unfold half_of. rewrite ST. cbn [Nat.sub]. change ((0 / 2 ^ 0) mod 2)%nat with 0%nat. change ((1 / 2 ^ 0) mod 2)%nat with 1%nat.
    cbn in Q. pose proof (RS q ltac:(lia)) as E1. replace (r 1%nat q) with (1 - r 0%nat q) by lra. ring.
  - cbn in Q. assert (Q2 : (q < rs ^ 2)%nat) by (cbn; lia). destruct (pair_split rs q Q2) as (X & Y & E).
    assert (D0 : forall p, (p < rs ^ 2)%nat -> digit rs 2 0 p = (p / rs)%nat) by (intros p P; unfold digit; cbn [Nat.sub]; rewrite Nat.pow_1_r; apply Nat.mod_small; apply pair_split; exact P).
    assert (D1 : forall p, digit rs 2 1 p = (p mod rs)%nat) by (intros p; unfold digit; cbn [Nat.sub]; now rewrite Nat.pow_0_r, Nat.div_1_r).
    assert (V : forall k, face_dims 3 rs str by_ (b_restrict (basis_on rs node w ratio)) k a q = c * r (half_of 3 str k 0) (q / rs)%nat * r (half_of 3 str k 1) (q mod rs)%nat).
    { intros k. unfold face_dims, loop. cbn [Nat.sub seq fold_left]. rewrite !ST.
      assert (W : forall p, (p < rs ^ 2)%nat -> face_rows 3 rs (rs ^ 1) (b_restrict (basis_on rs node w ratio) (half_of 3 str k 0)) a p = c * r (half_of 3 str k 0) (p / rs)%nat).
      { intros p P. rewrite (face_rows_const 3 rs 0 _ a p c) by first [assumption|lia|intros; apply H; apply along_lt; (assumption || lia)]. change (3 - 1)%nat with 2%nat. rewrite D0 by exact P. reflexivity. }
      rewrite (face_rows_const 3 rs 1 _ _ q (c * r (half_of 3 str k 0) (q / rs)%nat)); [change (3 - 1)%nat with 2%nat; rewrite D1; reflexivity|assumption|lia|exact Q2|].
      intros i I. assert (AL : along (3 - 1) rs 1 q i = (q / rs * rs + i)%nat) by (unfold along; cbn [Nat.sub]; rewrite Nat.pow_0_r, Nat.mod_1_r, !Nat.mul_1_l, !Nat.mul_1_r; lia). rewrite AL. rewrite W by (cbn; nia). rewrite flat_div by exact I. reflexivity. }
    unfold n_fine, loop. cbn [Nat.sub seq fold_left]. rewrite !ST. change (2 ^ 2 / (1 + Nat.b2n false) / (1 + Nat.b2n false))%nat with 4%nat. cbn [rsum]. rewrite !V. unfold half_of. rewrite ST. cbn [Nat.sub].
    change ((0 / 2 ^ 1) mod 2)%nat with 0%nat. change ((0 / 2 ^ 0) mod 2)%nat with 0%nat. change ((1 / 2 ^ 1) mod 2)%nat with 0%nat. change ((1 / 2 ^ 0) mod 2)%nat with 1%nat.
    change ((2 / 2 ^ 1) mod 2)%nat with 1%nat. change ((2 / 2 ^ 0) mod 2)%nat with 0%nat. change ((3 / 2 ^ 1) mod 2)%nat with 1%nat. change ((3 / 2 ^ 0) mod 2)%nat with 1%nat.
    pose proof (RS _ X) as E1. pose proof (RS _ Y) as E2. replace (r 1%nat (q / rs)%nat) with (1 - r 0%nat (q / rs)%nat) by lra. replace (r 1%nat (q mod rs)%nat) with (1 - r 0%nat (q mod rs)%nat) by lra. ring.
Qed.
Lemma cartesian_closed m size positive ghosts node w ratio axis : fits m size positive ghosts -> m_basis m = basis_on (m_row_size m) node w ratio -> as_lobatto (m_row_size m) node w -> cartesian m axis ->
  closed m (fun id k => if (k / m_row_size m ^ (m_dim m - 1) =? axis id)%nat then 1 else 0).
Proof.
  intros F B LB CT. pose proof (fit_rows _ _ _ _ F) as R. pose proof (fit_dim _ _ _ _ F) as N. set (rs := m_row_size m) in *. set (nd := m_dim m) in *. set (nfq := (rs ^ (nd - 1))%nat). constructor; fold rs nd nfq.
  - intros i I j q J Q. rewrite B. rewrite (rsum_ext nd _ (fun _ => 0)); [apply rsum_0|]. intros d D. fold nfq.
    erewrite derivative_ext; [apply (derivative_const rs node w ratio (if (d =? j)%nat then 1 else 0)); [lia|apply LB|apply digit_lt; lia]| |].
    + intros k K. unfold local_normal. destruct (ct_elem _ _ CT i 0%nat I) as [-> _]; [fold nd; lia|]. reflexivity.
    + intros s S. destruct (ct_elem _ _ CT i (2 * d + s)%nat I) as [_ ->]; [fold nd; lia|]. rewrite flat_div by (apply foot_lt; (assumption || lia)). replace ((2 * d + s) / 2)%nat with d by (apply (Nat.div_unique _ 2 d s); lia). now rewrite Nat.eqb_sym.
  - intros c j q I J Q. destruct (ct_con _ _ CT c false I) as [D ->]. unfold side_sign, con_normal. rewrite D, flat_div by exact Q. ring.
  - intros c j q I J Q. destruct (ct_con _ _ CT c true I) as [D ->]. unfold side_sign, con_normal. rewrite D, flat_div by exact Q. ring.
  - intros r j q I J Q. rewrite flat_div by exact Q. destruct (ct_refined _ _ CT r I) as [ST AX].
    symmetry. rewrite (rsum_ext _ _ (fun k => face_dims nd rs (r_stretch r) (fun x => x / 2) (b_restrict (m_basis m)) k (var_of nfq j (fun k => if (k / nfq =? axis (r_coarse r))%nat then 1 else 0)) q)).
    + rewrite B. apply halves_sum; try assumption. intros p P. unfold var_of. now rewrite flat_div.
    + intros k K. unfold var_of. rewrite AX by exact K. reflexivity.
Qed.
