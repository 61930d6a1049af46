(** Conservation over a whole mesh. *)
From Coq Require Import Reals List Arith Lia Lra FunctionalExtensionality Permutation.
From Verif Require Import Outcome RSum Tensor_Spec Tensor_Proofs Row_Model Row_Spec Row_Proofs Connection_Model Basis_Spec Basis_Proofs Quad_Model Quad_Spec Quad_Proofs Quad_Proofs2 Spatial_Model Spatial_Spec Spatial_Proofs Spatial_Proofs2 Spatial_Proofs3 Spatial_Proofs4 Spatial_Proofs5.
Import ListNotations.
Local Open Scope R_scope.

Lemma basis_good rs node w ratio : (2 <= rs)%nat -> as_lobatto rs node w -> good rs (basis_on rs node w ratio).
Proof.
  intros N [RU Q]. split; cbn.
  - apply by_parts_quad; [lia|exact RU|]. apply (integrates_le rs node w (2 * rs - 2)); [lia|exact Q].
  - intros r. now apply filter_mean.
Qed.
Lemma basis_halves rs node w ratio : (2 <= rs)%nat -> as_lobatto rs node w -> halves rs (basis_on rs node w ratio).
Proof.
  intros N [RU Q]. split; cbn.
  - intros half r H. destruct RU as [D W]. unfold mat_vec. rewrite (rsum_ext rs _ (fun i => rsum rs (fun j => w i * py_restrict rs node w i j half * r j))) by (intros; rewrite <- rsum_scal; apply rsum_ext; intros; ring).
    rewrite rsum_swap. rewrite <- rsum_scal. apply rsum_ext. intros j J. rewrite rsum_scal_r.
    rewrite (rsum_ext rs _ (fun i => w j / 2 * lagrange rs node i (half_point node half j))).
    + rewrite rsum_scal. rewrite lagrange_sum by (try exact D; lia). field.
    + intros i I. unfold py_restrict, py_prolong. rewrite py_interpolate_eq by exact I. unfold half_point. specialize (W i I). field. lra.
  - intros r. assert (P : poly rs (nodal rs node r)) by (destruct rs as [|n]; [lia|]; apply nodal_poly).
    pose proof (Quad_Proofs.halves rs node w rs (nodal rs node r) (integrates_le rs node w (2 * rs - 2) rs ltac:(lia) Q) P) as H.
    rewrite (rsum_ext rs (fun i => w i * nodal rs node r (node i)) (fun i => w i * r i)) in H by (intros; rewrite nodal_node; [reflexivity|apply RU|assumption]).
    rewrite <- H. cbn [rsum]. rewrite Rplus_0_l, Rmult_plus_distr_l. f_equal; rewrite <- rsum_scal; apply rsum_ext; intros i I; rewrite <- prolonged_nodal; unfold prolonged; field.
Qed.

Section Mesh.
Variables (m : mesh) (size : nat -> R) (positive : nat -> bool) (ghosts : list nat) (eq : pde).
Hypothesis F : fits m size positive ghosts.
Let nd := m_dim m.
Let rs := m_row_size m.
Let b := m_basis m.
Let wt := b_weight b.
Hypotheses (G : good rs b) (HV : halves rs b) (SY : symmetric rs wt).
Hypotheses (A : additive eq) (NS : has_source eq = false) (NX : (n_update eq <= n_extrap eq)%nat).
Let flow (l : list nat) (g : nat -> R) : R := lsum (fun id => (if positive id then 1 else -1) * size id ^ (nd - 1) * g id) l.
Let qd (a : arr) v := quad (nd - 1) rs wt a v.
Lemma coarse_dec id : {In id (coarse_faces m)} + {~ In id (coarse_faces m)}. Proof. apply in_dec, Nat.eq_dec. Qed.
Lemma flow_ext l g g' : (forall id, In id l -> g id = g' id) -> flow l g = flow l g'.
Proof. intros H. apply lsum_ext. intros id I. now rewrite H. Qed.
Lemma flow_plus l g g' : flow l (fun id => g id + g' id) = flow l g + flow l g'.
Proof. unfold flow. rewrite <- lsum_plus. apply lsum_ext. intros. ring. Qed.

(** neighbors, then refined faces: what leaves elements comes from ghosts *)
Lemma convective_flow s1 v : (v < n_extrap eq)%nat -> (forall c, In c (cons m) -> exists total, forall side, qd (s1 (c_face c side)) v = side_sign c side * total) ->
  outflow m (the_restrict m eq true s1) v = - through m size positive ghosts s1 v.
Proof.
  intros V H. set (s2 := the_restrict m eq true s1). pose (g := fun id => if coarse_dec id then qd (s2 id) v else qd (s1 id) v).
  assert (g1 : forall id, ~ In id (coarse_faces m) -> g id = qd (s1 id) v) by (intros id I; unfold g; destruct (coarse_dec id); [contradiction|reflexivity]).
  assert (g2 : forall id, In id (coarse_faces m) -> g id = qd (s2 id) v) by (intros id I; unfold g; destruct (coarse_dec id); [reflexivity|contradiction]).
  rewrite (outflow_faces m size positive ghosts F). transitivity (flow (inner_faces m) g).
  - apply flow_ext. intros id I. fold nd rs b wt. fold (qd (s2 id) v). destruct (coarse_dec id) as [C|C]; [now rewrite g2|]. rewrite g1 by exact C. unfold s2. rewrite (the_restrict_other m size positive ghosts eq F); [reflexivity|exact C|now apply (inner_mortar m size positive ghosts F)].
  - transitivity (- flow ghosts g); [apply (flow_balance m size positive ghosts F g)|].
    + intros c I. destruct (H c I) as [t T]. exists t. intros side. rewrite <- T. apply g1. apply (side_coarse m size positive ghosts F). now apply side_in.
    + intros r I. rewrite g2 by now apply coarse_in. unfold s2, qd, rs, wt, b, nd. rewrite (the_restrict_quad m size positive ghosts eq F HV s1 r v I V). apply rsum_ext. intros k K. f_equal. symmetry. apply g1. intros C.
      apply (inner_mortar m size positive ghosts F (r_fine r k)); [now apply (coarse_inner m size positive ghosts F)|now apply (mortar_in m size positive ghosts F)].
    + apply f_equal. apply flow_ext. intros id I. apply g1. intros C. apply (inner_ghost m size positive ghosts F id); [now apply (coarse_inner m size positive ghosts F)|exact I].
Qed.
(** the same for the second part of the viscous flux *)
Lemma viscous_flow s0 s1 v : (v < n_extrap eq)%nat -> (forall c, In c (cons m) -> exists total, forall side, qd (s0 (c_face c side)) v + qd (s1 (c_face c side)) v = side_sign c side * total) ->
  (forall r, In r (ref_faces m) -> qd (s0 (r_coarse r)) v = rsum (n_fine nd (r_stretch r)) (fun k => (1 / 2) ^ (nd - 1) * qd (s0 (r_fine r k)) v)) ->
  outflow m s0 v + outflow m (the_restrict m eq true s1) v = - (through m size positive ghosts s0 v + through m size positive ghosts s1 v).
Proof.
  intros V H H0. set (s2 := the_restrict m eq true s1). pose (g := fun id => qd (s0 id) v + if coarse_dec id then qd (s2 id) v else qd (s1 id) v).
  assert (g1 : forall id, ~ In id (coarse_faces m) -> g id = qd (s0 id) v + qd (s1 id) v) by (intros id I; unfold g; destruct (coarse_dec id); [contradiction|reflexivity]).
  assert (g2 : forall id, In id (coarse_faces m) -> g id = qd (s0 id) v + qd (s2 id) v) by (intros id I; unfold g; destruct (coarse_dec id); [reflexivity|contradiction]).
  rewrite !(outflow_faces m size positive ghosts F). transitivity (flow (inner_faces m) g).
  - fold nd rs b wt. change (flow (inner_faces m) (fun id => qd (s0 id) v) + flow (inner_faces m) (fun id => qd (s2 id) v) = flow (inner_faces m) g). rewrite <- flow_plus. apply flow_ext. intros id I. destruct (coarse_dec id) as [C|C]; [now rewrite g2|]. rewrite g1 by exact C. unfold s2. rewrite (the_restrict_other m size positive ghosts eq F); [reflexivity|exact C|now apply (inner_mortar m size positive ghosts F)].
  - transitivity (- flow ghosts g); [apply (flow_balance m size positive ghosts F g)|].
    + intros c I. destruct (H c I) as [t T]. exists t. intros side. rewrite <- T. apply g1. apply (side_coarse m size positive ghosts F). now apply side_in.
    + intros r I. rewrite g2 by now apply coarse_in. rewrite H0 by exact I. unfold s2, qd, rs, wt, b, nd. rewrite (the_restrict_quad m size positive ghosts eq F HV s1 r v I V). rewrite <- rsum_plus. apply rsum_ext. intros k K. rewrite <- Rmult_plus_distr_l. f_equal. symmetry. apply g1. intros C.
      apply (inner_mortar m size positive ghosts F (r_fine r k)); [now apply (coarse_inner m size positive ghosts F)|now apply (mortar_in m size positive ghosts F)].
    + apply f_equal. change (flow ghosts g = flow ghosts (fun id => qd (s0 id) v) + flow ghosts (fun id => qd (s1 id) v)). rewrite <- flow_plus. apply flow_ext. intros id I. apply g1. intros C. apply (inner_ghost m size positive ghosts F id); [now apply (coarse_inner m size positive ghosts F)|exact I].
Qed.

Lemma through_same s s' v : (forall id, In id ghosts -> s id = s' id) -> through m size positive ghosts s v = through m size positive ghosts s' v.
Proof. intros H. apply lsum_ext. intros id I. now rewrite H. Qed.
Lemma run_local_app dt stage cr uf l l' x : run_local m eq dt stage cr uf l' (run_local m eq dt stage cr uf l x) = run_local m eq dt stage cr uf (l ++ l') x.
Proof. unfold run_local. now rewrite fold_left_app. Qed.
Lemma run_reconcile_app dt cr uf l l' x : run_reconcile m eq dt cr uf l' (run_reconcile m eq dt cr uf l x) = run_reconcile m eq dt cr uf (l ++ l') x.
Proof. unfold run_reconcile. now rewrite fold_left_app. Qed.
Definition gain (cr : bool) (x x' : data) v : R := lsum (fun i => amount nd rs wt (m_elem m i) (fun k => if cr then d_ref x' i k else d_state x' i k - d_state x i k) v) (elems m).
Lemma gain_change cr x x' v : gain cr x x' v = if cr then change m (fun _ _ => 0) (d_ref x') v else change m (d_state x) (d_state x') v.
Proof. unfold gain, change. destruct cr; [|reflexivity]. apply lsum_ext. intros i I. f_equal. apply functional_extensionality. intros k. ring. Qed.

Lemma convection_total dt (stage cr uf : bool) x v : has_convection eq = true -> has_diffusion eq = false -> (v < n_update eq)%nat ->
  let x' := compute_convection m eq dt stage cr uf x in let out := through m size positive ghosts (d_st x') v in
  gain cr x x' v = (if stage then dt * b_step_ratio b * (out - cached m (d_ref x) v) else dt * out) /\
  (cr = true -> forall i, In i (elems m) -> d_state x' i = d_state x i) /\
  (cr = false -> stage = false -> cached m (d_ref x') v = out) /\
  (cr = false -> stage = true -> forall i, In i (elems m) -> d_ref x' i = d_ref x i).
Proof.
  intros HC HD V. cbv zeta. unfold compute_convection. rewrite run_neighbor_app. fold (cons m). set (x1 := run_neighbor m eq (cons m) x).
  pose proof (run_neighbor_spec m size positive ghosts eq F SY x) as [_ N2]. fold x1 in N2. pose proof (run_neighbor_keeps m eq (cons m) x) as [K1 K2]. fold x1 in K1, K2. cbv zeta in N2.
  set (x2 := run_restrict m eq true false x1). assert (E2 : d_st x2 = the_restrict m eq true (d_st x1)) by reflexivity. assert (K3 : d_state x2 = d_state x /\ d_ref x2 = d_ref x) by (split; cbn; assumption). destruct K3 as [K3 K4].
  rewrite run_local_app. fold (elems m). set (x3 := run_local m eq dt stage cr uf (elems m) x2).
  destruct (run_local_spec m size positive ghosts eq F G dt stage cr uf x2 A NS ltac:(congruence) ltac:(auto)) as [L1 L2]. fold x3 in L1, L2. cbv zeta in L1, L2.
  set (x4 := run_prolong m eq false false x3). assert (K5 : d_state x4 = d_state x3) by reflexivity. assert (K6 : d_ref x4 = d_ref x3) by reflexivity.
  assert (E4 : through m size positive ghosts (d_st x4) v = through m size positive ghosts (d_st x1) v).
  { apply through_same. intros id I. change (d_st x4 id) with (the_prolong m eq false (d_st x3) id). rewrite (the_prolong_other m size positive ghosts eq F) by (intros M; now apply (mortar_ghost m size positive ghosts F id)).
    rewrite (proj1 (L1 id ltac:(intros Z; now apply (inner_ghost m size positive ghosts F id)))), E2. apply (the_restrict_other m size positive ghosts eq F); [|intros M; now apply (mortar_ghost m size positive ghosts F id)]. intros C. apply (inner_ghost m size positive ghosts F id); [now apply (coarse_inner m size positive ghosts F)|exact I]. }
  rewrite E4.
  assert (OUT : outflow m (d_st x2) v = - through m size positive ghosts (d_st x1) v).
  { rewrite E2. apply convective_flow; [lia|]. intros c I. apply (N2 HC c v I V). }
  split; [|split; [|split]].
  - unfold gain. rewrite K5, K6. set (u := if stage then dt * b_step_ratio b else dt). transitivity (lsum (fun i => u * (-1 * (e_size (m_elem m i) ^ (nd - 1) * flux_out nd rs wt (gather (m_elem m i) (d_st x2)) v) + (if stage then -1 else 0) * (e_size (m_elem m i) ^ (nd - 1) * quad nd rs wt (d_ref x i) v))) (elems m)).
    + apply lsum_ext. intros i I. rewrite <- K3. unfold nd, rs, wt, b. rewrite (er_change _ _ _ _ _ _ _ _ (L2 i I) v V). rewrite HC, HD, K4. fold nd rs b wt. fold u. destruct stage; ring.
    + rewrite lsum_scal, lsum_plus, !lsum_scal. fold (outflow m (d_st x2) v). unfold outflow in OUT. fold nd rs b wt in OUT. rewrite OUT. fold (cached m (d_ref x) v). unfold u, cached. fold nd rs b wt. destruct stage; ring.
  - intros C i I. rewrite K5, <- K3. apply (er_state _ _ _ _ _ _ _ _ (L2 i I) C).
  - intros C ST. rewrite K6. unfold cached. fold nd rs b wt. transitivity (-1 * outflow m (d_st x2) v); [|rewrite OUT; ring]. unfold outflow. fold nd rs b wt. rewrite <- lsum_scal. apply lsum_ext. intros i I. pose proof (er_cache _ _ _ _ _ _ _ _ (L2 i I) C ST HC v V) as X. fold nd rs b wt in X |- *. rewrite X. ring.
  - intros C ST i I. rewrite K6, <- K4. apply (er_cache_kept _ _ _ _ _ _ _ _ (L2 i I) C). now rewrite ST.
Qed.

Lemma diffusion_total dt (cr uf : bool) flux_bc junk x v : has_diffusion eq = true -> (n_extrap eq <= 2 * n_update eq)%nat -> (v < n_update eq)%nat -> (forall s id, ~ In id ghosts -> flux_bc s id = s id) ->
  let y := flux_bc (d_ldg (diffusion_first m eq dt cr uf x)) in let x' := compute_diffusion m eq dt cr uf flux_bc junk x in
  gain cr x x' v = dt * ((if has_convection eq then through m size positive ghosts (d_st x') v else 0) + through m size positive ghosts y v + through m size positive ghosts (d_ldg x') v) /\
  (cr = true -> forall i, In i (elems m) -> d_state x' i = d_state x i).
Proof.
  intros HD NE V BC. cbv zeta. unfold compute_diffusion. 
  assert (D : diffusion_first m eq dt cr uf x = run_prolong m eq true true (run_local m eq dt false cr uf (elems m) (run_restrict m eq false true (run_restrict m eq true false (run_neighbor m eq (cons m) x))))).
  { unfold diffusion_first. rewrite run_neighbor_app, run_local_app. reflexivity. }
  rewrite D. clear D. set (x1 := run_neighbor m eq (cons m) x).
  pose proof (run_neighbor_spec m size positive ghosts eq F SY x) as [_ N2]. fold x1 in N2. pose proof (run_neighbor_keeps m eq (cons m) x) as [K1 K2]. fold x1 in K1, K2. cbv zeta in N2.
  set (x2 := run_restrict m eq false true (run_restrict m eq true false x1)). assert (E2 : d_st x2 = the_restrict m eq true (d_st x1)) by reflexivity. assert (K3 : d_state x2 = d_state x /\ d_ref x2 = d_ref x) by (split; cbn; assumption). destruct K3 as [K3 K4].
  set (x3 := run_local m eq dt false cr uf (elems m) x2). set (x4 := run_prolong m eq true true x3). set (y := flux_bc (d_ldg x4)).
  destruct (run_local_spec m size positive ghosts eq F G dt false cr uf x2 A NS ltac:(auto) ltac:(congruence)) as [L1 L2]. fold x3 in L1, L2. cbv zeta in L1, L2.
  assert (K5 : d_state x4 = d_state x3) by reflexivity. assert (K6 : d_ref x4 = d_ref x3) by reflexivity. assert (K7 : d_st x4 = d_st x3) by reflexivity. assert (K8 : d_ldg x4 = the_prolong m eq true (d_ldg x3)) by reflexivity.
  unfold diffusion_second. rewrite run_reconcile_con_app. fold (cons m). set (x5 := {| d_st := d_st x4; d_ldg := y; d_state := d_state x4; d_ref := d_ref x4 |}). set (x6 := run_neighbor_reconcile m eq junk (cons m) x5).
  pose proof (run_neighbor_reconcile_spec m size positive ghosts eq F SY junk x5) as [_ M2]. fold x6 in M2. cbv zeta in M2.
  set (x7 := run_restrict m eq true true x6). assert (E7 : d_ldg x7 = the_restrict m eq true (d_ldg x6)) by reflexivity. assert (K9 : d_st x7 = d_st x4 /\ d_state x7 = d_state x4 /\ d_ref x7 = d_ref x4) by (repeat split). destruct K9 as (K9 & K10 & K11).
  rewrite run_reconcile_app. fold (elems m). set (x8 := run_reconcile m eq dt cr uf (elems m) x7).
  destruct (run_reconcile_spec m size positive ghosts eq F G dt cr uf x7 A) as (P1 & P2 & P3). fold x8 in P1, P2, P3. cbv zeta in P1, P2, P3.
  set (x9 := run_prolong m eq false false x8). assert (K12 : d_state x9 = d_state x8 /\ d_ref x9 = d_ref x8 /\ d_ldg x9 = d_ldg x8) by (repeat split). destruct K12 as (K12 & K13 & K14).
  assert (GH : forall id, In id ghosts -> ~ In id (all_mortars m) /\ ~ In id (inner_faces m) /\ ~ In id (coarse_faces m)).
  { intros id I. split; [intros M; now apply (mortar_ghost m size positive ghosts F id)|]. assert (~ In id (inner_faces m)) by (intros Z; now apply (inner_ghost m size positive ghosts F id)). split; [assumption|]. intros C. now apply (coarse_inner m size positive ghosts F) in C. }
  assert (IG : forall id, In id (inner_faces m) -> ~ In id ghosts) by apply (inner_ghost m size positive ghosts F).
  assert (E9 : through m size positive ghosts (d_st x9) v = through m size positive ghosts (d_st x1) v).
  { apply through_same. intros id I. destruct (GH id I) as (G1 & G2 & G3). change (d_st x9 id) with (the_prolong m eq false (d_st x8) id). rewrite (the_prolong_other m size positive ghosts eq F) by exact G1. rewrite P1, K9, K7 by exact G2.
    rewrite (proj1 (L1 id G2)), E2. now apply (the_restrict_other m size positive ghosts eq F). }
  assert (E10 : through m size positive ghosts (d_ldg x9) v = through m size positive ghosts (d_ldg x6) v).
  { apply through_same. intros id I. destruct (GH id I) as (G1 & G2 & G3). rewrite K14, P2, E7. now apply (the_restrict_other m size positive ghosts eq F). }
  rewrite E9, E10.
  assert (OUT : has_convection eq = true -> outflow m (d_st x2) v = - through m size positive ghosts (d_st x1) v).
  { intros HC. rewrite E2. apply convective_flow; [lia|]. intros c I. apply (N2 HC c v I V). }
  assert (OUT2 : outflow m (d_ldg x3) v = outflow m y v).
  { unfold outflow. apply lsum_ext. intros i I. f_equal. apply (flux_out_ext m size positive ghosts F). intros f FI. pose proof (face_in m size positive ghosts F i f I FI) as IN. unfold gather, y. rewrite BC by now apply IG. rewrite K8, (the_prolong_other m size positive ghosts eq F) by now apply (inner_mortar m size positive ghosts F). reflexivity. }
  assert (OUT3 : outflow m y v + outflow m (d_ldg x7) v = - (through m size positive ghosts y v + through m size positive ghosts (d_ldg x6) v)).
  { rewrite E7. apply viscous_flow; [lia|intros c I; apply (M2 c v I V)|]. intros r I. assert (Y : forall id, ~ In id ghosts -> y id = the_prolong m eq true (d_ldg x3) id) by (intros id Z; unfold y; rewrite BC by exact Z; now rewrite K8).
    assert (C : In (r_coarse r) (inner_faces m)) by (apply (coarse_inner m size positive ghosts F); now apply coarse_in). rewrite Y by now apply IG. rewrite (the_prolong_other m size positive ghosts eq F) by now apply (inner_mortar m size positive ghosts F).
    unfold qd, rs, wt, b, nd. rewrite (the_prolong_quad m size positive ghosts eq F HV (d_ldg x3) r v I) by lia. apply rsum_ext. intros k K. rewrite Y; [reflexivity|]. apply (mortar_ghost m size positive ghosts F). now apply (mortar_in m size positive ghosts F). }
  split.
  - transitivity (lsum (fun i => dt * (-1 * ((if has_convection eq then 1 else 0) * (e_size (m_elem m i) ^ (nd - 1) * flux_out nd rs wt (gather (m_elem m i) (d_st x2)) v) + (e_size (m_elem m i) ^ (nd - 1) * flux_out nd rs wt (gather (m_elem m i) (d_ldg x3)) v + e_size (m_elem m i) ^ (nd - 1) * flux_out nd rs wt (gather (m_elem m i) (d_ldg x7)) v)))) (elems m)).
    + unfold gain. apply lsum_ext. intros i I. pose proof (er_change _ _ _ _ _ _ _ _ (L2 i I) v V) as X1. destruct (P3 i I) as (X2 & _). specialize (X2 v V).
      fold nd rs b wt in X1, X2. rewrite HD in X1. rewrite K12, K13. rewrite <- K3. rewrite K10, K11, K5, K6 in X2.
      transitivity (amount nd rs wt (m_elem m i) (fun k => if cr then d_ref x3 i k else d_state x3 i k - d_state x2 i k) v + amount nd rs wt (m_elem m i) (fun k => if cr then d_ref x8 i k - d_ref x3 i k else d_state x8 i k - d_state x3 i k) v).
      * unfold amount, quad. rewrite <- Rmult_plus_distr_l, <- rsum_plus. f_equal. apply rsum_ext. intros q Q. destruct cr; unfold Rdiv; ring.
      * rewrite X1, X2. destruct (has_convection eq); ring.
    + rewrite lsum_scal, lsum_scal, lsum_plus, lsum_plus, lsum_scal. unfold outflow in OUT, OUT2, OUT3. fold nd rs b wt in OUT, OUT2, OUT3. rewrite OUT2, OUT3.
      destruct (has_convection eq); [rewrite OUT by reflexivity|]; ring.
  - intros C i I. rewrite K12. destruct (P3 i I) as (_ & X & _). rewrite (X C), K10, K5. rewrite (er_state _ _ _ _ _ _ _ _ (L2 i I) C). now rewrite K3.
Qed.
End Mesh.
