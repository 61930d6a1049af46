(** Theorems: a uniform viscous flow stays uniform. *)
From Coq Require Import Reals List Arith Lia Lra.
From Verif Require Import RSum Tensor_Spec Connection_Model Basis_Spec Quad_Model Quad_Spec Quad_Proofs Spatial_Model Spatial_Spec Spatial_Proofs4 Spatial_Thm Free_Spec Free_Model Free_Proofs1 Free_Proofs3 Free_Proofs4 Free_Thm.
From Verif Require Import Jac_Model Jac_Spec Jac_Proofs3 Jac_Proofs8 Jac_Thm Visc_Model Visc_Spec Visc_Proofs2 Visc_Proofs4 Visc_Proofs5.
From Verif Require Quad_Thm.
Import ListNotations.
Local Open Scope R_scope.

(** The diffusive kernels on a mesh whose normals close, for any PDE with a convective flux that is linear in the normal and a
    diffusive flux that vanishes with the gradient: the state stays as it is and the rate of change is zero. *)
Theorem visc_kernels : forall m size positive ghosts node w ratio eq n u ue f fn flux_bc dt compute_residual use_filter junk x,
  fits m size positive ghosts -> m_basis m = basis_on (m_row_size m) node w ratio -> as_lobatto (m_row_size m) node w ->
  carried (m_dim m) eq n u ue f -> additive eq -> has_convection eq = true -> has_diffusion eq = true -> has_source eq = false -> (n_extrap eq <= 2 * n_update eq)%nat -> still (m_dim m) eq ->
  closed m fn -> sees m fn -> insulating m (n_update eq) ghosts flux_bc -> uniform m eq n u ue x ->
  let x' := compute_diffusion m eq dt compute_residual use_filter flux_bc junk x in
  (forall i, In i (elems m) -> d_state x' i = d_state x i /\ filled (n_update eq) (m_row_size m ^ m_dim m) (fun _ => 0) (d_ref x' i)) /\
  (forall id, In id (inner_faces m) \/ In id (all_mortars m) -> filled (n_extrap eq) (m_row_size m ^ (m_dim m - 1)) ue (d_st x' id)).
Proof.
  intros m size positive ghosts node w ratio eq n u ue f fn flux_bc dt cr uf junk x F B LB C A HC HD HS NE ST CL SE IB UN.
  exact (diffusion_uniform m size positive ghosts node w ratio eq n u ue f fn flux_bc F B LB C A HC HD HS NE ST CL SE IB dt cr uf junk x UN).
Qed.
Print Assumptions visc_kernels.

(** [Solver::initialize] with a constant state and that state as freestream at all boundaries, for any transport models: after any
    number of time steps, of whatever length, the state is the same in every element, and the residual is zero. *)
Theorem visc_uniform_flow : forall m size positive bcs node w ratio dyn_visc therm_cond u fn junk use_filter dts x,
  fits m size positive (map snd bcs) -> incl (map fst bcs) (inner_faces m) -> m_basis m = basis_on (m_row_size m) node w ratio -> as_lobatto (m_row_size m) node w -> closed m fn -> sees m fn ->
  let y := viscous_steps m dyn_visc therm_cond u bcs junk use_filter dts (initialize m (navier_stokes (m_dim m) dyn_visc therm_cond) u x) in
  let z := viscous_residual m dyn_visc therm_cond u bcs junk use_filter y in
  forall i, In i (elems m) -> filled (m_dim m + 2) (m_row_size m ^ m_dim m) u (d_state y i) /\
    filled (m_dim m + 2) (m_row_size m ^ m_dim m) (fun _ => 0) (d_ref z i) /\ d_state z i = d_state y i.
Proof.
  intros m size positive bcs node w ratio dv tc u fn junk uf dts x F IN B LB CL SE y z i I.
  assert (U : unital (m_row_size m) (m_basis m)) by (rewrite B; apply basis_unital; [pose proof (fit_rows _ _ _ _ F); lia|apply LB]).
  pose proof (initialize_calm m size positive (map snd bcs) (navier_stokes (m_dim m) dv tc) u _ F U (ns_carried (m_dim m) dv tc u) x) as K.
  destruct (visc_calm_steps m size positive bcs node w ratio dv tc u fn F B LB IN CL SE junk uf dts _ K) as [K1 _]. fold y in K1.
  destruct (calm_diffusion m size positive bcs node w ratio dv tc u fn F B LB IN CL SE junk uf true 1 y K1) as [_ E].
  split; [exact (proj1 K1 i I)|]. destruct (E i I) as [E1 E2]. split; [exact E2|exact E1].
Qed.
Print Assumptions visc_uniform_flow.

(** In particular on every mesh, in two or three dimensions, with deformed elements that are given by their vertices and meet in
    any orientation, and with hanging nodes. *)
Theorem visc_deformed : forall m pos size positive conf hang bcs st node w ratio v dyn_visc therm_cond u junk use_filter dts x,
  let m' := point_normals (fst (calc_jacobian m pos hang bcs st)) (snd (calc_jacobian m pos hang bcs st)) in
  let pairs := map (fun c => (c_face c false, c_face c true)) bcs in
  fits m' size positive (map snd pairs) -> arranged m (map snd pairs) conf hang bcs -> m_basis m = basis_on (m_row_size m) node w ratio -> as_legendre (m_row_size m) node w -> mirrored (m_row_size m) node ->
  (2 <= m_dim m)%nat -> by_vertices m node pos v conf hang ->
  let y := viscous_steps m' dyn_visc therm_cond u pairs junk use_filter dts (initialize m' (navier_stokes (m_dim m) dyn_visc therm_cond) u x) in
  let z := viscous_residual m' dyn_visc therm_cond u pairs junk use_filter y in
  forall i, In i (elems m) -> filled (m_dim m + 2) (m_row_size m ^ m_dim m) u (d_state y i) /\ filled (m_dim m + 2) (m_row_size m ^ m_dim m) (fun _ => 0) (d_ref z i).
Proof.
  intros m pos size positive conf hang bcs st node w ratio v dv tc u junk uf dts x m' pairs F AR B LG MI N2 BV. set (m1 := fst (calc_jacobian m pos hang bcs st)) in *. set (st1 := snd (calc_jacobian m pos hang bcs st)) in *.
  pose proof (point_fits m1 st1 size positive _ F) as F1. assert (D : distinct (m_row_size m) node) by apply LG.
  assert (LB : as_lobatto (m_row_size m) node w) by (destruct LG as [RU IG]; split; [exact RU|apply (integrates_le _ _ _ (2 * m_row_size m)); [lia|exact IG]]).
  pose proof (after_closed m pos size positive _ conf hang bcs st F1 AR node w ratio B (vertices_agree m pos size positive _ conf hang bcs st node w ratio v F1 AR B D MI N2 BV) LG
    (fun i I => vertices_element m pos size positive _ conf hang bcs st node w ratio v F1 B D N2 BV LG i I)) as CL. fold m1 st1 in CL.
  assert (M : m_dim m1 = m_dim m /\ m_row_size m1 = m_row_size m /\ m_basis m1 = m_basis m /\ elems m1 = elems m /\ inner_faces m1 = inner_faces m).
  { unfold m1. rewrite (after_mesh m pos hang bcs st). repeat split. unfold inner_faces. cbn [elems car_elems def_elems m_dim m_elem]. apply flat_map_ext. intros i. unfold faces_of. now rewrite set_face. }
  destruct M as (M1 & M2 & M3 & M4 & M5). intros y z i I. rewrite <- M4 in I.
  assert (IN : incl (map fst pairs) (inner_faces m')).
  { intros id H. change (inner_faces m') with (inner_faces m1). rewrite M5. unfold pairs in H. rewrite map_map in H. apply in_map_iff in H as (c & <- & H). exact (proj1 (ar_bcs _ _ _ _ _ AR c H)). }
  pose proof (visc_uniform_flow m' size positive pairs node w ratio dv tc u st1 junk uf dts x F IN ltac:(cbn [m' point_normals m_basis m_row_size]; now rewrite M3, M2) ltac:(cbn [m' point_normals m_row_size]; now rewrite M2) (point_closed m1 st1 st1 CL) (bent_sees m pos size positive _ conf hang bcs st node v F1 BV) i I) as H.
  cbv zeta in H. change (m_dim m') with (m_dim m1) in H. change (m_row_size m') with (m_row_size m1) in H. rewrite M1, M2 in H. fold y in H. fold z in H. tauto.
Qed.
Print Assumptions visc_deformed.

(** ** the Cartesian and the deformed mesh with a hanging node *)
Definition ex_pairs : list (nat * nat) := [(0, 20); (2, 21); (3, 22); (5, 23); (6, 24); (9, 25); (11, 26)]%nat.
Example visc_example : forall u junk use_filter dts x i, In i [0; 1; 2]%nat ->
  let air := sutherland (1716 / 100000000) (273) (111) in
  filled 4 4 u (d_state (viscous_steps ex_mesh air (constant (26 / 1000)) u ex_pairs junk use_filter dts (initialize ex_mesh (navier_stokes 2 air (constant (26 / 1000))) u x)) i).
Proof.
  intros u junk uf dts x i I air. refine (proj1 (visc_uniform_flow ex_mesh _ _ ex_pairs INR (fun _ => 1 / 2) (1 / 2) air _ u _ junk uf dts x spatial_fits _ eq_refl ex_lobatto (free_cartesian ex_mesh _ _ _ INR (fun _ => 1 / 2) (1 / 2) ex_axis spatial_fits eq_refl ex_lobatto free_example_cartesian) _ i I)).
  - intros id H. cbn in H |- *. tauto.
  - exact (cartesian_sees _ _ _ free_example_cartesian).
Qed.
Example visc_deformed_example : forall u junk use_filter dts x i, In i [0; 1; 2]%nat ->
  let air := sutherland (1716 / 100000000) (273) (111) in
  let m' := point_normals (fst (calc_jacobian ex_bent ex_pos ex_hang ex_bcs (fun _ _ => 0))) (snd (calc_jacobian ex_bent ex_pos ex_hang ex_bcs (fun _ _ => 0))) in
  filled 4 4 u (d_state (viscous_steps m' air inviscid u ex_pairs junk use_filter dts (initialize m' (navier_stokes 2 air inviscid) u x)) i).
Proof.
  intros u junk uf dts x i I air m'. refine (proj1 (visc_deformed ex_bent ex_pos _ _ ex_conf ex_hang ex_bcs (fun _ _ => 0) Quad_Thm.gauss_node Quad_Thm.gauss_weight (1 / 2) ex_vert air _ u junk uf dts x (fits_point _ _ _ _ _ jac_fits) jac_arranged eq_refl ex_legendre ex_mirrored (le_n 2) jac_by_vertices i I)).
Qed.
(** every face of the deformed elements has a normal to look at *)
Example visc_points : forall f i, (f < 4)%nat -> In i [0; 1; 2]%nat -> on_deformed ex_bent (4 * i + f) = true.
Proof. intros f i L I. destruct I as [<-|[<-|[<-|[]]]]; destruct f as [|[|[|[|f]]]]; try lia; reflexivity. Qed.
