(** Theorems: a uniform flow stays uniform. *)
From Coq Require Import Reals List Arith Lia Lra.
From Verif Require Import RSum Tensor_Spec Connection_Model Basis_Spec Quad_Model Quad_Spec Spatial_Model Spatial_Spec Spatial_Proofs4 Spatial_Thm Free_Spec Free_Model Free_Proofs1 Free_Proofs3 Free_Proofs4.
From Verif Require Quad_Thm.
Import ListNotations.
Local Open Scope R_scope.

(** The convective kernels on a mesh whose normals close, for any PDE with a flux that is linear in the normal: the state stays
    as it is and the rate of change is zero; the mesh may have deformed elements, connections in any direction and hanging nodes. *)
Theorem free_kernels : forall m size positive ghosts node w ratio eq n u ue f fn dt stage compute_residual use_filter x,
  fits m size positive ghosts -> m_basis m = basis_on (m_row_size m) node w ratio -> as_lobatto (m_row_size m) node w ->
  carried (m_dim m) eq n u ue f -> additive eq -> has_convection eq = true -> has_diffusion eq = false -> has_source eq = false -> closed m fn ->
  uniform m eq n u ue x -> (stage = true -> forall i, In i (elems m) -> filled (n_update eq) (m_row_size m ^ m_dim m) (fun _ => 0) (d_ref x i)) ->
  let x' := compute_convection m eq dt stage compute_residual use_filter x in
  (forall i, In i (elems m) -> d_state x' i = d_state x i /\ filled (n_update eq) (m_row_size m ^ m_dim m) (fun _ => 0) (d_ref x' i)) /\
  (forall id, In id (inner_faces m) \/ In id (all_mortars m) -> filled (n_extrap eq) (m_row_size m ^ (m_dim m - 1)) ue (d_st x' id)).
Proof.
  intros m size positive ghosts node w ratio eq n u ue f fn dt stage cr uf x F B LB C A HC HD HS CL UN RF.
  assert (U : unital (m_row_size m) (m_basis m)) by (rewrite B; apply basis_unital; [pose proof (fit_rows _ _ _ _ F); lia|apply LB]).
  exact (convection_uniform m size positive ghosts eq n u ue f fn F U C A HC HD HS CL dt stage cr uf x UN RF).
Qed.
Print Assumptions free_kernels.

(** [Solver::initialize] with a constant state and that state as freestream at all boundaries: after any number of time steps, of
    whatever length, the state is the same in every element, and the residual is zero. *)
Theorem free_uniform_flow : forall m size positive ghosts node w ratio u fn use_filter dts x,
  fits m size positive ghosts -> m_basis m = basis_on (m_row_size m) node w ratio -> as_lobatto (m_row_size m) node w -> closed m fn ->
  let eq := euler (m_dim m) in
  let y := inviscid_steps m eq u ghosts use_filter dts (initialize m eq u x) in
  let z := inviscid_residual m eq u ghosts use_filter y in
  forall i, In i (elems m) -> filled (m_dim m + 2) (m_row_size m ^ m_dim m) u (d_state y i) /\
    filled (m_dim m + 2) (m_row_size m ^ m_dim m) (fun _ => 0) (d_ref z i) /\ d_state z i = d_state y i.
Proof.
  intros m size positive ghosts node w ratio u fn uf dts x F B LB CL eq y z i I.
  assert (U : unital (m_row_size m) (m_basis m)) by (rewrite B; apply basis_unital; [pose proof (fit_rows _ _ _ _ F); lia|apply LB]).
  pose proof (euler_carried (m_dim m) u) as C. pose proof (euler_additive (m_dim m)) as A.
  pose proof (initialize_calm m size positive ghosts eq u _ F U C x) as K.
  destruct (calm_steps m size positive ghosts eq u _ fn F U C A eq_refl eq_refl eq_refl CL uf dts _ K) as [K1 _]. fold y in K1.
  destruct (calm_stage m size positive ghosts eq u _ fn F U C A eq_refl eq_refl eq_refl CL 1 false true uf y K1) as [_ E]; [discriminate|]. fold z in E.
  split; [exact (proj1 K1 i I)|]. destruct (E i I) as [E1 E2]. split; [exact E2|exact E1].
Qed.
Print Assumptions free_uniform_flow.

(** Cartesian meshes close, with hanging nodes. *)
Theorem free_cartesian : forall m size positive ghosts node w ratio axis,
  fits m size positive ghosts -> m_basis m = basis_on (m_row_size m) node w ratio -> as_lobatto (m_row_size m) node w -> cartesian m axis ->
  closed m (fun id k => if (k / m_row_size m ^ (m_dim m - 1) =? axis id)%nat then 1 else 0).
Proof. exact cartesian_closed. Qed.
Print Assumptions free_cartesian.

(** ** The mesh with a hanging node is Cartesian. *)
Definition ex_axis (id : nat) : nat := if existsb (Nat.eqb id) [2; 3; 6; 7; 10; 11; 21; 22; 24; 26]%nat then 1 else 0.
Lemma ex_lobatto : as_lobatto 2 INR (fun _ => 1 / 2).
Proof. exact (proj1 Quad_Thm.quad_lobatto_restrict). Qed.
Example free_example_cartesian : cartesian ex_mesh ex_axis.
Proof.
  constructor; cbn [m_dim ex_mesh].
  - intros i k I K. cbn in I. destruct I as [<-|[<-|[<-|[]]]]; (split; [reflexivity|]); destruct k as [|[|[|[|k]]]]; try reflexivity; lia.
  - intros c side I. cbn in I. repeat (destruct I as [<-|I]; [split; [reflexivity|destruct side; reflexivity]|]). destruct I.
  - intros r I. cbn in I. destruct I as [<-|[]]. split; [reflexivity|]. intros k K. cbn in K. destruct k as [|[|k]]; [reflexivity..|lia].
Qed.
Example free_example : forall u use_filter dts x i, In i [0; 1; 2]%nat ->
  filled 4 4 u (d_state (inviscid_steps ex_mesh (euler 2) u [20; 21; 22; 23; 24; 25; 26]%nat use_filter dts (initialize ex_mesh (euler 2) u x)) i).
Proof.
  intros u uf dts x i I. refine (proj1 (free_uniform_flow ex_mesh _ _ _ INR (fun _ => 1 / 2) (1 / 2) u _ uf dts x spatial_fits eq_refl ex_lobatto (free_cartesian ex_mesh _ _ _ INR (fun _ => 1 / 2) (1 / 2) ex_axis spatial_fits eq_refl ex_lobatto free_example_cartesian) i I)).
Qed.
(** ** An element whose normal is not the same everywhere is not closed. *)
Example free_open : ~ closed_element 1 2 (basis_on 2 INR (fun _ => 1 / 2) (1 / 2))
  {| e_face := fun f => f; e_tss := fun _ => 1; e_size := 1; e_deformed := true; e_det := fun _ => 1; e_nrml := fun q => 1 + INR q; e_face_nrml := fun _ => None |} (fun k _ => 1 + INR k).
Proof.
  intros H. specialize (H 0%nat 0%nat (Nat.lt_0_succ 0) (Nat.lt_0_succ 1)). revert H. cbv -[Rplus Rmult Rminus Ropp Rinv Rdiv IZR]. intros H. field_simplify in H. replace (- (1) / - (1)) with 1 in H by field. lra.
Qed.
