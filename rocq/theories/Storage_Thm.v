(** Theorems about storage layout (property C21). *)
From Coq Require Import List Arith Lia.
From Verif Require Import Storage_Model Storage_Spec Storage_Proofs.
Import ListNotations.

(** C21: the blocks of an element lie within its storage and are pairwise disjoint, for all storage parameters. *)
Theorem element_blocks_disjoint : forall p,
  Forall (within (data_size p))
    ([(stage p 0, n_dof p); (time_step_scale p, n_qpoint p); (bulk_av_coef p, n_qpoint p); (laplacian_av_coef p, n_qpoint p);
      (art_visc_forcing p, n_forcing p * n_qpoint p); (advection_state p, row_size p * n_qpoint p)]
     ++ map (fun i => (stage p i, n_dof p)) (seq 1 (n_stage p - 1)))
  /\ pairwise_disjoint
    ([(stage p 0, n_dof p); (time_step_scale p, n_qpoint p); (bulk_av_coef p, n_qpoint p); (laplacian_av_coef p, n_qpoint p);
      (art_visc_forcing p, n_forcing p * n_qpoint p); (advection_state p, row_size p * n_qpoint p)]
     ++ map (fun i => (stage p i, n_dof p)) (seq 1 (n_stage p - 1))).
Proof. exact (fun p => conj (element_within p) (element_blocks p)). Qed.
Print Assumptions element_blocks_disjoint.

(** C21: the residual cache (which by design shares storage with the stages after the first) has room for the residual of the
    flow variables if there are two stages, and for that of the advection variables; it meets none of the other blocks. *)
Theorem residual_cache_room : forall p k, k <= row_size p \/ k <= (n_stage p - 1) * n_var p ->
  within (data_size p) (residual_cache p, k * n_qpoint p)
  /\ Forall (disjoint (residual_cache p, k * n_qpoint p))
      [(stage p 0, n_dof p); (time_step_scale p, n_qpoint p); (bulk_av_coef p, n_qpoint p); (laplacian_av_coef p, n_qpoint p);
       (art_visc_forcing p, n_forcing p * n_qpoint p); (advection_state p, row_size p * n_qpoint p)].
Proof. exact residual_cache_block. Qed.
Print Assumptions residual_cache_room.

(** C21: per-vertex values of an element are stored separately. *)
Theorem vertex_values_separate : forall p i j, i < n_vertices p -> j < n_vertices p ->
  vertex_time_step_scale p i < vertex_data_size p /\ vertex_elwise_av p i < vertex_data_size p
  /\ vertex_time_step_scale p i <> vertex_elwise_av p j
  /\ (vertex_time_step_scale p i = vertex_time_step_scale p j -> i = j) /\ (vertex_elwise_av p i = vertex_elwise_av p j -> i = j).
Proof. unfold vertex_time_step_scale, vertex_elwise_av, vertex_data_size. lia. Qed.
Print Assumptions vertex_values_separate.

(** C21: the constants by which the PDE kernels address variables relative to the flow state agree with the blocks of the
    element (with the flow variables of the solver and the default number of forcing variables), and everything a PDE reads
    or writes lies before the residual cache. *)
Theorem pde_offsets_agree : forall p, n_var p = n_dim p + 2 -> n_forcing p = 4 ->
  tss_offset (n_dim p) * n_qpoint p = time_step_scale p
  /\ bulk_av_offset (n_dim p) * n_qpoint p = bulk_av_coef p
  /\ laplacian_av_offset (n_dim p) * n_qpoint p = laplacian_av_coef p
  /\ forcing_offset (n_dim p) * n_qpoint p = art_visc_forcing p
  /\ advection_offset (n_dim p) * n_qpoint p = advection_state p
  /\ forall eq v, In eq (all_pdes (n_dim p) (row_size p)) -> In v (reads eq ++ writes eq) ->
       within (residual_cache p) (v * n_qpoint p, n_qpoint p).
Proof.
  intros p Hv Hf. destruct (pde_offsets p Hv Hf) as (H1 & H2 & H3 & H4 & H5). repeat split; auto.
  intros eq v Heq Hin. exact (pde_state_vars p eq v Hv Hf Heq Hin).
Qed.
Print Assumptions pde_offsets_agree.

(** C21: the face data that the kernels of any PDE use on the two sides of a connection, and the face normals of a deformed
    connection, lie within the connection's storage and are pairwise disjoint. *)
Theorem connection_blocks_disjoint : forall p eq (deformed : bool), In eq (all_pdes (n_dim p) (row_size p)) ->
  n_var p = n_dim p + 2 -> 0 < n_dim p -> 0 < row_size p ->
  let on_side (i : nat) : list block :=
    (con_state p i false, n_extrap eq * n_face_qpoint p)
    :: (if has_diffusion eq then [(con_state p i true, n_extrap eq * n_face_qpoint p)] else []) in
  let blocks : list block := on_side 0 ++ on_side 1
    ++ (if deformed then [(con_normal p 0, n_dim p * n_face_qpoint p); (con_normal p 1, n_dim p * n_face_qpoint p)] else []) in
  Forall (within (con_data_size deformed p)) blocks /\ pairwise_disjoint blocks.
Proof.
  intros p eq deformed H1 H2 H3 H4. pose proof (face_blocks_ok p eq H1 H2 H3 H4 deformed) as H.
  unfold pde_face_blocks in H. rewrite face_offset_eq in H.
  replace (con_state p 0 false + con_state p 0 true) with (con_state p 0 true) in H by (unfold con_state; cbn; lia).
  replace (con_state p 1 false + con_state p 0 true) with (con_state p 1 true) in H by (unfold con_state; cbn; lia).
  exact H.
Qed.
Print Assumptions connection_blocks_disjoint.

(** C21: an element reaches the viscous face data at the place where the connection keeps them. *)
Theorem face_pointer_agrees : forall p i_side is_ldg, con_state p i_side false + face_offset p is_ldg = con_state p i_side is_ldg.
Proof. intros. rewrite face_offset_eq. unfold con_state. destruct is_ldg; cbn [Nat.b2n]; lia. Qed.
Print Assumptions face_pointer_agrees.

(** C21: the storage of the coarse face of a hanging-node connection, which is sized differently, is large enough exactly for
    row sizes up to [2*n_dim + 6]; this includes the default maximal row size, 8 (CMakeLists.txt:74-75). *)
Theorem coarse_storage_fits : forall p, n_var p = n_dim p + 2 -> 0 < n_dim p -> 0 < row_size p ->
  ((forall eq, In eq (all_pdes (n_dim p) (row_size p)) ->
      Forall (within (coarse_size p))
        ((0, n_extrap eq * n_face_qpoint p) :: if has_diffusion eq then [(face_offset p true, n_extrap eq * n_face_qpoint p)] else []))
   <-> row_size p <= 2 * n_dim p + 6).
Proof. exact coarse_fits. Qed.
Print Assumptions coarse_storage_fits.

(** A 3D element with row size 3 and two stages; a 2D hanging-node face with row size 11 does not have enough storage. *)
Example storage_example :
  (let p := mk_params 2 5 3 3 4 in
   [stage p 0; time_step_scale p; bulk_av_coef p; laplacian_av_coef p; art_visc_forcing p; advection_state p; stage p 1; data_size p]
   = map (fun k => k * 27) [0; 5; 6; 7; 8; 12; 15; 20])
  /\ (let p := mk_params 2 4 2 11 4 in
      coarse_size p = 132 /\ n_extrap (advection 2 11) * n_face_qpoint p = 143 /\ ~ within (coarse_size p) (0, 143)).
Proof.
  split; [reflexivity|]. cbv zeta. split; [reflexivity|]. split; [reflexivity|].
  intros H. specialize (H 132). unfold covers in H. cbn [fst snd] in H. change (coarse_size _) with 132 in H. lia.
Qed.
