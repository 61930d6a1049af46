(** Theorems: integrals over the mesh and over boundaries. *)
From Coq Require Import Reals List Arith Lia Lra.
From Coquelicot Require Import Coquelicot.
From Verif Require Import Outcome ListUtil Loop RSum Tensor_Model Tensor_Spec Basis_Spec Quad_Model Quad_Spec Connection_Model Connection_Spec Spatial_Model Spatial_Spec Spatial_Proofs5 Free_Spec Jac_Model Jac_Spec Jac_Proofs3 Jac_Proofs5 Jac_Proofs8
  Spatial_Thm Jac_Thm Integral_Model Integral_Spec Integral_Proofs1 Integral_Proofs2 Integral_Proofs3.
Import ListNotations.
Local Open Scope R_scope.

(** [integral_field] never reads beyond an array and returns, for every variable, the sum over all elements, Cartesian and deformed, of
    the quadrature of the integrand times the volume. *)
Theorem integral_sum : forall fuel m n_var f, (0 < m_row_size m)%nat -> (m_dim m <= fuel)%nat ->
  (forall i q, In i (elems m) -> (q < m_row_size m ^ m_dim m)%nat -> length (f i q) = n_var) ->
  exists r, integral_field fuel m n_var f = Ok r /\ length r = n_var /\ forall v, (v < n_var)%nat ->
    nth v r 0 = lsum (fun i => e_size (m_elem m i) ^ m_dim m * rsum (m_row_size m ^ m_dim m) (fun q =>
      outer_power (m_row_size m) (b_weight (m_basis m)) (m_dim m) q * nth v (f i q) 0 * (if e_deformed (m_elem m i) then e_det (m_elem m i) q else 1))) (elems m).
Proof.
  intros fuel m n_var f RS FU LE. destruct (field_total fuel m n_var f RS FU LE) as (r & E & L & T). exists r. split; [exact E|]. split; [exact L|]. intros v V. rewrite (T v V). apply lsum_ext. intros i I. rewrite <- rsum_scal. apply rsum_ext. intros q Q. unfold determinant_at. ring.
Qed.
Print Assumptions integral_sum.

(** The integral of a polynomial is exact: it is the integral over the elements, transformed to the unit cube by the map of each element, with
    the determinant of any derivative [D] of that map. The degree in each coordinate may be up to [2 * rs - nd]. *)
Theorem integral_exact : forall m pos hang bcs st node w ratio v D fuel n_var f F, let nd := m_dim m in let rs := m_row_size m in
  (2 <= nd <= 3)%nat -> (2 <= rs)%nat -> m_basis m = basis_on rs node w ratio -> as_legendre rs node w ->
  by_corners m node pos v -> (forall i, In i (elems m) -> e_size (m_elem m i) <> 0) -> (forall i, In i (elems m) -> derivative_of nd (v i) (D i)) -> (nd <= fuel)%nat ->
  (forall i q, In i (elems m) -> (q < rs ^ nd)%nat -> length (f i q) = n_var /\ forall k, (k < n_var)%nat -> nth k (f i q) 0 = F i k (fun l => node (digit rs nd l q))) ->
  (forall i k, In i (elems m) -> (k < n_var)%nat -> poly_in_each nd (2 * rs - nd + 1) (F i k)) ->
  exists r, integral_field fuel (fst (calc_jacobian m pos hang bcs st)) n_var f = Ok r /\ length r = n_var /\ forall k, (k < n_var)%nat ->
    nth k r 0 = lsum (fun i => cube_integral nd (fun y => F i k y * det nd (fun r c => D i r c y))) (elems m).
Proof.
  intros m pos hang bcs st node w ratio v D fuel n_var f F nd rs N RS B LG BC SZ DE FU FV PF. destruct (field_exact m pos node w ratio v N RS B LG BC SZ fuel hang bcs st n_var f F FU FV PF) as (r & E & L & T).
  exists r. split; [exact E|]. split; [exact L|]. intros k K. rewrite (T k K). apply lsum_ext. intros i I. apply cube_ext. intros y. f_equal. unfold jdet. fold nd. clear - N DE I. specialize (DE i I).
  assert (H : forall r c, (r < nd)%nat -> (c < nd)%nat -> D i r c y = Jac_Proofs5.tang nd (v i r) c y) by (intros; now apply tang_derivative). clearbody nd. destruct nd as [|[|[|[|n]]]]; try lia; unfold det, det2; rewrite !H by lia; reflexivity.
Qed.
Print Assumptions integral_exact.

(** In two dimensions the integral of one is the area of the quadrilaterals. *)
Theorem integral_area : forall m pos hang bcs st node w ratio v fuel, m_dim m = 2%nat -> (2 <= m_row_size m)%nat ->
  m_basis m = basis_on (m_row_size m) node w ratio -> as_legendre (m_row_size m) node w -> by_corners m node pos v -> (forall i, In i (elems m) -> e_size (m_elem m i) <> 0) -> (2 <= fuel)%nat ->
  integral_field fuel (fst (calc_jacobian m pos hang bcs st)) 1 (fun _ _ => [1]) = Ok [lsum (fun i => shoelace (v i)) (elems m)].
Proof.
  intros m pos hang bcs st node w ratio v fuel N2 RS B LG BC SZ FU.
  destruct (field_exact m pos node w ratio v ltac:(lia) RS B LG BC SZ fuel hang bcs st 1 (fun _ _ => [1]) (fun _ _ _ => 1) ltac:(lia)) as (r & E & L & T).
  - intros i q I Q. split; [reflexivity|]. intros [|k] K; [reflexivity|lia].
  - intros i k I K. apply const_in_each. lia.
  - rewrite E. f_equal. destruct r as [|x [|y r]]; try discriminate. f_equal. pose proof (T 0%nat ltac:(lia)) as T0. cbn [nth] in T0. rewrite T0, N2. apply lsum_ext. intros i I. apply area_shoelace.
Qed.
Print Assumptions integral_area.

(** Without local time steps, the integrals of the state differ by what Spatial_Spec calls the change of the total, which the theorems of
    Spatial_Thm express by what goes through the boundary. *)
Definition state_at (m : mesh) (n : nat) (s : nat -> arr) (i q : nat) : list R := map (fun v => s i (v * m_row_size m ^ m_dim m + q)%nat) (seq 0 n).
Theorem integral_change : forall fuel m n before after r0 r1 v, (0 < m_row_size m)%nat -> (m_dim m <= fuel)%nat -> (v < n)%nat ->
  (forall i q, In i (elems m) -> (q < m_row_size m ^ m_dim m)%nat -> e_tss (m_elem m i) q = 1) ->
  integral_field fuel m n (state_at m n before) = Ok r0 -> integral_field fuel m n (state_at m n after) = Ok r1 ->
  nth v r1 0 - nth v r0 0 = change m before after v.
Proof. exact change_main. Qed.
Print Assumptions integral_change.

(** In particular, the first stage of the convective update changes the integral of a conserved variable by the time step times the flux
    through the boundary. *)
Theorem integral_conserved : forall fuel m size positive ghosts node w ratio eq dt use_filter x r0 r1 n v,
  fits m size positive ghosts -> m_basis m = basis_on (m_row_size m) node w ratio -> as_lobatto (m_row_size m) node w -> symmetric (m_row_size m) w ->
  additive eq -> has_convection eq = true -> has_diffusion eq = false -> has_source eq = false -> (v < n_update eq <= n_extrap eq)%nat -> (m_dim m <= fuel)%nat -> (v < n)%nat ->
  (forall i q, In i (elems m) -> (q < m_row_size m ^ m_dim m)%nat -> e_tss (m_elem m i) q = 1) ->
  let x' := compute_convection m eq dt false false use_filter x in
  integral_field fuel m n (state_at m n (d_state x)) = Ok r0 -> integral_field fuel m n (state_at m n (d_state x')) = Ok r1 ->
  nth v r1 0 = nth v r0 0 + dt * through m size positive ghosts (d_st x') v.
Proof.
  intros fuel m size positive ghosts node w ratio eq dt uf x r0 r1 n v F B LB SY A HC HD NS V FU VN TS x' E0 E1.
  destruct (spatial_convection m size positive ghosts node w ratio eq dt uf x v F B LB SY A HC HD NS V) as (T & _).
  pose proof (integral_change fuel m n _ _ r0 r1 v ltac:(pose proof (fit_rows _ _ _ _ F); lia) FU VN TS E0 E1) as C. fold x' in T. rewrite T in C. lra.
Qed.
Print Assumptions integral_conserved.

(** [integral_surface]: only connections with the boundary condition asked for count, each with the quadrature over its face of the integrand times
    the length of the normal. *)
Theorem integral_surface_sum : forall fuel m l n_int f sn, (0 < m_row_size m)%nat -> (1 <= m_dim m)%nat -> (m_dim m <= fuel)%nat ->
  (forall c q, In c l -> bd_sn c = sn -> (q < m_row_size m ^ (m_dim m - 1))%nat -> length (f c q) = n_int) ->
  exists r, integral_surface fuel m l n_int f sn = Ok r /\ length r = n_int /\ forall v, (v < n_int)%nat ->
    nth v r 0 = lsum (fun c => e_size (m_elem m (bd_elem c)) ^ (m_dim m - 1) * rsum (m_row_size m ^ (m_dim m - 1)) (fun q =>
        outer_power (m_row_size m) (b_weight (m_basis m)) (m_dim m - 1) q * nth v (f c q) 0 * sqrt (rsum (m_dim m) (fun j => c_normal (bd_con c) (j * m_row_size m ^ (m_dim m - 1) + q)%nat ^ 2))))
      (filter (fun c => (bd_sn c =? sn)%nat) l).
Proof. exact surface_total. Qed.
Print Assumptions integral_surface_sum.

(** In two dimensions the integral of one over a boundary is the length of the edges of the elements there. *)
Theorem integral_length : forall m pos size positive ghosts conf hang bcs st node w ratio v fuel l sn, let m' := fst (calc_jacobian m pos hang bcs st) in
  fits m' size positive ghosts -> arranged m ghosts conf hang bcs -> m_basis m = basis_on (m_row_size m) node w ratio -> as_legendre (m_row_size m) node w -> mirrored (m_row_size m) node ->
  m_dim m = 2%nat -> by_vertices m node pos v conf hang -> (forall i, In i (elems m) -> 0 < e_size (m_elem m i)) -> (2 <= fuel)%nat ->
  (forall c, In c l -> In (bd_con c) (def_cons m') /\ is_face m (bd_elem c) (i_face (c_dir (bd_con c)) false) (c_face (bd_con c) false)) ->
  integral_surface fuel m' l 1 (fun _ _ => [1]) sn = Ok [lsum (fun c => edge_length (v (bd_elem c)) (i_face (c_dir (bd_con c)) false)) (filter (fun c => (bd_sn c =? sn)%nat) l)].
Proof. intros. eapply length_main; eassumption. Qed.
Print Assumptions integral_length.

(** ** three deformed elements with a hanging node, which fill a rectangle *)
Lemma ex_corners : by_corners ex_bent Quad_Thm.gauss_node ex_pos ex_vert.
Proof. split; [reflexivity|]. intros i I D. discriminate. Qed.
Lemma ex_sizes i : In i (elems ex_bent) -> 0 < e_size (m_elem ex_bent i).
Proof. intros I. cbn. destruct (i =? 0)%nat; lra. Qed.
Definition ex_after_mesh : mesh := fst (calc_jacobian ex_bent ex_pos ex_hang ex_bcs (fun _ _ => 0)).
Example integral_rectangle : integral_field 2 ex_after_mesh 1 (fun _ _ => [1]) = Ok [2].
Proof.
  unfold ex_after_mesh. rewrite (integral_area ex_bent ex_pos ex_hang ex_bcs (fun _ _ => 0) Quad_Thm.gauss_node Quad_Thm.gauss_weight (1 / 2) ex_vert 2 eq_refl (le_n 2) eq_refl ex_legendre ex_corners); [|intros i I; apply Rgt_not_eq, ex_sizes, I|lia].
  f_equal. f_equal. cbn. unfold shoelace. cbn. field.
Qed.
(** The upper boundary has number 1. *)
Definition ex_bound (k i : nat) : bound := {| bd_con := nth k (def_cons ex_after_mesh) (ex_def 0 0 0 false); bd_sn := if ((k =? 5) || (k =? 9))%nat%bool then 1 else 0; bd_elem := i |}.
Example integral_top : integral_surface 2 ex_after_mesh [ex_bound 3 0; ex_bound 4 0; ex_bound 5 0; ex_bound 6 1; ex_bound 7 1; ex_bound 8 2; ex_bound 9 2] 1 (fun _ _ => [1]) 1 = Ok [2].
Proof.
  unfold ex_after_mesh at 1. rewrite (integral_length ex_bent ex_pos _ _ _ ex_conf ex_hang ex_bcs (fun _ _ => 0) Quad_Thm.gauss_node Quad_Thm.gauss_weight (1 / 2) ex_vert 2 _ 1 jac_fits jac_arranged eq_refl ex_legendre ex_mirrored eq_refl jac_by_vertices ex_sizes (le_n 2)).
  - f_equal. f_equal. cbn. unfold edge_length. cbn.
    replace ((6 / 5 - 0) * ((6 / 5 - 0) * 1) + (1 - 1) * ((1 - 1) * 1)) with ((6 / 5) ^ 2) by field. replace ((2 - 6 / 5) * ((2 - 6 / 5) * 1) + (1 - 1) * ((1 - 1) * 1)) with ((4 / 5) ^ 2) by field. rewrite !sqrt_pow2 by lra. field.
  - intros c C. split; [|cbn in C; repeat (destruct C as [<-|C]; [split; [cbn; tauto|split; [cbn; lia|reflexivity]]|]); destruct C].
    cbn [In] in C. repeat (destruct C as [<-|C]; [apply nth_In; cbn; lia|]). destruct C.
Qed.
