(** Uniform flow: what it means for a PDE to carry a uniform state, for data to be uniform and for the normals of a mesh to close. *)
From Coq Require Import Reals List Arith.
From Verif Require Import RSum Tensor_Spec Quad_Model Connection_Model Spatial_Model Spatial_Spec.
Import ListNotations.
Local Open Scope R_scope.

Definition agrees (n : nat) (s u : nat -> R) : Prop := forall v, (v < n)%nat -> s v = u v.
(** the array holds the values [u] of [n] variables in each of [n_point] points *)
Definition filled (n n_point : nat) (u : nat -> R) (a : arr) : Prop := forall v q, (v < n)%nat -> (q < n_point)%nat -> a (v * n_point + q)%nat = u v.

(** In state [u], of [n] variables, the PDE has the flux [f j] of its variables in direction [j]: the flux through a surface is
    linear in the normal, in elements as on faces. [ue] is what is extrapolated. The speed of the upwinding is left free. *)
Record carried (nd : nat) (eq : pde) (n : nat) (u ue : nat -> R) (f : nat -> nat -> R) : Prop := {
  ca_size : (n_update eq <= n_extrap eq)%nat;
  ca_extrap : forall s, agrees n s u -> agrees (n_extrap eq) (fetch_extrap eq s) ue;
  ca_flux : forall s normal v d, agrees n s u -> (v < n_update eq)%nat -> (d < nd)%nat -> flux_conv eq s normal v d = rsum nd (fun j => normal j d * f j v);
  ca_face : forall s normal v, agrees (n_extrap eq) s ue -> (v < n_update eq)%nat -> face_flux eq s normal v = rsum nd (fun j => normal j * f j v);
  ca_update : forall s v, agrees (n_extrap eq) s ue -> (v < n_update eq)%nat -> face_update_state eq s v = face_update_state eq ue v }.

(** quadrature point [q] moved to node [i] of dimension [d], and the point of the faces normal to [d] in line with it *)
Definition along (nd rs d q i : nat) : nat := let s := (rs ^ (nd - 1 - d))%nat in (q / (s * rs) * s * rs + q mod s + i * s)%nat.
Definition foot (nd rs d q : nat) : nat := let s := (rs ^ (nd - 1 - d))%nat in (q / (s * rs) * s + q mod s)%nat.
(** the normals inside an element, and those [fn] of its faces, all counted in the positive direction: the discrete divergence
    of each component is zero in each point *)
Definition closed_element (nd rs : nat) (b : basis) (e : elem) (fn : nat -> arr) : Prop :=
  forall j q, (j < nd)%nat -> (q < rs ^ nd)%nat ->
  rsum nd (fun d => derivative rs (b_diff b) (b_boundary b) (b_weight b)
    (fun i => local_normal nd rs e (along nd rs d q i) j d) (fun s => fn (2 * d + s)%nat (j * rs ^ (nd - 1) + foot nd rs d q)%nat) (digit rs nd d q)) = 0.
(** [fn] gives to every face the normal with which fluxes are computed there: from the connection, with the sign of the side and
    in the order of the points of the side, or from the mortar faces *)
Record closed (m : mesh) (fn : nat -> arr) : Prop := {
  cl_elem : forall i, In i (elems m) -> closed_element (m_dim m) (m_row_size m) (m_basis m) (m_elem m i) (fun k => fn (e_face (m_elem m i) k));
  cl_con0 : forall c j q, In c (cons m) -> (j < m_dim m)%nat -> (q < m_row_size m ^ (m_dim m - 1))%nat ->
    fn (c_face c false) (j * m_row_size m ^ (m_dim m - 1) + q)%nat = side_sign c false * con_normal (m_dim m) (m_row_size m ^ (m_dim m - 1)) c q j;
  cl_con1 : forall c j q, In c (cons m) -> (j < m_dim m)%nat -> (q < m_row_size m ^ (m_dim m - 1))%nat ->
    (if c_deformed c then fp_match (m_dim m) (m_row_size m) (m_dim m) (c_dir c) (fn (c_face c true)) else fn (c_face c true)) (j * m_row_size m ^ (m_dim m - 1) + q)%nat
    = side_sign c true * con_normal (m_dim m) (m_row_size m ^ (m_dim m - 1)) c q j;
  cl_refined : forall r j q, In r (ref_faces m) -> (j < m_dim m)%nat -> (q < m_row_size m ^ (m_dim m - 1))%nat ->
    fn (r_coarse r) (j * m_row_size m ^ (m_dim m - 1) + q)%nat =
    rsum (n_fine (m_dim m) (r_stretch r)) (fun k => face_dims (m_dim m) (m_row_size m) (r_stretch r) (fun x => x / 2) (b_restrict (m_basis m)) k
      (var_of (m_row_size m ^ (m_dim m - 1)) j (fn (r_fine r k))) q) }.
(** uniform data: in every element, and on every side of a connection what the kernels need to begin *)
Record uniform (m : mesh) (eq : pde) (n : nat) (u ue : nat -> R) (x : data) : Prop := {
  un_state : forall i, In i (elems m) -> filled n (m_row_size m ^ m_dim m) u (d_state x i);
  un_sides : forall id, In id (side_faces (cons m)) -> filled (n_extrap eq) (m_row_size m ^ (m_dim m - 1)) ue (d_st x id) }.
(** A Cartesian mesh: each face has an axis, [axis]; the elements and connections are not deformed and refined faces not stretched *)
Record cartesian (m : mesh) (axis : nat -> nat) : Prop := {
  ct_elem : forall i k, In i (elems m) -> (k < 2 * m_dim m)%nat -> e_deformed (m_elem m i) = false /\ axis (e_face (m_elem m i) k) = (k / 2)%nat;
  ct_con : forall c side, In c (cons m) -> c_deformed c = false /\ axis (c_face c side) = dim0 (c_dir c);
  ct_refined : forall r, In r (ref_faces m) -> (forall i, r_stretch r i = false) /\ forall k, (k < n_fine (m_dim m) (r_stretch r))%nat -> axis (r_fine r k) = axis (r_coarse r) }.
