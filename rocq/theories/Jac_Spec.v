(** What the normals of a mesh must satisfy, and elements that are determined by their vertices. *)
From Coq Require Import Reals List Arith ZArith Permutation.
From Verif Require Import Outcome RSum Tensor_Spec Quad_Model Basis_Spec Connection_Model Connection_Spec Spatial_Model Spatial_Spec Free_Spec Jac_Model.
Import ListNotations.
Local Open Scope R_scope.

Definition is_face (m : mesh) (i f id : nat) : Prop := In i (elems m) /\ (f < 2 * m_dim m)%nat /\ e_face (m_elem m i) f = id.
(** The deformed connections are those between two elements, those of fine elements with mortar faces, and those with the boundary;
    Cartesian ones join faces of elements and mortar faces. *)
Record arranged (m : mesh) (ghosts : list nat) (conf hang bcs : list con) : Prop := {
  ar_split : Permutation (def_cons m) (conf ++ hang ++ bcs);
  ar_car : forall c, In c (car_cons m) -> c_deformed c = false /\ forall side, In (c_face c side) (inner_faces m) \/ In (c_face c side) (all_mortars m);
  ar_def : forall c, In c (def_cons m) -> c_deformed c = true;
  ar_conf : forall c side, In c conf -> In (c_face c side) (inner_faces m);
  ar_hang : forall c, In c hang -> In (c_face c false) (all_mortars m) /\ In (c_face c true) (inner_faces m);
  ar_bcs : forall c, In c bcs -> In (c_face c false) (inner_faces m) /\ In (c_face c true) ghosts /\ dim1 (c_dir c) = dim0 (c_dir c) /\ sign1 (c_dir c) = negb (sign0 (c_dir c)) }.
(** The normals that elements give to their faces agree: on both sides of a connection, of a fine element with what the coarse
    element has on the mortar face, and with the axis of a Cartesian connection. *)
Definition of_coarse (m : mesh) (a : arr) (str : nat -> bool) (k j q : nat) : R :=
  face_dims (m_dim m) (m_row_size m) str (fun x => x * 2) (b_prolong (m_basis m)) k (var_of (m_row_size m ^ (m_dim m - 1)) j a) q.
Record agreeing (m : mesh) (pos : nat -> nat -> arr) (conf hang : list con) : Prop := {
  ag_conf : forall c i0 f0 i1 f1 j q, In c conf -> is_face m i0 f0 (c_face c false) -> is_face m i1 f1 (c_face c true) -> (j < m_dim m)%nat -> (q < m_row_size m ^ (m_dim m - 1))%nat ->
    flip_sign (c_dir c) false * own_normal (m_dim m) (m_row_size m) (m_basis m) (m_elem m i0) (pos i0) f0 (j * m_row_size m ^ (m_dim m - 1) + q)%nat
    = flip_sign (c_dir c) true * fp_match (m_dim m) (m_row_size m) (m_dim m) (c_dir c) (own_normal (m_dim m) (m_row_size m) (m_basis m) (m_elem m i1) (pos i1) f1) (j * m_row_size m ^ (m_dim m - 1) + q)%nat;
  ag_hang : forall c r k i0 f0 i1 f1 j q, In c hang -> In r (ref_faces m) -> (k < n_fine (m_dim m) (r_stretch r))%nat -> c_face c false = r_fine r k ->
    is_face m i0 f0 (r_coarse r) -> is_face m i1 f1 (c_face c true) -> (j < m_dim m)%nat -> (q < m_row_size m ^ (m_dim m - 1))%nat ->
    flip_sign (c_dir c) false * of_coarse m (own_normal (m_dim m) (m_row_size m) (m_basis m) (m_elem m i0) (pos i0) f0) (r_stretch r) k j q
    = flip_sign (c_dir c) true * fp_match (m_dim m) (m_row_size m) (m_dim m) (c_dir c) (own_normal (m_dim m) (m_row_size m) (m_basis m) (m_elem m i1) (pos i1) f1) (j * m_row_size m ^ (m_dim m - 1) + q)%nat;
  ag_car : forall c side i f j q, In c (car_cons m) -> is_face m i f (c_face c side) -> (j < m_dim m)%nat -> (q < m_row_size m ^ (m_dim m - 1))%nat ->
    own_normal (m_dim m) (m_row_size m) (m_basis m) (m_elem m i) (pos i) f (j * m_row_size m ^ (m_dim m - 1) + q)%nat = if (j =? dim0 (c_dir c))%nat then 1 else 0;
  ag_mortar : forall c side r k i f j q, In c (car_cons m) -> In r (ref_faces m) -> (k < n_fine (m_dim m) (r_stretch r))%nat -> c_face c side = r_fine r k -> is_face m i f (r_coarse r) -> (j < m_dim m)%nat -> (q < m_row_size m ^ (m_dim m - 1))%nat ->
    of_coarse m (own_normal (m_dim m) (m_row_size m) (m_basis m) (m_elem m i) (pos i) f) (r_stretch r) k j q = if (j =? dim0 (c_dir c))%nat then 1 else 0 }.

(** ** elements that are determined by their vertices *)
Definition mirrored (rs : nat) (node : nat -> R) : Prop := forall i, (i < rs)%nat -> node (rs - 1 - i)%nat = 1 - node i.
(** the vertices of two elements that meet in a face, in the orientation of doc/mesh_io.dox, are at the same place *)
Definition meet (nd : nat) (d : direction) (v0 v1 : nat -> arr) : Prop :=
  forall u0 u1 r, on_face nd (dim0 d) (sign0 d) u0 -> on_face nd (dim1 d) (sign1 d) u1 -> glued nd 1 d (coords 2 nd u0) (coords 2 nd u1) -> (r < nd)%nat -> v0 r u0 = v1 r u1.
(** the vertices of the part of an element next to mortar face [k] of a face normal to [a]: half of the element in every other
    dimension that is not stretched *)
Definition part (nd a : nat) (str : nat -> bool) (k : nat) (v : nat -> arr) (r u : nat) : R :=
  multilinear nd (v r) (fun l => let l' := if (l <? a)%nat then l else (l - 1)%nat in
    if ((l =? a)%nat || str l')%bool then INR (coords 2 nd u l) else (INR (fine_pos (map str (seq 0 (nd - 1))) k l') + INR (coords 2 nd u l)) / 2).
Record by_vertices (m : mesh) (node : nat -> R) (pos : nat -> nat -> arr) (v : nat -> nat -> arr) (conf hang : list con) : Prop := {
  (** no vertex has been snapped to a surface *)
  vt_pos : forall i r q, In i (elems m) -> e_deformed (m_elem m i) = true -> (r < m_dim m)%nat -> (q < m_row_size m ^ m_dim m)%nat ->
    pos i r q = position (m_dim m) (m_row_size m) node (v i r) (fun _ => 0) q;
  vt_car : forall i, In i (elems m) -> e_deformed (m_elem m i) = false -> exists x, forall r u, (r < m_dim m)%nat -> (u < 2 ^ m_dim m)%nat -> v i r u = x r + e_size (m_elem m i) * INR (coords 2 (m_dim m) u r);
  vt_conf : forall c i0 f0 i1 f1, In c conf -> is_face m i0 f0 (c_face c false) -> is_face m i1 f1 (c_face c true) ->
    allowed (m_dim m) (c_dir c) /\ f0 = i_face (c_dir c) false /\ f1 = i_face (c_dir c) true /\ meet (m_dim m) (c_dir c) (v i0) (v i1);
  vt_hang : forall c r k i0 f0 i1 f1, In c hang -> In r (ref_faces m) -> (k < n_fine (m_dim m) (r_stretch r))%nat -> c_face c false = r_fine r k ->
    is_face m i0 f0 (r_coarse r) -> is_face m i1 f1 (c_face c true) ->
    allowed (m_dim m) (c_dir c) /\ f0 = i_face (c_dir c) false /\ f1 = i_face (c_dir c) true /\ meet (m_dim m) (c_dir c) (part (m_dim m) (dim0 (c_dir c)) (r_stretch r) k (v i0)) (v i1);
  (** Cartesian connections *)
  vt_flat : forall c side i f, In c (car_cons m) -> is_face m i f (c_face c side) -> e_deformed (m_elem m i) = false /\ (f / 2)%nat = dim0 (c_dir c);
  vt_mortar : forall c side r k i f, In c (car_cons m) -> In r (ref_faces m) -> (k < n_fine (m_dim m) (r_stretch r))%nat -> c_face c side = r_fine r k -> is_face m i f (r_coarse r) ->
    e_deformed (m_elem m i) = false /\ (f / 2)%nat = dim0 (c_dir c) /\ forall l, (l < m_dim m - 1)%nat -> r_stretch r l = false }.

(** ** snapped faces *)
(** The end of the third dimension of a three-dimensional element is displaced and nothing else is, as on the wall of an extruded mesh.
    The displacement is a polynomial with [n] coefficients in the first coordinate. *)
Definition bent (rs : nat) (node : nat -> R) (n : nat) (c : nat -> R) (k : nat) : R :=
  let nfq := (rs ^ 2)%nat in if (k / nfq =? 5)%nat then polynomial n c (node (k mod nfq / rs)%nat) else 0.
(** It vanishes at the vertices, which are on the surface already, and is too small to be discarded as a problem. *)
Definition slope (n : nat) (c : nat -> R) (x : R) : R := rsum n (fun k => INR k * c k * x ^ (k - 1)).
Definition gentle (n : nat) (c : nat -> R) : Prop :=
  polynomial n c 0 = 0 /\ polynomial n c 1 = 0 /\ forall x, 0 <= x <= 1 -> Rabs (polynomial n c x) < 999 / 1000 /\ Rabs (slope n c x) <= 1.
